(** ssq_stft of several tones. *)
From Coq Require Import Reals Lra ZifyBool ZifyNat.
From Verif Require Import Py Padding Parallel Cplx Freqs Stft Squeeze SqueezeProofs Scales Ssqueeze SsqueezeProofs StftTone StftToneThms StftToneWitness StftMap StftChord StftChordThms.
Local Open Scope R_scope.

(** * C146: ssq_stft takes a chord apart and issq_stft returns each tone *)

(** [stft_chord_run]: the signal is a sum of [M] tones centred on bins [m r], their window lobes of half-width [b] sharing no bin; even [n_fft]; squeezing 'sum'; [gamma] below every nonzero coefficient.  [clean]: slices inside the signal, or all of them when padtype='wrap' and [n_fft] divides the length *)

(** one row per tone, at the tone's frequency; the other rows are empty.  Missing: lobes sharing a bin, where it fails *)
Theorem C146_rows_partial : forall ord M A phi m x a fs t s rate n w b g, stft_chord_run ord M A phi m x a fs t s rate n w b g ->
  let row r := (if s_flip s then n / 2 - m r else m r)%nat in
  exists Tx Sx f, ssq_stft ord x a fs t s = Ok (Tx, Sx, f, make_Sfs (n / 2 + 1) rate) /\
  nrows Tx = (n / 2 + 1)%nat /\ Z.of_nat (ncols Tx) = ((Z.of_nat (length x) - 1) / a_hop a + 1)%Z /\
  (forall r, (r < M)%nat -> nth (row r) f 0 = INR (m r) * rate / INR n) /\
  forall h, (h < ncols Tx)%nat -> clean x a n h ->
    (forall r, (r < M)%nat -> el Tx (row r) h = Cmul (RtoC (rate * nth (n / 2) w 0 * (A r / 2))) (bin_phase (phi r) (m r) n (Z.to_nat (a_hop a) * h))) /\
    (forall q, (q <= n / 2)%nat -> (forall r, (r < M)%nat -> q <> row r) -> el Tx q h = C0).
Proof. intros ord M A phi m x a fs t s rate n w b g H. exact (chord_ssq ord M A phi m x a fs t s rate n w b g H). Qed.
Print Assumptions C146_rows_partial.

(** curves that follow the rows, bands that hold one each: the tones, times [fs], and nothing left over *)
Theorem C146_each_partial : forall ord M A phi m x a fs t s rate n w b g, stft_chord_run ord M A phi m x a fs t s rate n w b g ->
  let row r := (if s_flip s then n / 2 - m r else m r)%nat in
  forall nf wl f32 cc cw, a_hop a = 1%Z -> nth (n / 2) w 0 <> 0 -> (0 < M)%nat ->
  or_default nf (2 * Z.of_nat (n / 2))%Z = Z.of_nat n -> get_window (a_window a) (or_default wl (Z.of_nat n)) (Z.of_nat n) = Ok w ->
  nrows cc = length x -> ncols cc = M -> nrows cw = length x -> ncols cw = M ->
  (forall j r, (j < length x)%nat -> (r < M)%nat -> (0 <= el cc j r)%Z /\ (Z.abs (el cc j r - Z.of_nat (row r)) <= el cw j r)%Z) ->
  (forall j r r', (j < length x)%nat -> (r < M)%nat -> (r' < M)%nat -> r' <> r -> (el cw j r < Z.abs (el cc j r - Z.of_nat (row r')))%Z) ->
  exists Tx Sx f xs, ssq_stft ord x a fs t s = Ok (Tx, Sx, f, make_Sfs (n / 2 + 1) rate) /\
    issq_stft Tx (a_window a) (Some (cc, cw)) nf wl 1 true f32 = Ok (Many xs) /\ length xs = S M /\
    forall j, (j < length x)%nat -> clean x a n j ->
      (forall r, (r < M)%nat -> nth j (nth r xs []) 0 = rate * (A r * cos (2 * PI * INR (m r) * INR j / INR n + phi r))) /\ nth j (nth M xs []) 0 = 0.
Proof. intros ord M A phi m x a fs t s rate n w b g H row nf wl f32 cc cw. exact (chord_issq ord M A phi m x a fs t s rate n w b g H nf wl f32 cc cw). Qed.
Print Assumptions C146_each_partial.

Theorem C146_all_partial : forall ord M A phi m x a fs t s rate n w b g, stft_chord_run ord M A phi m x a fs t s rate n w b g ->
  let row r := (if s_flip s then n / 2 - m r else m r)%nat in
  forall nf wl f32, a_hop a = 1%Z -> nth (n / 2) w 0 <> 0 ->
  or_default nf (2 * Z.of_nat (n / 2))%Z = Z.of_nat n -> get_window (a_window a) (or_default wl (Z.of_nat n)) (Z.of_nat n) = Ok w ->
  exists Tx Sx f y, ssq_stft ord x a fs t s = Ok (Tx, Sx, f, make_Sfs (n / 2 + 1) rate) /\
    issq_stft Tx (a_window a) None nf wl 1 true f32 = Ok (One y) /\ length y = length x /\
    forall j, (j < length x)%nat -> clean x a n j -> nth j y 0 = rate * nth j x 0.
Proof. intros ord M A phi m x a fs t s rate n w b g H row nf wl f32. exact (chord_issq_all ord M A phi m x a fs t s rate n w b g H nf wl f32). Qed.
Print Assumptions C146_all_partial.

(** which Hann-windowed chords are such runs: tones at least three bins from each other and two from 0 and [n_fft / 2] *)
Theorem C146_hann_partial ord M A phi m N n fs t s rate g pt f32 a0 : pt <> PSymmetric -> valid_order ord -> (1 <= N)%nat ->
  process_fs_and_t fs t N = Ok rate -> EPS64 <= rate / INR n -> Nat.even n = true -> (4 <= n)%nat -> (Z.of_nat n < 2 ^ 62)%Z ->
  bins_apart M m n 1 -> s_freqs s = None -> s_sq s = SqSum -> s_gamma s = Some g -> 0 < g -> (forall r, (r < M)%nat -> g < Rabs (A r) * INR n / 8) ->
  stft_chord_run ord M A phi m (bin_chord M A phi m n N) (SA a0 (WArray (hann n)) (Some (Z.of_nat n)) None 1 true pt f32) fs t s rate n (hann n) 1 g.
Proof. exact (hann_chord_run ord M A phi m N n fs t s rate g pt f32 a0). Qed.
Print Assumptions C146_hann_partial.

Example C146_case ord gw : valid_order ord -> exists Tx Sx f xs,
  ssq_stft ord duet (SA 1 (WArray (hann 24)) (Some 24%Z) None 1 true PReflect false) (Some 24) None (SS None SqSum (Some (1 / 100)) true gw true) = Ok (Tx, Sx, f, make_Sfs 13 24) /\
  issq_stft Tx (WArray (hann 24)) (Some (Mat 40 2 (fun _ r => if (r =? 0)%nat then 9%Z else 4%Z), Mat 40 2 (fun _ _ => 1%Z))) None (Some 24%Z) 1 true false = Ok (Many xs) /\
  length xs = 3%nat /\
  forall j, (12 <= j <= 28)%nat -> nth j (nth 0 xs []) 0 = 24 * cos (PI * INR j / 4) /\ nth j (nth 1 xs []) 0 = 48 * cos (2 * PI * INR j / 3 + 1 / 2) /\ nth j (nth 2 xs []) 0 = 0.
Proof. exact (duet_apart ord gw). Qed.

(** two bins apart *)

Theorem C146_shared_refuted : exists A phi m x a s n Tx Sx f h, x = bin_chord 2 A phi m n (length x) /\ (forall r, (r < 2)%nat -> (1 < m r)%nat /\ (2 * m r + 2 < n)%nat) /\ m 0%nat <> m 1%nat /\
  a_window a = WArray (hann n) /\ ssq_stft serial_order x a (Some 1) None s = Ok (Tx, Sx, f, make_Sfs (n / 2 + 1) 1) /\
  s_flip s = false /\ interior n (length x) 1 h /\ (h < ncols Tx)%nat /\
  el Tx (m 0%nat) h = Cmul (RtoC (3 / 4 * (A 0%nat / 2))) (bin_phase (phi 0%nat) (m 0%nat) n h) /\
  el Tx (m 0%nat) h <> Cmul (RtoC (A 0%nat / 2)) (bin_phase (phi 0%nat) (m 0%nat) n h).
Proof. exact shared_bin_refuted. Qed.
Print Assumptions C146_shared_refuted.
