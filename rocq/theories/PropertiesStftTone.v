(** C115, C116: the short-time transform, [phase_stft] and [ssq_stft] of a tone in the middle of a bin. *)
From Coq Require Import Reals Lra Lia List ZArith.
Import ListNotations.
From Verif Require Import Py Round Padding Parallel Cplx CplxProofs Buffer Freqs Stft StftProofs WindowProofs
  Squeeze SqueezeProofs SqueezeThms SqueezeThms2 SqueezeThms3 Scales Ssqueeze SsqueezeProofs CwtTone IssqProofs
  StftTone StftToneThms StftToneWitness.
Local Open Scope R_scope.

(** * C115: a tone in a bin is found at its frequency and nowhere else *)
(** the phase transform, at every coefficient that is not zero of every frame inside the signal *)
Theorem C115_phase ord x a fs t s rate n w A phi m b g :
  stft_tone_run ord x a fs t s rate n w A phi m b g ->
  let hop := Z.to_nat (a_hop a) in
  exists Sx dSx,
    stft x (SA rate (a_window a) (a_n_fft a) (a_win_len a) (a_hop a) (a_modulated a) (a_padtype a) (a_f32 a)) = Ok (Sx, dSx) /\
    nrows Sx = (n / 2 + 1)%nat /\ Z.of_nat (ncols Sx) = ((Z.of_nat (length x) - 1) / a_hop a + 1)%Z /\
    forall h k, (h < ncols Sx)%nat -> interior n (length x) hop h -> (k <= n / 2)%nat ->
      el Sx k h = Cmul (Cmul (RtoC (A / 2)) (bin_phase phi m n (hop * h))) (wspec n w (Z.of_nat k - Z.of_nat m)) /\
      (el Sx k h <> C0 ->
       phase_stft_pt (nth k (make_Sfs (n / 2 + 1) rate) 0) (el Sx k h) (el dSx k h) = INR m * (rate / INR n)).
Proof. exact (tone_phase ord x a fs t s rate n w A phi m b g). Qed.
Print Assumptions C115_phase.

(** [ssq_stft]: one row, labelled with the tone's frequency *)
Theorem C115_one_row ord x a fs t s rate n w A phi m b g :
  stft_tone_run ord x a fs t s rate n w A phi m b g ->
  let hop := Z.to_nat (a_hop a) in
  let row := (if s_flip s then n / 2 - m else m)%nat in
  exists Tx Sx f,
    ssq_stft ord x a fs t s = Ok (Tx, Sx, f, make_Sfs (n / 2 + 1) rate) /\
    nrows Tx = (n / 2 + 1)%nat /\ Z.of_nat (ncols Tx) = ((Z.of_nat (length x) - 1) / a_hop a + 1)%Z /\
    length f = (n / 2 + 1)%nat /\ nth row f 0 = INR m * rate / INR n /\
    forall h q, (h < ncols Tx)%nat -> interior n (length x) hop h -> (q <= n / 2)%nat ->
      el Tx q h =
      if (q =? row)%nat
      then Cmul (Cmul (RtoC (A / 2 * (rate / INR n))) (bin_phase phi m n (hop * h)))
             (Csum (n / 2 + 1) (fun k => let H := wspec n w (Z.of_nat k - Z.of_nat m) in
                if kept (s_get_w s) g (Rabs (A / 2) * Cabs H) then H else C0))
      else C0.
Proof. exact (tone_ssq_stft ord x a fs t s rate n w A phi m b g). Qed.
Print Assumptions C115_one_row.

(** with nothing under the threshold: half the analytic signal, times the rate and the centre of the window *)
Theorem C115_value ord x a fs t s rate n w A phi m b g :
  stft_tone_run ord x a fs t s rate n w A phi m b g ->
  (forall q, wspec n w q <> C0 -> g < Rabs (A / 2) * Cabs (wspec n w q)) ->
  let hop := Z.to_nat (a_hop a) in
  let row := (if s_flip s then n / 2 - m else m)%nat in
  exists Tx Sx f, ssq_stft ord x a fs t s = Ok (Tx, Sx, f, make_Sfs (n / 2 + 1) rate) /\
    nrows Tx = (n / 2 + 1)%nat /\ nth row f 0 = INR m * rate / INR n /\
    forall h q, (h < ncols Tx)%nat -> interior n (length x) hop h -> (q <= n / 2)%nat ->
      el Tx q h = if (q =? row)%nat
                  then Cmul (RtoC (rate * nth (n / 2) w 0 * (A / 2))) (bin_phase phi m n (hop * h)) else C0.
Proof. exact (tone_ssq_full ord x a fs t s rate n w A phi m b g). Qed.
Print Assumptions C115_value.

(** and [issq_stft] gives the tone back, times the rate *)
Theorem C115_inverse ord x a fs t s rate n w A phi m b g nf wl f32 :
  stft_tone_run ord x a fs t s rate n w A phi m b g ->
  a_hop a = 1%Z -> nth (n / 2) w 0 <> 0 ->
  or_default nf (2 * Z.of_nat (n / 2))%Z = Z.of_nat n ->
  get_window (a_window a) (or_default wl (Z.of_nat n)) (Z.of_nat n) = Ok w ->
  (forall q, wspec n w q <> C0 -> g < Rabs (A / 2) * Cabs (wspec n w q)) ->
  exists Tx Sx f y, ssq_stft ord x a fs t s = Ok (Tx, Sx, f, make_Sfs (n / 2 + 1) rate) /\
    issq_stft Tx (a_window a) None nf wl 1 true f32 = Ok (One y) /\ length y = length x /\
    forall j, (n / 2 <= j)%nat -> (j + n <= n / 2 + length x)%nat -> nth j y 0 = rate * nth j x 0.
Proof. intros H. exact (tone_issq_stft ord x a fs t s rate n w A phi m b g H nf wl f32). Qed.
Print Assumptions C115_inverse.

(** the Hann window qualifies, at any even length and bin from the second to the last but two *)
Theorem C115_hann ord fs t s rate N n A phi m g hop f32 a0 : valid_order ord -> (1 <= N)%nat ->
  process_fs_and_t fs t N = Ok rate -> EPS64 <= rate / INR n ->
  Nat.even n = true -> (Z.of_nat n < 2 ^ 62)%Z -> (1 <= hop)%Z -> (f32 = true -> (hop <= Z.of_nat n)%Z) ->
  (2 <= m)%nat -> (2 * m + 2 < n)%nat -> s_freqs s = None -> s_sq s = SqSum -> s_gamma s = Some g ->
  0 < g < Rabs A * INR n / 8 ->
  exists Tx Sx f, ssq_stft ord (bin_tone A phi m n N)
      (SA a0 (WArray (hann n)) (Some (Z.of_nat n)) None hop true PReflect f32) fs t s = Ok (Tx, Sx, f, make_Sfs (n / 2 + 1) rate) /\
    nrows Tx = (n / 2 + 1)%nat /\
    let row := (if s_flip s then n / 2 - m else m)%nat in nth row f 0 = INR m * rate / INR n /\
    forall h q, (h < ncols Tx)%nat -> interior n N (Z.to_nat hop) h -> (q <= n / 2)%nat ->
      el Tx q h = if (q =? row)%nat
                  then Cmul (RtoC (rate * (A / 2))) (bin_phase phi m n (Z.to_nat hop * h)) else C0.
Proof. exact (hann_tone ord fs t s rate N n A phi m g hop f32 a0). Qed.
Print Assumptions C115_hann.

(** a tone in bin 2 of 8, sampled 16 times at 2 Hz *)
Example C115_case ord gw : valid_order ord -> exists Tx Sx f,
  ssq_stft ord (bin_tone 1 0 2 8 16) (SA 1 (WArray (hann 8)) (Some 8%Z) None 1 true PReflect false)
    (Some 2) None (SS None SqSum (Some (1 / 100)) false gw true) = Ok (Tx, Sx, f, make_Sfs 5 2) /\
  nth 2 f 0 = 1 / 2 /\
  forall h q, (4 <= h <= 12)%nat -> (q <= 4)%nat -> (h < ncols Tx)%nat ->
    el Tx q h = if (q =? 2)%nat then cis (PI * INR h / 2) else C0.
Proof. exact (hann_case ord gw). Qed.

(** * C116: odd [n_fft] *)
(** with an odd [n_fft] the phase transform is too high by [k fs / (n (n - 1))] in row [k] *)
Theorem C116_odd_partial x a n w A phi m b : (2 <= n)%nat -> x = bin_tone A phi m n (length x) -> (1 <= length x)%nat ->
  (1 <= a_hop a)%Z -> a_modulated a = true -> stft_n_fft a (Z.of_nat (length x)) = Ok (Z.of_nat n) ->
  get_window (a_window a) (stft_win_len a (Z.of_nat n)) (Z.of_nat n) = Ok w -> length w = n ->
  (a_f32 a = true -> (a_hop a <= Z.of_nat n)%Z) -> pad_usable (a_padtype a) (Z.of_nat (length x)) (Z.of_nat n) ->
  narrow n w b -> (b < m)%nat -> (2 * m + 2 * b < n)%nat -> Nat.even n = false -> 0 <= a_fs a ->
  exists Sx dSx, stft x a = Ok (Sx, dSx) /\ nrows Sx = (n / 2 + 1)%nat /\
    Z.of_nat (ncols Sx) = ((Z.of_nat (length x) - 1) / a_hop a + 1)%Z /\
    forall h k, (h < ncols Sx)%nat -> interior n (length x) (Z.to_nat (a_hop a)) h -> (k <= n / 2)%nat ->
      el Sx k h = Cmul (Cmul (RtoC (A / 2)) (bin_phase phi m n (Z.to_nat (a_hop a) * h))) (wspec n w (Z.of_nat k - Z.of_nat m)) /\
      (el Sx k h <> C0 ->
       phase_stft_pt (nth k (make_Sfs (n / 2 + 1) (a_fs a)) 0) (el Sx k h) (el dSx k h) =
       a_fs a / INR n * (INR m + INR k / (INR n - 1))).
Proof. exact (tone_phase_odd x a n w A phi m b). Qed.
Print Assumptions C116_odd_partial.

Theorem C116_odd_refuted : exists x a m n Sx dSx h k, x = bin_tone 1 0 m n (length x) /\ (2 * m < n)%nat /\ a_modulated a = true /\
  a_window a = WArray (hann n) /\ stft x a = Ok (Sx, dSx) /\ interior n (length x) 1 h /\ (h < ncols Sx)%nat /\ (k < nrows Sx)%nat /\
  el Sx k h <> C0 /\
  phase_stft_pt (nth k (make_Sfs (n / 2 + 1) (a_fs a)) 0) (el Sx k h) (el dSx k h) <> INR m * a_fs a / INR n.
Proof. exact odd_refuted. Qed.
Print Assumptions C116_odd_refuted.
