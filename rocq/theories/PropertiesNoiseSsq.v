(** C165: [ssq_stft] of tones in noise. *)
From Coq Require Import Reals Lra.
From Verif Require Import Py Round Parallel Padding Buffer Cplx CplxProofs Freqs Stft StftTone StftToneWitness StftMap StftChord Squeeze Ssqueeze
  Scales SqueezeProofs StftRidge NoiseRidge NoiseSsq NoiseSsqWit.
Local Open Scope R_scope.

(** * C165: noise below a fraction of the amplitudes sends no tone to another row *)

(** any limited-lobe window; [dominates] is the size of noise one coefficient of a tone bears *)
Theorem C165_ssq ord M A phi m y a fs t s rate n w b g e :
  let row r := (if s_flip s then n / 2 - m r else m r)%nat in
  let noise := e * Rsum n (fun u => Rabs (nth u w 0)) in
  valid_order ord -> noisy_chord M A phi m n e y -> usable y a n w -> process_fs_and_t fs t (length y) = Ok rate -> EPS64 <= rate / INR n ->
  (2 <= n)%nat -> Nat.even n = true -> (Z.of_nat n < 2 ^ 62)%Z -> a_modulated a = true -> narrow n w b -> bins_apart M m n b ->
  s_freqs s = None -> s_sq s = SqSum -> g = match s_gamma s with Some g => g | None => 10 * (if a_f32 a then EPS32 else EPS64) end -> 0 <= e ->
  (forall r d, (r < M)%nat -> (Z.abs d <= Z.of_nat b)%Z -> wspec n w d <> C0 ->
    let c := Rabs (A r) / 2 * Cabs (wspec n w d) in dominates rate n w e c d /\ g < c - noise) ->
  a_padtype a = PWrap -> (length y mod n = 0)%nat ->
  exists Tx Sx f, ssq_stft ord y a fs t s = Ok (Tx, Sx, f, make_Sfs (n / 2 + 1) rate) /\
  nrows Tx = (n / 2 + 1)%nat /\ Z.of_nat (ncols Tx) = ((Z.of_nat (length y) - 1) / a_hop a + 1)%Z /\
  (forall r, (r < M)%nat -> nth (row r) f 0 = INR (m r) * rate / INR n) /\
  forall h, (h < ncols Tx)%nat ->
    (forall r, (r < M)%nat -> Cabs (Csub (el Tx (row r) h) (Cmul (RtoC (rate * nth (n / 2) w 0 * (A r / 2))) (bin_phase (phi r) (m r) n (Z.to_nat (a_hop a) * h)))) <= rate / INR n * INR (n / 2 + 1) * noise) /\
    (forall q, (q <= n / 2)%nat -> (forall r, (r < M)%nat -> q <> row r) -> Cabs (el Tx q h) <= rate / INR n * INR (n / 2 + 1) * noise).
Proof. exact (noisy_ssq ord M A phi m y a fs t s rate n w b g e). Qed.
Print Assumptions C165_ssq.

(** Hann: noise of any shape below a twentieth of every amplitude; the tone's row differs from the clean value by what the noise itself can add, and so do the other rows from 0 *)
Theorem C165_hann ord M A phi m n e y fs t s rate g f32 a0 : valid_order ord -> noisy_chord M A phi m n e y -> y <> [] ->
  process_fs_and_t fs t (length y) = Ok rate -> EPS64 <= rate / INR n -> Nat.even n = true -> (4 <= n)%nat -> (Z.of_nat n < 2 ^ 62)%Z -> (length y mod n = 0)%nat ->
  bins_apart M m n 1 -> s_freqs s = None -> s_sq s = SqSum -> s_gamma s = Some g -> 0 <= e ->
  (forall r, (r < M)%nat -> e < Rabs (A r) / 20 /\ g < INR n / 8 * (Rabs (A r) - 4 * e)) ->
  exists Tx Sx f, ssq_stft ord y (SA a0 (WArray (hann n)) (Some (Z.of_nat n)) None 1 true PWrap f32) fs t s = Ok (Tx, Sx, f, make_Sfs (n / 2 + 1) rate) /\
  nrows Tx = (n / 2 + 1)%nat /\ ncols Tx = length y /\
  (forall r, (r < M)%nat -> nth (stft_row s n (m r)) f 0 = INR (m r) * rate / INR n) /\
  forall h, (h < length y)%nat ->
    (forall r, (r < M)%nat -> Cabs (Csub (el Tx (stft_row s n (m r)) h) (Cmul (RtoC (rate * A r / 2)) (bin_phase (phi r) (m r) n h))) <= rate * INR (n / 2 + 1) / 2 * e) /\
    (forall q, (q <= n / 2)%nat -> (forall r, (r < M)%nat -> q <> stft_row s n (m r)) -> Cabs (el Tx q h) <= rate * INR (n / 2 + 1) / 2 * e).
Proof. exact (hann_noisy_ssq ord M A phi m n e y fs t s rate g f32 a0). Qed.
Print Assumptions C165_hann.

(** one coefficient: how far errors of it and of its derivative move the phase transform *)
Theorem C165_phase V W dW c nu dnu : Cabs (Csub W V) <= nu -> Cabs (Csub dW (Cmul (0, 2 * PI * c) V)) <= dnu -> nu < Cabs V ->
  W <> C0 /\ Rabs (phase_ratio W dW - c) <= (dnu + 2 * PI * Rabs c * nu) / (2 * PI * (Cabs V - nu)).
Proof. exact (phase_noise V W dW c nu dnu). Qed.
Print Assumptions C165_phase.

(** two tones, every second sample 1/64 too large: sizes near 12 and 6 in the tones' rows, under 5/2 elsewhere *)
Example C165_case ord gw : valid_order ord -> exists Tx Sx f,
  ssq_stft ord shaken (SA 1 (WArray (hann 24)) (Some 24%Z) None 1 true PWrap false) (Some 24) None (SS None SqSum (Some (1 / 100)) false gw true) = Ok (Tx, Sx, f, make_Sfs 13 24) /\
  nth 8 f 0 = 8 /\ nth 4 f 0 = 4 /\
  forall h, (h < 48)%nat -> 9 <= Cabs (el Tx 8 h) <= 15 /\ 3 <= Cabs (el Tx 4 h) <= 9 /\ forall q, (q <= 12)%nat -> q <> 8%nat -> q <> 4%nat -> Cabs (el Tx q h) <= 5 / 2.
Proof. exact (noisy_ssq_case ord gw). Qed.
