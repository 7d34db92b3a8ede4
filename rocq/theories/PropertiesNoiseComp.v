(** Components of noisy signals by issq_stft. *)
From Coq Require Import Reals Lra List.
Import ListNotations.
From Verif Require Import Py Round Padding Parallel Cplx CplxProofs Buffer Freqs Stft StftProofs WindowProofs
  Squeeze SqueezeProofs Scales Ssqueeze SsqThms StftTone StftToneWitness StftMap StftChord StftRidge NoiseRidge NoiseSsqWit NoiseComp NoiseComp2 NoiseCompWit.
Local Open Scope R_scope.

(** * C168: taking a noisy signal apart *)

(** any set of rows of Tx sums to the tones whose rows are in it, up to one share of the noise *)
Theorem C168_rows ord M A phi m n e y fs t s rate g f32 a0 : valid_order ord -> noisy_chord M A phi m n e y -> y <> [] ->
  process_fs_and_t fs t (length y) = Ok rate -> EPS64 <= rate / INR n -> Nat.even n = true -> (4 <= n)%nat -> (Z.of_nat n < 2 ^ 62)%Z -> (length y mod n = 0)%nat ->
  bins_apart M m n 1 -> s_freqs s = None -> s_sq s = SqSum -> s_gamma s = Some g -> 0 <= e ->
  (forall r, (r < M)%nat -> e < Rabs (A r) / 20 /\ g < INR n / 8 * (Rabs (A r) - 4 * e)) ->
  exists Tx Sx f, ssq_stft ord y (SA a0 (WArray (hann n)) (Some (Z.of_nat n)) None 1 true PWrap f32) fs t s = Ok (Tx, Sx, f, make_Sfs (n / 2 + 1) rate) /\
  nrows Tx = (n / 2 + 1)%nat /\ ncols Tx = length y /\
  (forall r, (r < M)%nat -> nth (stft_row s n (m r)) f 0 = INR (m r) * rate / INR n) /\
  forall (Q : nat -> bool) h, (h < length y)%nat ->
    Cabs (Csub (Csum (n / 2 + 1) (fun q => if Q q then el Tx q h else C0))
               (Csum M (fun r => if Q (stft_row s n (m r)) then Cmul (RtoC (rate * A r / 2)) (bin_phase (phi r) (m r) n h) else C0))) <= rate * INR (n / 2 + 1) / 2 * e.
Proof. exact (hann_noisy_band ord M A phi m n e y fs t s rate g f32 a0). Qed.
Print Assumptions C168_rows.

(** each component is its tone and the residual is nothing, both up to (n_fft/2 + 1) times the noise, times the sampling rate as for clean signals *)
Theorem C168_components ord M A phi m n e y fs t s rate g f32 f32' a0 cc cw : hann_noisy ord M A phi m n e y fs t s rate g -> (0 < M)%nat ->
  own_rows M m n s (length y) cc cw ->
  exists Tx Sx f xs, ssq_stft ord y (SA a0 (WArray (hann n)) (Some (Z.of_nat n)) None 1 true PWrap f32) fs t s = Ok (Tx, Sx, f, make_Sfs (n / 2 + 1) rate) /\
  issq_stft Tx (WArray (hann n)) (Some (cc, cw)) None None 1 true f32' = Ok (Many xs) /\ length xs = S M /\
  forall j, (j < length y)%nat ->
    (forall r, (r < M)%nat -> Rabs (nth j (nth r xs []) 0 - rate * (A r * cos (2 * PI * INR (m r) * INR j / INR n + phi r))) <= rate * INR (n / 2 + 1) * e) /\
    Rabs (nth j (nth M xs []) 0) <= rate * INR (n / 2 + 1) * e.
Proof. exact (hann_noisy_parts ord M A phi m n e y fs t s rate g f32 f32' a0 cc cw). Qed.
Print Assumptions C168_components.

(** without components the inverse is the noisy signal up to one noise more *)
Theorem C168_whole ord M A phi m n e y fs t s rate g f32 f32' a0 : hann_noisy ord M A phi m n e y fs t s rate g ->
  exists Tx Sx f z, ssq_stft ord y (SA a0 (WArray (hann n)) (Some (Z.of_nat n)) None 1 true PWrap f32) fs t s = Ok (Tx, Sx, f, make_Sfs (n / 2 + 1) rate) /\
  issq_stft Tx (WArray (hann n)) None None None 1 true f32' = Ok (One z) /\ length z = length y /\
  forall j, (j < length y)%nat -> Rabs (nth j z 0 - rate * nth j y 0) <= rate * INR (n / 2 + 2) * e.
Proof. exact (hann_noisy_whole ord M A phi m n e y fs t s rate g f32 f32' a0). Qed.
Print Assumptions C168_whole.

(** two tones, every second sample 1/64 too large: true amplitudes are 24 and 12 *)
Example C168_case ord gw : valid_order ord -> exists Tx Sx f xs,
  ssq_stft ord shaken (SA 1 (WArray (hann 24)) (Some 24%Z) None 1 true PWrap false) (Some 24) None (SS None SqSum (Some (1 / 100)) false gw true) = Ok (Tx, Sx, f, make_Sfs 13 24) /\
  issq_stft Tx (WArray (hann 24)) (Some (duo_c, duo_w)) None None 1 true false = Ok (Many xs) /\ length xs = 3%nat /\
  forall j, (j < 48)%nat -> Rabs (nth j (nth 0 xs []) 0 - 24 * (duo_A 0 * cos (2 * PI * 8 * INR j / 24 + duo_phi 0))) <= 5 /\
    Rabs (nth j (nth 1 xs []) 0 - 24 * (duo_A 1 * cos (2 * PI * 4 * INR j / 24 + duo_phi 1))) <= 5 /\ Rabs (nth j (nth 2 xs []) 0) <= 5.
Proof. exact (noisy_parts_case ord gw). Qed.
