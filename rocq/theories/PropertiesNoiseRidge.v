(** C164: ridges of the [stft] of tones in noise. *)
From Coq Require Import Reals Lra.
From Verif Require Import Py Round Parallel Padding Buffer Cplx CplxProofs Freqs Stft StftTone StftToneWitness StftMap StftChord Squeeze Ssqueeze
  Ridge RidgeOpt RidgeBand NoiseRidge NoiseRidgeWit.
Local Open Scope R_scope.

(** * C164: noise below a fraction of the amplitudes moves no ridge *)

(** any limited-lobe window: [kappa] is the noise's share of a peak, [ratio] that of side lobes and later tones *)
Theorem C164_ridges M A phi m y a n w b e Y dY par f64 cwt scales penalty bw o ratio kappa :
  let peak r := Rabs (A r) / 2 * Cabs (wspec n w 0) in
  let noise := e * Rsum n (fun u => Rabs (nth u w 0)) in
  noisy_chord M A phi m n e y -> usable y a n w -> (2 <= n)%nat -> a_modulated a = true -> narrow n w b -> bins_apart M m n b ->
  a_padtype a = PWrap -> (length y mod n = 0)%nat -> side_ratio n w ratio -> stft y a = Ok (Y, dY) ->
  extract_ridges par f64 Y scales penalty M bw cwt = Ok o -> sched_ok (n / 2 + 1) par -> 0 <= penalty -> (Z.of_nat b < bw)%Z ->
  (forall r, (r < M)%nat -> (bw <= Z.of_nat (m r))%Z /\ (Z.of_nat (m r) <= (Z.of_nat (length y) - 1) / a_hop a)%Z) ->
  (forall r r', (r < r')%nat -> (r' < M)%nat -> (bw < Z.abs (Z.of_nat (m r') - Z.of_nat (m r)))%Z) ->
  0 <= ratio /\ 0 <= kappa /\ ratio + 2 * kappa <= 1 -> kappa < 1 -> 0 <= e ->
  (forall r, (r < M)%nat -> 0 < peak r /\ noise <= kappa * peak r) ->
  (forall r r', (r < r')%nat -> (r' < M)%nat -> Rabs (A r') <= ratio * Rabs (A r)) ->
  INR (ncols Y - 1) * eps_of f64 < ln ((1 + eps_of f64) / (((ratio + kappa) / (1 - kappa)) ^ 2 + eps_of f64)) ->
  forall r j, (r < M)%nat -> (j < ncols Y)%nat -> nth j (r_idx (nth r o ridge0)) 0%nat = m r /\
    nth j (r_freq (nth r o ridge0)) 0 = nth (m r) scales 0 /\
    (peak r - noise) ^ 2 <= nth j (r_energy (nth r o ridge0)) 0 <= (peak r + noise) ^ 2.
Proof. exact (noisy_ridges M A phi m y a n w b e Y dY par f64 cwt scales penalty bw o ratio kappa). Qed.
Print Assumptions C164_ridges.

(** Hann: noise of any shape up to a sixteenth of every amplitude, each tone at most half the one before *)
Theorem C164_hann M A phi m n e y a0 f32 Y dY par (f64 cwt : bool) scales penalty bw o : noisy_chord M A phi m n e y -> y <> [] -> (4 <= n)%nat -> Nat.even n = true -> (length y mod n = 0)%nat ->
  bins_apart M m n 1 -> stft y (SA a0 (WArray (hann n)) (Some (Z.of_nat n)) None 1 true PWrap f32) = Ok (Y, dY) ->
  extract_ridges par f64 Y scales penalty M bw cwt = Ok o -> sched_ok (n / 2 + 1) par -> 0 <= penalty -> (2 <= bw)%Z ->
  (forall r, (r < M)%nat -> (bw <= Z.of_nat (m r))%Z) ->
  (forall r r', (r < r')%nat -> (r' < M)%nat -> (bw < Z.abs (Z.of_nat (m r') - Z.of_nat (m r)))%Z) ->
  0 <= e -> (forall r, (r < M)%nat -> A r <> 0 /\ e <= Rabs (A r) / 16) -> (forall r r', (r < r')%nat -> (r' < M)%nat -> Rabs (A r') <= Rabs (A r) / 2) ->
  (Z.of_nat (length y) <= (if f64 then 2 ^ 51 else 2 ^ 22))%Z ->
  forall r j, (r < M)%nat -> (j < length y)%nat -> nth j (r_idx (nth r o ridge0)) 0%nat = m r /\
    nth j (r_freq (nth r o ridge0)) 0 = nth (m r) scales 0 /\
    (INR n / 2 * (Rabs (A r) / 2 - e)) ^ 2 <= nth j (r_energy (nth r o ridge0)) 0 <= (INR n / 2 * (Rabs (A r) / 2 + e)) ^ 2.
Proof. exact (hann_noisy M A phi m n e y a0 f32 Y dY par f64 cwt  scales penalty bw o). Qed.
Print Assumptions C164_hann.

(** two tones, every second sample 1/32 too large *)
Example C164_case par : (forall F, sched_ok F par) -> exists Y dY o,
  stft off_duo (SA 24 (WArray (hann 24)) (Some 24%Z) None 1 true PWrap false) = Ok (Y, dY) /\
  extract_ridges par true Y (make_Sfs 13 24) 20 2 2 false = Ok o /\
  forall j, (j < 48)%nat -> nth j (r_freq (nth 0 o ridge0)) 0 = 8 /\ nth j (r_freq (nth 1 o ridge0)) 0 = 4.
Proof. exact (noisy_case par). Qed.
