(** Chords in noise under ssq_cwt and issq_cwt. *)
From Coq Require Import Reals List.
Import ListNotations.
From Verif Require Import Py Round Parallel Cplx CplxProofs Padding PaddingProofs Buffer Freqs Squeeze SqueezeThms Scales ScaleThms SsqWitness Cwt CwtProofs CwtThms CwtTone
  CwtWitness CwtWitness2 SqueezeProofs SqueezeThms2 SqueezeThms3 Ssqueeze SsqueezeProofs IssqProofs SsqThms FreqRange CwtThms2 SsqCwt SsqCwtProofs SsqCwtInv SsqCwtWitness ToneWitness Wavelets WaveletProofs Admiss AdmissThms AdmissThms2 AdmissThms3 Integral IntegralProofs
  RoundTrip GainBound RoundTripGain GmwRoundTrip DefaultRoundTrip RoundTripWitness ToneThms Separate OctaveSep ChordSep Reassign ChordSqueeze ChordWitness CwtEnergyWitness CwtNoise CwtNoiseSsq CwtNoiseWit ChordNoise ChordNoiseInv ChordNoiseWit.
Local Open Scope R_scope.

(** * C174: issq_cwt takes the tones of a chord out of noise *)

(** any wavelet, any tones: rows of Tx away from all tones hold at most what the rows no tone dominates hold; rows with one tone's three and no other's hold that tone but for the threshold, the noise, the other tones where it dominates, and itself where it does not *)
Theorem C174_ssq ord py f fam q y M A phi k n s out s' fs nv d P rho : chord_noise_run ord py f fam q y M k n s out s' fs nv d P rho ->
  let sc := r_scales out in let nu := P * dist2 y (chord M A phi k n) in
  nrows (r_Tx out) = length sc /\ ncols (r_Tx out) = n /\
  forall j, (j < n)%nat ->
    Rsum (length sc) (fun m => if existsb (fun r => within 1 m (rho r)) (seq 0 M) then 0 else Cabs (el (r_Tx out) m j)) <= chord_stray f sc nv M nu d A k n /\
    forall r (b : nat -> bool), (r < M)%nat -> (forall m, within 1 m (rho r) = true -> b m = true) ->
    (forall p m, (p < M)%nat -> p <> r -> within 1 m (rho p) = true -> b m = false) ->
    Cabs (Csub (Csum (length sc) (fun m => if b m then el (r_Tx out) m j else C0)) (Cmul (RtoC (A r / 2 * full_gain f sc nv (k r) n)) (analytic (phi r) (k r) n j))) <=
      chord_err f sc nv M nu d (ssq_gamma q) A k n r.
Proof. exact (noisy_chord ord py f fam q y M A phi k n s out s' fs nv d P rho). Qed.
Print Assumptions C174_ssq.

(** issq_cwt with one band per tone: every tone comes back within that error, the remainder is bounded by the rows no tone dominates *)
Theorem C174_issq ord py f fam q y M A phi k n s out s' fs nv d P rho Css cc cw : chord_noise_run ord py f fam q y M k n s out s' fs nv d P rho -> 0 < Css -> (0 < M)%nat ->
  nrows cc = n -> ncols cc = M -> nrows cw = n -> ncols cw = M ->
  (forall j r, (j < n)%nat -> (r < M)%nat -> (0 <= el cc j r)%Z /\ (Z.abs (el cc j r - Z.of_nat (rho r)) + 1 <= el cw j r)%Z) ->
  (forall j r r', (j < n)%nat -> (r < M)%nat -> (r' < M)%nat -> r' <> r -> (el cw j r + 1 < Z.abs (el cc j r - Z.of_nat (rho r')))%Z) ->
  let sc := r_scales out in let nu := P * dist2 y (chord M A phi k n) in
  exists xs, issq_cwt Css (r_Tx out) (Some (cc, cw)) = Ok (Many xs) /\ length xs = S M /\
  (forall j, (j < n)%nat -> Rabs (nth j (nth M xs []) 0) <= 2 / Css * chord_stray f sc nv M nu d A k n) /\
  forall r, (r < M)%nat -> length (nth r xs []) = n /\
    forall j, (j < n)%nat -> Rabs (nth j (nth r xs []) 0 - nth j (tone (A r * (full_gain f sc nv (k r) n / Css)) (phi r) (k r) n) 0)
      <= 2 / Css * chord_err f sc nv M nu d (ssq_gamma q) A k n r.
Proof. exact (noisy_components ord py f fam q y M A phi k n s out s' fs nv d P rho Css cc cw). Qed.
Print Assumptions C174_issq.

(** 1 and 14 periods in 32 samples, sample 5 off by 1e-6, the default wavelet, 32 voices, two bands of three rows: the hypotheses hold, and the second tone dominates the first row *)
Example C174_case : exists sc out s' d (rho : nat -> nat) Css cc cw,
  make_scales 1 64 32 SLog (fun _ => Ok None) 5%Z = Ok sc /\ r_scales out = sc /\
  chord_noise_run serial_order false (gmw_wave gmw60) fam0 (arg_s sc) noisy2 2 pair_k 32 st0 out s' 1 32 d 2 rho /\
  adm_ssq gmw60 = Ok Css /\ 0 < Css /\
  nrows cc = 32%nat /\ ncols cc = 2%nat /\ nrows cw = 32%nat /\ ncols cw = 2%nat /\
  (forall j r, (j < 32)%nat -> (r < 2)%nat -> (0 <= el cc j r)%Z /\ (Z.abs (el cc j r - Z.of_nat (rho r)) + 1 <= el cw j r)%Z) /\
  (forall j r r', (j < 32)%nat -> (r < 2)%nat -> (r' < 2)%nat -> r' <> r -> (el cw j r + 1 < Z.abs (el cc j r - Z.of_nat (rho r')))%Z) /\
  dist2 noisy2 (chord 2 pair_A pair_phi pair_k 32) = 1 / 10 ^ 6 /\
  owns 2 (2 * dist2 noisy2 (chord 2 pair_A pair_phi pair_k 32)) d pair_k 32 (sizes (gmw_wave gmw60) pair_A pair_k 32 (nth 0 sc 0)) 1 = true.
Proof. exact noisy2_case. Qed.
