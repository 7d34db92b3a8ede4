(** A tone in noise under cwt and ssq_cwt. *)
From Coq Require Import Reals List.
Import ListNotations.
From Verif Require Import Py Round Parallel Cplx CplxProofs Padding PaddingProofs Buffer Freqs Squeeze SqueezeThms Scales ScaleThms SsqWitness Cwt CwtProofs CwtThms CwtTone
  CwtWitness CwtWitness2 SqueezeProofs SqueezeThms2 SqueezeThms3 Ssqueeze SsqueezeProofs IssqProofs SsqThms FreqRange CwtThms2 SsqCwt SsqCwtProofs SsqCwtInv SsqCwtWitness ToneWitness Wavelets WaveletProofs Admiss AdmissThms AdmissThms2 AdmissThms3 Integral IntegralProofs
  RoundTrip GainBound RoundTripGain GmwRoundTrip DefaultRoundTrip RoundTripWitness ToneThms Separate OctaveSep ChordSep Reassign ChordSqueeze ChordWitness CwtEnergyWitness CwtNoise CwtNoiseSsq CwtNoiseWit CwtNoiseInv CwtNoiseInv2.
Local Open Scope R_scope.

(** * C172: a tone in noise of bounded energy under ssq_cwt *)

(** no coefficient of Wx exceeds the root of the signal's energy times the wavelet's peak; dWx at most pi*fs times that *)
Theorem C172_size py inst f a x s W sc D s' fs P : real_valued f -> uncached inst a s -> a_pad a = None -> a_l1 a = true ->
  cwt py inst f a x s = (Ok (W, sc, Some D), s') -> process_fs_and_t (a_fs a) (a_t a) (length x) = Ok fs -> 0 < fs ->
  0 <= P -> (forall w, Cabs (wf f w) <= P) ->
  forall i j, (i < length sc)%nat -> (j < length x)%nat ->
    Cabs (el W i j) <= P * norm2 x /\ Cabs (el D i j) <= PI * fs * (P * norm2 x).
Proof. exact (cwt_cells py inst f a x s W sc D s' fs P). Qed.
Print Assumptions C172_size.

(** two signals of one length: their coefficients differ by at most the root of the energy of the difference times the peak *)
Theorem C172_stable py inst f a y x s W sc D s' fs P : real_valued f -> uncached inst a s -> a_pad a = None -> a_l1 a = true ->
  length x = length y -> cwt py inst f a y s = (Ok (W, sc, Some D), s') -> process_fs_and_t (a_fs a) (a_t a) (length y) = Ok fs -> 0 < fs ->
  0 <= P -> (forall w, Cabs (wf f w) <= P) ->
  exists V G, cwt py inst f a x s = (Ok (V, sc, Some G), s') /\
  forall i j, (i < length sc)%nat -> (j < length y)%nat ->
    Cabs (Csub (el W i j) (el V i j)) <= P * dist2 y x /\ Cabs (Csub (el D i j) (el G i j)) <= PI * fs * (P * dist2 y x).
Proof. exact (cwt_near py inst f a y x s W sc D s' fs P). Qed.
Print Assumptions C172_stable.

(** a tone in noise: each coefficient is the tone's within nu = peak * root of the noise's energy; where the tone's is larger, the phase transform is the tone's frequency within fs*nu/(size - nu) *)
Theorem C172_phase py inst f a y A phi k n s W sc D s' fs P : real_valued f -> uncached inst a s -> a_pad a = None -> a_l1 a = true ->
  (0 < k)%nat -> (2 * k < n)%nat -> length y = n -> one_sided f sc k n ->
  cwt py inst f a y s = (Ok (W, sc, Some D), s') -> process_fs_and_t (a_fs a) (a_t a) n = Ok fs -> 0 < fs ->
  0 <= P -> (forall w, Cabs (wf f w) <= P) -> let nu := P * dist2 y (tone A phi k n) in
  forall i j, (i < length sc)%nat -> (j < n)%nat ->
    Cabs (Csub (el W i j) (Cmul (RtoC (A / 2 * response f (nth i sc 0) k n)) (analytic phi k n j))) <= nu /\
    (nu < size f A (nth i sc 0) k n -> Rabs (phase_cwt_pt (el W i j) (el D i j) - tone_freq fs k n) <= fs * nu / (size f A (nth i sc 0) k n - nu)).
Proof. exact (cwt_tone_noise py inst f a y A phi k n s W sc D s' fs P). Qed.
Print Assumptions C172_phase.

(** ssq_cwt of a tone in noise: the rows of Tx more than one away from the tone's hold at most what the rows not cleared of noise hold; the three rows at the tone's hold the analytic tone times the gain of the scales, but for the threshold, the noise and those rows *)
Theorem C172_ssq ord py f fam q y A phi k n s out s' fs nv d P rho : noisy_run ord py f fam q y k n s out s' fs nv d P rho ->
  let sc := r_scales out in let nu := P * dist2 y (tone A phi k n) in let c := fun i => size f A (nth i sc 0) k n in
  nrows (r_Tx out) = length sc /\ ncols (r_Tx out) = n /\
  forall j, (j < n)%nat ->
    Rsum (length sc) (fun m => if within 1 m rho then 0 else Cabs (el (r_Tx out) m j)) <=
      ln 2 / IZR nv * Rsum (length sc) (fun i => if clear nu d (c i) k n then 0 else c i + nu) /\
    forall b : nat -> bool, (forall m, within 1 m rho = true -> b m = true) ->
    Cabs (Csub (Csum (length sc) (fun m => if b m then el (r_Tx out) m j else C0)) (Cmul (RtoC (A / 2 * full_gain f sc nv k n)) (analytic phi k n j))) <=
      ln 2 / IZR nv * Rsum (length sc) (fun i => if clear nu d (c i) k n then ssq_gamma q + nu else c i + nu).
Proof. exact (noisy_tone ord py f fam q y A phi k n s out s' fs nv d P rho). Qed.
Print Assumptions C172_ssq.

(** a tone of 14 periods in 32 samples with sample 5 off by 1e-6, the default wavelet, 32 voices: the hypotheses hold, and the first row is clear *)
Example C172_case : exists sc out s' d rho,
  make_scales 1 64 32 SLog (fun _ => Ok None) 5%Z = Ok sc /\ r_scales out = sc /\
  noisy_run serial_order false (gmw_wave gmw60) fam0 (arg_s sc) (noisy 14) 14 32 st0 out s' 1 32 d 2 rho /\
  dist2 (noisy 14) (tone 1 0 14 32) = 1 / 10 ^ 6 /\
  clear (2 * dist2 (noisy 14) (tone 1 0 14 32)) d (size (gmw_wave gmw60) 1 (nth 0 sc 0) 14 32) 14 32 = true.
Proof. exact noisy_case. Qed.

(** * C173: issq_cwt takes a tone out of noise *)

(** any wavelet: inverting all rows, or a band with the tone's row and its neighbours, gives the tone times the scales' gain over Css; what the band leaves is bounded by the rows the noise dominates *)
Theorem C173_issq ord py f fam q y A phi k n s out s' fs nv d P rho Css : noisy_run ord py f fam q y k n s out s' fs nv d P rho -> 0 < Css ->
  let sc := r_scales out in let nu := P * dist2 y (tone A phi k n) in let G := full_gain f sc nv k n / Css in
  let near := err_near f sc nv nu d (ssq_gamma q) A k n in let far := err_far f sc nv nu d A k n in
  (exists x, issq_cwt Css (r_Tx out) None = Ok (One x) /\ length x = n /\
     forall j, (j < n)%nat -> Rabs (nth j x 0 - nth j (tone (A * G) phi k n) 0) <= 2 / Css * near) /\
  forall cc cw, nrows cc = n -> ncols cc = 1%nat -> nrows cw = n -> ncols cw = 1%nat ->
  (forall j, (j < n)%nat -> (0 <= el cc j 0)%Z /\ (Z.abs (el cc j 0%nat - Z.of_nat rho) + 1 <= el cw j 0%nat)%Z) ->
  exists z r, issq_cwt Css (r_Tx out) (Some (cc, cw)) = Ok (Many [z; r]) /\ length z = n /\ length r = n /\
  forall j, (j < n)%nat -> Rabs (nth j z 0 - nth j (tone (A * G) phi k n) 0) <= 2 / Css * near /\ Rabs (nth j r 0) <= 2 / Css * far.
Proof. exact (noisy_issq ord py f fam q y A phi k n s out s' fs nv d P rho Css). Qed.
Print Assumptions C173_issq.

(** the default wavelet, scales reaching past the tone on both sides, nv >= 32: the tone itself within 3% and the noise's part *)
Theorem C173_default ord py fam q y A phi k n s out s' fs nv d rho Css cc cw :
  noisy_run ord py (gmw_wave gmw60) fam q y k n s out s' fs nv d 2 rho -> adm_ssq gmw60 = Ok Css -> (32 <= nv)%Z -> voices (r_scales out) nv ->
  (forall i, (i < length (r_scales out))%nat -> 0 < nth i (r_scales out) 0) ->
  (nth 0 (r_scales out) 0 * (2 * PI * INR k / INR n)) ^ 3 <= 10 -> 40 <= (nth (length (r_scales out) - 1) (r_scales out) 0 * (2 * PI * INR k / INR n)) ^ 3 ->
  nrows cc = n -> ncols cc = 1%nat -> nrows cw = n -> ncols cw = 1%nat ->
  (forall j, (j < n)%nat -> (0 <= el cc j 0)%Z /\ (Z.abs (el cc j 0%nat - Z.of_nat rho) + 1 <= el cw j 0%nat)%Z) ->
  let nu := 2 * dist2 y (tone A phi k n) in
  let near := err_near (gmw_wave gmw60) (r_scales out) nv nu d (ssq_gamma q) A k n in
  let far := err_far (gmw_wave gmw60) (r_scales out) nv nu d A k n in
  exists z r x, issq_cwt Css (r_Tx out) (Some (cc, cw)) = Ok (Many [z; r]) /\ issq_cwt Css (r_Tx out) None = Ok (One x) /\
    length z = n /\ length r = n /\ length x = n /\
  forall j, (j < n)%nat ->
    Rabs (nth j z 0 - nth j (tone A phi k n) 0) <= 3 / 100 * Rabs A + 11 / 2 * near /\
    Rabs (nth j x 0 - nth j (tone A phi k n) 0) <= 3 / 100 * Rabs A + 11 / 2 * near /\
    Rabs (nth j r 0) <= 11 / 2 * far.
Proof. exact (default_noisy ord py fam q y A phi k n s out s' fs nv d rho Css cc cw). Qed.
Print Assumptions C173_default.

(** 8 periods in 32 samples, sample 5 off by 1e-6, a band of three rows *)
Example C173_case : exists sc out s' d rho Css cc cw,
  make_scales 1 64 32 SLog (fun _ => Ok None) 5%Z = Ok sc /\ r_scales out = sc /\
  noisy_run serial_order false (gmw_wave gmw60) fam0 (arg_s sc) (noisy 8) 8 32 st0 out s' 1 32 d 2 rho /\ adm_ssq gmw60 = Ok Css /\ voices sc 32 /\
  (forall i, (i < length sc)%nat -> 0 < nth i sc 0) /\
  (nth 0 sc 0 * (2 * PI * INR 8 / INR 32)) ^ 3 <= 10 /\ 40 <= (nth (length sc - 1) sc 0 * (2 * PI * INR 8 / INR 32)) ^ 3 /\
  nrows cc = 32%nat /\ ncols cc = 1%nat /\ nrows cw = 32%nat /\ ncols cw = 1%nat /\
  (forall j, (j < 32)%nat -> (0 <= el cc j 0)%Z /\ (Z.abs (el cc j 0%nat - Z.of_nat rho) + 1 <= el cw j 0%nat)%Z) /\
  dist2 (noisy 8) (tone 1 0 8 32) = 1 / 10 ^ 6.
Proof. exact default_noisy_case. Qed.
