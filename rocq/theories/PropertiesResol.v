(** C69-C73: time-domain wavelets, centre frequency, frequency and time resolution. *)
From Coq Require Import Reals Lra.
From Verif Require Import Py Cplx CplxProofs Freqs Cwt Wavelets WaveletProofs Integral IntegralProofs GmwOrders GmwThms3
  Resol ResolProofs ResolThms ResolThms2.
Local Open Scope R_scope.

(** *** C69: the time-domain wavelet *)
(** sample [n] of the inverse transform of [psih * (-1)**k], the Nyquist bin halved *)
Theorem C69_symmetric f g scale N n : real_wavelet f g -> (1 <= n < N)%nat ->
  nth (N - n) (psifn f scale N) C0 = Cconj (nth n (psifn f scale N) C0).
Proof. exact (fun Hf => psi_sym f g scale N n Hf). Qed.
Print Assumptions C69_symmetric.
Theorem C69_peak_at_center f g scale N n : real_wavelet f g -> (1 <= N)%nat -> (N mod 2 = 0)%nat ->
  (forall w, 0 <= g w) -> (n < N)%nat ->
  Im (nth (N / 2) (psifn f scale N) C0) = 0 /\
  Cabs (nth n (psifn f scale N) C0) <= Re (nth (N / 2) (psifn f scale N) C0).
Proof. exact (fun Hf => psi_peak f g scale N n Hf). Qed.
Print Assumptions C69_peak_at_center.
Theorem C69_spectrum f g scale N k : real_wavelet f g -> (k < N)%nat ->
  Cmul (RtoC ((-1) ^ k)) (dft N (fun n => nth n (psifn f scale N) C0) k) =
  RtoC (let v := g (scale * (2 * PI * IZR (xi_bin N k) / INR N)) in if (2 * k =? N)%nat then v / 2 else v).
Proof. intros Hf Hk. rewrite <- sgn1_pow. exact (psi_spectrum f g scale N k Hf Hk). Qed.
Print Assumptions C69_spectrum.
Theorem C69_compute_gmw G N scale gamma beta k centered f32 fn X psi : is_Gamma G ->
  (1 <= N)%nat -> 0 < scale -> 0 < gamma -> 0 < beta ->
  gmw G gamma beta Bandpass (OInt (Z.of_nat k)) centered f32 = Ok fn ->
  compute_gmw G N scale gamma beta Bandpass (OInt (Z.of_nat k)) centered false f32 = Ok (X, psi) ->
  psi = psifn (WF (fun w => RtoC (fn w)) false GmwL1) scale N.
Proof. exact (compute_gmw_psifn G N scale gamma beta k centered f32 fn X psi). Qed.
Print Assumptions C69_compute_gmw.
Example C69_gmw_is_real : exists f g, gmw_l1 3 60 false = Ok g /\ real_wavelet f g /\ (forall w, 0 <= g w) /\
  real_wavelet (WF (fun w => RtoC (g w)) true GmwL1) g.
Proof.
  exists (WF (fun w => RtoC (gmw_l1_entry 3 60 (morsefreq 3 60) w)) false GmwL1), (gmw_l1_entry 3 60 (morsefreq 3 60)).
  pose proof (gmw_l1_ok 3 60 false ltac:(lra) ltac:(lra)) as E. split; [exact E|].
  split; [intros w; reflexivity|]. split; [|intros w; reflexivity].
  intros w. destruct (gmw_analytic 3 60 _ ltac:(lra) ltac:(lra) E) as [A P].
  destruct (Rle_lt_dec w 0) as [L|L]; [rewrite (A w L); lra|left; exact (P w L)].
Qed.
Example C69_compute_gmw_case : exists G fn X psi, is_Gamma G /\
  gmw G 3 60 Bandpass (OInt (Z.of_nat 1)) false false = Ok fn /\
  compute_gmw G 8 1 3 60 Bandpass (OInt (Z.of_nat 1)) false false false = Ok (X, psi).
Proof.
  destruct (gmw_ok EulerGamma 3 60 Bandpass 1 false false ltac:(lra) ltac:(lra)) as [fn E]; [left; reflexivity|].
  exists EulerGamma, fn. unfold compute_gmw. rewrite GmwThms.check_beta0_ok by (try lra; discriminate). cbn [bind].
  destruct (Rle_dec 1 0); [lra|]. rewrite E. cbn [bind]. do 2 eexists.
  split; [exact EulerGamma_is_Gamma|]. split; reflexivity.
Qed.

(** *** C70: centre frequencies *)
Theorem C70_energy_range f g inst ct s N force : real_wavelet f g -> (forall w, w <= 0 -> g w = 0) -> 0 < s ->
  (exists k, (1 <= k <= N / 2)%nat /\ g (s * (2 * PI * INR k / INR N)) <> 0) ->
  exists v, center_frequency f inst ct (Some s) N KEnergy force = Ok (Some v) /\ 0 < v <= PI.
Proof. exact (fun Hf => energy_range f g inst ct s N force Hf). Qed.
Print Assumptions C70_energy_range.
Theorem C70_peak f g inst ct s N force : real_wavelet f g -> (forall w, w <= 0 -> g w = 0) -> 0 < s ->
  (exists k, (1 <= k <= N / 2)%nat /\ g (s * (2 * PI * INR k / INR N)) <> 0) ->
  exists k, (1 <= k <= N / 2)%nat /\
    center_frequency f inst ct (Some s) N KPeak force = Ok (Some (2 * PI * INR k / INR N)) /\
    forall j, (1 <= j <= N / 2)%nat ->
      Rabs (g (s * (2 * PI * INR j / INR N))) <= Rabs (g (s * (2 * PI * INR k / INR N))).
Proof. exact (fun Hf => peak_range f g inst ct s N force Hf). Qed.
Print Assumptions C70_peak.
Theorem C70_energy_value f g inst ct s N force : real_wavelet f g -> (forall w, w <= 0 -> g w = 0) -> 0 < s ->
  (N mod 2 = 0)%nat -> (exists k, (1 <= k <= N / 2)%nat /\ g (s * (2 * PI * INR k / INR N)) <> 0) ->
  center_frequency f inst ct (Some s) N KEnergy force = Ok (Some (spec_mean g s N)).
Proof. exact (fun Hf => energy_even f g inst ct s N force Hf). Qed.
Print Assumptions C70_energy_value.
Theorem C70_peak_ct f inst ct scale scale' N N' force : (1 <= N)%nat -> (1 <= N')%nat ->
  center_frequency f inst ct scale N KPeakCt force = center_frequency f inst ct scale' N' KPeakCt force.
Proof. exact (peak_ct_const f inst ct scale scale' N N' force). Qed.
Print Assumptions C70_peak_ct.
Example C70_case : exists g, gmw_l1 3 60 false = Ok g /\ (forall w, w <= 0 -> g w = 0) /\
  (exists k, (1 <= k <= 9 / 2)%nat /\ g (10 * (2 * PI * INR k / INR 9)) <> 0).
Proof.
  eexists. pose proof (gmw_l1_ok 3 60 false ltac:(lra) ltac:(lra)) as E. split; [exact E|].
  destruct (gmw_analytic 3 60 _ ltac:(lra) ltac:(lra) E) as [A P]. split; [exact A|].
  exact (positive_seen _ 10 9 P ltac:(lra) ltac:(lia)).
Qed.

(** *** C71: [force_int=False] *)
(** the widths scale as documented *)
Theorem C71_freq_width_partial f c s1 s2 N v1 v2 : 0 < c -> 0 < s1 -> 0 < s2 ->
  s1 < 4 \/ INR N / 5 < s1 -> s2 < 4 \/ INR N / 5 < s2 ->
  freq_resolution f (Ok c) s1 N false false = Ok (Some v1) ->
  freq_resolution f (Ok c) s2 N false false = Ok (Some v2) -> s1 * v1 = s2 * v2.
Proof. exact (freq_res_formula f c s1 s2 N v1 v2). Qed.
Print Assumptions C71_freq_width_partial.
Theorem C71_time_width_partial f c s1 s2 N d mx mn v1 v2 : 0 < c -> 0 < s1 -> 0 < s2 ->
  s1 < 4 \/ INR N / 5 < s1 -> s2 < 4 \/ INR N / 5 < s2 ->
  time_resolution f (Ok c) s1 N d mx mn false false = Ok (Some v1) ->
  time_resolution f (Ok c) s2 N d mx mn false false = Ok (Some v2) -> v1 / s1 = v2 / s2.
Proof. exact (time_res_formula f c s1 s2 N d mx mn v1 v2). Qed.
Print Assumptions C71_time_width_partial.
(** [center_frequency] ignores [force_int] *)
Theorem C71_force_int_ignored_partial f inst ct scale N kind b b' :
  center_frequency f inst ct scale N kind b = center_frequency f inst ct scale N kind b'.
Proof. exact (force_int_ignored f inst ct scale N kind b b'). Qed.
Print Assumptions C71_force_int_ignored_partial.
(** so [scale * wc] is not constant, for the default GMW *)
Theorem C71_center_frequency_refuted : exists g, gmw_l1 3 60 false = Ok g /\
  forall inst ct, exists v1 v2,
    center_frequency (WF (fun w => RtoC (g w)) false GmwL1) inst ct (Some 1) 1024 KEnergy (Some false) = Ok (Some v1) /\
    center_frequency (WF (fun w => RtoC (g w)) false GmwL1) inst ct (Some 1024) 1024 KEnergy (Some false) = Ok (Some v2) /\
    1 * v1 <> 1024 * v2.
Proof. exact gmw_not_inverse. Qed.
Print Assumptions C71_center_frequency_refuted.
Example C71_case : exists c : R, 0 < c /\ 0 < 3 < 4 /\ INR 1024 / 5 < 300 /\
  exists v, freq_resolution (WF (fun w => RtoC (gmw_l1_entry 3 60 (morsefreq 3 60) w)) false GmwL1) (Ok c) 3 1024 false false = Ok (Some v).
Proof. exact formula_case. Qed.

(** *** C72: [freq_resolution] *)
(** with the default [N] it is the standard deviation; [spec_mean], [spec_msd]: mean of the bin
    frequencies and mean square distance under the weights [|psih|^2], the Nyquist bin counted half *)
Theorem C72_default_length_partial f g ct s : real_wavelet f g -> (forall w, w <= 0 -> g w = 0) -> 0 < s ->
  (exists k, (1 <= k <= 1024 / 2)%nat /\ g (s * (2 * PI * INR k / INR 1024)) <> 0) ->
  exists v, freq_resolution f ct s 1024 false true = Ok (Some v) /\ 0 <= v /\
    v ^ 2 = spec_msd g s 1024 (spec_mean g s 1024).
Proof. exact (fun Hf => freq_res_default f g ct s Hf). Qed.
Print Assumptions C72_default_length_partial.
(** for another even [N] it exceeds it: the mean is still that of the 1024-point grid *)
Theorem C72_even_length_partial f g ct s N : real_wavelet f g -> (forall w, w <= 0 -> g w = 0) -> 0 < s ->
  (N mod 2 = 0)%nat ->
  (exists k, (1 <= k <= N / 2)%nat /\ g (s * (2 * PI * INR k / INR N)) <> 0) ->
  (exists k, (1 <= k <= 1024 / 2)%nat /\ g (s * (2 * PI * INR k / INR 1024)) <> 0) ->
  exists v, freq_resolution f ct s N false true = Ok (Some v) /\ 0 <= v /\
    v ^ 2 = spec_msd g s N (spec_mean g s N) + (spec_mean g s N - spec_mean g s 1024) ^ 2.
Proof. exact (fun Hf => freq_res_excess f g ct s N Hf). Qed.
Print Assumptions C72_even_length_partial.
(** the default GMW at the default scale, two samples: the spread is zero, the result is not *)
Theorem C72_other_length_refuted : exists g, gmw_l1 3 60 false = Ok g /\
  forall ct, exists v, freq_resolution (WF (fun w => RtoC (g w)) false GmwL1) ct 10 2 false true = Ok (Some v) /\
    0 < v /\ spec_msd g 10 2 (spec_mean g 10 2) = 0.
Proof. exact gmw_two. Qed.
Print Assumptions C72_other_length_refuted.
(** odd [N]: the frequencies are not in order, and the variance can be negative, its root nan *)
Theorem C72_odd_length_refuted : exists f g, real_wavelet f g /\ (forall w, w <= 0 -> g w = 0) /\
  (exists k, (1 <= k <= 5 / 2)%nat /\ g (1 * (2 * PI * INR k / INR 5)) <> 0) /\
  (exists k, (1 <= k <= 1024 / 2)%nat /\ g (1 * (2 * PI * INR k / INR 1024)) <> 0) /\
  forall ct, freq_resolution f ct 1 5 false true = Ok None.
Proof. exact odd_length. Qed.
Print Assumptions C72_odd_length_refuted.
Example C72_case : exists g, gmw_l1 3 60 false = Ok g /\ (forall w, w <= 0 -> g w = 0) /\
  (exists k, (1 <= k <= 1024 / 2)%nat /\ g (10 * (2 * PI * INR k / INR 1024)) <> 0).
Proof.
  eexists. pose proof (gmw_l1_ok 3 60 false ltac:(lra) ltac:(lra)) as E. split; [exact E|].
  destruct (gmw_analytic 3 60 _ ltac:(lra) ltac:(lra) E) as [A P]. split; [exact A|].
  exact (positive_seen _ 10 1024 P ltac:(lra) ltac:(lia)).
Qed.

(** *** C73: [time_resolution] *)
(** [energy_at]: |psi|^2; [time_at n i = i - n/2]; [tzw]: trapezoid weights *)
Theorem C73_time_resolution f g ct s N d mx mn : real_wavelet f g -> (2 <= N)%nat -> (1 <= mn)%nat -> 0 <= d ->
  (time_resolution f ct s N d mx mn true false = Err PlainException /\
     forall q, (mn <= q <= mx)%nat -> ~ decayed g s (q * N) d) \/
  (exists mult v, time_resolution f ct s N d mx mn true false = Ok (Some v) /\
     (mn <= mult <= mx)%nat /\ decayed g s (mult * N) d /\
     let n := (mult * N)%nat in
     0 <= v <= INR n / 2 /\
     v ^ 2 * Rsum n (fun i => tzw n i * energy_at g s n i) =
       Rsum n (fun i => tzw n i * energy_at g s n i * time_at n i ^ 2) /\
     0 < Rsum n (fun i => tzw n i * energy_at g s n i) /\
     Rsum (n - 1) (fun i => time_at n (S i) * energy_at g s n (S i)) = 0).
Proof. exact (fun Hf => time_res_spec f g ct s N d mx mn Hf). Qed.
Print Assumptions C73_time_resolution.
(** both outcomes happen *)
Example C73_raises : exists f g, real_wavelet f g /\
  time_resolution f (Ok 1) 1 2 1000 2 2 true false = Err PlainException.
Proof. exact time_raises. Qed.
Example C73_returns : exists f g v, real_wavelet f g /\
  time_resolution f (Ok 1) 1 2 0 2 2 true false = Ok (Some v).
Proof. exact time_returns. Qed.
