(** C64-C68: generalized Morse wavelets of every order, their moments, [morsewave].
    [is_Gamma G] says that [G] is Euler's integral at every positive argument, as scipy's
    [gamma] is specified; [EulerGamma_is_Gamma] shows that such a function exists. *)
From Coq Require Import Reals Lra.
From Verif Require Import Py Cplx Comb Wavelets WaveletProofs Integral IntegralProofs GmwOrders LaguerreProofs
  GmwOrdersProofs GmwThms GmwThms2 GmwThms3.
Local Open Scope R_scope.

(** ** C64 *)
Theorem C64_gamma_exists : is_Gamma EulerGamma.
Proof. exact EulerGamma_is_Gamma. Qed.
Print Assumptions C64_gamma_exists.

(** Energy norm: at every scale [s], with the rescaling by [sqrt] that [compute_gmw] applies,
    two orders have inner product 0 and each has energy 1 (Parseval's 1/(2 pi) included). *)
Theorem C64_energy_orthonormal G gamma beta j k centered f32 fj fk s : is_Gamma G -> 0 < s ->
  gmw G gamma beta Energy (OInt j) centered f32 = Ok fj ->
  gmw G gamma beta Energy (OInt k) centered f32 = Ok fk ->
  let c := s * (if centered then morsefreq gamma beta else 1) in
  impint (fun w => / (2 * PI) * ((sqrt c * fj (s * w)) * (sqrt c * fk (s * w)))) (if Z.eq_dec j k then 1 else 0).
Proof. exact (gmw_energy_orthonormal G gamma beta j k centered f32 fj fk s). Qed.
Print Assumptions C64_energy_orthonormal.

(** Bandpass norm: different orders are orthogonal ... *)
Theorem C64_bandpass_orthogonal G gamma beta j k centered f32 fj fk : is_Gamma G -> j <> k ->
  gmw G gamma beta Bandpass (OInt j) centered f32 = Ok fj ->
  gmw G gamma beta Bandpass (OInt k) centered f32 = Ok fk ->
  impint (fun w => fj w * fk w) 0.
Proof. exact (gmw_bandpass_orthogonal G gamma beta j k centered f32 fj fk). Qed.
Print Assumptions C64_bandpass_orthogonal.

(** ... and all have the same positive energy. *)
Theorem C64_bandpass_equal_energy G gamma beta centered f32 : is_Gamma G -> 0 < gamma -> 0 < beta ->
  exists e, 0 < e /\ forall k fk, gmw G gamma beta Bandpass (OInt k) centered f32 = Ok fk ->
    impint (fun w => fk w * fk w) e.
Proof. exact (gmw_bandpass_equal_energy G gamma beta centered f32). Qed.
Print Assumptions C64_bandpass_equal_energy.

(** The integrals above run over positive frequencies; every order vanishes elsewhere. *)
Theorem C64_analytic G gamma beta norm k centered f32 f w : is_Gamma G ->
  gmw G gamma beta norm (OInt k) centered f32 = Ok f -> w <= 0 -> f w = 0.
Proof. exact (gmw_negative G gamma beta norm k centered f32 f w). Qed.
Print Assumptions C64_analytic.

(** Order 0 is computed by other code; the general code gives the same function. *)
Theorem C64_order0 G gamma beta norm centered f32 f : is_Gamma G ->
  gmw G gamma beta norm (OInt 0) centered f32 = Ok f ->
  exists g, match norm with Bandpass => gmw_l1_k G gamma beta 0 centered | _ => gmw_l2_k G gamma beta 0 centered end = Ok g /\
    forall w, g w = f w.
Proof. exact (gmw_order0 G gamma beta norm centered f32 f). Qed.
Print Assumptions C64_order0.

Example C64_case : exists f0 f2 g2, gmw EulerGamma 3 60 Energy (OInt 0) false false = Ok f0 /\
  gmw EulerGamma 3 60 Energy (OInt 2) false false = Ok f2 /\
  gmw EulerGamma 3 60 Bandpass (OInt 2) true true = Ok g2 /\
  impint (fun w => / (2 * PI) * ((sqrt (5 * 1) * f2 (5 * w)) * (sqrt (5 * 1) * f2 (5 * w)))) 1.
Proof.
  destruct (gmw_ok EulerGamma 3 60 Energy 0 false false) as [f0 E0]; [lra|lra|now right|].
  destruct (gmw_ok EulerGamma 3 60 Energy 2 false false) as [f2 E2]; [lra|lra|now right|].
  destruct (gmw_ok EulerGamma 3 60 Bandpass 2 true true) as [g2 E3]; [lra|lra|now left|].
  exists f0, f2, g2. split; [exact E0|]. split; [exact E2|]. split; [exact E3|].
  exact (C64_energy_orthonormal _ 3 60 2 2 false false f2 f2 5 EulerGamma_is_Gamma ltac:(lra) E2 E2).
Qed.

(** ** C65 *)
(** [_morsemom]: the moments are the integrals they are documented to be, and the cumulants are
    the cumulants of those moments. *)
Theorem C65_moments G gamma beta f p : is_Gamma G -> 0 < gamma -> 0 < beta -> gmw_l1 gamma beta false = Ok f ->
  exists (m e : nat -> R) K L Mp Np Kp Lp,
    (forall q, impint (fun w => / (2 * PI) * (w ^ q * f w)) (m q)) /\
    (forall q, impint (fun w => / (2 * PI) * (w ^ q * (f w) ^ 2)) (e q)) /\
    moments_to_cumulants (map m (seq 0 (p + 1))) = Ok K /\
    moments_to_cumulants (map e (seq 0 (p + 1))) = Ok L /\
    morsemom G p gamma beta = Ok (Mp, Np, Kp, Lp) /\
    Mp = m p /\ Np = e p /\ Kp = nth p K 0 /\ Lp = nth p L 0.
Proof. exact (morsemom_spec G gamma beta f p). Qed.
Print Assumptions C65_moments.

(** [morsefreq]: the peak, the mean frequency of the energy density, the mean frequency of the
    wavelet (its instantaneous frequency at the centre). *)
Theorem C65_frequencies G gamma beta f : is_Gamma G -> 0 < gamma -> 0 < beta -> gmw_l1 gamma beta false = Ok f ->
  exists wm we wi cwi m0 m1 e0 e1, morsefreq_all G gamma beta = Ok (wm, we, wi, cwi) /\
    f wm = 2 /\ (forall w, w <> wm -> f w < 2) /\
    impint f m0 /\ impint (fun w => w * f w) m1 /\
    impint (fun w => (f w) ^ 2) e0 /\ impint (fun w => w * (f w) ^ 2) e1 /\
    0 < m0 /\ 0 < e0 /\ wi = m1 / m0 /\ we = e1 / e0.
Proof. exact (morsefreq_spec G gamma beta f). Qed.
Print Assumptions C65_frequencies.

(** The last output is minus the skewness of the wavelet; its variance is positive, so the
    fractional power is of a positive number. *)
Theorem C65_curvature G gamma beta f : is_Gamma G -> 0 < gamma -> 0 < beta -> gmw_l1 gamma beta false = Ok f ->
  exists wm we wi cwi m0 v t, morsefreq_all G gamma beta = Ok (wm, we, wi, cwi) /\
    impint f m0 /\ impint (fun w => (w - wi) ^ 2 * (f w / m0)) v /\
    impint (fun w => (w - wi) ^ 3 * (f w / m0)) t /\ 0 < v /\ cwi = - (t / Rpower v (3 / 2)).
Proof. exact (morsefreq_curvature G gamma beta f). Qed.
Print Assumptions C65_curvature.

Example C65_case : exists f, gmw_l1 3 60 false = Ok f /\ is_Gamma EulerGamma /\ 0 < f 1.
Proof.
  eexists. split; [apply gmw_l1_ok; lra|]. split; [exact EulerGamma_is_Gamma|].
  apply gmw_l1_positive; lra.
Qed.

(** ** C66 *)
(** Exactly which arguments give a wavelet: an integral float order other than 0 does not. *)
Theorem C66_accepts_partial G gamma beta norm order centered f32 :
  (exists f, gmw G gamma beta norm order centered f32 = Ok f) <->
  (0 < gamma /\ 0 < beta /\ (norm = Bandpass \/ norm = Energy /\ f32 = false) /\
   ((exists k, order = OInt k /\ (0 <= k)%Z) \/ order = OFloat 0)).
Proof. exact (gmw_accepts G gamma beta norm order centered f32). Qed.
Print Assumptions C66_accepts_partial.

(** Float orders 1.0, 2.0, ... pass the argument check and raise TypeError later. *)
Theorem C66_float_order_refuted : exists G gamma beta order, check_order order = Ok tt /\ 0 < gamma /\ 0 < beta /\
  gmw G gamma beta Bandpass order false false = Err TypeError.
Proof. exact float_order_default. Qed.
Print Assumptions C66_float_order_refuted.

(** ** C67 *)
(** The documented peak value 2 at the centre frequency is right for order 0 (C44_gmw_l1) only:
    order 1 has this value there, *)
Theorem C67_order1_value_partial G gamma beta f32 f : is_Gamma G ->
  gmw G gamma beta Bandpass (OInt 1) false f32 = Ok f ->
  f (morsefreq gamma beta) = 2 / sqrt (gamma * (2 * beta + 1)).
Proof. exact (gmw_order1_at_peak G gamma beta f32 f). Qed.
Print Assumptions C67_order1_value_partial.

Theorem C67_order0_partial G gamma beta f32 f : is_Gamma G ->
  gmw G gamma beta Bandpass (OInt 0) false f32 = Ok f ->
  f (morsefreq gamma beta) = 2 /\ forall w, w <> morsefreq gamma beta -> f w < 2.
Proof. exact (gmw_order0_peak G gamma beta f32 f). Qed.
Print Assumptions C67_order0_partial.

(** so not 2 with the default parameters. *)
Theorem C67_peak_refuted : exists G f, is_Gamma G /\ gmw G 3 60 Bandpass (OInt 1) false false = Ok f /\
  f (morsefreq 3 60) <> 2.
Proof. exact order1_default. Qed.
Print Assumptions C67_peak_refuted.

(** ** C68 *)
(** [morsewave] at positive frequencies returns, for each order, exactly the two arrays
    [compute_gmw] returns at scale (centre frequency) / (frequency). *)
Theorem C68_morsewave_partial G N freqs gamma beta K norm : is_Gamma G -> (1 <= N)%nat -> 0 < gamma -> 0 < beta ->
  norm <> OtherNorm -> (forall f, In f freqs -> 0 < f) ->
  exists R0, morsewave G N freqs gamma beta K norm = Ok R0 /\ length R0 = length freqs /\
    forall n k, (n < length freqs)%nat -> (k < K)%nat ->
      length (nth n R0 []) = K /\
      compute_gmw G N (morsefreq gamma beta / nth n freqs 0) gamma beta norm (OInt (Z.of_nat k)) false true false
      = Ok (nth k (nth n R0 []) ([], [])).
Proof. exact (morsewave_compute G N freqs gamma beta K norm). Qed.
Print Assumptions C68_morsewave_partial.

Example C68_case : exists R0, morsewave EulerGamma 8 [1; 1 / 2] 3 60 2 Energy = Ok R0 /\ length R0 = 2%nat.
Proof.
  destruct (C68_morsewave_partial EulerGamma 8 [1; 1 / 2] 3 60 2 Energy) as [R0 [E [L _]]];
    [exact EulerGamma_is_Gamma|lia|lra|lra|discriminate| |exists R0; split; [exact E|exact L]].
  intros f [<-|[<-|[]]]; lra.
Qed.

(** A negative frequency, for which conjugate wavelets are meant, raises for every N > 1. *)
Theorem C68_negative_frequency G N f gamma beta K norm : is_Gamma G -> (2 <= N)%nat -> 0 < gamma -> 0 < beta ->
  norm <> OtherNorm -> f < 0 -> morsewave G N [f] gamma beta K norm = Err ValueError.
Proof. exact (morsewave_negative G N f gamma beta K norm). Qed.
Print Assumptions C68_negative_frequency.

Theorem C68_negative_refuted : exists G N f, is_Gamma G /\ morsewave G N [f] 3 60 1 Bandpass = Err ValueError.
Proof. exact morsewave_negative_default. Qed.
Print Assumptions C68_negative_refuted.

(** [beta = 0] is documented as supported and divides by the centre frequency 0. *)
Theorem C68_beta0 : forall G N f gamma K norm, 0 < gamma -> (1 <= K)%nat -> norm <> OtherNorm ->
  morsewave G N [f] gamma 0 K norm = Err ZeroDivisionError.
Proof. exact morsewave_beta0. Qed.
Print Assumptions C68_beta0.

Theorem C68_beta0_refuted : exists G N f, morsewave G N [f] 3 0 1 Bandpass = Err ZeroDivisionError.
Proof. exact morsewave_beta0_default. Qed.
Print Assumptions C68_beta0_refuted.
