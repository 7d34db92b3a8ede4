(** Properties of the round trips [icwt (cwt x)] and [issq_cwt (ssq_cwt x)]. *)
From Coq Require Import Reals Lra Lia ZifyBool ZifyNat.
From Verif Require Import Py Round Parallel Cplx CplxProofs Padding PaddingProofs Buffer Freqs Squeeze SqueezeProofs SqueezeThms Scales ScaleThms Ssqueeze SsqueezeProofs
  IssqProofs FreqRange SsqWitness Cwt CwtProofs CwtThms CwtThms2 CwtTone CwtWitness CwtWitness2 SsqCwt SsqCwtProofs SsqCwtInv SsqCwtWitness ToneWitness
  Wavelets WaveletProofs GmwThms2 Integral IntegralProofs Admiss AdmissThms AdmissThms2 AdmissThms3
  RoundTrip GainBound RoundTripGain PrimProofs GainBound2 RoundTripGain2 GmwRoundTrip AdmissAcc DefaultRoundTrip SsqRoundTrip RoundTripWitness.
Local Open Scope R_scope.

(** * C104: [icwt] after [cwt] is a filter *)

(** [rt_gain] (RoundTrip.v): the wavelet summed over the scales, at the bin's frequency and its negative, times
    [ln 2 / nv / Css]; [filtered]: the signal with its DFT multiplied by it.  Every signal, padding and scale list
    found to be log *)
Theorem C104_filter py inst f a x s W sc dW s' xp n1 f64 nv Css xl xm pt rp : real_valued f -> uncached inst a s ->
  a_l1 a = true -> a_rpadded a = false ->
  cwt py inst f a x s = (Ok (W, sc, dW), s') -> process_scales_arr f64 sc = Ok (KLog nv) ->
  pad_input (a_pad a) x = Ok (xp, n1) ->
  icwt f Css W sc f64 None true true xl xm pt rp =
  Ok (tab (length x) (fun j => filtered (rt_gain f sc nv Css (length xp)) xp (Z.to_nat n1 + j) + xm)).
Proof. exact (icwt_cwt_filter py inst f a x s W sc dW s' xp n1 f64 nv Css xl xm pt rp). Qed.
Print Assumptions C104_filter.

(** a gain within [eps] of 1 at every occupied bin: the squared error is at most [eps^2] times the padded
    signal's energy about its mean *)
Theorem C104_error py inst f a x s W sc dW s' xp n1 f64 nv Css xl xm pt rp eps : real_valued f -> uncached inst a s ->
  a_l1 a = true -> a_rpadded a = false ->
  cwt py inst f a x s = (Ok (W, sc, dW), s') -> process_scales_arr f64 sc = Ok (KLog nv) ->
  pad_input (a_pad a) x = Ok (xp, n1) -> wf f 0 = C0 -> 0 <= eps ->
  (forall k, (0 < k < length xp)%nat -> dft (length xp) (fun m => RtoC (nth m xp 0)) k = C0 \/
     Rabs (rt_gain f sc nv Css (length xp) k - 1) <= eps) ->
  exists y, icwt f Css W sc f64 None true true xl xm pt rp = Ok y /\ length y = length x /\
    Rsum (length x) (fun j => (nth j y 0 - nth j x 0 - (xm - avg xp)) ^ 2) <=
    eps ^ 2 * Rsum (length xp) (fun i => (nth i xp 0 - avg xp) ^ 2).
Proof. exact (icwt_cwt_error py inst f a x s W sc dW s' xp n1 f64 nv Css xl xm pt rp eps). Qed.
Print Assumptions C104_error.

Example C104_case : exists sc W dW s', process_scales_arr true sc = Ok (KLog 32) /\
  cwt false true (gmw_wave gmw60) (arg_d sc) (tone 1 0 2 8) st0 = (Ok (W, sc, dW), s') /\
  icwt (gmw_wave gmw60) 1 W sc true None true true None 0 PReflect false =
  Ok (tab (length (tone 1 0 2 8)) (fun j => filtered (rt_gain (gmw_wave gmw60) sc 32 1 (length (tone 1 0 2 8))) (tone 1 0 2 8) (0 + j) + 0)).
Proof.
  destruct rt_scales as (sc & Es & Hl & _).
  pose proof (log_scales_inferred true 1 8 32 (fun _ => Ok None) 5%Z sc ltac:(lra) ltac:(lia) Es Hl) as Ep.
  destruct (rt_cwt sc Ep) as (W & dW & s' & E). exists sc, W, (Some dW), s'. split; [exact Ep|]. split; [exact E|].
  assert (Hr : real_valued (gmw_wave gmw60)) by (intros w; reflexivity).
  assert (Hu : uncached true (arg_d sc) st0) by (left; reflexivity).
  exact (C104_filter false true (gmw_wave gmw60) (arg_d sc) _ st0 W sc _ s' _ 0%Z true 32 1 None 0 PReflect false
    Hr Hu eq_refl eq_refl E Ep tone_pad).
Qed.

(** * C105: how far the round trip is from the signal *)

(** any analytic wavelet of finite log-variation [T], [d = ln 2 / nv] the step between scales in log units:
    the gain is within [(d^2/8 T + d delta + tau) / Css] of 1, [delta] bounding the wavelet at the two ends of the
    scale range and [tau] the part of the admissibility integral out of that range *)
Theorem C105_bound py inst f g q V P T a x s W sc dW s' xp n1 f64 nv Css xl xm pt rp tau delta : spectrum f g ->
  log_variation g q V -> (forall a b, 0 < a -> a <= b -> V b - V a <= T) -> (forall w, 0 < w -> 0 <= g w) ->
  log_primitive g P -> uncached inst a s -> a_l1 a = true -> a_rpadded a = false ->
  cwt py inst f a x s = (Ok (W, sc, dW), s') -> process_scales_arr f64 sc = Ok (KLog nv) -> voices sc nv ->
  pad_input (a_pad a) x = Ok (xp, n1) -> 0 < Css -> 0 <= tau -> 0 <= delta ->
  (forall k, (0 < k < length xp)%nat -> dft (length xp) (fun m => RtoC (nth m xp 0)) k = C0 \/
     let lo := nth 0 sc 0 * bin_xi (length xp) k in let hi := nth (length sc - 1) sc 0 * bin_xi (length xp) k in
     Rabs (P hi - P lo - Css) <= tau /\ g lo <= delta /\ g hi <= delta) ->
  let d := ln 2 / IZR nv in
  exists y, icwt f Css W sc f64 None true true xl xm pt rp = Ok y /\ length y = length x /\
    Rsum (length x) (fun j => (nth j y 0 - nth j x 0 - (xm - avg xp)) ^ 2) <=
    ((d ^ 2 / 8 * T + d * delta + tau) / Css) ^ 2 * Rsum (length xp) (fun i => (nth i xp 0 - avg xp) ^ 2).
Proof. exact (icwt_cwt_close2 py inst f g q V P T a x s W sc dW s' xp n1 f64 nv Css xl xm pt rp tau delta). Qed.
Print Assumptions C105_bound.

(** every Generalized Morse Wavelet on the library's log scales *)
Theorem C105_gmw gamma beta g py inst a x st W sc dW st' xp n1 (f64 : bool) mn mx nv fds ds C Css xl xm pt rp tau :
  0 < gamma -> 0 < beta -> gmw_l1 gamma beta false = Ok g ->
  0 < mn < mx -> (1 <= nv)%Z -> make_scales mn mx nv SLog fds ds = Ok sc -> (3 <= length sc)%nat ->
  uncached inst a st -> a_l1 a = true -> a_rpadded a = false ->
  cwt py inst (gmw_wave g) a x st = (Ok (W, sc, dW), st') -> pad_input (a_pad a) x = Ok (xp, n1) ->
  impint (fun w => g w / w) C -> 0 < Css -> Rabs (C - Css) <= tau ->
  (forall k, (0 < k < length xp)%nat -> dft (length xp) (fun m => RtoC (nth m xp 0)) k = C0 \/
     (Rpower (nth 0 sc 0 * bin_xi (length xp) k) gamma <= beta / gamma / 2 /\
      2 * (beta / gamma) <= Rpower (nth (length sc - 1) sc 0 * bin_xi (length xp) k) gamma)) ->
  let d := ln 2 / IZR nv in let delta := 2 * Rpower (exp (1 / 2) / 2) (beta / gamma) in
  exists y, icwt (gmw_wave g) Css W sc f64 None true true xl xm pt rp = Ok y /\ length y = length x /\
    Rsum (length x) (fun j => (nth j y 0 - nth j x 0 - (xm - avg xp)) ^ 2) <=
    ((d ^ 2 / 8 * gmw_variation gamma beta + d * delta + (3 * delta / beta + tau)) / Css) ^ 2 * Rsum (length xp) (fun i => (nth i xp 0 - avg xp) ^ 2).
Proof. intros Hg Hb Ef. exact (gmw_band_round_trip gamma beta g Hg Hb Ef py inst a x st W sc dW st' xp n1 f64 mn mx nv fds ds C Css xl xm pt rp tau). Qed.
Print Assumptions C105_gmw.

(** the default wavelet, 32 voices or more: 3% in root mean square, for any signal whose occupied bins are well
    inside the scale range; [Css] as the library computes it *)
Theorem C105_default py inst a x st W sc dW st' xp n1 (f64 : bool) mn mx nv fds ds Css xl xm pt rp :
  0 < mn < mx -> (32 <= nv)%Z -> make_scales mn mx nv SLog fds ds = Ok sc -> (3 <= length sc)%nat ->
  uncached inst a st -> a_l1 a = true -> a_rpadded a = false ->
  cwt py inst (gmw_wave gmw60) a x st = (Ok (W, sc, dW), st') -> pad_input (a_pad a) x = Ok (xp, n1) ->
  adm_ssq gmw60 = Ok Css ->
  (forall k, (0 < k < length xp)%nat -> dft (length xp) (fun m => RtoC (nth m xp 0)) k = C0 \/
     (nth 0 sc 0 * bin_xi (length xp) k) ^ 3 <= 10 /\ 40 <= (nth (length sc - 1) sc 0 * bin_xi (length xp) k) ^ 3) ->
  exists y, icwt (gmw_wave gmw60) Css W sc f64 None true true xl xm pt rp = Ok y /\ length y = length x /\
    Rsum (length x) (fun j => (nth j y 0 - nth j x 0 - (xm - avg xp)) ^ 2) <=
    (3 / 100) ^ 2 * Rsum (length xp) (fun i => (nth i xp 0 - avg xp) ^ 2).
Proof. exact (default_round_trip py inst a x st W sc dW st' xp n1 f64  mn mx nv fds ds Css xl xm pt rp). Qed.
Print Assumptions C105_default.

(** [issq_cwt] and [icwt] differ by the coefficients under [gamma]: at most [gamma] per scale *)
Theorem C105_ssq_icwt ord py f fam q x s r s' fs kind nv k v ls reach Css pt rp : valid_order ord ->
  q_order q = None -> q_sq q = SqSum -> q_diff q <> DNumeric -> 0 <= ssq_gamma q ->
  ssq_cwt ord py f fam q x s = (Ok r, s') ->
  process_fs_and_t (q_fs q) (q_t q) (length x) = Ok fs ->
  ssq_scales (q_f64s q) (q_scales q) (q_kind q) (ssq_nv q) (length x) = Ok (r_scales r, kind) ->
  process_scales_arr (q_f64 q) (r_scales r) = Ok (KLog nv) ->
  ssq_freqs_of (ssq_o q fs (r_scales r) kind (q_f64 q)) (length x) = Ok (k, v, ls) ->
  freq_grid (q_f64v q) v ls reach -> (ls = true -> length v <= length (r_scales r))%nat ->
  (Z.of_nat (length (r_scales r)) < 2 ^ 62)%Z ->
  (forall i j a, (i < length (r_scales r))%nat -> (j < length x)%nat ->
     ssq_gamma q <= Cabs (el (r_Wx r) i j) -> found r i j = Fin a -> reach a) ->
  exists y z, issq_cwt Css (r_Tx r) None = Ok (One y) /\
    icwt f Css (r_Wx r) (r_scales r) (q_f64 q) None true true None 0 pt rp = Ok z /\ length y = length x /\ length z = length x /\
    forall j, (j < length x)%nat ->
      Rabs (nth j y 0 - nth j z 0) <= INR (length (r_scales r)) * ssq_gamma q * (ln 2 / IZR nv) * (2 / Rabs Css).
Proof. exact (issq_near_icwt ord py f fam q x s r s' fs kind nv k v ls reach Css pt rp). Qed.
Print Assumptions C105_ssq_icwt.

(** hence the same for [issq_cwt (ssq_cwt x)] *)
Theorem C105_ssq_default ord py fam q x s r s' fs kind nv k v ls reach xp n1 mn mx fds ds Css : valid_order ord ->
  q_order q = None -> q_sq q = SqSum -> q_diff q <> DNumeric -> 0 <= ssq_gamma q ->
  (s_cache s = None \/ use_cache true (q_vec q) (q_cache q) = false) ->
  ssq_cwt ord py (gmw_wave gmw60) fam q x s = (Ok r, s') ->
  process_fs_and_t (q_fs q) (q_t q) (length x) = Ok fs ->
  ssq_scales (q_f64s q) (q_scales q) (q_kind q) (ssq_nv q) (length x) = Ok (r_scales r, kind) ->
  0 < mn < mx -> (32 <= nv)%Z -> make_scales mn mx nv SLog fds ds = Ok (r_scales r) -> (3 <= length (r_scales r))%nat ->
  ssq_freqs_of (ssq_o q fs (r_scales r) kind (q_f64 q)) (length x) = Ok (k, v, ls) ->
  freq_grid (q_f64v q) v ls reach -> (ls = true -> length v <= length (r_scales r))%nat ->
  (Z.of_nat (length (r_scales r)) < 2 ^ 62)%Z ->
  (forall i j a, (i < length (r_scales r))%nat -> (j < length x)%nat ->
     ssq_gamma q <= Cabs (el (r_Wx r) i j) -> found r i j = Fin a -> reach a) ->
  pad_input (q_pad q) x = Ok (xp, n1) -> adm_ssq gmw60 = Ok Css ->
  (forall k, (0 < k < length xp)%nat -> dft (length xp) (fun m => RtoC (nth m xp 0)) k = C0 \/
     (nth 0 (r_scales r) 0 * bin_xi (length xp) k) ^ 3 <= 10 /\
     40 <= (nth (length (r_scales r) - 1) (r_scales r) 0 * bin_xi (length xp) k) ^ 3) ->
  exists y e, issq_cwt Css (r_Tx r) None = Ok (One y) /\ length y = length x /\
    (forall j, (j < length x)%nat -> Rabs (nth j y 0 - (nth j x 0 - avg xp + e j)) <=
       INR (length (r_scales r)) * ssq_gamma q * (ln 2 / IZR nv) * (2 / Css)) /\
    Rsum (length x) (fun j => e j ^ 2) <= (3 / 100) ^ 2 * Rsum (length xp) (fun i => (nth i xp 0 - avg xp) ^ 2).
Proof. exact (default_ssq_round_trip ord py fam q x s r s' fs kind nv k v ls reach xp n1 mn mx fds ds Css). Qed.
Print Assumptions C105_ssq_default.

(** two periods in eight samples, scales 1 to 8 *)
Example C105_case : exists sc W dW s' Css y, make_scales 1 8 32 SLog (fun _ => Ok None) 5%Z = Ok sc /\
  cwt false true (gmw_wave gmw60) (arg_d sc) (tone 1 0 2 8) st0 = (Ok (W, sc, dW), s') /\ adm_ssq gmw60 = Ok Css /\
  icwt (gmw_wave gmw60) Css W sc true None true true None (avg (tone 1 0 2 8)) PReflect false = Ok y /\
  Rsum 8 (fun j => (nth j y 0 - nth j (tone 1 0 2 8) 0) ^ 2) <=
  (3 / 100) ^ 2 * Rsum 8 (fun i => (nth i (tone 1 0 2 8) 0 - avg (tone 1 0 2 8)) ^ 2).
Proof.
  destruct rt_setting as (sc & W & dW & s' & Css & Es & Hl & Hu & E & Hp & HC & HH). exists sc, W, dW, s', Css.
  destruct (C105_default false true (arg_d sc) _ st0 W sc dW s' _ 0%Z true 1 8 32 _ _ Css None (avg (tone 1 0 2 8)) PReflect false
    ltac:(lra) ltac:(lia) Es Hl Hu eq_refl eq_refl E Hp HC HH) as (y & Ey & _ & B).
  exists y. split; [exact Es|]. split; [exact E|]. split; [exact HC|]. split; [exact Ey|].
  rewrite tone_length in B. eapply Rle_trans; [|exact B]. right. apply Rsum_ext. intros j Hj. ring.
Qed.
Example C105_ssq_case : exists sc r s' Css y e, make_scales 1 8 32 SLog (fun _ => Ok None) 5%Z = Ok sc /\
  ssq_cwt serial_order false (gmw_wave gmw60) fam0 (arg_s sc) (tone 1 0 2 8) st0 = (Ok r, s') /\ adm_ssq gmw60 = Ok Css /\
  issq_cwt Css (r_Tx r) None = Ok (One y) /\
  (forall j, (j < 8)%nat -> Rabs (nth j y 0 - (nth j (tone 1 0 2 8) 0 - avg (tone 1 0 2 8) + e j)) <=
     INR (length sc) * (1 / 1000) * (ln 2 / 32) * (2 / Css)) /\
  Rsum 8 (fun j => e j ^ 2) <= (3 / 100) ^ 2 * Rsum 8 (fun i => (nth i (tone 1 0 2 8) 0 - avg (tone 1 0 2 8)) ^ 2).
Proof.
  destruct rt_setting as (sc & W & dW & s0 & Css & Es & Hl & _ & _ & Hp & HC & HH).
  pose proof (log_scales_inferred true 1 8 32 (fun _ => Ok None) 5%Z sc ltac:(lra) ltac:(lia) Es Hl) as Ep.
  destruct (rt_ssq sc Ep) as (r & s' & E & Hsc). destruct (arg_s_grid sc 32 Ep) as (Ef & Eg & _).
  pose proof (library_voices 1 8 32 _ _ sc ltac:(lra) ltac:(lia) Es) as Hv. pose proof Hv as (_ & Hv0 & _).
  assert (Hpos : forall i, (i < length sc)%nat -> 0 < nth i sc 0).
  { intros i Hi. rewrite (voices_nth sc 32 i Hv Hi). apply Rmult_lt_0_compat; [exact Hv0|apply exp_pos]. }
  pose proof (rt_len sc Es) as Hlen.
  destruct (C105_ssq_default serial_order false fam0 (arg_s sc) (tone 1 0 2 8) st0 r s' 1 SLog 32 (Some (KLog 32)) (freqs_s sc) true (reach_log (freqs_s sc) 0)
     (tone 1 0 2 8) 0 1 8 (fun _ => Ok None) 5%Z Css) as (y & e & Ey & _ & B1 & B2); rewrite ?Hsc, ?tone_length; try assumption; try reflexivity; try lia; try lra.
  - apply serial_order_valid.
  - discriminate.
  - unfold ssq_gamma. cbn [arg_s q_gamma]. lra.
  - left; reflexivity.
  - apply (arg_s_scales sc 32), Ep.
  - intros _. unfold freqs_s. rewrite log_freqs_length. lia.
  - intros i j a Hi Hj Hab Hf. apply (rt_found sc r s' i j a); assumption.
  - exists sc, r, s', Css, y, e. rewrite Hsc, tone_length in *. repeat split; assumption.
Qed.

(** * C94, C95: accuracy of the admissibility constants *)

(** a unimodal integrand (peak [M] at [c]) with primitive [P]: the computed value is near [P B - P 1e-15] for any
    [B] past the range used; [tiny] is the stopping threshold.  The second bound: a peak past 0.11 *)
Theorem C94_accuracy fn P c M v B : unimodal fn c M -> primitive fn P ->
  integrate_analytic fn false = Ok (v, false) -> 160 <= B ->
  Rabs (v - (P B - P (1 / 10 ^ 15))) <= M / 100 + tiny * B /\
  (11 / 100 <= c -> Rabs (v - (P B - P (1 / 10 ^ 15))) <= 3 / 1000 * M + 4 / 1000 * fn (11 / 100) + tiny * B).
Proof. intros Hf HP. exact (integrate_accuracy fn P c M Hf HP v B). Qed.
Print Assumptions C94_accuracy.

(** the exact value of the integral is (2/3)(e/20)^20 19! ([default_integral], DefaultRoundTrip.v), [fact_19] being 19! *)
Theorem C95_default_value : exists v, adm_ssq gmw60 = Ok v /\
  Rabs (2 / 3 * (exp 20 / 20 ^ 20) * fact_19 - v) <= 1 / 400 /\ 3675 / 10000 <= v.
Proof. exact default_adm_ssq. Qed.
Print Assumptions C95_default_value.

Theorem C95_default_exact : impint (fun w => gmw60 w / w) (2 / 3 * (exp 20 / 20 ^ 20) * fact_19).
Proof. exact default_integral. Qed.
Print Assumptions C95_default_exact.

Example C95_value_case : IZR (Z.of_nat 19) = 19 /\ fact_19 = 121645100408832000 /\ exists v, adm_ssq gmw60 = Ok v /\ 0.3675 <= v.
Proof.
  split; [reflexivity|]. split; [reflexivity|]. destruct C95_default_value as (v & E & _ & H). exists v. split; [exact E|]. lra.
Qed.
