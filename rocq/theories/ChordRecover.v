(** The tones of a chord come back from their rows within 3%. *)
From Coq Require Import Reals Lra Lia List ZifyBool ZifyNat.
Import ListNotations.
From Verif Require SsqRoundTrip.
From Verif Require Import Py Round Parallel Cplx CplxProofs Padding PaddingProofs Buffer Freqs Squeeze SqueezeProofs SqueezeThms Scales Ssqueeze
  Cwt CwtProofs CwtThms CwtThms2 CwtTone SsqCwt SsqCwtProofs SsqCwtInv Wavelets WaveletProofs Integral IntegralProofs Admiss AdmissThms AdmissThms2 AdmissThms3
  RoundTrip GainBound RoundTripGain RoundTripGain2 GmwRoundTrip DefaultRoundTrip ToneThms Separate OctaveSep ChordSep Reassign ChordSqueeze.
Local Open Scope R_scope.

Lemma full_gain_rt f g sc nv Css k n : spectrum f g -> (forall i, (i < length sc)%nat -> 0 < nth i sc 0) -> (0 < k)%nat -> (2 * k < n)%nat -> Css <> 0 -> (0 < nv)%Z ->
  full_gain f sc nv k n / Css = rt_gain f sc nv Css n k.
Proof.
  intros Hf Hp Hk H2 HC Hnv. unfold rt_gain. destruct (Nat.eqb_spec (2 * k) n); [lia|].
  assert (Hx := bin_xi_pos n k ltac:(lia)). rewrite (bank_neg f g sc (- bin_xi n k) Hf Hp) by lra.
  unfold full_gain. rewrite IssqProofs.Rsum_scal_r. unfold bank, response, bin_xi. rewrite Nat.min_l by lia. field. split; [|exact HC]. apply not_0_IZR. lia.
Qed.

(** gain of the default wavelet at a frequency inside the scales *)
Theorem default_gain sc nv Css n k : voices sc nv -> (32 <= nv)%Z -> (0 < length sc)%nat -> adm_ssq gmw60 = Ok Css -> (0 < k < n)%nat ->
  (nth 0 sc 0 * bin_xi n k) ^ 3 <= 10 -> 40 <= (nth (length sc - 1) sc 0 * bin_xi n k) ^ 3 ->
  0 < Css /\ Rabs (rt_gain (gmw_wave gmw60) sc nv Css n k - 1) <= 3 / 100.
Proof.
  intros Hv Hnv HL HC Hk B1 B2. destruct default_adm_ssq as (v & Ev & Hv0 & Lv). rewrite Ev in HC. injection HC as <-. split; [lra|].
  assert (E0 := default_gmw). destruct (gmw_primitive 3 60 gmw60 ltac:(lra) ltac:(lra) E0) as (P & P1 & P2).
  destruct (gmw_log_variation 3 60 gmw60 ltac:(lra) ltac:(lra) E0) as (V & V1 & V2).
  assert (Hs := gmw_spectrum 3 60 gmw60 ltac:(lra) ltac:(lra) E0).
  pose proof (rt_gain_bound2 (gmw_wave gmw60) gmw60 _ V P (gmw_variation 3 60) sc nv v n k Hs V1 V2 P1 Hv HL ltac:(lra) Hk) as GB. cbv zeta in GB.
  pose proof (bin_xi_pos n k Hk) as Hx. pose proof Hv as (Hv1 & Hv2 & _).
  set (lo := nth 0 sc 0 * bin_xi n k) in *. set (hi := nth (length sc - 1) sc 0 * bin_xi n k) in *.
  assert (Hlo : 0 < lo) by (apply Rmult_lt_0_compat; assumption).
  set (d := ln 2 / IZR nv) in *. assert (Hnv' : 32 <= IZR nv) by (apply IZR_le; lia).
  assert (Hd : 0 < d <= 22 / 1000).
  { unfold d. pose proof ln2_high. pose proof ln2_pos. split; [apply Rdiv_lt_0_compat; lra|].
    apply (Rmult_le_reg_r (IZR nv)); [lra|]. unfold Rdiv. rewrite Rmult_assoc, Rinv_l by lra. lra. }
  assert (Hlh : lo <= hi).
  { apply Rmult_le_compat_r; [lra|]. rewrite (voices_nth sc nv (length sc - 1) Hv) by lia.
    assert (0 <= INR (length sc - 1) * (ln 2 / IZR nv)) by (apply Rmult_le_pos; [apply pos_INR|fold d; lra]).
    pose proof (exp_ineq1_le (INR (length sc - 1) * (ln 2 / IZR nv))). nra. }
  pose proof (gmw_low 3 60 gmw60 ltac:(lra) ltac:(lra) E0 lo Hlo) as G1. pose proof (gmw_high 3 60 gmw60 ltac:(lra) ltac:(lra) E0 hi ltac:(lra)) as G2.
  pose proof (band_integral 3 60 gmw60 ltac:(lra) ltac:(lra) E0 P _ lo hi P1 P2 default_integral (conj Hlo Hlh)) as BI.
  rewrite !Rpower_3 in * by lra. specialize (G1 ltac:(lra)). specialize (G2 ltac:(lra)). specialize (BI ltac:(lra) ltac:(lra)).
  pose proof default_variation as T. destruct default_delta as (D0 & D1). set (delta := 2 * Rpower _ _) in *. set (Va := gmw_variation 3 60) in *.
  pose proof (gmw60_pos lo Hlo) as Q1. pose proof (gmw60_pos hi ltac:(lra)) as Q2. set (C := 2 / 3 * (exp 20 / 20 ^ 20) * fact_19) in *.
  apply AdmissAcc.abs_le_inv in Hv0. set (I := P hi - P lo) in *. set (e := d / 2 * (gmw60 lo + gmw60 hi)) in *.
  assert (He : 0 <= e <= 22 / 1000 * (46 / 1000)).
  { unfold e. split; [apply Rmult_le_pos; lra|]. apply Rle_trans with (22 / 1000 / 2 * (46 / 1000 + 46 / 1000)); [apply Rmult_le_compat; lra|lra]. }
  assert (HVa : 0 <= Va) by (specialize (V2 1 1 ltac:(lra) ltac:(lra)); lra).
  assert (Hq : d ^ 2 / 8 * Va <= (22 / 1000) ^ 2 / 8 * 67).
  { assert (d ^ 2 <= (22 / 1000) ^ 2) by (apply pow_incr; lra). apply Rmult_le_compat; [pose proof (pow2_ge_0 d); lra|exact HVa|lra|exact T]. }
  set (G := rt_gain _ _ _ _ _ _) in *.
  replace (G - 1) with ((G - (I + e) / v) + (I + e - v) / v) by (field; lra). eapply Rle_trans; [apply Rabs_triang|].
  assert (K1 : d ^ 2 / 8 * Va / v <= (22 / 1000) ^ 2 / 8 * 67 / v) by (apply Rmult_le_compat_r; [left; apply Rinv_0_lt_compat; lra|exact Hq]).
  assert (K2 : Rabs ((I + e - v) / v) <= (1 / 400 + 3 * (46 / 1000) / 60 + 22 / 1000 * (46 / 1000)) / v).
  { unfold Rdiv at 1. rewrite Rabs_mult, (Rabs_right (/ v)) by (apply Rle_ge; left; apply Rinv_0_lt_compat; lra).
    apply Rmult_le_compat_r; [left; apply Rinv_0_lt_compat; lra|]. apply Rabs_le. lra. }
  assert (K3 : ((22 / 1000) ^ 2 / 8 * 67 + (1 / 400 + 3 * (46 / 1000) / 60 + 22 / 1000 * (46 / 1000))) / v <= 3 / 100).
  { apply (Rmult_le_reg_r v); [lra|]. unfold Rdiv at 1. rewrite Rmult_assoc, Rinv_l by lra. lra. }
  unfold Rdiv in *. lra.
Qed.

(** each tone within 3% of its amplitude, plus what the threshold drops *)
Theorem chord_recovered ord py fam q M A phi k n s out s' fs nv d Css rho cc cw :
  chord_run ord py fam q M A phi k n s out s' fs nv d -> adm_ssq gmw60 = Ok Css -> (32 <= nv)%Z -> voices (r_scales out) nv ->
  (forall r, (r < M)%nat -> (nth 0 (r_scales out) 0 * (2 * PI * INR (k r) / INR n)) ^ 3 <= 10 /\
     40 <= (nth (length (r_scales out) - 1) (r_scales out) 0 * (2 * PI * INR (k r) / INR n)) ^ 3) -> (0 < M)%nat ->
  (forall r, (r < M)%nat -> nearest_row out (tone_freq fs (k r) n) (rho r)) ->
  nrows cc = n -> ncols cc = M -> nrows cw = n -> ncols cw = M ->
  (forall j r, (j < n)%nat -> (r < M)%nat -> (0 <= el cc j r)%Z /\ (Z.abs (el cc j r - Z.of_nat (rho r)) + 1 <= el cw j r)%Z) ->
  (forall j r r', (j < n)%nat -> (r < M)%nat -> (r' < M)%nat -> r' <> r -> (el cw j r + 1 < Z.abs (el cc j r - Z.of_nat (rho r')))%Z) ->
  exists xs, issq_cwt Css (r_Tx out) (Some (cc, cw)) = Ok (Many xs) /\ length xs = S M /\ nth M xs [] = repeat 0 n /\
  forall r, (r < M)%nat -> length (nth r xs []) = n /\
    forall j, (j < n)%nat -> Rabs (nth j (nth r xs []) 0 - nth j (tone (A r) (phi r) (k r) n) 0)
      <= 3 / 100 * Rabs (A r) + 11 * ssq_gamma q * (INR (length (r_scales out)) * (ln 2 / IZR nv)).
Proof.
  intros H HC Hnv Hv Hb HM Hrho Hc1 Hc2 Hw1 Hw2 Hband Hother.
  assert (HC0 : 37 / 100 - 1 / 400 <= Css).
  { destruct default_adm_ssq as (v & Ev & E1 & E2). rewrite Ev in HC. injection HC as <-. pose proof default_const_low. apply AdmissAcc.abs_le_inv in E1. lra. }
  destruct (chord_components ord py fam q M A phi k n s out s' fs nv d H Css rho cc cw ltac:(lra) HM Hrho Hc1 Hc2 Hw1 Hw2 Hband Hother) as (xs & E & L & Z & B).
  exists xs. split; [exact E|]. split; [exact L|]. split; [exact Z|]. intros r Hr. destruct (B r Hr) as (B1 & B2). split; [exact B1|]. intros j Hj. specialize (B2 j Hj).
  pose proof H as (R & _ & Hk & Hn & _ & _ & Hpos & Hg & _). destruct (Hk r Hr) as (K1 & K2). destruct (Hb r Hr) as (L1 & L2).
  assert (HL : (0 < length (r_scales out))%nat) by (destruct R as (_ & _ & _ & _ & P & _); apply process_log_len in P; lia).
  assert (Eb : bin_xi n (k r) = 2 * PI * INR (k r) / INR n) by (unfold bin_xi; rewrite Nat.min_l by lia; reflexivity).
  destruct (default_gain (r_scales out) nv Css n (k r) Hv Hnv HL HC ltac:(lia)) as (_ & G); [rewrite Eb; exact L1|rewrite Eb; exact L2|].
  rewrite <- (full_gain_rt _ gmw60) in G; [|apply (gmw_spectrum 3 60 gmw60 ltac:(lra) ltac:(lra) default_gmw)|exact Hpos|exact K1|exact K2|lra|lia].
  unfold tone in B2 |- *. rewrite nth_tab in * by exact Hj. set (y := nth j _ 0) in *. set (co := cos _) in *. set (Q := full_gain _ _ _ _ _ / Css) in *.
  replace (y - A r * co) with ((y - A r * Q * co) + A r * (Q - 1) * co) by ring. eapply Rle_trans; [apply Rabs_triang|]. rewrite Rplus_comm. apply Rplus_le_compat.
  - rewrite !Rabs_mult. assert (Rabs co <= 1) by (apply Rabs_le; apply COS_bound). pose proof (Rabs_pos (A r)). pose proof (Rabs_pos (Q - 1)). pose proof (Rabs_pos co).
    assert (Rabs (A r) * Rabs (Q - 1) <= Rabs (A r) * (3 / 100)) by (apply Rmult_le_compat_l; lra).
    assert (Rabs (A r) * Rabs (Q - 1) * Rabs co <= Rabs (A r) * Rabs (Q - 1) * 1) by (apply Rmult_le_compat_l; [apply Rmult_le_pos|]; lra). lra.
  - eapply Rle_trans; [exact B2|]. assert (0 <= INR (length (r_scales out)) * (ln 2 / IZR nv)).
    { apply Rmult_le_pos; [apply pos_INR|]. left. apply Rdiv_lt_0_compat; [apply ln2_pos|apply IZR_lt; lia]. }
    set (l := INR _ * _) in *. apply (Rmult_le_reg_r Css); [lra|]. unfold Rdiv. rewrite Rmult_assoc, Rinv_l, Rmult_1_r by lra.
    assert (0 <= ssq_gamma q * l) by (apply Rmult_le_pos; lra). nra.
Qed.
