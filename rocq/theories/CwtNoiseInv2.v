(** Taking a tone out of noise with [issq_cwt], with the default wavelet. *)
From Coq Require Import Reals Lra Lia List ZifyBool ZifyNat.
Import ListNotations.
From Verif Require SsqRoundTrip AdmissAcc.
From Verif Require Import Py Round Parallel Cplx CplxProofs Padding PaddingProofs Buffer Freqs Squeeze SqueezeThms Scales ScaleThms SsqWitness Cwt CwtProofs CwtThms CwtTone
  CwtWitness CwtWitness2 SqueezeProofs SqueezeThms2 SqueezeThms3 Ssqueeze SsqueezeProofs IssqProofs SsqThms FreqRange CwtThms2 SsqCwt SsqCwtProofs SsqCwtInv SsqCwtWitness ToneWitness Wavelets WaveletProofs Admiss AdmissThms AdmissThms2 AdmissThms3 Integral IntegralProofs
  RoundTrip GainBound RoundTripGain RoundTripGain2 GmwRoundTrip DefaultRoundTrip RoundTripWitness ToneThms Separate OctaveSep ChordSep Reassign ChordSqueeze ChordRecover ChordWitness CwtEnergyWitness CwtNoise CwtNoiseSsq CwtNoiseInv CwtNoiseWit.
Local Open Scope R_scope.

Theorem default_noisy ord py fam q y A phi k n s out s' fs nv d rho Css cc cw :
  noisy_run ord py (gmw_wave gmw60) fam q y k n s out s' fs nv d 2 rho -> adm_ssq gmw60 = Ok Css -> (32 <= nv)%Z -> voices (r_scales out) nv ->
  (forall i, (i < length (r_scales out))%nat -> 0 < nth i (r_scales out) 0) ->
  (nth 0 (r_scales out) 0 * (2 * PI * INR k / INR n)) ^ 3 <= 10 -> 40 <= (nth (length (r_scales out) - 1) (r_scales out) 0 * (2 * PI * INR k / INR n)) ^ 3 ->
  nrows cc = n -> ncols cc = 1%nat -> nrows cw = n -> ncols cw = 1%nat ->
  (forall j, (j < n)%nat -> (0 <= el cc j 0)%Z /\ (Z.abs (el cc j 0%nat - Z.of_nat rho) + 1 <= el cw j 0%nat)%Z) ->
  let nu := 2 * dist2 y (tone A phi k n) in
  let near := err_near (gmw_wave gmw60) (r_scales out) nv nu d (ssq_gamma q) A k n in
  let far := err_far (gmw_wave gmw60) (r_scales out) nv nu d A k n in
  exists z r x, issq_cwt Css (r_Tx out) (Some (cc, cw)) = Ok (Many [z; r]) /\ issq_cwt Css (r_Tx out) None = Ok (One x) /\
    length z = n /\ length r = n /\ length x = n /\
  forall j, (j < n)%nat ->
    Rabs (nth j z 0 - nth j (tone A phi k n) 0) <= 3 / 100 * Rabs A + 11 / 2 * near /\
    Rabs (nth j x 0 - nth j (tone A phi k n) 0) <= 3 / 100 * Rabs A + 11 / 2 * near /\
    Rabs (nth j r 0) <= 11 / 2 * far.
Proof.
  intros H HC Hnv Hv Hpos L1 L2 Hc1 Hc2 Hw1 Hw2 Hband nu near far.
  assert (HC0 : 37 / 100 - 1 / 400 <= Css).
  { destruct default_adm_ssq as (v & Ev & E1 & E2). rewrite Ev in HC. injection HC as <-. pose proof default_const_low. apply AdmissAcc.abs_le_inv in E1. lra. }
  assert (HCp : 0 < Css) by lra. pose proof H as (R & _ & _ & _ & _ & _ & _ & K1 & K2 & _ & Hg & _).
  destruct (noisy_extracted ord py (gmw_wave gmw60) fam q y A phi k n s out s' fs nv d 2 rho H Css HCp cc cw Hc1 Hc2 Hw1 Hw2 Hband) as (z & r & E & Lz & Lr & B).
  destruct (noisy_inverted ord py (gmw_wave gmw60) fam q y A phi k n s out s' fs nv d 2 rho H Css HCp) as (x & Ex & Lx & Bx).
  exists z, r, x. split; [exact E|]. split; [exact Ex|]. split; [exact Lz|]. split; [exact Lr|]. split; [exact Lx|]. intros j Hj. destruct (B j Hj) as (B1 & B2). specialize (Bx j Hj).
  fold nu in B1, B2, Bx. fold near in B1, Bx. fold far in B2.
  assert (HL : (0 < length (r_scales out))%nat) by (destruct R as (_ & _ & _ & _ & P & _); apply process_log_len in P; lia).
  assert (Eb : bin_xi n k = 2 * PI * INR k / INR n) by (unfold bin_xi; rewrite Nat.min_l by lia; reflexivity).
  destruct (default_gain (r_scales out) nv Css n k Hv Hnv HL HC ltac:(lia)) as (_ & G); [rewrite Eb; exact L1|rewrite Eb; exact L2|].
  rewrite <- (full_gain_rt _ gmw60) in G; [|apply (gmw_spectrum 3 60 gmw60 ltac:(lra) ltac:(lra) default_gmw)|exact Hpos|exact K1|exact K2|lra|lia].
  assert (Hkap : 0 < ln 2 / IZR nv) by (apply Rdiv_lt_0_compat; [apply ln2_pos|apply IZR_lt; lia]).
  assert (Hnu : 0 <= nu) by (unfold nu; pose proof (sqrt_pos (Rsum (length y) (fun m => (nth m y 0 - nth m (tone A phi k n) 0) ^ 2))); unfold dist2; lra).
  assert (Hsz : forall i, 0 <= size (gmw_wave gmw60) A (nth i (r_scales out) 0) k n) by (intros; apply Rabs_pos).
  assert (N0 : 0 <= near). { unfold near, err_near. apply Rmult_le_pos; [lra|]. apply Rsum_nonneg. intros i _. specialize (Hsz i). destruct (clear _ _ _ _ _); lra. }
  assert (F0 : 0 <= far). { unfold far, err_far. apply Rmult_le_pos; [lra|]. apply Rsum_nonneg. intros i _. specialize (Hsz i). destruct (clear _ _ _ _ _); lra. }
  assert (HCi : 2 / Css <= 11 / 2) by (apply (Rmult_le_reg_r Css); [lra|]; unfold Rdiv at 1; rewrite Rmult_assoc, Rinv_l by lra; lra).
  assert (X : forall v, Rabs (v - nth j (tone (A * (full_gain (gmw_wave gmw60) (r_scales out) nv k n / Css)) phi k n) 0) <= 2 / Css * near ->
    Rabs (v - nth j (tone A phi k n) 0) <= 3 / 100 * Rabs A + 11 / 2 * near).
  { intros v Hvv. unfold tone in Hvv |- *. rewrite nth_tab in * by exact Hj. set (co := cos _) in *. set (Q := full_gain _ _ _ _ _ / Css) in *.
    replace (v - A * co) with ((v - A * Q * co) + A * (Q - 1) * co) by ring. eapply Rle_trans; [apply Rabs_triang|]. rewrite Rplus_comm. apply Rplus_le_compat.
    - rewrite !Rabs_mult. assert (Rabs co <= 1) by (apply Rabs_le; apply COS_bound). pose proof (Rabs_pos A). pose proof (Rabs_pos (Q - 1)). pose proof (Rabs_pos co).
      assert (Rabs A * Rabs (Q - 1) <= Rabs A * (3 / 100)) by (apply Rmult_le_compat_l; lra).
      assert (Rabs A * Rabs (Q - 1) * Rabs co <= Rabs A * Rabs (Q - 1) * 1) by (apply Rmult_le_compat_l; [apply Rmult_le_pos|]; lra). lra.
    - eapply Rle_trans; [exact Hvv|]. apply Rmult_le_compat_r; assumption. }
  split; [apply X, B1|]. split; [apply X, Bx|]. eapply Rle_trans; [exact B2|]. apply Rmult_le_compat_r; assumption.
Qed.

(** 8 periods in 32 samples, sample 5 off by 1e-6, a band of three rows *)
Theorem default_noisy_case : exists sc out s' d rho Css cc cw,
  make_scales 1 64 32 SLog (fun _ => Ok None) 5%Z = Ok sc /\ r_scales out = sc /\
  noisy_run serial_order false (gmw_wave gmw60) fam0 (arg_s sc) (noisy 8) 8 32 st0 out s' 1 32 d 2 rho /\ adm_ssq gmw60 = Ok Css /\ voices sc 32 /\
  (forall i, (i < length sc)%nat -> 0 < nth i sc 0) /\
  (nth 0 sc 0 * (2 * PI * INR 8 / INR 32)) ^ 3 <= 10 /\ 40 <= (nth (length sc - 1) sc 0 * (2 * PI * INR 8 / INR 32)) ^ 3 /\
  nrows cc = 32%nat /\ ncols cc = 1%nat /\ nrows cw = 32%nat /\ ncols cw = 1%nat /\
  (forall j, (j < 32)%nat -> (0 <= el cc j 0)%Z /\ (Z.abs (el cc j 0%nat - Z.of_nat rho) + 1 <= el cw j 0%nat)%Z) /\
  dist2 (noisy 8) (tone 1 0 8 32) = 1 / 10 ^ 6.
Proof.
  destruct (noisy_runs 8 ltac:(lia) ltac:(lia)) as (sc & out & s' & d & rho & Es & Esc & R & Hv & HL & (H0 & H0') & H1 & Hd). destruct default_adm_ssq as (v & Ev & _).
  exists sc, out, s', d, rho, v, (Mat 32 1 (fun _ _ => Z.of_nat rho)), (Mat 32 1 (fun _ _ => 1%Z)).
  split; [exact Es|]. split; [exact Esc|]. split; [exact R|]. split; [exact Ev|]. split; [exact Hv|].
  assert (Hs : 0 < nth 0 sc 0) by (eapply Rlt_trans; [|exact H0]; apply Rdiv_lt_0_compat; [lra|apply exp_pos]).
  split; [intros i Hi; rewrite (voices_nth sc 32 i Hv Hi); apply Rmult_lt_0_compat; [exact Hs|apply exp_pos]|].
  pose proof PI2_3_2. pose proof PI_4. replace (2 * PI * INR 8 / INR 32) with (PI / 2) by (rewrite !INR_IZR_INZ; cbn; field).
  assert (Ha : 0 <= nth 0 sc 0 * (PI / 2) <= 2) by (split; [apply Rmult_le_pos; lra|replace 2 with (1 * 2) at 2 by lra; apply Rmult_le_compat; lra]).
  assert (Hb : 32 <= nth (length sc - 1) sc 0 * (PI / 2)) by (replace 32 with (32 * 1) by lra; apply Rmult_le_compat; lra).
  pose proof (pow_incr _ _ 3 Ha). assert (Hz : 0 <= 32) by lra. pose proof (pow_incr _ _ 3 (conj Hz Hb)). split; [lra|]. split; [lra|].
  split; [reflexivity|]. split; [reflexivity|]. split; [reflexivity|]. split; [reflexivity|]. split; [intros j _; cbn [el]; lia|apply noisy_dist].
Qed.
