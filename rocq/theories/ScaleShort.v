(** The default wavelet on five samples, 'log:maximal': the bounds are out of order and the
    scales run past [max_scale]. *)
From Coq Require Import Reals Lra ZifyBool ZifyNat.
From Verif Require Import Py Round Cplx CplxProofs Padding PaddingProofs Freqs ShiftProofs Squeeze BinProofs SqueezeThms2 SqueezeThms3
  Scales ScaleThms Resol Search SearchProofs Wavelets WaveletProofs SearchGmw ScaleBounds ScaleBoundsProofs ScaleBoundsThms
  ScaleBoundsThms2 ScaleBoundsThms3.
Local Open Scope R_scope.

Theorem short_past_max fds : exists g fuel mn mx l, gmw_l1 3 60 false = Ok g /\
  cwt_scalebounds g 5 (Some Maximal) (BA None None None None None) true fuel = Some (Ok (mn, Some mx)) /\
  process_scales_str g 5 SLog (Some Maximal) 32 fds 1 true fuel = Some (Ok l) /\
  (2 <= length l)%nat /\ mx < last l 0.
Proof.
  destruct gmw_maximal_empty as (g & fuel & mn & mx & E & Eb & L).
  assert (HP : one_peak g (Rpower (60 / 3) (1 / 3))).
  { pose proof (gmw_l1_ok 3 60 false ltac:(lra) ltac:(lra)) as E'. rewrite E in E'. injection E' as ->.
    pose proof root20. apply gmw_one_peak; auto; lra. }
  assert (Hg : forall w, 0 <= g w) by (intros w; apply (gmw_nonneg 3 60 g ltac:(lra) ltac:(lra) E)).
  destruct (maximal_short g _ 5 (BA None None None None None) fuel _ _ HP Hg ltac:(lia) eq_refl eq_refl Eb) as [_ E0].
  injection E0 as ->.
  assert (El : process_scales_str g 5 SLog (Some Maximal) 32 fds 1 true fuel = Some (make_scales mn 5 32 SLog fds 1)).
  { unfold process_scales_str. change (32 <=? 0)%Z with false. cbv iota. cbn [split_preset]. rewrite Eb. cbn [rbind].
    unfold make_scales_bounds, or_real. destruct (Req_EM_T mn 0); [lra|]. destruct (Req_EM_T 0 0); [|lra].
    do 2 f_equal. cbn. lra. }
  unfold make_scales in El. cbv zeta in El. set (l := pow2_arange _ _ _) in El.
  destruct (named_reach_nyquist g 5 SLog (Some Maximal) 32 fds 1 true fuel l ltac:(discriminate) El)
    as (wp & mn' & mx' & Ep & Eb' & Hw & _).
  cbn [split_preset] in Eb'. rewrite Eb in Eb'. injection Eb' as <- <-.
  pose proof (wp_close g _ fuel wp _ HP Ep) as Hc. pose proof root20 as R20. pose proof PI2_3_2 as Hpi.
  assert (Hwp : wp < 4) by lra.
  assert (Hmn : mn < 2) by nra.
  assert (Hlen : (2 <= length l)%nat).
  { unfold l, pow2_arange. rewrite tab_length.
    pose proof (Rceil_bounds (32 * log2 (5 / mn))) as [Hb _].
    assert (1 < log2 (5 / mn)).
    { rewrite <- log2_2. unfold log2. apply Rmult_lt_compat_r; [apply Rinv_0_lt_compat, ln2_pos|].
      apply ln_increasing; [lra|]. apply Rmult_lt_reg_r with mn; [lra|]. unfold Rdiv. rewrite Rmult_assoc, Rinv_l; lra. }
    assert (2 < IZR (Rceil (32 * log2 (5 / mn)))) by lra.
    apply lt_IZR in H0. lia. }
  exists g, fuel, mn, 0, l. repeat split; auto.
  rewrite <- nth_last_R by (intros Q; rewrite Q in Hlen; cbn in Hlen; lia). unfold l, pow2_arange. rewrite tab_length, nth_tab.
  - apply exp_pos.
  - unfold l, pow2_arange in Hlen. rewrite tab_length in Hlen. lia.
Qed.
