(** A concrete noisy chord: 1 and 14 periods in 32 samples, a disturbed sample, the default wavelet, 32 voices from scale 1 to 64. *)
From Coq Require Import Reals Lra Lia List ZifyBool ZifyNat.
Import ListNotations.
From Verif Require Import Py Round Parallel Cplx CplxProofs Padding PaddingProofs Buffer Freqs Squeeze SqueezeThms Scales ScaleThms SsqWitness Cwt CwtProofs CwtThms CwtTone
  CwtWitness CwtWitness2 SqueezeProofs SqueezeThms2 SqueezeThms3 Ssqueeze SsqueezeProofs IssqProofs SsqThms FreqRange CwtThms2 SsqCwt SsqCwtProofs SsqCwtInv SsqCwtWitness ToneWitness Wavelets WaveletProofs Admiss AdmissThms AdmissThms2 AdmissThms3 Integral IntegralProofs
  RoundTrip GainBound RoundTripGain GmwRoundTrip DefaultRoundTrip RoundTripWitness ToneThms Separate OctaveSep ChordSep Reassign ChordSqueeze ChordWitness CwtEnergyWitness CwtNoise CwtNoiseSsq CwtNoiseWit ChordNoise ChordNoiseInv.
Local Open Scope R_scope.

Definition pair_A (r : nat) : R := 1.
Definition pair_phi (r : nat) : R := 0.
Definition pair_k (r : nat) : nat := match r with O => 1 | _ => 14 end.
Definition noisy2 : list R := tab 32 (fun m => nth m (chord 2 pair_A pair_phi pair_k 32) 0 + if (m =? 5)%nat then 1 / 10 ^ 6 else 0).
Lemma noisy2_length : length noisy2 = 32%nat.
Proof. apply tab_length. Qed.
Lemma noisy2_dist : dist2 noisy2 (chord 2 pair_A pair_phi pair_k 32) = 1 / 10 ^ 6.
Proof.
  unfold dist2. rewrite noisy2_length, (Rsum_single 32 _ 5 ltac:(lia)).
  - unfold noisy2. rewrite nth_tab by lia. rewrite Nat.eqb_refl. set (u := nth 5 _ 0). replace (u + 1 / 10 ^ 6 - u) with (1 / 10 ^ 6) by ring. apply sqrt_pow2. lra.
  - intros m Hm Hne. unfold noisy2. rewrite nth_tab by lia. destruct (Nat.eqb_spec m 5); [contradiction|]. ring.
Qed.
Lemma noisy2_norm : norm2 noisy2 <= 20.
Proof.
  unfold norm2. rewrite noisy2_length. rewrite <- (sqrt_pow2 20) by lra. apply sqrt_le_1_alt. replace (20 ^ 2) with (INR 32 * (25 / 2)) by (rewrite INR_IZR_INZ; cbn; lra).
  rewrite <- (Rsum_const 32 (25 / 2)). apply Rsum_le. intros m Hm. unfold noisy2. rewrite nth_tab by exact Hm. unfold chord. rewrite nth_tab by exact Hm. cbn [Rsum]. unfold pair_A.
  match goal with |- (0 + 1 * cos ?t + 1 * cos ?t' + ?e) ^ 2 <= _ => pose proof (COS_bound t); pose proof (COS_bound t'); assert (0 <= e <= 1) by (destruct (m =? 5)%nat; lra); set (u := cos t) in *; set (u' := cos t') in *; set (v := e) in * end.
  clearbody u u' v. set (z := 0 + 1 * u + 1 * u' + v). assert (-2 <= z <= 3) by (unfold z; lra). nra.
Qed.

Theorem noisy2_case : exists sc out s' d (rho : nat -> nat) Css cc cw,
  make_scales 1 64 32 SLog (fun _ => Ok None) 5%Z = Ok sc /\ r_scales out = sc /\
  chord_noise_run serial_order false (gmw_wave gmw60) fam0 (arg_s sc) noisy2 2 pair_k 32 st0 out s' 1 32 d 2 rho /\
  adm_ssq gmw60 = Ok Css /\ 0 < Css /\
  nrows cc = 32%nat /\ ncols cc = 2%nat /\ nrows cw = 32%nat /\ ncols cw = 2%nat /\
  (forall j r, (j < 32)%nat -> (r < 2)%nat -> (0 <= el cc j r)%Z /\ (Z.abs (el cc j r - Z.of_nat (rho r)) + 1 <= el cw j r)%Z) /\
  (forall j r r', (j < 32)%nat -> (r < 2)%nat -> (r' < 2)%nat -> r' <> r -> (el cw j r + 1 < Z.abs (el cc j r - Z.of_nat (rho r')))%Z) /\
  dist2 noisy2 (chord 2 pair_A pair_phi pair_k 32) = 1 / 10 ^ 6 /\
  owns 2 (2 * dist2 noisy2 (chord 2 pair_A pair_phi pair_k 32)) d pair_k 32 (sizes (gmw_wave gmw60) pair_A pair_k 32 (nth 0 sc 0)) 1 = true.
Proof.
  destruct two_scales as (sc & Es & HL & H0 & H1).
  pose proof (log_scales_inferred true 1 64 32 (fun _ => Ok None) 5%Z sc ltac:(lra) ltac:(lia) Es ltac:(lia)) as Ep.
  assert (Hs0 : 1 / Rpower 2 (1 / 32) < nth 0 sc 0 <= 1).
  { destruct (log_scales 1 64 32 ltac:(lra) ltac:(lia) (fun _ => Ok None) 5%Z) as (sc' & E' & _ & _ & X & _). rewrite Es in E'. injection E' as <-. exact X. }
  destruct (ssq32 noisy2 sc noisy2_length Ep) as (out & s' & E & Esc & Efr).
  pose proof (library_voices 1 64 32 (fun _ => Ok None) 5%Z sc ltac:(lra) ltac:(lia) Es) as Hv.
  pose proof (two_step sc HL) as Hd. destruct (two_grid sc 32 Ep) as (Ef & _ & Hg).
  assert (Llen : length (freqs_t sc) = length sc) by (unfold freqs_t; apply tab_length).
  assert (Lr : length (r_freqs out) = length (r_scales out)) by (rewrite Efr, rev_length, Esc; exact Llen).
  assert (I32 : INR 32 = 32) by (rewrite INR_IZR_INZ; reflexivity). pose proof ln2_pos as L2.
  assert (F0 : tone_freq 1 (pair_k 0) 32 = 1 / 32) by (unfold tone_freq, pair_k; rewrite I32; cbn [INR]; lra).
  assert (F1 : tone_freq 1 (pair_k 1) 32 = 14 / 32) by (unfold tone_freq, pair_k; rewrite I32, (INR_IZR_INZ 14); cbn; lra).
  assert (Hpos : forall i, (i < length sc)%nat -> 0 < nth i sc 0).
  { intros i Hi. rewrite (voices_nth sc 32 i Hv Hi). apply Rmult_lt_0_compat; [lra|apply exp_pos]. }
  assert (G : forall i, (i < length sc)%nat -> log2 (nth i (r_freqs out) 0) = - 5 + INR (length sc - 1 - i) * step_t sc).
  { intros i Hi. rewrite Efr, rev_nth by lia. rewrite Llen. destruct Hg as (_ & Hg). fold (lg (freqs_t sc) (length sc - S i)). rewrite Hg by lia.
    replace (length sc - S i)%nat with (length sc - 1 - i)%nat by lia. f_equal. unfold lg, freqs_t. rewrite log_freqs_nth by (lra || lia).
    unfold log2. rewrite ln_exp. cbn [INR]. replace (1 / 32) with (1 / 2 * (1 / 2) * (1 / 2) * (1 / 2) * (1 / 2)) at 1 by lra. rewrite !ln_mult by lra.
    replace (1 / 2) with (/ 2) by lra. rewrite ln_Rinv by lra. field. repeat split; solve [lra|apply not_0_INR; lia]. }
  assert (Hlast : log2 (nth (length sc - 1) (r_freqs out) 0) = - 5) by (rewrite G by lia; rewrite Nat.sub_diag; cbn [INR]; ring).
  assert (G0 : log2 (1 / 32) = - 5).
  { unfold log2. replace (1 / 32) with (1 / 2 * (1 / 2) * (1 / 2) * (1 / 2) * (1 / 2)) by lra. rewrite !ln_mult by lra. replace (1 / 2) with (/ 2) by lra. rewrite ln_Rinv by lra. field. lra. }
  assert (G1 : - 2 <= log2 (14 / 32)).
  { apply Rle_trans with (log2 (1 / 4)).
    - right. unfold log2. replace (1 / 4) with (1 / 2 * (1 / 2)) by lra. rewrite !ln_mult by lra. replace (1 / 2) with (/ 2) by lra. rewrite ln_Rinv by lra. field. lra.
    - unfold log2, Rdiv. apply Rmult_le_compat_r; [left; apply Rinv_0_lt_compat; lra|]. left. apply ln_increasing; lra. }
  destruct (nearest_exists out (1 / 32) ltac:(rewrite Esc; lia) Lr) as (r0 & N0). destruct (nearest_exists out (14 / 32) ltac:(rewrite Esc; lia) Lr) as (r1 & N1).
  set (d := step_t sc) in *.
  assert (Hr0 : r0 = (length sc - 1)%nat).
  { destruct N0 as (A0 & _ & A1). rewrite Esc in A0, A1. specialize (A1 (length sc - 1)%nat ltac:(lia)). rewrite Hlast, G0, (G r0 A0) in A1.
    replace (-5 - -5) with 0 in A1 by ring. rewrite Rabs_R0 in A1. pose proof (Rabs_pos (-5 - (-5 + INR (length sc - 1 - r0) * d))) as A2.
    destruct (Nat.eq_dec r0 (length sc - 1)) as [|K]; [assumption|exfalso].
    assert (1 <= INR (length sc - 1 - r0)) by (change 1 with (INR 1); apply le_INR; lia).
    rewrite Rabs_left in A1 by nra. nra. }
  assert (Hr1 : (r1 < length sc - 3)%nat).
  { destruct N1 as (A0 & _ & A1). rewrite Esc in A0, A1. destruct (le_lt_dec (length sc - 3) r1) as [K|]; [exfalso|assumption].
    specialize (A1 (length sc - 5)%nat ltac:(lia)). rewrite !G in A1 by lia.
    replace (length sc - 1 - (length sc - 5))%nat with 4%nat in A1 by lia. cbn [INR] in A1.
    assert (INR (length sc - 1 - r1) <= 2) by (change 2 with (INR 2); apply le_INR; lia). pose proof (pos_INR (length sc - 1 - r1)).
    rewrite Rabs_right in A1 by nra. rewrite Rabs_right in A1 by nra. nra. }
  destruct default_adm_ssq as (v & Ev & E1 & E2).
  exists sc, out, s', d, (fun r => match r with O => r0 | _ => r1 end), v,
    (Mat 32 2 (fun _ r => match r with O => Z.of_nat r0 | _ => Z.of_nat r1 end)), (Mat 32 2 (fun _ _ => 1%Z)).
  split; [exact Es|]. split; [exact Esc|]. split.
  { unfold chord_noise_run. rewrite Esc. split.
    { unfold log_run. split; [exact serial_order_valid|]. split; [repeat split|]. split; [exact E|]. split; [rewrite noisy2_length; reflexivity|]. rewrite Esc. split; [exact Ep|].
      exists SLog, (Some (KLog 32)), (freqs_t sc). rewrite noisy2_length. split; [apply (arg_s_scales sc 32 32 Ep)|]. split; [exact Ef|]. split; [exact Hg|].
      split; [unfold EPS64; fold d; lra|exact Llen]. }
    split; [reflexivity|]. split; [left; reflexivity|]. split; [apply gmw_real|]. split; [lra|]. split; [exact (gmw_peak 3 60 gmw60 ltac:(lra) ltac:(lra) default_gmw)|].
    split; [exact noisy2_length|]. split; [lia|]. split; [intros r Hr; destruct r as [|[|]]; cbn; lia|]. split.
    { intros r Hr i Hi. destruct (gmw_spectrum 3 60 gmw60 ltac:(lra) ltac:(lra) default_gmw) as (_ & S0). apply S0. specialize (Hpos i Hi). pose proof PI_RGT_0.
      assert (0 < 2 * PI * INR (pair_k r) / INR 32) by (apply Rdiv_lt_0_compat; [apply Rmult_lt_0_compat; [lra|apply lt_0_INR; destruct r; cbn; lia]|rewrite I32; lra]). nra. }
    assert (Eg : ssq_gamma (arg_s sc) = 1 / 1000) by reflexivity. rewrite Eg. split; [lra|]. split; [lra|]. split.
    - unfold in_reach. rewrite Esc, Hlast. pose proof noisy2_norm as Nn. assert (0 <= norm2 noisy2) by apply sqrt_pos.
      apply Rle_trans with (log2 (2 ^ 15) - -5).
      + apply Rplus_le_compat_r. unfold log2. unfold Rdiv. apply Rmult_le_compat_r; [left; apply Rinv_0_lt_compat; lra|]. left. apply ln_increasing; lra.
      + unfold log2. rewrite ln_pow by lra. replace (INR 15) with 15 by (rewrite INR_IZR_INZ; reflexivity). replace (15 * ln 2 / ln 2) with 15 by (field; lra).
        assert (2000 <= IZR (2 ^ 62)) by (apply IZR_le; lia). nra.
    - intros r Hr. destruct r as [|[|]]; [rewrite F0; exact N0|rewrite F1; exact N1|lia]. }
  split; [exact Ev|]. split; [pose proof default_const_low; apply AdmissAcc.abs_le_inv in E1; lra|].
  split; [reflexivity|]. split; [reflexivity|]. split; [reflexivity|]. split; [reflexivity|].
  split; [intros j r _ Hr; destruct r as [|[|]]; cbn [el]; lia|]. split; [intros j r r' _ Hr Hr' Hne; destruct r as [|[|]], r' as [|[|]]; cbn [el]; try lia|].
  split; [exact noisy2_dist|]. rewrite noisy2_dist. pose proof (noisy_peak _ Hs0) as K.
  assert (T : size (gmw_wave gmw60) 1 (nth 0 sc 0) 1 32 <= tiny25).
  { pose proof PI2_3_2. pose proof PI_4. unfold size, response, gmw_wave, wf. cbn [Re RtoC fst]. replace (2 * PI * INR 1 / INR 32) with (PI / 16) by (rewrite I32; cbn; field).
    assert (Hw : 0 < nth 0 sc 0 * (PI / 16)) by (apply Rmult_lt_0_compat; lra). assert (Ha : 0 <= nth 0 sc 0 * (PI / 16) <= 1 / 4) by (split; [lra|replace (1 / 4) with (1 * (1 / 4)) by lra; apply Rmult_le_compat; lra]).
    pose proof (pow_incr _ _ 3 Ha). pose proof (gmw60_below _ Hw ltac:(lra)). pose proof (gmw60_pos _ Hw). rewrite Rabs_right by lra. lra. }
  unfold owns, rest, others, sizes. cbn [Rsum Nat.eqb pair_k]. unfold pair_A. set (c0 := size _ 1 _ 1 32) in *. set (c := size _ 1 _ 14 32) in *.
  assert (Hc0 : 0 <= c0) by apply Rabs_pos. assert (Ht : tiny25 <= 1 / 10 ^ 6) by (unfold tiny25; lra).
  unfold clear. destruct (Rlt_dec _ c) as [|N]; [|exfalso; lra].
  destruct (Rle_dec _ c) as [|N]; [reflexivity|exfalso; apply N]. eapply Rle_trans; [|exact K]. rewrite I32. replace (INR 14) with 14 by (rewrite INR_IZR_INZ; reflexivity).
  assert (Z : 4 * 32 / (14 * d) <= 512). { apply Rle_trans with (4 * 32 / (14 * (1 / 56))); [|lra]. unfold Rdiv. apply Rmult_le_compat_l; [lra|]. apply Rinv_le_contravar; lra. }
  assert (Z0 : 0 <= 4 * 32 / (14 * d)) by (apply Rlt_le, Rdiv_lt_0_compat; lra). set (w := 4 * 32 / (14 * d)) in *.
  apply Rle_trans with (3 / 10 ^ 6 * 513); [apply Rmult_le_compat; lra|lra].
Qed.
