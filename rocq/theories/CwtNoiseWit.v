(** A concrete noisy tone: 14 periods in 32 samples, a disturbed sample, the default wavelet, 32 voices from scale 1 to 64. *)
From Coq Require Import Reals Lra Lia List ZifyBool ZifyNat.
Import ListNotations.
From Verif Require Import Py Round Parallel Cplx CplxProofs Padding PaddingProofs Buffer Freqs Squeeze SqueezeThms Scales ScaleThms SsqWitness Cwt CwtProofs CwtThms CwtTone
  CwtWitness CwtWitness2 SqueezeProofs SqueezeThms2 SqueezeThms3 Ssqueeze SsqueezeProofs IssqProofs SsqThms FreqRange CwtThms2 SsqCwt SsqCwtProofs SsqCwtInv SsqCwtWitness ToneWitness Wavelets WaveletProofs Admiss AdmissThms AdmissThms2 AdmissThms3 Integral IntegralProofs
  RoundTrip GainBound RoundTripGain GmwRoundTrip DefaultRoundTrip RoundTripWitness ToneThms Separate OctaveSep ChordSep Reassign ChordSqueeze ChordWitness CwtEnergyWitness CwtNoise CwtNoiseSsq.
Local Open Scope R_scope.

Lemma cwt32 x sc : length x = 32%nat -> process_scales_arr true sc = Ok (KLog 32) -> exists W dW s',
  cwt false true (gmw_wave gmw60) (arg_d sc) x st0 = (Ok (W, sc, Some dW), s').
Proof.
  intros Hx Hs.
  assert (Hp : pad_input None x = Ok (x, 0%Z)).
  { unfold pad_input. destruct x eqn:E; [discriminate Hx|reflexivity]. }
  assert (P : pre (gmw_wave gmw60) (arg_d sc) x 1 x 0 sc).
  { unfold pre. cbn [arg_d a_fs a_t a_l1 a_pad a_scales a_f64s]. split; [apply fs_1|].
    split; [reflexivity|]. split; [exact Hp|]. unfold process_scales. rewrite Hs. reflexivity. }
  pose proof (cwt_run false true (gmw_wave gmw60) (arg_d sc) x st0 1 x 0 sc P eq_refl eq_refl) as E. cbv zeta in E.
  change (a_deriv (arg_d sc)) with true in E. cbv iota in E. do 3 eexists. exact E.
Qed.

Lemma ssq32 x sc : length x = 32%nat -> process_scales_arr true sc = Ok (KLog 32) -> exists r s',
  ssq_cwt serial_order false (gmw_wave gmw60) fam0 (arg_s sc) x st0 = (Ok r, s') /\ r_scales r = sc /\ r_freqs r = rev (freqs_t sc).
Proof.
  intros Hx Hs. set (q := arg_s sc).
  destruct (cwt32 x sc Hx Hs) as (W & dW & s' & Ec).
  destruct (cwt_ncols _ _ _ _ _ _ _ _ _ _ Ec) as (Hr & Hn). cbn [arg_d a_rpadded a_pad negb andb] in Hn.
  assert (Hcol : ncols W = 32%nat) by lia. pose proof (process_log_len _ _ _ Hs) as Hlen.
  destruct (two_grid sc 32 Hs) as (Ef & _ & Hg). fold q in Ef.
  assert (exists r, squeeze_step serial_order q 1 4 32 W dW sc true SLog = Ok r /\ r_freqs r = rev (freqs_t sc)) as (r & Es & Efr).
  { pose proof (grid_log true (freqs_t sc) _ Hg) as Eg.
    pose proof (const_arr_scalar (nrows W) (ln 2 / 32) ltac:(lia)) as Ea.
    unfold squeeze_step. change (q_get_w q) with false. cbv iota zeta. cbn [bind].
    set (o := SO _ _ _ _ _ _ _ _ _ _ _).
    change o with (ssq_o q 1 sc SLog true) in *. unfold ssqueeze.
    set (out := Mat (nrows W) (ncols W) (fun _ _ => C0)).
    cbn [bind]. rewrite Hcol. rewrite Ef. cbn [bind].
    unfold ssqueeze_one. cbn [ssq_const ssq_o o_tr o_sq q arg_s q_sq squeeze_input bind o_f64v q_f64v o_flip q_flip o_gamma o_Sfs].
    fold out.
    destruct (fast_sum serial_order true W dW (freqs_t sc) (CScalar (ln 2 / 32)) true true (ssq_gamma q) None out _ _ serial_order_valid Ea Eg (or_introl eq_refl)) as (Tx & E & _).
    match goal with |- context [ssqueeze_fast ?a ?b ?c ?d ?e ?f ?g ?h ?i ?j ?k] =>
      replace (ssqueeze_fast a b c d e f g h i j k) with (Ok Tx) by (symmetry; exact E) end.
    cbn [bind]. eexists. split; [reflexivity|]. reflexivity. }
  assert (Hk : check_diff q = Ok 4%Z) by reflexivity.
  exists r, s'. split; [|split].
  - unfold ssq_cwt. unfold mbind at 1, lift at 1. rewrite Hk. unfold mbind at 1, lift at 1.
    replace (process_fs_and_t (q_fs q) (q_t q) (length x)) with (Ok 1 : res R) by (rewrite Hx; reflexivity).
    change (q_order q) with (@None ho_order). cbv iota. unfold mbind at 1, lift at 1.
    change (ssq_scales (q_f64s q) (q_scales q) (q_kind q) (ssq_nv q) (length x)) with (ssq_scales true (ScArr sc) SLog None (length x)).
    rewrite (arg_s_scales sc 32 (length x) Hs). cbv iota.
    unfold mbind at 1.
    change (inner q 1 (ScArr sc) (match q_scales q with ScArr _ => q_f64s q | ScAuto _ => true end) true
       (match q_diff q with DNumeric => true | _ => false end) (q_pat q)) with (arg_d sc).
    rewrite Ec. cbv iota. unfold lift. f_equal. rewrite Hx. exact Es.
  - destruct (step_inv _ _ _ _ _ _ _ _ _ _ _ Hk Es) as (w & Tx & _ & _ & _ & E3 & _). exact E3.
  - exact Efr.
Qed.


Definition noisy (k : nat) : list R := tab 32 (fun m => nth m (tone 1 0 k 32) 0 + if (m =? 5)%nat then 1 / 10 ^ 6 else 0).
Lemma noisy_length k : length (noisy k) = 32%nat.
Proof. apply tab_length. Qed.
Lemma noisy_dist k : dist2 (noisy k) (tone 1 0 k 32) = 1 / 10 ^ 6.
Proof.
  unfold dist2. rewrite noisy_length, (Rsum_single 32 _ 5 ltac:(lia)).
  - unfold noisy. rewrite nth_tab by lia. rewrite Nat.eqb_refl. replace (nth 5 (tone 1 0 k 32) 0 + 1 / 10 ^ 6 - nth 5 (tone 1 0 k 32) 0) with (1 / 10 ^ 6) by ring. apply sqrt_pow2. lra.
  - intros m Hm Hne. unfold noisy. rewrite nth_tab by lia. destruct (Nat.eqb_spec m 5); [contradiction|]. ring.
Qed.
Lemma noisy_norm k : norm2 (noisy k) <= 12.
Proof.
  unfold norm2. rewrite noisy_length. rewrite <- (sqrt_pow2 12) by lra. apply sqrt_le_1_alt. replace (12 ^ 2) with (INR 32 * (9 / 2)) by (rewrite INR_IZR_INZ; cbn; lra).
  rewrite <- (Rsum_const 32 (9 / 2)). apply Rsum_le. intros m Hm. unfold noisy. rewrite nth_tab by exact Hm. unfold tone. rewrite nth_tab by exact Hm.
  match goal with |- (1 * cos ?t + ?e) ^ 2 <= _ => pose proof (COS_bound t); assert (0 <= e <= 1) by (destruct (m =? 5)%nat; lra); set (u := cos t) in *; set (v := e) in * end. clearbody u v. nra.
Qed.
Lemma PI_le : PI <= 334 / 100.
Proof.
  pose proof (proj2 (PI_ineq 2)) as H. cbn in H. unfold tg_alt, PI_tg in H. cbn in H. lra.
Qed.
(** the first scale's wavelet is near its peak at the tone's frequency *)
Lemma noisy_peak s : 1 / Rpower 2 (1 / 32) < s <= 1 -> 1 / 4 <= size (gmw_wave gmw60) 1 s 14 32.
Proof.
  intros (H1 & H2). set (y := Rpower 2 (1 / 32)) in *. assert (Hy : 0 < y) by apply exp_pos.
  assert (Hy2 : y <= 103 / 100).
  { destruct (Rle_lt_dec y (103 / 100)) as [|K]; [assumption|exfalso]. assert (E : y ^ 32 = 2).
    { unfold y. rewrite <- Rpower_pow by apply exp_pos. rewrite Rpower_mult. replace (1 / 32 * INR 32) with 1 by (rewrite INR_IZR_INZ; cbn; lra). apply Rpower_1. lra. }
    assert (Q : 0 <= 103 / 100 <= y) by lra. pose proof (pow_incr _ _ 32 Q) as X. rewrite E in X. lra. }
  assert (Hs : 100 / 103 <= s). { left. eapply Rle_lt_trans; [|exact H1]. apply (Rmult_le_reg_r y); [exact Hy|]. replace (1 / y * y) with 1 by (field; lra). lra. }
  unfold size, response, gmw_wave, wf. cbn [Re RtoC fst]. replace (2 * PI * INR 14 / INR 32) with (7 / 8 * PI) by (rewrite !INR_IZR_INZ; cbn; field).
  pose proof PI_le. pose proof PI2_3_2. assert (HP : 3 <= PI) by lra.
  assert (L : 254 / 100 <= s * (7 / 8 * PI)) by (apply Rle_trans with (100 / 103 * (7 / 8 * 3)); [lra|apply Rmult_le_compat; lra]).
  assert (U : s * (7 / 8 * PI) <= 293 / 100) by (apply Rle_trans with (1 * (7 / 8 * (334 / 100))); [apply Rmult_le_compat; lra|lra]).
  set (w := s * (7 / 8 * PI)) in *. rewrite gmw60_val by lra. assert (P1 : 0 <= 254 / 100 <= w) by lra. assert (P2 : 0 <= w <= 293 / 100) by lra.
  pose proof (pow_incr _ _ 3 P1) as Q1. pose proof (pow_incr _ _ 3 P2) as Q2. set (u := w ^ 3 / 20). assert (Hu : 81 / 100 <= u <= 126 / 100) by (unfold u; lra).
  assert (Hl : 1 - / u <= ln u). { pose proof (ln_le_sub1 (/ u) ltac:(apply Rinv_0_lt_compat; lra)) as V. rewrite ln_Rinv in V by lra. lra. }
  assert (Hv : u * / u = 1) by (field; lra). assert (Hi : 79 / 100 <= / u <= 124 / 100).
  { split; apply (Rmult_le_reg_r u); rewrite ?Rinv_l; lra. }
  assert (He : - (12 / 10) <= 20 * (ln u - u + 1)). { assert (2 - / u - u >= - (6 / 100)) by nra. lra. }
  rewrite Rabs_right; [|apply Rle_ge; pose proof (exp_pos (20 * (ln u - u + 1))); lra].
  assert (X : exp (- (12 / 10)) <= exp (20 * (ln u - u + 1))). { destruct He as [He|He]; [left; apply exp_increasing; exact He|rewrite He; lra]. }
  assert (Y : 1 / 4 <= exp (- (12 / 10))).
  { rewrite exp_Ropp. pose proof exp_le_3 as E3. apply (Rmult_le_reg_r (exp (12 / 10))); [apply exp_pos|]. rewrite Rinv_l by (pose proof (exp_pos (12 / 10)); lra).
    replace (12 / 10) with (1 + 2 / 10) by lra. rewrite exp_plus. assert (exp (2 / 10) <= 4 / 3).
    { pose proof (exp_ineq1 (- (2 / 10)) ltac:(lra)) as I. assert (M : exp (2 / 10) * exp (- (2 / 10)) = 1) by (rewrite <- exp_plus; replace (2 / 10 + - (2 / 10)) with 0 by ring; apply exp_0).
      pose proof (exp_pos (2 / 10)). nra. }
    pose proof (exp_pos 1). pose proof (exp_pos (2 / 10)). nra. }
  lra.
Qed.

Theorem noisy_runs k : (0 < k)%nat -> (2 * k < 32)%nat -> exists sc out s' d rho,
  make_scales 1 64 32 SLog (fun _ => Ok None) 5%Z = Ok sc /\ r_scales out = sc /\
  noisy_run serial_order false (gmw_wave gmw60) fam0 (arg_s sc) (noisy k) k 32 st0 out s' 1 32 d 2 rho /\ voices sc 32 /\ (161 <= length sc)%nat /\ 1 / Rpower 2 (1 / 32) < nth 0 sc 0 <= 1 /\ 32 <= nth (length sc - 1) sc 0 /\ 1 / 56 <= d.
Proof.
  intros Hk1 Hk2. destruct two_scales as (sc & Es & HL & H0 & H1).
  pose proof (log_scales_inferred true 1 64 32 (fun _ => Ok None) 5%Z sc ltac:(lra) ltac:(lia) Es ltac:(lia)) as Ep.
  assert (Hs0 : 1 / Rpower 2 (1 / 32) < nth 0 sc 0 <= 1).
  { destruct (log_scales 1 64 32 ltac:(lra) ltac:(lia) (fun _ => Ok None) 5%Z) as (sc' & E' & _ & _ & X & _). rewrite Es in E'. injection E' as <-. exact X. }
  destruct (ssq32 (noisy k) sc (noisy_length k) Ep) as (out & s' & E & Esc & Efr).
  pose proof (library_voices 1 64 32 (fun _ => Ok None) 5%Z sc ltac:(lra) ltac:(lia) Es) as Hv.
  pose proof (two_step sc HL) as Hd. destruct (two_grid sc 32 Ep) as (Ef & _ & Hg).
  assert (Llen : length (freqs_t sc) = length sc) by (unfold freqs_t; apply tab_length).
  assert (Lr : length (r_freqs out) = length (r_scales out)) by (rewrite Efr, rev_length, Esc; exact Llen).
  destruct (nearest_exists out (tone_freq 1 k 32) ltac:(rewrite Esc; lia) Lr) as (rho & Nr).
  assert (Hpos : forall i, (i < length sc)%nat -> 0 < nth i sc 0).
  { intros i Hi. rewrite (voices_nth sc 32 i Hv Hi). apply Rmult_lt_0_compat; [lra|apply exp_pos]. }
  assert (Hlast : log2 (nth (length sc - 1) (r_freqs out) 0) = - 5).
  { rewrite Efr, rev_nth by lia. rewrite Llen. replace (length sc - S (length sc - 1))%nat with 0%nat by lia. unfold freqs_t. rewrite log_freqs_nth by (lra || lia).
    unfold log2. rewrite ln_exp. cbn [INR]. replace (1 / 32) with (1 / 2 * (1 / 2) * (1 / 2) * (1 / 2) * (1 / 2)) at 1 by lra. rewrite !ln_mult by lra.
    replace (1 / 2) with (/ 2) by lra. rewrite ln_Rinv by lra. pose proof ln2_pos. field. repeat split; solve [lra|apply not_0_INR; lia]. }
  exists sc, out, s', (step_t sc), rho. set (d := step_t sc) in *. split; [exact Es|]. split; [exact Esc|]. split; [|split; [exact Hv|]; split; [lia|]; split; [exact Hs0|]; split; [exact H1|lra]].
  - unfold noisy_run. rewrite Esc. split.
    { unfold log_run. split; [exact serial_order_valid|]. split; [repeat split|]. split; [exact E|]. split; [rewrite noisy_length; reflexivity|]. rewrite Esc. split; [exact Ep|].
      exists SLog, (Some (KLog 32)), (freqs_t sc). rewrite noisy_length. split; [apply (arg_s_scales sc 32 32 Ep)|]. split; [exact Ef|]. split; [exact Hg|].
      split; [unfold EPS64; fold d; lra|exact Llen]. }
    split; [reflexivity|]. split; [left; reflexivity|]. split; [apply gmw_real|]. split; [lra|]. split; [exact (gmw_peak 3 60 gmw60 ltac:(lra) ltac:(lra) default_gmw)|].
    split; [exact (noisy_length k)|]. split; [exact Hk1|]. split; [exact Hk2|]. split.
    { intros i Hi. destruct (gmw_spectrum 3 60 gmw60 ltac:(lra) ltac:(lra) default_gmw) as (_ & S0). apply S0. specialize (Hpos i Hi). pose proof PI_RGT_0.
      assert (0 < 2 * PI * INR k / INR 32) by (apply Rdiv_lt_0_compat; [apply Rmult_lt_0_compat; [lra|apply lt_0_INR; lia]|rewrite INR_IZR_INZ; cbn; lra]). nra. }
    assert (Eg : ssq_gamma (arg_s sc) = 1 / 1000) by reflexivity. rewrite Eg. split; [lra|]. split; [lra|]. split; [|exact Nr].
    unfold in_reach. rewrite Esc, Hlast. pose proof (noisy_norm k) as Nn. assert (0 <= norm2 (noisy k)) by apply sqrt_pos.
    apply Rle_trans with (log2 (2 ^ 14) - -5).
    + apply Rplus_le_compat_r. unfold log2. pose proof ln2_pos. unfold Rdiv. apply Rmult_le_compat_r; [left; apply Rinv_0_lt_compat; lra|]. left; apply ln_increasing; lra.
    + unfold log2. rewrite ln_pow by lra. replace (INR 14) with 14 by (rewrite INR_IZR_INZ; reflexivity). pose proof ln2_pos. replace (14 * ln 2 / ln 2) with 14 by (field; lra).
      assert (2000 <= IZR (2 ^ 62)) by (apply IZR_le; lia). nra.
Qed.

Theorem noisy_case : exists sc out s' d rho,
  make_scales 1 64 32 SLog (fun _ => Ok None) 5%Z = Ok sc /\ r_scales out = sc /\
  noisy_run serial_order false (gmw_wave gmw60) fam0 (arg_s sc) (noisy 14) 14 32 st0 out s' 1 32 d 2 rho /\
  dist2 (noisy 14) (tone 1 0 14 32) = 1 / 10 ^ 6 /\
  clear (2 * dist2 (noisy 14) (tone 1 0 14 32)) d (size (gmw_wave gmw60) 1 (nth 0 sc 0) 14 32) 14 32 = true.
Proof.
  destruct (noisy_runs 14 ltac:(lia) ltac:(lia)) as (sc & out & s' & d & rho & Es & Esc & R & _ & _ & Hs0 & _ & Hd).
  exists sc, out, s', d, rho. split; [exact Es|]. split; [exact Esc|]. split; [exact R|]. split; [apply noisy_dist|].
  rewrite noisy_dist. pose proof (noisy_peak _ Hs0) as K. unfold clear. set (c := size _ _ _ _ _) in *. destruct (Rlt_dec _ c) as [|N]; [|exfalso; lra].
    destruct (Rle_dec _ c) as [|N]; [reflexivity|exfalso; apply N]. eapply Rle_trans; [|exact K]. replace (INR 32) with 32 by (rewrite INR_IZR_INZ; reflexivity). replace (INR 14) with 14 by (rewrite INR_IZR_INZ; reflexivity).
    assert (4 * 32 / (14 * d) <= 4 * 32 / (14 * (1 / 56))). { unfold Rdiv. apply Rmult_le_compat_l; [lra|]. apply Rinv_le_contravar; lra. } lra.
Qed.
