(** A concrete round trip: two periods in eight samples, the default wavelet, 32 voices from scale 1 to 8. *)
From Coq Require Import Reals Lra Lia ZifyBool ZifyNat.
From Verif Require Import Py Round Parallel Cplx CplxProofs Padding PaddingProofs Buffer Freqs Squeeze SqueezeThms Scales ScaleThms SsqWitness Cwt CwtProofs CwtThms CwtTone
  CwtWitness CwtWitness2 SqueezeProofs SqueezeThms2 SqueezeThms3 Ssqueeze SsqueezeProofs IssqProofs SsqThms FreqRange CwtThms2 SsqCwt SsqCwtProofs SsqCwtInv SsqCwtWitness ToneWitness Wavelets WaveletProofs Admiss AdmissThms AdmissThms2 AdmissThms3 Integral IntegralProofs
  RoundTrip GainBound RoundTripGain GmwRoundTrip DefaultRoundTrip.
Local Open Scope R_scope.

Definition arg_d (sc : list R) : cwt_args := CA (ScArr sc) true (Some 1) None true true None false true (PatInt 0) None.

Lemma rt_scales : exists sc, make_scales 1 8 32 SLog (fun _ => Ok None) 5%Z = Ok sc /\ (3 <= length sc)%nat /\
  0 < nth 0 sc 0 <= 1 /\ 4 < nth (length sc - 1) sc 0.
Proof.
  assert (Hm : 0 < 1 < 8) by lra.
  destruct (log_scales 1 8 32 Hm ltac:(lia) (fun _ => Ok None) 5%Z) as (sc & E & Hne & Hg & (H0 & H0') & (Hl & _)).
  assert (Hp : 0 < nth 0 sc 0) by (eapply Rlt_trans; [|exact H0]; apply Rdiv_lt_0_compat; [lra|apply exp_pos]).
  assert (Hlen : (0 < length sc)%nat) by (destruct sc; [congruence|cbn; lia]).
  assert (El : last sc 0 = nth (length sc - 1) sc 0).
  { rewrite (app_removelast_last 0 Hne) at 2 3. rewrite app_length, app_nth2; cbn [length]; [|lia].
    replace (length (removelast sc) + 1 - 1 - length (removelast sc))%nat with 0%nat by lia. reflexivity. }
  assert (Hpow : forall r, 0 <= r <= 1 -> 1 <= Rpower 2 r <= 2).
  { intros r Hr. split; [rewrite <- (Rpower_O 2) by lra|rewrite <- (Rpower_1 2) at 2 by lra]; apply Rle_Rpower; lra. }
  assert (H4 : 4 <= last sc 0).
  { left. eapply Rle_lt_trans; [|exact Hl]. destruct (Hpow (2 / 32) ltac:(lra)) as (P1 & P2).
    apply (Rmult_le_reg_r (Rpower 2 (2 / 32))); [lra|]. unfold Rdiv at 2. rewrite Rmult_assoc, Rinv_l by lra. lra. }
  exists sc. split; [exact E|]. rewrite <- El. split.
  - destruct (le_lt_dec 3 (length sc)) as [|L]; [assumption|exfalso]. rewrite El, (Hg (length sc - 1)%nat) in H4 by lia.
    assert (INR (length sc - 1) <= 1) by (change 1 with (INR 1); apply le_INR; lia). pose proof (pos_INR (length sc - 1)).
    destruct (Hpow (INR (length sc - 1) / 32) ltac:(lra)) as (P1 & P2).
    assert (nth 0 sc 0 * Rpower 2 (INR (length sc - 1) / 32) <= 1 * 2) by (apply Rmult_le_compat; lra). lra.
  - split; [lra|]. eapply Rle_lt_trans; [|exact Hl]. destruct (Hpow (2 / 32) ltac:(lra)) as (P1 & P2).
    apply (Rmult_le_reg_r (Rpower 2 (2 / 32))); [lra|]. unfold Rdiv at 2. rewrite Rmult_assoc, Rinv_l by lra. lra.
Qed.

Lemma tone_pad : pad_input None (tone 1 0 2 8) = Ok (tone 1 0 2 8, 0%Z).
Proof. set (x := tone 1 0 2 8). unfold pad_input. destruct x eqn:E; [discriminate|reflexivity]. Qed.

Lemma rt_cwt sc : process_scales_arr true sc = Ok (KLog 32) -> exists W dW s',
  cwt false true (gmw_wave gmw60) (arg_d sc) (tone 1 0 2 8) st0 = (Ok (W, sc, Some dW), s').
Proof.
  intros Hs. set (x := tone 1 0 2 8).
  assert (Hp : pad_input None x = Ok (x, 0%Z)).
  { unfold pad_input. destruct x eqn:E; [discriminate|reflexivity]. }
  assert (P : pre (gmw_wave gmw60) (arg_d sc) x 1 x 0 sc).
  { unfold pre. cbn [arg_d a_fs a_t a_l1 a_pad a_scales a_f64s]. split; [apply fs_1|].
    split; [reflexivity|]. split; [exact Hp|]. unfold process_scales. rewrite Hs. reflexivity. }
  pose proof (cwt_run false true (gmw_wave gmw60) (arg_d sc) x st0 1 x 0 sc P eq_refl eq_refl) as E. cbv zeta in E.
  change (a_deriv (arg_d sc)) with true in E. cbv iota in E. do 3 eexists. exact E.
Qed.

(** the hypotheses of [default_round_trip], all of them *)
Theorem rt_setting : exists sc W dW s' Css, make_scales 1 8 32 SLog (fun _ => Ok None) 5%Z = Ok sc /\ (3 <= length sc)%nat /\
  uncached true (arg_d sc) st0 /\
  cwt false true (gmw_wave gmw60) (arg_d sc) (tone 1 0 2 8) st0 = (Ok (W, sc, dW), s') /\
  pad_input None (tone 1 0 2 8) = Ok (tone 1 0 2 8, 0%Z) /\ adm_ssq gmw60 = Ok Css /\
  forall k, (0 < k < length (tone 1 0 2 8))%nat ->
    dft (length (tone 1 0 2 8)) (fun m => RtoC (nth m (tone 1 0 2 8) 0)) k = C0 \/
    (nth 0 sc 0 * bin_xi (length (tone 1 0 2 8)) k) ^ 3 <= 10 /\
    40 <= (nth (length sc - 1) sc 0 * bin_xi (length (tone 1 0 2 8)) k) ^ 3.
Proof.
  destruct rt_scales as (sc & Es & Hl & H0 & H1).
  pose proof (log_scales_inferred true 1 8 32 (fun _ => Ok None) 5%Z sc ltac:(lra) ltac:(lia) Es Hl) as Ep.
  destruct (rt_cwt sc Ep) as (W & dW & s' & E). destruct default_adm_ssq as (v & Ev & _).
  exists sc, W, (Some dW), s', v. split; [exact Es|]. split; [exact Hl|]. split; [left; reflexivity|]. split; [exact E|].
  split; [apply tone_pad|].
  split; [exact Ev|]. rewrite tone_length. intros k Hk.
  destruct (Nat.eq_dec k 2) as [->|N2]; [|destruct (Nat.eq_dec k 6) as [->|N6]].
  3:{ left. pose proof (tone_dft 1 0 2 8 k ltac:(lia) ltac:(lia) ltac:(lia) N2 ltac:(lia)) as Z0. unfold sig_dft in Z0. rewrite tone_length in Z0. exact Z0. }
  all: right; assert (Ex : bin_xi 8 2 = PI / 2 /\ bin_xi 8 6 = PI / 2) by (unfold bin_xi; cbn; split; field).
  all: rewrite ?(proj1 Ex), ?(proj2 Ex); pose proof PI2_3_2; pose proof PI_4.
  all: assert (Ha : 0 <= nth 0 sc 0 * (PI / 2) <= 2) by (split; [apply Rmult_le_pos; lra|replace 2 with (1 * 2) at 2 by lra; apply Rmult_le_compat; lra]).
  all: assert (Hb : 4 <= nth (length sc - 1) sc 0 * (PI / 2)) by (replace 4 with (4 * 1) by lra; apply Rmult_le_compat; lra).
  all: pose proof (pow_incr _ _ 3 Ha); pose proof (pow_incr _ _ 3 (conj (Rle_trans 0 4 4 ltac:(lra) ltac:(lra)) Hb)); lra.
Qed.

(** [ssq_cwt] of the same tone *)
Definition arg_s (sc : list R) : ssq_args :=
  SQ (ScArr sc) SLog None true true true None None FNone None SqSum MRMaximal DTrig None
     (Some (1 / 1000)) true None (PatInt 0) true None false.
Definition freqs_s (sc : list R) : list R := log_freqs (1 / 8) (1 / 2) (length sc).

Lemma arg_s_grid sc nv : process_scales_arr true sc = Ok (KLog nv) ->
  ssq_freqs_of (ssq_o (arg_s sc) 1 sc SLog true) 8 = Ok (Some (KLog nv), freqs_s sc, true) /\
  freq_grid true (freqs_s sc) true (reach_log (freqs_s sc) 0) /\ exists d, geometric (freqs_s sc) d.
Proof.
  intros Hs.
  assert (Hr : ssq_freqrange MRMaximal (1 / 1) 8 sc = (1 / 8, 1 / 2)).
  { unfold ssq_freqrange. f_equal; [replace (INR 8) with 8 by (cbn; lra)|]; lra. }
  destruct (default_log_grid (ssq_o (arg_s sc) 1 sc SLog true) sc nv 8 (1 / 8) (1 / 2)
              eq_refl eq_refl Hs (or_intror eq_refl) Hr ltac:(lra) ltac:(lra)) as (E & G).
  split; [exact E|]. split; [exact G|]. eexists.
  apply (log_freqs_geometric (1 / 8) (1 / 2) (length sc)); [lra|lra|]. apply (process_log_len _ _ _ Hs).
Qed.

Lemma infer_of f64 sc nv : process_scales_arr f64 sc = Ok (KLog nv) -> infer_scaletype f64 sc = Ok (KLog nv).
Proof.
  unfold process_scales_arr. destruct (infer_scaletype f64 sc) as [[n| |]|]; cbn [bind]; try discriminate. destruct (_ <=? _)%Z; [discriminate|auto].
Qed.
Lemma arg_s_scales sc nv N : process_scales_arr true sc = Ok (KLog nv) ->
  ssq_scales true (ScArr sc) SLog None N = Ok (sc, SLog).
Proof.
  intros Hs. unfold ssq_scales, process_scales_nv. rewrite (infer_of _ _ _ Hs). cbn [bind].
  pose proof (process_log_pos _ _ _ Hs). destruct (Z.leb_spec nv 0); [lia|reflexivity].
Qed.

Lemma rt_ssq sc : process_scales_arr true sc = Ok (KLog 32) -> exists r s',
  ssq_cwt serial_order false (gmw_wave gmw60) fam0 (arg_s sc) (tone 1 0 2 8) st0 = (Ok r, s') /\ r_scales r = sc.
Proof.
  intros Hs. set (q := arg_s sc). set (x := tone 1 0 2 8).
  assert (Hx : length x = 8%nat) by apply tone_length.
  destruct (rt_cwt sc Hs) as (W & dW & s' & Ec). fold x in Ec.
  destruct (cwt_ncols _ _ _ _ _ _ _ _ _ _ Ec) as (Hr & Hn). cbn [arg_d a_rpadded a_pad negb andb] in Hn.
  assert (Hcol : ncols W = 8%nat) by lia. pose proof (process_log_len _ _ _ Hs) as Hlen.
  assert (exists r, squeeze_step serial_order q 1 4 8 W dW sc true SLog = Ok r) as (r & Es).
  { destruct (arg_s_grid sc 32 Hs) as (Ef & _ & (d & Hg)).
    fold q in Ef. pose proof (grid_log true (freqs_s sc) d Hg) as Eg.
    pose proof (const_arr_scalar (nrows W) (ln 2 / 32) ltac:(lia)) as Ea.
    unfold squeeze_step. change (q_get_w q) with false. cbv iota zeta. cbn [bind].
    set (o := SO _ _ _ _ _ _ _ _ _ _ _).
    change o with (ssq_o q 1 sc SLog true) in *. unfold ssqueeze.
    set (out := Mat (nrows W) (ncols W) (fun _ _ => C0)).
    cbn [bind]. rewrite Hcol. rewrite Ef. cbn [bind].
    unfold ssqueeze_one. cbn [ssq_const ssq_o o_tr o_sq q arg_s q_sq squeeze_input bind o_f64v q_f64v o_flip q_flip o_gamma o_Sfs].
    fold out.
    destruct (fast_sum serial_order true W dW (freqs_s sc) (CScalar (ln 2 / 32)) true true (ssq_gamma q) None out _ _ serial_order_valid Ea Eg (or_introl eq_refl)) as (Tx & E & _).
    match goal with |- context [ssqueeze_fast ?a ?b ?c ?d ?e ?f ?g ?h ?i ?j ?k] =>
      replace (ssqueeze_fast a b c d e f g h i j k) with (Ok Tx) by (symmetry; exact E) end.
    cbn [bind]. eauto. }
  assert (Hk : check_diff q = Ok 4%Z) by reflexivity.
  exists r, s'. split.
  - unfold ssq_cwt. unfold mbind at 1, lift at 1. rewrite Hk. unfold mbind at 1, lift at 1.
    change (process_fs_and_t (q_fs q) (q_t q) (length x)) with (Ok 1 : res R).
    change (q_order q) with (@None ho_order). cbv iota. unfold mbind at 1, lift at 1.
    change (ssq_scales (q_f64s q) (q_scales q) (q_kind q) (ssq_nv q) (length x)) with (ssq_scales true (ScArr sc) SLog None (length x)).
    rewrite (arg_s_scales sc 32 (length x) Hs). cbv iota.
    unfold mbind at 1.
    change (inner q 1 (ScArr sc) (match q_scales q with ScArr _ => q_f64s q | ScAuto _ => true end) true
       (match q_diff q with DNumeric => true | _ => false end) (q_pat q)) with (arg_d sc).
    rewrite Ec. cbv iota. unfold lift. f_equal. rewrite Hx. exact Es.
  - destruct (step_inv _ _ _ _ _ _ _ _ _ _ _ Hk Es) as (w & Tx & _ & _ & _ & E3 & _). exact E3.
Qed.

(** the frequencies found *)
Lemma rt_found sc r s' i j a : process_scales_arr true sc = Ok (KLog 32) -> (forall i, (i < length sc)%nat -> 0 < nth i sc 0) ->
  ssq_cwt serial_order false (gmw_wave gmw60) fam0 (arg_s sc) (tone 1 0 2 8) st0 = (Ok r, s') -> r_scales r = sc ->
  (i < length sc)%nat -> 1 / 1000 <= Cabs (el (r_Wx r) i j) -> found r i j = Fin a -> reach_log (freqs_s sc) 0 a.
Proof.
  intros Hs Hpos H Hsc Hi Hab Hf.
  destruct (ssq_cwt_inv serial_order false (gmw_wave gmw60) fam0 (arg_s sc) (tone 1 0 2 8) st0 r s' eq_refl H) as (kd & fs & sc' & kind & W & dW & Hk & Hfs & Hsc' & Hcw & Hst).
  change (process_fs_and_t (q_fs (arg_s sc)) (q_t (arg_s sc)) (length (tone 1 0 2 8))) with (Ok 1 : res R) in Hfs. injection Hfs as <-.
  destruct (step_inv _ _ _ _ _ _ _ _ _ _ _ Hk Hst) as (w & Tx & _ & _ & E2 & E3 & E4 & E5 & Ew).
  change (q_get_w (arg_s sc)) with false in Ew. cbv iota in Ew. destruct Ew as (-> & _).
  cbn [arg_s q_diff crop] in E2. cbn [opt_map] in E4. rewrite Hsc in E3. subst sc'. rewrite E2 in Hab.
  assert (Hu : uncached true (arg_d sc) st0) by (left; reflexivity).
  assert (Hneg : wf (gmw_wave gmw60) (nth i sc 0 * - (2 * PI * INR 2 / INR 8)) = C0).
  { destruct (gmw_spectrum 3 60 gmw60 ltac:(lra) ltac:(lra) default_gmw) as (_ & S2). apply S2. specialize (Hpos i Hi). pose proof PI_RGT_0.
    replace (nth i sc 0 * - (2 * PI * INR 2 / INR 8)) with (- (nth i sc 0 * (PI / 2))) by (cbn; field).
    assert (0 <= nth i sc 0 * (PI / 2)) by (apply Rmult_le_pos; lra). lra. }
  pose proof (tone_phase false true (gmw_wave gmw60) (arg_d sc) st0 1 0 2 8 1 W sc dW s' (1 / 1000) i j ltac:(lia) ltac:(lia) eq_refl Hu
    (fs_1 8) Hcw (fun _ => Hneg) ltac:(lra) Hab) as P.
  unfold phase_cwt in P. cbn [el] in P. destruct (Rlt_dec _ _); [lra|]. unfold found in Hf. rewrite E4, E2, E5 in Hf.
  assert (Ea : Fin a = Fin (INR 2 * Rabs 1 / INR 8)) by (rewrite <- Hf; exact P).
  assert (a = 1 / 4) as -> by (injection Ea as ->; rewrite Rabs_R1; cbn; lra). clear Ea. unfold reach_log, lg, freqs_s. pose proof (process_log_len _ _ _ Hs).
  rewrite (log_freqs_nth (1 / 8) (1 / 2) (length sc) 0) by (lra || lia). unfold log2 at 2. rewrite ln_exp.
  set (M := Rmax _ EPS64). assert (HM : EPS64 <= M) by apply Rmax_r.
  replace (log2 (1 / 4)) with (1 + log2 (1 / 8)).
  2:{ replace (1 / 4) with (2 * (1 / 8)) by lra. unfold log2. rewrite ln_mult by lra. pose proof ln2_pos. field. lra. }
  replace (INR 0) with 0 by reflexivity. replace (ln (1 / 8) + 0 * ((ln (1 / 2) - ln (1 / 8)) / INR (length sc - 1))) with (ln (1 / 8)) by ring.
  unfold log2. assert (1 <= IZR (2 ^ 62) * EPS64) by (unfold EPS64; lra).
  assert (IZR (2 ^ 62) * EPS64 <= IZR (2 ^ 62) * M) by (apply Rmult_le_compat_l; [apply IZR_le; lia|exact HM]). lra.
Qed.

Lemma rt_len sc : make_scales 1 8 32 SLog (fun _ => Ok None) 5%Z = Ok sc -> (Z.of_nat (length sc) < 2 ^ 62)%Z.
Proof.
  intros Es. destruct (log_scales 1 8 32 ltac:(lra) ltac:(lia) (fun _ => Ok None) 5%Z) as (sc' & E' & Hne & Hg & (H0 & _) & (_ & H1)).
    rewrite Es in E'. injection E' as <-. assert (El : last sc 0 = nth (length sc - 1) sc 0).
    { clear -Hne. rewrite (app_removelast_last 0 Hne) at 2 3. rewrite app_length, app_nth2; cbn [length]; [|lia].
      replace (length (removelast sc) + 1 - 1 - length (removelast sc))%nat with 0%nat by lia. reflexivity. }
    assert (Hlen : (0 < length sc)%nat) by (destruct sc; [congruence|cbn; lia]).
    rewrite El, (Hg (length sc - 1)%nat) in H1 by lia.
    destruct (Z_lt_le_dec (Z.of_nat (length sc)) (2 ^ 62)) as [|L]; [assumption|exfalso].
    assert (Rpower 2 4 <= Rpower 2 (INR (length sc - 1) / 32)).
    { apply Rle_Rpower; [lra|]. rewrite INR_IZR_INZ. assert (128 <= IZR (Z.of_nat (length sc - 1))) by (apply IZR_le; lia). lra. }
    assert (E16 : Rpower 2 4 = 16) by (replace 4 with (INR 4) by (cbn; lra); rewrite Rpower_pow by lra; lra).
    assert (HP : 0 < Rpower 2 (1 / 32)) by apply exp_pos. assert (HP2 : Rpower 2 (1 / 32) <= 2) by (rewrite <- (Rpower_1 2) at 2 by lra; apply Rle_Rpower; lra).
    set (P := Rpower 2 (1 / 32)) in *.
    assert (1 / 2 <= 1 / P) by (apply (Rmult_le_reg_r P); [exact HP|]; replace (1 / P * P) with 1 by (field; lra); lra).
    assert (1 / 2 * 16 <= nth 0 sc 0 * Rpower 2 (INR (length sc - 1) / 32)) by (apply Rmult_le_compat; lra). lra.
Qed.
