(** A concrete squeezed tone: two periods in eight samples, octave scales 1, 2, 4. *)
From Coq Require Import Reals Lra ZifyBool ZifyNat.
From Verif Require Import Py Round Parallel Cplx CplxProofs Padding PaddingProofs Buffer Freqs Squeeze SqueezeProofs
  SqueezeThms SqueezeThms2 SqueezeThms3 Scales Ssqueeze SsqueezeProofs IssqProofs SsqThms FreqRange SsqWitness Cwt CwtProofs CwtThms
  CwtTone CwtThms2 CwtWitness CwtWitness2 SsqCwt SsqCwtProofs SsqCwtInv SsqCwtWitness Ridge RidgeOpt RidgeThms RidgeCurve ToneThms PhaseDiff.
Local Open Scope R_scope.

Definition arg_t (gw : bool) : ssq_args :=
  SQ (ScArr [1; 2; 4]) SLog None true true true None None FNone None SqSum MRMaximal DTrig None
     (Some (1 / 10)) true None (PatInt 0) true None gw.
Definition freqs8 : list R := log_freqs (1 / 8) (1 / 2) 3.

Lemma pos_sided k n : (0 < k)%nat -> (0 < n)%nat -> one_sided pos_wave [1; 2; 4] k n.
Proof.
  intros Hk Hn i Hi. cbn [length] in Hi. cbn [wf pos_wave]. pose proof PI_RGT_0.
  assert (0 < INR k) by (apply lt_0_INR; lia). assert (0 < / INR n) by (apply Rinv_0_lt_compat, lt_0_INR; lia).
  assert (0 < 2 * PI * INR k / INR n) by (apply Rmult_lt_0_compat; [apply Rmult_lt_0_compat; lra|assumption]).
  destruct (Rlt_dec _ _) as [L|]; [|reflexivity]. exfalso.
  destruct i as [|[|[|i]]]; cbn [nth] in L; [lra|lra|lra|lia].
Qed.
Lemma pos_response s k n : 0 < s -> (0 < k)%nat -> (0 < n)%nat -> response pos_wave s k n = 1.
Proof.
  intros Hs Hk Hn. unfold response. cbn [wf pos_wave]. pose proof PI_RGT_0.
  assert (0 < INR k) by (apply lt_0_INR; lia). assert (0 < / INR n) by (apply Rinv_0_lt_compat, lt_0_INR; lia).
  assert (0 < 2 * PI * INR k / INR n) by (apply Rmult_lt_0_compat; [apply Rmult_lt_0_compat; lra|assumption]).
  assert (0 < s * (2 * PI * INR k / INR n)) by (apply Rmult_lt_0_compat; assumption).
  destruct (Rlt_dec _ _); [reflexivity|contradiction].
Qed.

Lemma freqs8_of gw : ssq_freqs_of (ssq_o (arg_t gw) 1 [1; 2; 4] SLog true) 8 = Ok (Some (KLog 1), freqs8, true) /\
  geometric freqs8 1.
Proof.
  assert (Hr : ssq_freqrange MRMaximal (1 / 1) 8 [1; 2; 4] = (1 / 8, 1 / 2)).
  { unfold ssq_freqrange. f_equal; [replace (INR 8) with 8 by (cbn; lra)|]; lra. }
  destruct (default_log_grid (ssq_o (arg_t gw) 1 [1; 2; 4] SLog true) [1; 2; 4] 1 8 (1 / 8) (1 / 2)
              eq_refl eq_refl (scales124 true) (or_intror eq_refl) Hr ltac:(lra) ltac:(lra)) as (E & _).
  split; [exact E|].
  pose proof (log_freqs_geometric (1 / 8) (1 / 2) 3 ltac:(lra) ltac:(lra) ltac:(lia)) as G.
  replace ((ln (1 / 2) - ln (1 / 8)) / INR (3 - 1) / ln 2) with 1 in G; [exact G|].
  replace (1 / 8) with (/ 2 * / 2 * / 2) by lra. replace (1 / 2) with (/ 2) by lra.
  rewrite !ln_mult by lra. rewrite ln_Rinv by lra. cbn [Nat.sub INR]. field. pose proof ln2_pos. lra.
Qed.

Lemma tone8_run gw : exists r s', ssq_cwt serial_order false pos_wave fam0 (arg_t gw) (tone 1 0 2 8) st0 = (Ok r, s') /\
  r_scales r = [1; 2; 4].
Proof.
  set (q := arg_t gw). set (x := tone 1 0 2 8).
  assert (Hx : length x = 8%nat) by apply tone_length.
  assert (Hp : pad_input None x = Ok (x, 0%Z)).
  { unfold pad_input. destruct x eqn:E; [discriminate|reflexivity]. }
  destruct (cwt_c_ok pos_wave None false x x 0 ltac:(discriminate) Hp) as (W & dW & s' & Ec).
  destruct (cwt_ncols _ _ _ _ _ _ _ _ _ _ Ec) as (Hr & Hn). cbn [arg_c a_rpadded a_pad negb andb length] in Hr, Hn.
  assert (Hcol : ncols W = 8%nat) by lia.
  assert (exists r, squeeze_step serial_order q 1 4 8 W dW [1; 2; 4] true SLog = Ok r) as (r & Es).
  { destruct (freqs8_of gw) as (Ef & Hg).
    fold q in Ef. pose proof (grid_log true freqs8 1 Hg) as Eg.
    pose proof (const_arr_scalar (nrows W) (ln 2 / 1) ltac:(lia)) as Ea.
    unfold squeeze_step. unfold q at 1 2 3 4 5. cbn [arg_t q_get_w q_f64 q_diff q_f64v q_sq q_mr q_flip].
    set (o := SO _ _ _ _ _ _ _ _ _ _ _).
    change o with (ssq_o q 1 [1; 2; 4] SLog true) in *. unfold ssqueeze.
    set (out := Mat (nrows W) (ncols W) (fun _ _ => C0)).
    destruct gw; unfold ssqueeze.
    - cbn [phase_transform bind]. cbn [ssq_o o_gamma].
      rewrite no_negative.
      2:{ intros i j z. cbn [phase_cwt el]. destruct (Rlt_dec _ _); [discriminate|]. intros E. injection E as <-. apply Rabs_pos. }
      rewrite Hcol. rewrite Ef. cbn [bind].
      unfold ssqueeze_one. cbn [ssq_const ssq_o o_tr o_sq q arg_t q_sq squeeze_input bind o_f64v q_f64v o_flip q_flip].
      fold out.
      destruct (onfly_sum serial_order true W (phase_cwt (ssq_gamma q) W dW) freqs8 (CScalar (ln 2 / 1)) true true out _ _ serial_order_valid Ea Eg) as (Tx & E & _).
      match goal with |- context [indexed_sum_onfly ?a ?b ?c ?d ?e ?f ?g ?h ?i] =>
        replace (indexed_sum_onfly a b c d e f g h i) with (Ok Tx) by (symmetry; exact E) end.
      cbn [bind]. eauto.
    - cbn [bind]. cbn [ssq_o o_gamma].
      rewrite Hcol. rewrite Ef. cbn [bind].
      unfold ssqueeze_one. cbn [ssq_const ssq_o o_tr o_sq q arg_t q_sq squeeze_input bind o_f64v q_f64v o_flip q_flip o_gamma o_Sfs].
      fold out.
      destruct (fast_sum serial_order true W dW freqs8 (CScalar (ln 2 / 1)) true true (ssq_gamma q) None out _ _ serial_order_valid Ea Eg (or_introl eq_refl)) as (Tx & E & _).
      change (q_get_w q) with false. cbv iota.
      match goal with |- context [ssqueeze_fast ?a ?b ?c ?d ?e ?f ?g ?h ?i ?j ?k] =>
        replace (ssqueeze_fast a b c d e f g h i j k) with (Ok Tx) by (symmetry; exact E) end.
      cbn [bind]. eauto. }
  assert (Hk : check_diff q = Ok 4%Z) by reflexivity.
  exists r, s'. split.
  - unfold ssq_cwt. unfold mbind at 1, lift at 1. rewrite Hk. unfold mbind at 1, lift at 1.
    change (process_fs_and_t (q_fs q) (q_t q) (length x)) with (Ok 1 : res R).
    change (q_order q) with (@None ho_order). cbv iota. unfold mbind at 1, lift at 1.
    change (ssq_scales (q_f64s q) (q_scales q) (q_kind q) (ssq_nv q) (length x)) with (ssq_scales true (ScArr [1; 2; 4]) SLog None (length x)).
    unfold ssq_scales, process_scales_nv. rewrite infer124. cbn [bind]. change (1 <=? 0)%Z with false. cbv iota. cbn [bind skind_of].
    unfold mbind at 1.
    change (inner q 1 (ScArr [1; 2; 4]) (match q_scales q with ScArr _ => q_f64s q | ScAuto _ => true end) true
       (match q_diff q with DNumeric => true | _ => false end) (q_pat q)) with (arg_c None false).
    rewrite Ec. cbv iota. unfold lift. f_equal. rewrite Hx. exact Es.
  - destruct (step_inv _ _ _ _ _ _ _ _ _ _ _ Hk Es) as (w & Tx & _ & _ & _ & E3 & _). exact E3.
Qed.

Theorem tone8 gw : exists r s', tone_run serial_order false pos_wave fam0 (arg_t gw) 1 0 2 8 st0 r s' 1 1 /\
  r_scales r = [1; 2; 4] /\ gain (arg_t gw) pos_wave (r_scales r) 1 1 2 8 = 3 * ln 2.
Proof.
  destruct (tone8_run gw) as (r & s' & E & Hsc). exists r, s'. split; [|split; [exact Hsc|]].
  - unfold tone_run. rewrite Hsc. destruct (freqs8_of gw) as (Ef & Hg).
    split; [exact serial_order_valid|]. split; [lia|]. split; [lia|]. split; [repeat split|].
    split; [unfold ssq_gamma; cbn [arg_t q_gamma]; lra|]. split; [left; reflexivity|].
    split; [intros w; cbn [wf pos_wave]; destruct (Rlt_dec 0 w); reflexivity|].
    split; [apply pos_sided; lia|]. split; [exact E|]. split; [reflexivity|]. split; [apply scales124|].
    exists SLog, (Some (KLog 1)), freqs8, 1. split; [|split; [exact Ef|split; [exact Hg|split; [|split; [reflexivity|]]]]].
    + change (ssq_scales true (ScArr [1; 2; 4]) SLog None 8 = Ok ([1; 2; 4], SLog)).
      unfold ssq_scales, process_scales_nv. rewrite infer124. reflexivity.
    + unfold EPS64. lra.
    + unfold reach_log, tone_freq. destruct Hg as (_ & Hg). rewrite (Hg 1%nat) by (cbn; lia).
      replace (lg freqs8 0) with (log2 (1 / 8)).
      2:{ unfold lg, freqs8. rewrite log_freqs_nth by (lra || lia). unfold log2. rewrite ln_exp.
          replace (INR 0) with 0 by reflexivity. f_equal. unfold Rdiv. ring. }
      replace (INR 2 * 1 / INR 8) with (2 * (1 / 8)) by (cbn; lra).
      unfold log2. rewrite ln_mult by lra. pose proof ln2_pos.
      replace ((ln 2 + ln (1 / 8)) / ln 2 - ln (1 / 8) / ln 2) with 1 by (field; lra).
      pose proof (Rmax_l (ln (1 / 8) / ln 2 + INR 1 * 1 - ln (1 / 8) / ln 2) EPS64) as M.
      replace (ln (1 / 8) / ln 2 + INR 1 * 1 - ln (1 / 8) / ln 2) with 1 in * by (cbn; ring).
      assert (1 <= IZR (2 ^ 62)) by (apply IZR_le; lia). nra.
  - rewrite Hsc. unfold gain. cbn [length Rsum nth].
    rewrite !pos_response by (lra || lia).
    destruct (passes_dec _ _) as [|N]; [lra|]. exfalso. apply N. unfold passes, ssq_gamma. cbn [arg_t q_get_w q_gamma].
    replace (1 / 2 * 1) with (1 / 2) by lra. rewrite Rabs_right by lra. destruct gw; lra.
Qed.

(** the same samples taken at rate 2 *)
Definition arg_2 : cwt_args := CA (ScArr [1; 2; 4]) true (Some 2) None true true None false true (PatInt 0) None.
Lemma tone8_cwt : exists W dW s', cwt false true pos_wave arg_2 (tone 1 0 2 8) st0 = (Ok (W, [1; 2; 4], Some dW), s').
Proof.
  set (x := tone 1 0 2 8).
  assert (Hp : pad_input None x = Ok (x, 0%Z)).
  { unfold pad_input. destruct x eqn:E; [discriminate|reflexivity]. }
  assert (P : pre pos_wave arg_2 x 2 x 0 [1; 2; 4]).
  { unfold pre. cbn [arg_2 a_fs a_t a_l1 a_pad a_scales a_f64s]. split; [apply rate_self; lra|].
    split; [reflexivity|]. split; [exact Hp|]. unfold process_scales. rewrite scales124. reflexivity. }
  pose proof (cwt_run false true pos_wave arg_2 x st0 2 x 0 [1; 2; 4] P eq_refl eq_refl) as E. cbv zeta in E.
  change (a_deriv arg_2) with true in E. cbv iota in E. do 3 eexists. exact E.
Qed.
Lemma pos_real : real_valued pos_wave.
Proof. intros w. cbn [wf pos_wave]. destruct (Rlt_dec 0 w); reflexivity. Qed.
(** 'trig' finds 1/2 Hz everywhere; 'phase' finds 1/4, and 7/4 in the last column *)
Theorem phase_units : exists W dW s' w, cwt false true pos_wave arg_2 (tone 1 0 2 8) st0 = (Ok (W, [1; 2; 4], Some dW), s') /\
  phase_phase (1 / 10) W = Ok w /\
  forall i j, (i < 3)%nat -> (j < 8)%nat ->
    el (phase_cwt (1 / 10) W dW) i j = Fin (1 / 2) /\
    el w i j = Fin (if (j =? 7)%nat then 7 / 4 else 1 / 4).
Proof.
  destruct tone8_cwt as (W & dW & s' & E).
  destruct (cwt_ncols _ _ _ _ _ _ _ _ _ _ E) as (Hr & Hn). change (Z.of_nat (ncols W) = Z.of_nat 8)%Z in Hn.
  assert (exists w, phase_phase (1 / 10) W = Ok w) as (w & Ew).
  { unfold phase_phase. destruct (Nat.eqb_spec (ncols W) 0); [lia|]. eauto. }
  exists W, dW, s', w. split; [exact E|]. split; [exact Ew|]. intros i j Hi Hj.
  assert (Hu : uncached true arg_2 st0) by (left; reflexivity).
  assert (Hos : one_sided pos_wave [1; 2; 4] 2 8) by (apply pos_sided; lia).
  assert (Hab : 1 / 10 <= Cabs (el W i j)).
  { rewrite (cwt_tone false true pos_wave arg_2 st0 1 0 2 8 W [1; 2; 4] (Some dW) s' i j); try assumption; try reflexivity; try lia;
      [|apply pos_real].
    rewrite Cabs_tone, pos_response; [rewrite Rabs_right; lra| |lia|lia].
    destruct i as [|[|[|i]]]; cbn [nth]; lra || lia. }
  split.
  - rewrite (tone_phase false true pos_wave arg_2 st0 1 0 2 8 2 W [1; 2; 4] dW s' (1 / 10) i j); try assumption; try reflexivity; try lia; try lra.
    + f_equal. rewrite Rabs_right by lra. cbn. lra.
    + apply rate_self. lra.
    + intros _. apply Hos. exact Hi.
  - rewrite (phase_tone false true pos_wave arg_2 st0 1 0 2 8 W [1; 2; 4] (Some dW) s' (1 / 10) w i j); try assumption; try reflexivity; try lia; try lra.
    + f_equal. change (S j =? 8)%nat with (j =? 7)%nat. destruct (j =? 7)%nat; cbn; lra.
    + apply pos_real.
Qed.
