(** One period in four samples, padded by reflection: its squeezed transform has a second row
    and it does not come back as a multiple of itself. *)
From Coq Require Import Reals Lra ZifyBool ZifyNat.
From Verif Require Import Py Round Parallel Cplx CplxProofs Padding PaddingProofs Buffer Freqs Squeeze SqueezeProofs
  SqueezeThms SqueezeThms2 SqueezeThms3 Scales Ssqueeze SsqueezeProofs IssqProofs SsqThms FreqRange SsqWitness Cwt CwtProofs CwtThms
  CwtTone CwtThms2 CwtWitness CwtWitness2 SsqCwt SsqCwtProofs SsqCwtInv SsqCwtWitness Ridge RidgeOpt RidgeThms RidgeCurve ToneThms
  Reassign PhaseDiff ToneWitness.
Local Open Scope R_scope.

Definition arg_p (gw : bool) : ssq_args :=
  SQ (ScArr [1; 2; 4]) SLog None true true true None None FNone (Some PReflect) SqSum MRMaximal DTrig None
     (Some (1 / 10)) true None (PatInt 0) true None gw.

Lemma tone4 : tone 1 0 1 4 = [1; 0; -1; 0].
Proof.
  unfold tone, tab. cbn [seq map INR].
  replace (2 * PI * 1 * 0 / (1 + 1 + 1 + 1) + 0) with 0 by field.
  replace (2 * PI * 1 * 1 / (1 + 1 + 1 + 1) + 0) with (PI / 2) by field.
  replace (2 * PI * 1 * (1 + 1) / (1 + 1 + 1 + 1) + 0) with PI by field.
  replace (2 * PI * 1 * (1 + 1 + 1) / (1 + 1 + 1 + 1) + 0) with (3 * (PI / 2)) by field.
  rewrite cos_0, cos_PI2, cos_PI, cos_3PI2. repeat f_equal; ring.
Qed.
Definition padded : list R := [-1; 0; 1; 0; -1; 0; -1; 0].
Lemma tone4_pad : pad_input (Some PReflect) (tone 1 0 1 4) = Ok (padded, 2%Z).
Proof. rewrite tone4. unfold pad_input. rewrite pad4. reflexivity. Qed.

Definition spec8 (k : nat) : C := nth k [(-2, 0); (0, -2); (-2, 0); (0, 2); (-2, 0); (0, -2); (-2, 0); (0, 2)] C0.
Lemma padded_dft k : (k < 8)%nat -> sig_dft padded k = spec8 k.
Proof.
  intros Hk. unfold sig_dft, spec8. change (length padded) with 8%nat. unfold dft, padded. cbn [Csum nth].
  destruct k as [|[|[|[|[|[|[|[|k]]]]]]]]; [..|lia]; tw8s; apply C_eq; cbn; ring.
Qed.
Lemma pos_psih s k : 0 < s -> (k < 8)%nat ->
  psih_val pos_wave s 8 false k = RtoC (nth k [0; 1; 1; 1; / 2; 0; 0; 0] 0).
Proof.
  intros Hs Hk. pose proof PI_RGT_0 as Hpi.
  unfold psih_val. cbn [wf pos_wave]. unfold xifn. rewrite nth_tab by exact Hk. unfold xi_bin.
  assert (Hpos : forall z, (0 < z)%Z -> 0 < s * (IZR z * (1 * (2 * PI) / INR 8))).
  { intros z Hz. apply Rmult_lt_0_compat; [exact Hs|]. apply Rmult_lt_0_compat; [apply IZR_lt; exact Hz|]. cbn; lra. }
  assert (Hneg : forall z, (z <= 0)%Z -> ~ 0 < s * (IZR z * (1 * (2 * PI) / INR 8))).
  { intros z Hz H. apply IZR_le in Hz. assert (0 < 1 * (2 * PI) / INR 8) by (cbn; lra).
    assert (IZR z * (1 * (2 * PI) / INR 8) <= 0) by nra. nra. }
  destruct k as [|[|[|[|[|[|[|[|k]]]]]]]]; [..|lia];
    cbn [Nat.ltb Nat.leb Nat.div Nat.divmod fst Nat.add Z.of_nat Nat.modulo Nat.sub snd Nat.eqb negb andb nth];
    (destruct (Rlt_dec 0 _) as [L|L];
      [first [exfalso; revert L; apply Hneg; lia|apply C_eq; cbn; ring]
      |first [exfalso; apply L, Hpos; lia|apply C_eq; cbn; ring]]).
Qed.

(** the four columns, the same at every scale; [h = 1 / sqrt 2] *)
Definition h8 : R := / sqrt 2.
Lemma h8_sq : h8 * h8 = / 2.
Proof. unfold h8. rewrite <- Rinv_mult, sqrt_sqrt by lra. reflexivity. Qed.
Definition col (j : nat) : C :=
  nth j [(5 / 8, 0); (1 / 8, (1 + 2 * h8) / 4); (- (3 / 8), 0); (1 / 8, (2 * h8 - 1) / 4)] C0.
Definition dcol (j : nat) : C :=
  nth j [(0, 8); (- (4 + 8 * h8), 4 - 4 * h8); (4, -8); (4 - 8 * h8, 4 + 4 * h8)] C0.

Lemma row_padded s j : 0 < s -> (j < 4)%nat -> row_val pos_wave s padded (2 + j) = col j.
Proof.
  intros Hs Hj. unfold row_val. change (length padded) with 8%nat. unfold idft. cbn [Csum].
  rewrite !padded_dft, !pos_psih by (lia || exact Hs). unfold spec8, col. cbn [nth].
  destruct j as [|[|[|[|j]]]]; [..|lia]; cbn [Nat.add]; tw8s; fold h8; apply C_eq; cbn; field.
Qed.
Lemma drow_padded s j : 0 < s -> (j < 4)%nat -> drow_val pos_wave s 1 padded (2 + j) = Cmul (RtoC (PI / 32)) (dcol j).
Proof.
  intros Hs Hj. unfold drow_val. change (length padded) with 8%nat. unfold idft. cbn [Csum].
  rewrite !padded_dft, !pos_psih by (lia || exact Hs). unfold xifn. rewrite !nth_tab by lia. unfold spec8, dcol, xi_bin.
  cbn [Nat.ltb Nat.leb Nat.div Nat.divmod fst Nat.add Z.of_nat nth].
  destruct j as [|[|[|[|j]]]]; [..|lia]; cbn [Nat.add]; tw8s; fold h8; apply C_eq; cbn -[PI]; field.
Qed.

(** ** The run *)
Definition freqs4 : list R := log_freqs (1 / 4) (1 / 2) 3.
Lemma freqs4_of gw : ssq_freqs_of (ssq_o (arg_p gw) 1 [1; 2; 4] SLog true) 4 = Ok (Some (KLog 1), freqs4, true) /\
  geometric freqs4 (1 / 2).
Proof.
  assert (Hr : ssq_freqrange MRMaximal (1 / 1) 4 [1; 2; 4] = (1 / 4, 1 / 2)).
  { unfold ssq_freqrange. f_equal; [replace (INR 4) with 4 by (cbn; lra)|]; lra. }
  destruct (default_log_grid (ssq_o (arg_p gw) 1 [1; 2; 4] SLog true) [1; 2; 4] 1 4 (1 / 4) (1 / 2)
              eq_refl eq_refl (scales124 true) (or_intror eq_refl) Hr ltac:(lra) ltac:(lra)) as (E & _).
  split; [exact E|].
  pose proof (log_freqs_geometric (1 / 4) (1 / 2) 3 ltac:(lra) ltac:(lra) ltac:(lia)) as G.
  replace ((ln (1 / 2) - ln (1 / 4)) / INR (3 - 1) / ln 2) with (1 / 2) in G; [exact G|].
  replace (1 / 4) with (/ 2 * / 2) by lra. replace (1 / 2) with (/ 2) by lra.
  rewrite !ln_mult by lra. rewrite ln_Rinv by lra. cbn [Nat.sub INR]. field. pose proof ln2_pos. lra.
Qed.

Lemma padded_run gw : exists r s', log_run serial_order false pos_wave fam0 (arg_p gw) (tone 1 0 1 4) st0 r s' 1 1 (1 / 2) /\
  r_scales r = [1; 2; 4] /\ r_freqs r = rev freqs4.
Proof.
  set (q := arg_p gw). set (x := tone 1 0 1 4).
  assert (Hx : length x = 4%nat) by apply tone_length.
  destruct (cwt_c_ok pos_wave (Some PReflect) false x padded 2 ltac:(discriminate) tone4_pad) as (W & dW & s' & Ec).
  destruct (cwt_ncols _ _ _ _ _ _ _ _ _ _ Ec) as (Hr & Hn). cbn [arg_c a_rpadded a_pad negb andb length] in Hr, Hn.
  assert (Hcol : ncols W = 4%nat) by lia.
  assert (exists r, squeeze_step serial_order q 1 4 4 W dW [1; 2; 4] true SLog = Ok r) as (r & Es).
  { destruct (freqs4_of gw) as (Ef & Hg).
    fold q in Ef. pose proof (grid_log true freqs4 (1 / 2) Hg) as Eg.
    pose proof (const_arr_scalar (nrows W) (ln 2 / 1) ltac:(lia)) as Ea.
    unfold squeeze_step. unfold q at 1 2 3 4 5. cbn [arg_p q_get_w q_f64 q_diff q_f64v q_sq q_mr q_flip].
    set (o := SO _ _ _ _ _ _ _ _ _ _ _).
    change o with (ssq_o q 1 [1; 2; 4] SLog true) in *. unfold ssqueeze.
    set (out := Mat (nrows W) (ncols W) (fun _ _ => C0)).
    destruct gw; unfold ssqueeze.
    - cbn [phase_transform bind]. cbn [ssq_o o_gamma].
      rewrite no_negative.
      2:{ intros i j z. cbn [phase_cwt el]. destruct (Rlt_dec _ _); [discriminate|]. intros E. injection E as <-. apply Rabs_pos. }
      rewrite Hcol. rewrite Ef. cbn [bind].
      unfold ssqueeze_one. cbn [ssq_const ssq_o o_tr o_sq q arg_p q_sq squeeze_input bind o_f64v q_f64v o_flip q_flip].
      fold out.
      destruct (onfly_sum serial_order true W (phase_cwt (ssq_gamma q) W dW) freqs4 (CScalar (ln 2 / 1)) true true out _ _ serial_order_valid Ea Eg) as (Tx & E & _).
      match goal with |- context [indexed_sum_onfly ?a ?b ?c ?d ?e ?f ?g ?h ?i] =>
        replace (indexed_sum_onfly a b c d e f g h i) with (Ok Tx) by (symmetry; exact E) end.
      cbn [bind]. eauto.
    - cbn [bind]. cbn [ssq_o o_gamma].
      rewrite Hcol. rewrite Ef. cbn [bind].
      unfold ssqueeze_one. cbn [ssq_const ssq_o o_tr o_sq q arg_p q_sq squeeze_input bind o_f64v q_f64v o_flip q_flip o_gamma o_Sfs].
      fold out.
      destruct (fast_sum serial_order true W dW freqs4 (CScalar (ln 2 / 1)) true true (ssq_gamma q) None out _ _ serial_order_valid Ea Eg (or_introl eq_refl)) as (Tx & E & _).
      change (q_get_w q) with false. cbv iota.
      match goal with |- context [ssqueeze_fast ?a ?b ?c ?d ?e ?f ?g ?h ?i ?j ?k] =>
        replace (ssqueeze_fast a b c d e f g h i j k) with (Ok Tx) by (symmetry; exact E) end.
      cbn [bind]. eauto. }
  assert (Hk : check_diff q = Ok 4%Z) by reflexivity.
  assert (Hsc : r_scales r = [1; 2; 4]).
  { destruct (step_inv _ _ _ _ _ _ _ _ _ _ _ Hk Es) as (w & Tx & _ & _ & _ & E3 & _). exact E3. }
  assert (Escs : ssq_scales true (ScArr [1; 2; 4]) SLog None (length x) = Ok ([1; 2; 4], SLog)).
  { unfold ssq_scales, process_scales_nv. rewrite infer124. reflexivity. }
  assert (Hfr : r_freqs r = rev freqs4).
  { destruct (step_inv _ _ _ _ _ _ _ _ _ _ _ Hk Es) as (w & Tx & E1 & _).
    destruct (ssqueeze_inv _ _ _ _ _ _ _ E1) as (k' & v' & ls' & Ef & Efr & _).
    destruct (freqs4_of gw) as (Ef' & _). unfold ssq_o in Ef'. change (squeezed q 4 W) with W in Ef. rewrite Hcol in Ef.
    fold q in Ef'. rewrite Ef' in Ef. injection Ef as <- <- <-. rewrite Efr. reflexivity. }
  exists r, s'. split; [|auto]. unfold log_run. rewrite Hsc.
  split; [exact serial_order_valid|]. split; [repeat split|].
  split; [|split; [reflexivity|split; [apply scales124|]]].
  - unfold ssq_cwt. unfold mbind at 1, lift at 1. rewrite Hk. unfold mbind at 1, lift at 1.
    change (process_fs_and_t (q_fs q) (q_t q) (length x)) with (Ok 1 : res R).
    change (q_order q) with (@None ho_order). cbv iota. unfold mbind at 1, lift at 1.
    change (ssq_scales (q_f64s q) (q_scales q) (q_kind q) (ssq_nv q) (length x)) with (ssq_scales true (ScArr [1; 2; 4]) SLog None (length x)).
    rewrite Escs. cbv iota. unfold mbind at 1.
    change (inner q 1 (ScArr [1; 2; 4]) (match q_scales q with ScArr _ => q_f64s q | ScAuto _ => true end) true
       (match q_diff q with DNumeric => true | _ => false end) (q_pat q)) with (arg_c (Some PReflect) false).
    rewrite Ec. cbv iota. unfold lift. f_equal. rewrite Hx. exact Es.
  - rewrite Hx. exists SLog, (Some (KLog 1)), freqs4. destruct (freqs4_of gw) as (Ef & Hg).
    split; [rewrite <- Hx; exact Escs|]. split; [exact Ef|]. split; [exact Hg|]. split; [unfold EPS64; lra|reflexivity].
Qed.

Lemma freqs4_log i : (i < 3)%nat -> log2 (nth i (rev freqs4) 0) = - (1 + INR i / 2).
Proof.
  intros Hi. assert (L : length freqs4 = 3%nat) by reflexivity. pose proof ln2_pos.
  rewrite rev_nth by lia. rewrite L. unfold freqs4. rewrite log_freqs_nth by (lra || lia). unfold log2. rewrite ln_exp.
  replace (1 / 4) with (/ 2 * / 2) by lra. replace (1 / 2) with (/ 2) by lra.
  rewrite !ln_mult by lra. rewrite ln_Rinv by lra.
  destruct i as [|[|[|i]]]; [..|lia]; cbn [Nat.sub INR]; field; lra.
Qed.
Lemma h8_range : 0.7 < h8 < 0.71.
Proof. assert (0 < h8) by (apply Rinv_0_lt_compat, sqrt_lt_R0; lra). pose proof h8_sq. nra. Qed.

Definition phase4 (j : nat) : R := phase_cwt_pt (col j) (Cmul (RtoC (PI / 32)) (dcol j)).
Lemma phase4_2 : phase4 2 = 1 / 3.
Proof.
  unfold phase4, phase_cwt_pt, phase_ratio, col, dcol. cbn [nth]. unfold Cmul, RtoC, Re, Im. cbn [fst snd].
  replace (_ / _) with (1 / 3) by (field; apply PI_neq0). apply Rabs_right. lra.
Qed.
Lemma phase4_le j : (j < 4)%nat -> log2 (phase4 j) <= 4.
Proof.
  intros Hj. pose proof h8_range. pose proof h8_sq as Hs. pose proof PI_RGT_0. pose proof ln2_pos.
  assert (B : 0 <= phase4 j <= 16).
  { destruct j as [|[|[|[|j]]]]; [..|lia].
    3:{ rewrite phase4_2. lra. }
    all: unfold phase4, phase_cwt_pt, phase_ratio, col, dcol; cbn [nth]; unfold Cmul, RtoC, Re, Im; cbn [fst snd];
      split; [apply Rabs_pos|].
    - replace (_ / _) with (1 / 5) by (field; lra). rewrite Rabs_right; lra.
    - set (u := h8) in *.
      replace (_ / _) with ((/ 2 * (1 - u) + (1 + 4 * u + 4 * (u * u))) / (1 + 4 * (1 + 4 * u + 4 * (u * u)))).
      2:{ field. split; [|lra]. nra. }
      rewrite Hs. apply Rabs_le. assert (0 < 1 + 4 * (1 + 4 * u + 4 * / 2)) by lra.
      split; (apply Rmult_le_reg_r with (1 + 4 * (1 + 4 * u + 4 * / 2)); [lra|]; unfold Rdiv; rewrite Rmult_assoc, Rinv_l by lra; lra).
    - set (u := h8) in *.
      replace (_ / _) with ((/ 2 * (1 + u) + (1 - 4 * u + 4 * (u * u))) / (1 + 4 * (1 - 4 * u + 4 * (u * u)))).
      2:{ field. split; [|lra]. nra. }
      rewrite Hs. apply Rabs_le. assert (0 < 1 + 4 * (1 - 4 * u + 4 * / 2)) by lra.
      split; (apply Rmult_le_reg_r with (1 + 4 * (1 - 4 * u + 4 * / 2)); [lra|]; unfold Rdiv; rewrite Rmult_assoc, Rinv_l by lra; lra). }
  unfold log2. apply Rmult_le_reg_r with (ln 2); [lra|]. unfold Rdiv. rewrite Rmult_assoc, Rinv_l, Rmult_1_r by lra.
  replace (4 * ln 2) with (ln 16).
  2:{ replace 16 with (2 * 2 * (2 * 2)) by lra. rewrite !ln_mult by lra. ring. }
  destruct B as [[B1|B1] B2].
  - destruct B2 as [B2| ->]; [apply Rlt_le, ln_increasing; lra|lra].
  - rewrite <- B1. unfold ln at 1. destruct (Rlt_dec 0 0) as [Q|]; [exfalso; exact (Rlt_irrefl 0 Q)|]. apply Rlt_le. rewrite <- ln_1. apply ln_increasing; lra.
Qed.

(** ** [ssq_cwt]: the tone is at the last row, 1/4 Hz; the third column is in the middle one *)
Theorem tone_padded gw : exists r s',
  log_run serial_order false pos_wave fam0 (arg_p gw) (tone 1 0 1 4) st0 r s' 1 1 (1 / 2) /\
  one_sided pos_wave (r_scales r) 1 4 /\ real_valued pos_wave /\
  nearest_row r (tone_freq 1 1 4) 2 /\
  el (r_Tx r) 2 2 = C0 /\ el (r_Tx r) 1 2 = RtoC (- (9 / 8) * ln 2).
Proof.
  destruct (padded_run gw) as (r & s' & L & Hsc & Hfr). exists r, s'. split; [exact L|].
  split; [rewrite Hsc; apply pos_sided; lia|]. split; [apply pos_real|].
  destruct (reassigned _ _ _ _ _ _ _ _ _ _ _ _ L) as (_ & R1 & C1 & Lf & _ & (f64s & pat & Ec) & Hrow).
  pose proof ln2_pos as Hl2.
  assert (Hpos : forall i, (i < 3)%nat -> 0 < nth i (r_scales r) 0).
  { intros i Hi. rewrite Hsc. destruct i as [|[|[|i]]]; cbn [nth]; lra || lia. }
  assert (HW : forall i j, (i < 3)%nat -> (j < 4)%nat ->
     el (r_Wx r) i j = col j /\ el (r_dWx r) i j = Cmul (RtoC (PI / 32)) (dcol j)).
  { intros i j Hi Hj.
    match type of Ec with cwt _ _ _ ?a _ _ = _ =>
      destruct (cwt_rows false true pos_wave a (tone 1 0 1 4) st0 _ _ _ _ pos_real (or_introl eq_refl : uncached true a st0) Ec)
        as (fs & xp & n1 & Efs & Ep & _ & A & B) end.
    cbn [inner a_fs a_t a_pad arg_p q_pad] in Efs, Ep. rewrite tone4_pad in Ep. injection Ep as <- <-.
    rewrite tone_length, rate_self in Efs by lra. injection Efs as <-.
    rewrite A, B. unfold finish_cell. cbn [inner a_l1 a_pad a_rpadded arg_p q_pad negb andb Z.to_nat Pos.to_nat Pos.iter_op].
    change (Pos.to_nat 2) with 2%nat.
    split; [apply row_padded|apply drow_padded]; auto. }
  assert (Eph : forall i j, (i < 3)%nat -> (j < 4)%nat -> phase_cwt_pt (el (r_Wx r) i j) (el (r_dWx r) i j) = phase4 j).
  { intros i j Hi Hj. destruct (HW i j Hi Hj) as (-> & ->). reflexivity. }
  rewrite Hsc in *. rewrite tone_length in *. cbn [length] in *.
  destruct Hrow as (row & Hnear & Hsum).
  { intros i j Hi Hj _. rewrite Eph by assumption. unfold in_reach. rewrite Hsc, Hfr. cbn [length Nat.sub].
    rewrite freqs4_log by lia. pose proof (phase4_le j Hj). assert (100 <= IZR (2 ^ 62)) by (apply IZR_le; lia). cbn [INR]. lra. }
  assert (Hc2 : forall i, (i < 3)%nat -> el (r_Wx r) i 2 = RtoC (- (3 / 8)) /\ passes (arg_p gw) (Cabs (el (r_Wx r) i 2))).
  { intros i Hi. destruct (HW i 2%nat Hi ltac:(lia)) as (E & _). rewrite E. change (col 2) with (RtoC (- (3 / 8))). split; [reflexivity|].
    rewrite Cabs_RtoC, Rabs_left by lra. unfold passes, ssq_gamma. cbn [arg_p q_get_w q_gamma]. destruct gw; lra. }
  assert (l3 : log2 (1 / 3) = - (log2 3)).
  { unfold log2. replace (1 / 3) with (/ 3) by lra. rewrite ln_Rinv by lra. unfold Rdiv. ring. }
  assert (b3 : 5 / 4 < log2 3 < 7 / 4).
  { unfold log2. assert (A : 5 * ln 2 < 4 * ln 3).
    { replace (5 * ln 2) with (ln 32).
      2:{ replace 32 with (2 * 2 * (2 * 2) * 2) by lra. rewrite !ln_mult by lra. ring. }
      replace (4 * ln 3) with (ln 81).
      2:{ replace 81 with (3 * 3 * (3 * 3)) by lra. rewrite !ln_mult by lra. ring. }
      apply ln_increasing; lra. }
    assert (B : 4 * ln 3 < 7 * ln 2).
    { replace (7 * ln 2) with (ln 128).
      2:{ replace 128 with (2 * 2 * (2 * 2) * (2 * 2 * 2)) by lra. rewrite !ln_mult by lra. ring. }
      replace (4 * ln 3) with (ln 81).
      2:{ replace 81 with (3 * 3 * (3 * 3)) by lra. rewrite !ln_mult by lra. ring. }
      apply ln_increasing; lra. }
    split; apply Rmult_lt_reg_r with (ln 2); try lra; unfold Rdiv; rewrite (Rmult_assoc (ln 3)), Rinv_l by lra; lra. }
  assert (Hrow1 : forall i, (i < 3)%nat -> row i 2%nat = 1%nat).
  { intros i Hi. destruct (Hc2 i Hi) as (_ & Hp).
    specialize (Hnear i 2%nat Hi ltac:(lia) Hp). rewrite Eph, phase4_2 in Hnear by lia. specialize (Hnear ltac:(lra)).
    destruct Hnear as (Hlt & _ & Hn). rewrite Hsc in Hlt, Hn. cbn [length] in Hlt, Hn.
    specialize (Hn 1%nat ltac:(lia)). rewrite Hfr, !freqs4_log, l3 in Hn by lia.
    destruct (row i 2%nat) as [|[|[|m]]]; [|reflexivity| |lia]; exfalso; cbn [INR] in Hn;
      revert Hn; unfold Rabs; repeat destruct (Rcase_abs _); lra. }
  split.
  { unfold nearest_row. rewrite Hsc. cbn [length]. split; [lia|]. split; [exact Lf|]. intros i Hi. rewrite Hfr, !freqs4_log by lia.
    replace (tone_freq 1 1 4) with (1 / 4) by (unfold tone_freq; cbn; lra).
    assert (log2 (1 / 4) = -2) as ->.
    { unfold log2. replace (1 / 4) with (/ 2 * / 2) by lra. rewrite ln_mult, ln_Rinv by lra. field. lra. }
    replace (-2 - - (1 + INR 2 / 2)) with 0 by (cbn; lra). rewrite Rabs_R0. apply Rabs_pos. }
  split; rewrite Hsum by lia; cbn [Csum];
    repeat (destruct (passes_dec _ _) as [_|N]; [|exfalso; apply N, Hc2; lia]);
    rewrite !Hrow1 by lia; cbn [Nat.eqb].
  - apply C_eq; cbn; ring.
  - destruct (Hc2 0%nat ltac:(lia)) as (-> & _), (Hc2 1%nat ltac:(lia)) as (-> & _), (Hc2 2%nat ltac:(lia)) as (-> & _).
    apply C_eq; unfold Cmul, Cadd, RtoC, C0; cbn [fst snd]; field.
Qed.

(** ** [icwt]: the second sample of the tone is 0 and comes back as another number *)
Theorem tone_padded_icwt Css pt rp : 0 < Css -> exists W dW s' y,
  cwt false true pos_wave (arg_c (Some PReflect) false) (tone 1 0 1 4) st0 = (Ok (W, [1; 2; 4], Some dW), s') /\
  one_sided pos_wave [1; 2; 4] 1 4 /\ real_valued pos_wave /\
  icwt pos_wave Css W [1; 2; 4] true None true true None 0 pt rp = Ok y /\
  nth 1 (tone 1 0 1 4) 0 = 0 /\ nth 1 y 0 = 3 / 4 * ln 2 / Css.
Proof.
  intros HC.
  destruct (cwt_c_ok pos_wave (Some PReflect) false (tone 1 0 1 4) padded 2 ltac:(discriminate) tone4_pad) as (W & dW & s' & Ec).
  destruct (cwt_ncols _ _ _ _ _ _ _ _ _ _ Ec) as (Hr & Hn). rewrite tone_length in Hn.
  cbn [arg_c a_rpadded a_pad negb andb length] in Hr, Hn. assert (Hcol : ncols W = 4%nat) by lia.
  destruct (cwt_rows false true pos_wave _ (tone 1 0 1 4) st0 _ _ _ _ pos_real (or_introl eq_refl : uncached true (arg_c (Some PReflect) false) st0) Ec)
        as (fs & xp & n1 & _ & Ep & _ & A & _).
  cbn [arg_c a_pad] in Ep. rewrite tone4_pad in Ep. injection Ep as <- <-.
  exists W, dW, s'. eexists. split; [exact Ec|]. split; [apply pos_sided; lia|]. split; [apply pos_real|].
  split; [apply (icwt_log_one pos_wave Css W [1; 2; 4] true 1); auto; apply scales124|].
  split; [rewrite tone4; reflexivity|].
  rewrite Hcol, Hr, nth_tab by lia. cbn [Rsum].
  assert (HW : forall i, (i < 3)%nat -> el W i 1 = col 1).
  { intros i Hi. rewrite A. unfold finish_cell. cbn [arg_c a_l1 a_pad a_rpadded negb andb].
    change (Z.to_nat 2) with 2%nat. apply row_padded; [|lia]. destruct i as [|[|[|i]]]; cbn [nth]; lra || lia. }
  rewrite !HW by lia. change (Re (col 1)) with (1 / 8). field. lra.
Qed.
