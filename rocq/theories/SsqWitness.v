From Coq Require Import ZifyBool ZifyNat.
From Verif Require Import Py Round Parallel Padding Cplx CplxProofs Buffer Stft StftProofs Squeeze SqueezeProofs BinProofs
  SqueezeThms SqueezeThms2 SqueezeThms3 Scales Ssqueeze SsqueezeProofs IssqProofs SsqThms FreqRange.
Local Open Scope R_scope.
Ltac Zify.zify_post_hook ::= Z.div_mod_to_equations.

(** ** Three octave-spaced scales, three linear frequencies *)
Lemma Rltb'_true a b : a < b -> Rltb' a b = true.
Proof. intros. unfold Rltb'. destruct (Rlt_dec a b); [reflexivity|contradiction]. Qed.
Lemma Rltb'_false a b : b <= a -> Rltb' a b = false.
Proof. intros. unfold Rltb'. destruct (Rlt_dec a b); [lra|reflexivity]. Qed.

Lemma infer_geometric f64 v d : (forall k, (k < length v)%nat -> 0 < nth k v 0) -> geometric v d -> d <> 0 ->
  infer_scaletype f64 v = Ok (KLog (round_half_even (1 / d))).
Proof.
  intros Hpos [Hn Hg] Hd. unfold infer_scaletype. destruct (Nat.ltb_spec (length v) 3); [lia|].
  assert (Ha : all_pos v = true).
  { apply forallb_forall. intros y Hy. apply (In_nth _ _ 0) in Hy. destruct Hy as (k & Hk & <-).
    apply Rltb'_true. auto. }
  rewrite Ha. cbn [andb].
  rewrite Rltb'_true.
  - pose proof (Hg 1%nat ltac:(lia)) as E. unfold lg in E. cbn [INR] in E.
    replace (log2 (nth 1 v 0) - log2 (nth 0 v 0)) with d by lra.
    destruct (Req_EM_T d 0); [contradiction|reflexivity].
  - unfold mean. rewrite lsum_zero; [destruct f64; unfold Rdiv; lra|].
    intros i Hi. rewrite map_length, !diff_length, map_length in Hi.
    rewrite nth_d2 by lia. rewrite d2_log2. rewrite (Hg (S (S i))), (Hg (S i)), (Hg i) by lia.
    rewrite !S_INR. replace (ln 2 * _) with 0 by ring. apply Rabs_R0.
Qed.

Lemma pow3 k : (k < 3)%nat -> nth k [1; 2; 4] 0 = Rpower 2 (INR k).
Proof.
  intros Hk. rewrite Rpower_pow by lra. destruct k as [|[|[|k]]]; cbn; try lra; lia.
Qed.
Lemma geom124 : geometric [1; 2; 4] 1.
Proof.
  split; [cbn; lia|]. intros k Hk. unfold lg. cbn [nth]. rewrite log2_1.
  cbn in Hk. destruct k as [|[|[|k]]]; cbn [nth INR]; rewrite ?log2_1, ?log2_2, ?log2_4; try ring. lia.
Qed.
Lemma scales124 f64 : process_scales_arr f64 [1; 2; 4] = Ok (KLog 1).
Proof.
  unfold process_scales_arr. rewrite (infer_geometric f64 _ 1); [|intros k Hk; cbn in Hk; destruct k as [|[|[|k]]]; cbn [nth]; lra || lia|apply geom124|lra].
  cbn [bind]. replace (1 / 1) with (IZR 1) by (unfold Rdiv; lra). rewrite rhe_IZR. reflexivity.
Qed.

Lemma ln43 : 1 / 4 <= ln 4 - ln 3.
Proof.
  rewrite <- ln_div by lra.
  assert (H : 1 + (- ln (4 / 3)) <= exp (- ln (4 / 3))).
  { destruct (Req_dec (- ln (4 / 3)) 0) as [->|E]; [rewrite exp_0; lra|left; apply exp_ineq1; exact E]. }
  rewrite exp_Ropp, exp_ln in H by lra. lra.
Qed.

Lemma infer123 f64 : infer_scaletype f64 [1; 2; 3] = Ok KLinear.
Proof.
  unfold infer_scaletype. cbn [length Nat.ltb Nat.leb map diff mean lsum fold_right].
  assert (E1 : Rltb' (mean [Rabs (ln 3 - ln 2 - (ln 2 - ln 1))]) (if f64 then 4 / 1000000000000000 else 8 / 10000000) = false).
  { apply Rltb'_false. unfold mean. cbn [lsum fold_right length INR].
    pose proof ln43 as H. replace (ln 4) with (2 * ln 2) in H by (replace 4 with (2 * 2) by ring; rewrite ln_mult by lra; ring).
    rewrite ln_1. rewrite Rabs_left1 by lra. destruct f64; lra. }
  rewrite E1, Bool.andb_false_r.
  rewrite Rltb'_true; [reflexivity|]. unfold mean. cbn [lsum fold_right length INR].
  replace (3 - 2 - (2 - 1)) with 0 by ring. rewrite Rabs_R0. destruct f64; lra.
Qed.

Definition wit (sq : squeezing) (gamma : R) (flip : bool) : ssq_opts :=
  SO TCwt (FArray [1; 2; 3]) (Some [1; 2; 4]) true true 1 sq MRMaximal (Some gamma) flip None.
Definition col3 (z : C) : mat C := Mat 3 1 (fun _ _ => z).
Definition fin3 (r : R) : mat fval := Mat 3 1 (fun _ _ => Fin r).

Lemma wit_freqs sq gamma flip N : ssq_freqs_of (wit sq gamma flip) N = Ok (Some (KLog 1), [1; 2; 3], false).
Proof.
  unfold ssq_freqs_of, wit. cbn [o_tr o_scales o_f64s o_freqs o_f64v]. rewrite scales124. cbn [bind].
  rewrite infer123. reflexivity.
Qed.

Lemma bin123 r k : (0 <= k <= 2)%Z -> r = 1 + IZR k \/ (r <= 1 /\ k = 0%Z) -> bin_lin 2 1 1 r = k.
Proof.
  intros Hk H. unfold bin_lin. replace ((r - 1) / 1) with (r - 1) by field.
  assert (E : Rmax (r - 1) 0 = IZR k).
  { destruct H as [->|[H ->]].
    - rewrite Rmax_left; [ring|]. assert (0 <= IZR k) by (apply IZR_le; lia). lra.
    - apply Rmax_right. lra. }
  rewrite E, rnd_i64_ok, rhe_IZR; [lia|]. split; apply IZR_le; lia.
Qed.

(** every coefficient [z], every frequency [r] nearest to entry [k]: all in one row *)
Lemma wit_one ord sq gamma flip W w dWx r k z : valid_order ord -> (0 <= k <= 2)%Z ->
  nrows W = 3%nat -> (forall i, el W i 0%nat = z) ->
  (r = 1 + IZR k \/ (r <= 1 /\ k = 0%Z)) ->
  (w = None -> dWx <> None) ->
  (forall i, (i < 3)%nat -> freq_at (wit sq gamma flip) W w dWx i 0 = Fin r) -> ncols W = 1%nat ->
  exists Tx, ssqueeze_one ord (wit sq gamma flip) (Some (KLog 1)) [1; 2; 3] false W w dWx = Ok Tx /\
    nrows Tx = 3%nat /\ ncols Tx = 1%nat /\
    forall q, (q < 3)%nat -> el Tx q 0%nat =
      if (flip_row flip 2 k =? Z.of_nat q)%Z then Cmul z (RtoC (3 * ln 2)) else C0.
Proof.
  intros Ho Hk Hr Hz Hrk Hwd Hfr Hc.
  assert (Ec : ssq_const (wit sq gamma flip) (Some (KLog 1)) [1; 2; 3] = Ok (CScalar (ln 2 / 1))) by reflexivity.
  assert (Ea : const_arr (nrows W) (CScalar (ln 2 / 1)) = Ok (repeat (ln 2 / 1) 3)) by (rewrite Hr; reflexivity).
  assert (Eg : get_grid true false [1; 2; 3] = Ok (GLin 1 1)).
  { rewrite grid_lin by (cbn; lia). cbn [nth]. do 2 f_equal. unfold ensure_nonzero_nonnegative.
    destruct (Rlt_dec _ _) as [H|]; [|ring]. pose proof EPS64_le1. lra. }
  assert (Hex : exists Tx, ssqueeze_one ord (wit sq gamma flip) (Some (KLog 1)) [1; 2; 3] false W w dWx = Ok Tx).
  { unfold ssqueeze_one. rewrite Ec. cbn [bind wit o_f64v o_flip o_gamma o_Sfs]. destruct w as [w|].
    - destruct (onfly_sum ord true W w [1; 2; 3] (CScalar (ln 2 / 1)) false flip (Mat (nrows W) (ncols W) (fun _ _ => C0)) _ _ Ho Ea Eg) as (Tx & E & _).
      exists Tx. exact E.
    - destruct dWx as [d|]; [|exfalso; apply Hwd; reflexivity].
      destruct (fast_sum ord true W d [1; 2; 3] (CScalar (ln 2 / 1)) false flip gamma None (Mat (nrows W) (ncols W) (fun _ _ => C0)) _ _ Ho Ea Eg (or_introl eq_refl)) as (Tx & E & _).
      exists Tx. exact E. }
  destruct Hex as [Tx E]. exists Tx. split; [exact E|].
  destruct (one_cells _ _ _ _ _ _ _ _ _ Ho E) as (H1 & H2 & cst & ca & g & Ec' & Ea' & Eg' & Hel).
  rewrite Ec in Ec'. injection Ec' as <-. rewrite Ea in Ea'. injection Ea' as <-.
  cbn [wit o_f64v] in Eg'. rewrite Eg in Eg'. injection Eg' as <-.
  split; [congruence|]. split; [congruence|]. intros q Hq. cbv zeta in Hel. rewrite Hr in Hel.
  rewrite Hel by lia. cbn [wit o_flip].
  change (Z.of_nat 3 - 1)%Z with 2%Z.
  assert (Hb : match w with Some _ => bin_onfly 2 (GLin 1 1) | None => bin_fast 2 (GLin 1 1) end r = k).
  { destruct w; cbn [bin_onfly bin_fast]; apply bin123; auto. }
  rewrite (Csum_ext 3 _ (fun _ => if (flip_row flip 2 k =? Z.of_nat q)%Z then Cmul z (RtoC (ln 2)) else C0)).
  - destruct (flip_row flip 2 k =? Z.of_nat q)%Z; cbn [Csum]; apply C_eq; cbn; ring.
  - intros i Hi. pose proof (Hfr i Hi) as Hf. cbn [wit] in Hf. rewrite Hf. rewrite Hb.
    destruct (flip_row flip 2 k =? Z.of_nat q)%Z; [|reflexivity].
    rewrite Hz. do 2 f_equal. destruct i as [|[|[|i]]]; cbn [repeat nth]; try lia; unfold Rdiv; rewrite Rinv_1; ring.
Qed.

Lemma neg_fin3 r : 0 <= r -> has_negative (fin3 r) = false.
Proof.
  intros H. unfold has_negative. apply existsb_false. intros i _. apply existsb_false. intros j _.
  cbn [fin3 el]. apply Rltb'_false. exact H.
Qed.

Lemma ln2_ne0 : 3 * ln 2 <> 0. Proof. pose proof ln2_pos. lra. Qed.
Lemma C1_scaled c : c <> 0 -> Cmul C1 (RtoC c) <> C0.
Proof. intros H E. unfold Cmul, C1, RtoC, C0 in E. cbn in E. injection E. lra. Qed.

(** ssqueeze in the witness, with [w] given *)
Lemma wit_onfly ord gamma flip r k : valid_order ord -> (0 <= k <= 2)%Z -> r = 1 + IZR k ->
  exists Tx, ssqueeze ord (wit SqSum gamma flip) (col3 C1) (Some (fin3 r)) None =
      Ok (Tx, if flip then [3; 2; 1] else [3; 2; 1]) /\
    nrows Tx = 3%nat /\ ncols Tx = 1%nat /\
    forall q, (q < 3)%nat -> el Tx q 0%nat =
      if (flip_row flip 2 k =? Z.of_nat q)%Z then Cmul C1 (RtoC (3 * ln 2)) else C0.
Proof.
  intros Ho Hk Hr.
  destruct (wit_one ord SqSum gamma flip (col3 C1) (Some (fin3 r)) None r k C1 Ho Hk eq_refl (fun _ => eq_refl) (or_introl Hr)
    ltac:(discriminate) (fun _ _ => eq_refl) eq_refl) as (Tx & E & H).
  exists Tx. split; [|exact H]. unfold ssqueeze.
  rewrite neg_fin3 by (assert (0 <= IZR k) by (apply IZR_le; lia); lra).
  change (ncols (col3 C1)) with 1%nat. rewrite wit_freqs. cbn [bind wit o_sq squeeze_input].
  fold (wit SqSum gamma flip). cbn [wit o_gamma].
  change (SO TCwt (FArray [1; 2; 3]) (Some [1; 2; 4]) true true 1 SqSum MRMaximal (Some gamma) flip None) with (wit SqSum gamma flip) in *.
  rewrite E. cbn [bind]. destruct flip; reflexivity.
Qed.

(** C23: cwt, flipud=False *)
Lemma unflipped_refuted : exists o Wx w Tx f,
  o_tr o = TCwt /\ o_flip o = false /\ (nrows Wx = 3 /\ ncols Wx = 1)%nat /\ length f = 3%nat /\
  ssqueeze serial_order o Wx (Some w) None = Ok (Tx, f) /\
  (forall i, (i < 3)%nat -> el w i 0%nat = Fin (nth 2 f 0)) /\
  el Tx 2%nat 0%nat = C0 /\ el Tx 0%nat 0%nat <> C0 /\ nth 0 f 0 <> nth 2 f 0.
Proof.
  destruct (wit_onfly serial_order 0 false 1 0 serial_order_valid ltac:(lia) ltac:(lra)) as (Tx & E & H1 & H2 & Hel).
  exists (wit SqSum 0 false), (col3 C1), (fin3 1), Tx, [3; 2; 1].
  split; [reflexivity|]. split; [reflexivity|]. split; [split; reflexivity|]. split; [reflexivity|].
  split; [exact E|]. split; [reflexivity|].
  split; [rewrite Hel by lia; reflexivity|].
  split; [rewrite Hel by lia; cbn [flip_row Z.eqb Z.of_nat]; apply C1_scaled, ln2_ne0|]. cbn [nth]. lra.
Qed.

(** C24: user frequencies of another length *)
Lemma infer1234 f64 : infer_scaletype f64 [1; 2; 3; 4] = Ok KLinear.
Proof.
  unfold infer_scaletype. cbn [length Nat.ltb Nat.leb map diff].
  assert (E1 : Rltb' (mean [Rabs (ln 3 - ln 2 - (ln 2 - ln 1)); Rabs (ln 4 - ln 3 - (ln 3 - ln 2))]) (if f64 then 4 / 1000000000000000 else 8 / 10000000) = false).
  { apply Rltb'_false. unfold mean. cbn [lsum fold_right length INR].
    pose proof ln43 as H. replace (ln 4) with (2 * ln 2) in H by (replace 4 with (2 * 2) by ring; rewrite ln_mult by lra; ring).
    rewrite ln_1. rewrite (Rabs_left1 (ln 3 - ln 2 - (ln 2 - 0))) by lra.
    pose proof (Rabs_pos (ln 4 - ln 3 - (ln 3 - ln 2))). destruct f64; lra. }
  rewrite E1, Bool.andb_false_r.
  rewrite Rltb'_true; [reflexivity|]. unfold mean. cbn [lsum fold_right length INR].
  replace (3 - 2 - (2 - 1)) with 0 by ring. replace (4 - 3 - (3 - 2)) with 0 by ring. rewrite Rabs_R0. destruct f64; lra.
Qed.
Lemma user_freqs_refuted : exists o Wx w Tx f,
  ssqueeze serial_order o Wx (Some w) None = Ok (Tx, f) /\ nrows Tx = 3%nat /\ length f = 4%nat.
Proof.
  set (o := SO TCwt (FArray [1; 2; 3; 4]) (Some [1; 2; 4]) true true 1 SqSum MRMaximal (Some 0) true None).
  assert (Ea : const_arr 3 (CScalar (ln 2 / 1)) = Ok (repeat (ln 2 / 1) 3)) by reflexivity.
  assert (Eg : get_grid true false [1; 2; 3; 4] = Ok (GLin 1 (ensure_nonzero_nonnegative (2 - 1)))) by reflexivity.
  destruct (onfly_sum serial_order true (col3 C1) (fin3 1) [1; 2; 3; 4] (CScalar (ln 2 / 1)) false true (Mat 3 1 (fun _ _ => C0)) _ _ serial_order_valid Ea Eg) as (Tx & E & H1 & _).
  assert (E1 : ssqueeze_one serial_order o (Some (KLog 1)) [1; 2; 3; 4] false (col3 C1) (Some (fin3 1)) None = Ok Tx) by exact E.
  assert (Ev : ssq_freqs_of o 1 = Ok (Some (KLog 1), [1; 2; 3; 4], false)).
  { unfold ssq_freqs_of. cbn [o o_tr o_scales o_f64s o_freqs o_f64v]. rewrite scales124. cbn [bind]. rewrite infer1234. reflexivity. }
  exists o, (col3 C1), (fin3 1), Tx, [4; 3; 2; 1]. split; [|split; [exact H1|reflexivity]].
  unfold ssqueeze. rewrite neg_fin3 by lra. change (ncols (col3 C1)) with 1%nat. rewrite Ev. cbn [bind].
  change (squeeze_input (o_sq o) (nrows (col3 C1)) (col3 C1)) with (col3 C1). rewrite E1. reflexivity.
Qed.

(** C25: coefficients of modulus exactly gamma *)
Lemma Cabs_1 : Cabs C1 = 1.
Proof. unfold Cabs. replace (Cnorm2 C1) with 1 by (unfold Cnorm2, C1; cbn [fst snd]; ring). apply sqrt_1. Qed.
Lemma Cabs_i : Cabs Ci = 1.
Proof. unfold Cabs. replace (Cnorm2 Ci) with 1 by (unfold Cnorm2, Ci; cbn [fst snd]; ring). apply sqrt_1. Qed.

Lemma get_w_threshold_refuted : exists o Wx dWx T T' f,
  o_gamma o = Some 1 /\ o_sq o = SqSum /\ (forall i j, Cabs (el Wx i j) = 1) /\
  squeeze_stage serial_order o 1 true Wx dWx = Ok (T, f) /\
  squeeze_stage serial_order o 1 false Wx dWx = Ok (T', f) /\
  el T 2%nat 0%nat <> C0 /\ (forall q, (q < nrows T')%nat -> el T' q 0%nat = C0).
Proof.
  set (o := wit SqSum 1 true). set (W := col3 C1). set (D := col3 C0).
  assert (Hph : phase_cwt 1 W D = Mat 3 1 (fun _ _ => if Rlt_dec (Cabs C1) 1 then Inf else Fin (phase_cwt_pt C1 C0))) by reflexivity.
  assert (Hpt : phase_cwt_pt C1 C0 = 0).
  { unfold phase_cwt_pt, phase_ratio, C1, C0. cbn. replace ((0 * 1 - 0 * 0) / _) with 0 by (unfold Rdiv; ring). apply Rabs_R0. }
  destruct (wit_one serial_order SqSum 1 true W (Some (phase_cwt 1 W D)) None 0 0 C1 serial_order_valid ltac:(lia) eq_refl (fun _ => eq_refl)
    ltac:(right; split; [lra|reflexivity]) ltac:(discriminate)) as (T & ET & HT1 & HT2 & HT).
  { intros i Hi. cbn [freq_at phase_cwt el W D col3]. rewrite Cabs_1, Hpt. destruct (Rlt_dec 1 1); [lra|reflexivity]. }
  { reflexivity. }
  assert (Ea : const_arr 3 (CScalar (ln 2 / 1)) = Ok (repeat (ln 2 / 1) 3)) by reflexivity.
  assert (Eg : get_grid true false [1; 2; 3] = Ok (GLin 1 (ensure_nonzero_nonnegative (2 - 1)))) by reflexivity.
  destruct (fast_sum serial_order true W D [1; 2; 3] (CScalar (ln 2 / 1)) false true 1 None (Mat 3 1 (fun _ _ => C0)) _ _ serial_order_valid Ea Eg (or_introl eq_refl)) as (T' & ET' & HT1' & HT2' & HT').
  exists o, W, D, T, T', [3; 2; 1]. split; [reflexivity|]. split; [reflexivity|]. split; [intros; apply Cabs_1|].
  split; [|split; [|split]].
  - unfold squeeze_stage. cbn [o wit o_Sfs]. fold o. unfold ssqueeze. rewrite (phase_not_negative (wit SqSum 1 true) 1 W D : has_negative (phase_cwt 1 W D) = false).
    change (ncols W) with 1%nat. unfold o. rewrite wit_freqs. cbn [bind]. cbn [wit o_sq squeeze_input].
    fold (wit SqSum 1 true). rewrite ET. reflexivity.
  - unfold squeeze_stage, ssqueeze. cbn [o wit o_gamma]. fold o. change (ncols W) with 1%nat. unfold o. rewrite wit_freqs.
    cbn [bind]. unfold ssqueeze_one. cbn [wit o_sq squeeze_input o_tr ssq_const bind o_gamma o_f64v o_flip o_Sfs].
    change (nrows W) with 3%nat. change (ncols W) with 1%nat. rewrite ET'. reflexivity.
  - rewrite HT by lia. cbn. apply C1_scaled, ln2_ne0.
  - intros q Hq. rewrite HT1' in Hq. cbn in Hq. rewrite HT' by (cbn; lia). cbn [el].
    rewrite Csum_0; [apply C_eq; cbn; ring|]. intros i Hi. cbn [W col3 el]. rewrite Cabs_1.
    destruct (Rlt_dec 1 1); [lra|reflexivity].
Qed.

(** C25: squeezing='abs' *)
Lemma get_w_abs_refuted : exists o Wx dWx T T' f,
  o_gamma o = Some (1 / 2) /\ o_sq o = SqAbs /\ (forall i j, Cabs (el Wx i j) = 1) /\
  squeeze_stage serial_order o (1 / 2) true Wx dWx = Ok (T, f) /\
  squeeze_stage serial_order o (1 / 2) false Wx dWx = Ok (T', f) /\
  el T 1%nat 0%nat <> C0 /\ el T' 1%nat 0%nat = C0.
Proof.
  set (W := col3 Ci). set (D := col3 (RtoC (-4 * PI))). set (W' := col3 (RtoC (Cabs Ci))).
  pose proof PI_RGT_0 as HPI.
  assert (Hpt : phase_cwt_pt Ci (RtoC (-4 * PI)) = 2).
  { unfold phase_cwt_pt, phase_ratio, Ci, RtoC. cbn. replace (_ / _) with 2 by (field; lra). apply Rabs_right. lra. }
  assert (Hpt' : phase_cwt_pt C1 (RtoC (-4 * PI)) = 0).
  { unfold phase_cwt_pt, phase_ratio, C1, RtoC. cbn. replace (_ / _) with 0 by (unfold Rdiv; ring). apply Rabs_R0. }
  assert (HC1 : RtoC (Cabs Ci) = C1) by (rewrite Cabs_i; reflexivity).
  destruct (wit_one serial_order SqAbs (1 / 2) true W' (Some (phase_cwt (1 / 2) W D)) None 2 1 (RtoC (Cabs Ci)) serial_order_valid ltac:(lia) eq_refl (fun _ => eq_refl)
    ltac:(left; ring) ltac:(discriminate)) as (T & ET & HT1 & HT2 & HT).
  { intros i Hi. cbn [freq_at phase_cwt el W D col3]. rewrite Cabs_i, Hpt. destruct (Rlt_dec 1 (1 / 2)); [lra|reflexivity]. }
  { reflexivity. }
  destruct (wit_one serial_order SqAbs (1 / 2) true W' None (Some D) 0 0 (RtoC (Cabs Ci)) serial_order_valid ltac:(lia) eq_refl (fun _ => eq_refl)
    ltac:(right; split; [lra|reflexivity]) ltac:(discriminate)) as (T' & ET' & HT1' & HT2' & HT').
  { intros i Hi. cbn [freq_at el W' D col3 wit o_gamma o_Sfs]. rewrite HC1, Cabs_1, Hpt'. destruct (Rlt_dec (1 / 2) 1); [reflexivity|lra]. }
  { reflexivity. }
  exists (wit SqAbs (1 / 2) true), W, D, T, T', [3; 2; 1]. split; [reflexivity|]. split; [reflexivity|]. split; [intros; apply Cabs_i|].
  split; [|split; [|split]].
  - unfold squeeze_stage. cbn [wit o_Sfs]. fold (wit SqAbs (1 / 2) true). unfold ssqueeze.
    rewrite (phase_not_negative (wit SqAbs (1 / 2) true) (1 / 2) W D : has_negative (phase_cwt (1 / 2) W D) = false).
    change (ncols W) with 1%nat. rewrite wit_freqs. cbn [bind].
    change (squeeze_input (o_sq (wit SqAbs (1 / 2) true)) (nrows W) W) with W'. rewrite ET. reflexivity.
  - unfold squeeze_stage, ssqueeze. cbn [wit o_gamma]. fold (wit SqAbs (1 / 2) true).
    change (ncols W) with 1%nat. rewrite wit_freqs. cbn [bind].
    change (squeeze_input (o_sq (wit SqAbs (1 / 2) true)) (nrows W) W) with W'. rewrite ET'. reflexivity.
  - rewrite HT by lia. cbn [flip_row Z.sub Z.eqb Z.of_nat]. rewrite HC1. cbn. apply C1_scaled, ln2_ne0.
  - rewrite HT' by lia. reflexivity.
Qed.

(** C26: 'lebesgue' in a batch of two *)
Lemma batch_lebesgue_refuted : exists o W w T0 T1 T f,
  o_sq o = SqLebesgue /\
  ssqueeze serial_order o W (Some w) None = Ok (T, f) /\
  ssqueeze_batch serial_order o [W; W] (Some [w; w]) None = Ok ([T0; T1], f) /\
  el T0 2%nat 0%nat <> el T 2%nat 0%nat.
Proof.
  set (o := wit SqLebesgue 0 true). set (w := fin3 1).
  destruct (wit_one serial_order SqLebesgue 0 true (col3 (RtoC (1 / INR 3))) (Some w) None 1 0 (RtoC (1 / INR 3)) serial_order_valid ltac:(lia) eq_refl (fun _ => eq_refl)
    ltac:(left; ring) ltac:(discriminate) (fun _ _ => eq_refl) eq_refl) as (T & ET & _ & _ & HT).
  destruct (wit_one serial_order SqLebesgue 0 true (col3 (RtoC (1 / INR 2))) (Some w) None 1 0 (RtoC (1 / INR 2)) serial_order_valid ltac:(lia) eq_refl (fun _ => eq_refl)
    ltac:(left; ring) ltac:(discriminate) (fun _ _ => eq_refl) eq_refl) as (T' & ET' & _ & _ & HT').
  exists o, (col3 C1), w, T', T', T, [3; 2; 1]. split; [reflexivity|]. split; [|split].
  - unfold ssqueeze. unfold w at 1. rewrite neg_fin3 by lra. change (ncols (col3 C1)) with 1%nat. unfold o. rewrite wit_freqs. cbn [bind].
    change (squeeze_input (o_sq (wit SqLebesgue 0 true)) (nrows (col3 C1)) (col3 C1)) with (col3 (RtoC (1 / INR 3))).
    rewrite ET. reflexivity.
  - unfold ssqueeze_batch. cbn [existsb]. unfold w at 1 2. rewrite neg_fin3 by lra. cbn [orb].
    cbv zeta. change (ncols (col3 C1)) with 1%nat. unfold o. rewrite wit_freqs. cbn [bind map length].
    change (squeeze_input (o_sq (wit SqLebesgue 0 true)) 2 (col3 C1)) with (col3 (RtoC (1 / INR 2))).
    cbn [repeat zip_squeeze]. rewrite ET'. reflexivity.
  - rewrite HT, HT' by lia. cbn [flip_row Z.sub Z.eqb Z.of_nat]. cbn. intros E. injection E as E _.
    pose proof ln2_pos. lra.
Qed.

(** C33: overlapping bands, and centres below -1 *)
Definition zmat (m n : nat) (f : nat -> nat -> Z) : mat Z := Mat m n f.
Lemma overlap_refuted : exists Tx cc cw xs, invert_components Tx cc cw = Ok xs /\
  ncols cc = 2%nat /\ (forall m n, (0 <= el cc m n)%Z /\ (0 <= el cw m n)%Z) /\
  Rsum 3 (fun n => lrow xs n 0) <> nth 0 (real_colsum Tx) 0.
Proof.
  exists (Mat 1 1 (fun _ _ => C1)), (zmat 1 2 (fun _ _ => 0%Z)), (zmat 1 2 (fun _ _ => 0%Z)). eexists.
  split; [reflexivity|]. split; [reflexivity|]. split; [cbn; intros; lia|].
  vm_compute. intros E. lra.
Qed.
Lemma below_minus_one_refuted : exists Tx cc cw xs, invert_components Tx cc cw = Ok xs /\
  ncols cc = 1%nat /\ el cc 0%nat 0%nat = (-5)%Z /\ el cw 0%nat 0%nat = 2%Z /\
  lrow xs 0 0 = Re (el Tx 0%nat 0%nat) /\ lrow xs 0 0 <> 0.
Proof.
  exists (Mat 2 1 (fun _ _ => C1)), (zmat 1 1 (fun _ _ => (-5)%Z)), (zmat 1 1 (fun _ _ => 2%Z)). eexists.
  split; [reflexivity|]. split; [reflexivity|]. split; [reflexivity|]. split; [reflexivity|].
  vm_compute. split; lra.
Qed.

(** C14: one sample, at rate 2 *)
Lemma issq_case gw : exists Tx Sx f Sfs,
  let a := SA 1 (WArray [1; 2; 2; 1]) (Some 4%Z) None 1 true PZero false in
  ssq_stft serial_order [1] a (Some 2) None (SS None SqSum (Some (1 / 2)) false gw true) = Ok (Tx, Sx, f, Sfs) /\
  (forall k, (k < 3)%nat -> el Sx k 0%nat = RtoC 2) /\
  issq_stft Tx (WArray [1; 2; 2; 1]) None None None 1 true false = Ok (One [3]).
Proof.
  set (a := SA 1 (WArray [1; 2; 2; 1]) (Some 4%Z) None 1 true PZero false).
  set (a' := SA 2 (WArray [1; 2; 2; 1]) (Some 4%Z) None 1 true PZero false).
  set (s := SS None SqSum (Some (1 / 2)) false gw true).
  assert (Hp : pad_usable PZero 1 4) by (left; discriminate).
  destruct (stft_spec [1] a' 4 [1; 2; 2; 1] ltac:(discriminate) ltac:(lia) ltac:(cbn; lia) eq_refl eq_refl eq_refl ltac:(discriminate) Hp)
    as (xp & n_up & n2 & Sx & dSx & Epad & HL & _ & ES & HrS & HcS & _ & _ & _ & HS & HdS).
  assert (Exp : xp = [0; 0; 1; 0]).
  { assert (Ep : padsignal 0 [1] PZero (Some 4%Z) = Ok ([0; 0; 1; 0], 4%Z, 2%Z, 1%Z)) by reflexivity.
    change (padsignal 0 [1] PZero (Some 4%Z) = Ok (xp, n_up, 2%Z, n2)) in Epad. congruence. }
  assert (HcS' : ncols Sx = 1%nat) by (cbn in HcS; lia).
  assert (Hval : forall g k, stft_val a' 4 g xp k 0 = RtoC (nth 2 g 0)).
  { intros g k. unfold stft_val, phase_ref. rewrite Exp. cbn [a_hop a' a_modulated Z.to_nat].
    change (Pos.to_nat 4) with 4%nat. cbn [Csum]. change (Pos.to_nat 1 * 0)%nat with 0%nat. cbn [Nat.add nth].
    change (Z.of_nat 2 - 4 / 2)%Z with 0%Z. rewrite Z.mul_0_r. change (- 0)%Z with 0%Z.
    rewrite (tw_0 4 ltac:(lia)). apply C_eq; cbn; ring. }
  assert (HSv : forall k, el Sx k 0%nat = RtoC 2) by (intros k; rewrite HS by lia; apply Hval).
  assert (HdSv : forall k, exists d, el dSx k 0%nat = RtoC d) by (intros k; rewrite HdS by lia; eexists; apply Hval).
  assert (Hp2 : (3 <= 4 < 2 ^ 62)%Z) by lia.
  destruct (issq_ssq serial_order [1] a (Some 2) None s 2 4 [1; 2; 2; 1] None None false (1 / 2)) as (Tx & Sx' & dSx' & f & y & E1 & E2 & E3 & E4 & E5);
    try reflexivity; try discriminate; try assumption.
  - apply serial_order_valid.
  - unfold process_fs_and_t. destruct (Rle_dec 2 0); [lra|reflexivity].
  - change (2 <> 0). lra.
  - intros Sx' dSx' k j E Hk Hj. right. fold a' in E.
    assert (E' : Ok (Sx, dSx) = Ok (Sx', dSx')) by (rewrite <- ES; exact E). injection E' as <- <-.
    rewrite HcS' in Hj. replace j with 0%nat by lia. rewrite HSv. destruct (HdSv k) as [d ->]. split.
    + unfold Cabs, Cnorm2, RtoC. cbn [fst snd]. replace (2 * 2 + 0 * 0) with (2 * 2) by ring. rewrite sqrt_square by lra. lra.
    + unfold phase_stft_pt, phase_ratio, RtoC, Re, Im. cbn [fst snd].
      replace ((0 * 2 - d * 0) / _) with 0 by (unfold Rdiv; ring). rewrite Rminus_0_r.
      change (Z.to_nat 4) with 4%nat. change (rfft_len 4) with 3%nat.
      assert (Hs : nth k (make_Sfs 3 2) 0 = INR k * (1 / 2) ).
      { rewrite HrS in Hk. change (Z.to_nat 4) with 4%nat in Hk. change (rfft_len 4) with 3%nat in Hk.
        unfold make_Sfs, linspace. rewrite nth_tab by exact Hk. cbn [Nat.eqb Nat.sub INR]. field. }
      assert (Hs1 : nth 1 (make_Sfs 3 2) 0 = 1 / 2) by (unfold make_Sfs, linspace; rewrite nth_tab by lia; cbn [Nat.eqb Nat.sub INR]; field).
      rewrite Hs, Hs1. rewrite Rmax_left by (unfold EPS64; apply Rle_trans with (/ 2); [apply Rinv_le_contravar; lra|lra]).
      assert (Hk3 : INR k <= 2).
      { rewrite HrS in Hk. change (Z.to_nat 4) with 4%nat in Hk. change (rfft_len 4) with 3%nat in Hk.
        replace 2 with (INR 2) by (simpl; ring). apply le_INR. lia. }
      pose proof (pos_INR k). rewrite Rabs_right by lra.
      assert (2 <= IZR (2 ^ 62)) by (apply IZR_le; lia). lra.
  - lra.
  - intros _. lra.
  - exists Tx, Sx', f, (make_Sfs (rfft_len (Z.to_nat 4)) 2). cbv zeta. split; [exact E2|].
    assert (E' : Ok (Sx, dSx) = Ok (Sx', dSx')) by (rewrite <- ES; exact E1). injection E' as <- <-.
    split; [intros; apply HSv|].
    assert (Hy : y = [3]); [|rewrite <- Hy; exact E3].
    specialize (E5 0%nat ltac:(cbn; lia)). cbv zeta in E5. rewrite !HSv in E5.
    change (Z.to_nat 4 / 2)%nat with 2%nat in E5. change (Z.even 4) with true in E5. change (Z.to_nat (4 / 2)) with 2%nat in E5.
    cbn [nth INR RtoC Re fst] in E5. destruct y as [|y0 [|y1 y]]; cbn in E4; try lia. cbn [nth] in E5.
    f_equal. rewrite E5. field.
Qed.

(** C23: the labelled rows, concretely *)
Lemma flipped_case : exists Tx,
  ssqueeze serial_order (wit SqSum 0 true) (col3 C1) (Some (fin3 2)) None = Ok (Tx, [3; 2; 1]) /\
  el Tx 1%nat 0%nat = RtoC (3 * ln 2) /\ el Tx 0%nat 0%nat = C0 /\ el Tx 2%nat 0%nat = C0.
Proof.
  destruct (wit_onfly serial_order 0 true 2 1 serial_order_valid ltac:(lia) ltac:(lra)) as (Tx & E & H1 & H2 & Hel).
  exists Tx. split; [exact E|]. rewrite !Hel by lia. cbn [flip_row Z.sub Z.eqb Z.of_nat].
  split; [|split; reflexivity]. cbn. apply C_eq; cbn; ring.
Qed.

Lemma grid123 : bin_grid [1; 2; 3] false (reach_lin [1; 2; 3]).
Proof.
  apply (bg_lin [1; 2; 3] 1); [cbn; lia|apply EPS64_le1|].
  intros k Hk. cbn in Hk. destruct k as [|[|[|k]]]; cbn [nth INR]; try ring. lia.
Qed.

(** C50, concretely *)
Lemma lg_list l k x : nth k l 0 = x -> lg l k = log2 x.
Proof. intros <-. reflexivity. Qed.
Lemma trans5 : logscale_transition_idx true [1; 2; 4; 16; 64] = Ok (Some 3%nat).
Proof.
  pose proof ln2_pos as H.
  rewrite (transition_some true [1; 2; 4; 16; 64] 1); [reflexivity|cbn; lia| |].
  - rewrite d2_log2. unfold lg. cbn [nth]. rewrite log2_2, log2_4, log2_16. lra.
  - intros i Hi Hne. cbn in Hi. rewrite d2_log2. unfold lg.
    destruct i as [|[|[|i]]]; cbn [nth]; rewrite ?log2_1, ?log2_2, ?log2_4, ?log2_16, ?log2_64; try ring; lia.
Qed.
Lemma ln_inv_log2 x : 0 < x -> ln (/ x) = - (log2 x * ln 2).
Proof. intros Hx. rewrite ln_Rinv by exact Hx. unfold log2. field. pose proof ln2_pos; lra. Qed.
Lemma piece_case : exists v,
  associated_frequencies true [1; 2; 4; 16; 64] 100 SPiece (MRCenter (fun s => / s)) 1 TCwt = Ok v /\
  spans v (/ 64) 1 /\ nth 1 v 0 = / 16.
Proof.
  pose proof (piecewise_freqs true [1; 2; 4; 16; 64] 100 (fun s => / s) 1 TCwt 3 trans5) as H.
  cbv zeta in H. cbn [last nth length] in H. rewrite Rinv_1 in H.
  specialize (H ltac:(lra) ltac:(lra)).
  destruct (associated_frequencies true [1; 2; 4; 16; 64] 100 SPiece (MRCenter (fun s => / s)) 1 TCwt) as [v|e].
  - destruct H as (_ & H1 & H2 & _). exists v. auto.
  - exfalso. destruct H as (_ & [H|H]); [discriminate|].
    cbn [Nat.sub INR] in H. rewrite !ln_inv_log2, log2_16, log2_64, ln_1 in H by lra. pose proof ln2_pos. lra.
Qed.
Lemma trans4 : logscale_transition_idx true [1; 2; 4; 16] = Ok (Some 3%nat).
Proof.
  pose proof ln2_pos as H.
  rewrite (transition_some true [1; 2; 4; 16] 1); [reflexivity|cbn; lia| |].
  - rewrite d2_log2. unfold lg. cbn [nth]. rewrite log2_2, log2_4, log2_16. lra.
  - intros i Hi Hne. cbn in Hi. rewrite d2_log2. unfold lg.
    destruct i as [|[|i]]; cbn [nth]; rewrite ?log2_1, ?log2_2, ?log2_4; try ring; lia.
Qed.
Lemma late_case :
  associated_frequencies true [1; 2; 4; 16] 100 SPiece (MRCenter (fun s => / s)) 1 TCwt = Err PlainException.
Proof.
  (* the anchors coincide here, f0 = f1 *)
  unfold associated_frequencies, ssq_freqrange. rewrite trans4. cbn [bind last nth length Nat.sub].
  set (v := removelast _ ++ _).
  rewrite (late_transition 4 3 (/ 16) (/ 16) (/ 1) ltac:(lia) ltac:(lra) ltac:(lia) eq_refl ltac:(lia) : logscale_transition_idx true v = _).
  reflexivity.
Qed.
