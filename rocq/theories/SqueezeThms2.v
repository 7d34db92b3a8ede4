From Coq Require Import ZifyBool ZifyNat Psatz Permutation Sorted.
From Verif Require Import Py Round Parallel Cplx CplxProofs Squeeze SqueezeProofs BinProofs SqueezeThms.
Local Open Scope R_scope.
Ltac Zify.zify_post_hook ::= Z.div_mod_to_equations.

(** ** C15: drivers *)
Lemma squeeze_rows_order ord out row Wx cst : valid_order ord ->
  meq (squeeze_rows ord out row Wx cst) (squeeze_rows serial_order out row Wx cst).
Proof.
  intros Ho. split; [reflexivity|]. split; [reflexivity|]. intros i j Hi Hj.
  destruct (Nat.lt_ge_cases j (ncols Wx)).
  - rewrite !squeeze_rows_el; auto using serial_order_valid.
  - rewrite !squeeze_rows_out; auto using serial_order_valid.
Qed.

Definition res_meq {A} (a b : res (mat A)) : Prop :=
  match a, b with
  | Ok x, Ok y => meq x y
  | Err e, Err f => e = f
  | _, _ => False
  end.

Lemma onfly_order ord f64 Wx w v cst ls flipud out : valid_order ord ->
  res_meq (indexed_sum_onfly ord f64 Wx w v cst ls flipud out)
          (indexed_sum_onfly serial_order f64 Wx w v cst ls flipud out).
Proof.
  intros Ho. unfold indexed_sum_onfly.
  destruct (const_arr _ _); cbn [bind]; [|reflexivity].
  destruct (get_grid _ _ _); cbn [bind]; [|reflexivity]. apply squeeze_rows_order; exact Ho.
Qed.

Lemma fast_order ord f64 Wx dWx v cst ls flipud gamma Sfs out : valid_order ord ->
  res_meq (ssqueeze_fast ord f64 Wx dWx v cst ls flipud gamma Sfs out)
          (ssqueeze_fast serial_order f64 Wx dWx v cst ls flipud gamma Sfs out).
Proof.
  intros Ho. unfold ssqueeze_fast.
  destruct (const_arr _ _); cbn [bind]; [|reflexivity].
  destruct (get_grid _ _ _); cbn [bind]; [|reflexivity].
  destruct Sfs, ls; try reflexivity; apply squeeze_rows_order; exact Ho.
Qed.

Lemma indexed_sum_par V (add : V -> V -> V) zero a k tr cfg p cfg' p' tr' :
  schedule_of (sq_par_progs add (nrows a) (ncols a) (fun i j => Some (k i j)) (el a)) tr ->
  schedule_of (sq_par_progs add (nrows a) (ncols a) (fun i j => Some (k i j)) (el a)) tr' ->
  meq (indexed_sum add zero cfg p tr a k) (indexed_sum add zero cfg' p' tr' a k).
Proof.
  intros Hs Hs'. split; [reflexivity|]. split; [reflexivity|]. intros i j _ _.
  unfold indexed_sum. cbn [el store_mat].
  set (ser := sq_serial add (nrows a) (ncols a) (fun i j => Some (k i j)) (el a)).
  assert (E : forall (b : bool) t, schedule_of (sq_par_progs add (nrows a) (ncols a)
      (fun i j => Some (k i j)) (el a)) t ->
    sq_exec zero (fun _ => zero) (if b then t else ser) (Z.of_nat i, j) =
    sq_exec zero (fun _ => zero) ser (Z.of_nat i, j)).
  { intros [|] t Ht; [|reflexivity]. apply sq_par_serial. exact Ht. }
  rewrite (E _ tr Hs), (E _ tr' Hs'). reflexivity.
Qed.

(** the cell formula, for any addition *)
Lemma indexed_sum_cell V (add : V -> V -> V) zero cfg p tr a k i j :
  schedule_of (sq_par_progs add (nrows a) (ncols a) (fun i j => Some (k i j)) (el a)) tr ->
  (j < ncols a)%nat ->
  el (indexed_sum add zero cfg p tr a k) i j =
  fold_left (fun s q => if (k q j =? Z.of_nat i)%Z then add s (el a q j) else s)
    (seq 0 (nrows a)) zero.
Proof.
  intros Hs Hj. unfold indexed_sum. cbn [el store_mat].
  destruct (match p with Some b => b | None => cfg end).
  - rewrite (sq_cell V add zero _ _ (nrows a) (ncols a)) by exact Hs.
    destruct (Nat.ltb_spec j (ncols a)); [|lia]. reflexivity.
  - rewrite (sq_cell V add zero (fun i j => Some (k i j)) (el a) (nrows a) (ncols a)) by apply sq_serial_schedule.
    destruct (Nat.ltb_spec j (ncols a)); [|lia]. reflexivity.
Qed.

(** ** C18: where it fails *)
(** beyond 2^63 bins the int64 conversion leaves the range *)
Lemma bin_lin_overflow :
  exists w, 0 <= w /\ ~ (0 <= bin_lin 2 1 1 w)%Z.
Proof.
  exists (IZR (2 ^ 63 + 1)). split; [apply IZR_le; lia|].
  unfold bin_lin.
  replace ((IZR (2 ^ 63 + 1) - 1) / 1) with (IZR (2 ^ 63)) by (rewrite plus_IZR; field).
  rewrite Rmax_left by (apply IZR_le; lia).
  unfold rnd_i64. rewrite rhe_IZR. vm_compute. auto.
Qed.

Lemma Rpower_log2 x : log2 (Rpower 2 x) = x.
Proof. unfold log2, Rpower. rewrite ln_exp. field. pose proof ln2_pos; lra. Qed.
Lemma log2_1 : log2 1 = 0.
Proof. unfold log2. rewrite ln_1. unfold Rdiv. ring. Qed.
Lemma log2_2 : log2 2 = 1.
Proof. unfold log2. field. pose proof ln2_pos; lra. Qed.
Lemma log2_mult x y : 0 < x -> 0 < y -> log2 (x * y) = log2 x + log2 y.
Proof. intros. unfold log2. rewrite ln_mult by assumption. unfold Rdiv. ring. Qed.
Lemma log2_mono x y : 0 < x -> x <= y -> log2 x <= log2 y.
Proof.
  intros Hx Hxy. unfold log2. apply Rmult_le_compat_r.
  - apply Rlt_le, Rinv_0_lt_compat, ln2_pos.
  - destruct Hxy as [H|H]; [apply Rlt_le, ln_increasing; assumption|rewrite H; lra].
Qed.

(** the lower branch of the piecewise kernels is not clamped: a grid whose lower piece is
    geometric only within the tolerance (float32: 1e-6) indexes past the end *)
Definition bent : list R :=
  let e x := Rpower 2 (x * / 4000000) in [e 0; e 1; e 4; e 9; e 16; e 4000000].

Lemma lg_bent : lg bent 0 = 0 /\ lg bent 1 = 1 * / 4000000 /\ lg bent 2 = 4 * / 4000000 /\
  lg bent 3 = 9 * / 4000000 /\ lg bent 4 = 16 * / 4000000 /\ lg bent 5 = 1.
Proof.
  unfold lg, bent. cbn [nth]. rewrite !Rpower_log2. repeat split; lra.
Qed.

Lemma ln2_lt1 : ln 2 < 1.
Proof. rewrite <- (ln_exp 1). apply ln_increasing; [lra|]. pose proof (exp_ineq1 1 ltac:(lra)). lra. Qed.
Lemma ln2_gt_half : 1 / 2 < ln 2.
Proof.
  rewrite <- (ln_exp (1/2)). apply ln_increasing; [apply exp_pos|].
  assert (H : exp (1/2) * exp (1/2) = exp 1) by (rewrite <- exp_plus; f_equal; lra).
  pose proof exp_le_3. pose proof (exp_pos (1/2)). nra.
Qed.

Lemma bent_grid : get_grid false true bent =
  Ok (GPiece 0 (16 * / 4000000) (1 * / 4000000) (1 - 16 * / 4000000) 4).
Proof.
  destruct lg_bent as (L0 & L1 & L2 & L3 & L4 & L5).
  pose proof ln2_lt1 as Hln. pose proof ln2_gt_half as Hln'.
  set (D := map Rabs (diff (diff (map ln bent)))).
  assert (HL : length D = 4%nat) by reflexivity.
  assert (HD : D = [ln 2 * (2 * / 4000000); ln 2 * (2 * / 4000000); ln 2 * (2 * / 4000000);
                    ln 2 * (1 - 23 * / 4000000)]).
  { apply list_eq_nth with (d := 0); [reflexivity|]. intros i Hi. rewrite HL in Hi.
    unfold D. rewrite nth_d2 by (cbn; lia). rewrite d2_log2.
    assert (i = 0 \/ i = 1 \/ i = 2 \/ i = 3)%nat as [-> |[-> |[-> | ->]]] by lia; cbn [nth];
      rewrite Rabs_mult, (Rabs_right (ln 2)) by lra; f_equal;
      rewrite ?L0, ?L1, ?L2, ?L3, ?L4, ?L5; rewrite Rabs_right; lra. }
  unfold get_grid, get_params_log.
  assert (ET : logscale_transition_idx false bent = Ok (Some 5%nat)).
  { unfold logscale_transition_idx. fold D. rewrite HD. cbv zeta.
    assert (Ea : argmax [ln 2 * (2 * / 4000000); ln 2 * (2 * / 4000000); ln 2 * (2 * / 4000000);
                    ln 2 * (1 - 23 * / 4000000)] = 3%nat).
    { unfold argmax, argmax_from. repeat (destruct (Rlt_dec _ _)); try reflexivity; try lra. }
    rewrite Ea. cbn [Nat.add Nat.sub set_nth nth].
    destruct (Rlt_dec _ _) as [_|Hn].
    - replace (forallb _ _) with true; [reflexivity|]. symmetry. cbn [forallb map].
      rewrite Rabs_R0. rewrite (Rabs_right (ln 2 * (2 * / 4000000))) by lra.
      destruct (Rlt_dec (ln 2 * (2 * / 4000000)) (/ 1000000)); [|lra].
      destruct (Rlt_dec 0 (/ 1000000)); [reflexivity|lra].
    - exfalso. apply Hn. unfold mean, lsum. cbn [map fold_right length].
      rewrite Rabs_R0. rewrite (Rabs_right (ln 2 * (2 * / 4000000))) by lra.
      simpl INR. lra. }
  rewrite ET. cbn [bind Nat.sub]. rewrite !ensure_Rmax.
  fold (lg bent 0) (lg bent 1) (lg bent 4) (lg bent 5). rewrite L0, L1, L4, L5.
  rewrite !Rmax_left by (unfold EPS64; lra). do 2 f_equal. lra.
Qed.

Lemma piecewise_nonuniform_refuted :
  exists v r g, (forall k, (S k < length v)%nat -> 0 < nth k v 0 < nth (S k) v 0) /\
    get_grid false true v = Ok g /\ 0 < r /\
    (Z.of_nat (length v) - 1 < bin_onfly (Z.of_nat (length v) - 1) g r)%Z /\
    (Z.of_nat (length v) - 1 < bin_fast (Z.of_nat (length v) - 1) g r)%Z.
Proof.
  exists bent, (Rpower 2 (16 * / 4000000)), (GPiece 0 (16 * / 4000000) (1 * / 4000000) (1 - 16 * / 4000000) 4).
  split.
  { intros k Hk. change (length bent) with 6%nat in Hk.
    split; [destruct k as [|[|[|[|[|k]]]]]; try (cbn; apply exp_pos); lia|].
    destruct k as [|[|[|[|[|k]]]]]; try lia; cbn [nth bent]; unfold Rpower; apply exp_increasing;
      pose proof ln2_pos; nra. }
  split; [apply bent_grid|]. split; [apply exp_pos|].
  change (Z.of_nat (length bent) - 1)%Z with 5%Z.
  assert (E : rnd_i64 16 = 16%Z).
  { rewrite rnd_i64_ok; [apply (rhe_IZR 16)|split; [lra|apply IZR_le; lia]]. }
  unfold bin_onfly, bin_fast, bin_piece, bin_piece_fast, log2e.
  destruct (Rlt_dec 0 (Rpower 2 (16 * / 4000000))) as [_|Hn]; [|exfalso; apply Hn, exp_pos].
  rewrite Rpower_log2. destruct (Rlt_dec _ _); [lra|].
  replace ((16 * / 4000000 - 0) / (1 * / 4000000)) with 16 by (field; lra).
  rewrite Rmax_left by lra. rewrite E. split; reflexivity.
Qed.

(** CUDA piecewise kernel: the int32 sum wraps before it is clamped *)
Lemma gpu_piecewise_overflow :
  exists v p a b g r, geometric2 v p a b /\ 0 < a /\ 0 < b /\ get_grid true true v = Ok g /\ 0 < r /\
    (bin_gpu (Z.of_nat (length v)) g r < 0)%Z.
Proof.
  set (b := / IZR (2 ^ 40)).
  assert (Hb : 0 < b) by (apply Rinv_0_lt_compat, IZR_lt; lia).
  assert (Hb1 : b < 1 / 2).
  { unfold b. apply Rmult_lt_reg_r with (IZR (2 ^ 40)); [apply IZR_lt; lia|].
    rewrite Rinv_l by (apply not_0_IZR; lia). 
    assert (4 < IZR (2 ^ 40)) by (apply IZR_lt; lia). lra. }
  set (v := [1; 2; 2 * Rpower 2 b]).
  assert (L0 : lg v 0 = 0) by apply log2_1.
  assert (L1 : lg v 1 = 1) by apply log2_2.
  assert (L2 : lg v 2 = 1 + b).
  { unfold lg, v. cbn [nth]. rewrite log2_mult; [|lra|apply exp_pos]. rewrite log2_2, Rpower_log2. reflexivity. }
  assert (Hg : geometric2 v 0 1 b).
  { split; [cbn; lia|]. split; [reflexivity|]. split; [lra|]. split.
    - intros k Hk. assert (k = 0 \/ k = 1)%nat as [-> | ->] by lia; rewrite ?L0, ?L1; simpl; lra.
    - intros k Hk. change (length v) with 3%nat in Hk.
      assert (k = 1 \/ k = 2)%nat as [-> | ->] by lia; rewrite ?L1, ?L2; simpl; lra. }
  exists v, 0%nat, 1, b. eexists. exists 4.
  split; [exact Hg|]. split; [lra|]. split; [exact Hb|].
  split; [apply (grid_piece true v 0 1 b Hg)|]. split; [lra|].
  rewrite !ensure_Rmax, L0, L1, L2.
  change (Z.of_nat (length v)) with 3%Z. cbn [bin_gpu]. unfold log2e.
  destruct (Rlt_dec 0 4) as [_|]; [|lra].
  assert (L4 : log2 4 = 2).
  { replace 4 with (2 * 2) by ring. rewrite log2_mult, log2_2 by lra. ring. }
  rewrite L4. destruct (Rlt_dec 1 2) as [_|]; [|lra].
  assert (He : EPS64 < b).
  { unfold EPS64, b. apply Rinv_lt_contravar.
    - apply Rmult_lt_0_compat; [apply IZR_lt; lia|lra].
    - apply IZR_lt. lia. }
  replace (1 + b - 1) with b by ring. rewrite (Rmax_left b) by lra.
  replace ((2 - 1) / b) with (IZR (2 ^ 40)) by (unfold b; field; apply not_0_IZR; lia).
  unfold rnd_i32. rewrite (rha_unique (IZR (2 ^ 40)) (2 ^ 40)) by lra.
  vm_compute. reflexivity.
Qed.

(** ** C19, C20: nearest bin *)
Lemma nearest_lin f64 v d omax : (2 <= length v)%nat -> EPS64 <= d ->
  (forall k, (k < length v)%nat -> nth k v 0 = nth 0 v 0 + INR k * d) ->
  omax = (Z.of_nat (length v) - 1)%Z ->
  exists g, get_grid f64 false v = Ok g /\ forall r, reach_lin v r ->
    let k := Z.to_nat (bin_onfly omax g r) in
    (0 <= bin_onfly omax g r)%Z /\ bin_fast omax g r = bin_onfly omax g r /\
    (k < length v)%nat /\
    forall q, (q < length v)%nat -> Rabs (r - nth k v 0) <= Rabs (r - nth q v 0).
Proof.
  intros Hn Hd Hv Ho. rewrite grid_lin by exact Hn. eexists. split; [reflexivity|].
  intros r Hr. cbn [bin_onfly bin_fast]. unfold reach_lin in Hr.
  assert (E1 : nth 1 v 0 - nth 0 v 0 = d) by (rewrite (Hv 1%nat) by lia; simpl; ring).
  rewrite E1 in *. rewrite Rmax_left in Hr by exact Hd.
  rewrite ensure_Rmax, Rmax_left by exact Hd.
  pose proof EPS64_pos as He.
  destruct (bin_lin_ok omax (nth 0 v 0) d r) as [Hb Hnear]; [lia|lra| |].
  { apply div_le; [lra|]. eapply Rle_trans; [exact Hr|].
    apply Rmult_le_compat_r; [lra|apply IZR_le; lia]. }
  set (b := bin_lin omax (nth 0 v 0) d r) in *.
  split; [lia|]. split; [reflexivity|]. split; [lia|]. intros q Hq.
  rewrite (Hv (Z.to_nat b)), (Hv q) by lia.
  specialize (Hnear (Z.of_nat q) ltac:(lia)).
  rewrite !INR_IZR_INZ. rewrite Z2Nat.id by lia. exact Hnear.
Qed.

Lemma nearest_log f64 v d omax : geometric v d -> EPS64 <= d ->
  omax = (Z.of_nat (length v) - 1)%Z ->
  exists g, get_grid f64 true v = Ok g /\ forall r, reach_log v 0 r ->
    let k := Z.to_nat (bin_onfly omax g r) in
    (0 <= bin_onfly omax g r)%Z /\ bin_fast omax g r = bin_onfly omax g r /\
    (k < length v)%nat /\ (r <= 0 -> k = 0%nat) /\
    (0 < r -> forall q, (q < length v)%nat -> Rabs (log2 r - lg v k) <= Rabs (log2 r - lg v q)).
Proof.
  intros Hg Hd Ho. rewrite (grid_log f64 v d Hg). eexists. split; [reflexivity|].
  destruct Hg as [Hn Hv]. intros r Hr. cbn [bin_onfly bin_fast]. unfold reach_log in Hr.
  assert (E1 : lg v 1 - lg v 0 = d) by (rewrite (Hv 1%nat) by lia; simpl; ring).
  rewrite E1 in *. rewrite Rmax_left in Hr by exact Hd.
  rewrite ensure_Rmax, Rmax_left by exact Hd.
  pose proof EPS64_pos as He.
  destruct (bin_log_ok omax (lg v 0) d r) as (Hb & Hz & Hnear); [lia|lra| |].
  { apply div_le; [lra|]. eapply Rle_trans; [exact Hr|].
    apply Rmult_le_compat_r; [lra|apply IZR_le; lia]. }
  set (b := bin_log omax (lg v 0) d r) in *.
  split; [lia|]. split; [reflexivity|]. split; [lia|].
  split; [intros H; specialize (Hz H); lia|]. intros Hp q Hq.
  rewrite (Hv (Z.to_nat b)), (Hv q) by lia.
  specialize (Hnear Hp (Z.of_nat q) ltac:(lia)).
  rewrite !INR_IZR_INZ. rewrite Z2Nat.id by lia. exact Hnear.
Qed.

Lemma nearest_piece f64 v p a b omax : geometric2 v p a b -> EPS64 <= a -> EPS64 <= b ->
  omax = (Z.of_nat (length v) - 1)%Z ->
  exists g, get_grid f64 true v = Ok g /\ forall r, reach_log v (S p) r ->
    let k := Z.to_nat (bin_onfly omax g r) in
    (0 <= bin_onfly omax g r)%Z /\ bin_fast omax g r = bin_onfly omax g r /\
    (k < length v)%nat /\ (r <= 0 -> k = 0%nat) /\
    (0 < r -> forall q, (q < length v)%nat -> Rabs (log2 r - lg v k) <= Rabs (log2 r - lg v q)).
Proof.
  intros Hg Ha Hb Ho.
  pose proof EPS64_pos as He.
  destruct (grid_in_range f64 v true (reach_log v (S p)) omax) as (g & Eg & Hin).
  { apply (fg_geometric2 f64 v p a b); [exact Hg|lra]. }
  { destruct Hg as (H1 & H2 & _). lia. }
  { lia. }
  exists g. split; [exact Eg|]. rewrite (grid_piece f64 v p a b Hg) in Eg.
  destruct Hg as (Hp & Hlen & Hab & H1 & H2).
  assert (E1 : lg v 1 - lg v 0 = a) by (rewrite (H1 1%nat) by lia; simpl; ring).
  assert (E2 : lg v (S (S p)) - lg v (S p) = b).
  { rewrite (H2 (S (S p))) by lia. rewrite (S_INR (S p)). ring. }
  rewrite E1, E2, !ensure_Rmax in Eg.
  rewrite (Rmax_left a) in Eg by exact Ha. rewrite (Rmax_left b) in Eg by exact Hb.
  injection Eg as Eg. intros r Hr. destruct (Hin r Hr) as [Hrange Hfast].
  rewrite <- Eg in *. cbn [bin_onfly bin_fast] in *.
  change (Z.pos (Pos.of_succ_nat p)) with (Z.of_nat (S p)) in *.
  unfold reach_log in Hr. rewrite E2, Rmax_left in Hr by exact Hb.
  destruct (bin_piece_ok omax (lg v 0) (lg v (S p)) a b (Z.of_nat (S p)) r) as (_ & Hz & Hnear);
    [lia|lia|lra|lra| | |].
  { rewrite (H1 (S p)) by lia. rewrite IZR_of_nat_S. reflexivity. }
  { apply div_le; [lra|exact Hr]. }
  set (k := bin_piece omax (lg v 0) (lg v (S p)) a b (Z.of_nat (S p)) r) in *.
  split; [lia|]. split; [exact Hfast|]. split; [lia|]. split; [intros H; specialize (Hz H); lia|].
  intros Hpos q Hq.
  assert (En : forall q, (q < length v)%nat ->
    node2 (lg v 0) (lg v (S p)) a b (Z.of_nat (S p)) (Z.of_nat q) = lg v q).
  { intros t Ht. unfold node2. destruct (Z.leb_spec (Z.of_nat t) (Z.of_nat (S p))).
    - rewrite (H1 t) by lia. rewrite INR_IZR_INZ. reflexivity.
    - rewrite (H2 t) by lia. rewrite minus_IZR, <- !INR_IZR_INZ. reflexivity. }
  specialize (Hnear Hpos (Z.of_nat q) ltac:(lia)).
  rewrite (En q Hq) in Hnear.
  replace k with (Z.of_nat (Z.to_nat k)) in Hnear by lia.
  rewrite (En (Z.to_nat k)) in Hnear by lia. exact Hnear.
Qed.

(** the outputs, with the bins named *)
Lemma onfly_bins ord f64 Wx w v cst ls ca (P : R -> nat -> Prop) g : valid_order ord ->
  const_arr (nrows Wx) cst = Ok ca -> get_grid f64 ls v = Ok g ->
  (forall i j r, (i < nrows Wx)%nat -> (j < ncols Wx)%nat -> el w i j = Fin r ->
     let b := bin_onfly (Z.of_nat (length v) - 1) g r in
     (0 <= b)%Z /\ P r (Z.to_nat b)) ->
  exists Tx (kap : nat -> nat -> nat),
    indexed_sum_onfly ord f64 Wx w v cst ls false (zeros (length v) (ncols Wx)) = Ok Tx /\
    (forall i j r, (i < nrows Wx)%nat -> (j < ncols Wx)%nat -> el w i j = Fin r -> P r (kap i j)) /\
    forall k j, (k < length v)%nat -> (j < ncols Wx)%nat ->
      el Tx k j = Csum (nrows Wx) (fun i => match el w i j with
        | Inf => C0
        | Fin _ => if (kap i j =? k)%nat then Cmul (el Wx i j) (RtoC (nth i ca 0)) else C0 end).
Proof.
  intros Ho Hc Hg HP.
  destruct (onfly_sum ord f64 Wx w v cst ls false (zeros (length v) (ncols Wx)) ca g Ho Hc Hg)
    as (Tx & E & _ & _ & Hel).
  exists Tx, (fun i j => match el w i j with
     | Fin r => Z.to_nat (bin_onfly (Z.of_nat (length v) - 1) g r) | Inf => 0%nat end).
  split; [exact E|]. split.
  - intros i j r Hi Hj Er. rewrite Er. apply (HP i j r Hi Hj Er).
  - intros k j Hk Hj. rewrite Hel by (cbn; assumption). cbn [zeros el nrows].
    transitivity (Cadd C0 (Csum (nrows Wx) (fun i => match el w i j with
        | Inf => C0
        | Fin r => if (Z.to_nat (bin_onfly (Z.of_nat (length v) - 1) g r) =? k)%nat
                   then Cmul (el Wx i j) (RtoC (nth i ca 0)) else C0 end))).
    + f_equal. apply Csum_ext. intros i Hi. destruct (el w i j) as [r|] eqn:Er; [|reflexivity].
      destruct (HP i j r Hi Hj Er) as [Hb _]. unfold flip_row.
      destruct (Z.eqb_spec (bin_onfly (Z.of_nat (length v) - 1) g r) (Z.of_nat k)),
        (Nat.eqb_spec (Z.to_nat (bin_onfly (Z.of_nat (length v) - 1) g r)) k);
        try reflexivity; lia.
    + rewrite (Csum_ext _ (fun i => match el w i j with Inf => C0 | Fin r => _ end)
        (fun i => match el w i j with
        | Inf => C0
        | Fin _ => if (match el w i j with
     | Fin r => Z.to_nat (bin_onfly (Z.of_nat (length v) - 1) g r) | Inf => 0%nat end =? k)%nat
                   then Cmul (el Wx i j) (RtoC (nth i ca 0)) else C0 end)).
      * ring.
      * intros i Hi. destruct (el w i j); reflexivity.
Qed.

Lemma fast_bins ord f64 Wx dWx v cst ls gamma Sfs ca (P : R -> nat -> Prop) g : valid_order ord ->
  const_arr (nrows Wx) cst = Ok ca -> get_grid f64 ls v = Ok g -> (Sfs = None \/ ls = false) ->
  let ph i j := match Sfs with
      | None => phase_cwt_pt (el Wx i j) (el dWx i j)
      | Some s => phase_stft_pt (nth i s 0) (el Wx i j) (el dWx i j) end in
  (forall i j, (i < nrows Wx)%nat -> (j < ncols Wx)%nat -> gamma < Cabs (el Wx i j) ->
     let b := bin_fast (Z.of_nat (length v) - 1) g (ph i j) in
     (0 <= b)%Z /\ P (ph i j) (Z.to_nat b)) ->
  exists Tx (kap : nat -> nat -> nat),
    ssqueeze_fast ord f64 Wx dWx v cst ls false gamma Sfs (zeros (length v) (ncols Wx)) = Ok Tx /\
    (forall i j, (i < nrows Wx)%nat -> (j < ncols Wx)%nat -> gamma < Cabs (el Wx i j) ->
       P (ph i j) (kap i j)) /\
    forall k j, (k < length v)%nat -> (j < ncols Wx)%nat ->
      el Tx k j = Csum (nrows Wx) (fun i => if Rlt_dec gamma (Cabs (el Wx i j)) then
        if (kap i j =? k)%nat then Cmul (el Wx i j) (RtoC (nth i ca 0)) else C0 else C0).
Proof.
  intros Ho Hc Hg Hs ph HP.
  destruct (fast_sum ord f64 Wx dWx v cst ls false gamma Sfs (zeros (length v) (ncols Wx)) ca g Ho Hc Hg Hs)
    as (Tx & E & _ & _ & Hel).
  exists Tx, (fun i j => Z.to_nat (bin_fast (Z.of_nat (length v) - 1) g (ph i j))).
  split; [exact E|]. split.
  - intros i j Hi Hj Hw. apply (HP i j Hi Hj Hw).
  - intros k j Hk Hj. rewrite Hel by (cbn; assumption). cbn [zeros el nrows].
    rewrite (Csum_ext _ _ (fun i => if Rlt_dec gamma (Cabs (el Wx i j)) then
        if (Z.to_nat (bin_fast (Z.of_nat (length v) - 1) g (ph i j)) =? k)%nat
        then Cmul (el Wx i j) (RtoC (nth i ca 0)) else C0 else C0)); [ring|].
    intros i Hi. cbv zeta. fold (ph i j).
    destruct (Rlt_dec gamma (Cabs (el Wx i j))) as [Hw|]; [|reflexivity].
    destruct (HP i j Hi Hj Hw) as [Hb _]. unfold flip_row.
    destruct (Z.eqb_spec (bin_fast (Z.of_nat (length v) - 1) g (ph i j)) (Z.of_nat k)),
        (Nat.eqb_spec (Z.to_nat (bin_fast (Z.of_nat (length v) - 1) g (ph i j))) k);
        try reflexivity; lia.
Qed.

(** the linear and log CUDA kernels stay in range for every frequency *)
Lemma gpu_in_range M g w : (0 < M)%Z -> match g with GPiece _ _ _ _ _ => False | _ => True end ->
  (0 <= bin_gpu M g w < M)%Z.
Proof.
  intros HM Hg.
  assert (C : forall k, (0 <= clamp_gpu M k < M)%Z).
  { intros k. unfold clamp_gpu. destruct (k >=? M)%Z eqn:E; [lia|]. destruct (k <? 0)%Z eqn:F; lia. }
  destruct g; [| |contradiction]; cbn [bin_gpu]; apply C.
Qed.
