(** Error metric, maxima, bands, risk-shrink threshold. *)
From Coq Require Import Reals Lra Lia Sorted ZifyBool ZifyNat.
From Verif Require Import Py Round Cplx CplxProofs Squeeze SqueezeProofs BinProofs Scales SsqueezeProofs Search SearchProofs Resol Toolkit.
Local Open Scope R_scope.

(** ** sums *)
Lemma lsum_app a b : lsum (a ++ b) = lsum a + lsum b.
Proof. unfold lsum. induction a as [|x a IH]; cbn; [ring|]. rewrite IH. ring. Qed.
Lemma lsum_scal A (f : A -> R) c l : lsum (map (fun u => c * f u) l) = c * lsum (map f l).
Proof. unfold lsum. induction l as [|x l IH]; cbn; [ring|]. rewrite IH. ring. Qed.
Lemma lsum_nonneg A (f : A -> R) l : (forall u, In u l -> 0 <= f u) -> 0 <= lsum (map f l).
Proof.
  unfold lsum. induction l as [|x l IH]; cbn; intros H; [lra|]. pose proof (H x (or_introl eq_refl)). assert (0 <= fold_right Rplus 0 (map f l)) by (apply IH; auto). lra.
Qed.
Lemma lsum_zero A (f : A -> R) l : (forall u, In u l -> 0 <= f u) -> lsum (map f l) = 0 -> forall u, In u l -> f u = 0.
Proof.
  unfold lsum. induction l as [|x l IH]; cbn; intros H E u Hu; [tauto|].
  assert (0 <= f x) by auto. assert (0 <= fold_right Rplus 0 (map f l)) by (apply (lsum_nonneg A f l); auto).
  destruct Hu as [<-|Hu]; [lra|]. apply IH; auto. lra.
Qed.
Lemma mean_nonneg A (f : A -> R) l : (forall u, In u l -> 0 <= f u) -> 0 <= mean (map f l).
Proof.
  intros H. unfold mean. destruct l as [|x l]; [cbn; unfold Rdiv; lra|].
  apply Rmult_le_pos; [now apply lsum_nonneg|left; apply Rinv_0_lt_compat, lt_0_INR; cbn; lia].
Qed.
Lemma mean_zero A (f : A -> R) l : (forall u, In u l -> 0 <= f u) -> mean (map f l) = 0 -> forall u, In u l -> f u = 0.
Proof.
  intros H E u Hu. apply (lsum_zero A f l); auto. destruct l as [|x l]; [destruct Hu|].
  unfold mean in E. apply Rmult_integral in E. destruct E as [E|E]; [exact E|].
  exfalso. revert E. apply Rinv_neq_0_compat, not_0_INR. cbn. lia.
Qed.
Lemma mean_scal A (f : A -> R) c l : mean (map (fun u => c * f u) l) = c * mean (map f l).
Proof. unfold mean. rewrite lsum_scal, !map_length. unfold Rdiv. ring. Qed.
(** the square of a mean is at most the mean square *)
Lemma mean_square l : mean l ^ 2 <= mean (map (fun u => u ^ 2) l).
Proof.
  destruct l as [|x l]; [unfold mean, lsum; cbn; unfold Rdiv; nra|]. set (q := x :: l).
  assert (Hn : 0 < INR (length q)) by (apply lt_0_INR; cbn; lia).
  assert (E : lsum (map (fun u => (u - mean q) ^ 2) q) = lsum (map (fun u => u ^ 2) q) - INR (length q) * mean q ^ 2).
  { assert (G : forall m l0, lsum (map (fun u => (u - m) ^ 2) l0) = lsum (map (fun u => u ^ 2) l0) - 2 * m * lsum l0 + INR (length l0) * m ^ 2).
    { intros m l0. unfold lsum. induction l0 as [|y l0 IH]; [cbn; ring|]. cbn [map fold_right length]. rewrite IH, S_INR. ring. }
    rewrite G. assert (S : lsum q = INR (length q) * mean q) by (unfold mean; field; lra). rewrite S. ring. }
  assert (P : 0 <= lsum (map (fun u => (u - mean q) ^ 2) q)) by (apply lsum_nonneg; intros; apply pow2_ge_0).
  rewrite E in P. unfold mean at 2. rewrite map_length.
  apply (Rmult_le_reg_r (INR (length q))); [exact Hn|]. unfold Rdiv. rewrite Rmult_assoc, Rinv_l by lra. lra.
Qed.

(** ** mad_rms *)
Definition nonzero_sig (x : list R) : Prop := exists u, In u x /\ u <> 0.
Lemma rms_pos x : nonzero_sig x -> 0 < rms x.
Proof.
  intros (u & Hu & Hn). unfold rms. apply sqrt_lt_R0.
  assert (0 <= mean (map (fun u => u ^ 2) x)) as [H|H] by (apply mean_nonneg; intros; apply pow2_ge_0); [exact H|].
  exfalso. apply Hn. pose proof (mean_zero R (fun u => u ^ 2) x (fun _ _ => pow2_ge_0 _) (eq_sym H) u Hu) as E. cbn beta in E.
  rewrite <- Rsqr_pow2 in E. now apply Rsqr_0_uniq.
Qed.
Lemma mad_rms_val x y : length x = length y -> nonzero_sig x -> mad_rms x y =
  Ok (Some (mean (map (fun '(u, v) => Rabs (u - v)) (combine x y)) / rms x)).
Proof.
  intros L H. pose proof (rms_pos x H). unfold mad_rms, npdiv. rewrite L, Nat.eqb_refl. destruct (Req_EM_T (rms x) 0); [lra|reflexivity].
Qed.
Lemma combine_map_diff c x y : map (fun '(u, v) => Rabs (u - v)) (combine (map (Rmult c) x) (map (Rmult c) y)) =
  map (fun p => Rabs c * (let '(u, v) := p in Rabs (u - v))) (combine x y).
Proof.
  revert y. induction x as [|u x IH]; intros [|v y]; cbn; try reflexivity. rewrite IH. f_equal.
  rewrite <- Rabs_mult. f_equal. ring.
Qed.
Theorem mad_rms_scale c x y : c <> 0 -> length x = length y -> mad_rms (map (Rmult c) x) (map (Rmult c) y) = mad_rms x y.
Proof.
  intros Hc L. unfold mad_rms. rewrite !map_length, L, Nat.eqb_refl. f_equal.
  rewrite combine_map_diff, mean_scal.
  assert (rms (map (Rmult c) x) = Rabs c * rms x) as ->.
  { unfold rms. rewrite map_map. rewrite (map_ext (fun u => (c * u) ^ 2) (fun u => c ^ 2 * u ^ 2)) by (intros; ring).
    rewrite mean_scal, sqrt_mult_alt by apply pow2_ge_0. f_equal. rewrite <- pow2_abs. apply sqrt_pow2, Rabs_pos. }
  assert (Ha : Rabs c <> 0) by now apply Rabs_no_R0. unfold npdiv.
  destruct (Req_EM_T (Rabs c * rms x) 0) as [E|E]; destruct (Req_EM_T (rms x) 0) as [E'|E']; try reflexivity.
  - apply Rmult_integral in E. destruct E; contradiction.
  - rewrite E', Rmult_0_r in E. contradiction.
  - f_equal. field. split; assumption.
Qed.
Lemma diffs_nonneg (l : list (R * R)) p : In p l -> 0 <= (let '(u, v) := p in Rabs (u - v)).
Proof. destruct p. intros. apply Rabs_pos. Qed.
Theorem mad_rms_zero x y : length x = length y -> nonzero_sig x ->
  exists e, mad_rms x y = Ok (Some e) /\ 0 <= e /\ (e = 0 <-> x = y).
Proof.
  intros L H. pose proof (rms_pos x H) as Hr. eexists. split; [now apply mad_rms_val|]. split.
  - apply Rmult_le_pos; [apply mean_nonneg; intros p Hp; now apply (diffs_nonneg _ p Hp)|left; now apply Rinv_0_lt_compat].
  - split.
    + intros E. apply Rmult_integral in E. destruct E as [E|E]; [|apply Rinv_neq_0_compat in E; [tauto|lra]].
      pose proof (mean_zero _ _ _ (diffs_nonneg (combine x y)) E) as Z. clear - L Z.
      revert y L Z. induction x as [|u x IH]; intros [|v y] L Z; try discriminate; [reflexivity|].
      f_equal; [|apply IH; [now injection L|intros p Hp; apply Z; now right]].
      specialize (Z (u, v) (or_introl eq_refl)). cbn in Z. destruct (Req_dec (u - v) 0) as [|N]; [lra|]. now apply Rabs_no_R0 in N.
    + intros <-. replace (mean _) with 0; [unfold Rdiv; ring|]. unfold mean. replace (lsum _) with 0; [unfold Rdiv; ring|].
      unfold lsum. clear. induction x as [|u x IH]; cbn; [reflexivity|]. rewrite <- IH. rewrite Rminus_diag_eq by reflexivity. rewrite Rabs_R0. ring.
Qed.
(** at most the relative root-mean-square error *)
Theorem mad_rms_le x y e : length x = length y -> nonzero_sig x -> mad_rms x y = Ok (Some e) ->
  e <= rms (map (fun '(u, v) => u - v) (combine x y)) / rms x.
Proof.
  intros L H. rewrite mad_rms_val by assumption. intros E. injection E as <-. pose proof (rms_pos x H).
  apply Rmult_le_compat_r; [left; now apply Rinv_0_lt_compat|].
  set (d := map (fun '(u, v) => u - v) (combine x y)).
  replace (map (fun '(u, v) => Rabs (u - v)) (combine x y)) with (map Rabs d) by (unfold d; rewrite map_map; apply map_ext; now intros []).
  assert (0 <= mean (map Rabs d)) by (apply mean_nonneg; intros; apply Rabs_pos).
  rewrite <- (sqrt_pow2 (mean (map Rabs d))) by assumption. unfold rms. apply sqrt_le_1_alt.
  eapply Rle_trans; [apply mean_square|]. right. rewrite map_map. f_equal. apply map_ext. intros. apply pow2_abs.
Qed.
(** nothing to compare with *)
Theorem mad_rms_silence x y : length x = length y -> ~ nonzero_sig x -> mad_rms x y = Ok None.
Proof.
  intros L H. unfold mad_rms. rewrite L, Nat.eqb_refl. unfold npdiv. destruct (Req_EM_T (rms x) 0) as [_|N]; [reflexivity|].
  exfalso. apply N. unfold rms. replace (mean _) with 0; [apply sqrt_0|]. unfold mean. replace (lsum _) with 0; [unfold Rdiv; ring|].
  assert (Z : forall u, In u x -> u = 0).
  { intros u Hu. destruct (Req_dec u 0); [assumption|]. exfalso. apply H. now exists u. }
  clear - Z. unfold lsum. induction x as [|u x IH]; cbn [map fold_right]; [reflexivity|]. rewrite <- IH by (intros; apply Z; now right). rewrite (Z u) by now left. ring.
Qed.

(** ** where_amax *)
Lemma in_cells A (m : mat A) i j : In (i, j) (cells m) <-> (i < nrows m)%nat /\ (j < ncols m)%nat.
Proof.
  unfold cells, tab. rewrite in_concat. split.
  - intros (l & Hl & Hi). apply in_map_iff in Hl. destruct Hl as (i' & <- & Hi'). apply in_map_iff in Hi.
    destruct Hi as (j' & [= -> ->] & Hj'). apply in_seq in Hi', Hj'. lia.
  - intros (Hi & Hj). exists (map (fun j => (i, j)) (seq 0 (ncols m))). split.
    + apply in_map_iff. exists i. split; [reflexivity|apply in_seq; lia].
    + apply in_map_iff. exists j. split; [reflexivity|apply in_seq; lia].
Qed.
(** row by row *)
Definition before (p q : nat * nat) : Prop := (fst p < fst q \/ fst p = fst q /\ snd p < snd q)%nat.
Lemma before_trans p q r : before p q -> before q r -> before p r.
Proof. unfold before. lia. Qed.
Lemma sorted_app A (Rel : A -> A -> Prop) a b : StronglySorted Rel a -> StronglySorted Rel b ->
  (forall x y, In x a -> In y b -> Rel x y) -> StronglySorted Rel (a ++ b).
Proof.
  intros Ha Hb H. induction Ha as [|x a Ha IH Hx]; cbn; [exact Hb|]. constructor.
  - apply IH. intros; apply H; [now right|assumption].
  - apply Forall_app. split; [exact Hx|]. apply Forall_forall. intros y Hy. apply H; [now left|exact Hy].
Qed.
Lemma cells_sorted A (m : mat A) : StronglySorted before (cells m).
Proof.
  unfold cells, tab. generalize 0%nat at 2. induction (nrows m) as [|n IH]; intros s; cbn [seq map concat]; [constructor|].
  apply sorted_app.
  - clear IH. generalize 0%nat. induction (ncols m) as [|k IHk]; intros q; cbn [seq map]; [constructor|]. constructor; [apply IHk|].
    apply Forall_forall. intros y Hy. apply in_map_iff in Hy. destruct Hy as (j & <- & Hj). apply in_seq in Hj. right. cbn. lia.
  - apply IH.
  - intros x y Hx Hy. apply in_map_iff in Hx. destruct Hx as (j & <- & _). apply in_concat in Hy. destruct Hy as (l & Hl & Hy).
    apply in_map_iff in Hl. destruct Hl as (i & <- & Hi). apply in_map_iff in Hy. destruct Hy as (j' & <- & _). apply in_seq in Hi. left. cbn. lia.
Qed.
Lemma sorted_filter A (Rel : A -> A -> Prop) f l : StronglySorted Rel l -> StronglySorted Rel (filter f l).
Proof.
  induction 1 as [|x l H IH Hx]; cbn; [constructor|]. destruct (f x); [|exact IH]. constructor; [exact IH|].
  rewrite Forall_forall in *. intros y Hy. apply filter_In in Hy. now apply Hx.
Qed.
Lemma cells_empty A (m : mat A) : cells m = [] <-> (nrows m = 0 \/ ncols m = 0)%nat.
Proof.
  split; intros H.
  - destruct (nrows m) as [|r] eqn:Er; [now left|]. destruct (ncols m) as [|c] eqn:Ec; [now right|]. exfalso.
    assert (In (0%nat, 0%nat) (cells m)) by (apply in_cells; lia). rewrite H in *. contradiction.
  - destruct (cells m) as [|[i j] l] eqn:E; [reflexivity|]. assert (In (i, j) (cells m)) by (rewrite E; now left). apply in_cells in H0. lia.
Qed.
Theorem where_amax_spec x : (1 <= nrows x)%nat -> (1 <= ncols x)%nat ->
  exists l, where_amax x = Ok l /\ l <> [] /\ StronglySorted before l /\
    forall i j, In (i, j) l <-> (i < nrows x)%nat /\ (j < ncols x)%nat /\
      forall i' j', (i' < nrows x)%nat -> (j' < ncols x)%nat -> Cabs (el x i' j') <= Cabs (el x i j).
Proof.
  intros Hr Hc. unfold where_amax. set (mx := lmax _). set (f := fun '(i, j) => if Req_EM_T (Cabs (el x i j)) mx then true else false).
  assert (Ne : cells x <> []) by (rewrite cells_empty; lia).
  exists (filter f (cells x)). split; [destruct (cells x) eqn:E; [congruence|reflexivity]|].
  assert (Hmx : forall i j, (i < nrows x)%nat -> (j < ncols x)%nat -> Cabs (el x i j) <= mx).
  { intros i j Hi Hj. assert (Hin : In (Cabs (el x i j)) (map Cabs (entries_of x))).
    { apply in_map. unfold entries_of. apply in_map_iff. exists (i, j). split; [reflexivity|now apply in_cells]. }
    apply (In_nth _ _ 0) in Hin. destruct Hin as (k & Hk & <-). now apply lmax_ge. }
  assert (Hat : exists i j, In (i, j) (cells x) /\ Cabs (el x i j) = mx).
  { destruct (lmax_in (map Cabs (entries_of x))) as (k & Hk & E).
    - unfold entries_of. rewrite map_map. destruct (cells x); [congruence|discriminate].
    - fold mx in E. assert (Hin : In mx (map Cabs (entries_of x))) by (rewrite <- E; now apply nth_In).
      apply in_map_iff in Hin. destruct Hin as (z & Hz & Hin). unfold entries_of in Hin. apply in_map_iff in Hin. destruct Hin as ([i j] & <- & Hin). eauto. }
  assert (Hf : forall i j, f (i, j) = true <-> Cabs (el x i j) = mx).
  { intros i j. unfold f. destruct (Req_EM_T _ _); split; congruence. }
  split; [|split].
  - destruct Hat as (i & j & Hin & E). intros Hn. assert (In (i, j) (filter f (cells x))) by (apply filter_In; split; [exact Hin|now apply Hf]).
    rewrite Hn in *. contradiction.
  - apply sorted_filter, cells_sorted.
  - intros i j. rewrite filter_In, in_cells, Hf. split.
    + intros ((Hi & Hj) & E). split; [exact Hi|]. split; [exact Hj|]. intros i' j' Hi' Hj'. rewrite E. now apply Hmx.
    + intros (Hi & Hj & H). split; [auto|]. destruct Hat as (i0 & j0 & Hin & E). apply in_cells in Hin. apply Rle_antisym; [now apply Hmx|].
      rewrite <- E. now apply H.
Qed.

(** ** lin_band *)
(** truncation toward zero *)
Definition truncates (z : Z) (v : R) : Prop := Rabs (v - IZR z) < 1 /\ Rabs (IZR z) <= Rabs v /\ 0 <= v * IZR z.
Lemma py_int_truncates v : truncates (py_int v) v.
Proof.
  unfold truncates, py_int. destruct (Rle_dec 0 v) as [H|H].
  - destruct (base_Int_part v) as [A B]. assert (0 <= IZR (Int_part v)).
    { apply (IZR_le 0). assert (-1 < Int_part v)%Z by (apply lt_IZR; lra). lia. }
    rewrite (Rabs_pos_eq v), (Rabs_pos_eq (IZR _)), (Rabs_pos_eq (v - _)) by lra. repeat split; try lra. now apply Rmult_le_pos.
  - destruct (base_Int_part (- v)) as [A B]. rewrite opp_IZR. assert (0 <= IZR (Int_part (- v))).
    { apply (IZR_le 0). assert (-1 < Int_part (- v))%Z by (apply lt_IZR; lra). lia. }
    rewrite (Rabs_left v), (Rabs_Ropp (IZR _)), (Rabs_pos_eq (IZR _)) by lra. repeat split; try lra.
    + apply Rabs_def1; lra.
    + nra.
Qed.
Lemma truncates_mono a b va vb : truncates a va -> truncates b vb -> va <= vb -> (a <= b)%Z.
Proof.
  intros (A1 & A2 & A3) (B1 & B2 & B3) L. apply Rabs_def2 in A1, B1.
  destruct (Z.le_gt_cases a b) as [|G]; [assumption|]. exfalso.
  assert (b + 1 <= a)%Z by lia. apply IZR_le in H. rewrite plus_IZR in H.
  destruct (Z.lt_trichotomy a 0) as [Ha|[Ha|Ha]].
  - assert (IZR b <= -2) by (apply (IZR_le _ (-2)); lia). assert (Hb : IZR a <= -1) by (apply (IZR_le _ (-1)); lia).
    assert (vb < 0) by nra. rewrite (Rabs_left vb), (Rabs_left (IZR b)) in B2 by lra. lra.
  - subst a. assert (IZR b <= -1) by (apply (IZR_le _ (-1)); lia). assert (vb < 0) by nra.
    rewrite (Rabs_left vb), (Rabs_left (IZR b)) in B2 by lra. lra.
  - assert (1 <= IZR a) by (apply (IZR_le 1); lia). assert (0 < va) by nra. rewrite !Rabs_pos_eq in A2 by lra. lra.
Qed.
Definition line (na N : nat) (slope offset : R) (k : nat) : R :=
  slope * ((if (N =? 1)%nat then 0 else INR k / INR (N - 1)) + offset) * INR na.
Lemma lin_band_nth na N slope offset bw k : (k < N)%nat ->
  nth k (fst (lin_band na N slope offset bw)) 0%Z = py_int (line na N slope offset k).
Proof.
  intros H. unfold lin_band. cbn [fst]. match goal with |- nth k (map ?g ?l) _ = _ => rewrite (nth_indep (map g l) 0%Z (g 0)) by (rewrite map_length, linspace_length; exact H); rewrite (map_nth g) end. f_equal. unfold line, linspace.
  rewrite nth_tab by assumption. destruct (Nat.eqb_spec N 1); [reflexivity|]. unfold Rdiv. ring.
Qed.
Theorem lin_band_spec na N slope offset bw : 0 <= bw ->
  exists cs fb, lin_band na N slope offset bw = (cs, fb) /\ length cs = N /\ length fb = N /\
    (forall k, (k < N)%nat -> truncates (nth k cs 0%Z) (line na N slope offset k)) /\
    (forall k, (k < N)%nat -> 0 <= bw * INR na - IZR (nth k fb 0%Z) < 1) /\
    (0 <= slope -> forall j k, (j <= k)%nat -> (k < N)%nat -> (nth j cs 0 <= nth k cs 0)%Z) /\
    (slope <= 0 -> forall j k, (j <= k)%nat -> (k < N)%nat -> (nth k cs 0 <= nth j cs 0)%Z).
Proof.
  intros Hb. destruct (lin_band na N slope offset bw) as [cs fb] eqn:E. exists cs, fb. split; [reflexivity|].
  assert (Ec : cs = fst (lin_band na N slope offset bw)) by now rewrite E.
  assert (Ef : fb = snd (lin_band na N slope offset bw)) by now rewrite E.
  split; [subst cs; unfold lin_band; cbn; now rewrite map_length, linspace_length|].
  split; [subst fb; unfold lin_band; cbn; apply tab_length|].
  assert (T : forall k, (k < N)%nat -> truncates (nth k cs 0%Z) (line na N slope offset k)).
  { intros k Hk. rewrite Ec, lin_band_nth by assumption. apply py_int_truncates. }
  split; [exact T|]. split; [|split].
  - intros k Hk. rewrite Ef. unfold lin_band. cbn [snd]. rewrite nth_tab by assumption. rewrite Rmult_1_r.
    assert (0 <= bw * INR na) by (apply Rmult_le_pos; [assumption|apply pos_INR]).
    unfold py_int. destruct (Rle_dec 0 (bw * INR na)); [|tauto]. destruct (base_Int_part (bw * INR na)). lra.
  - intros Hs j k Hjk Hk. apply (truncates_mono _ _ _ _ (T j ltac:(lia)) (T k Hk)). unfold line.
    apply Rmult_le_compat_r; [apply pos_INR|]. apply Rmult_le_compat_l; [exact Hs|]. apply Rplus_le_compat_r.
    destruct (Nat.eqb_spec N 1); [lra|]. apply Rmult_le_compat_r; [left; apply Rinv_0_lt_compat, lt_0_INR; lia|]. now apply le_INR.
  - intros Hs j k Hjk Hk. apply (truncates_mono _ _ _ _ (T k Hk) (T j ltac:(lia))). unfold line.
    apply Rmult_le_compat_r; [apply pos_INR|]. apply Rmult_le_compat_neg_l; [exact Hs|]. apply Rplus_le_compat_r.
    destruct (Nat.eqb_spec N 1); [lra|]. apply Rmult_le_compat_r; [left; apply Rinv_0_lt_compat, lt_0_INR; lia|]. now apply le_INR.
Qed.
(** the diagonal of the plane ends one row past its last row *)
Theorem lin_band_past na N bw : (2 <= N)%nat -> last (fst (lin_band na N 1 0 bw)) 0%Z = Z.of_nat na.
Proof.
  intros H. assert (L : forall l : list Z, last l 0%Z = nth (length l - 1) l 0%Z).
  { induction l as [|a l IH]; [reflexivity|]. destruct l as [|b l]; [reflexivity|]. change (last (a :: b :: l) 0%Z) with (last (b :: l) 0%Z). rewrite IH. cbn. now rewrite Nat.sub_0_r. }
  rewrite L. assert (E : length (fst (lin_band na N 1 0 bw)) = N) by (unfold lin_band; cbn; now rewrite map_length, linspace_length).
  rewrite E, lin_band_nth by lia. unfold line. destruct (Nat.eqb_spec N 1); [lia|].
  rewrite <- (py_int_IZR (Z.of_nat na)) by lia. f_equal. rewrite <- INR_IZR_INZ.
  assert (0 < INR (N - 1)) by (apply lt_0_INR; lia). field. lra.
Qed.
(** a narrow band on a short plane has no width at all *)
Theorem lin_band_empty na N slope offset : (na < 40)%nat -> snd (lin_band na N slope offset (25 / 1000)) = tab N (fun _ => 0%Z).
Proof.
  intros H. unfold lin_band. cbn [snd]. f_equal. assert (0 <= INR na < 40) by (split; [apply pos_INR|apply lt_INR in H; replace 40 with (INR 40) by (rewrite (INR_IZR_INZ 40); reflexivity); exact H]).
  replace (py_int _) with 0%Z; [reflexivity|]. unfold py_int. destruct (Rle_dec _ _); [|lra]. symmetry. apply Int_part_unique. lra.
Qed.

(** ** est_riskshrink_thresh *)
Definition fine (Wx : mat C) (nv : Z) : list R := map Cabs (entries_of (rows_to Wx nv)).
Lemma rows_to_rows A (Wx : mat A) nv : (1 <= nv)%Z -> nrows (rows_to Wx nv) = Nat.min (nrows Wx) (Z.to_nat nv).
Proof. intros H. cbn. unfold norm_bound. destruct (Z.ltb_spec nv 0); lia. Qed.
Lemma fine_length_pos Wx nv : (1 <= nrows Wx)%nat -> (1 <= ncols Wx)%nat -> (1 <= nv)%Z -> (length (fine Wx nv) =? 0)%nat = false.
Proof.
  intros Hr Hc Hv. apply Nat.eqb_neq. unfold fine, entries_of. rewrite !map_length. intros E. apply length_zero_iff_nil in E.
  rewrite cells_empty in E. destruct E as [E|E]; [|cbn in E; lia]. rewrite rows_to_rows in E by assumption. lia.
Qed.
(** membership in the averaged set *)
Lemma in_fine Wx nv v : (1 <= nv)%Z -> In v (fine Wx nv) <->
  exists i j, (i < nrows Wx)%nat /\ (Z.of_nat i < nv)%Z /\ (j < ncols Wx)%nat /\ v = Cabs (el Wx i j).
Proof.
  intros Hv. unfold fine, entries_of. rewrite map_map, in_map_iff. split.
  - intros ([i j] & <- & H). apply in_cells in H. rewrite rows_to_rows in H by assumption. cbn in H. exists i, j. repeat split; lia.
  - intros (i & j & Hi & Hi' & Hj & ->). exists (i, j). split; [reflexivity|]. apply in_cells. rewrite rows_to_rows by assumption. cbn. lia.
Qed.
Lemma mad_scal c l : mad (map (Rmult c) l) = Rabs c * mad l.
Proof.
  unfold mad. rewrite map_map. rewrite (mean_scal R (fun u => u) c), map_id. rewrite <- mean_scal. f_equal. apply map_ext. intros u.
  rewrite <- Rabs_mult. f_equal. ring.
Qed.
Lemma mad_nonneg l : 0 <= mad l.
Proof. apply mean_nonneg. intros; apply Rabs_pos. Qed.
Lemma mad_zero l : mad l = 0 <-> forall u v, In u l -> In v l -> u = v.
Proof.
  unfold mad. split.
  - intros E u v Hu Hv. pose proof (mean_zero _ _ _ (fun u (_ : In u l) => Rabs_pos (u - mean l)) E) as Z.
    assert (G : forall w, In w l -> w = mean l).
    { intros w Hw. specialize (Z w Hw). cbn in Z. destruct (Req_dec (w - mean l) 0) as [|N]; [lra|]. now apply Rabs_no_R0 in N. }
    rewrite (G u Hu), (G v Hv). reflexivity.
  - intros H. destruct l as [|x l]; [unfold mean, lsum; cbn; unfold Rdiv; ring|]. set (q := x :: l) in *.
    assert (Hn : INR (length q) <> 0) by (apply not_0_INR; cbn; lia).
    assert (M : mean q = x).
    { unfold mean. apply (Rmult_eq_reg_r (INR (length q))); [|exact Hn]. unfold Rdiv. rewrite Rmult_assoc, Rinv_l, Rmult_1_r by assumption.
      assert (C : forall l0, (forall u, In u l0 -> u = x) -> lsum l0 = x * INR (length l0)).
      { unfold lsum. induction l0 as [|y l0 IH]; intros HH; [cbn; ring|]. cbn [fold_right length]. rewrite IH by (intros; apply HH; now right).
        rewrite (HH y) by now left. rewrite S_INR. ring. }
      apply C. intros u Hu. apply H; [exact Hu|now left]. }
    rewrite M. assert (Z : forall l0, (forall u, In u l0 -> u = x) -> lsum (map (fun u => Rabs (u - x)) l0) = 0).
    { unfold lsum. induction l0 as [|y l0 IH]; intros HH; [reflexivity|]. cbn [map fold_right]. rewrite IH by (intros; apply HH; now right).
      rewrite (HH y) by now left. rewrite Rminus_diag_eq, Rabs_R0 by reflexivity. ring. }
    unfold mean. rewrite Z; [unfold Rdiv; ring|]. intros u Hu. apply H; [exact Hu|now left].
Qed.
Lemma shrink_val Wx nv : (1 <= nrows Wx)%nat -> (1 <= ncols Wx)%nat -> (1 <= nv)%Z ->
  est_riskshrink_thresh Wx nv = Some (14826 / 10000 * sqrt (2 * ln (INR (ncols Wx))) * mad (fine Wx nv)).
Proof. intros Hr Hc Hv. unfold est_riskshrink_thresh. fold (fine Wx nv). now rewrite fine_length_pos. Qed.
Lemma fine_ext Wx Wx' nv : nrows Wx = nrows Wx' -> ncols Wx = ncols Wx' -> (1 <= nv)%Z ->
  (forall i j, (i < nrows Wx)%nat -> (Z.of_nat i < nv)%Z -> (j < ncols Wx)%nat -> Cabs (el Wx i j) = Cabs (el Wx' i j)) -> fine Wx nv = fine Wx' nv.
Proof.
  intros Er Ec Hv H. unfold fine, entries_of. rewrite !map_map. assert (Ecl : cells (rows_to Wx' nv) = cells (rows_to Wx nv)).
  { unfold cells. cbn. now rewrite Er, Ec. }
  rewrite Ecl. apply map_ext_in. intros [i j] Hin. apply in_cells in Hin. rewrite rows_to_rows in Hin by assumption. cbn in *. apply H; lia.
Qed.
Theorem shrink_fine_only Wx Wx' nv : nrows Wx = nrows Wx' -> ncols Wx = ncols Wx' -> (1 <= nv)%Z ->
  (forall i j, (i < nrows Wx)%nat -> (Z.of_nat i < nv)%Z -> (j < ncols Wx)%nat -> Cabs (el Wx i j) = Cabs (el Wx' i j)) ->
  est_riskshrink_thresh Wx nv = est_riskshrink_thresh Wx' nv.
Proof.
  intros Er Ec Hv H. unfold est_riskshrink_thresh. fold (fine Wx nv) (fine Wx' nv). now rewrite (fine_ext Wx Wx' nv), Ec by assumption.
Qed.
Definition mscale (c : C) (m : mat C) : mat C := Mat (nrows m) (ncols m) (fun i j => Cmul c (el m i j)).
Theorem shrink_homogeneous c Wx nv : est_riskshrink_thresh (mscale c Wx) nv = option_map (Rmult (Cabs c)) (est_riskshrink_thresh Wx nv).
Proof.
  unfold est_riskshrink_thresh. fold (fine Wx nv) (fine (mscale c Wx) nv).
  assert (E : fine (mscale c Wx) nv = map (Rmult (Cabs c)) (fine Wx nv)).
  { unfold fine, entries_of. rewrite !map_map. apply map_ext. intros [i j]. cbn. apply Cabs_mul. }
  rewrite E, map_length. destruct (_ =? 0)%nat; [reflexivity|]. cbn [option_map]. f_equal. rewrite mad_scal, Rabs_pos_eq by apply Cabs_nonneg.
  cbn [ncols mscale]. ring.
Qed.
Theorem shrink_sign Wx nv : (1 <= nrows Wx)%nat -> (1 <= ncols Wx)%nat -> (1 <= nv)%Z ->
  exists g, est_riskshrink_thresh Wx nv = Some g /\ 0 <= g /\
    (g = 0 <-> ncols Wx = 1%nat \/ forall i j i' j', (i < nrows Wx)%nat -> (i' < nrows Wx)%nat -> (Z.of_nat i < nv)%Z -> (Z.of_nat i' < nv)%Z ->
       (j < ncols Wx)%nat -> (j' < ncols Wx)%nat -> Cabs (el Wx i j) = Cabs (el Wx i' j')).
Proof.
  intros Hr Hc Hv. eexists. split; [now apply shrink_val|]. pose proof (mad_nonneg (fine Wx nv)) as Hm.
  pose proof (sqrt_pos (2 * ln (INR (ncols Wx)))) as Hs. split; [apply Rmult_le_pos; [|exact Hm]; lra|].
  assert (S0 : sqrt (2 * ln (INR (ncols Wx))) = 0 <-> ncols Wx = 1%nat).
  { split.
    - intros E. destruct (Nat.eq_dec (ncols Wx) 1) as [|N]; [assumption|]. exfalso. assert (1 < INR (ncols Wx)) by (apply (lt_INR 1); lia).
      assert (0 < ln (INR (ncols Wx))) by (rewrite <- ln_1; apply ln_increasing; lra).
      assert (0 < sqrt (2 * ln (INR (ncols Wx)))) by (apply sqrt_lt_R0; lra). lra.
    - intros ->. cbn. rewrite ln_1, Rmult_0_r. apply sqrt_0. }
  assert (M0 : mad (fine Wx nv) = 0 <-> forall i j i' j', (i < nrows Wx)%nat -> (i' < nrows Wx)%nat -> (Z.of_nat i < nv)%Z -> (Z.of_nat i' < nv)%Z ->
       (j < ncols Wx)%nat -> (j' < ncols Wx)%nat -> Cabs (el Wx i j) = Cabs (el Wx i' j')).
  { rewrite mad_zero. split.
    - intros H i j i' j' ? ? ? ? ? ?. apply H; apply in_fine; try assumption; [exists i, j|exists i', j']; auto.
    - intros H u v Hu Hv'. apply in_fine in Hu, Hv'; try assumption. destruct Hu as (i & j & ? & ? & ? & ->), Hv' as (i' & j' & ? & ? & ? & ->). now apply H. }
  rewrite <- S0, <- M0. split.
  - intros E. apply Rmult_integral in E. destruct E as [E|E]; [|now right]. left. lra.
  - intros [->| ->]; ring.
Qed.
(** one coefficient among any number moves the threshold as far as one likes: a mean, not a median *)
Definition spike (N : nat) (t : R) : mat C := Mat 1 N (fun _ j => if (j =? 0)%nat then RtoC t else RtoC 0).
Lemma mad_spike t n : 0 <= t -> mad (t :: repeat 0 n) = 2 * t * INR n / (INR n + 1) ^ 2.
Proof.
  intros Ht. assert (Hn : 0 <= INR n) by apply pos_INR. unfold mad.
  assert (R0 : forall c k, lsum (repeat c k) = INR k * c).
  { intros c k. unfold lsum. induction k as [|k IH]; [cbn; ring|]. cbn [repeat fold_right]. rewrite IH, S_INR. ring. }
  assert (M : mean (t :: repeat 0 n) = t / (INR n + 1)).
  { unfold mean. change (lsum (t :: repeat 0 n)) with (t + lsum (repeat 0 n)). rewrite R0. cbn [length]. rewrite repeat_length, S_INR. field. lra. }
  rewrite M. assert (Hp : 0 < INR n + 1) by lra.
  assert (Hq : 0 <= t / (INR n + 1)) by (apply Rmult_le_pos; [lra|left; now apply Rinv_0_lt_compat]).
  assert (Hd : 0 <= t - t / (INR n + 1)).
  { replace (t - t / (INR n + 1)) with (INR n * (t / (INR n + 1))) by (field; lra). now apply Rmult_le_pos. }
  unfold mean. cbn [map length]. rewrite map_length, repeat_length, S_INR.
  assert (E : forall k, map (fun u => Rabs (u - t / (INR n + 1))) (repeat 0 k) = repeat (t / (INR n + 1)) k).
  { induction k as [|k IH]; [reflexivity|]. cbn [repeat map]. rewrite IH. f_equal. rewrite Rminus_0_l, Rabs_Ropp. now apply Rabs_pos_eq. }
  rewrite E. change (lsum (?a :: ?b)) with (a + lsum b). rewrite R0, Rabs_pos_eq by assumption. field. lra.
Qed.
Lemma fine_spike N t nv : 0 <= t -> (1 <= N)%nat -> (1 <= nv)%Z -> fine (spike N t) nv = t :: repeat 0 (N - 1).
Proof.
  intros Ht HN Hv. assert (R : nrows (rows_to (spike N t) nv) = 1%nat) by (rewrite rows_to_rows by assumption; cbn [nrows spike]; lia).
  unfold fine, entries_of, cells. rewrite R. cbn [tab ncols rows_to spike]. unfold tab. cbn [seq map concat]. rewrite app_nil_r, !map_map.
  destruct N as [|n]; [lia|]. cbn [seq map el rows_to spike]. rewrite Nat.eqb_refl, Cabs_RtoC, Rabs_pos_eq by assumption. f_equal.
  cbn [Nat.sub]. rewrite Nat.sub_0_r. rewrite <- seq_shift, map_map.
  assert (G : forall k s, map (fun x => Cabs (if (S x =? 0)%nat then RtoC t else RtoC 0)) (seq s k) = repeat 0 k).
  { induction k as [|k IH]; intros s; [reflexivity|]. cbn [seq map repeat Nat.eqb]. rewrite IH. f_equal. rewrite Cabs_RtoC. apply Rabs_R0. }
  apply G.
Qed.
Theorem shrink_outlier N nv B : (2 <= N)%nat -> (1 <= nv)%Z -> 0 <= B ->
  exists t g, 0 < t /\ est_riskshrink_thresh (spike N t) nv = Some g /\ B < g /\ est_riskshrink_thresh (spike N 0) nv = Some 0.
Proof.
  intros HN Hv HB. assert (HN1 : 1 < INR N) by (apply (lt_INR 1); lia).
  assert (Hl : 0 < ln (INR N)) by (rewrite <- ln_1; apply ln_increasing; lra).
  set (k := 14826 / 10000 * sqrt (2 * ln (INR N)) * (2 * INR (N - 1) / (INR (N - 1) + 1) ^ 2)).
  assert (H1 : 0 < INR (N - 1)) by (apply lt_0_INR; lia).
  assert (Hk : 0 < k).
  { unfold k. apply Rmult_lt_0_compat; [apply Rmult_lt_0_compat; [lra|apply sqrt_lt_R0; lra]|].
    apply Rmult_lt_0_compat; [lra|apply Rinv_0_lt_compat; apply pow_lt; lra]. }
  assert (V : forall t, 0 <= t -> est_riskshrink_thresh (spike N t) nv = Some (k * t)).
  { intros t Ht. rewrite shrink_val by (cbn; lia). rewrite fine_spike, mad_spike by (assumption || lia). cbn [ncols spike]. f_equal. unfold k. field. lra. }
  assert (Ht : 0 < (B + 1) / k) by (apply Rmult_lt_0_compat; [lra|now apply Rinv_0_lt_compat]).
  exists ((B + 1) / k), (B + 1). split; [exact Ht|]. split; [rewrite V by lra; f_equal; field; lra|]. split; [lra|].
  rewrite V by lra. f_equal. ring.
Qed.
(** more high-frequency content, lower threshold *)
Definition flat (N : nat) (t : R) : mat C := Mat 1 N (fun _ _ => RtoC t).
Theorem shrink_more_less N nv t : (2 <= N)%nat -> (1 <= nv)%Z -> 0 < t ->
  (forall i j, Cabs (el (spike N t) i j) <= Cabs (el (flat N t) i j)) /\
  exists g, est_riskshrink_thresh (spike N t) nv = Some g /\ 0 < g /\ est_riskshrink_thresh (flat N t) nv = Some 0.
Proof.
  intros HN Hv Ht. split.
  - intros i j. cbn. destruct (j =? 0)%nat; rewrite !Cabs_RtoC; [lra|]. rewrite Rabs_R0. apply Rabs_pos.
  - destruct (shrink_sign (spike N t) nv ltac:(cbn; lia) ltac:(cbn; lia) Hv) as (g & Eg & [Hg|Hg] & Hz).
    + exists g. split; [exact Eg|]. split; [exact Hg|].
      destruct (shrink_sign (flat N t) nv ltac:(cbn; lia) ltac:(cbn; lia) Hv) as (g' & Eg' & _ & Hz'). rewrite Eg'. f_equal. apply Hz'. right. reflexivity.
    + exfalso. symmetry in Hg. apply Hz in Hg. destruct Hg as [Hg|Hg]; [cbn in Hg; lia|].
      specialize (Hg 0%nat 0%nat 0%nat 1%nat ltac:(cbn; lia) ltac:(cbn; lia) ltac:(lia) ltac:(lia) ltac:(cbn; lia) ltac:(cbn; lia)).
      cbn in Hg. rewrite !Cabs_RtoC, Rabs_R0, Rabs_pos_eq in Hg by lra. lra.
Qed.
