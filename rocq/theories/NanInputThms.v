From Coq Require Import Reals Lra Lia List Bool.
From Verif Require Import Py Round Parallel Cplx Padding Buffer Freqs Squeeze Scales Cwt Pointwise PointwiseProofs NanInput.
Import ListNotations.
Local Open Scope R_scope.

(** zero for a sample that is not finite *)
Definition zeroed (v : num) : num := match v with Num r => Num r | _ => Num 0 end.
Definition value (v : num) : R := match v with Num r => r | _ => 0 end.
Definition finite (v : num) : Prop := exists r, v = Num r.

Definition is_fin (v : num) : bool := match v with Num _ => true | _ => false end.
Lemma is_fin_iff v : is_fin v = true <-> finite v.
Proof. unfold finite. destruct v; cbn; split; intros H; trivial; try discriminate H; eauto; destruct H as [r H]; discriminate H. Qed.

Lemma max_nan ys : forall y, isnan (fold_left nmax ys y) = isnan y || existsb isnan ys.
Proof.
  induction ys as [|z ys IH]; intros y; cbn; [now rewrite orb_false_r|].
  rewrite IH. unfold nmax. destruct y, z; cbn; try reflexivity; destruct (Rltb _ _); reflexivity.
Qed.
Lemma max_inf ys : forall y, isnan (fold_left nmax ys y) = false ->
  (fold_left nmax ys y = PInf <-> y = PInf \/ In PInf ys).
Proof.
  induction ys as [|z ys IH]; intros y; cbn.
  { intros _. split; [auto|intros [H|[]]; exact H]. }
  intros H. rewrite (IH _ H). rewrite max_nan in H. apply orb_false_iff in H. destruct H as [H _].
  unfold nmax in *. destruct y, z; cbn in *; try discriminate H; try (destruct (Rltb _ _));
    intuition (try discriminate; try congruence).
Qed.
Lemma min_nan ys : forall y, isnan (fold_left nmin ys y) = isnan y || existsb isnan ys.
Proof.
  induction ys as [|z ys IH]; intros y; cbn; [now rewrite orb_false_r|].
  rewrite IH. unfold nmin. destruct y, z; cbn; try reflexivity; destruct (Rltb _ _); reflexivity.
Qed.
Lemma min_inf ys : forall y, isnan (fold_left nmin ys y) = false ->
  (fold_left nmin ys y = NInf <-> y = NInf \/ In NInf ys).
Proof.
  induction ys as [|z ys IH]; intros y; cbn.
  { intros _. split; [auto|intros [H|[]]; exact H]. }
  intros H. rewrite (IH _ H). rewrite min_nan in H. apply orb_false_iff in H. destruct H as [H _].
  unfold nmin in *. destruct y, z; cbn in *; try discriminate H; try (destruct (Rltb _ _));
    intuition (try discriminate; try congruence).
Qed.
Lemma max_ninf ys : forall y, fold_left nmax ys y = NInf -> y = NInf.
Proof.
  induction ys as [|z ys IH]; intros y; cbn; [auto|]. intros H. apply IH in H. unfold nmax in H.
  destruct y, z; cbn in *; try discriminate H; trivial; destruct (Rltb _ _); discriminate H.
Qed.
Lemma min_pinf ys : forall y, fold_left nmin ys y = PInf -> y = PInf.
Proof.
  induction ys as [|z ys IH]; intros y; cbn; [auto|]. intros H. apply IH in H. unfold nmin in H.
  destruct y, z; cbn in *; try discriminate H; trivial; destruct (Rltb _ _); discriminate H.
Qed.

(** the test sees every sample that is not finite *)
Lemma found_bad_spec l : l <> [] -> found_bad l = Ok (negb (forallb is_fin l)).
Proof.
  destruct l as [|y ys]; intros H; [contradiction|]. clear H. unfold found_bad, np_max, np_min. cbn [bind].
  f_equal. apply eq_true_iff_eq.
  rewrite negb_true_iff, !orb_true_iff.
  assert (B : forallb is_fin (y :: ys) = false <-> exists v, In v (y :: ys) /\ is_fin v = false).
  { split.
    - intros F. destruct (existsb (fun v => negb (is_fin v)) (y :: ys)) eqn:E.
      + apply existsb_exists in E. destruct E as (v & Hv & E). exists v. split; trivial. now apply negb_true_iff.
      + exfalso. assert (forallb is_fin (y :: ys) = true); [|congruence].
        apply forallb_forall. intros v Hv. destruct (is_fin v) eqn:Ev; trivial.
        assert (existsb (fun v => negb (is_fin v)) (y :: ys) = true); [|congruence].
        apply existsb_exists. exists v. split; trivial. now rewrite Ev.
    - intros (v & Hv & E). destruct (forallb is_fin (y :: ys)) eqn:F; trivial.
      rewrite forallb_forall in F. rewrite (F v Hv) in E. discriminate E. }
  rewrite B. split.
  - intros [[H|H]|H].
    + rewrite max_nan, orb_true_iff, existsb_exists in H.
      destruct H as [H|(v & Hv & H)]; [exists y|exists v]; cbn [In]; (split; [auto|]);
        [destruct y|destruct v]; try discriminate H; reflexivity.
    + destruct (isnan (fold_left nmax ys y)) eqn:N; [destruct (fold_left nmax ys y); discriminate|].
      destruct (fold_left nmax ys y) eqn:E; try discriminate H.
      * assert (X : y = PInf \/ In PInf ys) by (apply max_inf; [now rewrite E|exact E]).
        exists PInf. split; [destruct X; [left|right]; auto|reflexivity].
      * apply max_ninf in E. exists y. split; [now left|now rewrite E].
    + destruct (isnan (fold_left nmin ys y)) eqn:N; [destruct (fold_left nmin ys y); discriminate|].
      destruct (fold_left nmin ys y) eqn:E; try discriminate H.
      * apply min_pinf in E. exists y. split; [now left|now rewrite E].
      * assert (X : y = NInf \/ In NInf ys) by (apply min_inf; [now rewrite E|exact E]).
        exists NInf. split; [destruct X; [left|right]; auto|reflexivity].
  - intros (v & Hv & E). destruct (isnan (fold_left nmax ys y)) eqn:N; [left; left; reflexivity|].
    assert (N' : isnan (fold_left nmin ys y) = false) by (rewrite min_nan; now rewrite max_nan in N).
    destruct v; try discriminate E.
    + left; right. assert (X : fold_left nmax ys y = PInf) by (apply max_inf; trivial). now rewrite X.
    + right. assert (X : fold_left nmin ys y = NInf) by (apply min_inf; trivial). now rewrite X.
    + exfalso. rewrite max_nan in N. apply orb_false_iff in N. destruct N as [N1 N2]. destruct Hv as [ ->|Hv]; [discriminate N1|].
      assert (existsb isnan ys = true); [|congruence]. apply existsb_exists. exists NaN. auto.
Qed.

Lemma zeroed_fin l : forallb is_fin l = true -> map zeroed l = l.
Proof.
  induction l as [|v l IH]; cbn; trivial. intros H. apply andb_true_iff in H. destruct H as [H1 H2].
  rewrite IH by exact H2. destruct v; try discriminate H1; reflexivity.
Qed.

Lemma replaced1 x y : replace_at AtInfOrNan (arr1 x) None (Num 0) = Ok y ->
  tab (length x) (fun i => at3 y (i, 0, 0)%nat) = map zeroed x.
Proof.
  intros E. destruct (replace_at_spec _ _ _ _ _ E) as (_ & _ & _ & A).
  apply nth_ext with (d := NaN) (d' := zeroed NaN); [now rewrite tab_length, map_length|].
  rewrite tab_length. intros i Hi. rewrite nth_tab by exact Hi. rewrite map_nth.
  rewrite A by (unfold in3; cbn; lia). cbn [at3 arr1]. destruct (nth i x NaN); reflexivity.
Qed.

(** the check, 1-D *)
Lemma process_spec c x : x <> [] -> wants c = true ->
  process_nan c x = Ok (map zeroed x, negb (forallb is_fin x)).
Proof.
  intros Hx Hc. unfold process_nan. rewrite Hc, (found_bad_spec x Hx). cbn [bind].
  destruct (forallb is_fin x) eqn:F; cbn [negb].
  - now rewrite zeroed_fin.
  - destruct (replace_at AtInfOrNan (arr1 x) None (Num 0)) as [y|e] eqn:E; [|discriminate E].
    cbn [bind]. now rewrite (replaced1 x y E).
Qed.

Lemma concat_not_nil {A} (xs : list (list A)) n : (0 < n)%nat -> xs <> [] ->
  (forall r, In r xs -> length r = n) -> concat xs <> [].
Proof.
  destruct xs as [|r xs]; intros Hn H L; [contradiction|]. cbn. specialize (L r (or_introl eq_refl)).
  destruct r; cbn in *; [lia|discriminate].
Qed.

(** the check, 2-D *)
Lemma process2_spec c n xs : (0 < n)%nat -> xs <> [] -> (forall r, In r xs -> length r = n) ->
  wants c = true ->
  process_nan2 c n xs = Ok (map (map zeroed) xs, negb (forallb (forallb is_fin) xs)).
Proof.
  intros Hn Hx L Hc. unfold process_nan2. rewrite Hc, (found_bad_spec _ (concat_not_nil xs n Hn Hx L)). cbn [bind].
  assert (F : forallb is_fin (concat xs) = forallb (forallb is_fin) xs).
  { clear. induction xs as [|r xs IH]; cbn; trivial. now rewrite forallb_app, IH. }
  rewrite F. destruct (forallb (forallb is_fin) xs) eqn:E; cbn [negb].
  - f_equal. f_equal. clear - E. induction xs as [|r xs IH]; cbn in *; trivial.
    apply andb_true_iff in E. destruct E as [E1 E2]. rewrite zeroed_fin by exact E1. f_equal. now apply IH.
  - destruct (replace_at AtInfOrNan (arr2 n xs) None (Num 0)) as [y|e] eqn:R; [|discriminate R]. cbn [bind].
    f_equal. f_equal. destruct (replace_at_spec _ _ _ _ _ R) as (_ & _ & _ & A).
    apply nth_ext with (d := []) (d' := map zeroed []); [now rewrite tab_length, map_length|].
    rewrite tab_length. intros i Hi. rewrite nth_tab by exact Hi. rewrite map_nth.
    assert (Li : length (nth i xs []) = n) by (apply L, nth_In, Hi).
    apply nth_ext with (d := NaN) (d' := zeroed NaN); [now rewrite tab_length, map_length|].
    rewrite tab_length. intros j Hj. rewrite nth_tab by exact Hj. rewrite map_nth.
    rewrite A by (unfold in3; cbn; lia). cbn [at3 arr2]. destruct (nth j (nth i xs []) NaN); reflexivity.
Qed.

Lemma samples_zeroed x : samples (map zeroed x) = Some (map value x).
Proof. induction x as [|v x IH]; [reflexivity|]. destruct v; cbn; rewrite IH; reflexivity. Qed.
Lemma samples_fin x : Forall finite x -> samples x = Some (map value x).
Proof. induction 1 as [|v x [r ->] _ IH]; [reflexivity|]. cbn. now rewrite IH. Qed.

(** ** what a caller of [cwt] sees *)
Lemma cwt_zeroes c py inst f a x : x <> [] -> c <> Some false ->
  cwt_np c py inst f a x = (cwt py inst f a (map value x), map zeroed x).
Proof.
  intros Hx Hc. unfold cwt_np. rewrite process_spec; trivial.
  - now rewrite samples_zeroed.
  - destruct c as [[]|]; cbn; trivial. now destruct Hc.
Qed.
Lemma cwt_finite c py inst f a l : l <> [] ->
  cwt_np c py inst f a (map Num l) = (cwt py inst f a l, map Num l).
Proof.
  intros Hl.
  assert (V : map value (map Num l) = l) by (rewrite map_map; apply map_id).
  assert (Zd : map zeroed (map Num l) = map Num l) by (rewrite map_map; reflexivity).
  assert (Hn : map Num l <> []) by (destruct l; [contradiction|discriminate]).
  destruct (wants c) eqn:W.
  - unfold cwt_np. rewrite process_spec; trivial. rewrite Zd.
    rewrite <- Zd at 1. rewrite samples_zeroed, V. reflexivity.
  - unfold cwt_np, process_nan. rewrite W. rewrite <- Zd at 1. rewrite samples_zeroed, V. reflexivity.
Qed.
Lemma cwt_empty c py inst f a s : c <> Some false ->
  fst (cwt_np c py inst f a []) s = (Err ValueError, s).
Proof. destruct c as [[]|]; intros H; try reflexivity. now destruct H. Qed.

(** the warning, and that it comes once *)
Lemma warned c x : x <> [] -> c <> Some false -> exists x' b, process_nan c x = Ok (x', b) /\
  (b = true <-> exists v, In v x /\ ~ finite v) /\ process_nan c x' = Ok (x', false).
Proof.
  intros Hx Hc. assert (W : wants c = true) by (destruct c as [[]|]; cbn; trivial; now destruct Hc).
  exists (map zeroed x), (negb (forallb is_fin x)). split; [now apply process_spec|]. split.
  - rewrite negb_true_iff. split.
    + intros F. destruct (existsb (fun v => negb (is_fin v)) x) eqn:E.
      * apply existsb_exists in E. destruct E as (v & Hv & E). exists v. split; trivial. intros K.
        apply is_fin_iff in K. rewrite K in E. discriminate E.
      * exfalso. assert (forallb is_fin x = true); [|congruence]. apply forallb_forall. intros v Hv.
        destruct (is_fin v) eqn:Ev; trivial. assert (existsb (fun v => negb (is_fin v)) x = true); [|congruence].
        apply existsb_exists. exists v. split; trivial. now rewrite Ev.
    + intros (v & Hv & K). destruct (forallb is_fin x) eqn:F; trivial. exfalso. apply K. apply is_fin_iff.
      rewrite forallb_forall in F. auto.
  - assert (F : forallb is_fin (map zeroed x) = true).
    { apply forallb_forall. intros v Hv. apply in_map_iff in Hv. destruct Hv as (u & <- & _). destruct u; reflexivity. }
    rewrite process_spec; trivial; [|destruct x; [contradiction|discriminate]].
    rewrite F. cbn. now rewrite (zeroed_fin _ F).
Qed.

(** several orders: every one transforms the zeroed signal, whatever [nan_checks] *)
Lemma orders_zero c py fs a x : x <> [] -> fs <> [] ->
  cwt_np_orders c py fs a x = (map (fun f => cwt py true f a (map value x)) fs, map zeroed x).
Proof.
  intros Hx. revert x Hx. induction fs as [|f fs IH]; intros x Hx Hf; [contradiction|].
  cbn [cwt_np_orders map]. rewrite (cwt_zeroes None) by (trivial; discriminate).
  destruct fs as [|g fs].
  - reflexivity.
  - assert (Hz : map zeroed x <> []) by (destruct x; [contradiction|discriminate]).
    rewrite (IH (map zeroed x) Hz) by discriminate.
    assert (E1 : map value (map zeroed x) = map value x).
    { rewrite map_map. apply map_ext. intros []; reflexivity. }
    assert (E2 : map zeroed (map zeroed x) = map zeroed x).
    { rewrite map_map. apply map_ext. intros []; reflexivity. }
    rewrite E1, E2. reflexivity.
Qed.
