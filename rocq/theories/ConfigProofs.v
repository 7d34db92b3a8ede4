(** Dictionaries, [gdefaults] and the reading of configs.ini. *)
From Coq Require Import Ascii String Reals.
From Verif Require Import Py Config.
Local Open Scope string_scope.

(** ** Dictionaries *)
Section D.
Variable A : Type.
Implicit Types d : dict A.
Lemma has_in k d : has k d = true <-> In k (keys d).
Proof.
  unfold has, keys. induction d as [|[k' v] d IH]; cbn; [split; [discriminate|tauto]|].
  destruct (String.eqb_spec k k') as [->|N]; [split; auto|]. rewrite IH. split; [auto|]. intros [E|E]; [congruence|exact E].
Qed.
Lemma dget_none k d : dget k d = None <-> ~ In k (keys d).
Proof. rewrite <- has_in. unfold has. destruct (dget k d); split; congruence. Qed.
Lemma dget_in k v d : NoDup (keys d) -> In (k, v) d -> dget k d = Some v.
Proof.
  induction d as [|[k' w] d IH]; intros N H; [destruct H|]. inversion N as [|? ? N1 N2]. subst. cbn. destruct H as [E|H].
  - injection E as -> ->. rewrite String.eqb_refl. reflexivity.
  - destruct (String.eqb_spec k k') as [->|]; [|apply IH; assumption]. exfalso. apply N1. apply (in_map fst) in H. exact H.
Qed.
Lemma dget_dset k k' v d : dget k (dset k' v d) = if String.eqb k k' then Some v else dget k d.
Proof.
  induction d as [|[a w] d IH]; cbn; [destruct (String.eqb_spec k k'); reflexivity|].
  destruct (String.eqb_spec k' a) as [->|N]; cbn.
  - destruct (String.eqb_spec k a); reflexivity.
  - rewrite IH. destruct (String.eqb_spec k a) as [->|]; [|reflexivity]. destruct (String.eqb_spec a k'); [congruence|reflexivity].
Qed.
Lemma keys_dset k v d : keys (dset k v d) = if has k d then keys d else (keys d ++ [k])%list.
Proof.
  unfold has, keys. induction d as [|[a w] d IH]; cbn; [reflexivity|]. destruct (String.eqb_spec k a) as [->|N]; [reflexivity|].
  cbn. rewrite IH. destruct (dget k d); reflexivity.
Qed.
Lemma dset_notin k v d : ~ In k (keys d) -> dset k v d = (d ++ [(k, v)])%list.
Proof.
  induction d as [|[a w] d IH]; intros H; cbn; [reflexivity|]. destruct (String.eqb_spec k a) as [->|N]; [exfalso; apply H; left; reflexivity|].
  rewrite IH; [reflexivity|]. intros HI. apply H. right. exact HI.
Qed.
Lemma dset_last k v w d : ~ In k (keys d) -> dset k v (d ++ [(k, w)])%list = (d ++ [(k, v)])%list.
Proof.
  induction d as [|[a x] d IH]; intros H; cbn; [rewrite String.eqb_refl; reflexivity|].
  destruct (String.eqb_spec k a) as [->|N]; [exfalso; apply H; left; reflexivity|]. rewrite IH; [reflexivity|]. intros HI. apply H. right. exact HI.
Qed.
Lemma dget_last k v d : ~ In k (keys d) -> dget k (d ++ [(k, v)])%list = Some v.
Proof.
  induction d as [|[a x] d IH]; intros H; cbn; [rewrite String.eqb_refl; reflexivity|].
  destruct (String.eqb_spec k a) as [->|N]; [exfalso; apply H; left; reflexivity|]. apply IH. intros HI. apply H. right. exact HI.
Qed.
Lemma NoDup_dset k v d : NoDup (keys d) -> NoDup (keys (dset k v d)).
Proof.
  intros N. rewrite keys_dset. destruct (has k d) eqn:E; [exact N|].
  apply NoDup_Add with (a := k) (l := keys d); [rewrite <- (app_nil_r (keys d)) at 1; apply Add_app|].
  split; [exact N|]. intros H. apply has_in in H. congruence.
Qed.
End D.

(** ** [gdefaults] *)
Section G.
Implicit Types D kw : dict pyv.
Lemma keys_fill D kw : keys (fill D kw) = keys kw.
Proof. unfold fill, keys. rewrite map_map. apply map_ext. intros [k v]. reflexivity. Qed.
Definition filled D (k : string) (v : pyv) : pyv := if is_none v then match dget k D with Some d => d | None => PNone end else v.
Lemma dget_fill D kw k : dget k (fill D kw) = match dget k kw with Some v => Some (filled D k v) | None => None end.
Proof.
  unfold fill. induction kw as [|[a v] kw IH]; cbn; [reflexivity|]. destruct (String.eqb_spec k a) as [->|]; [|exact IH].
  unfold filled. destruct v; try reflexivity.
Qed.
Lemma missing_spec D : forall kw, NoDup (keys D) ->
  keys (add_missing D kw) = (keys kw ++ filter (fun k => negb (has k kw)) (keys D))%list /\
  forall k, dget k (add_missing D kw) = match dget k kw with Some v => Some v | None => dget k D end.
Proof.
  induction D as [|[a v] D IH]; intros kw N; cbn [add_missing fold_left].
  - cbn. rewrite app_nil_r. split; [reflexivity|]. intros k. destruct (dget k kw); reflexivity.
  - inversion N as [|? ? N1 N2]. subst. change (fold_left _ D ?x) with (add_missing D x).
    destruct (has a kw) eqn:E.
    + destruct (IH kw N2) as (IH1 & IH2). cbn [keys map fst filter]. rewrite E. cbn [negb]. split; [exact IH1|].
      intros k. rewrite IH2. cbn. destruct (String.eqb_spec k a) as [->|]; [|reflexivity]. unfold has in E. destruct (dget a kw); [reflexivity|discriminate].
    + destruct (IH (dset a v kw) N2) as (IH1 & IH2). cbn [keys map fst filter]. rewrite E. cbn [negb]. split.
      * rewrite IH1, keys_dset, E. rewrite <- app_assoc. cbn [app]. f_equal. f_equal. apply filter_ext_in. intros k Hk.
        unfold has. rewrite dget_dset. destruct (String.eqb_spec k a) as [->|]; [|reflexivity]. contradiction.
      * intros k. rewrite IH2, dget_dset. cbn. destruct (String.eqb_spec k a) as [->|]; [|reflexivity].
        unfold has in E. destruct (dget a kw); [discriminate|reflexivity].
Qed.
Lemma update_spec kw : forall o, NoDup (keys kw) -> let r := fold_left (fun o '(k, v) => dset k v o) kw o in
  keys r = (keys o ++ filter (fun k => negb (has k o)) (keys kw))%list /\
  forall k, dget k r = match dget k kw with Some v => Some v | None => dget k o end.
Proof.
  induction kw as [|[a v] kw IH]; intros o N; cbn [fold_left]; cbv zeta.
  - cbn. rewrite app_nil_r. split; reflexivity.
  - inversion N as [|? ? N1 N2]. subst. destruct (IH (dset a v o) N2) as (IH1 & IH2). cbv zeta in *. split.
    + rewrite IH1, keys_dset. cbn [keys map fst filter]. destruct (has a o) eqn:E; cbn [negb].
      * f_equal. apply filter_ext_in. intros k Hk. unfold has. rewrite dget_dset. destruct (String.eqb_spec k a) as [->|]; [contradiction|reflexivity].
      * rewrite <- app_assoc. cbn [app]. f_equal. f_equal. apply filter_ext_in. intros k Hk. unfold has. rewrite dget_dset.
        destruct (String.eqb_spec k a) as [->|]; [contradiction|reflexivity].
    + intros k. rewrite IH2, dget_dset. cbn. destruct (String.eqb_spec k a) as [->|]; [|reflexivity].
      apply dget_none in N1. rewrite N1. reflexivity.
Qed.
Lemma ordered_spec D kw : forall o, NoDup (keys o ++ keys D)%list ->
  let r := fold_left (fun o '(k, v) => if has k kw then dset k v o else o) D o in
  keys r = (keys o ++ filter (fun k => has k kw) (keys D))%list.
Proof.
  induction D as [|[a v] D IH]; intros o N; cbn [fold_left]; cbv zeta; [cbn; rewrite app_nil_r; reflexivity|].
  cbn [keys map fst] in N. pose proof (NoDup_remove_1 _ _ _ N) as N1. pose proof (NoDup_remove_2 _ _ _ N) as N2.
  cbn [keys map fst filter]. destruct (has a kw).
  - assert (Ho : has a o = false).
    { destruct (has a o) eqn:E; [|reflexivity]. apply has_in in E. exfalso. apply N2. apply in_or_app. left. exact E. }
    rewrite IH.
    + rewrite keys_dset, Ho. rewrite <- app_assoc. reflexivity.
    + rewrite keys_dset, Ho. rewrite <- app_assoc. cbn [app]. exact N.
  - apply IH. exact N1.
Qed.
Lemma reorder_spec D kw : NoDup (keys D) -> NoDup (keys kw) ->
  keys (reorder D kw) = (filter (fun k => has k kw) (keys D) ++ filter (fun k => negb (has k D)) (keys kw))%list /\
  forall k, dget k (reorder D kw) = dget k kw.
Proof.
  intros ND NK. unfold reorder. pose proof (ordered_spec D kw [] ND) as HO. cbv zeta in *. cbn [keys map app] in HO.
  match type of HO with keys ?x = _ => set (o := x) in * end. destruct (update_spec kw o NK) as (U1 & U2). cbv zeta in *.
  assert (HI : forall k, In k (keys kw) -> has k o = has k D).
  { intros k Hk. apply has_in in Hk. apply Bool.eq_true_iff_eq. rewrite !has_in. rewrite HO. rewrite filter_In. rewrite Hk. tauto. }
  split.
  - rewrite U1, HO. f_equal. apply filter_ext_in. intros k Hk. rewrite HI by exact Hk. reflexivity.
  - intros k. rewrite U2. destruct (dget k kw) as [v|] eqn:E; [reflexivity|]. apply dget_none. rewrite HO. rewrite filter_In.
    intros (_ & H). unfold has in H. rewrite E in H. discriminate.
Qed.

(** ** All of it *)
Definition empty_if_none (o : option (dict pyv)) : dict pyv := match o with Some d => d | None => [] end.
Theorem gd_spec G module obj (get_all default_order : bool) kw : NoDup (keys kw) ->
  let D := empty_if_none (defaults_of G module obj) in NoDup (keys D) ->
  let r := gd_dict G module obj get_all default_order kw in
  NoDup (keys r) /\
  (forall k, dget k r = match dget k kw with
                        | Some PNone => match dget k D with Some d => Some d | None => Some PNone end
                        | Some v => Some v
                        | None => if get_all then dget k D else None
                        end) /\
  (let ks := if get_all then (keys kw ++ filter (fun k => negb (has k kw)) (keys D))%list else keys kw in
   keys r = if default_order then (filter (fun k => if in_dec string_dec k ks then true else false) (keys D) ++ filter (fun k => negb (has k D)) ks)%list
            else ks).
Proof.
  intros NK D ND. cbv zeta. unfold gd_dict. subst D. destruct (defaults_of G module obj) as [D|] eqn:ED; cbn [empty_if_none] in *.
  - set (k1 := fill D kw). assert (N1 : NoDup (keys k1)) by (unfold k1; rewrite keys_fill; exact NK).
    assert (H1 : forall k, has k k1 = has k kw).
    { intros k. unfold has, k1. rewrite dget_fill. destruct (dget k kw); reflexivity. }
    set (k2 := if get_all then add_missing D k1 else k1).
    set (ks := if get_all then (keys kw ++ filter (fun k => negb (has k kw)) (keys D))%list else keys kw).
    assert (K2 : keys k2 = ks).
    { unfold k2, ks. destruct get_all; [|unfold k1; apply keys_fill]. rewrite (proj1 (missing_spec D k1 ND)). unfold k1 at 1. rewrite keys_fill.
      f_equal. apply filter_ext. intros k. rewrite H1. reflexivity. }
    assert (V2 : forall k, dget k k2 = match dget k kw with
                        | Some PNone => match dget k D with Some d => Some d | None => Some PNone end
                        | Some v => Some v | None => if get_all then dget k D else None end).
    { intros k. assert (V1 : dget k k1 = match dget k kw with Some v => Some (filled D k v) | None => None end) by apply dget_fill.
      unfold k2. destruct get_all; [rewrite (proj2 (missing_spec D k1 ND)), V1|rewrite V1];
        (destruct (dget k kw) as [[]|]; unfold filled; cbn [is_none]; try reflexivity; destruct (dget k D); reflexivity). }
    assert (N2 : NoDup (keys k2)).
    { rewrite K2. unfold ks. destruct get_all; [|exact NK]. clear - NK ND. induction (keys D) as [|a l IH]; cbn [filter]; [rewrite app_nil_r; exact NK|].
      inversion ND as [|? ? A B]. subst. destruct (negb (has a kw)) eqn:E; [|apply IH, B].
      apply NoDup_Add with (a := a) (l := (keys kw ++ filter (fun k => negb (has k kw)) l)%list); [apply Add_app|]. split; [apply IH, B|].
      rewrite in_app_iff, filter_In. intros [H|(H & _)]; [|contradiction]. apply has_in in H. rewrite H in E. discriminate. }
    destruct default_order.
    + destruct (reorder_spec D k2 ND N2) as (R1 & R2). split; [|split].
      * rewrite R1. assert (Hd : forall l m : list string, NoDup l -> NoDup m -> (forall x, In x l -> ~ In x m) -> NoDup (l ++ m)%list).
        { clear. induction l as [|a l IH]; intros m A B C; [exact B|]. inversion A. subst. cbn. constructor.
          - rewrite in_app_iff. intros [H|H]; [contradiction|]. apply (C a); [left; reflexivity|exact H].
          - apply IH; try assumption. intros x Hx. apply C. right. exact Hx. }
        apply Hd; try (apply NoDup_filter; assumption). intros x Hx. rewrite filter_In in *. destruct Hx as (Hx & _). intros (_ & H).
        apply has_in in Hx. rewrite Hx in H. discriminate.
      * intros k. rewrite R2. apply V2.
      * rewrite R1, K2. f_equal. apply filter_ext_in. intros k Hk.
        destruct (in_dec string_dec k ks) as [H|H]; rewrite <- K2 in H.
        -- apply has_in in H. exact H.
        -- destruct (has k k2) eqn:E; [|reflexivity]. apply has_in in E. contradiction.
    + split; [exact N2|]. split; [exact V2|exact K2].
  - split; [exact NK|]. split.
    + intros k. cbn [dget]. destruct (dget k kw) as [[]|]; try reflexivity. destruct get_all; reflexivity.
    + cbn [keys map filter app]. assert (forall l : list string, filter (fun k => negb (has k ([] : dict pyv))) l = l) as E.
      { induction l as [|a l IH]; [reflexivity|]. cbn [filter]. change (negb (has a ([] : dict pyv))) with true. cbn iota. rewrite IH. reflexivity. }
      destruct get_all, default_order; rewrite ?app_nil_r, ?E; reflexivity.
Qed.
End G.
