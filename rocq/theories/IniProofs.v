(** What [_get_gdefaults] reads from a written configuration. *)
From Coq Require Import Ascii String Reals.
From Verif Require Import Py Config ConfigProofs.
Local Open Scope string_scope.

Fixpoint lacks (c : ascii) (s : string) : bool :=
  match s with EmptyString => true | String a s' => negb (Ascii.eqb a c) && lacks c s' end.
Fixpoint sp (n : nat) : string := match n with O => "" | S n' => String SP (sp n') end.

Lemma app_assoc_s a b c : (a ++ b) ++ c = a ++ b ++ c.
Proof. induction a as [|x a IH]; cbn; [reflexivity|]. rewrite IH. reflexivity. Qed.
Lemma app_nil_s a : a ++ "" = a.
Proof. induction a as [|x a IH]; cbn; [reflexivity|]. rewrite IH. reflexivity. Qed.
Lemma lacks_app c a b : lacks c (a ++ b) = lacks c a && lacks c b.
Proof. induction a as [|x a IH]; cbn; [reflexivity|]. rewrite IH. apply Bool.andb_assoc. Qed.
Lemma lacks_sp c n : c <> SP -> lacks c (sp n) = true.
Proof. intros H. induction n as [|n IH]; [reflexivity|]. cbn [sp lacks]. rewrite IH. destruct (Ascii.eqb_spec SP c); [congruence|reflexivity]. Qed.

(** splitting *)
Lemma split_none c a : lacks c a = true -> split_on c a = [a].
Proof.
  induction a as [|x a IH]; cbn; intros H; [reflexivity|]. apply andb_true_iff in H. destruct H as (H1 & H2).
  destruct (Ascii.eqb x c); [discriminate|]. rewrite IH by exact H2. reflexivity.
Qed.
Lemma split_sep c a b : lacks c a = true -> split_on c (a ++ String c b) = a :: split_on c b.
Proof.
  induction a as [|x a IH]; cbn; intros H; [rewrite Ascii.eqb_refl; reflexivity|]. apply andb_true_iff in H. destruct H as (H1 & H2).
  destruct (Ascii.eqb x c); [discriminate|]. rewrite IH by exact H2. reflexivity.
Qed.
Lemma split_join lines x rest : Forall (fun l => lacks NL l = true) lines -> lacks NL x = true ->
  exists rest', split_on NL (join_nl (lines ++ x :: rest)) = (lines ++ x :: rest')%list.
Proof.
  intros HL Hx. unfold join_nl. induction lines as [|l lines IH].
  - cbn [app]. destruct rest as [|y rest]; cbn [String.concat]; [exists []; apply split_none, Hx|].
    change (?a ++ String NL "" ++ ?b) with (a ++ String NL b). rewrite split_sep by exact Hx. eexists. reflexivity.
  - inversion HL as [|? ? A B]. subst. destruct (IH B) as (r & E). exists r. cbn [app]. rewrite <- E. clear E IH.
    assert (G : forall z zs, String.concat (String NL "") (l :: z :: zs) = l ++ String NL (String.concat (String NL "") (z :: zs))).
    { intros z zs. reflexivity. }
    destruct lines as [|z zs]; cbn [app]; rewrite G, split_sep by exact A; reflexivity.
Qed.
Lemma upto_found x lines rest : Forall (fun l => l <> x) lines -> upto x (lines ++ x :: rest) = Ok lines.
Proof.
  induction lines as [|l lines IH]; intros H; cbn; [rewrite String.eqb_refl; reflexivity|]. inversion H. subst.
  destruct (String.eqb_spec l x); [contradiction|]. rewrite IH by assumption. reflexivity.
Qed.

(** stripping spaces *)
Notation lst := (lstrip (is_c SP)).
Notation rst := (rstrip (is_c SP)).
Lemma lst_sp n s : lst (sp n ++ s) = lst s.
Proof. induction n as [|n IH]; [reflexivity|]. exact IH. Qed.
Lemma lst_head p a s : p a = false -> lstrip p (String a s) = String a s.
Proof. intros H. cbn. rewrite H. reflexivity. Qed.
Lemma rst_sp_nil n : rst (sp n) = "".
Proof. induction n as [|n IH]; [reflexivity|]. cbn [sp rstrip]. rewrite IH. reflexivity. Qed.
Lemma rst_sp s n : rst (s ++ sp n) = rst s.
Proof. induction s as [|a s IH]; cbn [append]; [apply rst_sp_nil|]. cbn [rstrip]. rewrite IH. reflexivity. Qed.
Lemma rst_idem p s : rstrip p (rstrip p s) = rstrip p s.
Proof.
  induction s as [|a s IH]; [reflexivity|]. cbn [rstrip]. destruct (rstrip p s) as [|b r] eqn:E.
  - destruct (p a) eqn:Ea; [reflexivity|]. cbn. rewrite Ea. reflexivity.
  - cbn [rstrip] in *. rewrite IH. reflexivity.
Qed.
Lemma lst_idem p s : lstrip p (lstrip p s) = lstrip p s.
Proof. induction s as [|a s IH]; [reflexivity|]. cbn. destruct (p a) eqn:E; [exact IH|]. cbn. rewrite E. reflexivity. Qed.
Lemma strip_comm p s : rstrip p (lstrip p s) = lstrip p (rstrip p s).
Proof.
  induction s as [|a s IH]; [reflexivity|]. cbn [lstrip rstrip]. destruct (p a) eqn:E.
  - rewrite IH. destruct (rstrip p s) as [|b r]; [reflexivity|]. cbn [lstrip]. rewrite E. reflexivity.
  - cbn [rstrip]. rewrite E. destruct (rstrip p s) as [|b r]; cbn [lstrip]; rewrite E; reflexivity.
Qed.
Lemma strip_lst p s : strip p (lstrip p s) = strip p s.
Proof. unfold strip. rewrite lst_idem. reflexivity. Qed.
Lemma strip_rst p s : strip p (rstrip p s) = strip p s.
Proof. unfold strip. rewrite <- strip_comm. apply rst_idem. Qed.
Lemma strip_pad a s b : strip (is_c SP) (sp a ++ s ++ sp b) = strip (is_c SP) s.
Proof. unfold strip. rewrite lst_sp. rewrite !strip_comm, rst_sp. reflexivity. Qed.
Lemma lst_mid p x c y : p c = false -> lstrip p (x ++ String c y) = lstrip p x ++ String c y.
Proof. intros H. induction x as [|a x IH]; cbn; [rewrite H; reflexivity|]. destruct (p a); [exact IH|reflexivity]. Qed.
Lemma rst_mid p x c y : p c = false -> rstrip p (x ++ String c y) = x ++ String c (rstrip p y).
Proof.
  intros H. induction x as [|a x IH]; cbn [append rstrip].
  - rewrite H. destruct (rstrip p y); reflexivity.
  - rewrite IH. destruct x; reflexivity.
Qed.
Lemma lacks_lst c p s : lacks c s = true -> lacks c (lstrip p s) = true.
Proof. induction s as [|a s IH]; [reflexivity|]. cbn. intros H. apply andb_true_iff in H. destruct (p a); [apply IH, H|]. cbn. apply andb_true_iff. exact H. Qed.
Lemma lacks_rst c p s : lacks c s = true -> lacks c (rstrip p s) = true.
Proof.
  induction s as [|a s IH]; [reflexivity|]. cbn. intros H. apply andb_true_iff in H. destruct H as (H1 & H2). specialize (IH H2).
  destruct (rstrip p s) as [|b r]; [destruct (p a); [reflexivity|]; cbn; rewrite H1; reflexivity|]. cbn in *. rewrite H1. exact IH.
Qed.

(** ** Written lines *)
Inductive item := IMod (m : string) | IObj (o : string) | IKey (k v : string).
(** no surrounding spaces *)
Definition tidy (s : string) : Prop := strip (is_c SP) s = s /\ lacks NL s = true.
Definition header (s : string) : Prop := rst s = s /\ s <> "" /\ lacks NL s = true.
Definition key_name (s : string) : Prop :=
  tidy s /\ lacks EQ s = true /\ exists a s', s = String a s' /\ a <> SP /\ a <> "#"%char.
Inductive written : item -> string -> Prop :=
| w_mod m a b : header m -> written (IMod m) (sp a ++ ("## " ++ m) ++ sp b)
| w_obj o a b : header o -> written (IObj o) (sp a ++ ("# " ++ o) ++ sp b)
| w_key k v a b c d : key_name k -> tidy v -> lacks EQ v = true ->
    written (IKey k v) (sp a ++ (k ++ sp b ++ String EQ (sp c ++ v)) ++ sp d).
(** blank lines anywhere *)
Inductive lays : list item -> list string -> Prop :=
| l_nil : lays [] []
| l_blank is ls : lays is ls -> lays is ("" :: ls)
| l_item i l is ls : written i l -> lays is ls -> lays (i :: is) (l :: ls).

Lemma tidy_parts s : strip (is_c SP) s = s -> lst s = s /\ rst s = s.
Proof.
  unfold strip. intros H. split.
  - rewrite <- H at 1. rewrite strip_comm, lst_idem, <- strip_comm. exact H.
  - rewrite <- H at 1. rewrite rst_idem. exact H.
Qed.
Lemma rst_app_tail x s : rst s = s -> s <> "" -> rst (x ++ s) = x ++ s.
Proof.
  intros H N. induction x as [|a x IH]; [exact H|]. cbn [append rstrip]. rewrite IH. destruct (x ++ s) eqn:E; [|reflexivity].
  destruct x; [cbn in E; contradiction|discriminate].
Qed.
Lemma strip_mod m a b : header m -> strip (is_c SP) (sp a ++ ("## " ++ m) ++ sp b) = "## " ++ m.
Proof. intros (H & N & _). rewrite strip_pad. unfold strip. change (lst ("## " ++ m)) with ("## " ++ m). apply (rst_app_tail "## "); assumption. Qed.
Lemma strip_obj m a b : header m -> strip (is_c SP) (sp a ++ ("# " ++ m) ++ sp b) = "# " ++ m.
Proof. intros (H & N & _). rewrite strip_pad. unfold strip. change (lst ("# " ++ m)) with ("# " ++ m). apply (rst_app_tail "# "); assumption. Qed.
Lemma strip_key k v a b c d : key_name k -> strip (is_c SP) (sp a ++ (k ++ sp b ++ String EQ (sp c ++ v)) ++ sp d) =
  (k ++ sp b) ++ String EQ (rst (sp c ++ v)).
Proof.
  intros (_ & _ & x & s' & -> & N & _). rewrite strip_pad. unfold strip. cbn [append]. rewrite lst_head by (unfold is_c; destruct (Ascii.eqb_spec x SP); [contradiction|reflexivity]).
  change (String x (s' ++ sp b ++ String EQ (sp c ++ v))) with (String x s' ++ sp b ++ String EQ (sp c ++ v)).
  rewrite <- app_assoc_s, rst_mid by reflexivity. reflexivity.
Qed.

Section Read.
Variable pyfloat : string -> option R.
Definition parse_item (st : config * string * string) (i : item) : res (config * string * string) :=
  let '(G, module, obj) := st in
  match i with
  | IMod m => Ok (dset m [] G, m, obj)
  | IObj o => match dget module G with None => Err KeyError | Some M => Ok (dset module (dset o [] M) G, module, o) end
  | IKey k v => match dget module G with
                | None => Err KeyError
                | Some M => match dget obj M with
                            | None => Err KeyError
                            | Some D => Ok (dset module (dset obj (dset k (process_value pyfloat v) D) M) G, module, obj)
                            end
                end
  end.
Lemma line_item i l st : written i l -> parse_line pyfloat st (strip (is_c SP) l) = parse_item st i.
Proof.
  destruct st as [[G module] obj]. intros H. destruct H as [m a b H|o a b H|k v a b c d H Hv HE].
  - rewrite strip_mod by exact H. reflexivity.
  - rewrite strip_obj by exact H. reflexivity.
  - rewrite strip_key by exact H. destruct H as ((Hk & _) & Lk & x & s' & -> & N1 & N2). unfold parse_line.
    assert (A1 : forall p, after (String "#"%char p) ((String x s' ++ sp b) ++ String EQ (rst (sp c ++ v))) = None).
    { intros p. cbn [append after]. destruct (Ascii.eqb_spec "#"%char x); [congruence|reflexivity]. }
    rewrite !A1. rewrite split_sep by (rewrite lacks_app, Lk; apply lacks_sp; discriminate).
    rewrite split_none by (apply lacks_rst; rewrite lacks_app, HE, lacks_sp by discriminate; reflexivity).
    cbn [map]. rewrite strip_rst.
    replace (sp c ++ v) with (sp c ++ v ++ sp 0) by (cbn [sp]; rewrite app_nil_s; reflexivity). rewrite strip_pad.
    change (String x s' ++ sp b) with (sp 0 ++ String x s' ++ sp b). rewrite strip_pad. rewrite Hk. destruct Hv as (Hv & _). rewrite Hv. reflexivity.
Qed.
Fixpoint parse_items st (l : list item) : res (config * string * string) :=
  match l with [] => Ok st | i :: l' => do st' <- parse_item st i ; parse_items st' l' end.
Lemma lays_lacks is ls : lays is ls -> Forall (fun l => lacks NL l = true) ls /\ Forall (fun l => l <> "#### END") ls.
Proof.
  induction 1 as [|is ls _ (A & B)|i l is ls W _ (A & B)]; [split; constructor|split; constructor; auto; discriminate|].
  split; constructor; auto.
  - destruct W as [m a b (_ & _ & H)|o a b (_ & _ & H)|k v a b c d ((_ & Hk) & _) (_ & Hv) _]; rewrite !lacks_app, ?H, !lacks_sp by discriminate;
      cbn [lacks]; [reflexivity|reflexivity|]. rewrite Hk, lacks_app, Hv, lacks_sp by discriminate. reflexivity.
  - intros E. apply (f_equal (strip (is_c SP))) in E. destruct W as [m a b H|o a b H|k v a b c d H Hv HE].
    + rewrite strip_mod in E by exact H. discriminate.
    + rewrite strip_obj in E by exact H. discriminate.
    + rewrite strip_key in E by exact H. destruct H as (_ & _ & x & s' & -> & _ & N). cbn in E. congruence.
Qed.
Lemma written_nonempty i l : written i l -> l <> "".
Proof. intros W ->. pose proof (line_item i "" ([], "", "") W) as H. destruct i; cbn in H; discriminate. Qed.
Lemma lays_parse is ls : lays is ls -> forall st,
  parse_lines pyfloat st (map (strip (is_c SP)) (filter (fun l => negb (String.eqb l "")) ls)) = parse_items st is.
Proof.
  induction 1 as [|is ls _ IH|i l is ls W _ IH]; intros st; [reflexivity|exact (IH st)|].
  cbn [filter]. destruct (String.eqb_spec l "") as [E|_]; [apply written_nonempty in W; contradiction|]. cbn [negb map parse_lines parse_items].
  rewrite (line_item i l st W). destruct (parse_item st i); [apply IH|reflexivity].
Qed.

(** ** A structured configuration *)
Definition raw_config := list (string * list (string * list (string * string))).
Definition items_of (c : raw_config) : list item :=
  flat_map (fun '(m, os) => IMod m :: flat_map (fun '(o, kvs) => IObj o :: map (fun '(k, v) => IKey k v) kvs) os) c.
Definition read_kvs (kvs : list (string * string)) : dict pyv := map (fun '(k, v) => (k, process_value pyfloat v)) kvs.
Definition read_objs (os : list (string * list (string * string))) : dict (dict pyv) := map (fun '(o, kvs) => (o, read_kvs kvs)) os.
Definition read_config (c : raw_config) : config := map (fun '(m, os) => (m, read_objs os)) c.
Definition distinct (c : raw_config) : Prop :=
  NoDup (map fst c) /\ Forall (fun '(_, os) => NoDup (map fst os) /\ Forall (fun '(_, kvs) => NoDup (map fst kvs)) os) c.

Lemma parse_app st l1 l2 : parse_items st (l1 ++ l2) = do st' <- parse_items st l1 ; parse_items st' l2.
Proof. revert st. induction l1 as [|i l1 IH]; intros st; cbn; [reflexivity|]. destruct (parse_item st i); [apply IH|reflexivity]. Qed.
Lemma parse_kvs G m M o kvs : ~ In m (keys G) -> ~ In o (keys M) -> NoDup (map fst kvs) -> forall D,
  (forall k, In k (map fst kvs) -> ~ In k (keys D)) ->
  parse_items ((G ++ [(m, (M ++ [(o, D)])%list)])%list, m, o) (map (fun '(k, v) => IKey k v) kvs) =
  Ok ((G ++ [(m, (M ++ [(o, (D ++ read_kvs kvs)%list)])%list)])%list, m, o).
Proof.
  intros HG HM. induction kvs as [|[k v] kvs IH]; intros N D HD; cbn [map parse_items read_kvs].
  - rewrite app_nil_r. reflexivity.
  - inversion N as [|? ? N1 N2]. subst. unfold parse_item. rewrite dget_last by exact HG. cbn iota beta. rewrite (dget_last _ o) by exact HM. cbn [bind].
    rewrite (dset_notin _ k) by (apply HD; left; reflexivity). rewrite (dset_last _ o) by exact HM. rewrite (dset_last _ m) by exact HG.
    rewrite IH; [|exact N2|].
    + rewrite <- app_assoc. reflexivity.
    + intros k' Hk'. unfold keys. rewrite map_app, in_app_iff. cbn. intros [H|[<-|[]]]; [|contradiction]. apply (HD k'); [right; exact Hk'|exact H].
Qed.
Lemma parse_objs G m os : ~ In m (keys G) -> NoDup (map fst os) -> Forall (fun '(_, kvs) => NoDup (map fst kvs)) os -> forall M ob,
  (forall o, In o (map fst os) -> ~ In o (keys M)) ->
  exists ob', parse_items ((G ++ [(m, M)])%list, m, ob) (flat_map (fun '(o, kvs) => IObj o :: map (fun '(k, v) => IKey k v) kvs) os) =
  Ok ((G ++ [(m, (M ++ read_objs os)%list)])%list, m, ob').
Proof.
  intros HG. induction os as [|[o kvs] os IH]; intros N HF M ob HM; cbn [flat_map read_objs map].
  - exists ob. rewrite app_nil_r. reflexivity.
  - inversion N as [|? ? N1 N2]. inversion HF as [|? ? F1 F2]. subst. rewrite parse_app. cbn [parse_items parse_item]. rewrite dget_last by exact HG.
    cbn [bind]. assert (Ho : ~ In o (keys M)) by (apply HM; left; reflexivity). rewrite (dset_notin _ o) by exact Ho. rewrite dset_last by exact HG.
    rewrite parse_kvs; [|exact HG|exact Ho|exact F1|intros k _ []]. cbn [bind app].
    destruct (IH N2 F2 (M ++ [(o, read_kvs kvs)])%list o) as (ob' & E).
    + intros o' Ho'. unfold keys. rewrite map_app, in_app_iff. cbn. intros [H|[<-|[]]]; [|contradiction]. apply (HM o'); [right; exact Ho'|exact H].
    + exists ob'. etransitivity; [exact E|]. rewrite <- app_assoc. reflexivity.
Qed.
Lemma parse_config c : distinct c -> forall G mo ob, (forall m, In m (map fst c) -> ~ In m (keys G)) ->
  exists mo' ob', parse_items (G, mo, ob) (items_of c) = Ok ((G ++ read_config c)%list, mo', ob').
Proof.
  induction c as [|[m os] c IH]; intros (N & HF) G mo ob HG; cbn [items_of flat_map read_config map].
  - exists mo, ob. rewrite app_nil_r. reflexivity.
  - inversion N as [|? ? N1 N2]. inversion HF as [|? ? F0 F2]. subst. destruct F0 as (F1 & F1'). assert (Hm : ~ In m (keys G)) by (apply HG; left; reflexivity).
    rewrite parse_app. cbn [parse_items parse_item bind]. rewrite (dset_notin _ m) by exact Hm.
    destruct (parse_objs G m os Hm F1 F1' [] ob) as (ob1 & E); [intros o _ []|].
    match type of E with _ = ?b => match goal with |- context [bind ?x _] => replace x with b by (symmetry; exact E) end end. cbn [bind app].
    destruct (IH (conj N2 F2) (G ++ [(m, read_objs os)])%list m ob1) as (mo' & ob' & E').
    + intros m' Hm'. unfold keys. rewrite map_app, in_app_iff. cbn. intros [H|[<-|[]]]; [|contradiction]. apply (HG m'); [right; exact Hm'|exact H].
    + exists mo', ob'. etransitivity; [exact E'|]. rewrite <- app_assoc. reflexivity.
Qed.
Theorem read_written c lines rest : distinct c -> lays (items_of c) lines ->
  get_gdefaults pyfloat (join_nl (lines ++ "#### END" :: rest)) = Ok (read_config c).
Proof.
  intros HD HL. destruct (lays_lacks _ _ HL) as (A & B). unfold get_gdefaults, clean_lines.
  destruct (split_join lines "#### END" rest A eq_refl) as (r & E). rewrite E. rewrite upto_found by exact B. cbn [bind].
  rewrite (lays_parse _ _ HL). destruct (parse_config c HD [] "" "") as (mo & ob & E'); [intros m _ []|].
  match type of E' with _ = ?b => match goal with |- context [bind ?x _] => replace x with b by (symmetry; exact E') end end. reflexivity.
Qed.
End Read.
