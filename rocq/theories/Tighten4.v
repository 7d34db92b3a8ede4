(** What [make_signals] hands to the generating methods, and which names it takes. *)
From Coq Require Import Ascii String Reals Lra Bool.
From Verif Require Import Py Squeeze SqueezeProofs Config ConfigProofs IniProofs MakeSignals MakeSignalsThms MakeSignalsThms2 TitleThms.
Local Open Scope R_scope.
Local Open Scope string_scope.

Lemma dpop_none k (d : dict pyv) : NoDup (keys d) -> dget k (dpop k d) = None.
Proof.
  induction d as [|[k' v] d IH]; intros H; [reflexivity|]. inversion H as [|? ? Hi Hr]; subst. cbn [dpop]. destruct (String.eqb_spec k k') as [->|Hk].
  - apply dget_none. exact Hi.
  - cbn [dget]. destruct (String.eqb_spec k k'); [contradiction|]. apply IH, Hr.
Qed.
Lemma dget_app k (a t : dict pyv) : dget k (app a t) = match dget k a with Some v => Some v | None => dget k t end.
Proof. induction a as [|[k' v] a IH]; [reflexivity|]. cbn. destruct (String.eqb k k'); [reflexivity|exact IH]. Qed.
Lemma fold_times k (l acc : dict pyv) : NoDup (keys l) ->
  dget k (fold_left (fun d '(k, v) => if time_key k then dset k v d else d) l acc) =
  if time_key k then match dget k l with Some v => Some v | None => dget k acc end else dget k acc.
Proof.
  revert acc. induction l as [|[k' v] l IH]; intros acc H; cbn [fold_left]; [cbn; destruct (time_key k); reflexivity|].
  inversion H as [|? ? Hi Hr]; subst. rewrite IH by exact Hr. cbn [dget]. destruct (String.eqb_spec k k') as [->|Hk].
  - apply dget_none in Hi. rewrite Hi. destruct (time_key k'); [rewrite ConfigProofs.dget_dset, String.eqb_refl|]; reflexivity.
  - destruct (time_key k'); [rewrite ConfigProofs.dget_dset; destruct (String.eqb_spec k k'); [contradiction|]|]; reflexivity.
Qed.

Theorem arguments g gen s N name f a st xc x t f' st' : NoDup (keys f) -> NoDup (keys a) ->
  make_one g gen s N (name, f, a) st = Ok (xc, x, t, f', st') ->
  exists fname aname fn afn kf kw x0 am tm, split_name name = Ok (fname, aname) /\
    find_method gen (lstrip (is_c "#") (under fname)) = Ok fn /\ find_method gen (under aname) = Ok afn /\
    fn N kf = Ok (x0, t) /\ afn (Some (Z.of_nat (length x0))) kw = Ok (am, tm) /\ length xc = length x0 /\
    (forall k, dget k kf = if String.eqb k "snr" then None else dget k f) /\
    (forall k, dget k kw = match dget k a with Some v => Some v | None => if existsb (String.eqb k) ["tmin"; "tmax"; "endpoint"] then dget k f else None end).
Proof.
  intros Nf Na E. pose proof (fun k H1 H2 => modulator_times g gen s N name f a st _ k H1 H2 E) as Ht.
  destruct (make_one_spec _ _ _ _ _ _ _ _ _ _ _ _ _ E) as (fname & aname & fn & afn & x0 & am & kw & tm & E1 & E2 & E3 & E4 & E5 & E6 & _ & E7 & _).
  exists fname, aname, fn, afn, (dpop "snr" f), kw, x0, am, tm. do 6 (split; [assumption|]). split.
  - intros k. destruct (String.eqb_spec k "snr") as [->|Hk]; [apply dpop_none, Nf|apply dget_dpop, Hk].
  - intros k. unfold join in E5. destruct (existsb _ _); [discriminate|]. injection E5 as <-. rewrite dget_app. destruct (dget k a) as [v|] eqn:Ea; [reflexivity|].
    unfold time_keys. rewrite fold_left_app, fold_times, fold_times, Ea by assumption. cbn [dget].
    assert (Ek : time_key k = existsb (String.eqb k) ["tmin"; "tmax"; "endpoint"]) by (unfold time_key; cbn [existsb]; rewrite orb_false_r, orb_assoc; reflexivity).
    rewrite <- Ek. destruct (time_key k); [|reflexivity]. destruct (dget k f); reflexivity.
Qed.

(** ** names *)
Definition known (s : mself) (n : string) : Prop := n = "" \/ In n (m_supported s).
Lemma known_iff s n : String.eqb n "" || existsb (String.eqb n) (m_supported s) = true <-> known s n.
Proof.
  unfold known. rewrite orb_true_iff, String.eqb_eq, existsb_exists. split; intros [H|H]; auto.
  - destruct H as (u & I & Eu). apply String.eqb_eq in Eu. subst u. auto.
  - right. exists n. split; [exact H|apply String.eqb_refl].
Qed.
Lemma split_plain n : lacks ":" n = true -> split_name n = Ok (n, "").
Proof. intros H. unfold split_name. rewrite split_none by exact H. reflexivity. Qed.
Lemma split_pair f a : lacks ":" f = true -> lacks ":" a = true -> split_name (f ++ String ":" a) = Ok (f, a).
Proof. intros H1 H2. unfold split_name. rewrite split_sep, split_none by assumption. reflexivity. Qed.
Lemma check_name s n f a : split_name n = Ok (f, a) -> check_request s (RName n) = Ok tt <-> known s (lstrip (is_c "#") f) /\ known s a.
Proof.
  intros E. unfold check_request. rewrite E. cbn [bind]. rewrite <- !known_iff. cbn [forallb]. rewrite andb_true_r.
  destruct (_ || _); destruct (_ || _); cbn [andb]; split; try tauto; try discriminate; intros [? ?]; discriminate.
Qed.
Lemma check_all s rs u : map_res (check_request s) rs = Ok u -> forall r, In r rs -> check_request s r = Ok tt.
Proof.
  revert u. induction rs as [|r0 rs IH]; intros u E r [ ]; cbn [map_res] in E; destruct (check_request s r0) as [[]|] eqn:E0; try discriminate; cbn [bind] in E.
  - subst r0. exact E0.
  - destruct (map_res (check_request s) rs) as [v|] eqn:E1; [|discriminate]. apply (IH v eq_refl), H.
Qed.
(** every bare name a successful call was given is one of the supported, both halves *)
Theorem names_known g gen s rs N st out n : make_signals g gen s rs N st = Ok out -> In (RName n) rs ->
  (lacks ":" n = true -> known s (lstrip (is_c "#") n)) /\
  forall f a, n = f ++ String ":" a -> lacks ":" f = true -> lacks ":" a = true -> known s (lstrip (is_c "#") f) /\ known s a.
Proof.
  intros E I. unfold make_signals, process_input in E. destruct (map_res (check_request s) rs) as [u|] eqn:E1; [|discriminate].
  pose proof (check_all _ _ _ E1 _ I) as C. split.
  - intros L. apply (check_name s n n "" (split_plain n L)) in C. apply C.
  - intros f a -> L1 L2. apply (check_name s _ f a (split_pair f a L1 L2)) in C. exact C.
Qed.
Theorem names_unknown g gen s N st f a : lacks ":" f = true -> lacks ":" a = true ->
  (~ known s (lstrip (is_c "#") f) -> make_signals g gen s [RName f] N st = Err ValueError) /\
  (~ known s (lstrip (is_c "#") f) \/ ~ known s a -> make_signals g gen s [RName (f ++ String ":" a)] N st = Err ValueError).
Proof.
  intros L1 L2. assert (K : forall n f a, split_name n = Ok (f, a) -> ~ (known s (lstrip (is_c "#") f) /\ known s a) -> make_signals g gen s [RName n] N st = Err ValueError).
  { intros n f' a' E H. unfold make_signals, process_input. cbn [map_res]. rewrite <- (check_name s n f' a' E) in H.
    assert (X : check_request s (RName n) = Err ValueError); [|rewrite X; reflexivity].
    unfold check_request in *. rewrite E in *. cbn [bind] in *. destruct (forallb _ _); [destruct (H eq_refl)|reflexivity]. }
  split.
  - intros H. apply (K f f "" (split_plain f L1)). tauto.
  - intros H. apply (K _ f a (split_pair f a L1 L2)). tauto.
Qed.

(** a modulator that wants the carrier's [tmin]; neither method takes [snr] *)
Definition strict_gen (n : string) : option method :=
  if String.eqb n "cosine" then Some (fun _ kw => if has "snr" kw then Err TypeError else Ok ([1; 2], None))
  else if String.eqb n "am_gauss" then Some (fun _ kw => if has "tmin" kw && negb (has "snr" kw) then Ok ([3; 5], None) else Err TypeError)
  else None.
Lemma arguments_case g st : exists x t, make_one g strict_gen (init None None [] []) None ("cosine:am-gauss", [("snr", PNone); ("tmin", PFloat 0)], []) st = Ok (x, x, t, [("tmin", PFloat 0)], st) /\ x = [1 * 3; 2 * 5] /\
  make_signals g strict_gen (init None None [] ["cosine"]) [RName "cosine:am-gauss"] None st = Err ValueError.
Proof. do 2 eexists. split; [reflexivity|]. split; reflexivity. Qed.
