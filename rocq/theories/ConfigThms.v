(** [gdefaults] and [IS_PARALLEL] on a written configuration. *)
From Coq Require Import Ascii String Reals Lra.
From Verif Require Import Py Config ConfigProofs IniProofs.
Local Open Scope string_scope.

(** ** ["module.fn"] *)
Lemma split_nonempty c s : split_on c s <> [].
Proof. destruct s as [|a s]; cbn; [discriminate|]. destruct (Ascii.eqb a c); [discriminate|]. destruct (split_on c s); discriminate. Qed.
Lemma split_app c a b : split_on c (a ++ String c b) = (split_on c a ++ split_on c b)%list.
Proof.
  induction a as [|x a IH]; cbn; [rewrite Ascii.eqb_refl; reflexivity|]. rewrite IH. destruct (Ascii.eqb x c); [reflexivity|].
  pose proof (split_nonempty c a). destruct (split_on c a); [contradiction|]. reflexivity.
Qed.
Lemma concat_split c a : String.concat (String c "") (split_on c a) = a.
Proof.
  induction a as [|x a IH]; [reflexivity|]. cbn [split_on]. pose proof (split_nonempty c a) as N. destruct (Ascii.eqb_spec x c) as [->|].
  - destruct (split_on c a) as [|h t]; [contradiction|]. change (String.concat (String c "") ("" :: h :: t)) with (String c (String.concat (String c "") (h :: t))).
    rewrite IH. reflexivity.
  - destruct (split_on c a) as [|h [|h' t]]; [contradiction| |].
    + cbn in *. congruence.
    + change (String.concat (String c "") (String x h :: h' :: t)) with (String x (String.concat (String c "") (h :: h' :: t))). rewrite IH. reflexivity.
Qed.
Lemma split_name_spec module fn : lacks "."%char fn = true -> split_name (module ++ "." ++ fn) = (module, fn).
Proof.
  intros H. unfold split_name. change (module ++ "." ++ fn) with (module ++ String "."%char fn). rewrite split_app, (split_none _ fn) by exact H.
  rewrite removelast_last, last_last. rewrite (concat_split "."%char module). reflexivity.
Qed.

(** ** Lookup in the written configuration *)
(** the [key=value] lines under [## module], [# fn] *)
Definition entries (c : raw_config) (module fn : string) : list (string * string) :=
  match dget module c with
  | Some os => match dget fn os with Some kvs => kvs | None => [] end
  | None => []
  end.
Lemma dget_map A B (f : A -> B) k (d : dict A) : dget k (map (fun '(a, v) => (a, f v)) d) = match dget k d with Some v => Some (f v) | None => None end.
Proof. induction d as [|[a v] d IH]; cbn; [reflexivity|]. destruct (String.eqb k a); [reflexivity|exact IH]. Qed.
Lemma dget_In A k v (d : dict A) : dget k d = Some v -> In (k, v) d.
Proof. induction d as [|[a w] d IH]; cbn; [discriminate|]. destruct (String.eqb_spec k a) as [->|]; [intros [= ->]; left; reflexivity|]. intros H. right. apply IH, H. Qed.
Section T.
Variable pyfloat : string -> option R.
Notation value := (process_value pyfloat).
Lemma defaults_read c module fn : empty_if_none (defaults_of (read_config pyfloat c) module fn) = read_kvs pyfloat (entries c module fn).
Proof.
  unfold defaults_of, read_config, entries. rewrite (dget_map _ _ (read_objs pyfloat)). destruct (dget module c) as [os|]; [|reflexivity].
  unfold read_objs. rewrite (dget_map _ _ (read_kvs pyfloat)). destruct (dget fn os); reflexivity.
Qed.
Lemma entries_nodup c module fn : distinct c -> NoDup (keys (read_kvs pyfloat (entries c module fn))).
Proof.
  intros (_ & H). unfold keys, read_kvs. rewrite map_map. rewrite (map_ext _ fst) by (intros [k v]; reflexivity). unfold entries.
  destruct (dget module c) as [os|] eqn:E1; [|constructor]. destruct (dget fn os) as [kvs|] eqn:E2; [|constructor].
  apply dget_In in E1, E2. rewrite Forall_forall in H. specialize (H _ E1). destruct H as (_ & H). rewrite Forall_forall in H. exact (H _ E2).
Qed.
Lemma dget_kvs k kvs : dget k (read_kvs pyfloat kvs) = match dget k kvs with Some s => Some (value s) | None => None end.
Proof. apply (dget_map _ _ value). Qed.
Lemma has_kvs k kvs : has k (read_kvs pyfloat kvs) = has k kvs.
Proof. unfold has. rewrite dget_kvs. destruct (dget k kvs); reflexivity. Qed.
Lemma keys_kvs kvs : keys (read_kvs pyfloat kvs) = keys kvs.
Proof. unfold keys, read_kvs. rewrite map_map. apply map_ext. intros [k v]. reflexivity. Qed.

Theorem gdefaults_spec c lines rest caller module fn (get_all : bool) as_dict (default_order : bool) kw :
  distinct c -> lays (items_of c) lines -> lacks "."%char fn = true -> NoDup (keys kw) ->
  exists d,
    gdefaults pyfloat (join_nl (lines ++ "#### END" :: rest)) caller (Some (module ++ "." ++ fn)) get_all as_dict default_order kw =
      Ok (if match as_dict with Some b => b | None => get_all end then OutDict d
          else match d with [(_, v)] => OutOne v | _ => OutValues (map snd d) end) /\
    NoDup (keys d) /\
    (forall k, dget k d = match dget k kw, dget k (entries c module fn) with
                          | Some PNone, Some s => Some (value s)
                          | Some v, _ => Some v
                          | None, Some s => if get_all then Some (value s) else None
                          | None, None => None
                          end) /\
    let listed := keys (entries c module fn) in
    let ks := if get_all then (keys kw ++ filter (fun k => negb (has k kw)) listed)%list else keys kw in
    keys d = if default_order
             then (filter (fun k => if in_dec string_dec k ks then true else false) listed
                     ++ filter (fun k => if in_dec string_dec k listed then false else true) ks)%list
             else ks.
Proof.
  intros HD HL Hf HK. unfold gdefaults. rewrite split_name_spec by exact Hf. rewrite (read_written pyfloat c lines rest HD HL). cbn [bind].
  set (d := gd_dict (read_config pyfloat c) module fn get_all default_order kw). exists d.
  pose proof (gd_spec (read_config pyfloat c) module fn get_all default_order kw HK) as S. cbv zeta in S. rewrite defaults_read in S.
  specialize (S (entries_nodup c module fn HD)). fold d in S. destruct S as (S1 & S2 & S3).
  split; [reflexivity|]. split; [exact S1|]. split.
  - intros k. rewrite S2, dget_kvs. destruct (dget k kw) as [[]|], (dget k (entries c module fn)); try reflexivity; destruct get_all; reflexivity.
  - cbv zeta. rewrite S3, keys_kvs. destruct default_order; [|reflexivity]. f_equal. apply filter_ext. intros k. rewrite has_kvs.
    destruct (in_dec string_dec k (keys (entries c module fn))) as [H|H].
    + apply has_in in H. rewrite H. reflexivity.
    + destruct (has k (entries c module fn)) eqn:E; [|reflexivity]. apply has_in in E. contradiction.
Qed.

(** ** [IS_PARALLEL] *)
Theorem is_parallel_spec c lines rest env : distinct c -> lays (items_of c) lines ->
  is_parallel pyfloat (join_nl (lines ++ "#### END" :: rest)) env =
  Ok (if match env with Some s => String.eqb s "0" | None => false end then false
      else match dget "parallel" (entries c "configs" "IS_PARALLEL") with
           | Some s => negb (eq_zero (value s))
           | None => true
           end).
Proof.
  intros HD HL. unfold is_parallel.
  assert (E : String.eqb (match env with Some s => s | None => "1" end) "0" = match env with Some s => String.eqb s "0" | None => false end)
    by (destruct env; reflexivity). rewrite E. clear E.
  set (z := match env with Some s => String.eqb s "0" | None => false end). destruct z; [reflexivity|].
  assert (N : NoDup (keys [("parallel", PNone)])) by (constructor; [intros []|constructor]).
  destruct (gdefaults_spec c lines rest ("configs.py", "IS_PARALLEL") "configs" "IS_PARALLEL" false None false [("parallel", PNone)] HD HL eq_refl N)
    as (d & Ed & _ & V & K). change "configs.IS_PARALLEL" with ("configs" ++ "." ++ "IS_PARALLEL"). rewrite Ed. cbn [bind]. cbv zeta in K. cbn in K.
  specialize (V "parallel"). cbn [dget] in V. rewrite String.eqb_refl in V. destruct d as [|[a v] [|]]; try discriminate. injection K as ->. cbn [dget] in V.
  rewrite String.eqb_refl in V. destruct (dget "parallel" (entries c "configs" "IS_PARALLEL")) as [s|]; injection V as ->; reflexivity.
Qed.
End T.

(** ** The pinned configs.ini *)
Definition pinned_config : raw_config :=
  [("configs", [("IS_PARALLEL", [("parallel", "1")])]);
   ("wavelets", [("morlet", [("mu", "13.4"); ("dtype", "float32")]);
                 ("bump", [("mu", "5"); ("s", "1"); ("om", "0"); ("dtype", "float32")]);
                 ("cmhat", [("mu", "1"); ("s", "1"); ("dtype", "float32")]);
                 ("hhhat", [("mu", "5"); ("dtype", "float32")])]);
   ("_gmw", [("gmw", [("gamma", "3"); ("beta", "60"); ("norm", "bandpass"); ("order", "0"); ("centered_scale", "False"); ("dtype", "float32")])]);
   ("_stft", [("stft", [("dtype", "float32")])]);
   ("utils.cwt_utils", [("make_scales", [("downsample", "4")])]);
   ("visuals", [("_maybe_title", [("fontsize", "16"); ("weight", "bold"); ("loc", "left")])])].
Ltac nodup := repeat (constructor; [cbn; repeat (match goal with |- ~ (_ \/ _) => intros [?|?] | |- ~ False => intros [] | H : _ \/ _ |- False => destruct H | H : False |- _ => destruct H end; try discriminate)|]); try constructor.
Lemma pinned_distinct : distinct pinned_config.
Proof. unfold distinct, pinned_config. split; [cbn; nodup|]. repeat (constructor; [split; [cbn; nodup|repeat (constructor; [cbn; nodup|]); constructor]|]). constructor. Qed.
Ltac wl :=
  match goal with
  | |- written (IMod ?m) _ => apply (w_mod m 0 0); repeat split; discriminate
  | |- written (IObj ?m) _ => apply (w_obj m 0 0); repeat split; discriminate
  | |- written (IKey ?k ?v) _ => apply (w_key k v 0 0 0 0); [repeat split; do 2 eexists; split; [reflexivity|split; discriminate]|repeat split|reflexivity]
  end.
Lemma pinned_lays : lays (items_of pinned_config) pinned_lines.
Proof. unfold pinned_lines. cbn [items_of pinned_config flat_map app map]. repeat first [apply l_nil | apply l_blank | apply l_item; [wl|]]. Qed.

(** ** The caller's module *)
Definition dot_py (a : ascii) : bool := is_c "."%char a || is_c "p"%char a || is_c "y"%char a.
Lemma rstrip_app_all p s t : rstrip p t = "" -> rstrip p (s ++ t) = rstrip p s.
Proof. intros H. induction s as [|a s IH]; cbn [append]; [exact H|]. cbn [rstrip]. rewrite IH. reflexivity. Qed.
Lemma from_caller_spec dir stem fn : lacks "/"%char stem = true -> rstrip dot_py stem = stem ->
  from_caller (dir ++ "/" ++ stem ++ ".py") fn = (stem, fn).
Proof.
  intros H1 H2. unfold from_caller. change (dir ++ "/" ++ stem ++ ".py") with (dir ++ String "/"%char (stem ++ ".py")). rewrite split_app.
  rewrite (split_none _ (stem ++ ".py")) by (rewrite lacks_app, H1; reflexivity). rewrite last_last. fold dot_py.
  change (fun a => is_c "."%char a || is_c "p"%char a || is_c "y"%char a) with dot_py. rewrite (rstrip_app_all dot_py stem ".py") by reflexivity. rewrite H2. reflexivity.
Qed.
Definition happy_config : raw_config := [("happy", [("f", [("x", "abc")])])].
Definition happy_lines : list string := ["## happy"; "# f"; "x = abc"].
Lemma happy_distinct : distinct happy_config.
Proof. unfold distinct, happy_config. split; [cbn; nodup|]. repeat (constructor; [split; [cbn; nodup|repeat (constructor; [cbn; nodup|]); constructor]|]). constructor. Qed.
Lemma happy_lays : lays (items_of happy_config) happy_lines.
Proof.
  unfold happy_lines. cbn. repeat first [apply l_nil | apply l_item; [|]]; try wl.
  apply (w_key "x" "abc" 0 1 1 0); [repeat split; do 2 eexists; split; [reflexivity|split; discriminate]|repeat split|reflexivity].
Qed.
