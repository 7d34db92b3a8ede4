(** Sharper forms, fifth round: what a value in configs.ini means; both areas at once. *)
From Coq Require Import Ascii String Reals Lra Lia List.
Import ListNotations.
From Verif Require Import Py Buffer Cplx Squeeze Freqs Resol Config IniProofs ConfigThms ResolProofs WindowRes WindowResThms WindowResThms2.
Local Open Scope string_scope.

(** no quote at either end *)
Definition bare (s : string) : Prop := strip (is_c DQ) s = s /\ strip (is_c SQ) s = s.
(** the value that a text stands for, by Python's own conversions *)
Definition stands_for (pyfloat : string -> option R) (s : string) (v : pyv) : Prop :=
  (s = "None" /\ v = PNone) \/ (s = "True" /\ v = PBool true) \/ (s = "False" /\ v = PBool false) \/
  (~ In s ["None"; "True"; "False"] /\ exists x, pyfloat s = Some x /\ v = PFloat x) \/
  (~ In s ["None"; "True"; "False"] /\ pyfloat s = None /\ v = PStr s).

Lemma bare_value pyfloat s : bare s -> stands_for pyfloat s (process_value pyfloat s).
Proof.
  intros [H1 H2]. unfold process_value, stands_for. rewrite H1, H2.
  destruct (String.eqb_spec s "None") as [->|N1]; [left; auto|]. right.
  destruct (String.eqb_spec s "True") as [->|N2]; [left; auto|]. right.
  destruct (String.eqb_spec s "False") as [->|N3]; [left; auto|]. right.
  assert (Hn : ~ In s ["None"; "True"; "False"]) by (cbn; intros [E|[E|[E|[]]]]; congruence).
  destruct (pyfloat s) as [x|] eqn:Ef; [left|right]; eauto.
Qed.
Lemma rstrip_end p s c : p c = true -> rstrip p (s ++ String c "") = rstrip p s.
Proof. intros H. induction s as [|b s IH]; cbn [append rstrip]; [now rewrite H|]. now rewrite IH. Qed.
Lemma strip_quotes c s : strip (is_c c) (String c (s ++ String c "")) = strip (is_c c) s.
Proof.
  assert (Hc : is_c c c = true) by (unfold is_c; apply Ascii.eqb_refl).
  unfold strip. cbn [lstrip]. rewrite Hc. rewrite !strip_comm, rstrip_end by exact Hc. reflexivity.
Qed.
(** quotes of either kind around it change nothing *)
Lemma quoted_value pyfloat s : bare s ->
  process_value pyfloat (String DQ (s ++ String DQ "")) = process_value pyfloat s /\
  process_value pyfloat (String SQ (s ++ String SQ "")) = process_value pyfloat s.
Proof.
  intros [H1 H2]. unfold process_value. rewrite strip_quotes, H1, H2. split; [reflexivity|].
  assert (E : strip (is_c DQ) (String SQ (s ++ String SQ "")) = String SQ (s ++ String SQ "")).
  { unfold strip. rewrite lst_head by reflexivity. change (String SQ (s ++ String SQ "")) with ((String SQ s) ++ String SQ "").
    rewrite rst_mid by reflexivity. reflexivity. }
  rewrite E, strip_quotes, H2. reflexivity.
Qed.

(** a missing argument comes back as what its line in the file stands for *)
Theorem default_value pyfloat c lines rest caller module fn k s :
  distinct c -> lays (items_of c) lines -> lacks "."%char fn = true ->
  dget k (entries c module fn) = Some s -> bare s ->
  exists v, gdefaults pyfloat (join_nl (lines ++ "#### END" :: rest)) caller (Some (module ++ "." ++ fn)) false (Some false) false [(k, PNone)] = Ok (OutOne v) /\
    stands_for pyfloat s v.
Proof.
  intros Hc Hl Hf Hk Hs.
  assert (Hnd : NoDup (keys [(k, PNone)])) by (repeat constructor; intros []).
  destruct (gdefaults_spec pyfloat c lines rest caller module fn false (Some false) false [(k, PNone)] Hc Hl Hf Hnd) as (d & E & _ & Hg & Hks).
  cbn [keys map fst app] in Hks. specialize (Hg k). cbn [dget] in Hg. rewrite String.eqb_refl, Hk in Hg.
  destruct d as [|[k' v] [|]]; try discriminate. cbn [keys map fst] in Hks. injection Hks as ->.
  cbn [dget] in Hg. rewrite String.eqb_refl in Hg. injection Hg as ->.
  eexists. split; [exact E|]. now apply bare_value.
Qed.

Local Open Scope R_scope.
(** both areas are the two areas, time first *)
Theorem both_areas x : x <> [] -> exists a b, window_area x true true = Ok (AreaTW a b) /\
  window_area x true false = Ok (AreaT a) /\ window_area x false true = Ok (AreaW b) /\ a = Rsum (length x) (tweight x).
Proof.
  intros Hx. destruct (area_time x) as (a & Ea & Ha).
  assert (HN : (length x =? 0)%nat = false) by (destruct x; [congruence|reflexivity]).
  assert (Ex : exists b, window_area x false true = Ok (AreaW b) /\ window_area x true true = Ok (AreaTW a b)).
  { unfold window_area in *. rewrite HN. injection Ea as ->. eexists. split; reflexivity. }
  destruct Ex as (b & E1 & E2). exists a, b. auto.
Qed.
(** a box of three samples: time area 2, frequency area between 0 and 6 pi *)
Lemma both_case : exists b, window_area [1; 1; 1] true true = Ok (AreaTW 2 b) /\ 0 <= b <= 6 * PI.
Proof.
  destruct (both_areas [1; 1; 1]) as (a & b & E1 & E2 & E3 & Ha); [discriminate|].
  destruct (area_odd [1; 1; 1] eq_refl) as (b' & E4 & _ & Hb). rewrite E3 in E4. injection E4 as <-.
  exists b. replace 2 with a.
  - split; [exact E1|]. cbn [length Rsum nth] in Hb. lra.
  - rewrite Ha. unfold tweight, tzw. cbn [length Rsum nth Nat.ltb Nat.leb Nat.add Nat.sub]. lra.
Qed.
Local Open Scope string_scope.
(** [mu] of the pinned file, if Python reads "13.4" as the number; "float32" in quotes *)
Lemma value_case pyfloat : pyfloat "13.4" = Some (134 / 10)%R -> pyfloat "float32" = None ->
  stands_for pyfloat "13.4" (PFloat (134 / 10)) /\ process_value pyfloat "'float32'" = PStr "float32" /\ process_value pyfloat "False" = PBool false.
Proof.
  intros H1 H2. split.
  - right; right; right; left. split; [cbn; intros [E|[E|[E|[]]]]; discriminate|]. eauto.
  - split; [|reflexivity]. assert (Hb : bare "float32") by (split; reflexivity).
    destruct (quoted_value pyfloat "float32" Hb) as [_ E]. change "'float32'" with (String SQ ("float32" ++ String SQ "")). rewrite E.
    unfold process_value. change (strip (is_c SQ) (strip (is_c DQ) "float32")) with "float32". cbn [String.eqb Ascii.eqb Bool.eqb]. now rewrite H2.
Qed.
