(** Schedules of parallel loops (numba [prange], CUDA threads).

    Each parallel iteration is a program of micro-steps on a shared store: load a cell
    into the iteration's private register, or store a function of that register into a
    cell.  A schedule is any global trace whose projection on every iteration is that
    iteration's program; how iterations are chunked onto OS threads is therefore
    covered, and [x += v] is two steps that others may separate. *)
From Verif Require Import Py.

Section Sched.
Variables Cell V : Type.
Variable cell_dec : forall a b : Cell, {a = b} + {a <> b}.

Inductive mop :=
| MLoad (c : Cell)
| MStore (c : Cell) (f : V -> V).

Definition cell_of (o : mop) : Cell :=
  match o with MLoad c => c | MStore c _ => c end.

Definition store := Cell -> V.
Definition upd (s : store) (c : Cell) (v : V) : store :=
  fun c' => if cell_dec c c' then v else s c'.

(** shared store and one private register per iteration *)
Definition pstate := (store * (nat -> V))%type.
Definition event := (nat * mop)%type.

Definition step (st : pstate) (e : event) : pstate :=
  let '(s, r) := st in
  let '(t, o) := e in
  match o with
  | MLoad c => (s, fun t' => if Nat.eq_dec t t' then s c else r t')
  | MStore c f => (upd s c (f (r t)), r)
  end.

Definition exec (tr : list event) (st : pstate) : pstate := fold_left step tr st.

Definition proj (t : nat) (tr : list event) : list mop :=
  map snd (filter (fun e => Nat.eqb (fst e) t) tr).

Definition schedule_of (progs : nat -> list mop) (tr : list event) : Prop :=
  forall t, proj t tr = progs t.

Definition tag (t : nat) (p : list mop) : list event := map (pair t) p.

(** running iterations one after the other *)
Definition serial (n : nat) (progs : nat -> list mop) : list event :=
  concat (map (fun t => tag t (progs t)) (seq 0 n)).

(** every cell is touched by one iteration only *)
Definition owned (own : Cell -> nat) (progs : nat -> list mop) : Prop :=
  forall t o, In o (progs t) -> own (cell_of o) = t.
End Sched.

Arguments MLoad {Cell V} c.
Arguments MStore {Cell V} c f.
Arguments cell_of {Cell V} o.
Arguments upd {Cell V} cell_dec s c v _.
Arguments exec {Cell V} cell_dec tr st.
Arguments step {Cell V} cell_dec st e.
Arguments proj {Cell V} t tr.
Arguments schedule_of {Cell V} progs tr.
Arguments tag {Cell V} t p.
Arguments serial {Cell V} n progs.
Arguments owned {Cell V} own progs.

Definition cell2_dec (a b : nat * nat) : {a = b} + {a <> b}.
Proof. decide equality; apply Nat.eq_dec. Defined.

Section Theory.
Variables Cell V : Type.
Variable cell_dec : forall a b : Cell, {a = b} + {a <> b}.
Notation exec := (@Parallel.exec Cell V cell_dec).
Notation upd := (@Parallel.upd Cell V cell_dec).

Lemma proj_cons t e tr :
  @proj Cell V t (e :: tr) = if Nat.eqb (fst e) t then snd e :: proj t tr else proj t tr.
Proof. unfold proj; simpl; destruct (Nat.eqb (fst e) t); reflexivity. Qed.

Lemma proj_app t tr1 tr2 : @proj Cell V t (tr1 ++ tr2) = proj t tr1 ++ proj t tr2.
Proof. unfold proj; rewrite filter_app, map_app; reflexivity. Qed.

Lemma exec_app tr1 tr2 st : exec (tr1 ++ tr2) st = exec tr2 (exec tr1 st).
Proof. unfold Parallel.exec; apply fold_left_app. Qed.

(** State as seen by iteration [t]: its register and its cells. *)
Definition same_view (own : Cell -> nat) (t : nat) (st1 st2 : pstate Cell V) : Prop :=
  snd st1 t = snd st2 t /\ forall c, own c = t -> fst st1 c = fst st2 c.

Lemma view_step_own own t o st1 st2 :
  own (cell_of o) = t -> same_view own t st1 st2 ->
  same_view own t (step cell_dec st1 (t, o)) (step cell_dec st2 (t, o)).
Proof.
  intros Ho [Hr Hc]. destruct st1 as [s1 r1], st2 as [s2 r2]. simpl in *.
  destruct o as [c|c f]; simpl in *; split; simpl.
  - destruct (Nat.eq_dec t t); [apply Hc; auto|congruence].
  - intros c' Hc'; apply Hc; auto.
  - exact Hr.
  - intros c' Hc'. unfold Parallel.upd. destruct (cell_dec c c'); [congruence|auto].
Qed.

Lemma view_step_other own t t' o st :
  own (cell_of o) = t' -> t' <> t ->
  same_view own t (step cell_dec st (t', o)) st.
Proof.
  intros Ho Hne. destruct st as [s r].
  destruct o as [c|c f]; simpl in *; split; simpl; auto.
  - destruct (Nat.eq_dec t' t); congruence.
  - intros c' Hc'. unfold Parallel.upd. destruct (cell_dec c c'); [congruence|auto].
Qed.

Lemma same_view_trans own t a b c :
  same_view own t a b -> same_view own t b c -> same_view own t a c.
Proof. intros [H1 H2] [H3 H4]; split; [congruence|intros; rewrite H2 by auto; auto]. Qed.

Lemma view_exec own t tr : forall st1 st2,
  (forall e, In e tr -> own (cell_of (snd e)) = fst e) ->
  same_view own t st1 st2 ->
  same_view own t (exec tr st1) (exec (tag t (proj t tr)) st2).
Proof.
  induction tr as [|[t' o] tr IH]; intros st1 st2 Hown Hv; simpl; [exact Hv|].
  rewrite proj_cons. simpl.
  assert (Ho : own (cell_of o) = t') by (apply (Hown (t', o)); left; reflexivity).
  assert (Hown' : forall e, In e tr -> own (cell_of (snd e)) = fst e)
    by (intros e He; apply Hown; right; exact He).
  destruct (Nat.eqb_spec t' t) as [->|Hne].
  - simpl. apply IH; [exact Hown'|]. apply view_step_own; auto.
  - apply IH; [exact Hown'|].
    eapply same_view_trans; [apply view_step_other; eauto|exact Hv].
Qed.

Lemma in_proj t e tr : In e tr -> fst e = t -> In (snd e) (@proj Cell V t tr).
Proof.
  intros H E. unfold proj. apply in_map. apply filter_In. split; auto.
  apply Nat.eqb_eq; auto.
Qed.

(** Any two schedules of iterations that own disjoint cells end in the same store. *)
Theorem schedule_det own progs tr1 tr2 s r1 r2 :
  owned own progs -> schedule_of progs tr1 -> schedule_of progs tr2 ->
  (forall t, r1 t = r2 t) ->
  forall c, fst (exec tr1 (s, r1)) c = fst (exec tr2 (s, r2)) c.
Proof.
  intros Hown H1 H2 Hr c.
  assert (Hev : forall tr, schedule_of progs tr ->
            forall e, In e tr -> own (cell_of (snd e)) = fst e).
  { intros tr Hs e He. apply Hown. rewrite <- (Hs (fst e)). apply in_proj; auto. }
  set (t := own c).
  assert (Hv0 : same_view own t (s, r1) (s, r2)) by (split; simpl; auto).
  destruct (view_exec own t tr1 _ _ (Hev _ H1) Hv0) as [_ E1].
  assert (Hv2 : same_view own t (s, r2) (s, r2)) by (split; simpl; auto).
  destruct (view_exec own t tr2 _ _ (Hev _ H2) Hv2) as [_ E2].
  rewrite E1, E2 by reflexivity. rewrite H1, H2. reflexivity.
Qed.

Lemma proj_tag_same t p : @proj Cell V t (tag t p) = p.
Proof.
  unfold proj, tag. induction p as [|o p IH]; simpl; auto.
  rewrite Nat.eqb_refl; simpl; rewrite IH; reflexivity.
Qed.

Lemma proj_tag_other t t' p : t' <> t -> @proj Cell V t (tag t' p) = [].
Proof.
  intros H. unfold proj, tag. induction p as [|o p IH]; simpl; auto.
  destruct (Nat.eqb_spec t' t); [congruence|auto].
Qed.

Lemma proj_serial_seq (progs : nat -> list (mop Cell V)) t n a :
  proj t (concat (map (fun u => tag u (progs u)) (seq a n))) =
  if (a <=? t) && (t <? a + n) then progs t else [].
Proof.
  revert a; induction n as [|n IH]; intros a; simpl.
  - destruct (Nat.leb_spec a t), (Nat.ltb_spec t (a + 0)); simpl; auto; lia.
  - rewrite proj_app, IH.
    destruct (Nat.eq_dec a t) as [->|Hne].
    + rewrite proj_tag_same.
      destruct (Nat.leb_spec (S t) t); [lia|]. simpl. rewrite app_nil_r.
      destruct (Nat.leb_spec t t), (Nat.ltb_spec t (t + S n)); simpl; auto; lia.
    + rewrite proj_tag_other by auto. cbn [app].
      replace (S a + n) with (a + S n) by lia.
      destruct (Nat.leb_spec (S a) t), (Nat.ltb_spec t (a + S n)),
        (Nat.leb_spec a t); simpl; auto; lia.
Qed.

(** The serial loop is one of the schedules. *)
Lemma serial_is_schedule n (progs : nat -> list (mop Cell V)) :
  (forall t, n <= t -> progs t = []) -> schedule_of progs (serial n progs).
Proof.
  intros H t. unfold serial. rewrite proj_serial_seq. simpl.
  destruct (Nat.ltb_spec t n); auto. symmetry; apply H; auto.
Qed.

(** A loop nest with the parallel index innermost ([for i: for t: body i t]) is also a
    schedule of the programs [body 0 t ++ body 1 t ++ ...]. *)
Definition nest (m n : nat) (body : nat -> nat -> list (mop Cell V)) : list (event Cell V) :=
  concat (map (fun i => concat (map (fun t => tag t (body i t)) (seq 0 n))) (seq 0 m)).

Definition nest_progs (m n : nat) (body : nat -> nat -> list (mop Cell V)) (t : nat)
  : list (mop Cell V) :=
  if t <? n then concat (map (fun i => body i t) (seq 0 m)) else [].

Lemma proj_nest_gen (l : list nat) n body t :
  proj t (concat (map (fun i => concat (map (fun u => tag u (body i u)) (seq 0 n))) l)) =
  if t <? n then concat (map (fun i => body i t) l) else ([] : list (mop Cell V)).
Proof.
  induction l as [|i l IH]; simpl; [destruct (t <? n); reflexivity|].
  rewrite proj_app, IH. rewrite (proj_serial_seq (body i) t n 0). simpl.
  destruct (Nat.ltb_spec t n); reflexivity.
Qed.

Lemma nest_is_schedule m n body : schedule_of (nest_progs m n body) (nest m n body).
Proof. intros t; unfold nest, nest_progs; apply proj_nest_gen. Qed.
End Theory.
Arguments nest {Cell V} m n body.
Arguments nest_progs {Cell V} m n body t.
