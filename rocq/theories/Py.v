(** Python / numpy primitives shared by the models.  Definitions only, plus the
    elementary lemmas that characterise them. *)
From Coq Require Export List Arith ZArith Lia Bool.
From Coq Require Import ZifyBool ZifyNat.
Export ListNotations.
Set Implicit Arguments.

Ltac Zify.zify_post_hook ::= Z.div_mod_to_equations.

(** Exceptions as values: the exception classes the modelled functions raise. *)
Inductive err :=
| ValueError | TypeError | IndexError | KeyError | ZeroDivisionError
| UnboundLocalError | AssertionError | AttributeError | RuntimeError
| NotImplementedError | OverflowError | PlainException
| OutOfFuel      (* the model ran out of fuel: the source loop has not stopped yet *)
| NotModelled.   (* input outside the modelled domain *)

Inductive res (A : Type) :=
| Ok (a : A)
| Err (e : err).
Arguments Ok {A} a.
Arguments Err {A} e.

Definition bind {A B} (r : res A) (f : A -> res B) : res B :=
  match r with Ok a => f a | Err e => Err e end.
Notation "'do' x <- r ; k" := (bind r (fun x => k))
  (at level 200, x pattern, r at level 100, k at level 200).

(** CPython's index clamping for a slice bound (step 1) on a sequence of length [n]:
    negative bounds count from the end, then everything is clamped to [0, n]. *)
Definition norm_bound (n i : Z) : Z :=
  if (i <? 0)%Z then Z.max 0 (i + n) else Z.min i n.

(** [l[a:b]] *)
Definition pyslice {A} (l : list A) (a b : Z) : list A :=
  let n := Z.of_nat (length l) in
  let a' := norm_bound n a in
  let b' := norm_bound n b in
  firstn (Z.to_nat (b' - a')) (skipn (Z.to_nat a') l).

(** [l[a:]] and [l[:b]] *)
Definition pyslice_from {A} (l : list A) (a : Z) : list A :=
  pyslice l a (Z.of_nat (length l)).
Definition pyslice_to {A} (l : list A) (b : Z) : list A :=
  pyslice l 0 b.

(** Arrays written by loops: a 2-D array is a shape and a total read function. *)
Record mat (A : Type) := Mat { nrows : nat; ncols : nat; el : nat -> nat -> A }.
Arguments Mat {A} nrows ncols el.
Arguments nrows {A} m.
Arguments ncols {A} m.
Arguments el {A} m _ _.

Definition meq {A} (a b : mat A) : Prop :=
  nrows a = nrows b /\ ncols a = ncols b /\
  forall i j, i < nrows a -> j < ncols a -> el a i j = el b i j.

(** [np.array([f(0), ..., f(n-1)])] *)
Definition tab {A} (n : nat) (f : nat -> A) : list A := map f (seq 0 n).

Lemma tab_length A n (f : nat -> A) : length (tab n f) = n.
Proof. unfold tab; rewrite map_length, seq_length; reflexivity. Qed.

Lemma nth_tab A n (f : nat -> A) i d : i < n -> nth i (tab n f) d = f i.
Proof.
  intros H; unfold tab.
  rewrite (nth_indep _ d (f 0)) by (rewrite map_length, seq_length; lia).
  rewrite map_nth, seq_nth by lia; f_equal.
Qed.

Lemma tab_ext A n (f g : nat -> A) :
  (forall i, i < n -> f i = g i) -> tab n f = tab n g.
Proof.
  intros H; unfold tab; apply map_ext_in; intros a Ha.
  apply in_seq in Ha; apply H; lia.
Qed.

Lemma tab_nth A (l : list A) d : tab (length l) (fun i => nth i l d) = l.
Proof.
  apply nth_ext with (d := d) (d' := d); [apply tab_length|].
  rewrite tab_length; intros n Hn; rewrite nth_tab; auto.
Qed.

Lemma list_eq_nth A (l m : list A) d :
  length l = length m -> (forall i, i < length l -> nth i l d = nth i m d) -> l = m.
Proof. intros; apply nth_ext with (d := d) (d' := d); auto. Qed.

Lemma nth_firstn_lt A (l : list A) n i d : i < n -> nth i (firstn n l) d = nth i l d.
Proof.
  revert n l; induction i as [|i IH]; intros [|n] [|x l] H; simpl; try lia; auto.
  apply IH; lia.
Qed.

Lemma nth_skipn_add A (l : list A) n i d : nth i (skipn n l) d = nth (n + i) l d.
Proof.
  revert l; induction n as [|n IH]; intros [|x l]; simpl; auto.
  destruct i; reflexivity.
Qed.

(** Slices with in-range nonnegative bounds behave as expected. *)
Lemma pyslice_length A (l : list A) a b :
  (0 <= a <= b)%Z -> (b <= Z.of_nat (length l))%Z ->
  length (pyslice l a b) = Z.to_nat (b - a).
Proof.
  intros H1 H2; unfold pyslice, norm_bound.
  destruct (Z.ltb_spec a 0); [lia|]. destruct (Z.ltb_spec b 0); [lia|].
  rewrite firstn_length, skipn_length; lia.
Qed.

Lemma pyslice_nth A (l : list A) a b i d :
  (0 <= a <= b)%Z -> (b <= Z.of_nat (length l))%Z -> i < Z.to_nat (b - a) ->
  nth i (pyslice l a b) d = nth (Z.to_nat a + i) l d.
Proof.
  intros H1 H2 H3; unfold pyslice, norm_bound.
  destruct (Z.ltb_spec a 0); [lia|]. destruct (Z.ltb_spec b 0); [lia|].
  rewrite nth_firstn_lt by lia. rewrite nth_skipn_add. f_equal; lia.
Qed.

Lemma nth_rev_lt A (l : list A) i d :
  i < length l -> nth i (rev l) d = nth (length l - 1 - i) l d.
Proof. intros H; rewrite rev_nth by lia; f_equal; lia. Qed.
