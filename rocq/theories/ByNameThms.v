(** Which objects are used as wavelets as they are. *)
From Coq Require Import Ascii String Reals.
From Verif Require Import Py Config WaveletInit ByName.
Local Open Scope string_scope.

(** ** specification: [isinstance] *)
Inductive derives : pyclass -> pyclass -> Prop :=
| derives_refl c : derives c c
| derives_base m q bs b c : In b bs -> derives b c -> derives (Cls m q bs) c.

Lemma by_name c : isinstance_by_name c wavelet_class = true <-> class_name c = "ssqueezepy.wavelets.Wavelet".
Proof. unfold isinstance_by_name. rewrite String.eqb_eq. reflexivity. Qed.

(** an object of the class [Wavelet], also of one loaded again: the object itself *)
Theorem own_class ts ck G o d : c_module (o_class o) = "ssqueezepy.wavelets" -> c_qual (o_class o) = "Wavelet" ->
  init_if_not_isinstance ts ck G o d = Ok (Itself o).
Proof.
  intros M Q. unfold init_if_not_isinstance. replace (isinstance_by_name _ _) with true; [reflexivity|].
  symmetry. apply by_name. unfold class_name. rewrite M, Q. reflexivity.
Qed.
(** any object that is not so named is made into one, or refused *)
Theorem other_class ts ck G o d : class_name (o_class o) <> "ssqueezepy.wavelets.Wavelet" ->
  init_if_not_isinstance ts ck G o d = (do w <- init ts ck G (o_spec o) d; Ok (Made w)).
Proof.
  intros H. unfold init_if_not_isinstance. destruct (isinstance_by_name _ _) eqn:E; [|reflexivity].
  apply by_name in E. contradiction.
Qed.
(** an instance of a class derived from [Wavelet] is no string, tuple or function, so it is refused *)
Theorem derived_refused ts ck G : exists c, derives c wavelet_class /\
  forall d, match d with Some d => exists s, process_dtype d = Ok s | None => True end ->
  init_if_not_isinstance ts ck G (Obj c SBad) d = Err TypeError.
Proof.
  exists (Cls "__main__" "MyWavelet" [wavelet_class]). split.
  - eapply derives_base; [left; reflexivity|apply derives_refl].
  - intros [d|] Hd; [destruct Hd as (s & E)|]; unfold init_if_not_isinstance; cbn -[process_dtype];
      [rewrite E|]; reflexivity.
Qed.
