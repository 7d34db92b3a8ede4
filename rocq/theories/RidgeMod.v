(** C126 with more rows than times: the last index of the ridge is reduced modulo the number of times
    (ridge_extraction.py:164-166), whatever the penalty. *)
From Coq Require Import Reals Lra.
From Verif Require Import Py Parallel Cplx CplxProofs Squeeze Ssqueeze SsqueezeProofs Ridge RidgeProofs RidgeOpt RidgeThms RidgeWitness.
Local Open Scope R_scope.

Lemma mod_any penalty : 0 <= penalty -> exists o,
  extract_ridges None true (rows 3 2 (one_row 2)) [1; 2; 3] penalty 1 15 false = Ok o /\
  nth 1 (r_idx (nth 0 o ridge0)) 0%nat = 0%nat.
Proof.
  intros Hp. assert (X : exists o, extract_ridges None true (rows 3 2 (one_row 2)) [1; 2; 3] penalty 1 15 false = Ok o).
  { apply extract_ok; cbn [nrows ncols rows]; try lia; reflexivity. }
  destruct X as (o & Ho). exists o. split; [exact Ho|].
  apply extract_inv in Ho. destruct Ho as (_ & _ & _ & _ & Eo). cbn [ridge_loop nrows ncols rows] in Eo.
  set (E0 := fun f t => Cabs (el (rows 3 2 (one_row 2)) f t) * Cabs (el (rows 3 2 (one_row 2)) f t)) in Eo.
  assert (HE : forall f t, E0 f t = 1 * one_row 2 f).
  { intros f t. transitivity (energy (rows 3 2 (one_row 2)) f t); [unfold E0, energy; ring|]. rewrite one_row_energy. ring. }
  destruct (track_one_row None 0 3 2 2 _ penalty [1; 2; 3] E0 1 I ltac:(lia) ltac:(lia) Hp ltac:(lra) eq_refl (fun f t _ _ => HE f t)) as (A & _).
  rewrite Eo. unfold r_idx. cbn [nth fst]. rewrite nth_tab by lia. exact A.
Qed.

Lemma mod_cells : nrows (rows 3 2 (one_row 2)) = 3%nat /\ ncols (rows 3 2 (one_row 2)) = 2%nat /\
  forall t, energy (rows 3 2 (one_row 2)) 2 t = 1 /\ energy (rows 3 2 (one_row 2)) 0 t = 0.
Proof. split; [reflexivity|]. split; [reflexivity|]. intros t. rewrite !one_row_energy. unfold one_row. cbn. lra. Qed.
