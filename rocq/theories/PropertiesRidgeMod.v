(** C126 when there are more rows than times. *)
From Coq Require Import Reals Lra.
From Verif Require Import Py Parallel Cplx CplxProofs Squeeze Ssqueeze SsqueezeProofs Ridge RidgeProofs RidgeOpt RidgeThms RidgeWitness RidgeMod.
Local Open Scope R_scope.

(** * C126: three rows, two times *)

(** All the energy is in row 2 at both times; whatever the penalty, 0 included, the ridge ends in row 0,
    which has none: the last index is reduced modulo the number of times. *)
Theorem C126_more_rows_refuted : exists Tf,
  (nrows Tf = 3%nat /\ ncols Tf = 2%nat /\ forall t, energy Tf 2 t = 1 /\ energy Tf 0 t = 0) /\
  forall penalty, 0 <= penalty -> exists o,
    extract_ridges None true Tf [1; 2; 3] penalty 1 15 false = Ok o /\ nth 1 (r_idx (nth 0 o ridge0)) 0%nat = 0%nat.
Proof. exact (ex_intro _ _ (conj mod_cells mod_any)). Qed.
Print Assumptions C126_more_rows_refuted.
