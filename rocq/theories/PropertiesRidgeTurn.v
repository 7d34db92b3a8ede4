(** C160: a clearly cheapest path is the ridge, whichever way time and rows run. *)
From Coq Require Import Reals Lra.
From Verif Require Import Py Parallel Cplx CplxProofs Squeeze Ssqueeze SsqueezeProofs Ridge RidgeProofs RidgeOpt RidgeThms RidgeCurve RidgeWitness RidgeTurn RidgeTurnWit.
Local Open Scope R_scope.

(** * C160: ridges do not depend on the direction of time or the order of rows *)

(** [clearly_best]: cheaper than every other path by more than (n_times - 1) eps *)
Theorem C160_best par f64 Tf scales penalty n bw cwt o k b : extract_ridges par f64 Tf scales penalty n bw cwt = Ok o ->
  sched_ok (nrows Tf) par -> (k < n)%nat -> (nrows Tf <= ncols Tf)%nat ->
  clearly_best f64 (nrows Tf) (ncols Tf) (energy_at (nrows Tf) bw (firstn k o) (energy Tf)) (jump cwt scales penalty) b ->
  forall t, (t < ncols Tf)%nat -> nth t (r_idx (nth k o ridge0)) 0%nat = b t.
Proof. exact (ridge_is_best par f64 Tf scales penalty n bw cwt o k b). Qed.
Print Assumptions C160_best.

(** all ridges, rows, frequencies and energies, reversed; equal moduli suffice *)
Theorem C160_backwards par par' f64 Tf Tf' scales penalty n bw cwt o : extract_ridges par f64 Tf scales penalty n bw cwt = Ok o ->
  sched_ok (nrows Tf) par -> sched_ok (nrows Tf) par' -> (nrows Tf <= ncols Tf)%nat -> nrows Tf' = nrows Tf -> ncols Tf' = ncols Tf ->
  (forall f t, (f < nrows Tf)%nat -> (t < ncols Tf)%nat -> Cabs (el Tf' f t) = Cabs (el Tf f (ncols Tf - 1 - t)%nat)) ->
  (forall k, (k < n)%nat -> exists b, clearly_best f64 (nrows Tf) (ncols Tf) (energy_at (nrows Tf) bw (firstn k o) (energy Tf)) (jump cwt scales penalty) b) ->
  extract_ridges par' f64 Tf' scales penalty n bw cwt = Ok (map rev_ridge o).
Proof. exact (ridges_backwards par par' f64 Tf Tf' scales penalty n bw cwt o). Qed.
Print Assumptions C160_backwards.

(** the first ridge, with the rows and the scales in the other order *)
Theorem C160_upside par par' f64 Tf Tf' scales penalty n n' bw bw' cwt o b : extract_ridges par f64 Tf scales penalty n bw cwt = Ok o ->
  sched_ok (nrows Tf) par -> sched_ok (nrows Tf) par' -> (nrows Tf <= ncols Tf)%nat -> nrows Tf' = nrows Tf -> ncols Tf' = ncols Tf -> (1 <= n)%nat -> (1 <= n')%nat ->
  (forall f t, (f < nrows Tf)%nat -> (t < ncols Tf)%nat -> Cabs (el Tf' f t) = Cabs (el Tf (nrows Tf - 1 - f)%nat t)) ->
  clearly_best f64 (nrows Tf) (ncols Tf) (energy Tf) (jump cwt scales penalty) b ->
  exists o', extract_ridges par' f64 Tf' (rev scales) penalty n' bw' cwt = Ok o' /\
    let r := nth 0 o ridge0 in let r' := nth 0 o' ridge0 in
    r_freq r' = r_freq r /\ r_energy r' = r_energy r /\
    forall t, (t < ncols Tf)%nat -> (nth t (r_idx r') 0 = nrows Tf - 1 - nth t (r_idx r) 0)%nat.
Proof. exact (ridge_upside par par' f64 Tf Tf' scales penalty n n' bw bw' cwt o b). Qed.
Print Assumptions C160_upside.

(** energy on one curve whose jumps are cheap: clearly best *)
Theorem C160_curve f64 Tf scales penalty cwt c : 0 <= penalty -> on_curve Tf c ->
  Rsum (ncols Tf - 1) (fun t => jump cwt scales penalty (c (S t)) (c t)) + INR (ncols Tf - 1) * eps_of f64 < ln (1 + / eps_of f64) ->
  clearly_best f64 (nrows Tf) (ncols Tf) (energy Tf) (jump cwt scales penalty) c.
Proof. exact (curve_clear f64 Tf scales penalty cwt c). Qed.
Print Assumptions C160_curve.

(** a rising curve over three rows *)
Example C160_case : exists o, extract_ridges None true Tf_rise [1; 2; 3] (1 / 10) 1 15 false = Ok o /\
  map r_idx o = [[0; 0; 1; 2]%nat] /\
  extract_ridges None true Tf_fall [1; 2; 3] (1 / 10) 1 15 false = Ok (map rev_ridge o) /\ map r_idx (map rev_ridge o) = [[2; 1; 0; 0]%nat] /\
  exists o', extract_ridges None true Tf_flip [3; 2; 1] (1 / 10) 1 15 false = Ok o' /\ r_freq (nth 0 o' ridge0) = r_freq (nth 0 o ridge0) /\ nth 3 (r_idx (nth 0 o' ridge0)) 0%nat = 0%nat.
Proof. exact turn_case. Qed.
