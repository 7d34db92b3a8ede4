(** Integrals over (0, oo) as limits of Riemann integrals, and the Gamma function: what
    scipy's [gamma] is specified to compute.  Nothing here depends on the library's code. *)
From Coq Require Import Reals Lra.
Local Open Scope R_scope.

Definition integral (f : R -> R) (a b v : R) : Prop :=
  exists pr : Riemann_integrable f a b, RiemannInt pr = v.
(** [l] is the integral of [f] from 0 to infinity *)
Definition impint (f : R -> R) (l : R) : Prop :=
  forall eps, 0 < eps -> exists A B, 0 < A <= B /\
    forall a b, 0 < a < A -> B < b -> exists v, integral f a b v /\ Rabs (v - l) < eps.
(** Euler's integral *)
Definition is_Gamma (G : R -> R) : Prop :=
  forall x, 0 < x -> impint (fun t => Rpower t (x - 1) * exp (- t)) (G x).
