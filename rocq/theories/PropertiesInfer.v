(** C79: the kind inferred for an array of scales or frequencies. *)
From Coq Require Import Reals Lra.
From Verif Require Import Py Round Scales CwtWitness InferThms.
Local Open Scope R_scope.

(** [log_bend s], [lin_bend s]: the sums of the moduli of the second differences of [ln s] and of [s];
    [positive s]: all entries are positive *)

Theorem C79_log (f64 : bool) s nv : infer_scaletype f64 s = Ok (KLog nv) <->
  (3 <= length s)%nat /\ positive s /\
  log_bend s < INR (length s - 2) * (if f64 then 4 / 1000000000000000 else 8 / 10000000) /\
  nth 1 s 0 <> nth 0 s 0 /\ nv = round_half_even (1 / ((ln (nth 1 s 0) - ln (nth 0 s 0)) / ln 2)).
Proof. exact (infer_log f64 s nv). Qed.
Print Assumptions C79_log.

Theorem C79_linear (f64 : bool) s : infer_scaletype f64 s = Ok KLinear <->
  let t := if f64 then 4 / 1000000000000000 else 8 / 10000000 in
  (3 <= length s)%nat /\ ~ (positive s /\ log_bend s < INR (length s - 2) * t) /\
  lin_bend s < INR (length s - 2) * (t * 1000).
Proof. exact (infer_linear f64 s). Qed.
Print Assumptions C79_linear.

Theorem C79_spacing (f64 : bool) s k : (S k < length s)%nat ->
  let t := if f64 then 4 / 1000000000000000 else 8 / 10000000 in
  (forall nv, infer_scaletype f64 s = Ok (KLog nv) ->
     Rabs (ln (nth (S k) s 0 / nth k s 0) - ln (nth 1 s 0 / nth 0 s 0)) < INR (length s - 2) * t) /\
  (infer_scaletype f64 s = Ok KLinear ->
     Rabs ((nth (S k) s 0 - nth k s 0) - (nth 1 s 0 - nth 0 s 0)) < INR (length s - 2) * (t * 1000)).
Proof.
  exact (fun Hk => conj (fun nv E => log_even f64 s nv k E Hk) (fun E => linear_even f64 s k E Hk)).
Qed.
Print Assumptions C79_spacing.

(** 'log' and its [nv] do not depend on the unit *)
Theorem C79_log_units_partial (f64 : bool) s c nv : 0 < c ->
  infer_scaletype f64 (map (Rmult c) s) = Ok (KLog nv) <-> infer_scaletype f64 s = Ok (KLog nv).
Proof. exact (log_units f64 s c nv). Qed.
Print Assumptions C79_log_units_partial.

(** anything else is 'linear' in a small enough unit *)
Theorem C79_small_units (f64 : bool) s : (3 <= length s)%nat ->
  ~ (positive s /\ log_bend s < INR (length s - 2) * (if f64 then 4 / 1000000000000000 else 8 / 10000000)) ->
  exists c0, 0 < c0 /\ forall c, 0 < c <= c0 -> infer_scaletype f64 (map (Rmult c) s) = Ok KLinear.
Proof. exact (small_units_linear f64 s). Qed.
Print Assumptions C79_small_units.
Theorem C79_units_refuted : exists s nv c, infer_scaletype true s = Ok (KPiece nv) /\ 0 < c /\
  infer_scaletype true (map (Rmult c) s) = Ok KLinear.
Proof. exact units_matter. Qed.
Print Assumptions C79_units_refuted.

(** evenly spaced, but taken for logarithmic *)
Theorem C79_arithmetic_refuted : exists nv,
  infer_scaletype true [1; 1 + / 100000000; 1 + 2 * / 100000000] = Ok (KLog nv).
Proof. exact near_constant_log. Qed.
Print Assumptions C79_arithmetic_refuted.
