(** The Morlet wavelet's peak; [find_min_scale] when one search is not enough. *)
From Coq Require Import Reals Lra ZifyBool ZifyNat.
From Verif Require Import Py Round Cplx Padding Freqs Scales Search Wavelets ScaleBounds ScaleBoundsProofs ScaleBoundsThms MorletPeak SearchFar SearchFar2.
Local Open Scope R_scope.

(** * C44: Morlet has one peak *)

(** it lies just above [mu]: at [p = mu + p exp(-mu p)] *)
Theorem C44_morlet_peak mu : 0 < mu -> 1 / 1000 <= mu -> exists p, mu < p < mu + 1 /\ p = mu + p * exp (- (mu * p)) /\
  1 / 1000 <= p /\ (forall x y, 0 <= x -> x < y -> y <= p -> Rabs (morlet mu x) < Rabs (morlet mu y)) /\
  (forall x y, p <= x -> x < y -> Rabs (morlet mu y) < Rabs (morlet mu x)).
Proof. exact (fun H => morlet_one_peak mu H). Qed.
Print Assumptions C44_morlet_peak.
Example C44_morlet_peak_case : exists p, 67 / 5 < p < 67 / 5 + 1 /\ Rabs (morlet (67 / 5) 3) < Rabs (morlet (67 / 5) p).
Proof. destruct (C44_morlet_peak (67 / 5)) as (p & Hp & _ & _ & U & _); [lra|lra|]. exists p. split; [exact Hp|]. apply U; lra. Qed.

(** * C74: crossings beyond the first search *)

(** search [k] covers 10 k to 10 k + 9.999; [D] bounds the steps of [|g|] over 1/1000, and the searches before end further than [D] below the value *)
Theorem C74_left_far_partial g p fuel wp pk c w k D : one_peak g p -> peak_of g fuel = Some (Ok (wp, pk)) ->
  -1 <= c <= 0 -> 0 <= w <= p -> absf g w = Rabs c * pk -> 10 * INR k <= w <= 10 * INR k + 9999 / 1000 ->
  (forall x y, 0 <= x -> x <= y -> y <= x + 1 / 1000 -> y <= wp -> Rabs (absf g y - absf g x) <= D) -> ((0 < k)%nat -> absf g (10 * INR k - 1 / 1000) + D < absf g w) ->
  exists fuel' s, find_min_scale g c fuel' = Some (Ok s) /\ Rabs (s * PI - w) <= 1 / 1000.
Proof. exact (fun HP E => min_left_far g p fuel wp pk HP E c w k D). Qed.
Print Assumptions C74_left_far_partial.

(** the same to the right of the peak *)
Theorem C74_right_far_partial g p fuel wp pk c w k D : one_peak g p -> peak_of g fuel = Some (Ok (wp, pk)) ->
  0 < c <= 1 -> p <= w -> absf g w = c * pk -> wp + 10 * INR k <= w -> w <= wp + 10 * INR k + 9999 / 1000 -> w <= 10 * wp ->
  (forall x y, wp <= x -> x <= y -> y <= x + 1 / 1000 -> Rabs (absf g y - absf g x) <= D) -> ((0 < k)%nat -> absf g w < absf g (wp + 10 * INR k - 1 / 1000) - D) ->
  exists fuel' s, find_min_scale g c fuel' = Some (Ok s) /\ Rabs (s * PI - w) <= 2 / 1000.
Proof. exact (fun HP E => min_right_far g p fuel wp pk HP E c w k D). Qed.
Print Assumptions C74_right_far_partial.

(** without the bound on steps: a wavelet rising by half in the first step makes the first search stop 5 rad short *)
Theorem C74_false_stop_refuted : exists g p fuel wp pk w s, one_peak g p /\ peak_of g fuel = Some (Ok (wp, pk)) /\ 0 <= w <= p /\ absf g w = Rabs (- (9 / 10)) * pk /\
  find_min_scale g (- (9 / 10)) fuel = Some (Ok s) /\ 5 < Rabs (s * PI - w).
Proof. exact false_stop. Qed.
Print Assumptions C74_false_stop_refuted.

(** Morlet with its default mu: cutoff -0.5, found in the second search *)
Example C74_morlet_case : exists p fuel wp pk w fuel' s, one_peak (morlet mu0) p /\ peak_of (morlet mu0) fuel = Some (Ok (wp, pk)) /\
  10 <= w <= p /\ absf (morlet mu0) w = Rabs (- (1 / 2)) * pk /\ find_min_scale (morlet mu0) (- (1 / 2)) fuel' = Some (Ok s) /\ Rabs (s * PI - w) <= 1 / 1000.
Proof. exact morlet_far. Qed.
