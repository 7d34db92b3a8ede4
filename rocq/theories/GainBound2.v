(** Second-order error of a sum over log-spaced samples. *)
From Coq Require Import Reals Lra Lia ZifyBool ZifyNat.
From Verif Require Import Py Cplx CplxProofs GainBound.
Local Open Scope R_scope.

(** [q w = w * g' w] varies by at most [V b - V a] between [a] and [b] *)
Definition log_variation (g q V : R -> R) : Prop :=
  (forall w, 0 < w -> derivable_pt_lim g w (q w / w)) /\
  (forall a b, 0 < a -> a <= b -> Rabs (q b - q a) <= V b - V a).

Section Cell.
Variables h h1 H V : R -> R.
Hypothesis Dh : forall t, derivable_pt_lim h t (h1 t).
Hypothesis DH : forall t, derivable_pt_lim H t (h t).
Hypothesis HV : forall s t, s <= t -> Rabs (h1 t - h1 s) <= V t - V s.

Lemma grow F F1 a b : a <= b -> (forall t, a <= t <= b -> derivable_pt_lim F t (F1 t)) -> (forall t, a <= t <= b -> 0 <= F1 t) ->
  F a <= F b.
Proof.
  intros Hab D P. destruct (Rle_lt_or_eq_dec a b Hab) as [L| ->]; [|lra].
  destruct (MVT_cor2 F F1 a b L) as (c & E & Hc); [exact D|]. assert (0 <= F1 c) by (apply P; lra). nra.
Qed.
Lemma d_lin k a t : derivable_pt_lim (fun t => k * (t - a)) t k.
Proof.
  assert (D : derivable_pt_lim (fun t => k * (t - a)) t (k * (1 - 0))).
  { apply (derivable_pt_lim_scal (fun t => t - a)).
    apply (derivable_pt_lim_minus id (fct_cte a)); [apply derivable_pt_lim_id|apply derivable_pt_lim_const]. }
  replace (k * (1 - 0)) with k in D by ring. exact D.
Qed.
Lemma d_quad k a t : derivable_pt_lim (fun t => k * ((t - a) * (t - a))) t (2 * k * (t - a)).
Proof.
  replace (2 * k * (t - a)) with (k * (1 * (t - a) + (t - a) * 1)) by ring. apply (derivable_pt_lim_scal (fun t => (t - a) * (t - a))).
  assert (D : derivable_pt_lim (fun t => t - a) t 1).
  { replace 1 with (1 - 0) by ring. apply (derivable_pt_lim_minus id (fct_cte a)); [apply derivable_pt_lim_id|apply derivable_pt_lim_const]. }
  apply (derivable_pt_lim_mult (fun t => t - a) (fun t => t - a)); exact D.
Qed.

(** upper bounds of [H] near each end, from a bound on the slope *)
Lemma right_of a b m : a <= b -> (forall t, a <= t <= b -> m <= h1 t) ->
  h a * (b - a) + m / 2 * ((b - a) * (b - a)) <= H b - H a.
Proof.
  intros Hab Hm.
  assert (S1 : forall t, a <= t <= b -> h a + m * (t - a) <= h t).
  { intros t Ht. pose proof (grow (fun t => h t - m * (t - a)) (fun t => h1 t - m) a t ltac:(lra)) as G. cbv beta in G.
    enough (h a - m * (a - a) <= h t - m * (t - a)) by lra. apply G.
    - intros s Hs. apply (derivable_pt_lim_minus h (fun t => m * (t - a))); [apply Dh|apply d_lin].
    - intros s Hs. specialize (Hm s ltac:(lra)). lra. }
  pose proof (grow (fun t => H t - h a * (t - a) - m / 2 * ((t - a) * (t - a))) (fun t => h t - h a - 2 * (m / 2) * (t - a)) a b Hab) as G.
  cbv beta in G. enough (H a - h a * (a - a) - m / 2 * ((a - a) * (a - a)) <= H b - h a * (b - a) - m / 2 * ((b - a) * (b - a))) by lra.
  apply G.
  - intros s Hs. apply (derivable_pt_lim_minus (fun t => H t - h a * (t - a)) (fun t => m / 2 * ((t - a) * (t - a)))); [|apply d_quad].
    apply (derivable_pt_lim_minus H (fun t => h a * (t - a))); [apply DH|apply d_lin].
  - intros s Hs. specialize (S1 s Hs). lra.
Qed.
End Cell.

Lemma right_of' h h1 H a b m : (forall t, derivable_pt_lim h t (h1 t)) -> (forall t, derivable_pt_lim H t (h t)) ->
  a <= b -> (forall t, a <= t <= b -> h1 t <= m) -> H b - H a <= h a * (b - a) + m / 2 * ((b - a) * (b - a)).
Proof.
  intros Dh DH Hab Hm.
  pose proof (right_of (fun t => - h t) (fun t => - h1 t) (fun t => - H t)) as R0.
  specialize (R0 (fun t => derivable_pt_lim_opp h t (h1 t) (Dh t)) (fun t => derivable_pt_lim_opp H t (h t) (DH t)) a b (- m) Hab).
  cbv beta in R0. assert (forall t, a <= t <= b -> - m <= - h1 t) as R1 by (intros t Ht; specialize (Hm t Ht); lra).
  specialize (R0 R1). lra.
Qed.
(** the mirror images *)
Lemma d_mirror F x l : derivable_pt_lim F (- x) l -> derivable_pt_lim (fun t => F (- t)) x (- l).
Proof.
  intros D. replace (- l) with (l * -1) by ring. apply (derivable_pt_lim_comp (fun t => - t) F); [|exact D].
  replace (-1) with (- 1) by ring. apply (derivable_pt_lim_opp id x 1), derivable_pt_lim_id.
Qed.
Lemma left_of h h1 H a b m : (forall t, derivable_pt_lim h t (h1 t)) -> (forall t, derivable_pt_lim H t (h t)) ->
  a <= b -> (forall t, a <= t <= b -> h1 t <= m) -> h b * (b - a) - m / 2 * ((b - a) * (b - a)) <= H b - H a.
Proof.
  intros Dh DH Hab Hm.
  pose proof (right_of (fun t => h (- t)) (fun t => - h1 (- t)) (fun t => - H (- t))) as R0.
  assert (D1 : forall t, derivable_pt_lim (fun t => h (- t)) t (- h1 (- t))) by (intros t; apply d_mirror, Dh).
  assert (D2 : forall t, derivable_pt_lim (fun t => - H (- t)) t (h (- t))).
  { intros t. replace (h (- t)) with (- - h (- t)) by ring. apply (derivable_pt_lim_opp (fun t => H (- t))). apply d_mirror, DH. }
  specialize (R0 D1 D2 (- b) (- a) (- m) ltac:(lra)). cbv beta in R0. rewrite !Ropp_involutive in R0.
  assert (forall t, - b <= t <= - a -> - m <= - h1 (- t)) as R1 by (intros t Ht; specialize (Hm (- t) ltac:(lra)); lra).
  specialize (R0 R1). replace (- a - - b) with (b - a) in R0 by ring. lra.
Qed.
Lemma left_of' h h1 H a b m : (forall t, derivable_pt_lim h t (h1 t)) -> (forall t, derivable_pt_lim H t (h t)) ->
  a <= b -> (forall t, a <= t <= b -> m <= h1 t) -> H b - H a <= h b * (b - a) - m / 2 * ((b - a) * (b - a)).
Proof.
  intros Dh DH Hab Hm.
  pose proof (left_of (fun t => - h t) (fun t => - h1 t) (fun t => - H t) a b (- m)) as R0.
  specialize (R0 (fun t => derivable_pt_lim_opp h t (h1 t) (Dh t)) (fun t => derivable_pt_lim_opp H t (h t) (DH t)) Hab).
  cbv beta in R0. assert (forall t, a <= t <= b -> - h1 t <= - m) as R1 by (intros t Ht; specialize (Hm t Ht); lra).
  specialize (R0 R1). lra.
Qed.

(** one cell of the trapezoid rule *)
Lemma trapz_cell h h1 H V a d : (forall t, derivable_pt_lim h t (h1 t)) -> (forall t, derivable_pt_lim H t (h t)) ->
  (forall s t, s <= t -> Rabs (h1 t - h1 s) <= V t - V s) -> 0 < d ->
  Rabs (d / 2 * (h a + h (a + d)) - (H (a + d) - H a)) <= d ^ 2 / 8 * (V (a + d) - V a).
Proof.
  intros Dh DH HV Hd. set (b := a + d).
  set (m := (V a + h1 a) / 2 - (V b - h1 b) / 2). set (M := (V b + h1 b) / 2 - (V a - h1 a) / 2).
  assert (B : forall t, a <= t <= b -> m <= h1 t <= M).
  { intros t Ht. pose proof (HV a t ltac:(lra)) as V1. pose proof (HV t b ltac:(lra)) as V2.
    pose proof (Rle_abs (h1 t - h1 a)). pose proof (Rle_abs (h1 b - h1 t)). pose proof (Rle_abs (- (h1 t - h1 a))) as N1.
    pose proof (Rle_abs (- (h1 b - h1 t))) as N2. rewrite Rabs_Ropp in N1, N2. unfold m, M. lra. }
  assert (EM : M - m = V b - V a) by (unfold m, M; lra).
  set (c := a + d / 2).
  pose proof (right_of h h1 H Dh DH a c m ltac:(unfold c; lra) (fun t Ht => proj1 (B t ltac:(unfold c, b in *; lra)))) as R1.
  pose proof (right_of' h h1 H a c M Dh DH ltac:(unfold c; lra) (fun t Ht => proj2 (B t ltac:(unfold c, b in *; lra)))) as R2.
  pose proof (left_of h h1 H c b M Dh DH ltac:(unfold c, b; lra) (fun t Ht => proj2 (B t ltac:(unfold c, b in *; lra)))) as R3.
  pose proof (left_of' h h1 H c b m Dh DH ltac:(unfold c, b; lra) (fun t Ht => proj1 (B t ltac:(unfold c, b in *; lra)))) as R4.
  replace (c - a) with (d / 2) in R1, R2 by (unfold c; ring). replace (b - c) with (d / 2) in R3, R4 by (unfold c, b; field).
  rewrite <- EM. apply Rabs_le. split; nra.
Qed.

(** on the grid [a + i d] *)
Lemma trapz_grid h h1 H V a d : (forall t, derivable_pt_lim h t (h1 t)) -> (forall t, derivable_pt_lim H t (h t)) ->
  (forall s t, s <= t -> Rabs (h1 t - h1 s) <= V t - V s) -> 0 < d -> forall L,
  Rabs (d * Rsum (S L) (fun i => h (a + INR i * d)) - d / 2 * (h a + h (a + INR L * d)) - (H (a + INR L * d) - H a))
    <= d ^ 2 / 8 * (V (a + INR L * d) - V a).
Proof.
  intros Dh DH HV Hd. induction L as [|L IH].
  - cbn [Rsum INR]. replace (a + 0 * d) with a by ring. replace (_ - _ - _) with 0 by field. rewrite Rabs_R0. lra.
  - pose proof (trapz_cell h h1 H V (a + INR L * d) d Dh DH HV Hd) as C.
    replace (a + INR L * d + d) with (a + INR (S L) * d) in C by (rewrite S_INR; ring).
    change (Rsum (S (S L)) (fun i => h (a + INR i * d))) with (Rsum (S L) (fun i => h (a + INR i * d)) + h (a + INR (S L) * d)).
    set (Sm := Rsum (S L) (fun i => h (a + INR i * d))) in *. set (x := a + INR L * d) in *. set (y := a + INR (S L) * d) in *.
    replace (d * (Sm + h y) - d / 2 * (h a + h y) - (H y - H a)) with
      ((d * Sm - d / 2 * (h a + h x) - (H x - H a)) + (d / 2 * (h x + h y) - (H y - H x))) by field.
    eapply Rle_trans; [apply Rabs_triang|]. lra.
Qed.

(** the same in the variable [w = exp t] *)
Lemma log_chain F F1 t : (forall w, 0 < w -> derivable_pt_lim F w (F1 w / w)) -> derivable_pt_lim (fun t => F (exp t)) t (F1 (exp t)).
Proof.
  intros D. pose proof (exp_pos t). replace (F1 (exp t)) with (F1 (exp t) / exp t * exp t) by (field; lra).
  apply (derivable_pt_lim_comp exp F); [apply derivable_pt_lim_exp|apply D; lra].
Qed.
Theorem sum_vs_integral2 g q V P d u0 L : log_variation g q V -> log_primitive g P -> 0 < u0 -> 0 < d ->
  let u i := u0 * exp (INR i * d) in
  Rabs (d * Rsum (S L) (fun i => g (u i)) - d / 2 * (g (u 0%nat) + g (u L)) - (P (u L) - P (u 0%nat)))
    <= d ^ 2 / 8 * (V (u L) - V (u 0%nat)).
Proof.
  intros (Dg & HV) HP Hu Hd u. set (a := ln u0).
  assert (E : forall i, u i = exp (a + INR i * d)) by (intros i; unfold u, a; now rewrite exp_plus, exp_ln).
  assert (E0 : u 0%nat = exp a) by (rewrite E; f_equal; cbn; ring).
  pose proof (trapz_grid (fun t => g (exp t)) (fun t => q (exp t)) (fun t => P (exp t)) (fun t => V (exp t)) a d) as T.
  specialize (T (fun t => log_chain g q t Dg) (fun t => log_chain P g t HP)). cbv beta in T.
  rewrite E0, E. erewrite Rsum_ext by (intros i Hi; rewrite E; reflexivity). apply T; [|exact Hd].
  intros s t Hst. apply HV; [apply exp_pos|]. destruct Hst as [Hst| ->]; [left; apply exp_increasing; exact Hst|lra].
Qed.
