(** Improper integrals: linearity, substitution, and the Gamma function. *)
From Coq Require Import Reals Lra Lia.
From Verif Require Import Integral.
Local Open Scope R_scope.

(** ** Riemann integrals *)
Lemma integral_unique f a b u v : integral f a b u -> integral f a b v -> u = v.
Proof. intros [p <-] [q <-]. apply RiemannInt_P5. Qed.

Lemma integral_cont f a b : a <= b -> (forall x, a <= x <= b -> continuity_pt f x) ->
  exists v, integral f a b v.
Proof.
  intros H C. exists (RiemannInt (continuity_implies_RiemannInt H C)).
  exists (continuity_implies_RiemannInt H C). reflexivity.
Qed.

Lemma integral_lin f g a b l u v : integral f a b u -> integral g a b v ->
  integral (fun x => f x + l * g x) a b (u + l * v).
Proof.
  intros [p <-] [q <-]. exists (RiemannInt_P10 l p q). apply RiemannInt_P13.
Qed.

Lemma integral_ext f g a b v : a <= b -> (forall x, a <= x <= b -> f x = g x) ->
  integral f a b v -> integral g a b v.
Proof.
  intros H E [p <-].
  assert (E' : forall x, Rmin a b <= x <= Rmax a b -> f x = g x).
  { intros x Hx. rewrite Rmin_left, Rmax_right in Hx by lra. now apply E. }
  exists (Riemann_integrable_ext g E' p). symmetry. apply RiemannInt_P18; [lra|].
  intros x Hx. apply E. lra.
Qed.

Lemma integral_le f g a b u v : a <= b -> (forall x, a < x < b -> f x <= g x) ->
  integral f a b u -> integral g a b v -> u <= v.
Proof. intros H E [p <-] [q <-]. now apply RiemannInt_P19. Qed.

Lemma integral_chasles f a b c u v w :
  integral f a b u -> integral f b c v -> integral f a c w -> u + v = w.
Proof. intros [p <-] [q <-] [r <-]. apply RiemannInt_P26. Qed.

Lemma integral_const a b c : integral (fun _ => c) a b (c * (b - a)).
Proof. exists (RiemannInt_P14 a b c). apply RiemannInt_P15. Qed.

Lemma integral_nonneg f a b v : a <= b -> (forall x, a < x < b -> 0 <= f x) ->
  integral f a b v -> 0 <= v.
Proof.
  intros H E I. pose proof (integral_const a b 0) as Z. rewrite Rmult_0_l in Z.
  exact (integral_le _ _ a b 0 v H E Z I).
Qed.

Lemma integral_ftc f F a b : a <= b -> (forall x, a <= x <= b -> continuity_pt f x) ->
  (forall x, a <= x <= b -> derivable_pt_lim F x (f x)) -> integral f a b (F b - F a).
Proof.
  intros H C D. pose proof (RiemannInt_P29 H C) as A1.
  assert (A2 : antiderivative f F a b).
  { split; [|exact H]. intros x Hx. exists (exist _ (f x) (D x Hx)). reflexivity. }
  destruct (antiderivative_Ucte f _ _ a b A1 A2) as [c Hc].
  exists (FTC_P1 H C H (Rle_refl b)).
  rewrite (RiemannInt_P20 H (FTC_P1 H C) (FTC_P1 H C H (Rle_refl b))).
  rewrite (Hc b), (Hc a) by lra. ring.
Qed.

(** substitution, for an increasing function *)
Lemma integral_subst f p p' a b v : a <= b ->
  (forall x y, a <= x <= y -> y <= b -> p x <= p y) ->
  (forall x, a <= x <= b -> derivable_pt_lim p x (p' x)) ->
  (forall x, a <= x <= b -> continuity_pt p' x) ->
  (forall y, p a <= y <= p b -> continuity_pt f y) ->
  integral f (p a) (p b) v -> integral (fun x => f (p x) * p' x) a b v.
Proof.
  intros H M D C' C I.
  assert (Hp : p a <= p b) by (apply M; lra).
  pose proof (RiemannInt_P28) as Q. specialize (Q f (p a) (p b)).
  set (P := primitive Hp (FTC_P1 Hp C)).
  assert (E : v = P (p b) - P (p a)).
  { destruct I as [r <-]. apply RiemannInt_P20. }
  rewrite E.
  apply (integral_ftc (fun x => f (p x) * p' x) (fun x => P (p x)) a b H).
  - intros x Hx. apply (continuity_pt_mult (fun x => f (p x)) p' x); [|now apply C'].
    apply (continuity_pt_comp p f x).
    + apply derivable_continuous_pt. exists (p' x). now apply D.
    + apply C. split; apply M; lra.
  - intros x Hx.
    apply (derivable_pt_lim_comp p P x (p' x) (f (p x))); [now apply D|].
    apply Q. split; apply M; lra.
Qed.

(** ** Integrals over (0, oo) *)
Lemma impint_unique f u v : impint f u -> impint f v -> u = v.
Proof.
  intros Hu Hv. destruct (Req_dec u v) as [E|N]; [exact E|exfalso].
  assert (P : 0 < Rabs (u - v) / 2) by (assert (0 < Rabs (u - v)) by (apply Rabs_pos_lt; lra); lra).
  destruct (Hu _ P) as [A1 [B1 [L1 K1]]]. destruct (Hv _ P) as [A2 [B2 [L2 K2]]].
  set (a := Rmin A1 A2 / 2). set (b := Rmax B1 B2 + 1).
  assert (Ha : 0 < a /\ a < A1 /\ a < A2).
  { unfold a. assert (0 < Rmin A1 A2) by (apply Rmin_pos; lra).
    pose proof (Rmin_l A1 A2). pose proof (Rmin_r A1 A2). lra. }
  assert (Hb : B1 < b /\ B2 < b).
  { unfold b. pose proof (Rmax_l B1 B2). pose proof (Rmax_r B1 B2). lra. }
  destruct (K1 a b) as [x [Ix Hx]]; [lra|lra|].
  destruct (K2 a b) as [y [Iy Hy]]; [lra|lra|].
  pose proof (integral_unique _ _ _ _ _ Ix Iy) as E. subst y.
  assert (Rabs (u - v) <= Rabs (x - u) + Rabs (x - v)).
  { replace (u - v) with ((x - v) - (x - u)) by ring.
    eapply Rle_trans; [apply Rabs_triang|]. rewrite Rabs_Ropp. lra. }
  lra.
Qed.

Lemma impint_ext f g l : (forall x, 0 < x -> f x = g x) -> impint f l -> impint g l.
Proof.
  intros E I eps P. destruct (I eps P) as [A [B [L K]]]. exists A, B. split; [exact L|].
  intros a b Ha Hb. destruct (K a b Ha Hb) as [v [Iv Hv]]. exists v. split; [|exact Hv].
  apply (integral_ext f g a b v); [lra| |exact Iv]. intros x Hx. apply E. lra.
Qed.

Lemma impint_lin f g c u v : impint f u -> impint g v ->
  impint (fun x => f x + c * g x) (u + c * v).
Proof.
  intros If Ig eps P.
  assert (P1 : 0 < eps / 2) by lra.
  assert (P2 : 0 < eps / (2 * (Rabs c + 1))).
  { apply Rdiv_lt_0_compat; [lra|]. pose proof (Rabs_pos c). lra. }
  destruct (If _ P1) as [A1 [B1 [L1 K1]]]. destruct (Ig _ P2) as [A2 [B2 [L2 K2]]].
  exists (Rmin A1 A2), (Rmax B1 B2).
  assert (LA : 0 < Rmin A1 A2) by (apply Rmin_pos; lra).
  pose proof (Rmin_l A1 A2). pose proof (Rmin_r A1 A2).
  pose proof (Rmax_l B1 B2). pose proof (Rmax_r B1 B2).
  split; [lra|]. intros a b Ha Hb.
  destruct (K1 a b) as [x [Ix Hx]]; [lra|lra|].
  destruct (K2 a b) as [y [Iy Hy]]; [lra|lra|].
  exists (x + c * y). split; [now apply integral_lin|].
  replace (x + c * y - (u + c * v)) with ((x - u) + c * (y - v)) by ring.
  eapply Rle_lt_trans; [apply Rabs_triang|]. rewrite Rabs_mult.
  assert (Rabs c * Rabs (y - v) <= (Rabs c + 1) * (eps / (2 * (Rabs c + 1)))).
  { pose proof (Rabs_pos c). pose proof (Rabs_pos (y - v)).
    apply Rmult_le_compat; lra. }
  replace ((Rabs c + 1) * (eps / (2 * (Rabs c + 1)))) with (eps / 2) in H3; [lra|].
  field. pose proof (Rabs_pos c). lra.
Qed.

Lemma impint_zero : impint (fun _ => 0) 0.
Proof.
  intros eps P. exists 1, 1. split; [lra|]. intros a b Ha Hb. exists (0 * (b - a)).
  split; [apply integral_const|]. rewrite Rmult_0_l, Rminus_0_r, Rabs_R0. exact P.
Qed.
Lemma impint_scal f c u : impint f u -> impint (fun x => c * f x) (c * u).
Proof.
  intros I. pose proof (impint_lin _ _ c _ _ impint_zero I) as K.
  rewrite Rplus_0_l in K. eapply impint_ext; [|exact K]. intros x _. simpl. ring.
Qed.
Lemma impint_plus f g u v : impint f u -> impint g v -> impint (fun x => f x + g x) (u + v).
Proof.
  intros I J. pose proof (impint_lin _ _ 1 _ _ I J) as K. rewrite Rmult_1_l in K.
  eapply impint_ext; [|exact K]. intros x _. simpl. ring.
Qed.

(** a nonnegative continuous function with bounded integrals *)
Lemma impint_exists f M : (forall x, 0 < x -> continuity_pt f x) -> (forall x, 0 < x -> 0 <= f x) ->
  (forall a b v, 0 < a <= b -> integral f a b v -> v <= M) -> { l | impint f l }.
Proof.
  intros C P B.
  set (E := fun v => exists a b, 0 < a <= b /\ integral f a b v).
  assert (HB : bound E).
  { exists M. intros v [a [b [H I]]]. now apply (B a b). }
  assert (HE : exists v, E v).
  { destruct (integral_cont f 1 1) as [v I]; [lra|intros x Hx; apply C; lra|].
    exists v, 1, 1. split; [lra|exact I]. }
  destruct (completeness E HB HE) as [l [U L]]. exists l. intros eps He.
  destruct (Classical_Prop.classic (exists v, E v /\ l - eps < v)) as [[v [[a0 [b0 [H0 I0]]] Hv]]|N].
  - exists a0, b0. split; [exact H0|]. intros a b Ha Hb.
    destruct (integral_cont f a b) as [w Iw]; [lra|intros x Hx; apply C; lra|].
    exists w. split; [exact Iw|].
    assert (w <= l) by (apply U; exists a, b; split; [lra|exact Iw]).
    destruct (integral_cont f a a0) as [w1 I1]; [lra|intros x Hx; apply C; lra|].
    destruct (integral_cont f b0 b) as [w2 I2]; [lra|intros x Hx; apply C; lra|].
    destruct (integral_cont f a b0) as [w3 I3]; [lra|intros x Hx; apply C; lra|].
    pose proof (integral_chasles _ _ _ _ _ _ _ I1 I0 I3).
    pose proof (integral_chasles _ _ _ _ _ _ _ I3 I2 Iw).
    assert (0 <= w1) by (apply (integral_nonneg f a a0); [lra|intros x Hx; apply P; lra|exact I1]).
    assert (0 <= w2) by (apply (integral_nonneg f b0 b); [lra|intros x Hx; apply P; lra|exact I2]).
    rewrite Rabs_left1 by lra. lra.
  - exfalso. assert (l <= l - eps); [|lra]. apply L. intros v Ev.
    destruct (Rle_dec v (l - eps)) as [X|X]; [exact X|]. exfalso. apply N. exists v. split; [exact Ev|lra].
Qed.

(** ** The integrand of Gamma *)
Definition gint (x t : R) : R := Rpower t (x - 1) * exp (- t).

Lemma Rpower_pos t s : 0 < Rpower t s.
Proof. unfold Rpower. apply exp_pos. Qed.

Lemma derivable_pt_lim_exp_opp t : derivable_pt_lim (fun t => exp (- t)) t (- exp (- t)).
Proof.
  replace (- exp (- t)) with (exp (- t) * (-1)) by ring.
  apply (derivable_pt_lim_comp Ropp exp t (-1) (exp (- t))).
  - apply (derivable_pt_lim_opp id t 1). apply derivable_pt_lim_id.
  - apply derivable_pt_lim_exp.
Qed.

Lemma gint_cont x t : 0 < t -> continuity_pt (gint x) t.
Proof.
  intros H. unfold gint. apply (continuity_pt_mult (fun t => Rpower t (x - 1)) (fun t => exp (- t)) t).
  - apply derivable_continuous_pt. eexists. now apply derivable_pt_lim_power.
  - apply derivable_continuous_pt. eexists. apply derivable_pt_lim_exp_opp.
Qed.
Lemma gint_pos x t : 0 < gint x t.
Proof. apply Rmult_lt_0_compat; [apply Rpower_pos|apply exp_pos]. Qed.

Lemma ln_le_sub1 u : 0 < u -> ln u <= u - 1.
Proof.
  intros H. destruct (Rle_dec (ln u) (u - 1)) as [L|L]; [exact L|exfalso].
  assert (exp (u - 1) < u).
  { rewrite <- (exp_ln u) at 2 by exact H. apply exp_increasing. lra. }
  pose proof (exp_ineq1_le (u - 1)). lra.
Qed.

(** a bounded primitive of something larger *)
Definition hdom (x t : R) : R := exp (x * (ln t - ln (1 + t))).
Lemma hdom_bounds x t : 0 < x -> 0 < t -> 0 < hdom x t < 1.
Proof.
  intros Hx Ht. unfold hdom. split; [apply exp_pos|].
  apply Rlt_le_trans with (exp 0); [apply exp_increasing|rewrite exp_0; lra].
  assert (ln t < ln (1 + t)) by (apply ln_increasing; lra). nra.
Qed.
Lemma hdom_deriv x t : 0 < t ->
  derivable_pt_lim (hdom x) t (hdom x t * (x * (/ t - / (1 + t)))).
Proof.
  intros H. unfold hdom.
  apply (derivable_pt_lim_comp (fun t => x * (ln t - ln (1 + t))) exp t).
  - apply (derivable_pt_lim_scal (fun t => ln t - ln (1 + t)) x t).
    apply (derivable_pt_lim_minus ln (fun t => ln (1 + t)) t).
    + now apply derivable_pt_lim_ln.
    + replace (/ (1 + t)) with (/ (1 + t) * (0 + 1)) by ring.
      apply (derivable_pt_lim_comp (fun t => 1 + t) ln t).
      * apply (derivable_pt_lim_plus (fun _ => 1) id t); [apply derivable_pt_lim_const|apply derivable_pt_lim_id].
      * apply derivable_pt_lim_ln. lra.
  - apply derivable_pt_lim_exp.
Qed.
Definition hbound (x : R) : R := exp (1 - (x + 1) + (x + 1) * ln (x + 1)) / x.
Lemma gint_dominated x t : 0 < x -> 0 < t ->
  gint x t <= hbound x * (hdom x t * (x * (/ t - / (1 + t)))).
Proof.
  intros Hx Ht.
  replace (x * (/ t - / (1 + t))) with (x * (/ t * / (1 + t))) by (field; lra).
  replace (hbound x * (hdom x t * (x * (/ t * / (1 + t)))))
    with (exp (1 - (x + 1) + (x + 1) * ln (x + 1)) * (hdom x t * (/ t * / (1 + t))))
    by (unfold hbound; field; lra).
  rewrite <- (exp_ln (/ t)), <- (exp_ln (/ (1 + t))) by (apply Rinv_0_lt_compat; lra).
  unfold hdom, gint, Rpower. rewrite <- !exp_plus. rewrite !ln_Rinv by lra.
  assert (L : ln (1 + t) <= (1 + t) / (x + 1) - 1 + ln (x + 1)).
  { assert (E : ln (1 + t) = ln ((1 + t) / (x + 1)) + ln (x + 1)).
    { rewrite <- ln_mult; [f_equal; field; lra| |lra]. apply Rdiv_lt_0_compat; lra. }
    rewrite E. apply Rplus_le_compat_r. apply ln_le_sub1. apply Rdiv_lt_0_compat; lra. }
  assert (L2 : (x + 1) * ln (1 + t) <= 1 + t - (x + 1) + (x + 1) * ln (x + 1)).
  { replace (1 + t - (x + 1) + (x + 1) * ln (x + 1))
      with ((x + 1) * ((1 + t) / (x + 1) - 1 + ln (x + 1))) by (field; lra).
    apply Rmult_le_compat_l; lra. }
  match goal with |- exp ?u <= exp ?v => assert (Q : u <= v) by lra end.
  destruct Q as [Q|Q]; [left; now apply exp_increasing|rewrite Q; lra].
Qed.

Lemma gint_bounded x a b v : 0 < x -> 0 < a <= b -> integral (gint x) a b v -> v <= hbound x.
Proof.
  intros Hx Hab I.
  set (h' := fun t => hbound x * (hdom x t * (x * (/ t - / (1 + t))))).
  assert (K : 0 < hbound x) by (apply Rdiv_lt_0_compat; [apply exp_pos|exact Hx]).
  assert (J : integral h' a b (hbound x * hdom x b - hbound x * hdom x a)).
  { apply (integral_ftc h' (fun t => hbound x * hdom x t) a b); [lra| |].
    - intros t Ht. unfold h'.
      apply (continuity_pt_mult (fun _ => hbound x)); [apply continuity_pt_const; now intros ? ?|].
      apply (continuity_pt_mult (hdom x)).
      + apply derivable_continuous_pt. eexists. apply hdom_deriv. lra.
      + apply (continuity_pt_mult (fun _ => x)); [apply continuity_pt_const; now intros ? ?|].
        apply (continuity_pt_minus (fun t => / t) (fun t => / (1 + t))).
        * apply (continuity_pt_inv id t); [apply derivable_continuous_pt, derivable_pt_id|unfold id; lra].
        * apply (continuity_pt_inv (fun t => 1 + t) t); [|lra].
          apply (continuity_pt_plus (fun _ => 1) id); [apply continuity_pt_const; now intros ? ?|].
          apply derivable_continuous_pt, derivable_pt_id.
    - intros t Ht. apply (derivable_pt_lim_scal (hdom x) (hbound x) t). apply hdom_deriv. lra. }
  assert (v <= hbound x * hdom x b - hbound x * hdom x a).
  { apply (integral_le (gint x) h' a b); [lra| |exact I|exact J].
    intros t Ht. apply gint_dominated; lra. }
  pose proof (hdom_bounds x a Hx ltac:(lra)). pose proof (hdom_bounds x b Hx ltac:(lra)). nra.
Qed.

(** ** A Gamma function exists *)
Lemma gamma_exists x : 0 < x -> { l | impint (gint x) l }.
Proof.
  intros H. apply (impint_exists (gint x) (hbound x)).
  - intros t Ht. now apply gint_cont.
  - intros t _. left. apply gint_pos.
  - intros a b v. now apply gint_bounded.
Qed.
Definition EulerGamma (x : R) : R :=
  match Rlt_dec 0 x with left h => proj1_sig (gamma_exists x h) | right _ => 1 end.
Lemma EulerGamma_is_Gamma : is_Gamma EulerGamma.
Proof.
  intros x H. unfold EulerGamma. destruct (Rlt_dec 0 x) as [h|n]; [|contradiction].
  exact (proj2_sig (gamma_exists x h)).
Qed.

(** ** Consequences of Euler's integral *)
Lemma Gamma_unique G1 G2 x : is_Gamma G1 -> is_Gamma G2 -> 0 < x -> G1 x = G2 x.
Proof. intros H1 H2 Hx. exact (impint_unique _ _ _ (H1 x Hx) (H2 x Hx)). Qed.

Lemma impint_pos f l a0 b0 v : (forall x, 0 < x -> continuity_pt f x) -> (forall x, 0 < x -> 0 <= f x) ->
  0 < a0 <= b0 -> integral f a0 b0 v -> impint f l -> v <= l.
Proof.
  intros C P H0 I0 I. destruct (Rle_dec v l) as [L|L]; [exact L|exfalso].
  assert (E : 0 < v - l) by lra. destruct (I _ E) as [A [B [LAB K]]].
  set (a := Rmin (A / 2) a0). set (b := Rmax (B + 1) b0).
  assert (Ha : 0 < a < A /\ a <= a0).
  { unfold a. pose proof (Rmin_l (A / 2) a0). pose proof (Rmin_r (A / 2) a0).
    assert (0 < Rmin (A / 2) a0) by (apply Rmin_pos; lra). lra. }
  assert (Hb : B < b /\ b0 <= b).
  { unfold b. pose proof (Rmax_l (B + 1) b0). pose proof (Rmax_r (B + 1) b0). lra. }
  destruct (K a b) as [w [Iw Hw]]; [lra|lra|].
  destruct (integral_cont f a a0) as [w1 I1]; [lra|intros x Hx; apply C; lra|].
  destruct (integral_cont f b0 b) as [w2 I2]; [lra|intros x Hx; apply C; lra|].
  destruct (integral_cont f a b0) as [w3 I3]; [lra|intros x Hx; apply C; lra|].
  pose proof (integral_chasles _ _ _ _ _ _ _ I1 I0 I3).
  pose proof (integral_chasles _ _ _ _ _ _ _ I3 I2 Iw).
  assert (0 <= w1) by (apply (integral_nonneg f a a0); [lra|intros x Hx; apply P; lra|exact I1]).
  assert (0 <= w2) by (apply (integral_nonneg f b0 b); [lra|intros x Hx; apply P; lra|exact I2]).
  apply Rabs_def2 in Hw. lra.
Qed.

Lemma Gamma_pos G x : is_Gamma G -> 0 < x -> 0 < G x.
Proof.
  intros H Hx. specialize (H x Hx). change (impint (gint x) (G x)) in H.
  (* lower bound on [1, 2]: the integrand is at least its least value there *)
  set (m := exp (- Rabs (x - 1) - 2)).
  assert (Hm : forall t, 1 < t < 2 -> m <= gint x t).
  { intros t Ht. unfold m, gint, Rpower. rewrite <- exp_plus.
    assert (L : 0 < ln t < 1).
    { split; [rewrite <- ln_1; apply ln_increasing; lra|].
      pose proof (ln_le_sub1 t ltac:(lra)). lra. }
    assert (- Rabs (x - 1) <= (x - 1) * ln t).
    { pose proof (Rle_abs (- (x - 1))). rewrite Rabs_Ropp in H0. pose proof (Rabs_pos (x - 1)). nra. }
    assert (Q : - Rabs (x - 1) - 2 <= (x - 1) * ln t + - t) by lra.
    destruct Q as [Q|Q]; [left; now apply exp_increasing|rewrite Q; lra]. }
  destruct (integral_cont (gint x) 1 2) as [v Iv]; [lra|intros t Ht; apply gint_cont; lra|].
  pose proof (integral_const 1 2 m) as Ic.
  pose proof (integral_le _ _ 1 2 _ _ ltac:(lra) Hm Ic Iv) as L.
  assert (v <= G x).
  { apply (impint_pos (gint x) (G x) 1 2 v); [|intros t _; left; apply gint_pos|lra|exact Iv|exact H].
    intros t Ht. now apply gint_cont. }
  assert (0 < m) by apply exp_pos. lra.
Qed.

(** the boundary terms *)
Lemma gint_small_left s eps : 0 < s -> 0 < eps -> exists A, 0 < A /\ forall a, 0 < a < A ->
  Rpower a s * exp (- a) < eps.
Proof.
  intros Hs He. exists (exp (ln eps / s)). split; [apply exp_pos|]. intros a Ha.
  assert (L : ln a < ln eps / s).
  { rewrite <- (ln_exp (ln eps / s)). apply ln_increasing; lra. }
  unfold Rpower. rewrite <- exp_plus. rewrite <- (exp_ln eps) by exact He.
  apply exp_increasing.
  assert (s * ln a < ln eps).
  { replace (ln eps) with (s * (ln eps / s)) by (field; lra). apply Rmult_lt_compat_l; lra. }
  lra.
Qed.
Lemma gint_small_right s eps : 0 < s -> 0 < eps -> exists B, 0 < B /\ forall b, B < b ->
  Rpower b s * exp (- b) < eps.
Proof.
  intros Hs He.
  set (B := Rmax 1 (2 * (s * (ln (2 * s) - 1) - ln eps))).
  assert (HB : 1 <= B /\ 2 * (s * (ln (2 * s) - 1) - ln eps) <= B).
  { unfold B. split; [apply Rmax_l|apply Rmax_r]. }
  exists B. split; [lra|]. intros b Hb.
  unfold Rpower. rewrite <- exp_plus. rewrite <- (exp_ln eps) by exact He.
  apply exp_increasing.
  assert (L : ln b <= b / (2 * s) - 1 + ln (2 * s)).
  { assert (E : ln b = ln (b / (2 * s)) + ln (2 * s)).
    { rewrite <- ln_mult; [f_equal; field; lra| |lra]. apply Rdiv_lt_0_compat; lra. }
    rewrite E. apply Rplus_le_compat_r. apply ln_le_sub1. apply Rdiv_lt_0_compat; lra. }
  assert (s * ln b <= b / 2 + s * (ln (2 * s) - 1)).
  { replace (b / 2 + s * (ln (2 * s) - 1)) with (s * (b / (2 * s) - 1 + ln (2 * s))) by (field; lra).
    apply Rmult_le_compat_l; lra. }
  lra.
Qed.

Lemma Gamma_succ G x : is_Gamma G -> 0 < x -> G (x + 1) = x * G x.
Proof.
  intros H Hx.
  pose proof (H x Hx) as I1. pose proof (H (x + 1) ltac:(lra)) as I2.
  pose proof (impint_lin _ _ (-1) _ _ (impint_scal _ x _ I1) I2) as K.
  assert (Z : impint (fun t => x * (Rpower t (x - 1) * exp (- t)) +
                               -1 * (Rpower t (x + 1 - 1) * exp (- t))) 0).
  { intros eps He.
    destruct (gint_small_left x (eps / 2) Hx ltac:(lra)) as [A [HA KA]].
    destruct (gint_small_right x (eps / 2) Hx ltac:(lra)) as [B [HB KB]].
    exists (Rmin A B), B. split; [split; [apply Rmin_pos; lra|apply Rmin_r]|].
    intros a b Ha Hb. pose proof (Rmin_l A B). pose proof (Rmin_r A B).
    exists (Rpower b x * exp (- b) - Rpower a x * exp (- a)). split.
    - apply (integral_ftc _ (fun t => Rpower t x * exp (- t)) a b); [lra| |].
      + intros t Ht.
        apply (continuity_pt_plus (fun t => x * (Rpower t (x - 1) * exp (- t)))
                                  (fun t => -1 * (Rpower t (x + 1 - 1) * exp (- t)))).
        * apply (continuity_pt_mult (fun _ => x)); [apply continuity_pt_const; now intros ? ?|].
          apply (gint_cont x). lra.
        * apply (continuity_pt_mult (fun _ => -1)); [apply continuity_pt_const; now intros ? ?|].
          apply (gint_cont (x + 1)). lra.
      + intros t Ht. replace (x + 1 - 1) with x by ring.
        replace (x * (Rpower t (x - 1) * exp (- t)) + -1 * (Rpower t x * exp (- t)))
          with (x * Rpower t (x - 1) * exp (- t) + Rpower t x * (- exp (- t))) by ring.
        apply (derivable_pt_lim_mult (fun t => Rpower t x) (fun t => exp (- t)) t).
        * apply derivable_pt_lim_power. lra.
        * apply derivable_pt_lim_exp_opp.
    - rewrite Rminus_0_r.
      assert (Rpower a x * exp (- a) < eps / 2) by (apply KA; lra).
      assert (Rpower b x * exp (- b) < eps / 2) by (apply KB; lra).
      assert (0 < Rpower a x * exp (- a)) by (apply Rmult_lt_0_compat; [apply Rpower_pos|apply exp_pos]).
      assert (0 < Rpower b x * exp (- b)) by (apply Rmult_lt_0_compat; [apply Rpower_pos|apply exp_pos]).
      apply Rabs_def1; lra. }
  pose proof (impint_unique _ _ _ K Z). lra.
Qed.

Lemma Gamma_1 G : is_Gamma G -> G 1 = 1.
Proof.
  intros H. pose proof (H 1 ltac:(lra)) as I. refine (impint_unique _ _ _ I _).
  intros eps He.
  exists (eps / 2), (Rmax (eps / 2) (Rmax 1 (2 / eps))).
  assert (M1 := Rmax_l (eps / 2) (Rmax 1 (2 / eps))). assert (M2 := Rmax_r (eps / 2) (Rmax 1 (2 / eps))).
  assert (M3 := Rmax_l 1 (2 / eps)). assert (M4 := Rmax_r 1 (2 / eps)).
  split; [lra|]. intros a b Ha Hb. exists (- exp (- b) - - exp (- a)). split.
  - apply (integral_ext (fun t => exp (- t)) _ a b); [lra| |].
    + intros t Ht. replace (1 - 1) with 0 by ring. rewrite Rpower_O by lra. ring.
    + apply (integral_ftc (fun t => exp (- t)) (fun t => - exp (- t)) a b); [lra| |].
      * intros t _. apply derivable_continuous_pt. eexists. apply derivable_pt_lim_exp_opp.
      * intros t _.
        assert (D := derivable_pt_lim_opp _ t _ (derivable_pt_lim_exp_opp t)).
        rewrite Ropp_involutive in D. exact D.
  - assert (E1 : exp (- b) < eps / 2).
    { rewrite exp_Ropp. rewrite <- (Rinv_inv (eps / 2)). apply Rinv_lt_contravar.
      - apply Rmult_lt_0_compat; [apply Rinv_0_lt_compat; lra|apply exp_pos].
      - replace (/ (eps / 2)) with (2 / eps) by (field; lra).
        pose proof (exp_ineq1_le b). lra. }
    assert (E2 : 1 - a <= exp (- a)) by (pose proof (exp_ineq1_le (- a)); lra).
    assert (E3 : exp (- a) < 1) by (rewrite <- exp_0; apply exp_increasing; lra).
    pose proof (exp_pos (- b)). apply Rabs_def1; lra.
Qed.

Lemma Gamma_fact G n : is_Gamma G -> G (INR n + 1) = INR (fact n).
Proof.
  intros H. induction n as [|n IH].
  - simpl INR. rewrite Rplus_0_l. now apply Gamma_1.
  - rewrite S_INR. rewrite (Gamma_succ G (INR n + 1) H) by (pose proof (pos_INR n); lra).
    rewrite IH. rewrite fact_simpl, mult_INR, S_INR. reflexivity.
Qed.

(** moments: the integral of w^s exp (- q w^c) *)
Lemma impint_moment G s q c : is_Gamma G -> -1 < s -> 0 < q -> 0 < c ->
  impint (fun w => Rpower w s * exp (- (q * Rpower w c)))
         (G ((s + 1) / c) / (c * Rpower q ((s + 1) / c))).
Proof.
  intros H Hs Hq Hc. set (x := (s + 1) / c).
  assert (Hx : 0 < x) by (apply Rdiv_lt_0_compat; lra).
  pose proof (H x Hx) as I. change (impint (gint x) (G x)) in I.
  set (p := fun w => q * Rpower w c). set (p' := fun w => q * (c * Rpower w (c - 1))).
  assert (J : impint (fun w => gint x (p w) * p' w) (G x)).
  { intros eps He. destruct (I eps He) as [A [B [L K]]].
    assert (Pinv : forall y, 0 < y -> p (Rpower (y / q) (/ c)) = y).
    { intros y Hy. unfold p. rewrite Rpower_mult, Rinv_l, Rpower_1 by (try lra; apply Rdiv_lt_0_compat; lra).
      field. lra. }
    assert (Pmon : forall u v, 0 < u < v -> p u < p v).
    { intros u v Huv. unfold p. apply Rmult_lt_compat_l; [lra|].
      unfold Rpower. apply exp_increasing. apply Rmult_lt_compat_l; [lra|]. apply ln_increasing; lra. }
    set (a0 := Rpower (A / q) (/ c)). set (b0 := Rpower (B / q) (/ c)).
    exists (Rmin a0 b0), b0.
    split; [split; [apply Rmin_pos; apply Rpower_pos|apply Rmin_r]|].
    intros a b Ha Hb. pose proof (Rmin_l a0 b0) as M1. pose proof (Rmin_r a0 b0) as M2.
    assert (Pa : p a < A) by (rewrite <- (Pinv A) by lra; apply Pmon; fold a0; lra).
    assert (Pb : B < p b) by (rewrite <- (Pinv B) by lra; apply Pmon; fold b0; split; [apply Rpower_pos|lra]).
    assert (Pa0 : 0 < p a) by (apply Rmult_lt_0_compat; [lra|apply Rpower_pos]).
    destruct (K (p a) (p b)) as [v [Iv Hv]]; [lra|lra|].
    exists v. split; [|exact Hv].
    apply (integral_subst (gint x) p p' a b v); [lra| | | | |exact Iv].
    - intros u w Huw Hw. destruct (Rle_lt_or_eq_dec u w) as [E|E]; [lra| |subst; lra].
      left. apply Pmon. lra.
    - intros w Hw. apply (derivable_pt_lim_scal (fun w => Rpower w c) q w).
      apply derivable_pt_lim_power. lra.
    - intros w Hw. unfold p'.
      apply (continuity_pt_mult (fun _ => q)); [apply continuity_pt_const; now intros ? ?|].
      apply (continuity_pt_mult (fun _ => c)); [apply continuity_pt_const; now intros ? ?|].
      apply derivable_continuous_pt. eexists. apply derivable_pt_lim_power. lra.
    - intros y Hy. apply gint_cont. lra. }
  pose proof (impint_scal _ (/ (c * Rpower q x)) _ J) as J2.
  assert (N : 0 < c * Rpower q x) by (apply Rmult_lt_0_compat; [lra|apply Rpower_pos]).
  replace (G x / (c * Rpower q x)) with (/ (c * Rpower q x) * G x) by (unfold Rdiv; ring).
  eapply impint_ext; [|exact J2]. intros w Hw. cbv beta. unfold gint, p, p'.
  assert (E : Rpower (q * Rpower w c) (x - 1) * (q * (c * Rpower w (c - 1))) = (c * Rpower q x) * Rpower w s).
  { unfold Rpower at 1. rewrite ln_mult by (try lra; apply Rpower_pos).
    unfold Rpower at 1. rewrite ln_exp.
    replace q with (exp (ln q)) at 2 by (apply exp_ln; lra).
    unfold Rpower.
    replace (exp ((x - 1) * (ln q + c * ln w)) * (exp (ln q) * (c * exp ((c - 1) * ln w))))
      with (c * (exp ((x - 1) * (ln q + c * ln w)) * exp (ln q) * exp ((c - 1) * ln w))) by ring.
    replace (c * exp (x * ln q) * exp (s * ln w)) with (c * (exp (x * ln q) * exp (s * ln w))) by ring.
    rewrite <- !exp_plus. f_equal. f_equal.
    assert (Ex : c * x = s + 1) by (unfold x; field; lra).
    replace ((x - 1) * (ln q + c * ln w) + ln q + (c - 1) * ln w)
      with (x * ln q + (c * x - 1) * ln w) by ring.
    rewrite Ex. ring. }
  transitivity (/ (c * Rpower q x) * (Rpower (q * Rpower w c) (x - 1) * (q * (c * Rpower w (c - 1)))) *
                exp (- (q * Rpower w c))); [ring|].
  rewrite E. rewrite <- Rmult_assoc, Rinv_l by lra. ring.
Qed.
