(** The Morlet wavelet (wavelets.py:498-523) has one peak, just above [mu]. *)
From Coq Require Import Reals Lra Lia ZifyBool ZifyNat.
From Verif Require Import Py Round Cplx CplxProofs Padding Freqs Squeeze Scales Search SearchProofs Wavelets WaveletProofs ScaleBounds ScaleBoundsProofs.
Local Open Scope R_scope.

Section Morlet.
Variable mu : R.
Hypothesis Hmu : 0 < mu.
Definition mor_const (mu : R) : R := sqrt 2 * Rpower (1 + exp (- mu ^ 2) - 2 * exp (- (3 / 4) * mu ^ 2)) (- / 2) * Rpower PI (/ 4).
Definition mor_h (w : R) : R := exp (- / 2 * (w - mu) ^ 2) - exp (- / 2 * mu ^ 2) * exp (- / 2 * w ^ 2).
(** its derivative, and the sign of it *)
Definition mor_d (w : R) : R := (mu - w) * exp (- / 2 * (w - mu) ^ 2) + exp (- / 2 * mu ^ 2) * (w * exp (- / 2 * w ^ 2)).
Definition mor_s (w : R) : R := mu - w + w * exp (- (mu * w)).

Lemma morlet_h w : morlet mu w = mor_const mu * mor_h w.
Proof. reflexivity. Qed.
Lemma mor_c_pos : 0 < mor_const mu.
Proof. apply morlet_const, Hmu. Qed.
Lemma gauss_deriv a w : derivable_pt_lim (fun x => exp (- / 2 * (x - a) ^ 2)) w ((a - w) * exp (- / 2 * (w - a) ^ 2)).
Proof.
  apply (derivable_pt_lim_ext (comp exp (fun x => - / 2 * (x - a) ^ 2))); [reflexivity|].
  replace ((a - w) * exp (- / 2 * (w - a) ^ 2)) with (exp (- / 2 * (w - a) ^ 2) * (a - w)) by ring.
  apply derivable_pt_lim_comp; [|apply derivable_pt_lim_exp].
  apply (derivable_pt_lim_ext (fun x => - / 2 * (x * x) + a * x - / 2 * a ^ 2)); [intros; field|].
  replace (a - w) with (- / 2 * (1 * w + w * 1) + a * 1 - 0) by field.
  apply derivable_pt_lim_minus; [|apply derivable_pt_lim_const]. apply derivable_pt_lim_plus.
  - apply (derivable_pt_lim_scal (fun x => x * x)). apply (derivable_pt_lim_mult (fun x => x) (fun x => x)); apply derivable_pt_lim_id.
  - apply (derivable_pt_lim_scal (fun x => x)). apply derivable_pt_lim_id.
Qed.
Lemma mor_deriv w : derivable_pt_lim mor_h w (mor_d w).
Proof.
  unfold mor_h, mor_d. replace (exp (- / 2 * mu ^ 2) * (w * exp (- / 2 * w ^ 2))) with (- (exp (- / 2 * mu ^ 2) * ((0 - w) * exp (- / 2 * (w - 0) ^ 2)))) by (replace (w - 0) with w by ring; ring).
  apply (derivable_pt_lim_minus (fun x => exp (- / 2 * (x - mu) ^ 2)) (fun x => exp (- / 2 * mu ^ 2) * exp (- / 2 * x ^ 2))); [apply gauss_deriv|].
  apply (derivable_pt_lim_scal (fun x => exp (- / 2 * x ^ 2))). apply (derivable_pt_lim_ext (fun x => exp (- / 2 * (x - 0) ^ 2))); [|apply gauss_deriv].
  intros x. replace (x - 0) with x by ring. reflexivity.
Qed.
Lemma mor_d_sign w : mor_d w = exp (- / 2 * (w - mu) ^ 2) * mor_s w.
Proof.
  unfold mor_d, mor_s. rewrite Rmult_plus_distr_l, (Rmult_comm _ (mu - w)). f_equal.
  rewrite <- !Rmult_assoc, (Rmult_comm _ w), (Rmult_comm _ w), !Rmult_assoc, <- !exp_plus. do 2 f_equal. field.
Qed.
Lemma mor_s_decr x y : 0 <= x -> x < y -> mor_s y < mor_s x.
Proof.
  intros Hx H. unfold mor_s. assert (E1 : exp (- (mu * x)) <= 1).
  { rewrite <- exp_0. destruct (Req_dec x 0) as [->|N]; [right; f_equal; ring|]. left. apply exp_increasing. nra. }
  assert (E2 : exp (- (mu * y)) < exp (- (mu * x))) by (apply exp_increasing; nra).
  pose proof (exp_pos (- (mu * x))). nra.
Qed.
Lemma mor_s_cont : continuity mor_s.
Proof.
  apply derivable_continuous. unfold mor_s. intros x. eexists.
  apply (derivable_pt_lim_plus (fun w => mu - w) (fun w => w * exp (- (mu * w)))).
  - apply (derivable_pt_lim_minus (fun _ => mu) (fun w => w)); [apply derivable_pt_lim_const|apply derivable_pt_lim_id].
  - apply (derivable_pt_lim_mult (fun w => w) (fun w => exp (- (mu * w)))); [apply derivable_pt_lim_id|].
    apply (derivable_pt_lim_ext (comp exp (fun w => (- mu) * w))); [intros; unfold comp; f_equal; ring|].
    apply derivable_pt_lim_comp; [|apply derivable_pt_lim_exp]. apply (derivable_pt_lim_scal (fun w => w)). apply derivable_pt_lim_id.
Qed.
Lemma mor_zero : exists p, mu < p < mu + 1 /\ p = mu + p * exp (- (mu * p)).
Proof.
  assert (A : 0 < mor_s mu) by (unfold mor_s; pose proof (exp_pos (- (mu * mu))); nra).
  assert (B : mor_s (mu + 1) < 0).
  { unfold mor_s. pose proof (exp_ineq1 (mu * (mu + 1)) ltac:(nra)) as I. rewrite exp_Ropp.
    assert (Q : (mu + 1) * / exp (mu * (mu + 1)) < 1); [|lra]. pose proof (exp_pos (mu * (mu + 1))).
    apply (Rmult_lt_reg_r (exp (mu * (mu + 1)))); [assumption|]. rewrite Rmult_assoc, Rinv_l by lra. nra. }
  destruct (IVT (fun w => - mor_s w) mu (mu + 1)) as (p & Hp & Ep); [apply continuity_opp, mor_s_cont|lra|lra|lra|].
  exists p. assert (Z : mor_s p = 0) by lra. split.
  - destruct Hp as [P1 P2]. split; [destruct P1 as [P1|P1]|destruct P2 as [P2|P2]]; try assumption; subst; lra.
  - unfold mor_s in Z. lra.
Qed.
Lemma mor_shape p : mu < p -> p = mu + p * exp (- (mu * p)) ->
  (forall x y, 0 <= x -> x < y -> y <= p -> mor_h x < mor_h y) /\ (forall x y, p <= x -> x < y -> mor_h y < mor_h x).
Proof.
  intros P0 Ep. assert (Z : mor_s p = 0) by (unfold mor_s; lra).
  assert (MV : forall x y, x < y -> exists c, mor_h y - mor_h x = mor_d c * (y - x) /\ x < c < y).
  { intros x y H. apply MVT_cor2; [exact H|]. intros c _. apply mor_deriv. }
  split; intros x y H1 H2.
  - intros H3. destruct (MV x y H2) as (c & E & Hc). rewrite mor_d_sign in E. pose proof (mor_s_decr c p ltac:(lra) ltac:(lra)). pose proof (exp_pos (- / 2 * (c - mu) ^ 2)).
    assert (0 < exp (- / 2 * (c - mu) ^ 2) * mor_s c * (y - x)) by (repeat apply Rmult_lt_0_compat; lra). lra.
  - destruct (MV x y H2) as (c & E & Hc). rewrite mor_d_sign in E. pose proof (mor_s_decr p c ltac:(lra) ltac:(lra)). pose proof (exp_pos (- / 2 * (c - mu) ^ 2)).
    assert (0 < exp (- / 2 * (c - mu) ^ 2) * - mor_s c * (y - x)) by (repeat apply Rmult_lt_0_compat; lra). lra.
Qed.
Lemma abs_morlet w : 0 <= w -> absf (morlet mu) w = mor_const mu * mor_h w.
Proof.
  intros H. unfold absf. rewrite <- morlet_h. apply Rabs_right. destruct (Req_dec w 0) as [->|N]; [rewrite morlet_zero; lra|]. left. apply morlet_sign; lra.
Qed.
(** one peak [p], where [p = mu + p exp(-mu p)] *)
Theorem morlet_one_peak : 1 / 1000 <= mu -> exists p, mu < p < mu + 1 /\ p = mu + p * exp (- (mu * p)) /\ one_peak (morlet mu) p.
Proof.
  intros H0. destruct mor_zero as (p & Hp & Ep). exists p. split; [exact Hp|]. split; [exact Ep|]. destruct (mor_shape p ltac:(lra) Ep) as [A B]. pose proof mor_c_pos as Cp.
  split; [lra|]. split; intros x y H1 H2.
  - intros H3. rewrite !abs_morlet by lra. apply Rmult_lt_compat_l; [exact Cp|]. apply A; lra.
  - rewrite !abs_morlet by lra. apply Rmult_lt_compat_l; [exact Cp|]. apply B; lra.
Qed.
(** slope at most 2 *)
Lemma u_gauss u : Rabs (u * exp (- / 2 * u ^ 2)) <= 1.
Proof.
  rewrite Rabs_mult, (Rabs_right (exp _)) by (left; apply exp_pos). replace (- / 2 * u ^ 2) with (- (u ^ 2 / 2)) by field. rewrite exp_Ropp.
  assert (I : 1 + u ^ 2 / 2 <= exp (u ^ 2 / 2)).
  { destruct (Req_dec u 0) as [->|N]; [replace (0 ^ 2 / 2) with 0 by field; rewrite exp_0; lra|]. left. apply exp_ineq1. pose proof (pow2_gt_0 u N). lra. }
  assert (J : Rabs u <= 1 + u ^ 2 / 2) by (rewrite <- (pow2_abs u); pose proof (pow2_ge_0 (Rabs u - 1)); nra).
  pose proof (exp_pos (u ^ 2 / 2)). apply (Rmult_le_reg_r (exp (u ^ 2 / 2))); [assumption|]. rewrite Rmult_assoc, Rinv_l by lra. lra.
Qed.
Lemma mor_d_bound w : Rabs (mor_d w) <= 2.
Proof.
  unfold mor_d. eapply Rle_trans; [apply Rabs_triang|].
  assert (A : Rabs ((mu - w) * exp (- / 2 * (w - mu) ^ 2)) <= 1).
  { replace ((w - mu) ^ 2) with ((mu - w) ^ 2) by ring. apply u_gauss. }
  assert (B : Rabs (exp (- / 2 * mu ^ 2) * (w * exp (- / 2 * w ^ 2))) <= 1); [|lra].
  rewrite Rabs_mult. pose proof (u_gauss w). rewrite (Rabs_right (exp (- / 2 * mu ^ 2))) by (left; apply exp_pos).
  assert (exp (- / 2 * mu ^ 2) <= 1) by (rewrite <- exp_0; left; apply exp_increasing; nra). pose proof (exp_pos (- / 2 * mu ^ 2)). pose proof (Rabs_pos (w * exp (- / 2 * w ^ 2))). nra.
Qed.
Lemma mor_lipschitz x y : Rabs (mor_h x - mor_h y) <= 2 * Rabs (x - y).
Proof.
  assert (L : forall a b, a < b -> Rabs (mor_h b - mor_h a) <= 2 * Rabs (b - a)).
  { intros a b H. destruct (MVT_cor2 mor_h mor_d a b H) as (c & E & _); [intros; apply mor_deriv|]. rewrite E, Rabs_mult. pose proof (mor_d_bound c). pose proof (Rabs_pos (b - a)). nra. }
  destruct (Rtotal_order x y) as [H|[ ->|H]].
  - rewrite (Rabs_minus_sym (mor_h x)), (Rabs_minus_sym x). apply L, H.
  - replace (mor_h y - mor_h y) with 0 by ring. replace (y - y) with 0 by ring. rewrite Rabs_R0. lra.
  - apply L, H.
Qed.
Lemma mor_h_cont : continuity mor_h.
Proof. intros x. apply derivable_continuous_pt. exists (mor_d x). apply mor_deriv. Qed.
End Morlet.
