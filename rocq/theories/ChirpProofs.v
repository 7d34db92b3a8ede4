(** Proofs about the chirps. *)
From Coq Require Import Reals Lra.
From Verif Require Import Py Chirp.
Local Open Scope R_scope.

(** a chirp from [fmin] at [tmin] to [fmax] at [tmax]: [w] is the derivative of the phase *)
Definition sweeps (c : chirp) (tmin tmax fmin fmax : R) : Prop :=
  fst c tmin = 0 /\ snd c tmin = 2 * PI * fmin /\ snd c tmax = 2 * PI * fmax /\
  (forall t, tmin <= t <= tmax -> derivable_pt_lim (fst c) t (snd c t)) /\
  (forall t t', tmin <= t -> t < t' -> t' <= tmax -> snd c t < snd c t').

Lemma dl_scal f x l c : derivable_pt_lim f x l -> derivable_pt_lim (fun t => c * f t) x (c * l).
Proof. exact (derivable_pt_lim_scal f c x l). Qed.
Lemma dl_scal_r f x l c : derivable_pt_lim f x l -> derivable_pt_lim (fun t => f t * c) x (l * c).
Proof.
  intros H. apply derivable_pt_lim_ext with (f := fun t => c * f t); [intros; ring|].
  rewrite Rmult_comm. now apply dl_scal.
Qed.
Lemma dl_plus f g x l m : derivable_pt_lim f x l -> derivable_pt_lim g x m ->
  derivable_pt_lim (fun t => f t + g t) x (l + m).
Proof. exact (derivable_pt_lim_plus f g x l m). Qed.
Lemma dl_minus_c f x l c : derivable_pt_lim f x l -> derivable_pt_lim (fun t => f t - c) x l.
Proof.
  intros H. replace l with (l - 0) by ring.
  exact (derivable_pt_lim_minus f (fct_cte c) x l 0 H (derivable_pt_lim_const c x)).
Qed.
Lemma dl_id x : derivable_pt_lim (fun t => t) x 1.
Proof. exact (derivable_pt_lim_id x). Qed.
Lemma dl_lin b c x : derivable_pt_lim (fun t => b * (t - c)) x b.
Proof. pose proof (dl_scal _ _ _ b (dl_minus_c _ x _ c (dl_id x))) as D. rewrite Rmult_1_r in D. exact D. Qed.
Lemma dl_pow2 x : derivable_pt_lim (fun t => t ^ 2) x (2 * x).
Proof. replace (2 * x) with (INR 2 * x ^ Nat.pred 2) by (cbn; ring). exact (derivable_pt_lim_pow x 2). Qed.

Section Chirps.
Variables tmin tmax fmin fmax : R.
Hypotheses (Ht : tmin < tmax) (Hf : fmin < fmax).

Theorem lchirp_sweeps : sweeps (lchirp tmin tmax fmin fmax) tmin tmax fmin fmax.
Proof.
  unfold sweeps, lchirp. cbn [fst snd]. pose proof PI_RGT_0.
  split; [field; lra|]. split; [field; lra|]. split; [field; lra|]. split.
  - intros t _. apply dl_scal_r.
    set (a := (fmin - fmax) / (tmin - tmax)). set (b := (fmin * tmax - fmax * tmin) / (tmax - tmin)).
    apply dl_plus.
    + replace (a * t) with (a / 2 * (2 * t)) by field. apply dl_scal, dl_minus_c, dl_pow2.
    + apply dl_lin.
  - intros t t' _ Hlt _. apply Rmult_lt_compat_r; [lra|]. apply Rplus_lt_compat_r, Rmult_lt_compat_l; [|auto].
    replace ((fmin - fmax) / (tmin - tmax)) with ((fmax - fmin) / (tmax - tmin)) by (field; lra).
    apply Rdiv_lt_0_compat; lra.
Qed.

Lemma exp_gap : 0 < exp tmax - exp tmin.
Proof. pose proof (exp_increasing _ _ Ht). lra. Qed.
Theorem echirp_pc_sweeps : sweeps (echirp_pc tmin tmax fmin fmax) tmin tmax fmin fmax.
Proof.
  unfold sweeps, echirp_pc. cbn [fst snd]. pose proof PI_RGT_0. pose proof exp_gap.
  split; [field; lra|]. split; [field; lra|]. split; [field; lra|]. split.
  - intros t _. apply dl_scal_r.
    set (a := (fmax - fmin) / _). set (b := (fmin * _ - _) / _).
    apply dl_plus; [apply dl_scal, dl_minus_c, derivable_pt_lim_exp|].
    apply dl_lin.
  - intros t t' _ Hlt _. apply Rmult_lt_compat_r; [lra|]. apply Rplus_lt_compat_r, Rmult_lt_compat_l.
    + apply Rdiv_lt_0_compat; lra.
    + now apply exp_increasing.
Qed.

Hypothesis Hf0 : 0 < fmin.
(** log of the base of [echirp] *)
Let lb := (ln fmax - ln fmin) / (tmax - tmin).
Let la := (tmax * ln fmin - tmin * ln fmax) / (tmax - tmin).
Lemma lb_pos : 0 < lb.
Proof. unfold lb. apply Rdiv_lt_0_compat; [|lra]. pose proof (ln_increasing fmin fmax Hf0 Hf). lra. Qed.
Lemma echirp_a : Rpower (Rpower fmin tmax / Rpower fmax tmin) (1 / (tmax - tmin)) = exp la.
Proof.
  unfold Rpower at 1. f_equal. unfold Rpower, Rdiv at 2. rewrite <- exp_Ropp, <- exp_plus, ln_exp.
  unfold la. field. lra.
Qed.
Lemma echirp_b : tmax <> 0 ->
  Rpower fmax (1 / tmax) * Rpower (1 / exp la) (1 / tmax) = exp lb.
Proof.
  intros H. unfold Rpower, Rdiv at 3. rewrite Rmult_1_l, <- exp_Ropp, ln_exp, <- exp_plus.
  f_equal. unfold la, lb. field. lra.
Qed.
Theorem echirp_sweeps : tmax <> 0 ->
  exists c, echirp tmin tmax fmin fmax = Ok c /\ sweeps c tmin tmax fmin fmax.
Proof.
  intros H0. unfold echirp. rewrite echirp_a, echirp_b by auto.
  destruct (Req_EM_T tmax 0); [contradiction|]. eexists. split; [reflexivity|].
  unfold sweeps. cbn [fst snd]. pose proof PI_RGT_0. pose proof lb_pos as Hb. rewrite ln_exp.
  assert (P : forall t, Rpower (exp lb) t = exp (t * lb)) by (intros; unfold Rpower; now rewrite ln_exp).
  assert (E1 : exp la * exp (tmin * lb) = fmin).
  { rewrite <- exp_plus. transitivity (exp (ln fmin)); [|apply exp_ln; lra]. f_equal. unfold la, lb. field. lra. }
  assert (E2 : exp la * exp (tmax * lb) = fmax).
  { rewrite <- exp_plus. transitivity (exp (ln fmax)); [|apply exp_ln; lra]. f_equal. unfold la, lb. field. lra. }
  rewrite !P. split; [field; lra|]. split; [rewrite E1; ring|]. split; [rewrite E2; ring|]. split.
  - intros t _. apply dl_scal_r. rewrite P.
    replace (exp la * exp (t * lb)) with (exp la / lb * (exp (t * lb) * lb)) by (field; lra).
    apply dl_scal, dl_minus_c.
    apply derivable_pt_lim_ext with (f := fun t => exp (t * lb)); [intros; symmetry; apply P|].
    apply (derivable_pt_lim_comp (fun t => t * lb) exp t lb (exp (t * lb))).
    + pose proof (dl_scal_r _ _ _ lb (dl_id t)) as D. rewrite Rmult_1_l in D. exact D.
    + apply derivable_pt_lim_exp.
  - intros t t' _ Hlt _. rewrite !P. apply Rmult_lt_compat_r; [lra|].
    apply Rmult_lt_compat_l; [apply exp_pos|]. apply exp_increasing. now apply Rmult_lt_compat_r.
Qed.
Lemma echirp_fails : tmax = 0 -> echirp tmin tmax fmin fmax = Err ZeroDivisionError.
Proof. intros H. unfold echirp. destruct (Req_EM_T tmax 0); [reflexivity|contradiction]. Qed.

(** hyperbolic: with [r = sqrt fmin], [s = sqrt fmax], [T = tmax - tmin] *)
Let r := sqrt fmin.
Let s := sqrt fmax.
Lemma r_pos : 0 < r. Proof. now apply sqrt_lt_R0. Qed.
Lemma r_sq : r * r = fmin. Proof. apply sqrt_sqrt. lra. Qed.
Lemma s_sq : s * s = fmax. Proof. apply sqrt_sqrt. lra. Qed.
Lemma r_lt_s : r < s. Proof. apply sqrt_lt_1; lra. Qed.
Lemma hchirp_sqrt : sqrt (fmin ^ 3 * fmax ^ 3 * (tmin - tmax) ^ 4) = r ^ 3 * s ^ 3 * (tmax - tmin) ^ 2.
Proof.
  pose proof r_pos. pose proof r_lt_s.
  replace (fmin ^ 3 * fmax ^ 3 * (tmin - tmax) ^ 4)
    with ((r ^ 3 * s ^ 3 * (tmax - tmin) ^ 2) * (r ^ 3 * s ^ 3 * (tmax - tmin) ^ 2))
    by (rewrite <- r_sq, <- s_sq; ring).
  apply sqrt_square. apply Rmult_le_pos; [|apply pow2_ge_0].
  apply Rmult_le_pos; apply pow_le; lra.
Qed.
Let A := r ^ 2 * s ^ 2 * (tmax - tmin) ^ 2 / (s - r) ^ 2.
Let B := tmax + r * (tmax - tmin) / (s - r).
Lemma hchirp_eq : hchirp tmin tmax fmin fmax =
  (fun t => A * (1 / (B - t) + 1 / (tmin - B)) * (2 * PI), fun t => A / (B - t) ^ 2 * (2 * PI)).
Proof.
  unfold hchirp. rewrite hchirp_sqrt. pose proof r_pos. pose proof r_lt_s.
  assert (N1 : s - r <> 0) by lra. assert (N2 : tmin - tmax <> 0) by lra.
  assert (N3 : fmin - fmax <> 0) by lra. assert (N5 : r * r - s * s <> 0) by (rewrite r_sq, s_sq; lra).
  assert (N6 : s + r <> 0) by lra.
  replace ((2 * (r ^ 3 * s ^ 3 * (tmax - tmin) ^ 2) + fmin ^ 2 * fmax * (tmin - tmax) ^ 2 +
            fmin * fmax ^ 2 * (tmin - tmax) ^ 2) / (fmin - fmax) ^ 2) with A.
  2:{ unfold A. rewrite <- r_sq, <- s_sq. replace (r * r - s * s) with (- ((s - r) * (s + r))) by ring.
      field. split; auto. }
  replace ((r ^ 3 * s ^ 3 * (tmax - tmin) ^ 2 + fmin ^ 2 * fmax * tmin * (tmin - tmax) +
            fmin * fmax ^ 2 * tmax * (tmax - tmin)) / (fmin * fmax * (fmin - fmax) * (tmin - tmax))) with B.
  - reflexivity.
  - unfold B. rewrite <- r_sq, <- s_sq. replace (r * r - s * s) with (- ((s - r) * (s + r))) by ring.
    field. repeat split; try lra; auto.
Qed.
Lemma B_gap : tmax < B.
Proof.
  unfold B. pose proof r_pos. pose proof r_lt_s.
  assert (0 < r * (tmax - tmin) / (s - r)); [|lra].
  apply Rdiv_lt_0_compat; [apply Rmult_lt_0_compat|]; lra.
Qed.
Lemma A_pos : 0 < A.
Proof.
  unfold A. pose proof r_pos. pose proof r_lt_s.
  apply Rdiv_lt_0_compat; [|apply pow_lt; lra].
  apply Rmult_lt_0_compat; [apply Rmult_lt_0_compat|]; apply pow_lt; lra.
Qed.
Theorem hchirp_sweeps : sweeps (hchirp tmin tmax fmin fmax) tmin tmax fmin fmax.
Proof.
  rewrite hchirp_eq. unfold sweeps. cbn [fst snd]. pose proof PI_RGT_0. pose proof B_gap as HB. pose proof A_pos as HA.
  pose proof r_pos. pose proof r_lt_s.
  split; [field; lra|]. split.
  { rewrite <- r_sq. unfold A. replace (B - tmin) with (s * (tmax - tmin) / (s - r)) by (unfold B; field; lra).
    field. repeat split; lra. }
  split.
  { rewrite <- s_sq. unfold A. replace (B - tmax) with (r * (tmax - tmin) / (s - r)) by (unfold B; field; lra).
    field. repeat split; lra. }
  split.
  - intros t Ht'. apply dl_scal_r.
    replace (A / (B - t) ^ 2) with (A * (1 / (B - t) ^ 2)) by (field; lra).
    apply dl_scal. apply derivable_pt_lim_ext with (f := fun u => / (B - u) - (- (1 / (tmin - B)))).
    { intros u. unfold Rdiv. ring. }
    apply dl_minus_c.
    assert (D : derivable_pt_lim (fun u => B - u) t (-1)).
    { replace (-1) with (0 - 1) by ring.
      exact (derivable_pt_lim_minus (fct_cte B) id t 0 1 (derivable_pt_lim_const B t) (derivable_pt_lim_id t)). }
    pose proof (derivable_pt_lim_div (fct_cte 1) (fun u => B - u) t 0 (-1)
                  (derivable_pt_lim_const 1 t) D ltac:(lra)) as Dv.
    apply derivable_pt_lim_ext with (f := div_fct (fct_cte 1) (fun u => B - u)).
    { intros u. unfold div_fct, fct_cte, Rdiv. ring. }
    replace (1 / (B - t) ^ 2) with ((0 * (B - t) - -1 * fct_cte 1 t) / (B - t)²);
      [exact Dv|unfold fct_cte, Rsqr; field; lra].
  - intros t t' ? ? ?. apply Rmult_lt_compat_r; [lra|]. unfold Rdiv. apply Rmult_lt_compat_l; [auto|].
    apply Rinv_lt_contravar; [apply Rmult_lt_0_compat; apply pow_lt; lra|]. cbn. nra.
Qed.
End Chirps.
