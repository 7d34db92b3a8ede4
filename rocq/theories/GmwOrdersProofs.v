(** Proofs about GmwOrders.v: energies, orthogonality, agreement of the two families. *)
From Coq Require Import Reals Lra Lia Psatz Arith.
From Verif Require Import Py Cplx CplxProofs Freqs Pointwise Comb CombProofs Wavelets WaveletProofs Integral
  IntegralProofs GmwOrders LaguerreProofs.
Local Open Scope R_scope.

(** ** More on improper integrals *)
Lemma impint_Rsum n (f : nat -> R -> R) (v : nat -> R) : (forall i, (i < n)%nat -> impint (f i) (v i)) ->
  impint (fun w => Rsum n (fun i => f i w)) (Rsum n v).
Proof.
  induction n as [|n IH]; intros H; simpl.
  - apply impint_zero.
  - apply (impint_plus (fun w => Rsum n (fun i => f i w)) (f n)); [apply IH; auto|apply H; lia].
Qed.

Lemma impint_stretch f l s : 0 < s -> (forall x, 0 < x -> continuity_pt f x) -> impint f l ->
  impint (fun w => f (s * w)) (l / s).
Proof.
  intros Hs C I.
  assert (J : impint (fun w => f (s * w) * s) l).
  { intros eps He. destruct (I eps He) as [A [B [L K]]]. exists (A / s), (B / s).
    split; [split; [apply Rdiv_lt_0_compat; lra|]|].
    - unfold Rdiv. apply Rmult_le_compat_r; [left; now apply Rinv_0_lt_compat|lra].
    - intros a b Ha Hb.
      assert (Ea : s * a < A) by (replace A with (s * (A / s)) by (field; lra); apply Rmult_lt_compat_l; lra).
      assert (Eb : B < s * b) by (replace B with (s * (B / s)) by (field; lra); apply Rmult_lt_compat_l; lra).
      assert (Pa : 0 < s * a) by (apply Rmult_lt_0_compat; lra).
      destruct (K (s * a) (s * b)) as [v [Iv Hv]]; [lra|lra|]. exists v. split; [|exact Hv].
      apply (integral_subst f (fun w => s * w) (fun _ => s) a b v).
      + assert (s * a < s * b) by lra. nra.
      + intros x y Hxy _. apply Rmult_le_compat_l; lra.
      + intros x _. pose proof (derivable_pt_lim_scal id s x 1 (derivable_pt_lim_id x)) as Dx.
        rewrite Rmult_1_r in Dx. exact Dx.
      + intros x _. apply continuity_pt_const. now intros ? ?.
      + intros y Hy. apply C. lra.
      + exact Iv. }
  pose proof (impint_scal _ (/ s) _ J) as J2.
  replace (l / s) with (/ s * l) by (unfold Rdiv; ring).
  eapply impint_ext; [|exact J2]. intros w _. simpl. field. lra.
Qed.

(** ** The integrand *)
Lemma Rgeb_pos w : 0 <= w -> Rgeb w 0 = true.
Proof. intros H. unfold Rgeb. destruct (Rle_dec 0 w); [reflexivity|lra]. Qed.
Lemma Rgeb_neg w : w < 0 -> Rgeb w 0 = false.
Proof. intros H. unfold Rgeb. destruct (Rle_dec 0 w); [lra|reflexivity]. Qed.

Definition lagp G k c x : R := Rsum (S k) (fun m => lag_const G k c m * x ^ m).

Lemma length_gmw_k_constants G gamma beta k norm : length (gmw_k_constants G gamma beta k norm) = S k.
Proof.
  unfold gmw_k_constants. destruct norm; rewrite ?map_length, ?tab_length; lia.
Qed.
Lemma nth_gmw_k_constants G gamma beta k norm m : (m <= k)%nat ->
  nth m (gmw_k_constants G gamma beta k norm) 0 =
  (match norm with Bandpass => 2 | _ => 1 end) * k_coeff G gamma beta k norm *
  lag_const G k ((2 * beta + 1) / gamma - 1) m.
Proof.
  intros H. unfold gmw_k_constants.
  assert (E : forall c, nth m (map (fun l => l * c) (tab (k + 1) (lag_const G k ((2 * beta + 1) / gamma - 1)))) 0
            = lag_const G k ((2 * beta + 1) / gamma - 1) m * c).
  { intro c. rewrite (nth_indep _ 0 (0 * c)) by (rewrite map_length, tab_length; lia).
    rewrite (map_nth (fun l => l * c)). now rewrite nth_tab by lia. }
  destruct norm; rewrite ?E; try ring.
  rewrite (nth_indep _ 0 (0 * 2)) by (rewrite !map_length, tab_length; lia).
  rewrite (map_nth (fun l => l * 2)), E. ring.
Qed.
Lemma k_poly_eq G gamma beta k norm x :
  k_poly (gmw_k_constants G gamma beta k norm) x =
  (match norm with Bandpass => 2 | _ => 1 end) * k_coeff G gamma beta k norm *
  lagp G k ((2 * beta + 1) / gamma - 1) x.
Proof.
  unfold k_poly, lagp. rewrite fold_Rsum, length_gmw_k_constants. rewrite <- Rsum_scal.
  apply Rsum_ext. intros m Hm. simpl plus. rewrite nth_gmw_k_constants by lia. ring.
Qed.

(** amplitude in front of the Laguerre polynomial *)
Definition gmw_amp G gamma beta k norm : R :=
  match norm with
  | Bandpass => 2 * k_coeff G gamma beta k norm *
      exp (- beta * ln (morsefreq gamma beta) + rpow (morsefreq gamma beta) gamma)
  | _ => k_coeff G gamma beta k norm
  end.
Definition gmw_shape G gamma beta k (w : R) : R :=
  lagp G k ((2 * beta + 1) / gamma - 1) (2 * Rpower w gamma) * (Rpower w beta * exp (- Rpower w gamma)).

Lemma exp_split beta w v : exp (beta * ln w - v) = Rpower w beta * exp (- v).
Proof. unfold Rpower. rewrite <- exp_plus. f_equal. Qed.

Lemma gmw_l1_k_pos G gamma beta k w : 0 < w ->
  gmw_l1_k_entry gamma beta (morsefreq gamma beta) (gmw_k_constants G gamma beta k Bandpass) w =
  gmw_amp G gamma beta k Bandpass * gmw_shape G gamma beta k w.
Proof.
  intros H. unfold gmw_l1_k_entry, gmw_amp, gmw_shape. rewrite Rgeb_pos by lra. simpl b2R.
  rewrite !Rmult_1_r. destruct (Req_EM_T w 0); [lra|].
  rewrite k_poly_eq, (rpow_pos w) by exact H. unfold Rminus.
  rewrite (exp_plus _ (- Rpower w gamma)), (exp_plus _ (beta * ln w)).
  unfold Rpower. ring.
Qed.
Lemma gmw_l2_k_pos G gamma beta k w : 0 < w ->
  gmw_l2_k_entry gamma beta (gmw_k_constants G gamma beta k Energy) w =
  gmw_amp G gamma beta k Energy * gmw_shape G gamma beta k w.
Proof.
  intros H. unfold gmw_l2_k_entry, gmw_amp, gmw_shape. rewrite Rgeb_pos by lra. simpl b2R.
  rewrite !Rmult_1_r. destruct (Req_EM_T w 0); [lra|].
  rewrite k_poly_eq, (rpow_pos w), exp_split by exact H. ring.
Qed.

(** order 0 of the general functions is the special one, at every frequency *)
Lemma lag_const_00 G c : is_Gamma G -> 0 < c + 1 -> lag_const G 0 c 0 = 1.
Proof.
  intros H Hc. replace c with (c + 1 - 1) by ring. rewrite lag_const_eq by (auto; lia).
  simpl. assert (0 < G (c + 1 + 0)) by (apply Gamma_pos; auto; lra). unfold sgn1. simpl. field. lra.
Qed.
Lemma lagp_0 G c x : is_Gamma G -> 0 < c + 1 -> lagp G 0 c x = 1.
Proof. intros H Hc. unfold lagp. simpl. rewrite lag_const_00 by auto. ring. Qed.
Lemma k_coeff_0 G gamma beta : is_Gamma G -> 0 < gamma -> 0 < 2 * beta + 1 ->
  k_coeff G gamma beta 0 Bandpass = 1 /\
  k_coeff G gamma beta 0 Energy =
    sqrt (2 * PI * gamma * Rpower 2 ((2 * beta + 1) / gamma) / G ((2 * beta + 1) / gamma)).
Proof.
  intros H Hg Hb. assert (Hr : 0 < (2 * beta + 1) / gamma) by (apply Rdiv_lt_0_compat; lra).
  unfold k_coeff, gammaln. simpl INR. rewrite !Rplus_0_l. rewrite (Gamma_1 G H), ln_1.
  pose proof (Gamma_pos G _ H Hr) as P. split.
  - replace (ln (G ((2 * beta + 1) / gamma)) + 0 - ln (G ((2 * beta + 1) / gamma))) with 0 by ring.
    rewrite exp_0. apply sqrt_1.
  - f_equal. unfold Rminus. rewrite Rplus_0_l, exp_Ropp, exp_ln by exact P. reflexivity.
Qed.
Lemma order0_l1 G gamma beta w : is_Gamma G -> 0 < gamma -> 0 < beta ->
  gmw_l1_k_entry gamma beta (morsefreq gamma beta) (gmw_k_constants G gamma beta 0 Bandpass) w =
  gmw_l1_entry gamma beta (morsefreq gamma beta) w.
Proof.
  intros H Hg Hb. unfold gmw_l1_k_entry, gmw_l1_entry. rewrite k_poly_eq.
  destruct (k_coeff_0 G gamma beta H Hg ltac:(lra)) as [-> _].
  rewrite lagp_0; [|exact H|].
  - destruct (Req_EM_T (w * b2R (Rgeb w 0)) 0); ring.
  - replace ((2 * beta + 1) / gamma - 1 + 1) with ((2 * beta + 1) / gamma) by ring. apply Rdiv_lt_0_compat; lra.
Qed.
Lemma order0_l2 G gamma beta w : is_Gamma G -> 0 < gamma -> 0 < beta ->
  gmw_l2_k_entry gamma beta (gmw_k_constants G gamma beta 0 Energy) w =
  gmw_l2_entry gamma beta ((2 * beta + 1) / gamma) (G ((2 * beta + 1) / gamma)) w.
Proof.
  intros H Hg Hb. unfold gmw_l2_k_entry, gmw_l2_entry. rewrite k_poly_eq.
  destruct (k_coeff_0 G gamma beta H Hg ltac:(lra)) as [_ ->].
  rewrite lagp_0; [|exact H|].
  - unfold rpow. destruct (Req_EM_T (w * b2R (Rgeb w 0)) 0); [ring|].
    rewrite exp_split. ring.
  - replace ((2 * beta + 1) / gamma - 1 + 1) with ((2 * beta + 1) / gamma) by ring. apply Rdiv_lt_0_compat; lra.
Qed.

(** ** Inner products of shapes *)
Lemma shape_moment G gamma beta n : is_Gamma G -> 0 < gamma -> 0 < beta ->
  impint (fun w => (2 * Rpower w gamma) ^ n * (Rpower w (2 * beta) * exp (- (2 * Rpower w gamma))))
         (G ((2 * beta + 1) / gamma + INR n) / (gamma * Rpower 2 ((2 * beta + 1) / gamma))).
Proof.
  intros H Hg Hb. set (r := (2 * beta + 1) / gamma).
  pose proof (pos_INR n) as Pn.
  assert (S1 : -1 < 2 * beta + gamma * INR n) by nra.
  pose proof (impint_moment G (2 * beta + gamma * INR n) 2 gamma H S1 ltac:(lra) Hg) as I.
  replace ((2 * beta + gamma * INR n + 1) / gamma) with (r + INR n) in I by (unfold r; field; lra).
  pose proof (impint_scal _ (2 ^ n) _ I) as I2.
  assert (P : 0 < Rpower 2 r) by apply Rpower_pos.
  replace (G (r + INR n) / (gamma * Rpower 2 r))
    with (2 ^ n * (G (r + INR n) / (gamma * Rpower 2 (r + INR n)))).
  - eapply impint_ext; [|exact I2]. intros w Hw. cbv beta.
    rewrite Rpow_mult_distr, Rpower_plus.
    replace (Rpower w (gamma * INR n)) with (Rpower w gamma ^ n); [ring|].
    rewrite <- Rpower_pow by apply Rpower_pos. apply Rpower_mult.
  - rewrite Rpower_plus, Rpower_pow by lra. assert (0 < 2 ^ n) by (apply pow_lt; lra). field. lra.
Qed.

Lemma shape_inner G gamma beta j k : is_Gamma G -> 0 < gamma -> 0 < beta ->
  impint (fun w => gmw_shape G gamma beta j w * gmw_shape G gamma beta k w)
         (lag_form G ((2 * beta + 1) / gamma) j k / (gamma * Rpower 2 ((2 * beta + 1) / gamma))).
Proof.
  intros H Hg Hb. set (r := (2 * beta + 1) / gamma). set (D := gamma * Rpower 2 r).
  assert (I : impint (fun w => Rsum (S k) (fun n => Rsum (S j) (fun m =>
      lag_const G k (r - 1) n * lag_const G j (r - 1) m *
      ((2 * Rpower w gamma) ^ (m + n) * (Rpower w (2 * beta) * exp (- (2 * Rpower w gamma)))))))
    (Rsum (S k) (fun n => Rsum (S j) (fun m =>
      lag_const G k (r - 1) n * lag_const G j (r - 1) m * (G (r + INR (m + n)) / D))))).
  { apply (impint_Rsum (S k) (fun n w => Rsum (S j) (fun m =>
      lag_const G k (r - 1) n * lag_const G j (r - 1) m *
      ((2 * Rpower w gamma) ^ (m + n) * (Rpower w (2 * beta) * exp (- (2 * Rpower w gamma))))))).
    intros n _. apply (impint_Rsum (S j) (fun m w =>
      lag_const G k (r - 1) n * lag_const G j (r - 1) m *
      ((2 * Rpower w gamma) ^ (m + n) * (Rpower w (2 * beta) * exp (- (2 * Rpower w gamma)))))).
    intros m _.
    apply (impint_scal (fun w => (2 * Rpower w gamma) ^ (m + n) * (Rpower w (2 * beta) * exp (- (2 * Rpower w gamma))))).
    now apply shape_moment. }
  replace (lag_form G r j k / D) with (Rsum (S k) (fun n => Rsum (S j) (fun m =>
      lag_const G k (r - 1) n * lag_const G j (r - 1) m * (G (r + INR (m + n)) / D)))).
  - eapply impint_ext; [|exact I]. intros w Hw. cbv beta. unfold gmw_shape, lagp. fold r.
    set (x := 2 * Rpower w gamma).
    transitivity (Rsum (S k) (fun n => lag_const G k (r - 1) n * x ^ n *
       (Rsum (S j) (fun m => lag_const G j (r - 1) m * x ^ m) * (Rpower w (2 * beta) * exp (- x))))).
    + apply Rsum_ext. intros n _.
      replace (lag_const G k (r - 1) n * x ^ n *
        (Rsum (S j) (fun m => lag_const G j (r - 1) m * x ^ m) * (Rpower w (2 * beta) * exp (- x))))
        with ((lag_const G k (r - 1) n * x ^ n * (Rpower w (2 * beta) * exp (- x))) *
              Rsum (S j) (fun m => lag_const G j (r - 1) m * x ^ m)) by ring.
      rewrite <- Rsum_scal. apply Rsum_ext. intros m _. rewrite pow_add. ring.
    + replace (Rsum (S k) (fun n => lag_const G k (r - 1) n * x ^ n *
         (Rsum (S j) (fun m => lag_const G j (r - 1) m * x ^ m) * (Rpower w (2 * beta) * exp (- x)))))
        with (Rsum (S k) (fun n => (Rsum (S j) (fun m => lag_const G j (r - 1) m * x ^ m) *
           (Rpower w (2 * beta) * exp (- x))) * (lag_const G k (r - 1) n * x ^ n)))
        by (apply Rsum_ext; intros; ring).
      rewrite Rsum_scal.
      replace (Rpower w (2 * beta)) with (Rpower w beta * Rpower w beta)
        by (rewrite <- Rpower_plus; f_equal; ring).
      replace (exp (- x)) with (exp (- Rpower w gamma) * exp (- Rpower w gamma))
        by (rewrite <- exp_plus; f_equal; unfold x; ring).
      ring.
  - unfold lag_form. unfold Rdiv. rewrite (Rmult_comm _ (/ D)), <- Rsum_scal.
    apply Rsum_ext. intros n _.
    replace (/ D * (lag_const G k (r - 1) n * Rsum (S j) (fun m => lag_const G j (r - 1) m * G (r + INR (m + n)))))
      with ((/ D * lag_const G k (r - 1) n) * Rsum (S j) (fun m => lag_const G j (r - 1) m * G (r + INR (m + n))))
      by ring.
    rewrite <- Rsum_scal. apply Rsum_ext. intros m _. ring.
Qed.

Lemma k_coeff_sq G gamma beta k : is_Gamma G -> 0 < gamma -> 0 < beta ->
  let r := (2 * beta + 1) / gamma in
  k_coeff G gamma beta k Bandpass * k_coeff G gamma beta k Bandpass = G r * INR (fact k) / G (r + INR k) /\
  k_coeff G gamma beta k Energy * k_coeff G gamma beta k Energy =
    2 * PI * gamma * Rpower 2 r * (INR (fact k) / G (r + INR k)).
Proof.
  intros H Hg Hb r. assert (Hr : 0 < r) by (apply Rdiv_lt_0_compat; lra).
  pose proof (pos_INR k) as Pk.
  assert (P1 : 0 < G r) by now apply Gamma_pos.
  assert (P2 : 0 < G (r + INR k)) by (apply Gamma_pos; auto; lra).
  pose proof (INR_fact_lt_0 k) as P3.
  unfold k_coeff, gammaln. fold r. rewrite (Gamma_fact G k H). rewrite (Rplus_comm (INR k) r).
  split.
  - rewrite sqrt_sqrt by (left; apply exp_pos). unfold Rminus.
    rewrite !exp_plus, exp_Ropp, !exp_ln by assumption. reflexivity.
  - rewrite sqrt_sqrt.
    + unfold Rminus. rewrite exp_plus, exp_Ropp, !exp_ln by assumption. unfold Rdiv. ring.
    + left. pose proof PI_RGT_0. pose proof (exp_pos (ln (INR (fact k)) - ln (G (r + INR k)))).
      pose proof (Rpower_pos 2 r).
      apply Rmult_lt_0_compat; [|assumption]. apply Rmult_lt_0_compat; [|assumption].
      apply Rmult_lt_0_compat; lra.
Qed.

Lemma lagp_cont G k c x : continuity_pt (lagp G k c) x.
Proof.
  unfold lagp. assert (Q : forall n, continuity_pt (fun x => Rsum n (fun m => lag_const G k c m * x ^ m)) x).
  { induction n as [|n IH]; [apply continuity_pt_const; now intros ? ?|]. simpl.
    apply (continuity_pt_plus (fun x => Rsum n (fun m => lag_const G k c m * x ^ m))
             (fun x => lag_const G k c n * x ^ n)); [exact IH|].
    apply (continuity_pt_mult (fun _ => lag_const G k c n) (fun x => x ^ n)); [apply continuity_pt_const; now intros ? ?|].
    apply derivable_continuous_pt, derivable_pt_pow. }
  apply Q.
Qed.
Lemma Rpower_cont w s : 0 < w -> continuity_pt (fun w => Rpower w s) w.
Proof. intros H. apply derivable_continuous_pt. eexists. now apply derivable_pt_lim_power. Qed.
Lemma shape_cont G gamma beta k w : 0 < w -> continuity_pt (gmw_shape G gamma beta k) w.
Proof.
  intros H. unfold gmw_shape.
  apply (continuity_pt_mult (fun w => lagp G k ((2 * beta + 1) / gamma - 1) (2 * Rpower w gamma))).
  - apply (continuity_pt_comp (fun w => 2 * Rpower w gamma) (lagp G k ((2 * beta + 1) / gamma - 1))); [|apply lagp_cont].
    apply (continuity_pt_mult (fun _ => 2)); [apply continuity_pt_const; now intros ? ?|now apply Rpower_cont].
  - apply (continuity_pt_mult (fun w => Rpower w beta)); [now apply Rpower_cont|].
    apply (continuity_pt_comp (fun w => - Rpower w gamma) exp).
    + apply (continuity_pt_opp (fun w => Rpower w gamma)). now apply Rpower_cont.
    + apply derivable_continuous_pt, derivable_pt_exp.
Qed.
