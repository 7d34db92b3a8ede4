(** GMW moments, frequency measures, and [morsewave] against [compute_gmw]. *)
From Coq Require Import Reals Lra Lia Psatz Arith.
From Verif Require Import Py Cplx CplxProofs Freqs ShiftProofs Pointwise Comb CombProofs Wavelets WaveletProofs
  Integral IntegralProofs GmwOrders LaguerreProofs GmwOrdersProofs GmwThms.
Local Open Scope R_scope.

Section Moments.
Variables (G : R -> R) (gamma beta : R) (f : R -> R).
Hypothesis (HG : is_Gamma G) (Hg : 0 < gamma) (Hb : 0 < beta) (Hf : gmw_l1 gamma beta false = Ok f).
Let wc := morsefreq gamma beta.
Let a := exp (- beta * ln wc + Rpower wc gamma).

Lemma f_pos w : 0 < w -> f w = 2 * a * (Rpower w beta * exp (- Rpower w gamma)).
Proof.
  intros Hw. rewrite gmw_l1_ok in Hf by auto. apply Ok_inj in Hf. rewrite <- Hf. cbv beta.
  rewrite gmw_l1_pos by auto. rewrite !rpow_pos by (auto; now apply morsefreq_pos). fold wc. unfold a.
  rewrite <- exp_split, Rmult_assoc, <- exp_plus. f_equal. f_equal. ring.
Qed.
Lemma f_posv w : 0 < w -> 0 < f w.
Proof.
  intros Hw. rewrite f_pos by auto. pose proof (exp_pos (- beta * ln wc + Rpower wc gamma)) as P. fold a in P.
  pose proof (Rpower_pos w beta). pose proof (exp_pos (- Rpower w gamma)).
  apply Rmult_lt_0_compat; [lra|now apply Rmult_lt_0_compat].
Qed.
Lemma Rpower_1_l y : Rpower 1 y = 1.
Proof. unfold Rpower. rewrite ln_1, Rmult_0_r. apply exp_0. Qed.
Lemma afun_1 : 2 / exp (beta * ln wc - rpow wc gamma) = 2 * a.
Proof.
  unfold a. rewrite rpow_pos by now apply morsefreq_pos.
  unfold Rdiv. rewrite <- exp_Ropp. f_equal. f_equal. ring.
Qed.
Lemma moment_ok p : exists m, morsemom1 G p gamma beta = Ok m /\ impint (fun w => / (2 * PI) * (w ^ p * f w)) m.
Proof.
  unfold morsemom1, morseafun. destruct (Req_EM_T beta 0); [lra|]. fold wc. rewrite afun_1. eexists. split; [reflexivity|].
  pose proof (pos_INR p) as Pp. pose proof PI_RGT_0 as Ppi.
  pose proof (impint_moment G (beta + INR p) 1 gamma HG ltac:(lra) ltac:(lra) Hg) as I.
  apply (impint_scal _ (/ (2 * PI) * (2 * a))) in I. rewrite Rpower_1_l in I.
  match type of I with impint _ ?v => replace (2 * a * morsef G gamma (beta + INR p)) with v end.
  - eapply impint_ext; [|exact I]. intros w Hw. cbv beta. rewrite f_pos by exact Hw.
    rewrite Rpower_plus, Rpower_pow, Rmult_1_l by exact Hw. ring.
  - unfold morsef. field. lra.
Qed.
Lemma energy_ok p : exists m, energymom G p gamma beta = Ok m /\
  impint (fun w => / (2 * PI) * (w ^ p * (f w) ^ 2)) m.
Proof.
  unfold energymom, morsemom1, morseafun. destruct (Req_EM_T (2 * beta) 0); [lra|]. eexists. split; [reflexivity|].
  pose proof (pos_INR p) as Pp. pose proof PI_RGT_0 as Ppi.
  pose proof (impint_moment G (2 * beta + INR p) 2 gamma HG ltac:(lra) ltac:(lra) Hg) as I.
  apply (impint_scal _ (/ (2 * PI) * (4 * (a * a)))) in I.
  set (wc2 := morsefreq gamma (2 * beta)).
  assert (P2 : 0 < wc2) by (apply morsefreq_pos; lra).
  assert (Pc : 0 < wc) by (apply morsefreq_pos; lra).
  match type of I with impint _ ?v =>
    replace (2 / Rpower 2 ((1 + INR p) / gamma) *
      (2 / exp (2 * beta * ln wc2 - rpow wc2 gamma) * morsef G gamma (2 * beta + INR p))) with v end.
  - eapply impint_ext; [|exact I]. intros w Hw. cbv beta. rewrite f_pos by exact Hw.
    rewrite Rpower_plus, Rpower_pow by exact Hw.
    replace (Rpower w (2 * beta)) with (Rpower w beta * Rpower w beta)
      by (rewrite <- Rpower_plus; f_equal; ring).
    replace (exp (- (2 * Rpower w gamma))) with (exp (- Rpower w gamma) * exp (- Rpower w gamma))
      by (rewrite <- exp_plus; f_equal; ring). ring.
  - unfold morsef. rewrite rpow_pos by exact P2. unfold wc2 at 2.
    rewrite (wc_gamma gamma (2 * beta) Hg ltac:(lra)).
    assert (L2 : ln wc2 = ln wc + / gamma * ln 2).
    { unfold wc2, wc. rewrite !morsefreq_val by lra. unfold Rpower. rewrite !ln_exp.
      replace (2 * beta / gamma) with (2 * (beta / gamma)) by (field; lra).
      rewrite ln_mult by (try lra; apply Rdiv_lt_0_compat; lra). field. lra. }
    rewrite L2.
    assert (Ea : a * a = exp (- (2 * beta * ln wc - 2 * beta / gamma))).
    { unfold a. rewrite <- exp_plus. f_equal. unfold wc at 2 4. rewrite (wc_gamma gamma beta Hg Hb). field. lra. }
    rewrite Ea. set (L := 2 * beta * ln wc - 2 * beta / gamma).
    replace (2 * beta * (ln wc + / gamma * ln 2) - 2 * beta / gamma) with (L + 2 * beta / gamma * ln 2)
      by (unfold L; field; lra).
    replace ((2 * beta + INR p + 1) / gamma) with (2 * beta / gamma + (1 + INR p) / gamma) at 2 by (field; lra).
    rewrite Rpower_plus. change (Rpower 2 (2 * beta / gamma)) with (exp (2 * beta / gamma * ln 2)).
    rewrite exp_plus, exp_Ropp.
    pose proof (exp_pos L). pose proof (exp_pos (2 * beta / gamma * ln 2)). pose proof (Rpower_pos 2 ((1 + INR p) / gamma)).
    field. repeat split; lra.
Qed.

Lemma rmapM_ok {A B} (g : A -> res B) (h : A -> B) l : (forall x, In x l -> g x = Ok (h x)) ->
  rmapM g l = Ok (map h l).
Proof.
  induction l as [|x l IH]; intros H; [reflexivity|]. simpl. rewrite (H x) by now left.
  rewrite IH by (intros y Hy; apply H; now right). reflexivity.
Qed.
Definition mom p : R := match morsemom1 G p gamma beta with Ok m => m | Err _ => 0 end.
Definition emom p : R := match energymom G p gamma beta with Ok m => m | Err _ => 0 end.
Lemma mom_ok p : morsemom1 G p gamma beta = Ok (mom p) /\ impint (fun w => / (2 * PI) * (w ^ p * f w)) (mom p).
Proof. unfold mom. destruct (moment_ok p) as [m [E I]]. rewrite E. now split. Qed.
Lemma emom_ok p : energymom G p gamma beta = Ok (emom p) /\
  impint (fun w => / (2 * PI) * (w ^ p * (f w) ^ 2)) (emom p).
Proof. unfold emom. destruct (energy_ok p) as [m [E I]]. rewrite E. now split. Qed.

Lemma moments_cumulants_ok n (h : nat -> R) : exists K, moments_to_cumulants (map h (seq 0 (n + 1))) = Ok K.
Proof. rewrite Nat.add_comm. simpl. eexists. reflexivity. Qed.

Lemma morsemom_ok p : exists K L,
  moments_to_cumulants (map mom (seq 0 (p + 1))) = Ok K /\
  moments_to_cumulants (map emom (seq 0 (p + 1))) = Ok L /\
  morsemom G p gamma beta = Ok (mom p, emom p, nth p K 0, nth p L 0).
Proof.
  destruct (moments_cumulants_ok p mom) as [K EK]. destruct (moments_cumulants_ok p emom) as [L EL].
  exists K, L. split; [exact EK|]. split; [exact EL|]. unfold morsemom.
  rewrite (proj1 (mom_ok p)), (proj1 (emom_ok p)). cbn [bind].
  rewrite (rmapM_ok _ mom) by (intros q _; apply mom_ok). cbn [bind]. rewrite EK. cbn [bind].
  rewrite (rmapM_ok _ emom) by (intros q _; apply emom_ok). cbn [bind]. rewrite EL. reflexivity.
Qed.

(** strictly positive integrals *)
Lemma impint_strict g l : (forall x, 0 < x -> continuity_pt g x) -> (forall x, 0 < x -> 0 <= g x) ->
  (exists u v, 0 < u < v /\ forall x, u <= x <= v -> 0 < g x) -> impint g l -> 0 < l.
Proof.
  intros C P [u [v [Huv Q]]] I.
  destruct (continuity_ab_min g u v) as [m [Hm1 Hm2]]; [lra|intros x Hx; apply C; lra|].
  destruct (integral_cont g u v) as [w Iw]; [lra|intros x Hx; apply C; lra|].
  assert (w <= l) by (apply (impint_pos g l u v w); auto; lra).
  pose proof (integral_le (fun _ => g m) g u v _ _ ltac:(lra) (fun x Hx => Hm1 x ltac:(lra)) (integral_const u v (g m)) Iw).
  assert (0 < g m) by (apply Q; lra). nra.
Qed.
Lemma f_cont w : 0 < w -> continuity_pt f w.
Proof.
  intros Hw.
  assert (C : continuity_pt (fun w => 2 * a * (Rpower w beta * exp (- Rpower w gamma))) w).
  { apply (continuity_pt_mult (fun _ => 2 * a)); [apply continuity_pt_const; now intros ? ?|].
    apply (continuity_pt_mult (fun w => Rpower w beta)); [now apply Rpower_cont|].
    apply (continuity_pt_comp (fun w => - Rpower w gamma) exp).
    - apply (continuity_pt_opp (fun w => Rpower w gamma)). now apply Rpower_cont.
    - apply derivable_continuous_pt, derivable_pt_exp. }
  apply (continuity_pt_locally_ext (fun w => 2 * a * (Rpower w beta * exp (- Rpower w gamma))) f w w Hw); [|exact C].
  intros y Hy. symmetry. apply f_pos. apply Rabs_def2 in Hy. lra.
Qed.
Lemma mom_pos p : 0 < mom p.
Proof.
  destruct (mom_ok p) as [_ I]. pose proof PI_RGT_0 as Ppi.
  assert (P : forall x, 0 < x -> 0 < / (2 * PI) * (x ^ p * f x)).
  { intros x Hx. apply Rmult_lt_0_compat; [apply Rinv_0_lt_compat; lra|].
    apply Rmult_lt_0_compat; [now apply pow_lt|now apply f_posv]. }
  refine (impint_strict _ _ _ _ _ I).
  - intros x Hx. apply (continuity_pt_mult (fun _ => / (2 * PI))); [apply continuity_pt_const; now intros ? ?|].
    apply (continuity_pt_mult (fun x => x ^ p)); [apply derivable_continuous_pt, derivable_pt_pow|now apply f_cont].
  - intros x Hx. left. now apply P.
  - exists 1, 2. split; [lra|]. intros x Hx. apply P. lra.
Qed.
Lemma emom_pos p : 0 < emom p.
Proof.
  destruct (emom_ok p) as [_ I]. pose proof PI_RGT_0 as Ppi.
  assert (P : forall x, 0 < x -> 0 < / (2 * PI) * (x ^ p * (f x) ^ 2)).
  { intros x Hx. apply Rmult_lt_0_compat; [apply Rinv_0_lt_compat; lra|].
    apply Rmult_lt_0_compat; [now apply pow_lt|apply pow_lt; now apply f_posv]. }
  refine (impint_strict _ _ _ _ _ I).
  - intros x Hx. apply (continuity_pt_mult (fun _ => / (2 * PI))); [apply continuity_pt_const; now intros ? ?|].
    apply (continuity_pt_mult (fun x => x ^ p)); [apply derivable_continuous_pt, derivable_pt_pow|].
    apply (continuity_pt_comp f (fun y => y ^ 2)); [now apply f_cont|apply derivable_continuous_pt, derivable_pt_pow].
  - intros x Hx. left. now apply P.
  - exists 1, 2. split; [lra|]. intros x Hx. apply P. lra.
Qed.

(** the second cumulant is a variance *)
Lemma variance_pos : 0 < mom 2 / mom 0 - (mom 1 / mom 0) ^ 2.
Proof.
  pose proof (mom_pos 0) as P0. pose proof (mom_pos 1) as P1. set (u := mom 1 / mom 0).
  pose proof PI_RGT_0 as Ppi.
  assert (I : impint (fun w => / (2 * PI) * ((w - u) ^ 2 * f w)) (mom 2 + (-2 * u) * mom 1 + (u * u) * mom 0)).
  { pose proof (impint_lin _ _ (u * u) _ _ (impint_lin _ _ (-2 * u) _ _ (proj2 (mom_ok 2)) (proj2 (mom_ok 1))) (proj2 (mom_ok 0))) as K.
    eapply impint_ext; [|exact K]. intros w _. simpl. ring. }
  assert (Q : 0 < mom 2 + (-2 * u) * mom 1 + (u * u) * mom 0).
  { refine (impint_strict _ _ _ _ _ I).
    - intros x Hx. apply (continuity_pt_mult (fun _ => / (2 * PI))); [apply continuity_pt_const; now intros ? ?|].
      apply (continuity_pt_mult (fun x => (x - u) ^ 2)); [|now apply f_cont].
      apply (continuity_pt_comp (fun x => x - u) (fun y => y ^ 2)); [|apply derivable_continuous_pt, derivable_pt_pow].
      apply (continuity_pt_minus id (fun _ => u)); [apply derivable_continuous_pt, derivable_pt_id|apply continuity_pt_const; now intros ? ?].
    - intros x Hx. pose proof (f_posv x Hx). pose proof (pow2_ge_0 (x - u)).
      apply Rmult_le_pos; [left; apply Rinv_0_lt_compat; lra|]. apply Rmult_le_pos; lra.
    - assert (Pu : 0 < u) by (apply Rdiv_lt_0_compat; assumption).
      exists (u + 1), (u + 2). split; [lra|]. intros x Hx. pose proof (f_posv x ltac:(lra)).
      apply Rmult_lt_0_compat; [apply Rinv_0_lt_compat; lra|]. apply Rmult_lt_0_compat; [|assumption].
      apply pow_lt. lra. }
  replace (mom 2 / mom 0 - u ^ 2) with ((mom 2 + -2 * u * mom 1 + u * u * mom 0) / mom 0).
  - now apply Rdiv_lt_0_compat.
  - unfold u. field. lra.
Qed.

Lemma morsefreq_all_ok : exists k2 k3 K2 K3,
  moments_to_cumulants (map mom (seq 0 3)) = Ok K2 /\ nth 2 K2 0 = k2 /\
  moments_to_cumulants (map mom (seq 0 4)) = Ok K3 /\ nth 3 K3 0 = k3 /\
  morsefreq_all G gamma beta = Ok (wc, emom 1 / emom 0, mom 1 / mom 0, - (k3 / Rpower k2 (3 / 2))).
Proof.
  destruct (morsemom_ok 2) as [K2 [L2 [E2 [_ M2]]]]. destruct (morsemom_ok 3) as [K3 [L3 [E3 [_ M3]]]].
  exists (nth 2 K2 0), (nth 3 K3 0), K2, K3. split; [exact E2|]. split; [reflexivity|]. split; [exact E3|].
  split; [reflexivity|]. unfold morsefreq_all. rewrite M2, M3. cbn [bind fst snd]. fold wc.
  assert (Ee : 1 / Rpower 2 (1 / gamma) * (G ((2 * beta + 2) / gamma) / G ((2 * beta + 1) / gamma)) = emom 1 / emom 0).
  { pose proof (emom_pos 0) as P0. revert P0. unfold emom, energymom, morsemom1, morseafun.
    destruct (Req_EM_T (2 * beta) 0); [lra|]. cbn [bind]. unfold morsef.
    set (A := 2 / exp (2 * beta * ln (morsefreq gamma (2 * beta)) - rpow (morsefreq gamma (2 * beta)) gamma)).
    simpl INR. rewrite !Rplus_0_r. replace (2 * beta + 1 + 1) with (2 * beta + 2) by ring.
    replace ((1 + 1) / gamma) with (1 / gamma + 1 / gamma) by (field; lra). rewrite Rpower_plus. intros P0.
    pose proof (Rpower_pos 2 (1 / gamma)) as Pp. pose proof PI_RGT_0.
    assert (PA : 0 < A) by (apply Rdiv_lt_0_compat; [lra|apply exp_pos]).
    assert (PG : 0 < G ((2 * beta + 1) / gamma)) by (apply Gamma_pos; auto; apply Rdiv_lt_0_compat; lra).
    field. repeat split; lra. }
  assert (Ei : G ((beta + 2) / gamma) / G ((beta + 1) / gamma) = mom 1 / mom 0).
  { unfold mom, morsemom1, morseafun. destruct (Req_EM_T beta 0); [lra|]. cbn [bind]. unfold morsef.
    set (A := 2 / exp (beta * ln (morsefreq gamma beta) - rpow (morsefreq gamma beta) gamma)).
    simpl INR. rewrite !Rplus_0_r. replace (beta + 1 + 1) with (beta + 2) by ring.
    pose proof PI_RGT_0.
    assert (PA : 0 < A) by (apply Rdiv_lt_0_compat; [lra|apply exp_pos]).
    assert (PG : 0 < G ((beta + 1) / gamma)) by (apply Gamma_pos; auto; apply Rdiv_lt_0_compat; lra).
    field. repeat split; lra. }
  rewrite Ee, Ei. reflexivity.
Qed.
End Moments.
