(** How the wavelets' parameters set their relative bandwidth. *)
From Coq Require Import Reals Lra.
From Verif Require Import Py Cplx CplxProofs Freqs Scales Cwt Wavelets WaveletProofs DefaultRoundTrip.
Local Open Scope R_scope.

Lemma morsefreq_is gamma beta : 0 < gamma -> 0 < beta -> morsefreq gamma beta = Rpower (beta / gamma) (1 / gamma).
Proof. intros Hg Hb. unfold morsefreq. apply rpow_pos. now apply Rdiv_lt_0_compat. Qed.

(** value at [r] times the centre frequency over the value at the centre, for [beta = 1] *)
Definition shape (gamma r : R) : R := r * exp ((1 - Rpower r gamma) / gamma).

Lemma shape_pos gamma r : 0 < r -> 0 < shape gamma r.
Proof. intros H. unfold shape. apply Rmult_lt_0_compat; [exact H|apply exp_pos]. Qed.
Lemma shape_below gamma r : 0 < gamma -> 0 < r -> r <> 1 -> ln (shape gamma r) < 0.
Proof.
  intros Hg Hr H1. unfold shape. rewrite ln_mult by (auto; apply exp_pos). rewrite ln_exp.
  set (u := Rpower r gamma). assert (Hu : 0 < u) by apply exp_pos.
  assert (Lu : ln u = gamma * ln r) by (unfold u, Rpower; apply ln_exp).
  assert (U1 : u <> 1).
  { intros E. rewrite E, ln_1 in Lu. assert (ln r = 0) by (destruct (Req_dec (ln r) 0); [assumption|]; symmetry in Lu; apply Rmult_integral in Lu; lra).
    apply H1. rewrite <- (exp_ln r Hr), H, exp_0. reflexivity. }
  pose proof (ln_below u Hu U1) as B. rewrite Lu in B.
  assert (E : ln r + (1 - u) / gamma = / gamma * (gamma * ln r - u + 1)) by (field; lra). rewrite E.
  rewrite <- (Rmult_0_r (/ gamma)). apply Rmult_lt_compat_l; [now apply Rinv_0_lt_compat|lra].
Qed.
Lemma shape_one gamma : shape gamma 1 = 1.
Proof. unfold shape, Rpower. rewrite ln_1, Rmult_0_r, exp_0, Rminus_eq_0. unfold Rdiv. rewrite Rmult_0_l, exp_0. ring. Qed.

Lemma l1_profile gamma beta r : 0 < gamma -> 0 < beta -> 0 < r ->
  gmw_l1_entry gamma beta (morsefreq gamma beta) (r * morsefreq gamma beta) = 2 * Rpower (shape gamma r) beta.
Proof.
  intros Hg Hb Hr. pose proof (morsefreq_pos gamma beta Hg Hb) as P.
  rewrite gmw_l1_pos by (auto; now apply Rmult_lt_0_compat). rewrite exponent by (auto; now apply Rmult_lt_0_compat).
  replace (r * morsefreq gamma beta / morsefreq gamma beta) with r by (field; lra).
  unfold Rpower at 3. f_equal. f_equal. unfold shape. rewrite ln_mult by (auto; apply exp_pos). rewrite ln_exp. unfold Rpower at 1. rewrite ln_exp. field. lra.
Qed.

(** relative to its peak, [gmw] with [beta] is the power [beta] of one function *)
Theorem gmw_profile gamma beta f : 0 < gamma -> 0 < beta -> gmw_l1 gamma beta false = Ok f ->
  let wp := Rpower (beta / gamma) (1 / gamma) in
  forall r, 0 < r -> f (r * wp) / f wp = Rpower (r * exp ((1 - Rpower r gamma) / gamma)) beta.
Proof.
  intros Hg Hb E wp r Hr. rewrite gmw_l1_ok in E by assumption. injection E as <-. unfold wp. rewrite <- morsefreq_is by assumption. rewrite l1_profile, gmw_l1_peak by assumption.
  unfold shape. field.
Qed.
Theorem gmw_profile_l2 Gamma gamma beta f : 0 < gamma -> 0 < beta -> 0 < Gamma ((2 * beta + 1) / gamma) -> gmw_l2 Gamma gamma beta false = Ok f ->
  let wp := Rpower (beta / gamma) (1 / gamma) in
  forall r, 0 < r -> f (r * wp) / f wp = Rpower (r * exp ((1 - Rpower r gamma) / gamma)) beta.
Proof.
  intros Hg Hb HG E wp r Hr. rewrite gmw_l2_ok in E by assumption. injection E as <-. unfold wp. rewrite <- morsefreq_is by assumption.
  destruct (gmw_l2_l1 gamma beta Hg Hb ((2 * beta + 1) / gamma) _ HG) as (c & Hc & H). rewrite !H, l1_profile, gmw_l1_peak by assumption. unfold shape. field. lra.
Qed.

Theorem gmw_narrower gamma b1 b2 f1 f2 : 0 < gamma -> 0 < b1 -> b1 < b2 -> gmw_l1 gamma b1 false = Ok f1 -> gmw_l1 gamma b2 false = Ok f2 ->
  let w1 := Rpower (b1 / gamma) (1 / gamma) in let w2 := Rpower (b2 / gamma) (1 / gamma) in
  forall r, 0 < r -> r <> 1 -> f2 (r * w2) / f2 w2 < f1 (r * w1) / f1 w1.
Proof.
  intros Hg H1 H E1 E2 w1 w2 r Hr Hn. unfold w1, w2. rewrite (gmw_profile gamma b1 f1), (gmw_profile gamma b2 f2) by (assumption || lra).
  fold (shape gamma r). unfold Rpower. apply exp_increasing. pose proof (shape_below gamma r Hg Hr Hn) as L. nra.
Qed.
(** the band where the wavelet is at least [c] of its peak *)
Theorem gmw_band gamma b1 b2 f1 f2 c : 0 < gamma -> 0 < b1 -> b1 < b2 -> gmw_l1 gamma b1 false = Ok f1 -> gmw_l1 gamma b2 false = Ok f2 ->
  let w1 := Rpower (b1 / gamma) (1 / gamma) in let w2 := Rpower (b2 / gamma) (1 / gamma) in
  forall r, 0 < r -> c * f2 w2 <= f2 (r * w2) -> c * f1 w1 <= f1 (r * w1).
Proof.
  intros Hg H1 H E1 E2 w1 w2 r Hr Hc.
  destruct (gmw_l1_peaks gamma b1 f1 Hg H1 E1) as (P1 & _). destruct (gmw_l1_peaks gamma b2 f2 Hg ltac:(lra) E2) as (P2 & _). cbv zeta in P1, P2. fold w1 in P1. fold w2 in P2.
  destruct (Req_dec r 1) as [->|Hn]; [rewrite Rmult_1_l in *; rewrite P1, P2 in *; lra|].
  pose proof (gmw_narrower gamma b1 b2 f1 f2 Hg H1 H E1 E2 r Hr Hn) as L. cbv zeta in L. fold w1 w2 in L. rewrite P1, P2 in *. lra.
Qed.
(** any two frequencies are told apart by [beta] great enough *)
Theorem gmw_sharp gamma r c : 0 < gamma -> 0 < r -> r <> 1 -> 0 < c -> exists b0, 0 < b0 /\ forall beta f, b0 <= beta -> gmw_l1 gamma beta false = Ok f ->
  let wp := Rpower (beta / gamma) (1 / gamma) in f (r * wp) < c * f wp.
Proof.
  intros Hg Hr Hn Hc. pose proof (shape_below gamma r Hg Hr Hn) as L. set (q := ln (shape gamma r)) in *.
  exists (Rmax 1 (ln c / q + 1)). split; [apply Rlt_le_trans with 1; [lra|apply Rmax_l]|]. intros beta f Hb E wp.
  assert (B1 : 1 <= beta) by (eapply Rle_trans; [apply Rmax_l|exact Hb]). assert (B2 : ln c / q + 1 <= beta) by (eapply Rle_trans; [apply Rmax_r|exact Hb]).
  destruct (gmw_l1_peaks gamma beta f Hg ltac:(lra) E) as (P & _). cbv zeta in P. fold wp in P.
  pose proof (gmw_profile gamma beta f Hg ltac:(lra) E r Hr) as V. cbv zeta in V. fold wp (shape gamma r) in V. rewrite P in V.
  assert (S : Rpower (shape gamma r) beta < c).
  { rewrite <- (exp_ln c Hc). unfold Rpower. apply exp_increasing. fold q. assert (ln c = q * (ln c / q)) by (field; lra). nra. }
  rewrite P. rewrite <- V in S. lra.
Qed.

(** ** Morlet: a Gaussian of deviation 1 about [mu], so 1 / [mu] relative to its frequency *)
Definition morlet_gain (mu : R) : R := sqrt 2 * Rpower (1 + exp (- mu ^ 2) - 2 * exp (- (3 / 4) * mu ^ 2)) (- / 2) * Rpower PI (/ 4).
Theorem morlet_gauss mu w : morlet_gain mu * (exp (- (w - mu) ^ 2 / 2) - exp (- mu ^ 2 / 2)) <= morlet mu w <= morlet_gain mu * exp (- (w - mu) ^ 2 / 2) /\ 0 < morlet_gain mu.
Proof.
  assert (G : 0 < morlet_gain mu).
  { unfold morlet_gain. repeat apply Rmult_lt_0_compat; try apply exp_pos. apply sqrt_lt_R0. lra. }
  assert (E : morlet mu w = morlet_gain mu * (exp (- (w - mu) ^ 2 / 2) - exp (- mu ^ 2 / 2) * exp (- w ^ 2 / 2))).
  { unfold morlet, morlet_gain. replace (- / 2 * (w - mu) ^ 2) with (- (w - mu) ^ 2 / 2) by field. replace (- / 2 * mu ^ 2) with (- mu ^ 2 / 2) by field. replace (- / 2 * w ^ 2) with (- w ^ 2 / 2) by field. ring. }
  rewrite E. split; [|exact G]. pose proof (exp_pos (- mu ^ 2 / 2)). pose proof (exp_pos (- w ^ 2 / 2)).
  assert (exp (- w ^ 2 / 2) <= 1) by (rewrite <- exp_0; destruct (Req_dec w 0) as [->|]; [right; f_equal; field|left; apply exp_increasing; nra]).
  split; apply Rmult_le_compat_l; try lra; nra.
Qed.
(** relative to the value at [mu], [r] times [mu] *)
Theorem morlet_profile mu r : 0 < mu ->
  exp (- mu ^ 2 * (r - 1) ^ 2 / 2) - exp (- mu ^ 2 / 2) <= morlet mu (r * mu) / morlet_gain mu <= exp (- mu ^ 2 * (r - 1) ^ 2 / 2) /\
  1 - exp (- mu ^ 2 / 2) <= morlet mu mu / morlet_gain mu <= 1.
Proof.
  intros Hm. destruct (morlet_gauss mu (r * mu)) as ((A & B) & G). destruct (morlet_gauss mu mu) as ((A1 & B1) & _).
  replace (- (r * mu - mu) ^ 2 / 2) with (- mu ^ 2 * (r - 1) ^ 2 / 2) in A, B by field. replace (- (mu - mu) ^ 2 / 2) with 0 in A1, B1 by field. rewrite exp_0 in A1, B1.
  assert (D : forall a b, morlet_gain mu * a <= b -> a <= b / morlet_gain mu).
  { intros a b H. apply Rmult_le_reg_l with (morlet_gain mu); [exact G|]. replace (morlet_gain mu * (b / morlet_gain mu)) with b by (field; lra). exact H. }
  assert (D' : forall a b, b <= morlet_gain mu * a -> b / morlet_gain mu <= a).
  { intros a b H. apply Rmult_le_reg_l with (morlet_gain mu); [exact G|]. replace (morlet_gain mu * (b / morlet_gain mu)) with b by (field; lra). exact H. }
  repeat split; auto.
Qed.
(** mu above 6: off a Gaussian by less than 2e-8 of its peak *)
Theorem morlet_six mu w : 6 <= mu -> Rabs (morlet mu w / morlet_gain mu - exp (- (w - mu) ^ 2 / 2)) < 2 / 100000000.
Proof.
  intros Hm. destruct (morlet_gauss mu w) as ((A & B) & G).
  assert (X : exp (- mu ^ 2 / 2) < 2 / 100000000).
  { apply Rle_lt_trans with (exp (- (18))).
    - destruct (Req_dec mu 6) as [->|]; [right; f_equal; field|left; apply exp_increasing; nra].
    - destruct e_powers as (_ & (E4 & _) & (E10 & _) & _). cbv zeta in E4, E10.
      assert (E18 : exp (- (18)) = / (exp 1 ^ 10 * (exp 1 ^ 4 * exp 1 ^ 4))).
      { rewrite exp_Ropp. f_equal. replace 18 with (INR 18) by (simpl; lra). rewrite pow_e. ring. }
      rewrite E18. assert (P : 63000000 <= exp 1 ^ 10 * (exp 1 ^ 4 * exp 1 ^ 4)).
      { apply Rle_trans with (21880 * (54 * 54)); [lra|]. clear A B G. apply Rmult_le_compat; [lra|lra|exact E10|]. apply Rmult_le_compat; [lra|lra|exact E4|exact E4]. }
      apply Rle_lt_trans with (/ 63000000); [apply Rinv_le_contravar; lra|lra]. }
  assert (K1 : morlet mu w / morlet_gain mu <= exp (- (w - mu) ^ 2 / 2)) by (apply Rmult_le_reg_l with (morlet_gain mu); [exact G|]; replace (morlet_gain mu * (morlet mu w / morlet_gain mu)) with (morlet mu w) by (field; lra); exact B).
  assert (K2 : exp (- (w - mu) ^ 2 / 2) - exp (- mu ^ 2 / 2) <= morlet mu w / morlet_gain mu) by (apply Rmult_le_reg_l with (morlet_gain mu); [exact G|]; replace (morlet_gain mu * (morlet mu w / morlet_gain mu)) with (morlet mu w) by (field; lra); exact A).
  apply Rabs_def1; lra.
Qed.

(** ** bump and cmhat: [s] stretches and shrinks *)
Theorem bump_width mu s om u : 0 < s -> Cabs (bump mu s om (mu + s * u)) = Cabs (bump 0 1 0 u) / s.
Proof.
  intros Hs. unfold bump. replace ((mu + s * u - mu) / s) with u by (field; lra). replace ((u - 0) / 1) with u by field.
  rewrite !Cabs_mul, !Cabs_cis, !Cabs_RtoC, !Rmult_1_l, Rinv_1.
  match goal with |- Rabs (/ s * ?i * ?e / ?k) = Rabs (1 * ?i * ?e / ?k) / s => replace (/ s * i * e / k) with (/ s * (1 * i * e / k)) by (unfold Rdiv; ring) end.
  rewrite Rabs_mult, (Rabs_right (/ s)) by (apply Rle_ge; left; now apply Rinv_0_lt_compat). unfold Rdiv. ring.
Qed.
Theorem cmhat_width mu s u : 0 < s -> cmhat mu s (mu + u / s) = sqrt s * cmhat 0 1 u.
Proof.
  intros Hs. unfold cmhat. replace (mu + u / s - mu) with (u / s) by ring. rewrite Rminus_0_r.
  assert (B : Rgeb (u / s) 0 = Rgeb u 0).
  { unfold Rgeb. assert (u / s * s = u) by (field; lra). destruct (Rle_dec 0 (u / s)), (Rle_dec 0 u); try reflexivity; exfalso; nra. }
  rewrite B. replace (- s ^ 2 * (u / s) ^ 2 / 2) with (- 1 ^ 2 * u ^ 2 / 2) by (field; lra).
  assert (P : Rpower s (5 / 2) = s ^ 2 * sqrt s).
  { replace (5 / 2) with (INR 2 + / 2) by (simpl; lra). rewrite Rpower_plus, Rpower_pow, Rpower_sqrt by assumption. reflexivity. }
  rewrite P. assert (P1 : Rpower 1 (5 / 2) = 1) by (unfold Rpower; rewrite ln_1, Rmult_0_r; apply exp_0). rewrite P1. field. lra.
Qed.

(** ** cases *)
Lemma trade_case : exists f g, gmw_l1 3 60 false = Ok f /\ gmw_l1 3 30 false = Ok g /\
  let w1 := Rpower (30 / 3) (1 / 3) in let w2 := Rpower (60 / 3) (1 / 3) in f (2 * w2) / f w2 < g (2 * w1) / g w1.
Proof.
  eexists. eexists. split; [apply gmw_l1_ok; lra|]. split; [apply gmw_l1_ok; lra|]. cbv zeta.
  apply (gmw_narrower 3 30 60); try lra; apply gmw_l1_ok; lra.
Qed.
Lemma morlet_case : Rabs (morlet (67 / 5) 13 / morlet_gain (67 / 5) - exp (- (13 - 67 / 5) ^ 2 / 2)) < 2 / 100000000.
Proof. apply morlet_six. lra. Qed.
Lemma width_case : Cabs (bump 5 (1 / 2) 0 (5 + 1 / 2 * (1 / 2))) = Cabs (bump 0 1 0 (1 / 2)) / (1 / 2) /\ cmhat 1 4 (1 + 2 / 4) = 2 * cmhat 0 1 2.
Proof.
  split; [apply bump_width; lra|]. rewrite cmhat_width by lra. replace 4 with (2 * 2) by ring. rewrite sqrt_square by lra. reflexivity.
Qed.

(** ** Morlet: greater [mu], narrower *)
Lemma morlet_at mu r : morlet mu (r * mu) = morlet_gain mu * (exp (- mu ^ 2 * (r - 1) ^ 2 / 2) * (1 - exp (- (r * mu ^ 2)))).
Proof.
  unfold morlet, morlet_gain.
  assert (E : exp (- mu ^ 2 * (r - 1) ^ 2 / 2) * (1 - exp (- (r * mu ^ 2))) = exp (- / 2 * (r * mu - mu) ^ 2) - exp (- / 2 * mu ^ 2) * exp (- / 2 * (r * mu) ^ 2)).
  { rewrite Rmult_minus_distr_l, Rmult_1_r, <- !exp_plus. f_equal; f_equal; field. }
  rewrite E. ring.
Qed.
Theorem morlet_narrower mu1 mu2 r : 0 < mu1 -> mu1 < mu2 -> 0 < r -> r <> 1 -> 2 * r <= (r - 1) ^ 2 * (exp (r * mu1 ^ 2) - 1) ->
  morlet mu2 (r * mu2) / morlet mu2 mu2 < morlet mu1 (r * mu1) / morlet mu1 mu1.
Proof.
  intros H1 H Hr Hn Hc.
  assert (E : forall mu, 0 < mu -> morlet mu (r * mu) / morlet mu mu = exp (- mu ^ 2 * (r - 1) ^ 2 / 2) * (1 - exp (- (r * mu ^ 2))) / (1 - exp (- mu ^ 2)) /\ 0 < 1 - exp (- mu ^ 2)).
  { intros mu Hm. pose proof (morlet_at mu 1) as M1. rewrite Rmult_1_l in M1. rewrite (morlet_at mu r), M1. destruct (morlet_gauss mu 0) as (_ & G).
    replace (- mu ^ 2 * (1 - 1) ^ 2 / 2) with 0 by field. rewrite exp_0, !Rmult_1_l.
    assert (L : exp (- mu ^ 2) < 1) by (rewrite <- exp_0; apply exp_increasing; nra). split; [field; split; lra|lra]. }
  destruct (E mu1 H1) as (-> & P1). destruct (E mu2 ltac:(lra)) as (-> & P2). clear E.
  set (m1 := mu1 ^ 2) in *. set (m2 := mu2 ^ 2) in *. assert (Hm : m1 < m2) by (unfold m1, m2; nra).
  assert (Q : exp (- m2) < exp (- m1)) by (apply exp_increasing; lra).
  set (a := exp (- (r * m1))) in *. set (dl := m2 - m1) in *. set (d := (r - 1) ^ 2) in *.
  assert (Hd : 0 < d) by (unfold d; replace ((r - 1) ^ 2) with ((r - 1) * (r - 1)) by ring; apply Rsqr_pos_lt; lra).
  assert (Ha : 0 < a < 1) by (split; [apply exp_pos|unfold a; rewrite <- exp_0; apply exp_increasing; assert (0 < m1) by (unfold m1; nra); nra]).
  assert (Ea : exp (r * m1) = / a) by (unfold a; rewrite exp_Ropp, Rinv_inv; reflexivity).
  assert (Hc' : 2 * r * a <= d * (1 - a)).
  { rewrite Ea in Hc. apply Rmult_le_compat_r with (r := a) in Hc; [|lra]. replace (d * (/ a - 1) * a) with (d * (1 - a)) in Hc by (field; lra). exact Hc. }
  assert (X1 : exp (- m2 * d / 2) = exp (- m1 * d / 2) * exp (- (dl * d / 2))) by (rewrite <- exp_plus; f_equal; unfold dl; field).
  assert (X2 : exp (- (r * m2)) = a * exp (- (r * dl))) by (unfold a; rewrite <- exp_plus; f_equal; unfold dl; ring).
  assert (Hdl : 0 < dl) by (unfold dl; lra).
  assert (Y1 : 1 + dl * d / 2 < exp (dl * d / 2)) by (apply exp_ineq1; assert (0 < dl * d) by (now apply Rmult_lt_0_compat); lra).
  assert (Y2 : 1 + - (r * dl) < exp (- (r * dl))) by (apply exp_ineq1; assert (0 < r * dl) by (now apply Rmult_lt_0_compat); lra).
  assert (K : exp (- (dl * d / 2)) * (1 - a * exp (- (r * dl))) < 1 - a).
  { apply Rmult_lt_reg_l with (exp (dl * d / 2)); [apply exp_pos|]. rewrite <- Rmult_assoc, <- exp_plus, Rplus_opp_r, exp_0, Rmult_1_l.
    apply Rlt_le_trans with (1 - a * (1 - r * dl)).
    - assert (a * (1 + - (r * dl)) < a * exp (- (r * dl))) by (apply Rmult_lt_compat_l; lra). lra.
    - apply Rle_trans with ((1 + dl * d / 2) * (1 - a)); [|apply Rmult_le_compat_r; lra].
      assert (dl * (2 * r * a) <= dl * (d * (1 - a))) by (apply Rmult_le_compat_l; lra). lra. }
  rewrite X1, X2. pose proof (exp_pos (- m1 * d / 2)) as Z.
  apply Rmult_lt_reg_r with (1 - exp (- m2)); [exact P2|]. replace (exp (- m1 * d / 2) * exp (- (dl * d / 2)) * (1 - a * exp (- (r * dl))) / (1 - exp (- m2)) * (1 - exp (- m2)))
    with (exp (- m1 * d / 2) * (exp (- (dl * d / 2)) * (1 - a * exp (- (r * dl))))) by (field; lra).
  apply Rlt_le_trans with (exp (- m1 * d / 2) * (1 - a)); [apply Rmult_lt_compat_l; assumption|].
  replace (exp (- m1 * d / 2) * (1 - a) / (1 - exp (- m1)) * (1 - exp (- m2))) with (exp (- m1 * d / 2) * (1 - a) * ((1 - exp (- m2)) / (1 - exp (- m1)))) by (field; lra).
  rewrite <- (Rmult_1_r (exp (- m1 * d / 2) * (1 - a))) at 1. apply Rmult_le_compat_l; [apply Rmult_le_pos; lra|].
  apply Rmult_le_reg_r with (1 - exp (- m1)); [exact P1|]. replace ((1 - exp (- m2)) / (1 - exp (- m1)) * (1 - exp (- m1))) with (1 - exp (- m2)) by (field; lra). lra.
Qed.
(** the recommended range, a tenth or more away from the centre *)
Theorem morlet_recommended mu1 mu2 r : 4 <= mu1 -> mu1 < mu2 -> 1 / 2 <= r -> 1 / 10 <= Rabs (r - 1) ->
  morlet mu2 (r * mu2) / morlet mu2 mu2 < morlet mu1 (r * mu1) / morlet mu1 mu1.
Proof.
  intros H1 H Hr Hd. apply morlet_narrower; try lra.
  - intros ->. rewrite Rminus_eq_0, Rabs_R0 in Hd. lra.
  - assert (D : 1 / 100 <= (r - 1) ^ 2). { rewrite <- Rsqr_pow2, Rsqr_abs. unfold Rsqr. nra. }
    assert (X : 200 * r + 1 <= exp (r * mu1 ^ 2)).
    { apply Rle_trans with (exp 8 * exp (r * mu1 ^ 2 - 8)).
      - destruct e_powers as (_ & (E4 & _) & _). cbv zeta in E4. assert (E8 : exp 8 = exp 1 ^ 4 * exp 1 ^ 4) by (replace 8 with (INR 8) by (simpl; lra); rewrite pow_e; ring).
        assert (L8 : 2900 <= exp 8). { rewrite E8. apply Rle_trans with (54 * 54); [lra|]. apply Rmult_le_compat; [lra|lra|exact E4|exact E4]. }
        assert (M0 : 16 <= mu1 ^ 2) by (clear - H1; nra). assert (M : 16 * r <= r * mu1 ^ 2) by (rewrite (Rmult_comm r); apply Rmult_le_compat_r; lra). pose proof (exp_ineq1_le (r * mu1 ^ 2 - 8)) as Y.
        apply Rle_trans with (2900 * (1 + (16 * r - 8))); [lra|]. apply Rmult_le_compat; lra.
      - right. rewrite <- exp_plus. f_equal. ring. }
    apply Rle_trans with (1 / 100 * (exp (r * mu1 ^ 2) - 1)); [lra|]. apply Rmult_le_compat_r; lra.
Qed.
Lemma recommended_case : morlet 12 (2 * 12) / morlet 12 12 < morlet 6 (2 * 6) / morlet 6 6.
Proof. apply morlet_recommended; try lra. rewrite Rabs_right; lra. Qed.
