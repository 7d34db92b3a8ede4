(** Proofs about the built-in wavelet functions. *)
From Coq Require Import Reals Lra.
From Verif Require Import Py Cplx CplxProofs Freqs Scales Cwt Wavelets.
Local Open Scope R_scope.

Lemma Rgeb_true a b : b <= a -> Rgeb a b = true.
Proof. unfold Rgeb. destruct (Rle_dec b a); [reflexivity|contradiction]. Qed.
Lemma Rgeb_false a b : a < b -> Rgeb a b = false.
Proof. unfold Rgeb. destruct (Rle_dec b a); [lra|reflexivity]. Qed.
Lemma rpow_pos w g : 0 < w -> rpow w g = Rpower w g.
Proof. intros. unfold rpow. destruct (Req_EM_T w 0); [lra|reflexivity]. Qed.

Lemma ln_below u : 0 < u -> u <> 1 -> ln u < u - 1.
Proof.
  intros Hu H1. assert (N : ln u <> 0) by (intros E; apply H1; rewrite <- (exp_ln u Hu), E; apply exp_0).
  pose proof (exp_ineq1 (ln u) N) as H. rewrite exp_ln in H by auto. lra.
Qed.

Lemma pow2_gt_0 x : x <> 0 -> 0 < x ^ 2.
Proof. intros H. replace (x ^ 2) with (Rsqr x) by (unfold Rsqr; ring). now apply Rsqr_pos_lt. Qed.

Section Morse.
Variables (gamma beta : R).
Hypothesis (Hg : 0 < gamma) (Hb : 0 < beta).
Let wc := morsefreq gamma beta.

Lemma morsefreq_val : wc = Rpower (beta / gamma) (1 / gamma).
Proof. unfold wc, morsefreq. apply rpow_pos. now apply Rdiv_lt_0_compat. Qed.
Lemma morsefreq_pos : 0 < wc.
Proof. rewrite morsefreq_val. apply exp_pos. Qed.
Lemma wc_gamma : Rpower wc gamma = beta / gamma.
Proof.
  rewrite morsefreq_val, Rpower_mult. replace (1 / gamma * gamma) with 1 by (field; lra).
  apply Rpower_1. now apply Rdiv_lt_0_compat.
Qed.

(** exponent of the wavelet as [(beta/gamma) (ln u - u + 1)], [u = (w/wc)^gamma] *)
Lemma exponent w : 0 < w ->
  - beta * ln wc + rpow wc gamma + beta * ln w - rpow w gamma =
  beta / gamma * (ln (Rpower (w / wc) gamma) - Rpower (w / wc) gamma + 1).
Proof.
  intros Hw. pose proof morsefreq_pos as P. rewrite !rpow_pos, wc_gamma by auto.
  assert (L : ln (Rpower (w / wc) gamma) = gamma * (ln w - ln wc)).
  { unfold Rpower. rewrite ln_exp. unfold Rdiv. rewrite ln_mult, ln_Rinv by (auto; now apply Rinv_0_lt_compat). ring. }
  assert (E : Rpower w gamma = beta / gamma * Rpower (w / wc) gamma).
  { rewrite <- wc_gamma, Rpower_mult_distr by (auto; now apply Rdiv_lt_0_compat). f_equal. field. lra. }
  rewrite E, L. field. lra.
Qed.

Lemma gmw_l1_pos w : 0 < w ->
  gmw_l1_entry gamma beta wc w =
  2 * exp (- beta * ln wc + rpow wc gamma + beta * ln w - rpow w gamma).
Proof.
  intros Hw. unfold gmw_l1_entry. rewrite Rgeb_true by lra. cbn [b2R].
  rewrite !Rmult_1_r. destruct (Req_EM_T w 0); [lra|reflexivity].
Qed.
Lemma gmw_l1_nonpos w : w <= 0 -> gmw_l1_entry gamma beta wc w = 0.
Proof.
  intros Hw. unfold gmw_l1_entry. destruct (Rle_dec 0 w).
  - replace w with 0 by lra. rewrite Rmult_0_l. destruct (Req_EM_T 0 0); [ring|lra].
  - rewrite Rgeb_false by lra. cbn [b2R]. rewrite !Rmult_0_r. ring.
Qed.
Lemma gmw_l1_peak : gmw_l1_entry gamma beta wc wc = 2.
Proof.
  rewrite gmw_l1_pos by apply morsefreq_pos.
  match goal with |- 2 * exp ?e = 2 => replace e with 0 by ring end. rewrite exp_0. ring.
Qed.
Lemma ratio_1 w : 0 < w -> Rpower (w / wc) gamma = 1 -> w = wc.
Proof.
  intros Hw E. pose proof morsefreq_pos as P.
  assert (D : 0 < w / wc) by (now apply Rdiv_lt_0_compat).
  assert (L : ln (w / wc) = 0).
  { unfold Rpower in E. apply (f_equal ln) in E. rewrite ln_exp, ln_1 in E.
    apply Rmult_integral in E. destruct E; [lra|auto]. }
  assert (X : w / wc = 1) by (rewrite <- (exp_ln (w / wc)) by auto; rewrite L; apply exp_0).
  apply (Rmult_eq_reg_r (/ wc)); [|apply Rinv_neq_0_compat; lra].
  unfold Rdiv in X. rewrite X. field. lra.
Qed.
Lemma gmw_l1_below w : w <> wc -> gmw_l1_entry gamma beta wc w < 2.
Proof.
  intros Hn. destruct (Rle_dec w 0) as [Hw|Hw]; [rewrite gmw_l1_nonpos by auto; lra|].
  apply Rnot_le_lt in Hw. rewrite gmw_l1_pos by auto. rewrite exponent by auto.
  set (u := Rpower (w / wc) gamma). assert (Hu : 0 < u) by apply exp_pos.
  assert (U1 : u <> 1) by (intros E; apply Hn, ratio_1; auto).
  pose proof (ln_below u Hu U1). assert (0 < beta / gamma) by (now apply Rdiv_lt_0_compat).
  assert (Ne : beta / gamma * (ln u - u + 1) < 0).
  { rewrite <- (Rmult_0_r (beta / gamma)). apply Rmult_lt_compat_l; lra. }
  pose proof (exp_increasing _ _ Ne) as X. rewrite exp_0 in X. lra.
Qed.
Lemma gmw_l1_nonneg w : 0 <= gmw_l1_entry gamma beta wc w.
Proof.
  destruct (Rle_dec w 0); [rewrite gmw_l1_nonpos; lra|]. rewrite gmw_l1_pos by lra.
  pose proof (exp_pos (- beta * ln wc + rpow wc gamma + beta * ln w - rpow w gamma)). lra.
Qed.
Lemma gmw_l1_positive w : 0 < w -> 0 < gmw_l1_entry gamma beta wc w.
Proof.
  intros. rewrite gmw_l1_pos by lra.
  pose proof (exp_pos (- beta * ln wc + rpow wc gamma + beta * ln w - rpow w gamma)). lra.
Qed.
(** monotone on both sides of the peak *)
Lemma h_up u v : 0 < u -> u < v -> v <= 1 -> ln u - u < ln v - v.
Proof.
  intros Hu H H1. assert (D : 0 < u / v) by (apply Rdiv_lt_0_compat; lra).
  assert (N : u / v <> 1).
  { intros E. assert (u = v) by (apply (Rmult_eq_reg_r (/ v)); [unfold Rdiv in E; rewrite E; field; lra|apply Rinv_neq_0_compat; lra]). lra. }
  pose proof (ln_below _ D N) as L. unfold Rdiv in L at 1.
  rewrite ln_mult, ln_Rinv in L by (try apply Rinv_0_lt_compat; lra).
  assert (u / v - 1 <= u - v).
  { replace (u / v - 1) with ((u - v) * / v) by (field; lra).
    assert (1 <= / v) by (rewrite <- Rinv_1; apply Rinv_le_contravar; lra).
    assert ((v - u) * 1 <= (v - u) * / v) by (apply Rmult_le_compat_l; lra). lra. }
  lra.
Qed.
Lemma h_down u v : 1 <= u -> u < v -> ln v - v < ln u - u.
Proof.
  intros H1 H. assert (D : 0 < v / u) by (apply Rdiv_lt_0_compat; lra).
  assert (N : v / u <> 1).
  { intros E. assert (v = u) by (apply (Rmult_eq_reg_r (/ u)); [unfold Rdiv in E; rewrite E; field; lra|apply Rinv_neq_0_compat; lra]). lra. }
  pose proof (ln_below _ D N) as L. unfold Rdiv in L at 1.
  rewrite ln_mult, ln_Rinv in L by (try apply Rinv_0_lt_compat; lra).
  assert (v / u - 1 <= v - u).
  { replace (v / u - 1) with ((v - u) * / u) by (field; lra).
    assert (/ u <= 1) by (rewrite <- Rinv_1; apply Rinv_le_contravar; lra).
    assert ((v - u) * / u <= (v - u) * 1) by (apply Rmult_le_compat_l; lra). lra. }
  lra.
Qed.
Lemma ratio_mono a b : 0 < a -> a < b -> Rpower (a / wc) gamma < Rpower (b / wc) gamma.
Proof.
  intros Ha H. pose proof morsefreq_pos. unfold Rpower. apply exp_increasing, Rmult_lt_compat_l; auto.
  apply ln_increasing; [now apply Rdiv_lt_0_compat|].
  apply Rmult_lt_compat_r; [now apply Rinv_0_lt_compat|auto].
Qed.
Lemma ratio_wc : Rpower (wc / wc) gamma = 1.
Proof.
  pose proof morsefreq_pos. replace (wc / wc) with 1 by (field; lra). unfold Rpower.
  rewrite ln_1, Rmult_0_r. apply exp_0.
Qed.
Lemma gmw_l1_up a b : 0 < a -> a < b -> b <= wc -> gmw_l1_entry gamma beta wc a < gmw_l1_entry gamma beta wc b.
Proof.
  intros Ha H Hw. rewrite !gmw_l1_pos by lra. apply Rmult_lt_compat_l; [lra|].
  apply exp_increasing. rewrite !exponent by lra. apply Rmult_lt_compat_l; [now apply Rdiv_lt_0_compat|].
  pose proof (ratio_mono a b Ha H) as M. pose proof (exp_pos (gamma * ln (a / wc))) as P.
  fold (Rpower (a / wc) gamma) in P.
  assert (Q : Rpower (b / wc) gamma <= 1).
  { destruct Hw as [Hw| ->]; [|rewrite ratio_wc; lra].
    pose proof (ratio_mono b wc ltac:(lra) Hw). rewrite ratio_wc in H0. lra. }
  pose proof (h_up _ _ P M Q). lra.
Qed.
Lemma gmw_l1_down a b : wc <= a -> a < b -> gmw_l1_entry gamma beta wc b < gmw_l1_entry gamma beta wc a.
Proof.
  intros Hw H. pose proof morsefreq_pos. rewrite !gmw_l1_pos by lra. apply Rmult_lt_compat_l; [lra|].
  apply exp_increasing. rewrite !exponent by lra. apply Rmult_lt_compat_l; [now apply Rdiv_lt_0_compat|].
  pose proof (ratio_mono a b ltac:(lra) H) as M.
  assert (Q : 1 <= Rpower (a / wc) gamma).
  { destruct Hw as [Hw| <-]; [|rewrite ratio_wc; lra].
    pose proof (ratio_mono wc a ltac:(lra) Hw) as X. rewrite ratio_wc in X. lra. }
  pose proof (h_down _ _ Q M). lra.
Qed.

(** the L2 wavelet is a constant multiple of the L1 wavelet *)
Lemma gmw_l2_l1 r rg : 0 < rg ->
  exists c, 0 < c /\ forall w, gmw_l2_entry gamma beta r rg w = c * gmw_l1_entry gamma beta wc w.
Proof.
  intros Hr. pose proof morsefreq_pos as P.
  set (k := sqrt (2 * PI * gamma * Rpower 2 r / rg)).
  exists (k / 2 * exp (beta * ln wc - rpow wc gamma)). split.
  - apply Rmult_lt_0_compat; [|apply exp_pos]. apply Rdiv_lt_0_compat; [|lra]. apply sqrt_lt_R0.
    pose proof PI_RGT_0. assert (0 < Rpower 2 r) by apply exp_pos.
    apply Rdiv_lt_0_compat; [|auto].
    apply Rmult_lt_0_compat; [apply Rmult_lt_0_compat|]; lra.
  - intros w. destruct (Rle_dec w 0) as [Hw|Hw].
    + rewrite gmw_l1_nonpos by auto. rewrite Rmult_0_r. unfold gmw_l2_entry.
      assert (Z : w * b2R (Rgeb w 0) = 0).
      { destruct (Rle_dec 0 w); [replace w with 0 by lra; ring|rewrite Rgeb_false by lra; cbn; ring]. }
      rewrite Z. unfold rpow at 1. destruct (Req_EM_T 0 0); [ring|lra].
    + apply Rnot_le_lt in Hw. rewrite gmw_l1_pos by auto. unfold gmw_l2_entry. fold k.
      rewrite Rgeb_true by lra. cbn [b2R]. rewrite !Rmult_1_r.
      rewrite (rpow_pos w beta) by auto. unfold Rpower at 1.
      rewrite Rmult_assoc, <- exp_plus.
      transitivity (k * (exp (beta * ln wc - rpow wc gamma) *
                         exp (- beta * ln wc + rpow wc gamma + beta * ln w - rpow w gamma))).
      * rewrite <- exp_plus. f_equal. f_equal. ring.
      * field.
Qed.
End Morse.

(** ** argument checks *)
Lemma gmw_l1_ok gamma beta centered : 0 < gamma -> 0 < beta ->
  gmw_l1 gamma beta centered =
  Ok (fun w => gmw_l1_entry gamma beta (morsefreq gamma beta) (if centered then w * morsefreq gamma beta else w)).
Proof.
  intros Hg Hb. unfold gmw_l1, check_gmw_args. destruct (Rle_dec gamma 0); [lra|].
  destruct (Rle_dec beta 0); [lra|]. reflexivity.
Qed.
Lemma gmw_l1_err gamma beta centered : gamma <= 0 \/ beta <= 0 -> gmw_l1 gamma beta centered = Err ValueError.
Proof.
  intros H. unfold gmw_l1, check_gmw_args. destruct (Rle_dec gamma 0); [reflexivity|].
  destruct (Rle_dec beta 0); [reflexivity|]. lra.
Qed.
Lemma gmw_l2_ok Gamma gamma beta centered : 0 < gamma -> 0 < beta ->
  gmw_l2 Gamma gamma beta centered =
  Ok (fun w => gmw_l2_entry gamma beta ((2 * beta + 1) / gamma) (Gamma ((2 * beta + 1) / gamma))
                 (if centered then w * morsefreq gamma beta else w)).
Proof.
  intros Hg Hb. unfold gmw_l2, check_gmw_args. destruct (Rle_dec gamma 0); [lra|].
  destruct (Rle_dec beta 0); [lra|]. reflexivity.
Qed.

(** ** Theorems about the functions the API returns *)
Theorem gmw_l1_peaks gamma beta f : 0 < gamma -> 0 < beta -> gmw_l1 gamma beta false = Ok f ->
  let wp := Rpower (beta / gamma) (1 / gamma) in
  f wp = 2 /\ (forall w, w <> wp -> f w < 2) /\ (forall w, 0 < w -> 0 < f w) /\
  (forall w, w <= 0 -> f w = 0).
Proof.
  intros Hg Hb E wp. rewrite gmw_l1_ok in E by auto. injection E as <-.
  unfold wp. rewrite <- (morsefreq_val gamma beta Hg Hb). repeat split.
  - now apply gmw_l1_peak.
  - intros. now apply gmw_l1_below.
  - intros. now apply gmw_l1_positive.
  - intros. now apply gmw_l1_nonpos.
Qed.
Theorem gmw_l1_unimodal gamma beta f : 0 < gamma -> 0 < beta -> gmw_l1 gamma beta false = Ok f ->
  let wp := Rpower (beta / gamma) (1 / gamma) in
  (forall a b, 0 < a -> a < b -> b <= wp -> f a < f b) /\ (forall a b, wp <= a -> a < b -> f b < f a).
Proof.
  intros Hg Hb E wp. rewrite gmw_l1_ok in E by auto. injection E as <-.
  unfold wp. rewrite <- (morsefreq_val gamma beta Hg Hb). split; intros.
  - now apply gmw_l1_up.
  - now apply gmw_l1_down.
Qed.
Theorem gmw_l1_centered gamma beta f : 0 < gamma -> 0 < beta -> gmw_l1 gamma beta true = Ok f ->
  f 1 = 2 /\ (forall w, w <> 1 -> f w < 2) /\ (forall w, w <= 0 -> f w = 0).
Proof.
  intros Hg Hb E. rewrite gmw_l1_ok in E by auto. injection E as <-.
  pose proof (morsefreq_pos gamma beta Hg Hb) as P. repeat split.
  - rewrite Rmult_1_l. now apply gmw_l1_peak.
  - intros w Hw. apply gmw_l1_below; auto. intros E. apply Hw.
    apply (Rmult_eq_reg_r (morsefreq gamma beta)); lra.
  - intros w Hw. apply gmw_l1_nonpos; auto.
    assert (0 <= - w * morsefreq gamma beta) by (apply Rmult_le_pos; lra). lra.
Qed.
Theorem gmw_l2_peaks Gamma gamma beta f : 0 < gamma -> 0 < beta ->
  0 < Gamma ((2 * beta + 1) / gamma) -> gmw_l2 Gamma gamma beta false = Ok f ->
  let wp := Rpower (beta / gamma) (1 / gamma) in
  (forall w, w <> wp -> f w < f wp) /\ (forall w, 0 < w -> 0 < f w) /\ (forall w, w <= 0 -> f w = 0).
Proof.
  intros Hg Hb HG E wp. rewrite gmw_l2_ok in E by auto. injection E as <-.
  unfold wp. rewrite <- (morsefreq_val gamma beta Hg Hb).
  destruct (gmw_l2_l1 gamma beta Hg Hb ((2 * beta + 1) / gamma) _ HG) as (c & Hc & F).
  repeat split; intros; rewrite ?F.
  - apply Rmult_lt_compat_l; auto. rewrite gmw_l1_peak by auto. now apply gmw_l1_below.
  - apply Rmult_lt_0_compat; auto. now apply gmw_l1_positive.
  - rewrite gmw_l1_nonpos by auto. ring.
Qed.

(** ** the array passed in *)
Theorem gmw_array_keeps f centered same w :
  centered = true \/ same = false \/ Forall (fun x => 0 <= x) w -> snd (gmw_array f centered same w) = w.
Proof.
  intros H. unfold gmw_array; cbn [snd]. destruct (negb centered && same) eqn:E; [|reflexivity].
  destruct H as [->|[->|H]]; [discriminate|now rewrite Bool.andb_false_r in E|].
  induction H as [|x l Hx _ IH]; [reflexivity|]. cbn [map]. rewrite IH, Rgeb_true by auto. cbn. f_equal. ring.
Qed.
Theorem gmw_array_again gamma beta f same w : 0 < gamma -> 0 < beta -> gmw_l1 gamma beta false = Ok f ->
  fst (gmw_array f false same (snd (gmw_array f false same w))) = fst (gmw_array f false same w).
Proof.
  intros Hg Hb E. unfold gmw_array; cbn [fst snd]. destruct same; cbn [negb andb]; [|reflexivity].
  rewrite map_map. apply map_ext. intros x. destruct (gmw_l1_peaks _ _ _ Hg Hb E) as (_ & _ & _ & Z).
  destruct (Rle_dec 0 x).
  - rewrite Rgeb_true by auto. cbn. now rewrite Rmult_1_r.
  - rewrite Rgeb_false by lra. cbn. rewrite Rmult_0_r. rewrite !Z; lra.
Qed.
Theorem gmw_array_changes f : exists w, snd (gmw_array f false true w) <> w.
Proof.
  exists [-1]. unfold gmw_array; cbn. rewrite Rgeb_false by lra. cbn. intros E. injection E. lra.
Qed.

(** ** Morlet *)
Lemma morlet_const mu : 0 < mu -> 0 < sqrt 2 * Rpower (1 + exp (- mu ^ 2) - 2 * exp (- (3 / 4) * mu ^ 2)) (- / 2) * Rpower PI (/ 4).
Proof.
  intros. repeat apply Rmult_lt_0_compat; try apply exp_pos. apply sqrt_lt_R0. lra.
Qed.
(** the base of the power is positive, so [Rpower] is the code's [**] *)
Lemma morlet_base mu : mu <> 0 -> 0 < 1 + exp (- mu ^ 2) - 2 * exp (- (3 / 4) * mu ^ 2).
Proof.
  intros H. set (x := exp (- / 4 * mu ^ 2)).
  assert (X0 : 0 < x) by apply exp_pos.
  assert (M : 0 < mu ^ 2) by (apply pow2_gt_0; auto).
  assert (X1 : x < 1) by (unfold x; rewrite <- exp_0; apply exp_increasing; lra).
  assert (E3 : exp (- (3 / 4) * mu ^ 2) = x * x * x) by (unfold x; rewrite <- !exp_plus; f_equal; field).
  assert (E4 : exp (- mu ^ 2) = x * x * x * x) by (unfold x; rewrite <- !exp_plus; f_equal; field).
  rewrite E3, E4. replace (1 + x * x * x * x - 2 * (x * x * x)) with ((1 - x) * (1 + x + x * x * (1 - x))) by ring.
  apply Rmult_lt_0_compat; [lra|].
  assert (0 < x * x * (1 - x)) by (apply Rmult_lt_0_compat; [apply Rmult_lt_0_compat|]; lra). lra.
Qed.
Lemma morlet_diff mu w :
  exp (- / 2 * (w - mu) ^ 2) - exp (- / 2 * mu ^ 2) * exp (- / 2 * w ^ 2) =
  exp (- / 2 * mu ^ 2) * exp (- / 2 * w ^ 2) * (exp (w * mu) - 1).
Proof.
  rewrite Rmult_minus_distr_l, Rmult_1_r, <- !exp_plus. f_equal. f_equal. field.
Qed.
Theorem morlet_zero mu : morlet mu 0 = 0.
Proof. unfold morlet. rewrite morlet_diff, Rmult_0_l, exp_0. ring. Qed.
Theorem morlet_sign mu w : 0 < mu ->
  (0 < w -> 0 < morlet mu w) /\ (w < 0 -> morlet mu w < 0).
Proof.
  intros Hm. unfold morlet. rewrite morlet_diff. pose proof (morlet_const mu Hm) as K.
  pose proof (exp_pos (- / 2 * mu ^ 2)). pose proof (exp_pos (- / 2 * w ^ 2)). split; intros Hw.
  - assert (0 < w * mu) by (now apply Rmult_lt_0_compat).
    assert (1 < exp (w * mu)) by (rewrite <- exp_0; now apply exp_increasing).
    apply Rmult_lt_0_compat; [exact K|]. repeat apply Rmult_lt_0_compat; lra.
  - assert (0 < - w * mu) by (apply Rmult_lt_0_compat; lra).
    assert (exp (w * mu) < 1) by (rewrite <- exp_0; apply exp_increasing; lra).
    assert (0 < exp (- / 2 * mu ^ 2) * exp (- / 2 * w ^ 2) * (1 - exp (w * mu)))
      by (repeat apply Rmult_lt_0_compat; lra).
    match goal with |- ?k * ?x < 0 => assert (0 < k * - x) by (apply Rmult_lt_0_compat; [exact K|lra]) end.
    lra.
Qed.

(** ** bump, cmhat, hhhat *)
Theorem bump_support mu s om w : 0 < s ->
  (999 / 1000 * s <= Rabs (w - mu) -> bump mu s om w = C0) /\
  (Rabs (w - mu) < 999 / 1000 * s -> bump mu s om w <> C0).
Proof.
  intros Hs. assert (E : Rabs ((w - mu) / s) = Rabs (w - mu) / s).
  { unfold Rdiv. rewrite Rabs_mult, (Rabs_right (/ s)); [reflexivity|]. left. now apply Rinv_0_lt_compat. }
  split; intros H; unfold bump, Rltb'; rewrite E.
  - destruct (Rlt_dec (Rabs (w - mu) / s) (999 / 1000)) as [L|L].
    + exfalso. apply (Rmult_lt_compat_r s) in L; [|auto].
      replace (Rabs (w - mu) / s * s) with (Rabs (w - mu)) in L by (field; lra). lra.
    + cbn [b2R]. match goal with |- Cmul _ (RtoC ?x) = _ => replace x with 0 by (unfold Rdiv; ring) end.
      unfold Cmul, RtoC, C0; cbn [fst snd]. f_equal; ring.
  - destruct (Rlt_dec (Rabs (w - mu) / s) (999 / 1000)) as [L|L].
    + cbn [b2R]. intros Z. match type of Z with Cmul _ (RtoC ?x) = _ => set (v := x) in Z end. assert (V : v <> 0).
      { unfold v. apply Rgt_not_eq, Rdiv_lt_0_compat; [|lra].
        apply Rmult_lt_0_compat; [rewrite Rmult_1_r; now apply Rinv_0_lt_compat|apply exp_pos]. }
      apply (cis_neq0 (2 * PI * om * w)). unfold Cmul, RtoC, C0 in Z. injection Z as Z1 Z2.
      unfold cis, C0 in *. cbn [fst snd] in *. f_equal; apply (Rmult_eq_reg_r v); auto; lra.
    + exfalso. apply L. apply (Rmult_lt_reg_r s); [auto|].
      replace (Rabs (w - mu) / s * s) with (Rabs (w - mu)) by (field; lra). lra.
Qed.
Theorem cmhat_support mu s w : 0 < s ->
  (w <= mu -> cmhat mu s w = 0) /\ (mu < w -> 0 < cmhat mu s w).
Proof.
  intros Hs. unfold cmhat. split; intros H.
  - destruct (Rle_dec 0 (w - mu)).
    + replace (w - mu) with 0 by lra. ring.
    + rewrite Rgeb_false by lra. cbn [b2R]. ring.
  - rewrite Rgeb_true by lra. cbn [b2R].
    assert (0 < sqrt (2 / 3)) by (apply sqrt_lt_R0; lra).
    assert (0 < (w - mu) ^ 2) by (apply pow2_gt_0; lra).
    repeat apply Rmult_lt_0_compat; try lra; apply exp_pos.
Qed.
Theorem hhhat_support mu w :
  (w <= mu -> hhhat mu w = 0) /\ (mu < w -> 0 < hhhat mu w).
Proof.
  unfold hhhat, sign. split; intros H.
  - destruct (Rlt_dec (w - mu) 0); [ring|]. destruct (Rlt_dec 0 (w - mu)); [lra|].
    replace (w - mu) with 0 by lra. ring.
  - destruct (Rlt_dec (w - mu) 0); [lra|]. destruct (Rlt_dec 0 (w - mu)); [|lra].
    assert (0 < sqrt 5) by (apply sqrt_lt_R0; lra).
    apply Rmult_lt_0_compat; [|lra]. apply Rmult_lt_0_compat.
    + apply Rmult_lt_0_compat; [apply Rdiv_lt_0_compat; lra|apply exp_pos].
    + apply Rmult_lt_0_compat; [apply Rmult_lt_0_compat; lra|apply exp_pos].
Qed.
