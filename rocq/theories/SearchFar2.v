(** [find_min_scale] with several searches; the Morlet wavelet; a search that stops early. *)
From Coq Require Import Reals Lra Lia ZifyBool ZifyNat.
From Verif Require Import Py Round Cplx CplxProofs Padding Freqs ShiftProofs Squeeze BinProofs SqueezeThms3 Scales Resol
  Search SearchProofs Wavelets WaveletProofs ScaleBounds ScaleBoundsProofs ScaleBoundsThms SearchFar MorletPeak.
Local Open Scope R_scope.

Lemma fm_more f a d : forall m k l b r, fm_loop f a m k l b = Some r -> fm_loop f a (m + d) k l b = Some r.
Proof.
  induction m as [|m IH]; intros k l b r; [discriminate|]. cbn [fm_loop Nat.add]. cbv zeta.
  assert (Nx : forall l b, (if Rlt_dec (sa_limit a) (lmax (inputs a k)) then Some (Err ValueError) else fm_loop f a m (S k) l b) = Some r ->
                           (if Rlt_dec (sa_limit a) (lmax (inputs a k)) then Some (Err ValueError) else fm_loop f a (m + d) (S k) l b) = Some r).
  { intros l' b'. destruct (Rlt_dec _ _); [auto|apply IH]. }
  destruct (Rlt_dec l _); [apply Nx|]. destruct (Rlt_dec _ l); [auto|apply Nx].
Qed.
Lemma peak_more g fuel d r : peak_of g fuel = Some r -> peak_of g (fuel + d) = Some r.
Proof. unfold peak_of, find_maximum. destruct (_ <=? 0)%Z; [auto|]. apply fm_more. Qed.

Lemma INR_NS k i : INR (k * NS + i) / 1000 = 10 * INR k + INR i / 1000.
Proof. rewrite plus_INR, mult_INR, (INR_IZR_INZ NS), NS_val. field. Qed.
Lemma INR_last : INR (NS - 1) / 1000 = 9999 / 1000.
Proof. rewrite (INR_IZR_INZ (NS - 1)). replace (Z.of_nat (NS - 1)) with 9999%Z by nlia. reflexivity. Qed.
Lemma pt_before s lim k : (0 < k)%nat -> pt s lim (k * NS - 1) = Rmin (s + 10 * INR k - 1 / 1000) lim.
Proof.
  intros Hk. unfold pt. f_equal. replace (k * NS - 1)%nat with ((k - 1) * NS + (NS - 1))%nat by nlia.
  replace (s + INR ((k - 1) * NS + (NS - 1)) / 1000) with (s + (INR ((k - 1) * NS + (NS - 1)) / 1000)) by ring.
  rewrite INR_NS, INR_last. rewrite minus_INR by lia. cbn [INR]. lra.
Qed.
Lemma pt_last s lim k : pt s lim (k * NS + (NS - 1)) = Rmin (s + 10 * INR k + 9999 / 1000) lim.
Proof. unfold pt. f_equal. rewrite INR_NS, INR_last. ring. Qed.

Section MinFar.
Variables (g : R -> R) (p : R) (fuel : nat) (wp pk : R).
Hypotheses (HP : one_peak g p) (E : peak_of g fuel = Some (Ok (wp, pk))).
Let f := absf g.
Let Hwp := wp_pos g p fuel wp pk HP E.
Let Hpk := wp_pk g fuel wp pk E.
Let Hpk0 := pk_nonneg g fuel wp pk E.
(** [k]: the search that holds the crossing; [D]: no step of [|g|] over 1/1000 is larger *)
Theorem min_left_far c w k D : -1 <= c <= 0 -> 0 <= w <= p -> f w = Rabs c * pk -> 10 * INR k <= w <= 10 * INR k + 9999 / 1000 ->
  (forall x y, 0 <= x -> x <= y -> y <= x + 1 / 1000 -> y <= wp -> Rabs (f y - f x) <= D) -> ((0 < k)%nat -> f (10 * INR k - 1 / 1000) + D < f w) ->
  exists fuel' s, find_min_scale g c fuel' = Some (Ok s) /\ Rabs (s * PI - w) <= 1 / 1000.
Proof.
  intros Hc Hr Ew Hk HD Hgap. assert (Hv : f w <= pk) by (rewrite Ew, Rabs_left1 by lra; nra).
  pose proof (left_below g p fuel wp pk HP E w Hr Hv) as Hww.
  assert (D0 : 0 <= D) by (specialize (HD 0 0 ltac:(lra) ltac:(lra) ltac:(lra) ltac:(lra)); pose proof (Rabs_pos (f 0 - f 0)); lra).
  destruct (far_near f 1 0 wp 0 D (Rabs c * pk) (or_introl eq_refl) ltac:(lra) D0) with (w := w) (k := k) (fuel := fuel) as (x & Ex & Hx).
  - intros i j H. left. now apply (left_mono g p fuel wp pk).
  - intros i j H. rewrite Rplus_0_r in H. now apply (left_mono g p fuel wp pk).
  - intros i. pose proof (pt_step 0 wp i). pose proof (pt_range 0 wp i ltac:(lra)). pose proof (pt_range 0 wp (S i) ltac:(lra)). apply HD; lra.
  - intros K. split; [lra|]. rewrite pt_before by exact K. rewrite Rmin_l by lra. rewrite <- Ew. specialize (Hgap K). replace (0 + 10 * INR k - 1 / 1000) with (10 * INR k - 1 / 1000) by ring. lra.
  - rewrite pt_last. split; [lra|]. apply Rmin_glb; lra.
  - intros i H. rewrite <- Ew. now apply (left_order g p fuel wp pk HP E w i).
  - intros i H. rewrite <- Ew. now apply (left_order g p fuel wp pk HP E w i).
  - exists (S fuel + k)%nat, (x / PI). split; [|rewrite div_PI; lra].
    replace (S fuel + k)%nat with (fuel + S k)%nat by lia. unfold find_min_scale. rewrite (peak_more _ _ (S k) _ E). cbn [rbind]. destruct (Rlt_dec 0 c); [lra|].
    unfold first_of. fold (fargs 0 wp). fold f. replace (fuel + S k)%nat with (S fuel + k)%nat by lia. rewrite Ex. reflexivity.
Qed.
Theorem min_right_far c w k D : 0 < c <= 1 -> p <= w -> f w = c * pk -> wp + 10 * INR k <= w -> w <= wp + 10 * INR k + 9999 / 1000 -> w <= 10 * wp ->
  (forall x y, wp <= x -> x <= y -> y <= x + 1 / 1000 -> Rabs (f y - f x) <= D) -> ((0 < k)%nat -> f w < f (wp + 10 * INR k - 1 / 1000) - D) ->
  exists fuel' s, find_min_scale g c fuel' = Some (Ok s) /\ Rabs (s * PI - w) <= 2 / 1000.
Proof.
  intros Hc Hr Ew Hk1 Hk2 Hlim HD Hgap. assert (Hv : f w <= pk) by (rewrite Ew; nra).
  assert (D0 : 0 <= D) by (specialize (HD wp wp ltac:(lra) ltac:(lra) ltac:(lra)); pose proof (Rabs_pos (f wp - f wp)); lra).
  destruct (far_near f (-1) wp (10 * wp) (1 / 1000) D (c * pk) (or_intror eq_refl) ltac:(lra) D0) with (w := w) (k := k) (fuel := fuel) as (x & Ex & Hx).
  - intros i j H. now apply (right_mono g p fuel wp pk).
  - intros i j H. now apply (right_mono_strict g p fuel wp pk).
  - intros i. pose proof (pt_step wp (10 * wp) i). pose proof (pt_range wp (10 * wp) i ltac:(lra)). apply HD; lra.
  - intros K. split; [lra|]. rewrite pt_before by exact K. rewrite Rmin_l by lra. rewrite <- Ew. specialize (Hgap K). lra.
  - rewrite pt_last. split; [lra|]. apply Rmin_glb; lra.
  - intros i H. rewrite <- Ew. now apply (right_order g p fuel wp pk HP E w i).
  - intros i H. rewrite <- Ew. now apply (right_order g p fuel wp pk HP E w i).
  - exists (S fuel + k)%nat, (x / PI). split; [|rewrite div_PI; lra].
    replace (S fuel + k)%nat with (fuel + S k)%nat by lia. unfold find_min_scale. rewrite (peak_more _ _ (S k) _ E). cbn [rbind]. destruct (Rlt_dec 0 c); [|lra]. rewrite Rabs_right by lra.
    unfold first_of. fold (fargs wp (10 * wp)). fold f. replace (fuel + S k)%nat with (S fuel + k)%nat by lia. rewrite Ex. reflexivity.
Qed.
End MinFar.

(** ** the Morlet wavelet with its default [mu = 13.4] *)
Definition mu0 : R := 67 / 5.
Lemma exp_small x : 0 < x -> exp (- x) <= / (1 + x).
Proof. intros H. rewrite exp_Ropp. pose proof (exp_ineq1 x ltac:(lra)). apply Rinv_le_contravar; lra. Qed.
Lemma morlet_peak_val p fuel wp pk : one_peak (morlet mu0) p -> mu0 < p < mu0 + 1 -> peak_of (morlet mu0) fuel = Some (Ok (wp, pk)) -> 99 / 100 * mor_const mu0 <= pk.
Proof.
  intros HP Hp E. assert (M0 : 0 < mu0) by (unfold mu0; lra). pose proof (wp_close _ _ _ _ _ HP E) as Cl. rewrite (wp_pk _ _ _ _ E). rewrite abs_morlet by (unfold mu0 in *; lra).
  pose proof (mor_c_pos mu0 M0). pose proof (mor_lipschitz mu0 M0 p wp) as L. assert (Rabs (p - wp) <= 1 / 1000) by (apply Rabs_le; lra).
  assert (A : mor_h mu0 mu0 <= mor_h mu0 p).
  { pose proof HP as (_ & U & _). specialize (U mu0 p ltac:(unfold mu0; lra) ltac:(lra) ltac:(lra)). rewrite !abs_morlet in U by lra. left. apply (Rmult_lt_reg_l (mor_const mu0)); assumption. }
  assert (B : 993 / 1000 <= mor_h mu0 mu0).
  { unfold mor_h. replace (mu0 - mu0) with 0 by ring. replace (- / 2 * 0 ^ 2) with 0 by field. rewrite exp_0, <- exp_plus.
    pose proof (exp_small (mu0 ^ 2) ltac:(unfold mu0; lra)) as S0. replace (- / 2 * mu0 ^ 2 + - / 2 * mu0 ^ 2) with (- mu0 ^ 2) by field.
    assert (/ (1 + mu0 ^ 2) <= / 150); [|lra]. apply Rinv_le_contravar; [|unfold mu0]; lra. }
  pose proof (Rle_abs (mor_h mu0 p - mor_h mu0 wp)). assert (991 / 1000 <= mor_h mu0 wp) by lra. nra.
Qed.
Theorem morlet_far : exists p fuel wp pk w fuel' s, one_peak (morlet mu0) p /\ peak_of (morlet mu0) fuel = Some (Ok (wp, pk)) /\
  10 <= w <= p /\ absf (morlet mu0) w = Rabs (- (1 / 2)) * pk /\ find_min_scale (morlet mu0) (- (1 / 2)) fuel' = Some (Ok s) /\ Rabs (s * PI - w) <= 1 / 1000.
Proof.
  assert (M0 : 0 < mu0) by (unfold mu0; lra). destruct (morlet_one_peak mu0 M0 ltac:(unfold mu0; lra)) as (p & Hp & _ & HP).
  destruct (peak_exists _ _ HP ltac:(unfold mu0 in *; lra)) as (fuel & wp & pk & E). pose proof (morlet_peak_val p fuel wp pk HP Hp E) as P.
  pose proof (mor_c_pos mu0 M0) as C0. assert (A2 : Rabs (- (1 / 2)) = 1 / 2) by (rewrite Rabs_left by lra; lra).
  assert (Pw : pk <= absf (morlet mu0) p).
  { rewrite (wp_pk _ _ _ _ E). pose proof (wp_pos _ _ _ _ _ HP E). destruct HP as (_ & U & D). destruct (Rtotal_order wp p) as [H1|[ ->|H1]]; [left; apply U; lra|lra|left; apply D; lra]. }
  assert (T : mor_h mu0 10 <= 148 / 1000).
  { unfold mor_h. assert (Q1 : exp (- / 2 * (10 - mu0) ^ 2) <= / (1 + 289 / 50)).
    { replace (- / 2 * (10 - mu0) ^ 2) with (- (289 / 50)) by (unfold mu0; field). apply exp_small. lra. }
    pose proof (exp_pos (- / 2 * mu0 ^ 2)). pose proof (exp_pos (- / 2 * 10 ^ 2)). assert (0 <= exp (- / 2 * mu0 ^ 2) * exp (- / 2 * 10 ^ 2)) by nra.
    assert (/ (1 + 289 / 50) <= 148 / 1000) by lra. lra. }
  destruct (IVT (fun w => mor_const mu0 * mor_h mu0 w - 1 / 2 * pk) 10 p) as (w & Hw & Ew).
  { apply continuity_minus; [|apply continuity_const; intros ? ?; reflexivity]. apply continuity_scal, mor_h_cont. }
  { unfold mu0 in *; lra. } { nra. } { rewrite <- abs_morlet by lra. nra. }
  assert (Fw : absf (morlet mu0) w = 1 / 2 * pk) by (rewrite abs_morlet by lra; lra).
  destruct (min_left_far (morlet mu0) p fuel wp pk HP E (- (1 / 2)) w 1 (2 / 1000 * mor_const mu0)) as (fuel' & s & Es & Hs).
  - lra. - lra. - rewrite A2. exact Fw.
  - cbn [INR]. unfold mu0 in *. lra.
  - intros x y H1 H2 H3 _. rewrite !abs_morlet by lra. rewrite <- Rmult_minus_distr_l, Rabs_mult, (Rabs_right (mor_const mu0)) by lra.
    pose proof (mor_lipschitz mu0 M0 y x) as L. assert (Rabs (y - x) <= 1 / 1000) by (apply Rabs_le; lra). nra.
  - intros _. cbn [INR]. replace (10 * 1 - 1 / 1000) with (9999 / 1000) by field. rewrite Fw.
    pose proof HP as (_ & U & _). specialize (U (9999 / 1000) 10 ltac:(lra) ltac:(lra) ltac:(unfold mu0 in *; lra)). rewrite (abs_morlet mu0 M0 10) in U by lra. nra.
  - exists p, fuel, wp, pk, w, fuel', s. rewrite A2. repeat split; try assumption; try apply HP; lra.
Qed.

(** ** a search that stops in the wrong place *)
Definition steep (x : R) : R := if Rle_dec x (1 / 1000) then 500 * x else if Rle_dec x 20 then 1 / 2 + (x - 1 / 1000) / 2 / (19999 / 1000) else 20 / x.
Lemma steep_peak : one_peak steep 20.
Proof.
  assert (V : forall x, 0 <= x -> 0 <= steep x).
  { intros x H. unfold steep. destruct (Rle_dec x (1 / 1000)); [lra|]. destruct (Rle_dec x 20); [lra|]. left. apply Rmult_lt_0_compat; [lra|apply Rinv_0_lt_compat; lra]. }
  split; [lra|]. unfold absf. split; intros x y H1 H2.
  - intros H3. rewrite !Rabs_right by (apply Rle_ge, V; lra). unfold steep. destruct (Rle_dec x (1 / 1000)), (Rle_dec y (1 / 1000)); try lra; destruct (Rle_dec y 20); try lra; destruct (Rle_dec x 20); lra.
  - rewrite !Rabs_right by (apply Rle_ge, V; lra). unfold steep. destruct (Rle_dec x (1 / 1000)), (Rle_dec y (1 / 1000)); try lra.
    destruct (Rle_dec y 20); [lra|]. destruct (Rle_dec x 20).
    + replace x with 20 by lra. assert (20 / y < 1); [|lra]. apply (Rmult_lt_reg_r y); [lra|]. unfold Rdiv. rewrite Rmult_assoc, Rinv_l; lra.
    + apply Rmult_lt_compat_l; [lra|]. apply Rinv_lt_contravar; [nra|lra].
Qed.
Theorem false_stop : exists g p fuel wp pk w s, one_peak g p /\ peak_of g fuel = Some (Ok (wp, pk)) /\ 0 <= w <= p /\ absf g w = Rabs (- (9 / 10)) * pk /\
  find_min_scale g (- (9 / 10)) fuel = Some (Ok s) /\ 5 < Rabs (s * PI - w).
Proof.
  destruct (peak_exists _ _ steep_peak ltac:(lra)) as (fuel & wp & pk & E). pose proof (wp_close _ _ _ _ _ steep_peak E) as Cl.
  assert (W : wp = 20).
  { destruct (peak_grid _ _ _ _ E) as (i0 & Wi & _). rewrite Wi in Cl |- *. assert (I : (19999 < Z.of_nat i0 < 20001)%Z) by (split; apply lt_IZR; rewrite <- INR_IZR_INZ; lra).
    rewrite INR_IZR_INZ. replace (Z.of_nat i0) with 20000%Z by lia. lra. }
  subst wp. assert (V20 : absf steep 20 = 1) by (unfold absf, steep; destruct (Rle_dec 20 (1 / 1000)); [lra|]; destruct (Rle_dec 20 20); [|lra]; rewrite Rabs_right by lra; lra).
  assert (K1 : pk = 1) by (rewrite (wp_pk _ _ _ _ E); exact V20). subst pk.
  assert (A2 : Rabs (- (9 / 10)) = 9 / 10) by (rewrite Rabs_left by lra; lra).
  set (w := 1 / 1000 + 8 / 10 * (19999 / 1000)).
  assert (Mid : forall x, 1 / 1000 < x <= 20 -> absf steep x = 1 / 2 + (x - 1 / 1000) / 2 / (19999 / 1000)).
  { intros x Hx. unfold absf, steep. destruct (Rle_dec x (1 / 1000)); [lra|]. destruct (Rle_dec x 20); [|lra]. apply Rabs_right. lra. }
  assert (Fw : absf steep w = 9 / 10) by (rewrite Mid by (unfold w; lra); unfold w; field).
  destruct (peak_fuel _ _ _ E) as [k Ek].
  assert (P0 : pt 0 20 0 = 0) by (apply pt_0; lra).
  assert (P1 : pt 0 20 1 = 1 / 1000) by (unfold pt; cbn [INR]; rewrite Rmin_l; lra).
  assert (PL : pt 0 20 (NS - 1) = 9999 / 1000). { unfold pt. pose proof INR_last as IL. unfold Rdiv in *. rewrite IL. rewrite Rplus_0_l. apply Rmin_l. lra. }
  assert (F0 : absf steep 0 = 0) by (unfold absf, steep; destruct (Rle_dec 0 (1 / 1000)); [|lra]; rewrite Rabs_right by lra; lra).
  assert (F1 : absf steep (1 / 1000) = 1 / 2) by (unfold absf, steep; destruct (Rle_dec (1 / 1000) (1 / 1000)); [|lra]; rewrite Rabs_right by lra; lra).
  assert (FL : absf steep (9999 / 1000) = 1 / 2 + 9998 / 1000 / 2 / (19999 / 1000)) by (rewrite Mid by lra; field).
  destruct (first_answers (absf steep) (9 / 10) 0 20 (NS - 1) 0 k) as (j & Hj & Ej); [nlia|nlia| |].
  - rewrite PL, P1, P0, F1, F0, FL. unfold Rabs. destruct (Rcase_abs _), (Rcase_abs _); lra.
  - exists steep, 20, fuel, 20, 1, w, (pt 0 20 j / PI). split; [exact steep_peak|]. split; [exact E|]. split; [unfold w; lra|]. split; [rewrite A2, Fw; lra|]. split.
    + unfold find_min_scale. rewrite E. cbn [rbind]. destruct (Rlt_dec 0 (- (9 / 10))); [lra|]. rewrite A2, Rmult_1_r. unfold first_of. fold (fargs 0 20). rewrite Ek, Ej. reflexivity.
    + rewrite div_PI. destruct Hj as (Hj & _). pose proof (pt_mono 0 20 j (NS - 1) ltac:(nlia)) as Q. rewrite PL in Q. rewrite Rabs_left by (unfold w; lra). unfold w. lra.
Qed.
