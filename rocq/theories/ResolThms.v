(** Frequency and time resolution. *)
From Coq Require Import Reals Lra Permutation.
From Verif Require Import Py Cplx CplxProofs Squeeze BinProofs Scales Freqs Buffer BufferProofs ShiftProofs Cwt
  Integral GmwOrders GmwThms GmwThms3 Resol ResolProofs.
Local Open Scope R_scope.

(** the positive bins of an [N]-point grid, and sums over them; the Nyquist bin counts half *)
Definition bin (N k : nat) : R := 2 * PI * INR k / INR N.
Definition bin_weight (g : R -> R) (s : R) (N k : nat) : R :=
  (if (2 * k =? N)%nat then 1 / 2 else 1) * g (s * bin N k) ^ 2.
Definition wsum (g : R -> R) (s : R) (N : nat) (u : R -> R) : R :=
  Rsum (N / 2) (fun k => bin_weight g s N (S k) * u (bin N (S k))).
(** mean of [w], and mean square distance of [w] from [m] *)
Definition spec_mean g s N : R := wsum g s N (fun w => w) / wsum g s N (fun _ => 1).
Definition spec_msd g s N (m : R) : R := wsum g s N (fun w => (w - m) ^ 2) / wsum g s N (fun _ => 1).

Lemma bw_nonneg g s N k : 0 <= bin_weight g s N k.
Proof. unfold bin_weight. apply Rmult_le_pos; [destruct (_ =? _)%nat; lra|apply sq_nonneg]. Qed.
Lemma wsum_pos g s N : seen g s N -> 0 < wsum g s N (fun _ => 1).
Proof.
  intros (k & Hk & H). unfold wsum.
  apply Rlt_le_trans with (bin_weight g s N (S (k - 1)) * 1).
  - replace (S (k - 1)) with k by lia. unfold bin_weight. rewrite Rmult_1_r.
    apply Rmult_lt_0_compat; [destruct (_ =? _)%nat; lra|]. now apply sq_pos.
  - apply (Rsum_pos_term (N / 2) (fun k => bin_weight g s N (S k) * 1)); [lia|].
    intros i _. pose proof (bw_nonneg g s N (S i)). lra.
Qed.
Lemma cf_w_even h j : (j < 2 * h)%nat -> nth j (cf_w (2 * h)) 0 =
  2 * PI * IZR (Z.of_nat j + 1 - Z.of_nat h) / INR (2 * h).
Proof.
  intros Hj. unfold cf_w. rewrite (nth_aifftshift_even R 0 _ h) by (rewrite ?xifn_length; lia).
  rewrite nth_xifn by (destruct (Nat.ltb_spec j (h - 1)); lia). unfold xi_bin.
  replace (2 * h / 2)%nat with h by lia.
  destruct (Nat.ltb_spec j (h - 1)).
  - replace (j + h + 1 <? h + 1)%nat with false by lia.
    replace (Z.of_nat (j + h + 1) - Z.of_nat (2 * h))%Z with (Z.of_nat j + 1 - Z.of_nat h)%Z by lia.
    unfold Rdiv. ring.
  - replace (j + 1 - h <? h + 1)%nat with true by lia.
    replace (Z.of_nat (j + 1 - h)) with (Z.of_nat j + 1 - Z.of_nat h)%Z by lia. unfold Rdiv. ring.
Qed.
(** for even lengths the trapezoid sum is the sum over the positive bins *)
Lemma grid_sum g s h (u : R -> R) : analytic g -> 0 < s -> (1 <= h)%nat ->
  Rsum (2 * h) (fun i => tzw (2 * h) i * g (s * nth i (cf_w (2 * h)) 0) ^ 2 * u (nth i (cf_w (2 * h)) 0)) =
  wsum g s (2 * h) u.
Proof.
  intros Ha Hs Hh. unfold wsum. replace (2 * h / 2)%nat with h by lia.
  replace (Rsum (2 * h)) with (Rsum (h + h)) by (f_equal; lia). rewrite Rsum_app.
  rewrite Rsum_0.
  - rewrite Rplus_0_l. apply Rsum_ext. intros k Hk. rewrite cf_w_even by lia.
    replace (Z.of_nat (h + k) + 1 - Z.of_nat h)%Z with (Z.of_nat (S k)) by lia. rewrite <- INR_IZR_INZ.
    fold (bin (2 * h) (S k)). unfold bin_weight, tzw.
    replace (0 <? h + k)%nat with true by lia.
    destruct (Nat.eqb_spec (2 * S k) (2 * h)); destruct (Nat.ltb_spec (h + k + 1) (2 * h)); try lia; lra.
  - intros i Hi. rewrite cf_w_even by lia. rewrite Ha; [ring|].
    assert (~ 0 < 2 * PI * IZR (Z.of_nat i + 1 - Z.of_nat h) / INR (2 * h)).
    { rewrite bin_pos by lia. lia. }
    nra.
Qed.
Lemma energy_even f g inst ct s N force (Hf : real_wavelet f g) : analytic g -> 0 < s -> (N mod 2 = 0)%nat ->
  seen g s N -> center_frequency f inst ct (Some s) N KEnergy force = Ok (Some (spec_mean g s N)).
Proof.
  intros Ha Hs E Hn. pose proof (energy_val f g s N Hf Hn) as (Hp & T & U). cbv zeta in *.
  assert (HN : (2 <= N)%nat) by (destruct Hn as (k & Hk & _); lia).
  unfold center_frequency. cbn [bind]. replace (N =? 0)%nat with false by lia.
  unfold energy_wc. replace (force_or_true force) with true by (destruct force as [[]|]; reflexivity).
  unfold npdiv. destruct (Req_EM_T _ 0) as [Z|Z]; [rewrite T in Z; lra|].
  rewrite U by apply length_cf_w. rewrite T. do 2 f_equal. unfold spec_mean.
  replace N with (2 * (N / 2))%nat by lia. f_equal.
  - apply (grid_sum g s (N / 2) (fun w => w)); auto. lia.
  - f_equal. rewrite <- (grid_sum g s (N / 2) (fun _ => 1)) by (auto; lia). apply Rsum_ext. intros; ring.
Qed.
(** trapezoid over the sorted grid: the spacing is constant *)
Lemma trapzx_even h y : (1 <= h)%nat -> length y = (2 * h)%nat ->
  trapzx y (cf_w (2 * h)) = 2 * PI / INR (2 * h) * trapz y.
Proof.
  intros Hh L. unfold trapzx, trapz. rewrite L, <- Rsum_scal. apply Rsum_ext. intros i Hi.
  rewrite !cf_w_even by lia.
  replace (IZR (Z.of_nat (S i) + 1 - Z.of_nat h)) with (IZR (Z.of_nat i + 1 - Z.of_nat h) + 1).
  - unfold Rdiv. ring.
  - rewrite <- (plus_IZR _ 1). f_equal. lia.
Qed.
Lemma lmul_comm : forall a b, lmul a b = lmul b a.
Proof. unfold lmul. induction a as [|x a IH]; intros [|y b]; cbn; auto. rewrite IH. f_equal. ring. Qed.
Lemma var_even f g s N m (Hf : real_wavelet f g) : analytic g -> 0 < s -> (N mod 2 = 0)%nat -> seen g s N ->
  var_w f s N m = Some (spec_msd g s N m).
Proof.
  intros Ha Hs E Hn. pose proof (energy_val f g s N Hf Hn) as (Hp & T & U). cbv zeta in *.
  assert (HN : (2 <= N)%nat) by (destruct Hn as (k & Hk & _); lia).
  set (u := map (fun x => (x - m) ^ 2) (cf_w N)).
  assert (Lu : length u = N) by (unfold u; rewrite map_length; apply length_cf_w).
  assert (EN : N = (2 * (N / 2))%nat) by lia.
  assert (Tx : forall y, length y = N -> trapzx y (cf_w N) = 2 * PI / INR N * trapz y).
  { intros y Hy. rewrite EN in *. apply trapzx_even; lia. }
  assert (P : 0 < 2 * PI / INR N).
  { pose proof PI_RGT_0. apply Rdiv_lt_0_compat; [lra|]. apply lt_0_INR. lia. }
  unfold var_w. fold u.
  rewrite !Tx by (rewrite ?length_lmul, ?length_apsih2; lia).
  unfold npdiv. destruct (Req_EM_T _ 0) as [Z|Z]; [rewrite T in Z; nra|].
  f_equal. rewrite lmul_comm, U by exact Lu. rewrite T.
  assert (S1 : Rsum N (fun i => tzw N i * g (s * nth i (cf_w N) 0) ^ 2 * nth i u 0) =
               wsum g s N (fun w => (w - m) ^ 2)).
  { assert (Hh : (1 <= N / 2)%nat) by lia. pose proof (grid_sum g s (N / 2) (fun w => (w - m) ^ 2) Ha Hs Hh) as Q.
    rewrite <- EN in Q. rewrite <- Q. apply Rsum_ext. intros i Hi. f_equal.
    unfold u. rewrite (nth_indep _ 0 ((0 - m) ^ 2)) by (rewrite map_length, length_cf_w; lia).
    apply (map_nth (fun x => (x - m) ^ 2)). }
  assert (S2 : Rsum N (fun i => tzw N i * g (s * nth i (cf_w N) 0) ^ 2) = wsum g s N (fun _ => 1)).
  { assert (Hh : (1 <= N / 2)%nat) by lia. pose proof (grid_sum g s (N / 2) (fun _ => 1) Ha Hs Hh) as Q.
    rewrite <- EN in Q. rewrite <- Q. apply Rsum_ext. intros; ring. }
  rewrite S1, S2. unfold spec_msd. pose proof (wsum_pos g s N Hn). set (a := 2 * PI / INR N) in *. field. split; lra.
Qed.
Lemma wsum_plus g s N u v : wsum g s N (fun w => u w + v w) = wsum g s N u + wsum g s N v.
Proof. unfold wsum. rewrite <- Rsum_plus. apply Rsum_ext. intros; ring. Qed.
Lemma wsum_scal g s N c u : wsum g s N (fun w => c * u w) = c * wsum g s N u.
Proof. unfold wsum. rewrite <- Rsum_scal. apply Rsum_ext. intros; ring. Qed.
Lemma wsum_ext g s N u v : (forall w, u w = v w) -> wsum g s N u = wsum g s N v.
Proof. intros H. unfold wsum. apply Rsum_ext. intros; now rewrite H. Qed.
Lemma msd_shift g s N m : seen g s N ->
  spec_msd g s N m = spec_msd g s N (spec_mean g s N) + (spec_mean g s N - m) ^ 2.
Proof.
  intros Hn. pose proof (wsum_pos g s N Hn) as Hp. unfold spec_msd, spec_mean.
  assert (X : forall c, wsum g s N (fun w => (w - c) ^ 2) =
    wsum g s N (fun w => w ^ 2) + (-2 * c) * wsum g s N (fun w => w) + c ^ 2 * wsum g s N (fun _ => 1)).
  { intros c. rewrite <- !wsum_scal, <- !wsum_plus. apply wsum_ext. intros; ring. }
  rewrite !X. field. lra.
Qed.
Lemma msd_nonneg g s N m : seen g s N -> 0 <= spec_msd g s N m.
Proof.
  intros Hn. pose proof (wsum_pos g s N Hn). unfold spec_msd.
  apply Rmult_le_pos; [|left; now apply Rinv_0_lt_compat]. unfold wsum. apply Rsum_nonneg.
  intros i _. apply Rmult_le_pos; [apply bw_nonneg|apply sq_nonneg].
Qed.
Lemma use_formula_true s N : use_formula s N true = false.
Proof. unfold use_formula. apply andb_false_r. Qed.
Lemma freq_res_even f g ct s N (Hf : real_wavelet f g) : analytic g -> 0 < s -> (N mod 2 = 0)%nat ->
  seen g s N -> seen g s 1024 ->
  freq_resolution f ct s N false true = Ok (Some (sqrt (spec_msd g s N (spec_mean g s 1024)))).
Proof.
  intros Ha Hs E Hn H1. unfold freq_resolution. rewrite use_formula_true. cbn [bind].
  assert (HN : (2 <= N)%nat) by (destruct Hn as (k & Hk & _); lia). replace (N =? 0)%nat with false by lia.
  rewrite (energy_even f g) by auto. cbn [bind obind]. rewrite (var_even f g) by auto. cbn [obind].
  unfold npsqrt. pose proof (msd_nonneg g s N (spec_mean g s 1024) Hn).
  destruct (Rlt_dec _ 0); [lra|reflexivity].
Qed.
Lemma freq_res_default f g ct s (Hf : real_wavelet f g) : analytic g -> 0 < s -> seen g s 1024 ->
  exists v, freq_resolution f ct s 1024 false true = Ok (Some v) /\ 0 <= v /\
    v ^ 2 = spec_msd g s 1024 (spec_mean g s 1024).
Proof.
  intros Ha Hs H1. eexists. split; [apply (freq_res_even f g); auto|]. split; [apply sqrt_pos|].
  rewrite <- Rsqr_pow2. apply Rsqr_sqrt, msd_nonneg, H1.
Qed.
Lemma freq_res_excess f g ct s N (Hf : real_wavelet f g) : analytic g -> 0 < s -> (N mod 2 = 0)%nat ->
  seen g s N -> seen g s 1024 ->
  exists v, freq_resolution f ct s N false true = Ok (Some v) /\ 0 <= v /\
    v ^ 2 = spec_msd g s N (spec_mean g s N) + (spec_mean g s N - spec_mean g s 1024) ^ 2.
Proof.
  intros Ha Hs E Hn H1. eexists. split; [apply (freq_res_even f g); auto|]. split; [apply sqrt_pos|].
  rewrite <- Rsqr_pow2, <- msd_shift by exact Hn. apply Rsqr_sqrt, msd_nonneg, Hn.
Qed.

(** ** the two means differ: two samples *)
Lemma bin_bounds N k : (1 <= k <= N / 2)%nat -> bin N 1 <= bin N k <= PI.
Proof.
  intros Hk. unfold bin. split.
  - assert (0 < INR N) by (apply lt_0_INR; lia). apply Rmult_le_compat_r; [left; now apply Rinv_0_lt_compat|].
    pose proof PI_RGT_0. apply Rmult_le_compat_l; [lra|]. apply le_INR. lia.
  - rewrite (INR_IZR_INZ k). apply bin_le; lia.
Qed.
Lemma positive_seen g s N : (forall w, 0 < w -> 0 < g w) -> 0 < s -> (2 <= N)%nat -> seen g s N.
Proof.
  intros Hg Hs HN. exists 1%nat. split; [lia|]. apply Rgt_not_eq, Hg, Rmult_lt_0_compat; [exact Hs|].
  pose proof PI_RGT_0. apply Rdiv_lt_0_compat; [simpl; lra|]. apply lt_0_INR. lia.
Qed.
Lemma mean_lt_pi g s N : (forall w, 0 < w -> 0 < g w) -> 0 < s -> (3 <= N)%nat -> spec_mean g s N < PI.
Proof.
  intros Hg Hs HN. pose proof (wsum_pos g s N (positive_seen g s N Hg Hs ltac:(lia))) as Hp.
  assert (H : 0 < wsum g s N (fun w => PI + -1 * w)).
  { pose proof PI_RGT_0. assert (HN0 : 0 < INR N) by (apply lt_0_INR; lia).
    assert (B1 : 0 < bin N 1) by (unfold bin; apply Rdiv_lt_0_compat; simpl; lra).
    apply Rlt_le_trans with (bin_weight g s N 1 * (PI + -1 * bin N 1)).
    - apply Rmult_lt_0_compat.
      + unfold bin_weight. replace (2 * 1 =? N)%nat with false by lia. rewrite Rmult_1_l.
        apply sq_pos, Rgt_not_eq, Hg. now apply Rmult_lt_0_compat.
      + assert (bin N 1 < PI); [|lra]. unfold bin. apply (Rmult_lt_reg_r (INR N)); [lra|].
        unfold Rdiv. rewrite Rmult_assoc, Rinv_l by lra. pose proof (lt_INR 2 N ltac:(lia)) as H2.
        simpl INR in *. nra.
    - unfold wsum. apply (Rsum_pos_term (N / 2) (fun k => bin_weight g s N (S k) * (PI + -1 * bin N (S k))) 0); [lia|].
      intros i Hi. apply Rmult_le_pos; [apply bw_nonneg|]. destruct (bin_bounds N (S i) ltac:(lia)). lra. }
  rewrite wsum_plus, wsum_scal in H.
  rewrite (wsum_ext g s N (fun _ => PI) (fun _ => PI * 1)), wsum_scal in H by (intros; ring).
  unfold spec_mean. apply (Rmult_lt_reg_r (wsum g s N (fun _ => 1))); [exact Hp|].
  unfold Rdiv. rewrite Rmult_assoc, Rinv_l; lra.
Qed.
Lemma bin_2_1 : bin 2 1 = PI.
Proof. unfold bin. simpl INR. field. Qed.
Lemma mean_two g s : (forall w, 0 < w -> 0 < g w) -> 0 < s ->
  spec_mean g s 2 = PI /\ spec_msd g s 2 PI = 0.
Proof.
  intros Hg Hs. pose proof (wsum_pos g s 2 (positive_seen g s 2 Hg Hs ltac:(lia))) as Hp.
  unfold spec_mean, spec_msd, wsum in *. change (2 / 2)%nat with 1%nat in *. cbn [Rsum] in *.
  rewrite bin_2_1 in *. split; [field; lra|]. unfold Rdiv. ring.
Qed.
Lemma freq_res_two f g ct s (Hf : real_wavelet f g) : analytic g -> (forall w, 0 < w -> 0 < g w) -> 0 < s ->
  exists v, freq_resolution f ct s 2 false true = Ok (Some v) /\ 0 < v /\
    spec_msd g s 2 (spec_mean g s 2) = 0.
Proof.
  intros Ha Hg Hs.
  pose proof (positive_seen g s 2 Hg Hs ltac:(lia)) as H2. pose proof (positive_seen g s 1024 Hg Hs ltac:(lia)) as H1.
  destruct (freq_res_excess f g ct s 2 Hf Ha Hs eq_refl H2 H1) as (v & E & V0 & V).
  destruct (mean_two g s Hg Hs) as [M1 M2]. rewrite M1, M2 in V. pose proof (mean_lt_pi g s 1024 Hg Hs ltac:(lia)).
  exists v. split; [exact E|]. rewrite M1. split; [|exact M2].
  assert (0 < (PI - spec_mean g s 1024) ^ 2) by (apply sq_pos; lra).
  destruct V0 as [V0|V0]; [exact V0|]. rewrite <- V0 in V. simpl in V. simpl in H0. lra.
Qed.
