(** Proofs about Resol.v. *)
From Coq Require Import Reals Lra Permutation.
From Verif Require Import Py Cplx CplxProofs Squeeze BinProofs Scales Freqs Buffer BufferProofs ShiftProofs Cwt
  Integral GmwOrders GmwThms GmwThms3 Resol.
Local Open Scope R_scope.

(** a wavelet function with real values *)
Definition real_wavelet (f : wfun) (g : R -> R) : Prop := forall w, wf f w = RtoC (g w).
(** entry [k] of the sampled wavelet, the Nyquist bin halved *)
Definition halved (g : R -> R) (scale : R) (N k : nat) : R :=
  let v := g (scale * (2 * PI * IZR (xi_bin N k) / INR N)) in
  if (2 * k =? N)%nat then v / 2 else v.

Lemma length_wavelet_at f w b : length (wavelet_at f w b) = length w.
Proof. unfold wavelet_at. apply tab_length. Qed.
Lemma nth_wavelet_at f g w j (Hf : real_wavelet f g) : (j < length w)%nat ->
  nth j (wavelet_at f w true) C0 = RtoC (g (nth j w 0)).
Proof.
  intros Hj. unfold wavelet_at. rewrite nth_tab by exact Hj.
  destruct (wf_cplx f && _); cbn [el real_part]; rewrite Hf; reflexivity.
Qed.
Lemma nth_wavelet_half f g w j (Hf : real_wavelet f g) : (j < length w)%nat ->
  nth j (wavelet_at f w false) C0 = RtoC (if (2 * j =? length w)%nat then g (nth j w 0) / 2 else g (nth j w 0)).
Proof.
  intros Hj. unfold wavelet_at. rewrite nth_tab by exact Hj.
  assert (E : el (halve_nyquist (Mat 1 (length w) (fun _ k => wf f (nth k w 0)))) 0 j =
              RtoC (if (2 * j =? length w)%nat then g (nth j w 0) / 2 else g (nth j w 0))).
  { unfold halve_nyquist. cbn [ncols nrows].
    destruct (Nat.eqb_spec (length w mod 2) 0) as [H0|H0]; cbn [el]; rewrite ?Hf.
    - destruct (Nat.eqb_spec j (length w / 2)); destruct (Nat.eqb_spec (2 * j) (length w)); try lia; rewrite ?Hf; try reflexivity.
      rewrite <- RtoC_mul. f_equal. unfold Rdiv. apply Rmult_comm.
    - destruct (Nat.eqb_spec (2 * j) (length w)); [lia|reflexivity]. }
  destruct (wf_cplx f && _); cbn [el real_part]; rewrite E; reflexivity.
Qed.
Lemma nth_scaled scale N k : (k < N)%nat ->
  nth k (map (Rmult scale) (xifn 1 N)) 0 = scale * (2 * PI * IZR (xi_bin N k) / INR N).
Proof.
  intros Hk. rewrite (nth_indep _ 0 (scale * 0)) by (rewrite map_length, xifn_length; exact Hk).
  rewrite (map_nth (Rmult scale)). rewrite nth_xifn by exact Hk. unfold Rdiv. ring.
Qed.
Lemma length_psifn f scale N : length (psifn f scale N) = N.
Proof. unfold psifn, center_psi. rewrite tab_length, length_wavelet_at, map_length, xifn_length. reflexivity. Qed.
Lemma nth_psifn f g scale N n (Hf : real_wavelet f g) : (n < N)%nat ->
  nth n (psifn f scale N) C0 = idft N (fun k => RtoC (halved g scale N k * sgn1 k)) n.
Proof.
  intros Hn. unfold psifn, center_psi. rewrite length_wavelet_at, map_length, xifn_length.
  rewrite nth_tab by exact Hn. apply idft_ext. intros k Hk.
  rewrite (nth_wavelet_half f g) by (auto; rewrite map_length, xifn_length; exact Hk).
  rewrite map_length, xifn_length, nth_scaled by exact Hk. rewrite <- RtoC_mul. reflexivity.
Qed.

(** ** the time-domain wavelet *)
Lemma idft_real_sym N X n : (1 <= N)%nat -> (n <= N)%nat ->
  idft N (fun k => RtoC (X k)) (N - n) = Cconj (idft N (fun k => RtoC (X k)) n).
Proof.
  intros HN Hn. unfold idft. rewrite Cconj_mul, Cconj_RtoC, Csum_conj. f_equal.
  apply Csum_ext. intros k Hk. rewrite Cconj_mul, Cconj_RtoC, <- tw_opp by lia. f_equal.
  replace (Z.of_nat k * Z.of_nat (N - n))%Z
    with (- (Z.of_nat k * Z.of_nat n) + Z.of_nat N * Z.of_nat k)%Z by nia.
  apply tw_shift. lia.
Qed.
Lemma psi_sym f g scale N n (Hf : real_wavelet f g) : (1 <= n < N)%nat ->
  nth (N - n) (psifn f scale N) C0 = Cconj (nth n (psifn f scale N) C0).
Proof.
  intros Hn. rewrite !(nth_psifn f g) by (auto; lia). apply idft_real_sym; lia.
Qed.
Lemma tw_half N k : (1 <= N)%nat -> (N mod 2 = 0)%nat -> tw N (Z.of_nat k * Z.of_nat (N / 2)) = RtoC (sgn1 k).
Proof.
  intros HN E. unfold tw.
  replace (2 * PI * IZR (Z.of_nat k * Z.of_nat (N / 2)) / INR N) with (PI * INR k).
  - induction k as [|k IH]; [rewrite Rmult_0_r, cis_0; reflexivity|].
    rewrite S_INR, Rmult_plus_distr_l, Rmult_1_r, cis_add, IH. unfold sgn1.
    rewrite Nat.even_succ, <- Nat.negb_even. unfold cis. rewrite cos_PI, sin_PI.
    destruct (Nat.even k); apply C_eq; cbn; ring.
  - rewrite mult_IZR, <- !INR_IZR_INZ. pose proof (lt_0_INR N ltac:(lia)).
    assert (H2 : INR N = 2 * INR (N / 2)) by (rewrite <- (mult_INR 2); f_equal; lia).
    rewrite H2. field. lra.
Qed.
Lemma sgn1_sq k : sgn1 k * sgn1 k = 1.
Proof. unfold sgn1. destruct (Nat.even k); lra. Qed.
Lemma Cabs_triangle_sum n (X : nat -> R) (u : nat -> C) :
  (forall k, (k < n)%nat -> 0 <= X k) -> (forall k, Cabs (u k) = 1) ->
  Cabs (Csum n (fun k => Cmul (RtoC (X k)) (u k))) <= Rsum n X.
Proof.
  intros HX Hu.
  assert (T : forall a b, Cabs (Cadd a b) <= Cabs a + Cabs b).
  { intros a b. unfold Cabs. apply Rsqr_incr_0_var; [|apply Rplus_le_le_0_compat; apply sqrt_pos].
    rewrite Rsqr_sqrt by apply Cnorm2_nonneg. unfold Rsqr.
    replace ((sqrt (Cnorm2 a) + sqrt (Cnorm2 b)) * (sqrt (Cnorm2 a) + sqrt (Cnorm2 b)))
      with (sqrt (Cnorm2 a) * sqrt (Cnorm2 a) + sqrt (Cnorm2 b) * sqrt (Cnorm2 b) +
            2 * (sqrt (Cnorm2 a) * sqrt (Cnorm2 b))) by ring.
    rewrite !sqrt_sqrt by apply Cnorm2_nonneg. rewrite <- sqrt_mult by apply Cnorm2_nonneg.
    assert (Q : fst a * fst b + snd a * snd b <= sqrt (Cnorm2 a * Cnorm2 b)).
    { destruct (Rle_lt_dec (fst a * fst b + snd a * snd b) 0) as [L|L].
      - apply Rle_trans with 0; [exact L|apply sqrt_pos].
      - rewrite <- (sqrt_Rsqr (fst a * fst b + snd a * snd b)) by lra. apply sqrt_le_1_alt.
        unfold Rsqr, Cnorm2. pose proof (Rle_0_sqr (fst a * snd b - snd a * fst b)). unfold Rsqr in *. nra. }
    unfold Cnorm2 in *. cbn [fst snd Cadd]. nra. }
  induction n as [|n IH]; cbn [Csum Rsum].
  - rewrite Cabs_0. lra.
  - eapply Rle_trans; [apply T|]. rewrite Cabs_mul, Hu, Cabs_RtoC, Rmult_1_r.
    rewrite (Rabs_right (X n)) by (apply Rle_ge, HX; lia).
    apply Rplus_le_compat_r, IH. intros; apply HX; lia.
Qed.
Lemma halved_nonneg g scale N k : (forall w, 0 <= g w) -> 0 <= halved g scale N k.
Proof. intros H. unfold halved. destruct (_ =? _)%nat; [|apply H]. specialize (H (scale * (2 * PI * IZR (xi_bin N k) / INR N))). lra. Qed.
Lemma psi_center f g scale N (Hf : real_wavelet f g) : (1 <= N)%nat -> (N mod 2 = 0)%nat ->
  nth (N / 2) (psifn f scale N) C0 = RtoC (/ INR N * Rsum N (halved g scale N)).
Proof.
  intros HN E. rewrite (nth_psifn f g) by (auto; lia). unfold idft. rewrite RtoC_mul. f_equal.
  rewrite <- Csum_RtoC. apply Csum_ext. intros k Hk. rewrite tw_half by auto.
  rewrite <- RtoC_mul. f_equal. rewrite Rmult_assoc, sgn1_sq. ring.
Qed.
Lemma psi_peak f g scale N n (Hf : real_wavelet f g) : (1 <= N)%nat -> (N mod 2 = 0)%nat ->
  (forall w, 0 <= g w) -> (n < N)%nat ->
  Im (nth (N / 2) (psifn f scale N) C0) = 0 /\
  Cabs (nth n (psifn f scale N) C0) <= Re (nth (N / 2) (psifn f scale N) C0).
Proof.
  intros HN E Hg Hn. rewrite (psi_center f g) by auto. split; [reflexivity|]. rewrite Re_RtoC.
  rewrite (nth_psifn f g) by (auto; lia). unfold idft. rewrite Cabs_mul, Cabs_RtoC.
  pose proof (lt_0_INR N ltac:(lia)). pose proof (Rinv_0_lt_compat _ H).
  rewrite Rabs_right by lra. apply Rmult_le_compat_l; [lra|].
  rewrite (Csum_ext N _ (fun k => Cmul (RtoC (halved g scale N k))
             (Cmul (RtoC (sgn1 k)) (tw N (Z.of_nat k * Z.of_nat n))))).
  - apply Cabs_triangle_sum.
    + intros; now apply halved_nonneg.
    + intros k. rewrite Cabs_mul, Cabs_RtoC. unfold tw. rewrite Cabs_cis. unfold sgn1.
      destruct (Nat.even k); rewrite Rmult_1_r; [apply Rabs_R1|]. rewrite Rabs_left; lra.
  - intros k Hk. rewrite RtoC_mul. cring.
Qed.
Lemma psi_spectrum f g scale N k (Hf : real_wavelet f g) : (k < N)%nat ->
  Cmul (RtoC (sgn1 k)) (dft N (fun n => nth n (psifn f scale N) C0) k) = RtoC (halved g scale N k).
Proof.
  intros Hk.
  rewrite (dft_ext N _ (idft N (fun k => RtoC (halved g scale N k * sgn1 k)))).
  - rewrite dft_idft by lia. rewrite <- RtoC_mul. f_equal.
    replace (sgn1 k * (halved g scale N k * sgn1 k)) with (halved g scale N k * (sgn1 k * sgn1 k)) by ring.
    rewrite sgn1_sq. ring.
  - intros m Hm. now apply nth_psifn.
Qed.
(** [compute_gmw] gives the same time-domain wavelet *)
Lemma compute_gmw_psifn G N scale gamma beta k centered f32 fn X psi : is_Gamma G ->
  (1 <= N)%nat -> 0 < scale -> 0 < gamma -> 0 < beta ->
  gmw G gamma beta Bandpass (OInt (Z.of_nat k)) centered f32 = Ok fn ->
  compute_gmw G N scale gamma beta Bandpass (OInt (Z.of_nat k)) centered false f32 = Ok (X, psi) ->
  psi = psifn (WF (fun w => RtoC (fn w)) false GmwL1) scale N.
Proof.
  intros HG HN Hs Hg Hb Ef Ec. unfold compute_gmw in Ec.
  rewrite check_beta0_ok in Ec by (try lra; discriminate). cbn [bind] in Ec.
  destruct (Rle_dec scale 0) as [L|L]; [lra|]. rewrite Ef in Ec. cbn [bind] in Ec.
  apply Ok_inj in Ec. apply (f_equal snd) in Ec. cbn [snd] in Ec. subst psi.
  assert (Hr : real_wavelet (WF (fun w => RtoC (fn w)) false GmwL1) fn) by (intros w; reflexivity).
  apply (nth_ext _ _ C0 C0); unfold center_ifft; rewrite tab_length; [now rewrite length_psifn|].
  intros n Hn. rewrite nth_tab by exact Hn. rewrite (nth_psifn _ fn) by auto.
  apply idft_ext. intros i Hi. f_equal. f_equal. rewrite nth_tab by exact Hi. rewrite nth_tab by exact Hi.
  assert (Ex : nth i (xifn scale N) 0 = scale * (2 * PI * IZR (xi_bin N i) / INR N)).
  { rewrite nth_xifn by exact Hi. unfold Rdiv. ring. }
  rewrite Ex. unfold halved.
  assert (Ez : (i <? N / 2 + 1)%nat = false -> fn (scale * (2 * PI * IZR (xi_bin N i) / INR N)) = 0).
  { intros Hb'. apply (gmw_negative G gamma beta Bandpass (Z.of_nat k) centered f32); auto.
    unfold xi_bin. rewrite Hb'. assert (IZR (Z.of_nat i - Z.of_nat N) < 0) by (apply IZR_lt; lia).
    pose proof PI_RGT_0. pose proof (Rinv_0_lt_compat _ (lt_0_INR N ltac:(lia))) as Hi'.
    assert (0 < scale * (2 * PI * / INR N)) by (apply Rmult_lt_0_compat; [lra|apply Rmult_lt_0_compat; lra]).
    unfold Rdiv. nra. }
  destruct (Nat.ltb_spec i (N / 2 + 1)) as [H|H].
  - destruct (Nat.eqb_spec (2 * i) N); destruct (Nat.eqb_spec (N mod 2) 0); destruct (Nat.eqb_spec i (N / 2));
      cbn [andb]; try lia; reflexivity.
  - destruct (Nat.eqb_spec (2 * i) N); [lia|]. rewrite Ez by reflexivity.
    destruct (Nat.eqb_spec i (N / 2)); [lia|]. rewrite andb_false_r. reflexivity.
Qed.

(** ** weighted sums *)
(** trapezoid weights: 1/2 at the ends, 1 inside *)
Definition tzw (n i : nat) : R := (if (0 <? i)%nat then 1 / 2 else 0) + (if (i + 1 <? n)%nat then 1 / 2 else 0).
Lemma trapz_weights y : trapz y = Rsum (length y) (fun i => tzw (length y) i * nth i y 0).
Proof.
  unfold trapz. destruct (length y) as [|n] eqn:E; [reflexivity|]. replace (S n - 1)%nat with n by lia.
  rewrite (Rsum_ext (S n) _ (fun i => (if (0 <? i)%nat then 1 / 2 else 0) * nth i y 0 +
                                      (if (i + 1 <? S n)%nat then 1 / 2 else 0) * nth i y 0)) by (intros; unfold tzw; ring).
  rewrite Rsum_plus, (Rsum_first n (fun i => (if (0 <? i)%nat then 1 / 2 else 0) * nth i y 0)). change (0 <? 0)%nat with false.
  change (Rsum (S n) (fun i => (if (i + 1 <? S n)%nat then 1 / 2 else 0) * nth i y 0))
    with (Rsum n (fun i => (if (i + 1 <? S n)%nat then 1 / 2 else 0) * nth i y 0) +
          (if (n + 1 <? S n)%nat then 1 / 2 else 0) * nth n y 0).
  replace (n + 1 <? S n)%nat with false by lia.
  rewrite (Rsum_ext n (fun i => (if (i + 1 <? S n)%nat then 1 / 2 else 0) * nth i y 0) (fun i => 1 / 2 * nth i y 0)).
  - rewrite !Rmult_0_l, Rplus_0_l, Rplus_0_r, <- Rsum_plus. apply Rsum_ext. intros i Hi. change (0 <? S i)%nat with true. lra.
  - intros i Hi. replace (i + 1 <? S n)%nat with true by lia. reflexivity.
Qed.
Lemma tzw_pos n i : (2 <= n)%nat -> (i < n)%nat -> 0 < tzw n i.
Proof. intros. unfold tzw. destruct (Nat.ltb_spec 0 i); destruct (Nat.ltb_spec (i + 1) n); try lia; lra. Qed.
Lemma tzw_le n i : tzw n i <= 1.
Proof. unfold tzw. destruct (_ <? _)%nat; destruct (_ <? _)%nat; lra. Qed.
Lemma length_lmul a b : length (lmul a b) = Nat.min (length a) (length b).
Proof. unfold lmul. rewrite map_length, combine_length. reflexivity. Qed.
Lemma nth_lmul : forall a b i, (i < length a)%nat -> (i < length b)%nat -> nth i (lmul a b) 0 = nth i a 0 * nth i b 0.
Proof.
  induction a as [|x a IH]; intros [|y b] [|i]; cbn; intros; try lia; [reflexivity|]. apply IH; lia.
Qed.
(** a weighted mean lies between bounds on what is averaged *)
Lemma wmean_bounds n (c v : nat -> R) lo hi : (forall i, (i < n)%nat -> 0 <= c i) ->
  (forall i, (i < n)%nat -> c i <> 0 -> lo <= v i <= hi) -> 0 < Rsum n c ->
  lo <= Rsum n (fun i => c i * v i) / Rsum n c <= hi.
Proof.
  intros Hc Hv Hp.
  assert (A : lo * Rsum n c <= Rsum n (fun i => c i * v i)).
  { rewrite <- Rsum_scal. apply Rsum_le. intros i Hi. destruct (Req_dec (c i) 0) as [->|Hne]; [lra|].
    specialize (Hc i Hi). specialize (Hv i Hi Hne). nra. }
  assert (B : Rsum n (fun i => c i * v i) <= hi * Rsum n c).
  { rewrite <- Rsum_scal. apply Rsum_le. intros i Hi. destruct (Req_dec (c i) 0) as [->|Hne]; [lra|].
    specialize (Hc i Hi). specialize (Hv i Hi Hne). nra. }
  split.
  - apply (Rmult_le_reg_r (Rsum n c)); [lra|]. unfold Rdiv. rewrite Rmult_assoc, Rinv_l; lra.
  - apply (Rmult_le_reg_r (Rsum n c)); [lra|]. unfold Rdiv. rewrite Rmult_assoc, Rinv_l; lra.
Qed.

(** ** centre frequency *)
Lemma length_cf_w N : length (cf_w N) = N.
Proof. unfold cf_w. rewrite aifftshift_length, xifn_length. reflexivity. Qed.
Lemma length_apsih2 f s N : length (apsih2 f s N) = N.
Proof. unfold apsih2. rewrite map_length, length_wavelet_at, map_length, length_cf_w. reflexivity. Qed.
Lemma nth_apsih2 f g s N j (Hf : real_wavelet f g) : (j < N)%nat ->
  nth j (apsih2 f s N) 0 = g (s * nth j (cf_w N) 0) ^ 2.
Proof.
  intros Hj. unfold apsih2.
  replace 0 with (Cnorm2 C0) by (unfold Cnorm2; cbn; ring). rewrite map_nth.
  rewrite (nth_wavelet_at f g) by (auto; rewrite map_length, length_cf_w; exact Hj).
  rewrite (nth_indep _ 0 (s * 0)) by (rewrite map_length, length_cf_w; exact Hj). rewrite (map_nth (Rmult s)).
  replace (nth j (cf_w N) (Cnorm2 C0)) with (nth j (cf_w N) 0); [unfold Cnorm2; cbn; ring|].
  apply nth_indep. rewrite length_cf_w. exact Hj.
Qed.
(** every grid frequency is [2 pi k / N] with [|k| <= N/2], and each such positive one occurs *)
Lemma cf_w_in N j : (j < N)%nat -> exists k : Z, (k <= Z.of_nat (N / 2))%Z /\ nth j (cf_w N) 0 = 2 * PI * IZR k / INR N.
Proof.
  intros Hj.
  assert (I : In (nth j (cf_w N) 0) (xifn 1 N)).
  { apply (Permutation_in _ (aifftshift_perm R 0 (xifn 1 N))). apply nth_In. fold (cf_w N). rewrite length_cf_w. exact Hj. }
  apply (In_nth _ _ 0) in I. destruct I as (i & Hi & E). rewrite xifn_length in Hi.
  exists (xi_bin N i). split.
  - unfold xi_bin. destruct (Nat.ltb_spec i (N / 2 + 1)); lia.
  - rewrite <- E, nth_xifn by exact Hi. unfold Rdiv. ring.
Qed.
Lemma cf_w_has N k : (k < N)%nat -> (k <= N / 2)%nat -> exists j, (j < N)%nat /\ nth j (cf_w N) 0 = 2 * PI * INR k / INR N.
Proof.
  intros Hk H2.
  assert (I : In (nth k (xifn 1 N) 0) (cf_w N)).
  { apply (Permutation_in _ (Permutation_sym (aifftshift_perm R 0 (xifn 1 N)))). apply nth_In. rewrite xifn_length. exact Hk. }
  apply (In_nth _ _ 0) in I. destruct I as (j & Hj & E). rewrite length_cf_w in Hj.
  exists j. split; [exact Hj|]. rewrite E, nth_xifn by exact Hk. unfold xi_bin.
  replace (k <? N / 2 + 1)%nat with true by lia. rewrite <- INR_IZR_INZ. unfold Rdiv. ring.
Qed.
Lemma bin_pos N k : (1 <= N)%nat -> 0 < 2 * PI * IZR k / INR N <-> (0 < k)%Z.
Proof.
  intros HN. pose proof PI_RGT_0. pose proof (lt_0_INR N ltac:(lia)) as H1. pose proof (Rinv_0_lt_compat _ H1).
  split; intros Hk.
  - apply lt_IZR. apply Rnot_le_lt. intros L. unfold Rdiv in Hk.
    assert (0 < 2 * PI * / INR N) by (apply Rmult_lt_0_compat; lra). nra.
  - apply IZR_lt in Hk. unfold Rdiv. apply Rmult_lt_0_compat; [|lra]. nra.
Qed.
Lemma bin_le N k : (1 <= N)%nat -> (k <= Z.of_nat (N / 2))%Z -> 2 * PI * IZR k / INR N <= PI.
Proof.
  intros HN Hk. pose proof PI_RGT_0. pose proof (lt_0_INR N ltac:(lia)) as H1.
  assert (H2 : 2 * IZR k <= INR N).
  { rewrite INR_IZR_INZ, <- (mult_IZR 2). apply IZR_le. lia. }
  apply (Rmult_le_reg_r (INR N)); [lra|]. unfold Rdiv. rewrite Rmult_assoc, Rinv_l by lra. nra.
Qed.
(** the wavelet is analytic and seen by some bin of the grid *)
Definition analytic (g : R -> R) : Prop := forall w, w <= 0 -> g w = 0.
Definition seen (g : R -> R) (s : R) (N : nat) : Prop :=
  exists k, (1 <= k <= N / 2)%nat /\ g (s * (2 * PI * INR k / INR N)) <> 0.
Lemma sq_nonneg x : 0 <= x ^ 2.
Proof. rewrite <- Rsqr_pow2. apply Rle_0_sqr. Qed.
Lemma sq_pos x : x <> 0 -> 0 < x ^ 2.
Proof. intros. rewrite <- Rsqr_pow2. now apply Rlt_0_sqr. Qed.
Lemma seen_index g s N : seen g s N -> exists j, (j < N)%nat /\ 0 < g (s * nth j (cf_w N) 0) ^ 2.
Proof.
  intros (k & Hk & H). destruct (cf_w_has N k ltac:(lia) ltac:(lia)) as (j & Hj & E).
  exists j. split; [exact Hj|]. rewrite E. now apply sq_pos.
Qed.
Lemma energy_val f g s N (Hf : real_wavelet f g) : seen g s N ->
  let c i := tzw N i * g (s * nth i (cf_w N) 0) ^ 2 in
  0 < Rsum N c /\ trapz (apsih2 f s N) = Rsum N c /\
  forall u, length u = N -> trapz (lmul (apsih2 f s N) u) = Rsum N (fun i => c i * nth i u 0).
Proof.
  intros Hs c.
  assert (HN : (2 <= N)%nat) by (destruct Hs as (k & Hk & _); lia).
  assert (T : trapz (apsih2 f s N) = Rsum N c).
  { rewrite trapz_weights, length_apsih2. apply Rsum_ext. intros i Hi. now rewrite (nth_apsih2 f g). }
  split; [|split; [exact T|]].
  - destruct (seen_index g s N Hs) as (j & Hj & Hp). apply Rlt_le_trans with (c j); [|apply (Rsum_pos_term N c j Hj)]; swap 1 2.
    + intros i Hi. apply Rmult_le_pos; [left; now apply tzw_pos|apply sq_nonneg].
    + apply Rmult_lt_0_compat; [now apply tzw_pos|exact Hp].
  - intros u Hu. rewrite trapz_weights, length_lmul, length_apsih2, Hu, Nat.min_id.
    apply Rsum_ext. intros i Hi. rewrite nth_lmul by (rewrite ?length_apsih2; lia).
    rewrite (nth_apsih2 f g) by auto. unfold c. ring.
Qed.
Lemma pos_bins g s N i : analytic g -> 0 < s -> (i < N)%nat -> g (s * nth i (cf_w N) 0) <> 0 ->
  exists k, (1 <= k <= N / 2)%nat /\ nth i (cf_w N) 0 = 2 * PI * INR k / INR N.
Proof.
  intros Ha Hs Hi Hne. destruct (cf_w_in N i Hi) as (k & Hk & E).
  assert (Hp : 0 < nth i (cf_w N) 0).
  { apply Rnot_le_lt. intros L. apply Hne, Ha. nra. }
  rewrite E in Hp. apply bin_pos in Hp; [|lia]. exists (Z.to_nat k). split; [lia|].
  rewrite E, (INR_IZR_INZ (Z.to_nat k)), Z2Nat.id by lia. reflexivity.
Qed.
Lemma energy_range f g inst ct s N force (Hf : real_wavelet f g) : analytic g -> 0 < s -> seen g s N ->
  exists v, center_frequency f inst ct (Some s) N KEnergy force = Ok (Some v) /\ 0 < v <= PI.
Proof.
  intros Ha Hs Hn. pose proof (energy_val f g s N Hf Hn) as (Hp & T & U). cbv zeta in *.
  assert (HN : (2 <= N)%nat) by (destruct Hn as (k & Hk & _); lia).
  exists (trapz (lmul (apsih2 f s N) (cf_w N)) / trapz (apsih2 f s N)). split.
  - unfold center_frequency. cbn [bind]. replace (N =? 0)%nat with false by lia.
    unfold energy_wc. replace (force_or_true force) with true by (destruct force as [[]|]; reflexivity).
    unfold npdiv. destruct (Req_EM_T _ 0) as [Z|Z]; [rewrite T in Z; lra|reflexivity].
  - rewrite U by apply length_cf_w. rewrite T.
    pose proof PI_RGT_0 as HPI. pose proof (lt_0_INR N ltac:(lia)) as HN1.
    assert (0 < 2 * PI / INR N) by (apply Rdiv_lt_0_compat; lra).
    pose proof (wmean_bounds N (fun i => tzw N i * g (s * nth i (cf_w N) 0) ^ 2) (fun i => nth i (cf_w N) 0)
      (2 * PI / INR N) PI) as W.
    cbv beta in W. destruct W as [W1 W2]; [| |exact Hp|lra].
    + intros i Hi. apply Rmult_le_pos; [left; now apply tzw_pos|apply sq_nonneg].
    + intros i Hi Hne. destruct (pos_bins g s N i Ha Hs Hi) as (k & Hk & E).
      { intros Z. apply Hne. rewrite Z. ring. }
      rewrite E. split.
      * apply Rmult_le_compat_r; [left; now apply Rinv_0_lt_compat|].
        pose proof (le_INR 1 k ltac:(lia)) as H1. simpl INR in H1. nra.
      * rewrite (INR_IZR_INZ k). apply bin_le; lia.
Qed.
Lemma peak_range f g inst ct s N force (Hf : real_wavelet f g) : analytic g -> 0 < s -> seen g s N ->
  exists k, (1 <= k <= N / 2)%nat /\
    center_frequency f inst ct (Some s) N KPeak force = Ok (Some (2 * PI * INR k / INR N)) /\
    forall j, (1 <= j <= N / 2)%nat ->
      Rabs (g (s * (2 * PI * INR j / INR N))) <= Rabs (g (s * (2 * PI * INR k / INR N))).
Proof.
  intros Ha Hs Hn.
  assert (HN : (2 <= N)%nat) by (destruct Hn as (k & Hk & _); lia).
  assert (Hne : apsih2 f s N <> []).
  { intros Z. pose proof (length_apsih2 f s N) as L. rewrite Z in L. cbn in L. lia. }
  destruct (argmax_spec _ Hne) as (H1 & H2 & _). set (i := argmax (apsih2 f s N)) in *.
  rewrite length_apsih2 in *.
  assert (Hi : 0 < g (s * nth i (cf_w N) 0) ^ 2).
  { destruct (seen_index g s N Hn) as (j & Hj & Hp). specialize (H2 j Hj).
    rewrite !(nth_apsih2 f g) in H2 by auto. lra. }
  destruct (pos_bins g s N i Ha Hs H1) as (k & Hk & E).
  { intros Z. rewrite Z in Hi. simpl in Hi. lra. }
  exists k. split; [exact Hk|]. split.
  - unfold center_frequency. cbn [bind]. replace (N =? 0)%nat with false by lia. unfold peak_wc. fold i. now rewrite E.
  - intros j Hj. destruct (cf_w_has N j ltac:(lia) ltac:(lia)) as (q & Hq & Eq).
    specialize (H2 q Hq). rewrite !(nth_apsih2 f g) in H2 by auto. rewrite Eq, E in H2.
    apply Rsqr_le_abs_0. rewrite !Rsqr_pow2. exact H2.
Qed.
