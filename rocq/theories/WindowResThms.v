(** Window widths and areas. *)
From Coq Require Import Reals Lra ZifyBool ZifyNat.
From Verif Require Import Py Buffer BufferProofs Cplx CplxProofs Squeeze SqueezeProofs Freqs ShiftProofs Resol ResolProofs ResolThms ResolThms2 WindowRes.
Local Open Scope R_scope.

(** energy of [x] at frequency [w] (radians per sample) *)
Definition power (x : list R) (w : R) : R :=
  Rsum (length x) (fun m => nth m x 0 * cos (w * INR m)) ^ 2 +
  Rsum (length x) (fun m => nth m x 0 * sin (w * INR m)) ^ 2.

Lemma map_fftshift A B (f : A -> B) l : map f (fftshift l) = fftshift (map f l).
Proof. unfold fftshift. rewrite map_app, map_length, skipn_map, firstn_map. reflexivity. Qed.
Lemma Re_Csum n f : Re (Csum n f) = Rsum n (fun i => Re (f i)).
Proof. induction n as [|n IH]; cbn; [reflexivity|]. unfold Re in *. now rewrite <- IH. Qed.
Lemma Im_Csum n f : Im (Csum n f) = Rsum n (fun i => Im (f i)).
Proof. induction n as [|n IH]; cbn; [reflexivity|]. unfold Im in *. now rewrite <- IH. Qed.
Lemma dft_power x k : (k < length x)%nat ->
  Cnorm2 (dft (length x) (fun m => RtoC (nth m x 0)) k) = power x (nth k (xifn 1 (length x)) 0).
Proof.
  intros Hk. unfold power, Cnorm2. rewrite <- !Rsqr_pow2. unfold Rsqr.
  change (fst ?z) with (Re z). change (snd ?z) with (Im z).
  assert (E : forall m, tw (length x) (- (Z.of_nat k * Z.of_nat m)) = Cconj (cis (nth k (xifn 1 (length x)) 0 * INR m))).
  { intros m. rewrite xifn_tone by exact Hk. unfold tw, cis, Cconj. cbn [fst snd]. rewrite opp_IZR.
    replace (2 * PI * - IZR (Z.of_nat k * Z.of_nat m) / INR (length x)) with (- (2 * PI * IZR (Z.of_nat k * Z.of_nat m) / INR (length x))) by (unfold Rdiv; ring).
    rewrite cos_neg, sin_neg. reflexivity. }
  unfold dft. rewrite Re_Csum, Im_Csum. f_equal.
  - rewrite (Rsum_ext (length x) _ (fun m => nth m x 0 * cos (nth k (xifn 1 (length x)) 0 * INR m))); [reflexivity|].
    intros m _. rewrite E. unfold cis, Cconj, Cmul, RtoC, Re. cbn [fst snd]. ring.
  - rewrite (Rsum_ext (length x) _ (fun m => - 1 * (nth m x 0 * sin (nth k (xifn 1 (length x)) 0 * INR m)))).
    + rewrite Rsum_scal. ring.
    + intros m _. rewrite E. unfold cis, Cconj, Cmul, RtoC, Im. cbn [fst snd]. ring.
Qed.
Lemma spec_power x : win_spec x = map (power x) (win_w (length x)).
Proof.
  unfold win_spec, win_w. rewrite !map_fftshift. f_equal. unfold tab. rewrite map_map.
  apply (nth_ext _ _ 0 0); rewrite !map_length, ?seq_length, ?xifn_length; [reflexivity|].
  intros k Hk. rewrite (nth_indep (map (power x) _) 0 (power x 0)) by (now rewrite map_length, xifn_length). rewrite map_nth.
  rewrite <- dft_power by exact Hk.
  change (map _ (seq 0 (length x))) with (tab (length x) (fun k => Cnorm2 (dft (length x) (fun m => RtoC (nth m x 0)) k))).
  now rewrite nth_tab.
Qed.
Lemma length_win_w N : length (win_w N) = N.
Proof. unfold win_w. now rewrite fftshift_length, xifn_length. Qed.
Lemma length_win_t N : length (win_t N) = N. Proof. apply tab_length. Qed.
Lemma nth_win_t N i : (i < N)%nat -> nth i (win_t N) 0 = INR i - INR N / 2.
Proof. intros. unfold win_t. rewrite nth_tab by assumption. ring. Qed.
Lemma nth_win_w N i : (i < N)%nat -> nth i (win_w N) 0 =
  if ((i =? 0) && (N mod 2 =? 0))%nat then PI else 2 * PI / INR N * (INR i - INR (N / 2)).
Proof.
  intros Hi. assert (HN : INR N <> 0) by (apply not_0_INR; lia).
  unfold win_w. rewrite nth_fftshift by (now rewrite xifn_length). rewrite xifn_length. unfold xifn.
  rewrite nth_tab by (destruct (Nat.ltb_spec i (N / 2)); lia). unfold xi_bin.
  destruct (Nat.ltb_spec i (N / 2)) as [H1|H1].
  - destruct (Nat.ltb_spec (i + (N - N / 2)) (N / 2 + 1)) as [H2|H2].
    + assert (i = 0%nat) by lia. subst i. assert (N mod 2 = 0)%nat by lia.
      replace ((0 =? 0) && (N mod 2 =? 0))%nat with true by lia.
      assert (INR N = 2 * INR (N - N / 2)) as E by (rewrite <- (mult_INR 2); f_equal; lia).
      rewrite <- INR_IZR_INZ, Nat.add_0_l, E. field. rewrite E in HN. lra.
    + replace ((i =? 0) && (N mod 2 =? 0))%nat with false by lia.
      replace (Z.of_nat (i + (N - N / 2)) - Z.of_nat N)%Z with (Z.of_nat i - Z.of_nat (N / 2))%Z by lia.
      rewrite minus_IZR, <- !INR_IZR_INZ. field. exact HN.
  - replace (i - N / 2 <? N / 2 + 1)%nat with true by lia.
    rewrite <- INR_IZR_INZ, minus_INR by lia.
    destruct ((i =? 0) && (N mod 2 =? 0))%nat eqn:E; [|field; exact HN].
    assert (N = 0)%nat by lia. lia.
Qed.

(** ** second moments on uniform grids *)
(** steps of [h], except where nothing is integrated *)
Definition stepped (h : R) (y x : list R) : Prop := forall i, (S i < length y)%nat ->
  nth (S i) x 0 - nth i x 0 = h \/ (nth i y 0 = 0 /\ nth (S i) y 0 = 0).
Lemma trapzx_step h y x : stepped h y x -> trapzx y x = h * trapz y.
Proof.
  intros H. unfold trapzx, trapz. rewrite <- Rsum_scal. apply Rsum_ext. intros i Hi.
  destruct (H i ltac:(lia)) as [->|[-> ->]]; field.
Qed.
Lemma stepped_lmul h u y x : length u = length y -> stepped h y x -> stepped h (lmul u y) x.
Proof.
  intros L H i. rewrite length_lmul, L, Nat.min_id. intros Hi. rewrite !nth_lmul by lia.
  destruct (H i Hi) as [->|[-> ->]]; [left; reflexivity|right; split; ring].
Qed.
Definition weights (y : list R) (i : nat) : R := tzw (length y) i * nth i y 0.
Lemma weights_pos y : (2 <= length y)%nat -> (forall i, (i < length y)%nat -> 0 <= nth i y 0) ->
  (exists i, (i < length y)%nat /\ 0 < nth i y 0) ->
  (forall i, (i < length y)%nat -> 0 <= weights y i) /\ 0 < Rsum (length y) (weights y).
Proof.
  intros L H (k & Hk & Hp). assert (Hn : forall i, (i < length y)%nat -> 0 <= weights y i).
  { intros i Hi. unfold weights. apply Rmult_le_pos; [left; now apply tzw_pos|auto]. }
  split; [exact Hn|]. apply Rlt_le_trans with (weights y k); [|now apply Rsum_pos_term].
  apply Rmult_lt_0_compat; [now apply tzw_pos|exact Hp].
Qed.
Lemma nth_map_lt (f : R -> R) l i : (i < length l)%nat -> nth i (map f l) 0 = f (nth i l 0).
Proof. intros. rewrite (nth_indep _ 0 (f 0)) by (now rewrite map_length). apply map_nth. Qed.
Lemma second_moment_val h y x : length x = length y -> 0 < h -> (2 <= length y)%nat ->
  stepped h y x ->
  (forall i, (i < length y)%nat -> 0 <= nth i y 0) -> (exists i, (i < length y)%nat /\ 0 < nth i y 0) ->
  second_moment y x = Some (Rsum (length y) (fun i => weights y i * nth i x 0 ^ 2) / Rsum (length y) (weights y)).
Proof.
  intros L Hh L2 Hx Hy Hp. destruct (weights_pos y L2 Hy Hp) as (_ & Hw).
  unfold second_moment. rewrite !(trapzx_step h) by (try apply stepped_lmul; rewrite ?map_length; assumption).
  rewrite !trapz_weights, length_lmul, map_length, L, Nat.min_id. change (fun i => tzw (length y) i * nth i y 0) with (weights y). unfold npdiv.
  destruct (Req_EM_T _ 0) as [E|]; [apply Rmult_integral in E; destruct E; lra|]. f_equal.
  rewrite (Rsum_ext (length y) (fun i => tzw (length y) i * nth i (lmul (map (fun u => u ^ 2) x) y) 0) (fun i => weights y i * nth i x 0 ^ 2)).
  - field. split; lra.
  - intros i Hi. rewrite nth_lmul by (rewrite ?map_length; lia).
    rewrite (nth_map_lt (fun u => u ^ 2)) by lia. unfold weights. ring.
Qed.
Lemma second_moment_bounds h y x b : length x = length y -> 0 < h -> (2 <= length y)%nat ->
  stepped h y x ->
  (forall i, (i < length y)%nat -> 0 <= nth i y 0) -> (exists i, (i < length y)%nat /\ 0 < nth i y 0) ->
  (forall i, (i < length y)%nat -> Rabs (nth i x 0) <= b) ->
  exists v, second_moment y x = Some v /\ 0 <= v <= b ^ 2.
Proof.
  intros L Hh L2 Hx Hy Hp Hb. eexists. split; [apply (second_moment_val h); assumption|].
  destruct (weights_pos y L2 Hy Hp) as (H1 & H2). apply wmean_bounds; [exact H1| |exact H2].
  intros i Hi _. split; [apply sq_nonneg|]. rewrite <- (pow2_abs (nth i x 0)). apply pow_incr. split; [apply Rabs_pos|auto].
Qed.

(** ** std_t *)
Definition nonneg (x : list R) : Prop := forall i, (i < length x)%nat -> 0 <= nth i x 0.
Definition nonzero (x : list R) : Prop := exists i, (i < length x)%nat /\ nth i x 0 <> 0.
Lemma nonneg_check x : nonneg x <-> existsb (fun u => if Rlt_dec u 0 then true else false) x = false.
Proof.
  unfold nonneg. split; intros H.
  - destruct (existsb _ x) eqn:E; [|reflexivity]. apply existsb_exists in E. destruct E as (u & Hu & Hb).
    apply (In_nth _ _ 0) in Hu. destruct Hu as (i & Hi & <-). specialize (H i Hi). destruct (Rlt_dec _ 0); [lra|discriminate].
  - intros i Hi. destruct (Rlt_dec (nth i x 0) 0) as [Hn|]; [|lra]. exfalso.
    assert (existsb (fun u => if Rlt_dec u 0 then true else false) x = true); [|congruence].
    apply existsb_exists. exists (nth i x 0). split; [now apply nth_In|]. now destruct (Rlt_dec _ 0).
Qed.
Lemma length_energy x : length (win_energy x) = length x. Proof. apply map_length. Qed.
Lemma nth_energy x i : nth i (win_energy x) 0 = nth i x 0 ^ 2.
Proof.
  unfold win_energy. destruct (Nat.lt_ge_cases i (length x)) as [Hi|Hi].
  - rewrite (nth_map_lt (fun u => Rabs u ^ 2)) by exact Hi. apply pow2_abs.
  - rewrite !nth_overflow by (rewrite ?map_length; lia). cbn. ring.
Qed.
Lemma energy_nonneg x i : 0 <= nth i (win_energy x) 0. Proof. rewrite nth_energy. apply sq_nonneg. Qed.
Lemma energy_pos x : nonzero x -> exists i, (i < length (win_energy x))%nat /\ 0 < nth i (win_energy x) 0.
Proof. intros (i & Hi & H). exists i. rewrite length_energy, nth_energy. split; [exact Hi|now apply sq_pos]. Qed.
Lemma win_t_step N i : (S i < N)%nat -> nth (S i) (win_t N) 0 - nth i (win_t N) 0 = 1.
Proof. intros. rewrite !nth_win_t, S_INR by lia. ring. Qed.
(** weights of the time samples: their energy, the two end samples counting half *)
Definition tweight (x : list R) (i : nat) : R := tzw (length x) i * nth i x 0 ^ 2.
Lemma var_t_val x : (2 <= length x)%nat -> nonzero x -> 0 < Rsum (length x) (tweight x) /\
  second_moment (win_energy x) (win_t (length x)) =
  Some (Rsum (length x) (fun i => tweight x i * (INR i - INR (length x) / 2) ^ 2) / Rsum (length x) (tweight x)).
Proof.
  intros L Hx.
  assert (W : forall i, weights (win_energy x) i = tweight x i) by (intros i; unfold weights, tweight; now rewrite length_energy, nth_energy).
  destruct (weights_pos (win_energy x)) as (_ & Hp); [now rewrite length_energy|intros; apply energy_nonneg|now apply energy_pos|].
  rewrite length_energy in Hp. rewrite (Rsum_ext (length x) _ (tweight x)) in Hp by (intros; apply W). split; [exact Hp|].
  rewrite (second_moment_val 1).
  - rewrite length_energy. f_equal. f_equal.
    + apply Rsum_ext. intros i Hi. rewrite W, nth_win_t by exact Hi. reflexivity.
    + apply Rsum_ext. intros; apply W.
  - now rewrite length_energy, length_win_t.
  - lra.
  - now rewrite length_energy.
  - intros i. rewrite length_energy. intros. left. now apply win_t_step.
  - intros; apply energy_nonneg.
  - now apply energy_pos.
Qed.

(** ** std_w *)
Lemma power_nonneg x w : 0 <= power x w.
Proof. unfold power. pose proof (sq_nonneg (Rsum (length x) (fun m => nth m x 0 * cos (w * INR m)))).
  pose proof (sq_nonneg (Rsum (length x) (fun m => nth m x 0 * sin (w * INR m)))). lra. Qed.
Lemma power_0 x : nonneg x -> nonzero x -> 0 < power x 0.
Proof.
  intros H (k & Hk & Hn). unfold power.
  rewrite (Rsum_ext (length x) (fun m => nth m x 0 * cos (0 * INR m)) (fun m => nth m x 0)) by (intros; rewrite Rmult_0_l, cos_0; ring).
  assert (0 < Rsum (length x) (fun m => nth m x 0)).
  { apply Rlt_le_trans with (nth k x 0); [specialize (H k Hk); lra|]. apply (Rsum_pos_term (length x) (fun m => nth m x 0)); [exact Hk|exact H]. }
  pose proof (sq_pos _ (Rgt_not_eq _ _ H0)). pose proof (sq_nonneg (Rsum (length x) (fun m => nth m x 0 * sin (0 * INR m)))). lra.
Qed.
Lemma length_spec x : length (win_spec x) = length x.
Proof. now rewrite spec_power, map_length, length_win_w. Qed.
Lemma nth_spec x i : (i < length x)%nat -> nth i (win_spec x) 0 = power x (nth i (win_w (length x)) 0).
Proof. intros. rewrite spec_power. apply nth_map_lt. now rewrite length_win_w. Qed.
Lemma spec_pos x : (1 <= length x)%nat -> nonneg x -> nonzero x -> (length x mod 2 = 1)%nat \/ (2 <= length x)%nat ->
  exists i, (i < length (win_spec x))%nat /\ 0 < nth i (win_spec x) 0.
Proof.
  intros L H H0 Hl. exists (length x / 2)%nat. rewrite length_spec. split; [apply Nat.div_lt; lia|].
  rewrite nth_spec by (apply Nat.div_lt; lia). rewrite nth_win_w by (apply Nat.div_lt; lia).
  replace ((length x / 2 =? 0) && (length x mod 2 =? 0))%nat with false by lia.
  replace (2 * PI / INR (length x) * (INR (length x / 2) - INR (length x / 2))) with 0 by ring. now apply power_0.
Qed.
(** the frequency of entry [i] once centred, and its weight *)
Definition wfreq (N i : nat) : R := 2 * PI / INR N * (INR i - INR (N / 2)).
Definition wweight (x : list R) (i : nat) : R := tzw (length x) i * power x (wfreq (length x) i).
Lemma INR_pred i N : (i < N)%nat -> INR i <= INR N - 1.
Proof. intros H. apply (le_INR (S i)) in H. rewrite S_INR in H. lra. Qed.
Lemma wfreq_bound N i : (i < N)%nat -> (N mod 2 = 1)%nat -> Rabs (wfreq N i) < PI.
Proof.
  intros Hi Ho. pose proof PI_RGT_0. assert (0 < INR N) by (apply lt_0_INR; lia).
  assert (E : INR N = 2 * INR (N / 2) + 1).
  { rewrite <- (mult_INR 2), <- S_INR. f_equal. lia. }
  assert (0 <= INR i) by apply pos_INR. assert (INR i <= INR N - 1) by (now apply INR_pred).
  unfold wfreq. apply Rabs_def1.
  - apply (Rmult_lt_reg_r (INR N)); [lra|]. replace (2 * PI / INR N * (INR i - INR (N / 2)) * INR N) with (PI * (2 * (INR i - INR (N / 2)))) by (field; lra).
    apply Rmult_lt_compat_l; lra.
  - apply (Rmult_lt_reg_r (INR N)); [lra|]. replace (2 * PI / INR N * (INR i - INR (N / 2)) * INR N) with (PI * (2 * (INR i - INR (N / 2)))) by (field; lra).
    replace (- PI * INR N) with (PI * - INR N) by ring. apply Rmult_lt_compat_l; lra.
Qed.
(** an odd number of samples *)
Lemma var_w_odd x : (3 <= length x)%nat -> (length x mod 2 = 1)%nat -> nonneg x -> nonzero x ->
  0 < Rsum (length x) (wweight x) /\ (forall i, (i < length x)%nat -> 0 <= wweight x i) /\
  second_moment (win_spec x) (win_w (length x)) =
  Some (Rsum (length x) (fun i => wweight x i * wfreq (length x) i ^ 2) / Rsum (length x) (wweight x)).
Proof.
  intros L Ho H H0. pose proof PI_RGT_0. assert (0 < INR (length x)) by (apply lt_0_INR; lia).
  assert (Hw : forall i, (i < length x)%nat -> nth i (win_w (length x)) 0 = wfreq (length x) i).
  { intros i Hi. rewrite nth_win_w by exact Hi. replace ((i =? 0) && (length x mod 2 =? 0))%nat with false by lia. reflexivity. }
  assert (W : forall i, (i < length x)%nat -> weights (win_spec x) i = wweight x i).
  { intros i Hi. unfold weights, wweight. now rewrite length_spec, nth_spec, Hw. }
  assert (Hn : forall i, (i < length (win_spec x))%nat -> 0 <= nth i (win_spec x) 0).
  { intros i Hi. rewrite length_spec in Hi. rewrite nth_spec by exact Hi. apply power_nonneg. }
  assert (Hp : exists i, (i < length (win_spec x))%nat /\ 0 < nth i (win_spec x) 0) by (apply spec_pos; auto; lia).
  destruct (weights_pos (win_spec x)) as (Hnn & Hs); [rewrite length_spec; lia|exact Hn|exact Hp|].
  rewrite length_spec in Hs, Hnn. rewrite (Rsum_ext (length x) _ (wweight x)) in Hs by exact W. split; [exact Hs|].
  split; [intros i Hi; rewrite <- W by exact Hi; auto|].
  rewrite (second_moment_val (2 * PI / INR (length x))).
  - rewrite length_spec. f_equal. f_equal.
    + apply Rsum_ext. intros i Hi. now rewrite W, Hw.
    + apply Rsum_ext. exact W.
  - now rewrite length_spec, length_win_w.
  - apply Rdiv_lt_0_compat; lra.
  - rewrite length_spec. lia.
  - intros i. rewrite length_spec. intros Hi. left. rewrite !Hw by lia. unfold wfreq. rewrite S_INR. ring.
  - exact Hn.
  - exact Hp.
Qed.
Lemma npsqrt_nonneg v : 0 <= v -> npsqrt v = Some (sqrt v).
Proof. intros. unfold npsqrt. destruct (Rlt_dec v 0); [lra|reflexivity]. Qed.
(** odd: both widths are root mean squares, std_w below pi *)
Theorem resolution_odd x : (3 <= length x)%nat -> (length x mod 2 = 1)%nat -> nonneg x -> nonzero x ->
  exists sw st, window_resolution x = Ok (Some sw, Some st, Some (sw * st)) /\
    0 <= sw < PI /\ 0 <= st <= INR (length x) / 2 /\
    sw ^ 2 * Rsum (length x) (wweight x) = Rsum (length x) (fun i => wweight x i * wfreq (length x) i ^ 2) /\
    st ^ 2 * Rsum (length x) (tweight x) = Rsum (length x) (fun i => tweight x i * (INR i - INR (length x) / 2) ^ 2) /\
    0 < Rsum (length x) (wweight x) /\ 0 < Rsum (length x) (tweight x).
Proof.
  intros L Ho H H0. destruct (var_w_odd x L Ho H H0) as (Hw & Hwn & Ew). destruct (var_t_val x ltac:(lia) H0) as (Ht & Et).
  set (N := length x) in *. pose proof PI_RGT_0. assert (HN : 3 <= INR N) by (apply le_INR in L; cbn in L; lra).
  set (b := 2 * PI / INR N * INR (N / 2)).
  assert (E : INR N = 2 * INR (N / 2) + 1).
  { rewrite <- (mult_INR 2), <- S_INR. f_equal. lia. }
  assert (Hb : 0 <= b < PI).
  { unfold b. split.
    - apply Rmult_le_pos; [left; apply Rdiv_lt_0_compat; lra|apply pos_INR].
    - apply (Rmult_lt_reg_r (INR N)); [lra|]. replace (2 * PI / INR N * INR (N / 2) * INR N) with (PI * (2 * INR (N / 2))) by (field; lra).
      apply Rmult_lt_compat_l; lra. }
  assert (Bw : 0 <= Rsum N (fun i => wweight x i * wfreq N i ^ 2) / Rsum N (wweight x) <= b ^ 2).
  { apply wmean_bounds; [exact Hwn| |exact Hw]. intros i Hi _. split; [apply sq_nonneg|].
    rewrite <- (pow2_abs (wfreq N i)). apply pow_incr. split; [apply Rabs_pos|].
    unfold wfreq, b. rewrite Rabs_mult, (Rabs_pos_eq (2 * PI / INR N)) by (left; apply Rdiv_lt_0_compat; lra).
    apply Rmult_le_compat_l; [left; apply Rdiv_lt_0_compat; lra|].
    assert (0 <= INR i) by apply pos_INR. assert (INR i <= INR N - 1) by (now apply INR_pred).
    apply Rabs_le. lra. }
  assert (Bt : 0 <= Rsum N (fun i => tweight x i * (INR i - INR N / 2) ^ 2) / Rsum N (tweight x) <= (INR N / 2) ^ 2).
  { apply wmean_bounds; [| |exact Ht].
    - intros i Hi. unfold tweight. apply Rmult_le_pos; [left; apply tzw_pos; fold N; lia|apply sq_nonneg].
    - intros i Hi _. split; [apply sq_nonneg|]. rewrite <- (pow2_abs (INR i - INR N / 2)). apply pow_incr. split; [apply Rabs_pos|].
      assert (0 <= INR i) by apply pos_INR. assert (INR i <= INR N - 1) by (now apply INR_pred).
      apply Rabs_le. lra. }
  exists (sqrt (Rsum N (fun i => wweight x i * wfreq N i ^ 2) / Rsum N (wweight x))), (sqrt (Rsum N (fun i => tweight x i * (INR i - INR N / 2) ^ 2) / Rsum N (tweight x))).
  split.
  { unfold window_resolution. fold N. replace (N =? 0)%nat with false by lia. rewrite (proj1 (nonneg_check x) H).
    rewrite Ew, Et. cbn [obind]. rewrite !npsqrt_nonneg by apply Bw || apply Bt. reflexivity. }
  split; [split; [apply sqrt_pos|]|].
  { apply Rle_lt_trans with (sqrt (b ^ 2)); [apply sqrt_le_1_alt, Bw|rewrite sqrt_pow2; lra]. }
  split; [split; [apply sqrt_pos|]|].
  { apply Rle_trans with (sqrt ((INR N / 2) ^ 2)); [apply sqrt_le_1_alt, Bt|rewrite sqrt_pow2; lra]. }
  rewrite !pow2_sqrt by apply Bw || apply Bt. repeat split; try assumption; field; lra.
Qed.
