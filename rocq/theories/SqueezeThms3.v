(** C21 (find_closest) and C22 (CPU against CUDA index). *)
From Coq Require Import ZifyBool ZifyNat Psatz Permutation Sorted.
From Verif Require Import Py Round Parallel Cplx CplxProofs Squeeze SqueezeProofs BinProofs SqueezeThms SqueezeThms2.
Local Open Scope R_scope.
Ltac Zify.zify_post_hook ::= Z.div_mod_to_equations.

(** ** C21 *)
Lemma searchsorted_spec vs a :
  (searchsorted vs a <= length vs)%nat /\
  (forall i, (i < searchsorted vs a)%nat -> nth i vs 0 < a) /\
  ((searchsorted vs a < length vs)%nat -> a <= nth (searchsorted vs a) vs 0).
Proof.
  induction vs as [|y vs (IH1 & IH2 & IH3)]; cbn; [repeat split; lia|].
  destruct (Rlt_dec y a).
  - cbn. split; [lia|]. split.
    + intros [|i] Hi; cbn; [assumption|apply IH2; lia].
    + intros H. apply IH3. lia.
  - cbn. split; [lia|]. split; [lia|]. intros _. lra.
Qed.

(** [sidx] is an admissible result of [v.argsort()] *)
Definition sorts (sidx : list nat) (v : list R) : Prop :=
  Permutation sidx (seq 0 (length v)) /\
  forall i j, (i <= j < length v)%nat -> nth (nth i sidx 0%nat) v 0 <= nth (nth j sidx 0%nat) v 0.

Lemma smart_nearest sidx v a : v <> [] -> sorts sidx v ->
  let k := find_closest_smart sidx v a in
  (k < length v)%nat /\ forall q, (q < length v)%nat ->
    Rabs (a - nth k v 0) <= Rabs (a - nth q v 0).
Proof.
  intros Hv [Hp Hs]. cbv zeta. unfold find_closest_smart.
  set (n := length v) in *.
  assert (Hn : (0 < n)%nat) by (unfold n; destruct v; [congruence|cbn; lia]).
  assert (Hl : length sidx = n) by (rewrite (Permutation_length Hp), seq_length; reflexivity).
  set (vs := map (fun i => nth i v 0) sidx).
  assert (Hvl : length vs = n) by (unfold vs; rewrite map_length; exact Hl).
  assert (Hvs : forall i, (i < n)%nat -> nth i vs 0 = nth (nth i sidx 0%nat) v 0).
  { intros i Hi. unfold vs. rewrite (nth_indep _ 0 (nth 0 v 0)) by (rewrite map_length; lia).
    rewrite (map_nth (fun i => nth i v 0) sidx 0%nat i). reflexivity. }
  assert (Hmono : forall i j, (i <= j < n)%nat -> nth i vs 0 <= nth j vs 0).
  { intros i j Hij. rewrite !Hvs by lia. apply Hs. exact Hij. }
  assert (Hrange : forall i, (i < n)%nat -> (nth i sidx 0%nat < n)%nat).
  { intros i Hi. assert (Hin : In (nth i sidx 0%nat) (seq 0 n)).
    { apply (Permutation_in _ Hp). apply nth_In. lia. }
    apply in_seq in Hin. lia. }
  assert (Hsurj : forall q, (q < n)%nat -> exists t, (t < n)%nat /\ nth t sidx 0%nat = q).
  { intros q Hq. assert (Hin : In q sidx).
    { apply (Permutation_in _ (Permutation_sym Hp)). apply in_seq. lia. }
    destruct (In_nth _ _ 0%nat Hin) as (t & Ht & E). exists t. split; [lia|exact E]. }
  destruct (searchsorted_spec vs a) as (S1 & S2 & S3). rewrite Hvl in *.
  set (p := searchsorted vs a) in *.
  set (idx := if (p =? n)%nat then (n - 1)%nat else p).
  assert (Hidx : (idx < n)%nat) by (unfold idx; destruct (Nat.eqb_spec p n); lia).
  set (r := if _ : bool then (idx - 1)%nat else idx).
  assert (Hr : (r < n)%nat) by (unfold r; match goal with |- context [if ?b then (idx - 1)%nat else idx] => destruct b end; lia).
  split; [apply Hrange; exact Hr|]. intros q Hq.
  destruct (Hsurj q Hq) as (t & Ht & <-). rewrite <- !Hvs by assumption.
  revert r Hr. destruct (Nat.eqb_spec idx 0) as [E0|E0]; intros r Hr.
  - unfold r. rewrite E0 in *.
    destruct (Nat.eqb_spec p n).
    + assert (n = 1)%nat by (subst idx; lia). assert (t = 0)%nat by lia. subst t. lra.
    + assert (p = 0)%nat by (subst idx; lia).
      assert (a <= nth 0 vs 0). { replace 0%nat with p. apply S3. lia. }
      apply Rabs_mono_r; [assumption|]. apply Hmono. lia.
  - assert (Hbelow : forall i, (i < idx)%nat -> nth i vs 0 < a).
    { intros i Hi. apply S2. subst idx. destruct (Nat.eqb_spec p n); lia. }
    assert (Hcase : Rabs (a - nth idx vs 0) <= Rabs (a - nth t vs 0) \/
                    Rabs (a - nth (idx - 1) vs 0) <= Rabs (a - nth t vs 0)).
    { destruct (Nat.le_gt_cases t (idx - 1)).
      - right. apply Rabs_mono_l; [apply Rlt_le, Hbelow; lia|]. apply Hmono. lia.
      - left. assert (Hit : (idx <= t)%nat) by lia.
        destruct (Nat.eqb_spec p n).
        + assert (t = idx) by (subst idx; lia). subst t. lra.
        + assert (a <= nth idx vs 0). { subst idx. apply S3. lia. }
          apply Rabs_mono_r; [assumption|]. apply Hmono. lia. }
    unfold r. rewrite (Rabs_minus_sym (nth (idx - 1) vs 0) a).
    destruct (Rge_dec (Rabs (a - nth idx vs 0)) (Rabs (a - nth (idx - 1) vs 0))); lra.
Qed.

Lemma skipn_next A (l m : list A) y i : skipn i l = y :: m -> skipn (S i) l = m.
Proof.
  revert l. induction i as [|i IH]; intros [|x l] H; cbn in H |- *; try discriminate.
  - injection H as _ H. exact H.
  - apply IH in H. exact H.
Qed.

Lemma argmin_from_spec l : forall i best bv all,
  skipn i all = l -> (best < i)%nat -> (i <= length all)%nat -> bv = nth best all 0 ->
  (forall q, (q < i)%nat -> bv <= nth q all 0) ->
  (forall q, (q < best)%nat -> bv < nth q all 0) ->
  let k := argmin_from l i best bv in
  (k < length all)%nat /\ (forall q, (q < length all)%nat -> nth k all 0 <= nth q all 0) /\
  (forall q, (q < k)%nat -> nth k all 0 < nth q all 0).
Proof.
  induction l as [|y l IH]; intros i best bv all Hs Hb Hi Hbv H1 H2; cbn.
  - assert (length all <= i)%nat.
    { apply (f_equal (@length R)) in Hs. rewrite skipn_length in Hs. cbn in Hs. lia. }
    subst bv. split; [lia|]. split; [|exact H2]. intros q Hq. apply H1. lia.
  - assert (Hlt : (i < length all)%nat).
    { apply (f_equal (@length R)) in Hs. rewrite skipn_length in Hs. cbn in Hs. lia. }
    assert (Hy : nth i all 0 = y).
    { rewrite <- (Nat.add_0_r i). rewrite <- nth_skipn_add, Hs. reflexivity. }
    assert (Hs' : skipn (S i) all = l).
    { exact (skipn_next _ _ _ _ _ Hs). }
    destruct (Rlt_dec y bv).
    + apply IH; [exact Hs'|lia|lia|congruence| |].
      * intros q Hq. destruct (Nat.eq_dec q i) as [->|]; [lra|].
        specialize (H1 q ltac:(lia)). lra.
      * intros q Hq. specialize (H1 q ltac:(lia)). lra.
    + apply IH; [exact Hs'|lia|lia|assumption| |exact H2].
      intros q Hq. destruct (Nat.eq_dec q i) as [->|]; [lra|]. apply H1. lia.
Qed.

Lemma argmin_spec l : l <> [] ->
  (argmin l < length l)%nat /\ (forall q, (q < length l)%nat -> nth (argmin l) l 0 <= nth q l 0) /\
  (forall q, (q < argmin l)%nat -> nth (argmin l) l 0 < nth q l 0).
Proof.
  destruct l as [|y l]; [congruence|]. intros _. unfold argmin.
  apply argmin_from_spec; try reflexivity; cbn; try lia.
  intros [|q] Hq; [lra|lia].
Qed.

Lemma brute_nearest v a : v <> [] ->
  let k := find_closest_brute a v in
  (k < length v)%nat /\
  (forall q, (q < length v)%nat -> Rabs (a - nth k v 0) <= Rabs (a - nth q v 0)) /\
  (forall q, (q < k)%nat -> Rabs (a - nth k v 0) < Rabs (a - nth q v 0)).
Proof.
  intros Hv. cbv zeta. unfold find_closest_brute.
  set (l := map (fun y => Rabs (a - y)) v).
  assert (Hl : length l = length v) by apply map_length.
  destruct (argmin_spec l) as (H1 & H2 & H3).
  { unfold l. destruct v; [congruence|discriminate]. }
  assert (E : forall i, (i < length v)%nat -> nth i l 0 = Rabs (a - nth i v 0)).
  { intros i Hi. unfold l. rewrite (nth_indep _ 0 (Rabs (a - 0))) by (rewrite map_length; lia).
    apply (map_nth (fun y => Rabs (a - y))). }
  rewrite Hl in *. split; [exact H1|]. split.
  - intros q Hq. specialize (H2 q Hq). rewrite !E in H2 by lia. exact H2.
  - intros q Hq. specialize (H3 q Hq). rewrite !E in H3 by lia. exact H3.
Qed.

(** the two agree whenever the nearest entry is unique *)
Lemma smart_brute sidx v a : v <> [] -> sorts sidx v ->
  (forall p q, (p < length v)%nat -> (q < length v)%nat ->
     Rabs (a - nth p v 0) = Rabs (a - nth q v 0) -> p = q) ->
  find_closest_smart sidx v a = find_closest_brute a v.
Proof.
  intros Hv Hs Hu. destruct (smart_nearest sidx v a Hv Hs) as [A1 A2].
  destruct (brute_nearest v a Hv) as (B1 & B2 & _). cbv zeta in *.
  apply Hu; [exact A1|exact B1|]. apply Rle_antisym; auto.
Qed.

Lemma smart_brute_tie_refuted :
  exists sidx v a, v <> [] /\ sorts sidx v /\ find_closest_smart sidx v a <> find_closest_brute a v.
Proof.
  exists [1; 0]%nat, [2; 0], 1. split; [discriminate|]. split.
  { split; [apply perm_swap|]. intros i j Hij. cbn [length] in Hij.
    assert (i = 0 \/ i = 1)%nat as [-> | ->] by lia;
      assert (j = 0 \/ j = 1)%nat as [-> | ->] by lia; cbn; try lra; lia. }
  assert (E1 : Rabs (1 - 2) = 1) by (rewrite Rabs_left; lra).
  assert (E2 : Rabs (1 - 0) = 1) by (rewrite Rabs_right; lra).
  unfold find_closest_smart, find_closest_brute. cbn [map nth searchsorted].
  destruct (Rlt_dec 0 1); [|lra]. destruct (Rlt_dec 2 1); [lra|].
  cbn [length Nat.eqb Nat.sub nth]. unfold argmin. cbn [argmin_from].
  rewrite E1, (Rabs_minus_sym 0 1), E2.
  destruct (Rge_dec 1 1); [|lra]. cbn [nth]. destruct (Rlt_dec 1 1); [lra|]. discriminate.
Qed.

(** linear and log versions *)
Lemma closest_lin_ok a v d : (2 <= length v)%nat -> 0 < d ->
  (forall k, (k < length v)%nat -> nth k v 0 = nth 0 v 0 + INR k * d) -> nrows a = length v ->
  exists K, find_closest_lin a v = Ok K /\ nrows K = nrows a /\ ncols K = ncols a /\
    forall i j, el a i j <= nth 0 v 0 + IZR (2 ^ 63 - 1) * d ->
      exists k, el K i j = Z.of_nat k /\ (k < length v)%nat /\
        forall q, (q < length v)%nat -> Rabs (el a i j - nth k v 0) <= Rabs (el a i j - nth q v 0).
Proof.
  intros Hn Hd Hv Ha. destruct v as [|v0 [|v1 v]]; cbn [length] in Hn; try lia.
  eexists. split; [reflexivity|]. split; [reflexivity|]. split; [reflexivity|].
  intros i j Hr. cbn [el].
  assert (E1 : v1 - v0 = d) by (specialize (Hv 1%nat ltac:(cbn; lia)); cbn in Hv; lra).
  rewrite E1. cbn [nth] in Hr.
  destruct (bin_lin_ok (Z.of_nat (nrows a) - 1) v0 d (el a i j)) as [Hb Hnear]; [cbn in Ha; lia|exact Hd| |].
  { apply div_le; [exact Hd|lra]. }
  set (b := bin_lin _ _ _ _) in *. exists (Z.to_nat b).
  split; [lia|]. split; [lia|]. intros q Hq.
  specialize (Hnear (Z.of_nat q) ltac:(lia)).
  rewrite (Hv (Z.to_nat b)), (Hv q) by lia. cbn [nth].
  rewrite !INR_IZR_INZ. rewrite Z2Nat.id by lia. exact Hnear.
Qed.

Lemma closest_log_ok f64 a v d : geometric v d -> EPS64 <= d -> nrows a = length v ->
  exists K, find_closest_log f64 a v = Ok K /\ nrows K = nrows a /\ ncols K = ncols a /\
    forall i j, reach_log v 0 (el a i j) ->
      exists k, el K i j = Z.of_nat k /\ (k < length v)%nat /\
        (0 < el a i j -> forall q, (q < length v)%nat ->
          Rabs (log2 (el a i j) - lg v k) <= Rabs (log2 (el a i j) - lg v q)).
Proof.
  intros Hg Hd Ha.
  destruct (nearest_log f64 v d _ Hg Hd eq_refl) as (g & Eg & Hnear).
  unfold find_closest_log. cbn [get_grid] in Eg. rewrite Eg. cbn [bind].
  eexists. split; [reflexivity|]. split; [reflexivity|]. split; [reflexivity|].
  intros i j Hr. destruct (Hnear _ Hr) as (H0 & _ & Hk & _ & Hq). cbn [el]. rewrite Ha.
  eexists. split; [symmetry; apply Z2Nat.id; exact H0|]. split; [exact Hk|exact Hq].
Qed.

Lemma closest_piece_ok f64 a v p x y : geometric2 v p x y -> EPS64 <= x -> EPS64 <= y ->
  nrows a = length v ->
  exists K, find_closest_log f64 a v = Ok K /\ nrows K = nrows a /\ ncols K = ncols a /\
    forall i j, reach_log v (S p) (el a i j) ->
      exists k, el K i j = Z.of_nat k /\ (k < length v)%nat /\
        (0 < el a i j -> forall q, (q < length v)%nat ->
          Rabs (log2 (el a i j) - lg v k) <= Rabs (log2 (el a i j) - lg v q)).
Proof.
  intros Hg Hx Hy Ha.
  destruct (nearest_piece f64 v p x y _ Hg Hx Hy eq_refl) as (g & Eg & Hnear).
  unfold find_closest_log. cbn [get_grid] in Eg. rewrite Eg. cbn [bind].
  eexists. split; [reflexivity|]. split; [reflexivity|]. split; [reflexivity|].
  intros i j Hr. destruct (Hnear _ Hr) as (H0 & _ & Hk & _ & Hq). cbn [el]. rewrite Ha.
  eexists. split; [symmetry; apply Z2Nat.id; exact H0|]. split; [exact Hk|exact Hq].
Qed.

(** the clamp uses the number of rows of [a]: the index can lie outside [v], or the
    nearest entry can be missed *)
Lemma rnd_i64_IZR k : (0 <= k < 2 ^ 63)%Z -> rnd_i64 (IZR k) = k.
Proof.
  intros Hk. rewrite rnd_i64_ok; [apply rhe_IZR|].
  split; [apply IZR_le; lia|apply IZR_le; lia].
Qed.

Lemma closest_lin_refuted :
  exists a v K, (forall k, (k < length v)%nat -> nth k v 0 = INR k) /\ (2 <= length v)%nat /\
    find_closest_lin a v = Ok K /\ exists i j, (i < nrows K)%nat /\ (j < ncols K)%nat /\
      (Z.of_nat (length v) <= el K i j)%Z.
Proof.
  exists (Mat 3 1 (fun i _ => INR i)), [0; 1]. eexists. split.
  { intros k Hk. cbn in Hk. assert (k = 0 \/ k = 1)%nat as [-> | ->] by lia; reflexivity. }
  split; [cbn; lia|]. split; [reflexivity|]. exists 2%nat, 0%nat. cbn [nrows ncols el length].
  split; [lia|]. split; [lia|]. unfold bin_lin.
  replace (Rmax ((INR 2 - 0) / (1 - 0)) 0) with (IZR 2).
  - rewrite rnd_i64_IZR by lia. cbn. lia.
  - cbn. rewrite Rmax_left; lra.
Qed.

Lemma closest_lin_missed_refuted :
  exists a v K, (forall k, (k < length v)%nat -> nth k v 0 = INR k) /\ (2 <= length v)%nat /\
    find_closest_lin a v = Ok K /\ exists i j q, (i < nrows K)%nat /\ (j < ncols K)%nat /\
      (q < length v)%nat /\
      Rabs (el a i j - nth q v 0) < Rabs (el a i j - nth (Z.to_nat (el K i j)) v 0).
Proof.
  exists (Mat 1 1 (fun _ _ => 2)), [0; 1; 2]. eexists. split.
  { intros k Hk. cbn in Hk. assert (k = 0 \/ k = 1 \/ k = 2)%nat as [-> |[-> | ->]] by lia; cbn; lra. }
  split; [cbn; lia|]. split; [reflexivity|]. exists 0%nat, 0%nat, 2%nat. cbn [nrows ncols el length].
  split; [lia|]. split; [lia|]. split; [lia|]. unfold bin_lin.
  replace (Rmax ((2 - 0) / (1 - 0)) 0) with (IZR 2) by (rewrite Rmax_left; lra).
  rewrite rnd_i64_IZR by lia. cbn. rewrite Rabs_right, Rabs_right; lra.
Qed.

(** ** C22 *)
Lemma clamp_gpu_sat M z : (1 <= M < 2 ^ 31)%Z ->
  clamp_gpu M (Z.max i32_min (Z.min (2 ^ 31 - 1) z)) = Z.max 0 (Z.min z (M - 1)).
Proof.
  intros HM. unfold clamp_gpu, i32_min.
  destruct (Z.geb_spec (Z.max (- 2 ^ 31) (Z.min (2 ^ 31 - 1) z)) M); [lia|].
  destruct (Z.ltb_spec (Z.max (- 2 ^ 31) (Z.min (2 ^ 31 - 1) z)) 0); lia.
Qed.

Lemma clamp_agree x M : (1 <= M < 2 ^ 31)%Z -> x <= IZR (2 ^ 63 - 1) ->
  (forall k, (0 <= k)%Z -> (k + 1 < M)%Z -> x <> IZR k + 1 / 2) ->
  Z.min (rnd_i64 (Rmax x 0)) (M - 1) = clamp_gpu M (rnd_i32 x).
Proof.
  intros HM Hx Hne. unfold rnd_i32. rewrite clamp_gpu_sat by exact HM.
  rewrite rnd_i64_ok by (split; [apply Rmax_r|apply Rmax_lub; [exact Hx|apply IZR_le; lia]]).
  pose proof (rha_near x) as Ha. pose proof (rhe_near x) as He.
  destruct (Rle_dec x 0) as [H0|H0].
  { rewrite Rmax_right by exact H0. rewrite (rhe_IZR 0).
    assert (round_half_away x < 1)%Z by (apply lt_IZR; lra). lia. }
  rewrite Rmax_left by lra.
  destruct (Rlt_dec x (IZR (M - 1))) as [H1|H1].
  - assert (E : round_half_even x = round_half_away x).
    { apply rhe_rha_agree. intros k Hk. destruct (Z.lt_ge_cases k 0).
      - assert (IZR k <= IZR (-1)) by (apply IZR_le; lia). lra.
      - destruct (Z.lt_ge_cases (k + 1) M); [apply (Hne k); assumption|].
        assert (IZR (M - 1) <= IZR k) by (apply IZR_le; lia). lra. }
    rewrite E. assert (-1 < round_half_away x)%Z by (apply lt_IZR; lra). lia.
  - assert (M - 1 < round_half_away x + 1)%Z by (apply lt_IZR; rewrite plus_IZR; lra).
    assert (M - 1 < round_half_even x + 1)%Z by (apply lt_IZR; rewrite plus_IZR; lra). lia.
Qed.

(** [r] is not half-way between two neighbouring bins *)
Definition no_tie_lin (v : list R) (r : R) : Prop :=
  forall k, (S k < length v)%nat -> r <> (nth k v 0 + nth (S k) v 0) / 2.
Definition no_tie_log (v : list R) (r : R) : Prop :=
  forall k, (S k < length v)%nat -> log2 r <> (lg v k + lg v (S k)) / 2.

Lemma gpu_lin f64 v d M : (2 <= length v)%nat -> EPS64 <= d ->
  (forall k, (k < length v)%nat -> nth k v 0 = nth 0 v 0 + INR k * d) ->
  M = Z.of_nat (length v) -> (M < 2 ^ 31)%Z ->
  exists g, get_grid f64 false v = Ok g /\ forall r, reach_lin v r -> no_tie_lin v r ->
    bin_gpu M g r = bin_fast (M - 1) g r /\ bin_fast (M - 1) g r = bin_onfly (M - 1) g r.
Proof.
  intros Hn Hd Hv HM HM2. rewrite grid_lin by exact Hn. eexists. split; [reflexivity|].
  intros r Hr Ht. split; [|reflexivity]. cbn [bin_gpu bin_fast]. unfold bin_lin.
  assert (E1 : nth 1 v 0 - nth 0 v 0 = d) by (rewrite (Hv 1%nat) by lia; simpl; ring).
  unfold reach_lin in Hr. rewrite E1 in *. rewrite Rmax_left in Hr by exact Hd.
  rewrite ensure_Rmax, Rmax_left by exact Hd. pose proof EPS64_pos as He.
  symmetry. apply clamp_agree; [lia| |].
  { apply div_le; [lra|]. eapply Rle_trans; [exact Hr|].
    apply Rmult_le_compat_r; [lra|apply IZR_le; lia]. }
  intros k Hk1 Hk2 E. apply (Ht (Z.to_nat k)); [lia|].
  rewrite (Hv (Z.to_nat k)), (Hv (S (Z.to_nat k))) by lia.
  rewrite S_INR, INR_IZR_INZ, Z2Nat.id by lia.
  assert (r = nth 0 v 0 + (IZR k + 1 / 2) * d) by (rewrite <- E; field; lra). lra.
Qed.

Lemma gpu_log f64 v d M : geometric v d -> EPS64 <= d ->
  M = Z.of_nat (length v) -> (M < 2 ^ 31)%Z ->
  exists g, get_grid f64 true v = Ok g /\ forall r, reach_log v 0 r -> no_tie_log v r ->
    bin_gpu M g r = bin_fast (M - 1) g r /\ bin_fast (M - 1) g r = bin_onfly (M - 1) g r.
Proof.
  intros Hg Hd HM HM2. rewrite (grid_log f64 v d Hg). eexists. split; [reflexivity|].
  destruct Hg as [Hn Hv]. intros r Hr Ht. split; [|reflexivity].
  cbn [bin_gpu bin_fast]. unfold bin_log.
  assert (E1 : lg v 1 - lg v 0 = d) by (rewrite (Hv 1%nat) by lia; simpl; ring).
  unfold reach_log in Hr. rewrite E1 in *. rewrite Rmax_left in Hr by exact Hd.
  rewrite ensure_Rmax, Rmax_left by exact Hd. pose proof EPS64_pos as He.
  unfold log2e. destruct (Rlt_dec 0 r) as [Hr0|Hr0].
  - symmetry. apply clamp_agree; [lia| |].
    { apply div_le; [lra|]. eapply Rle_trans; [exact Hr|].
      apply Rmult_le_compat_r; [lra|apply IZR_le; lia]. }
    intros k Hk1 Hk2 E. apply (Ht (Z.to_nat k)); [lia|].
    rewrite (Hv (Z.to_nat k)), (Hv (S (Z.to_nat k))) by lia.
    rewrite S_INR, INR_IZR_INZ, Z2Nat.id by lia.
    assert (log2 r = lg v 0 + (IZR k + 1 / 2) * d) by (rewrite <- E; field; lra). lra.
  - rewrite (rnd_i64_IZR 0) by lia. unfold clamp_gpu, i32_min.
    destruct (Z.geb_spec (- 2 ^ 31) M); [lia|]. rewrite Z.min_l by lia. reflexivity.
Qed.

Lemma gpu_piece f64 v p a b M : geometric2 v p a b -> EPS64 <= a -> EPS64 <= b ->
  M = Z.of_nat (length v) -> (M < 2 ^ 30)%Z ->
  exists g, get_grid f64 true v = Ok g /\ forall r,
    log2 r - lg v (S p) <= IZR (2 ^ 30) * b -> no_tie_log v r ->
    bin_gpu M g r = bin_fast (M - 1) g r /\ bin_fast (M - 1) g r = bin_onfly (M - 1) g r.
Proof.
  intros Hg Ha Hb HM HM2. pose proof EPS64_pos as He.
  destruct (nearest_piece f64 v p a b (M - 1) Hg Ha Hb ltac:(lia)) as (g & Eg & Hnear).
  exists g. split; [exact Eg|]. intros r Hr Ht.
  assert (Hreach : reach_log v (S p) r).
  { unfold reach_log. eapply Rle_trans; [exact Hr|].
    assert (Eb : lg v (S (S p)) - lg v (S p) = b).
    { destruct Hg as (H1 & _ & _ & _ & H2). rewrite (H2 (S (S p))) by lia. rewrite (S_INR (S p)). ring. }
    rewrite Eb, Rmax_left by exact Hb. apply Rmult_le_compat_r; [lra|apply IZR_le; lia]. }
  destruct (Hnear r Hreach) as (_ & Hfast & _). split; [|exact Hfast]. clear Hnear Hfast.
  rewrite (grid_piece f64 v p a b Hg) in Eg.
  destruct Hg as (Hp & Hlen & Hab & H1 & H2).
  assert (E1 : lg v 1 - lg v 0 = a) by (rewrite (H1 1%nat) by lia; simpl; ring).
  assert (E2 : lg v (S (S p)) - lg v (S p) = b).
  { rewrite (H2 (S (S p))) by lia. rewrite (S_INR (S p)). ring. }
  rewrite E1, E2, !ensure_Rmax in Eg.
  rewrite (Rmax_left a) in Eg by exact Ha. rewrite (Rmax_left b) in Eg by exact Hb.
  injection Eg as Eg. subst g. cbn [bin_gpu bin_fast]. unfold bin_piece_fast, log2e.
  change (Z.pos (Pos.of_succ_nat p)) with (Z.of_nat (S p)).
  destruct (Rlt_dec 0 r) as [Hr0|Hr0]; [|unfold i64_min; lia].
  set (l := log2 r) in *. destruct (Rlt_dec (lg v (S p)) l) as [Hl|Hl].
  - set (x := (l - lg v (S p)) / b).
    assert (Hx0 : 0 < x) by (apply Rdiv_lt_0_compat; lra).
    assert (Hx1 : x <= IZR (2 ^ 30)) by (apply div_le; [lra|exact Hr]).
    pose proof (rha_near x) as Nra.
    assert (Hz1 : (round_half_away x < 2 ^ 30 + 1)%Z).
    { apply lt_IZR. rewrite (plus_IZR (2 ^ 30) 1). lra. }
    assert (Hz0 : (-1 < round_half_away x)%Z) by (apply lt_IZR; lra).
    assert (Hx63 : x <= IZR (2 ^ 63 - 1)) by (eapply Rle_trans; [exact Hx1|apply IZR_le; lia]).
    pose proof (clamp_agree x (M - Z.of_nat (S p)) ltac:(lia) Hx63) as Hc.
    rewrite Rmax_left in Hc by lra. unfold rnd_i32 in *. rewrite clamp_gpu_sat in Hc by lia.
    rewrite Z.min_r, Z.max_r by (unfold i32_min; lia).
    assert (Ew : wrap32 (round_half_away x + Z.of_nat (S p)) = (round_half_away x + Z.of_nat (S p))%Z).
    { unfold wrap32. rewrite Z.mod_small; lia. }
    rewrite Ew.
    assert (Hc' : Z.min (rnd_i64 x) (M - Z.of_nat (S p) - 1) =
       Z.max 0 (Z.min (round_half_away x) (M - Z.of_nat (S p) - 1))).
    { apply Hc. intros k Hk1 Hk2 E.
      apply (Ht (S p + Z.to_nat k)%nat); [lia|].
      rewrite (H2 (S p + Z.to_nat k)%nat), (H2 (S (S p + Z.to_nat k))) by lia.
      rewrite (S_INR (S p + Z.to_nat k)), plus_INR, (INR_IZR_INZ (Z.to_nat k)), Z2Nat.id by lia.
      assert (l = lg v (S p) + (IZR k + 1 / 2) * b) by (rewrite <- E; unfold x; field; lra).
      fold l. lra. }
    destruct (Z.geb_spec (round_half_away x + Z.of_nat (S p)) M); lia.
  - set (x := (l - lg v 0) / a).
    assert (Hxi : x <= IZR (Z.of_nat (S p))).
    { apply div_le; [lra|]. rewrite (H1 (S p)) in Hl by lia. rewrite INR_IZR_INZ in Hl. lra. }
    assert (Hx63 : x <= IZR (2 ^ 63 - 1)) by (eapply Rle_trans; [exact Hxi|apply IZR_le; lia]).
    pose proof (clamp_agree x (Z.of_nat (S p) + 1) ltac:(lia) Hx63) as Hc.
    unfold rnd_i32 in *. rewrite clamp_gpu_sat in Hc by lia.
    assert (Hc' : Z.min (rnd_i64 (Rmax x 0)) (Z.of_nat (S p) + 1 - 1) =
       Z.max 0 (Z.min (round_half_away x) (Z.of_nat (S p) + 1 - 1))).
    { apply Hc. intros k Hk1 Hk2 E. apply (Ht (Z.to_nat k)); [lia|].
      rewrite (H1 (Z.to_nat k)), (H1 (S (Z.to_nat k))) by lia.
      rewrite S_INR, INR_IZR_INZ, Z2Nat.id by lia.
      assert (l = lg v 0 + (IZR k + 1 / 2) * a) by (rewrite <- E; unfold x; field; lra).
      fold l. lra. }
    clear Hc.
    pose proof (rha_near x) as Nra.
    assert (round_half_away x < Z.of_nat (S p) + 1)%Z by (apply lt_IZR; rewrite plus_IZR; lra).
    rewrite (Z.min_r _ (round_half_away x)) by lia.
    assert (Hm : Z.max (rnd_i64 x) 0 = Z.min (rnd_i64 (Rmax x 0)) (Z.of_nat (S p) + 1 - 1)).
    { destruct (Rle_dec x 0).
      - rewrite Rmax_right by assumption. rewrite (rnd_i64_IZR 0) by lia.
        assert (round_half_even x <= 0)%Z by (apply rhe_upper; assumption).
        rewrite Z.min_l by lia. unfold rnd_i64, i64_min. destruct (_ && _); lia.
      - rewrite Rmax_left by lra. rewrite rnd_i64_ok by lra.
        assert (0 <= round_half_even x)%Z by (apply rhe_lower; lra).
        assert (round_half_even x <= Z.of_nat (S p))%Z by (apply rhe_upper; exact Hxi). lia. }
    rewrite Hm, Hc'. unfold i32_min.
    destruct (Z.ltb_spec (Z.max (- 2 ^ 31) (round_half_away x)) 0); lia.
Qed.

(** half-way between two bins the two devices differ *)
Lemma gpu_tie_refuted :
  exists f64 v g r, (forall k, (k < length v)%nat -> nth k v 0 = INR k) /\ (2 <= length v)%nat /\
    get_grid f64 false v = Ok g /\ 0 <= r <= nth (length v - 1) v 0 /\
    bin_gpu (Z.of_nat (length v)) g r <> bin_fast (Z.of_nat (length v) - 1) g r.
Proof.
  exists true, [0; 1; 2], (GLin 0 1), (1 / 2). split.
  { intros k Hk. cbn in Hk. assert (k = 0 \/ k = 1 \/ k = 2)%nat as [-> |[-> | ->]] by lia; cbn; lra. }
  split; [cbn; lia|]. split.
  { rewrite grid_lin by (cbn; lia). cbn [nth]. rewrite ensure_Rmax.
    replace (1 - 0) with 1 by ring. rewrite Rmax_left; [reflexivity|].
    unfold EPS64. rewrite <- Rinv_1. apply Rinv_le_contravar; lra. }
  split; [cbn; lra|]. cbn [length bin_gpu bin_fast]. unfold bin_lin, rnd_i32.
  replace ((1 / 2 - 0) / 1) with (IZR 0 + 1 / 2) by (cbn; lra).
  rewrite Rmax_left by (cbn; lra). rewrite rha_half by lia.
  rewrite rnd_i64_ok by (split; [cbn; lra|]; apply Rle_trans with (IZR 1); [cbn; lra|apply IZR_le; lia]).
  rewrite rhe_half. cbn. discriminate.
Qed.

(** ** Forms used in the property statements *)
Lemma Cadd_0_l z : Cadd C0 z = z.
Proof. ring. Qed.
Lemma Csum_C0 n : Csum n (fun _ => C0) = C0.
Proof. induction n; cbn [Csum]; [reflexivity|]. rewrite IHn. ring. Qed.

Lemma const_arr_scalar m c : m <> 1%nat -> const_arr m (CScalar c) = Ok (repeat c m).
Proof. intros H. unfold const_arr. destruct (Nat.eqb_spec m 1); [contradiction|reflexivity]. Qed.

Lemma onfly_column_sum_zeros ord f64 Wx w v cst ls flipud ca reach m j : valid_order ord ->
  const_arr (nrows Wx) cst = Ok ca -> freq_grid f64 v ls reach ->
  (0 < Z.of_nat m < 2 ^ 62)%Z -> (ls = true -> length v <= m)%nat ->
  (j < ncols Wx)%nat ->
  (forall i r, (i < nrows Wx)%nat -> el w i j = Fin r -> reach r) ->
  exists Tx, indexed_sum_onfly ord f64 Wx w v cst ls flipud (zeros m (ncols Wx)) = Ok Tx /\
    Csum m (fun k => el Tx k j) =
    Csum (nrows Wx) (fun i => match el w i j with
      | Fin _ => Cmul (el Wx i j) (RtoC (nth i ca 0)) | Inf => C0 end).
Proof.
  intros Ho Hc Hg Hm Hl Hj Hr.
  destruct (onfly_column_sum ord f64 Wx w v cst ls flipud (zeros m (ncols Wx)) ca reach j
              Ho Hc Hg Hm Hl Hj Hr) as (Tx & E & H).
  exists Tx. split; [exact E|]. cbn [zeros nrows el] in H. rewrite H.
  rewrite Csum_C0. apply Cadd_0_l.
Qed.

Lemma fast_column_sum_zeros ord f64 Wx dWx v cst ls flipud gamma Sfs ca reach m j : valid_order ord ->
  const_arr (nrows Wx) cst = Ok ca -> freq_grid f64 v ls reach -> (Sfs = None \/ ls = false) ->
  (0 < Z.of_nat m < 2 ^ 62)%Z -> (ls = true -> length v <= m)%nat ->
  (j < ncols Wx)%nat ->
  (forall i, (i < nrows Wx)%nat -> gamma < Cabs (el Wx i j) ->
     reach (match Sfs with
            | None => phase_cwt_pt (el Wx i j) (el dWx i j)
            | Some s => phase_stft_pt (nth i s 0) (el Wx i j) (el dWx i j) end)) ->
  exists Tx, ssqueeze_fast ord f64 Wx dWx v cst ls flipud gamma Sfs (zeros m (ncols Wx)) = Ok Tx /\
    Csum m (fun k => el Tx k j) =
    Csum (nrows Wx) (fun i => if Rlt_dec gamma (Cabs (el Wx i j))
            then Cmul (el Wx i j) (RtoC (nth i ca 0)) else C0).
Proof.
  intros Ho Hc Hg Hs Hm Hl Hj Hr.
  destruct (fast_column_sum ord f64 Wx dWx v cst ls flipud gamma Sfs (zeros m (ncols Wx)) ca reach j
              Ho Hc Hg Hs Hm Hl Hj Hr) as (Tx & E & H).
  exists Tx. split; [exact E|]. cbn [zeros nrows el] in H. rewrite H.
  rewrite Csum_C0. apply Cadd_0_l.
Qed.

Lemma onfly_flip_zeros ord f64 Wx w v cst ls m Tx : valid_order ord ->
  indexed_sum_onfly ord f64 Wx w v cst ls false (zeros m (ncols Wx)) = Ok Tx ->
  exists Tx', indexed_sum_onfly ord f64 Wx w v cst ls true (zeros m (ncols Wx)) = Ok Tx' /\
    nrows Tx' = nrows Tx /\ ncols Tx' = ncols Tx /\
    forall i j, (i < nrows Tx)%nat -> (j < ncols Tx)%nat -> el Tx' i j = el Tx (nrows Tx - 1 - i) j.
Proof.
  intros Ho E. destruct (onfly_flip ord f64 Wx w v cst ls (zeros m (ncols Wx)) Tx Ho eq_refl E) as (T & ET & H1 & H2 & H3).
  exists T. split; [exact ET|]. cbn [flip_rows nrows ncols el] in *. split; [exact H1|]. split; [exact H2|].
  intros i j Hi Hj. apply H3; congruence.
Qed.

Lemma fast_flip_zeros ord f64 Wx dWx v cst ls gamma Sfs m Tx : valid_order ord ->
  ssqueeze_fast ord f64 Wx dWx v cst ls false gamma Sfs (zeros m (ncols Wx)) = Ok Tx ->
  exists Tx', ssqueeze_fast ord f64 Wx dWx v cst ls true gamma Sfs (zeros m (ncols Wx)) = Ok Tx' /\
    nrows Tx' = nrows Tx /\ ncols Tx' = ncols Tx /\
    forall i j, (i < nrows Tx)%nat -> (j < ncols Tx)%nat -> el Tx' i j = el Tx (nrows Tx - 1 - i) j.
Proof.
  intros Ho E. destruct (fast_flip ord f64 Wx dWx v cst ls gamma Sfs (zeros m (ncols Wx)) Tx Ho eq_refl E) as (T & ET & H1 & H2 & H3).
  exists T. split; [exact ET|]. cbn [flip_rows nrows ncols el] in *. split; [exact H1|]. split; [exact H2|].
  intros i j Hi Hj. apply H3; congruence.
Qed.

Lemma bins_in_range f64 v ls reach m : freq_grid f64 v ls reach ->
  (0 < m < 2 ^ 62)%Z -> (ls = true -> Z.of_nat (length v) <= m)%Z ->
  exists g, get_grid f64 ls v = Ok g /\ forall r, reach r -> forall flipud,
    (0 <= flip_row flipud (m - 1) (bin_onfly (m - 1) g r) < m)%Z /\
    (0 <= flip_row flipud (m - 1) (bin_fast (m - 1) g r) < m)%Z.
Proof.
  intros Hg Hm Hl.
  destruct (grid_in_range f64 v ls reach (m - 1) Hg) as (g & Eg & Hin); [lia|lia|].
  exists g. split; [exact Eg|]. intros r Hr flipud. destruct (Hin r Hr) as [H1 H2].
  rewrite H2. pose proof (flip_range flipud _ _ H1). lia.
Qed.

Lemma log2_nonpos_0 : log2 0 = 0.
Proof.
  unfold log2, ln. destruct (Rlt_dec 0 0) as [H|H]; [exfalso; exact (Rlt_irrefl 0 H)|].
  unfold Rdiv. ring.
Qed.

Lemma transition_none_long f64 v : logscale_transition_idx f64 v = Ok None -> (0 < length v)%nat.
Proof. destruct v; [discriminate|cbn; lia]. Qed.

Lemma zero_reachable f64 v ls reach : freq_grid f64 v ls reach ->
  0 <= nth 0 v 0 -> (ls = true -> forall k, (k < length v)%nat -> 1 <= nth k v 0) -> reach 0.
Proof.
  intros Hg H0 H1. pose proof EPS64_pos as He.
  assert (Hp : forall x, 0 <= IZR (2 ^ 62) * Rmax x EPS64).
  { intros x. apply Rmult_le_pos; [apply IZR_le; lia|].
    eapply Rle_trans; [|apply Rmax_r]. lra. }
  assert (Hlg : forall k, ls = true -> (k < length v)%nat -> 0 <= lg v k).
  { intros k E Hk. unfold lg. eapply Rle_trans; [|apply (log2_mono 1); [lra|apply H1; assumption]]. rewrite log2_1. lra. }
  destruct Hg as [Hn|Ht|p Ht Hlen Hlow]; unfold reach_lin, reach_log;
    rewrite ?log2_nonpos_0.
  - specialize (Hp (nth 1 v 0 - nth 0 v 0)). lra.
  - specialize (Hp (lg v 1 - lg v 0)). specialize (Hlg 0%nat eq_refl (transition_none_long _ _ Ht)). lra.
  - specialize (Hp (lg v (S (S p)) - lg v (S p))). pose proof (transition_bound _ _ _ Ht).
    specialize (Hlg (S p) eq_refl ltac:(lia)). lra.
Qed.

Lemma onfly_nearest_lin ord f64 Wx w v d cst ca : valid_order ord ->
  const_arr (nrows Wx) cst = Ok ca -> (2 <= length v)%nat -> EPS64 <= d ->
  (forall k, (k < length v)%nat -> nth k v 0 = nth 0 v 0 + INR k * d) ->
  (forall i j r, (i < nrows Wx)%nat -> (j < ncols Wx)%nat -> el w i j = Fin r -> reach_lin v r) ->
  exists Tx (kap : nat -> nat -> nat),
    indexed_sum_onfly ord f64 Wx w v cst false false (zeros (length v) (ncols Wx)) = Ok Tx /\
    (forall i j r, (i < nrows Wx)%nat -> (j < ncols Wx)%nat -> el w i j = Fin r ->
       (kap i j < length v)%nat /\
       forall q, (q < length v)%nat -> Rabs (r - nth (kap i j) v 0) <= Rabs (r - nth q v 0)) /\
    forall k j, (k < length v)%nat -> (j < ncols Wx)%nat ->
      el Tx k j = Csum (nrows Wx) (fun i => match el w i j with
        | Inf => C0
        | Fin _ => if (kap i j =? k)%nat then Cmul (el Wx i j) (RtoC (nth i ca 0)) else C0 end).
Proof.
  intros Ho Hc Hn Hd Hv Hr.
  destruct (nearest_lin f64 v d _ Hn Hd Hv eq_refl) as (g & Eg & Hg).
  apply (onfly_bins ord f64 Wx w v cst false ca
    (fun r k => (k < length v)%nat /\
       forall q, (q < length v)%nat -> Rabs (r - nth k v 0) <= Rabs (r - nth q v 0)) g Ho Hc Eg).
  intros i j r Hi Hj E. destruct (Hg r (Hr i j r Hi Hj E)) as (A & _ & B & D).
  split; [exact A|]. split; [exact B|exact D].
Qed.

Lemma fast_nearest_lin ord f64 Wx dWx v d cst gamma Sfs ca : valid_order ord ->
  const_arr (nrows Wx) cst = Ok ca -> (2 <= length v)%nat -> EPS64 <= d ->
  (forall k, (k < length v)%nat -> nth k v 0 = nth 0 v 0 + INR k * d) ->
  let ph i j := match Sfs with
      | None => phase_cwt_pt (el Wx i j) (el dWx i j)
      | Some s => phase_stft_pt (nth i s 0) (el Wx i j) (el dWx i j) end in
  (forall i j, (i < nrows Wx)%nat -> (j < ncols Wx)%nat -> gamma < Cabs (el Wx i j) ->
     reach_lin v (ph i j)) ->
  exists Tx (kap : nat -> nat -> nat),
    ssqueeze_fast ord f64 Wx dWx v cst false false gamma Sfs (zeros (length v) (ncols Wx)) = Ok Tx /\
    (forall i j, (i < nrows Wx)%nat -> (j < ncols Wx)%nat -> gamma < Cabs (el Wx i j) ->
       (kap i j < length v)%nat /\
       forall q, (q < length v)%nat ->
         Rabs (ph i j - nth (kap i j) v 0) <= Rabs (ph i j - nth q v 0)) /\
    forall k j, (k < length v)%nat -> (j < ncols Wx)%nat ->
      el Tx k j = Csum (nrows Wx) (fun i => if Rlt_dec gamma (Cabs (el Wx i j)) then
        if (kap i j =? k)%nat then Cmul (el Wx i j) (RtoC (nth i ca 0)) else C0 else C0).
Proof.
  intros Ho Hc Hn Hd Hv ph Hr.
  destruct (nearest_lin f64 v d _ Hn Hd Hv eq_refl) as (g & Eg & Hg).
  apply (fast_bins ord f64 Wx dWx v cst false gamma Sfs ca
    (fun r k => (k < length v)%nat /\
       forall q, (q < length v)%nat -> Rabs (r - nth k v 0) <= Rabs (r - nth q v 0)) g Ho Hc Eg).
  { right. reflexivity. }
  intros i j Hi Hj Hw. destruct (Hg _ (Hr i j Hi Hj Hw)) as (A & E & B & D).
  fold (ph i j). cbv zeta. rewrite E. split; [exact A|]. split; [exact B|exact D].
Qed.

Definition near_log (v : list R) (r : R) (k : nat) : Prop :=
  (k < length v)%nat /\ (r <= 0 -> k = 0%nat) /\
  (0 < r -> forall q, (q < length v)%nat -> Rabs (log2 r - lg v k) <= Rabs (log2 r - lg v q)).

Lemma onfly_nearest_log ord f64 Wx w v d cst ca : valid_order ord ->
  const_arr (nrows Wx) cst = Ok ca -> geometric v d -> EPS64 <= d ->
  (forall i j r, (i < nrows Wx)%nat -> (j < ncols Wx)%nat -> el w i j = Fin r -> reach_log v 0 r) ->
  exists Tx (kap : nat -> nat -> nat),
    indexed_sum_onfly ord f64 Wx w v cst true false (zeros (length v) (ncols Wx)) = Ok Tx /\
    (forall i j r, (i < nrows Wx)%nat -> (j < ncols Wx)%nat -> el w i j = Fin r ->
       near_log v r (kap i j)) /\
    forall k j, (k < length v)%nat -> (j < ncols Wx)%nat ->
      el Tx k j = Csum (nrows Wx) (fun i => match el w i j with
        | Inf => C0
        | Fin _ => if (kap i j =? k)%nat then Cmul (el Wx i j) (RtoC (nth i ca 0)) else C0 end).
Proof.
  intros Ho Hc Hv Hd Hr.
  destruct (nearest_log f64 v d _ Hv Hd eq_refl) as (g & Eg & Hg).
  apply (onfly_bins ord f64 Wx w v cst true ca (near_log v) g Ho Hc Eg).
  intros i j r Hi Hj E. destruct (Hg r (Hr i j r Hi Hj E)) as (A & _ & B).
  split; [exact A|exact B].
Qed.

Lemma onfly_nearest_piece ord f64 Wx w v p a b cst ca : valid_order ord ->
  const_arr (nrows Wx) cst = Ok ca -> geometric2 v p a b -> EPS64 <= a -> EPS64 <= b ->
  (forall i j r, (i < nrows Wx)%nat -> (j < ncols Wx)%nat -> el w i j = Fin r -> reach_log v (S p) r) ->
  exists Tx (kap : nat -> nat -> nat),
    indexed_sum_onfly ord f64 Wx w v cst true false (zeros (length v) (ncols Wx)) = Ok Tx /\
    (forall i j r, (i < nrows Wx)%nat -> (j < ncols Wx)%nat -> el w i j = Fin r ->
       near_log v r (kap i j)) /\
    forall k j, (k < length v)%nat -> (j < ncols Wx)%nat ->
      el Tx k j = Csum (nrows Wx) (fun i => match el w i j with
        | Inf => C0
        | Fin _ => if (kap i j =? k)%nat then Cmul (el Wx i j) (RtoC (nth i ca 0)) else C0 end).
Proof.
  intros Ho Hc Hv Ha Hb Hr.
  destruct (nearest_piece f64 v p a b _ Hv Ha Hb eq_refl) as (g & Eg & Hg).
  apply (onfly_bins ord f64 Wx w v cst true ca (near_log v) g Ho Hc Eg).
  intros i j r Hi Hj E. destruct (Hg r (Hr i j r Hi Hj E)) as (A & _ & B).
  split; [exact A|exact B].
Qed.

Lemma fast_nearest_log ord f64 Wx dWx v cst gamma ca : valid_order ord ->
  const_arr (nrows Wx) cst = Ok ca ->
  forall s, ((exists d, geometric v d /\ EPS64 <= d) /\ s = 0%nat \/
     exists p a b, geometric2 v p a b /\ EPS64 <= a /\ EPS64 <= b /\ s = S p) ->
  let ph i j := phase_cwt_pt (el Wx i j) (el dWx i j) in
  (forall i j, (i < nrows Wx)%nat -> (j < ncols Wx)%nat -> gamma < Cabs (el Wx i j) ->
     reach_log v s (ph i j)) ->
  exists Tx (kap : nat -> nat -> nat),
    ssqueeze_fast ord f64 Wx dWx v cst true false gamma None (zeros (length v) (ncols Wx)) = Ok Tx /\
    (forall i j, (i < nrows Wx)%nat -> (j < ncols Wx)%nat -> gamma < Cabs (el Wx i j) ->
       near_log v (ph i j) (kap i j)) /\
    forall k j, (k < length v)%nat -> (j < ncols Wx)%nat ->
      el Tx k j = Csum (nrows Wx) (fun i => if Rlt_dec gamma (Cabs (el Wx i j)) then
        if (kap i j =? k)%nat then Cmul (el Wx i j) (RtoC (nth i ca 0)) else C0 else C0).
Proof.
  intros Ho Hc s Hgr ph Hr.
  assert (Hgrid : exists g, get_grid f64 true v = Ok g /\ forall r, reach_log v s r ->
    let b := bin_fast (Z.of_nat (length v) - 1) g r in (0 <= b)%Z /\ near_log v r (Z.to_nat b)).
  { destruct Hgr as [[(d & Hv & Hd) ->]|(p & a & b & Hv & Ha & Hb & ->)].
    - destruct (nearest_log f64 v d _ Hv Hd eq_refl) as (g & Eg & Hg).
      exists g. split; [exact Eg|]. intros r Hreach. destruct (Hg r Hreach) as (A & E & B).
      cbv zeta. rewrite E. split; [exact A|exact B].
    - destruct (nearest_piece f64 v p a b _ Hv Ha Hb eq_refl) as (g & Eg & Hg).
      exists g. split; [exact Eg|]. intros r Hreach. destruct (Hg r Hreach) as (A & E & B).
      cbv zeta. rewrite E. split; [exact A|exact B]. }
  destruct Hgrid as (g & Eg & Hg).
  apply (fast_bins ord f64 Wx dWx v cst true gamma None ca (near_log v) g Ho Hc Eg).
  { left. reflexivity. }
  intros i j Hi Hj Hw. apply Hg. apply Hr; assumption.
Qed.

(** ** Cases *)
Lemma log2_double x n : 0 < x -> log2 x = n -> log2 (2 * x) = n + 1.
Proof. intros Hx <-. rewrite log2_mult, log2_2 by lra. ring. Qed.
Lemma log2_4 : log2 4 = 2.
Proof. replace 4 with (2 * 2) by ring. rewrite (log2_double 2 1); [ring|lra|apply log2_2]. Qed.
Lemma log2_8 : log2 8 = 3.
Proof. replace 8 with (2 * 4) by ring. rewrite (log2_double 4 2); [ring|lra|apply log2_4]. Qed.
Lemma log2_16 : log2 16 = 4.
Proof. replace 16 with (2 * 8) by ring. rewrite (log2_double 8 3); [ring|lra|apply log2_8]. Qed.
Lemma log2_32 : log2 32 = 5.
Proof. replace 32 with (2 * 16) by ring. rewrite (log2_double 16 4); [ring|lra|apply log2_16]. Qed.
Lemma log2_64 : log2 64 = 6.
Proof. replace 64 with (2 * 32) by ring. rewrite (log2_double 32 5); [ring|lra|apply log2_32]. Qed.
Lemma log2_128 : log2 128 = 7.
Proof. replace 128 with (2 * 64) by ring. rewrite (log2_double 64 6); [ring|lra|apply log2_64]. Qed.

Lemma EPS64_le1 : EPS64 <= 1.
Proof. unfold EPS64. rewrite <- Rinv_1. apply Rinv_le_contravar; lra. Qed.

Lemma pow2_geometric : geometric [1; 2; 4; 8] 1.
Proof.
  split; [cbn; lia|]. intros k Hk. cbn in Hk. unfold lg.
  destruct k as [|[|[|[|k]]]]; [..|lia]; cbn [nth]; rewrite ?log2_1, ?log2_2, ?log2_4, ?log2_8;
    simpl INR; ring.
Qed.

Lemma log2_le7 r : r <= 128 -> log2 r <= 7.
Proof.
  intros H. destruct (Rlt_dec 0 r).
  - rewrite <- log2_128. apply log2_mono; assumption.
  - unfold log2, ln. destruct (Rlt_dec 0 r); [contradiction|]. unfold Rdiv. lra.
Qed.

Lemma big62 : 100 <= IZR (2 ^ 62).
Proof. apply IZR_le. lia. Qed.

Lemma pow2_reach r : r <= 100 -> reach_log [1; 2; 4; 8] 0 r.
Proof.
  intros H. unfold reach_log, lg. cbn [nth]. rewrite log2_1, log2_2.
  replace (1 - 0) with 1 by ring. rewrite Rmax_left by apply EPS64_le1.
  pose proof (log2_le7 r ltac:(lra)). pose proof big62. lra.
Qed.

Lemma lin_case : let v := [10; 11; 12] in
  (forall k, (k < length v)%nat -> nth k v 0 = nth 0 v 0 + INR k * 1) /\ EPS64 <= 1 /\
  reach_lin v 0 /\ reach_lin v (45 / 4) /\ reach_lin v 1000.
Proof.
  cbv zeta. split.
  { intros k Hk. cbn in Hk. destruct k as [|[|[|k]]]; [..|lia]; cbn; lra. }
  split; [apply EPS64_le1|]. unfold reach_lin. cbn [nth].
  replace (11 - 10) with 1 by ring. rewrite Rmax_left by apply EPS64_le1.
  assert (1000 <= IZR (2 ^ 62)) by (apply IZR_le; lia). repeat split; lra.
Qed.

Lemma log_case : geometric [1; 2; 4; 8] 1 /\ geometric2 [1; 2; 4; 16; 64] 1 1 2 /\ EPS64 <= 1 /\
  EPS64 <= 2 /\ reach_log [1; 2; 4; 16; 64] 2 100.
Proof.
  pose proof EPS64_le1. split; [exact pow2_geometric|]. split; [|split; [lra|split; [lra|]]].
  - split; [cbn; lia|]. split; [cbn; lia|]. split; [lra|]. unfold lg. split.
    + intros k Hk. destruct k as [|[|[|k]]]; [..|lia]; cbn [nth]; rewrite ?log2_1, ?log2_2, ?log2_4;
        simpl INR; ring.
    + intros k Hk. cbn in Hk. destruct k as [|[|[|[|[|k]]]]]; try lia; cbn [nth];
        rewrite ?log2_4, ?log2_16, ?log2_64; simpl INR; ring.
  - unfold reach_log, lg. cbn [nth]. rewrite log2_4, log2_16. replace (4 - 2) with 2 by ring.
    rewrite Rmax_left by lra. pose proof (log2_le7 100 ltac:(lra)). pose proof big62. lra.
Qed.

Lemma sorts_case : sorts [3; 1; 0; 2]%nat [5; 2; 5; -1].
Proof.
  split.
  - cbn. apply NoDup_Permutation_bis.
    + repeat constructor; cbn; intuition discriminate.
    + cbn. lia.
    + intros x. cbn. intuition.
  - intros i j Hij. cbn [length] in Hij.
    assert (i = 0 \/ i = 1 \/ i = 2 \/ i = 3)%nat as [-> |[-> |[-> | ->]]] by lia;
    assert (j = 0 \/ j = 1 \/ j = 2 \/ j = 3)%nat as [-> |[-> |[-> | ->]]] by lia; cbn; try lra; lia.
Qed.

Lemma tie_case : no_tie_lin [10; 11; 12] (45 / 4) /\ reach_lin [10; 11; 12] (45 / 4) /\
  no_tie_log [1; 2; 4; 8] 4.
Proof.
  split.
  { intros k Hk. cbn in Hk. destruct k as [|[|k]]; [..|lia]; cbn; lra. }
  split; [apply lin_case|]. intros k Hk. cbn in Hk. unfold lg. rewrite log2_4.
  destruct k as [|[|[|k]]]; [..|lia]; cbn [nth]; rewrite ?log2_1, ?log2_2, ?log2_4, ?log2_8; lra.
Qed.
