(** Scale grids, time/rate arguments (proofs for C45-C47, C60). *)
From Coq Require Import ZifyBool ZifyNat Psatz.
From Verif Require Import Py Round Cplx Padding Squeeze SqueezeProofs BinProofs SqueezeThms SqueezeThms2
  SqueezeThms3 Scales Ssqueeze FreqRange SsqWitness.
Local Open Scope R_scope.
Ltac Zify.zify_post_hook ::= Z.div_mod_to_equations.

Lemma Rceil_bounds r : r <= IZR (Rceil r) < r + 1.
Proof. unfold Rceil. rewrite opp_IZR. pose proof (Int_part_bounds (- r)). lra. Qed.
Lemma Rfloor_bounds r : r - 1 < IZR (Rfloor r) <= r.
Proof. unfold Rfloor. pose proof (Int_part_bounds r). lra. Qed.
Lemma pow2_pos x : 0 < Rpower 2 x.
Proof. apply exp_pos. Qed.
Lemma pow2_log2 x : 0 < x -> Rpower 2 (log2 x) = x.
Proof.
  intros H. unfold Rpower, log2. replace (ln x / ln 2 * ln 2) with (ln x) by (field; pose proof ln2_pos; lra).
  apply exp_ln, H.
Qed.
Lemma pow2_lt x y : x < y -> Rpower 2 x < Rpower 2 y.
Proof. intros. apply Rpower_lt; lra. Qed.
Lemma pow2_le x y : x <= y -> Rpower 2 x <= Rpower 2 y.
Proof. intros [H|H]; [left; apply pow2_lt, H|right; congruence]. Qed.
Lemma log2_pow2 x : log2 (Rpower 2 x) = x.
Proof. apply Rpower_log2. Qed.

Lemma arange_length mn mx nv : length (pow2_arange mn mx nv) = Z.to_nat (mx - mn).
Proof. apply tab_length. Qed.
Lemma arange_nth mn mx nv k : (k < Z.to_nat (mx - mn))%nat ->
  nth k (pow2_arange mn mx nv) 0 = Rpower 2 (IZR (mn + Z.of_nat k) / IZR nv).
Proof. intros H. unfold pow2_arange. apply nth_tab, H. Qed.

Lemma nth_last_R (l : list R) : l <> [] -> nth (length l - 1) l 0 = last l 0.
Proof.
  induction l as [|x [|y l] IH]; intros H; [congruence|reflexivity|].
  change (last (x :: y :: l) 0) with (last (y :: l) 0). rewrite <- IH by discriminate.
  cbn [length Nat.sub]. rewrite Nat.sub_0_r. reflexivity.
Qed.

Section Log.
Variables (mn mx : R) (nv : Z).
Hypothesis Hm : 0 < mn < mx.
Hypothesis Hnv : (1 <= nv)%Z.
Let na := Rceil (IZR nv * log2 (mx / mn)).
Let p0 := Rfloor (IZR nv * log2 mn).
Let nvR : 1 <= IZR nv. Proof. apply IZR_le, Hnv. Qed.

Lemma log2_div a b : 0 < a -> 0 < b -> log2 (a / b) = log2 a - log2 b.
Proof. intros. unfold log2. rewrite ln_div by assumption. field. pose proof ln2_pos; lra. Qed.
Lemma log2_lt a b : 0 < a < b -> log2 a < log2 b.
Proof.
  intros. unfold log2. apply Rmult_lt_compat_r; [apply Rinv_0_lt_compat, ln2_pos|]. apply ln_increasing; lra.
Qed.
Lemma na_pos : (1 <= na)%Z.
Proof.
  pose proof (Rceil_bounds (IZR nv * log2 (mx / mn))) as H. fold na in H.
  rewrite log2_div in H by lra. pose proof (log2_lt mn mx Hm).
  assert (0 < IZR nv * (log2 mx - log2 mn)) by (apply Rmult_lt_0_compat; lra).
  assert (0 < IZR na) by lra. apply lt_IZR in H2. lia.
Qed.

Theorem log_scales fds ds : exists s, make_scales mn mx nv SLog fds ds = Ok s /\ s <> [] /\
  (forall k, (k < length s)%nat -> nth k s 0 = nth 0 s 0 * Rpower 2 (INR k / IZR nv)) /\
  mn / Rpower 2 (1 / IZR nv) < nth 0 s 0 <= mn /\
  mx / Rpower 2 (2 / IZR nv) < last s 0 < mx.
Proof.
  exists (pow2_arange p0 (p0 + na) nv). split; [reflexivity|].
  pose proof na_pos as Hna. assert (HL : length (pow2_arange p0 (p0 + na) nv) = Z.to_nat na) by (rewrite arange_length; f_equal; lia).
  assert (Hne : pow2_arange p0 (p0 + na) nv <> []) by (intros E; rewrite E in HL; cbn in HL; lia).
  split; [exact Hne|]. pose proof (Rfloor_bounds (IZR nv * log2 mn)) as Hf. fold p0 in Hf.
  pose proof (Rceil_bounds (IZR nv * log2 (mx / mn))) as Hc. fold na in Hc. rewrite log2_div in Hc by lra.
  assert (Hi : 0 < / IZR nv) by (apply Rinv_0_lt_compat; lra).
  assert (Hx : forall a b, a < b * IZR nv -> a / IZR nv < b).
  { intros a b H. apply Rmult_lt_reg_r with (IZR nv); [lra|]. unfold Rdiv. rewrite Rmult_assoc, Rinv_l by lra. lra. }
  assert (Hy : forall a b, b * IZR nv < a -> b < a / IZR nv).
  { intros a b H. apply Rmult_lt_reg_r with (IZR nv); [lra|]. unfold Rdiv. rewrite Rmult_assoc, Rinv_l by lra. lra. }
  split; [|split].
  - intros k Hk. rewrite HL in Hk. rewrite !arange_nth by lia. rewrite <- Rpower_plus. f_equal.
    rewrite Z.add_0_r, plus_IZR, <- INR_IZR_INZ. field. lra.
  - rewrite arange_nth by lia. rewrite Z.add_0_r. pose proof (pow2_log2 mn ltac:(lra)) as Em. split.
    + replace (mn / Rpower 2 (1 / IZR nv)) with (Rpower 2 ((IZR nv * log2 mn - 1) / IZR nv)).
      * apply pow2_lt, Rmult_lt_compat_r; lra.
      * replace ((IZR nv * log2 mn - 1) / IZR nv) with (log2 mn + - (1 / IZR nv)) by (field; lra).
        rewrite Rpower_plus, Rpower_Ropp, Em. reflexivity.
    + apply Rle_trans with (Rpower 2 (log2 mn)); [|lra]. apply pow2_le. destruct (Rle_lt_or_eq_dec _ _ (proj2 Hf)) as [H|H].
      * left. apply Hx. lra.
      * right. rewrite H. field. lra.
  - replace (last (pow2_arange p0 (p0 + na) nv) 0) with (Rpower 2 (IZR (p0 + na - 1) / IZR nv)).
    + pose proof (pow2_log2 mx ltac:(lra)) as Em. rewrite minus_IZR, plus_IZR. split.
      * replace (mx / Rpower 2 (2 / IZR nv)) with (Rpower 2 ((IZR nv * log2 mx - 2) / IZR nv)).
        -- apply pow2_lt, Rmult_lt_compat_r; lra.
        -- replace ((IZR nv * log2 mx - 2) / IZR nv) with (log2 mx + - (2 / IZR nv)) by (field; lra).
           rewrite Rpower_plus, Rpower_Ropp, Em. reflexivity.
      * rewrite <- Em. apply pow2_lt, Hx. lra.
    + rewrite <- nth_last_R by exact Hne. rewrite HL, arange_nth by lia. do 2 f_equal. f_equal. lia.
Qed.
End Log.

(** the voices per octave are recovered *)
Theorem log_scales_inferred f64 mn mx nv fds ds s : 0 < mn < mx -> (1 <= nv)%Z ->
  make_scales mn mx nv SLog fds ds = Ok s -> (3 <= length s)%nat ->
  process_scales_arr f64 s = Ok (KLog nv).
Proof.
  intros Hm Hnv E Hl. destruct (log_scales mn mx nv Hm Hnv fds ds) as (s' & E' & Hne & Hg & Hs & _).
  rewrite E in E'. injection E' as <-.
  assert (Hv : 1 <= IZR nv) by (apply IZR_le, Hnv).
  assert (H0 : 0 < nth 0 s 0).
  { destruct Hs as [Hs _]. eapply Rlt_trans; [|exact Hs]. apply Rdiv_lt_0_compat; [lra|apply pow2_pos]. }
  unfold process_scales_arr. rewrite (infer_geometric f64 s (1 / IZR nv)).
  - cbn [bind]. replace (1 / (1 / IZR nv)) with (IZR nv) by (field; lra). rewrite rhe_IZR.
    destruct (Z.leb_spec nv 0); [lia|reflexivity].
  - intros k Hk. rewrite Hg by exact Hk. apply Rmult_lt_0_compat; [exact H0|apply pow2_pos].
  - split; [exact Hl|]. intros k Hk. unfold lg. rewrite (Hg k Hk).
    rewrite log2_mult; [|exact H0|apply pow2_pos]. rewrite log2_pow2. field. lra.
  - unfold Rdiv. pose proof (Rinv_0_lt_compat (IZR nv)). lra.
Qed.

(** ** log-piecewise *)
Lemma every_length {A} d (l : list A) : forall q, (1 <= d)%nat ->
  (length (every d l q) = (length l + d - 1 - q) / d)%nat.
Proof.
  induction l as [|y l IH]; intros q Hd; cbn [every length].
  - rewrite Nat.div_small by lia. reflexivity.
  - destruct q as [|q]; cbn [length].
    + rewrite IH by exact Hd.
      replace (S (length l) + d - 1 - 0)%nat with (length l + 1 * d)%nat by lia.
      rewrite Nat.div_add by lia. replace (length l + d - 1 - (d - 1))%nat with (length l) by lia. lia.
    + rewrite IH by exact Hd. f_equal. lia.
Qed.
Lemma every_nth {A} d (l : list A) x : forall q k, (1 <= d)%nat -> (k < length (every d l q))%nat ->
  nth k (every d l q) x = nth (q + k * d) l x /\ (q + k * d < length l)%nat.
Proof.
  induction l as [|y l IH]; intros q k Hd Hk; cbn [every] in *; [cbn in Hk; lia|].
  destruct q as [|q]; cbn [length] in *.
  - destruct k as [|k]; [cbn; split; [reflexivity|lia]|].
    cbn [nth]. destruct (IH (d - 1)%nat k Hd ltac:(lia)) as [E Hlt]. rewrite E.
    replace (0 + S k * d)%nat with (S (d - 1 + k * d)) by (cbn; lia). split; [reflexivity|lia].
  - destruct (IH q k Hd Hk) as [E Hlt]. rewrite E. replace (S q + k * d)%nat with (S (q + k * d)) by lia.
    split; [reflexivity|lia].
Qed.

(** position in the log grid of entry [k] *)
Definition piece_pos (i d k : nat) : nat := if (k <? i)%nat then k else (i - 1 + (k - i + 1) * d)%nat.

Theorem piece_scales mn mx nv fds ds i s g : fds g = Ok (Some i) ->
  make_scales mn mx nv SLog fds ds = Ok g -> make_scales mn mx nv SPiece fds ds = Ok s ->
  (1 <= i <= length g)%nat -> (1 <= ds)%Z ->
  let d := Z.to_nat ds in
  length s = (i + (length g - i) / d)%nat /\
  (forall k, (k < length s)%nat -> nth k s 0 = nth (piece_pos i d k) g 0 /\ (piece_pos i d k < length g)%nat).
Proof.
  intros Hf Eg Es Hi Hd d. unfold make_scales in Eg. injection Eg as Eg.
  unfold make_scales in Es. rewrite Eg in Es. rewrite Hf in Es. cbn [bind] in Es.
  destruct (Z.eqb_spec ds 0); [lia|]. destruct (Z.ltb_spec ds 0); [lia|].
  injection Es as <-. clear Eg. set (t := pyslice_from g (Z.of_nat i + ds - 1)).
  assert (Et : t = skipn (i + d - 1) g).
  { unfold t, pyslice_from, pyslice, norm_bound.
    destruct (Z.ltb_spec (Z.of_nat i + ds - 1) 0); [lia|]. destruct (Z.ltb_spec (Z.of_nat (length g)) 0); [lia|].
    destruct (Nat.le_gt_cases (length g) (i + d - 1)) as [Hc|Hc].
    - rewrite (skipn_all2 (n := i + d - 1)) by lia. rewrite skipn_all2 by lia. apply firstn_nil.
    - rewrite firstn_all2 by (rewrite skipn_length; lia). f_equal. lia. }
  rewrite Et. assert (Hd' : (1 <= d)%nat) by (unfold d; lia).
  assert (Hlen : length (every d (skipn (i + d - 1) g) 0) = ((length g - i) / d)%nat).
  { rewrite every_length by exact Hd'. rewrite skipn_length.
    destruct (Nat.le_gt_cases (length g) (i + d - 1)) as [Hc|Hc].
    - replace (length g - (i + d - 1))%nat with 0%nat by lia.
      rewrite !Nat.div_small by lia. reflexivity.
    - f_equal. lia. }
  fold d. split.
  - rewrite app_length, firstn_length, Hlen. lia.
  - intros k Hk. rewrite app_length, firstn_length, Hlen in Hk. unfold piece_pos.
    destruct (Nat.ltb_spec k i) as [Hk'|Hk'].
    + rewrite app_nth1 by (rewrite firstn_length; lia). rewrite nth_firstn_lt by lia. split; [reflexivity|lia].
    + rewrite app_nth2 by (rewrite firstn_length; lia). rewrite firstn_length.
      replace (k - Nat.min i (length g))%nat with (k - i)%nat by lia.
      destruct (every_nth d (skipn (i + d - 1) g) 0 0 (k - i) Hd' ltac:(lia)) as [E Hlt].
      rewrite E, nth_skipn_add. rewrite skipn_length in Hlt.
      replace (i + d - 1 + (0 + (k - i) * d))%nat with (i - 1 + (k - i + 1) * d)%nat by nia.
      split; [reflexivity|nia].
Qed.

(** the switch and the spacings are recovered *)
Section Recover.
Variables (s : list R) (i d : nat) (nv : Z) (l0 : R).
Hypothesis Hi : (2 <= i < length s)%nat.
Hypothesis Hd : (2 <= d)%nat.
Hypothesis Hnv : (1 <= nv)%Z.
Hypothesis Hs : forall k, (k < length s)%nat -> lg s k = l0 + INR (piece_pos i d k) / IZR nv.
Let nvR : 1 <= IZR nv. Proof. apply IZR_le, Hnv. Qed.
Let dR : 2 <= INR d. Proof. change 2 with (INR 2). apply le_INR, Hd. Qed.

Lemma step_rec k : (S k < length s)%nat ->
  lg s (S k) - lg s k = (if (S k <? i)%nat then 1 else INR d) / IZR nv.
Proof.
  intros Hk. rewrite !Hs by lia. unfold piece_pos.
  destruct (Nat.ltb_spec (S k) i); destruct (Nat.ltb_spec k i); try lia.
  - rewrite S_INR. field. lra.
  - replace (i - 1 + (S k - i + 1) * d)%nat with (k + d)%nat by nia. rewrite plus_INR. field. lra.
  - replace (i - 1 + (S k - i + 1) * d)%nat with (i - 1 + (k - i + 1) * d + d)%nat by nia.
    rewrite (plus_INR _ d). field. lra.
Qed.

Theorem transition_recovered f64 : logscale_transition_idx f64 s = Ok (Some i).
Proof.
  replace i with (i - 2 + 2)%nat by lia. apply transition_some; [lia| |].
  - rewrite d2_log2. pose proof (step_rec (S (i - 2)) ltac:(lia)) as E1. pose proof (step_rec (i - 2) ltac:(lia)) as E0.
    destruct (Nat.ltb_spec (S (S (i - 2))) i); [lia|]. destruct (Nat.ltb_spec (S (i - 2)) i); [|lia].
    replace (_ - _ + _) with ((lg s (S (S (i - 2))) - lg s (S (i - 2))) - (lg s (S (i - 2)) - lg s (i - 2))) by ring.
    rewrite E0, E1. pose proof ln2_pos. intros E. apply Rmult_integral in E. destruct E as [E|E]; [lra|].
    assert (0 < (INR d - 1) / IZR nv) by (apply Rdiv_lt_0_compat; lra).
    replace (INR d / IZR nv - 1 / IZR nv) with ((INR d - 1) / IZR nv) in E by (field; lra). lra.
  - intros k Hk Hne. rewrite d2_log2. pose proof (step_rec (S k) ltac:(lia)) as E1. pose proof (step_rec k ltac:(lia)) as E0.
    replace (_ - _ + _) with ((lg s (S (S k)) - lg s (S k)) - (lg s (S k) - lg s k)) by ring.
    rewrite E0, E1. destruct (Nat.ltb_spec (S (S k)) i); destruct (Nat.ltb_spec (S k) i); try lia; ring.
Qed.

Theorem nv_recovered f64 : exists v, nv_from_scales f64 s = Ok v /\ length v = length s /\
  forall k, (k < length s)%nat -> nth k v 0 = if (k <? i)%nat then IZR nv else IZR nv / INR d.
Proof.
  unfold nv_from_scales. set (D := diff (map log2 s)).
  assert (HD : length D = (length s - 1)%nat) by (unfold D; rewrite diff_length, map_length; reflexivity).
  assert (HDn : forall k, (k < length D)%nat -> nth k D 0 = (if (S k <? i)%nat then 1 else INR d) / IZR nv).
  { intros k Hk. rewrite HD in Hk. unfold D. rewrite nth_diff by (rewrite map_length; lia).
    rewrite !nth_map_R by lia. apply step_rec. lia. }
  assert (Hp : forall k, (k < length D)%nat -> 0 < nth k D 0).
  { intros k Hk. rewrite HDn by exact Hk. apply Rdiv_lt_0_compat; [|lra]. destruct (S k <? i)%nat; lra. }
  assert (He : existsb (fun y => if Req_EM_T y 0 then true else false) D = false).
  { destruct (existsb _ D) eqn:E; [|reflexivity]. apply existsb_exists in E. destruct E as (y & Hy & E).
    apply (In_nth _ _ 0) in Hy. destruct Hy as (k & Hk & <-). specialize (Hp k Hk).
    destruct (Req_EM_T (nth k D 0) 0); [lra|discriminate]. }
  rewrite He. rewrite transition_recovered. cbn [bind].
  set (v := firstn 1 (map (fun y => 1 / y) D) ++ map (fun y => 1 / y) D).
  assert (Hv : length v = length s) by (unfold v; rewrite app_length, firstn_length, map_length, HD; lia).
  assert (Hn : forall k, (k < length s)%nat -> nth k v 0 = if (k <? i)%nat then IZR nv else IZR nv / INR d).
  { intros k Hk. unfold v. destruct k as [|k].
    - rewrite app_nth1 by (rewrite firstn_length, map_length, HD; lia). rewrite nth_firstn_lt by lia.
      rewrite (nth_map_R (fun y => 1 / y)) by lia. rewrite HDn by lia.
      destruct (Nat.ltb_spec 1 i); [|lia]. destruct (Nat.ltb_spec 0 i); [|lia]. field. lra.
    - rewrite app_nth2 by (rewrite firstn_length, map_length, HD; lia).
      rewrite firstn_length, map_length, HD. replace (S k - Nat.min 1 (length s - 1))%nat with k by lia.
      rewrite (nth_map_R (fun y => 1 / y)) by lia. rewrite HDn by lia.
      destruct (S k <? i)%nat; field; lra. }
  assert (Ha : argmax (map Rabs (diff v)) = (i - 1)%nat).
  { set (A := map Rabs (diff v)).
    assert (HA : length A = (length s - 1)%nat) by (unfold A; rewrite map_length, diff_length, Hv; reflexivity).
    assert (HAn : forall k, (k < length A)%nat -> nth k A 0 = if (k =? i - 1)%nat then IZR nv - IZR nv / INR d else 0).
    { intros k Hk. rewrite HA in Hk. unfold A. rewrite nth_map_R by (rewrite diff_length; lia).
      rewrite nth_diff by lia. rewrite !Hn by lia.
      destruct (Nat.eqb_spec k (i - 1)); destruct (Nat.ltb_spec (S k) i); destruct (Nat.ltb_spec k i); try lia;
        try (rewrite Rminus_diag_eq by reflexivity; apply Rabs_R0).
      rewrite Rabs_left1; [ring|]. assert (IZR nv / INR d <= IZR nv); [|lra].
      apply div_le; nra. }
    assert (Hpos : 0 < IZR nv - IZR nv / INR d).
    { replace (IZR nv - IZR nv / INR d) with (IZR nv * (INR d - 1) / INR d) by (field; lra).
      apply Rdiv_lt_0_compat; nra. }
    assert (HAne : A <> []) by (intros E; rewrite E in HA; cbn in HA; lia).
    destruct (argmax_spec A HAne) as (Hk & Hmax & _).
    destruct (Nat.eq_dec (argmax A) (i - 1)) as [E|E]; [exact E|exfalso].
    specialize (Hmax (i - 1)%nat ltac:(lia)). rewrite !HAn in Hmax by lia.
    rewrite Nat.eqb_refl in Hmax. destruct (Nat.eqb_spec (argmax A) (i - 1)); [lia|]. lra. }
  rewrite Ha. destruct (Nat.eqb_spec (i - 1 + 1) i); [|lia]. exists v. auto.
Qed.
End Recover.

Lemma grid_lg mn mx nv fds ds g k : 0 < mn < mx -> (1 <= nv)%Z ->
  make_scales mn mx nv SLog fds ds = Ok g -> (k < length g)%nat ->
  lg g k = lg g 0 + INR k / IZR nv.
Proof.
  intros Hm Hnv Eg Hk. destruct (log_scales mn mx nv Hm Hnv fds ds) as (g' & Eg' & _ & Hg & Hs & _).
  rewrite Eg in Eg'. injection Eg' as <-.
  assert (H0 : 0 < nth 0 g 0).
  { destruct Hs as [Hs _]. eapply Rlt_trans; [|exact Hs]. apply Rdiv_lt_0_compat; [lra|apply pow2_pos]. }
  unfold lg. rewrite (Hg k Hk), log2_mult, log2_pow2; [reflexivity|exact H0|apply pow2_pos].
Qed.

Theorem piecewise_scales mn mx nv fds ds i g : 0 < mn < mx -> (1 <= nv)%Z -> (2 <= ds)%Z ->
  make_scales mn mx nv SLog fds ds = Ok g -> fds g = Ok (Some i) ->
  (2 <= i)%nat -> (Z.of_nat i + ds <= Z.of_nat (length g))%Z ->
  exists s v, make_scales mn mx nv SPiece fds ds = Ok s /\ (i < length s)%nat /\
    (forall k, (k < i)%nat -> nth k s 0 = nth k g 0) /\
    (forall k, (i <= k < length s)%nat -> exists p, (p < length g)%nat /\ nth k s 0 = nth p g 0) /\
    (forall k, (S k < length s)%nat ->
       nth (S k) s 0 = nth k s 0 * Rpower 2 ((if (S k <? i)%nat then 1 else IZR ds) / IZR nv)) /\
    (forall f64, logscale_transition_idx f64 s = Ok (Some i)) /\
    (forall f64, nv_from_scales f64 s = Ok v) /\ length v = length s /\
    (forall k, (k < length s)%nat -> nth k v 0 = if (k <? i)%nat then IZR nv else IZR nv / IZR ds).
Proof.
  intros Hm Hnv Hds Eg Hf Hi Hig. set (d := Z.to_nat ds).
  assert (Hdd : IZR ds = INR d) by (unfold d; rewrite INR_IZR_INZ, Z2Nat.id by lia; reflexivity).
  assert (E : exists s, make_scales mn mx nv SPiece fds ds = Ok s).
  { unfold make_scales in *. injection Eg as Eg. rewrite Eg, Hf. cbn [bind].
    destruct (Z.eqb_spec ds 0); [lia|]. destruct (Z.ltb_spec ds 0); [lia|]. eexists. reflexivity. }
  destruct E as (s & Es). destruct (piece_scales mn mx nv fds ds i s g Hf Eg Es ltac:(lia) ltac:(lia)) as [Hl Hn].
  fold d in Hl, Hn.
  assert (Hil : (i < length s)%nat).
  { rewrite Hl. assert (1 <= (length g - i) / d)%nat; [|lia].
    replace 1%nat with (d / d)%nat by (apply Nat.div_same; lia). apply Nat.div_le_mono; lia. }
  assert (Hlg : forall k, (k < length s)%nat -> lg s k = lg g 0 + INR (piece_pos i d k) / IZR nv).
  { intros k Hk. destruct (Hn k Hk) as [E Hp]. unfold lg at 1. rewrite E.
    apply (grid_lg mn mx nv fds ds g); assumption. }
  destruct (nv_recovered s i d nv (lg g 0) ltac:(lia) ltac:(lia) Hnv Hlg true) as (v & Ev & Hv & Hvn).
  exists s, v. split; [exact Es|]. split; [exact Hil|]. split; [|split; [|split; [|split; [|split; [|split]]]]].
  - intros k Hk. destruct (Hn k ltac:(lia)) as [E _]. rewrite E. unfold piece_pos.
    destruct (Nat.ltb_spec k i); [reflexivity|lia].
  - intros k Hk. destruct (Hn k ltac:(lia)) as [E Hp]. eauto.
  - intros k Hk. pose proof (step_rec s i d nv (lg g 0) ltac:(lia) ltac:(lia) Hnv Hlg k Hk) as E.
    assert (Hpos : forall q, (q < length s)%nat -> 0 < nth q s 0).
    { intros q Hq. destruct (Hn q Hq) as [Eq Hp]. rewrite Eq.
      destruct (log_scales mn mx nv Hm Hnv fds ds) as (g' & Eg' & _ & Hg & Hs & _).
      rewrite Eg in Eg'. injection Eg' as <-. rewrite Hg by exact Hp.
      apply Rmult_lt_0_compat; [|apply pow2_pos].
      destruct Hs as [Hs _]. eapply Rlt_trans; [|exact Hs]. apply Rdiv_lt_0_compat; [lra|apply pow2_pos]. }
    rewrite <- (pow2_log2 (nth (S k) s 0)), <- (pow2_log2 (nth k s 0)) by (apply Hpos; lia).
    rewrite <- Rpower_plus. f_equal. unfold lg in E. rewrite Hdd. lra.
  - intros f64. apply (transition_recovered s i d nv (lg g 0)); auto; lia.
  - intros f64. rewrite <- Ev. unfold nv_from_scales.
    rewrite !(transition_recovered s i d nv (lg g 0)) by (auto; lia). reflexivity.
  - exact Hv.
  - intros k Hk. rewrite Hvn, Hdd by exact Hk. reflexivity.
Qed.

(** [find_downsampling_scale] *)
Lemma loop_index_spec stop n : forall i, (1 <= n)%nat ->
  (i <= loop_index stop n i < i + n)%nat /\
  (forall k, (i <= k < loop_index stop n i)%nat -> stop k = false) /\
  ((loop_index stop n i < i + n - 1)%nat -> stop (loop_index stop n i) = true).
Proof.
  induction n as [|n IH]; intros i Hn; [lia|].
  destruct n as [|n]; [cbn; split; [lia|]; split; lia|].
  change (loop_index stop (S (S n)) i) with (if stop i then i else loop_index stop (S n) (S i)).
  destruct (stop i) eqn:E; [split; [lia|]; split; [lia|auto]|].
  destruct (IH (S i) ltac:(lia)) as (H1 & H2 & H3). split; [lia|]. split.
  - intros k Hk. destruct (Nat.eq_dec k i); [congruence|]. apply H2. lia.
  - intros Hk. apply H3. lia.
Qed.
Theorem downsampling_index span tol m t1 t2 Psih sc i :
  find_downsampling_scale span tol m t1 t2 Psih sc = Ok (Some i) ->
  (i + span + 2 < length sc)%nat /\
  let half := map (fun row => firstn (length row / 2) row) Psih in
  group_breaks span tol m t1 t2 half i = true /\
  forall k, (k < i)%nat -> group_breaks span tol m t1 t2 half k = false.
Proof.
  unfold find_downsampling_scale. destruct (Nat.eqb_spec (length Psih) (length sc)) as [E|]; [|discriminate].
  cbn [negb]. destruct (Nat.eqb_spec (length Psih - span - 1) 0); [discriminate|].
  set (half := map _ _). set (stop := group_breaks _ _ _ _ _ half). intros H. injection H as H.
  destruct (loop_index_spec stop (length Psih - span - 1) 0 ltac:(lia)) as (H1 & H2 & H3).
  destruct (Nat.ltb_spec (loop_index stop (length Psih - span - 1) 0) (length Psih - span - 1 - 1)) as [Hlt|]; [|discriminate].
  injection H as <-. split; [lia|]. cbv zeta. split; [apply H3; lia|]. intros k Hk. apply H2. lia.
Qed.
Theorem few_scales_unbound span tol m t1 t2 Psih sc : length Psih = length sc ->
  (length sc <= span + 1)%nat ->
  find_downsampling_scale span tol m t1 t2 Psih sc = Err UnboundLocalError.
Proof.
  intros E H. unfold find_downsampling_scale. rewrite E, Nat.eqb_refl. cbn [negb].
  replace (length sc - span - 1)%nat with 0%nat by lia. reflexivity.
Qed.

(** log-piecewise with [find_downsampling_scale] as called by [make_scales] (span 5, tol 3,
    'sum', .02, 4): the coarse part is never empty *)
Definition fds_default (Psi : list R -> list (list R)) (sc : list R) : res (option nat) :=
  find_downsampling_scale 5 3 DSum (2 / 100) 4 (Psi sc) sc.
Theorem default_coarse_nonempty Psi g i ds : fds_default Psi g = Ok (Some i) -> (ds <= 8)%Z ->
  (Z.of_nat i + ds <= Z.of_nat (length g))%Z.
Proof. intros H Hd. apply downsampling_index in H. lia. Qed.

(** a switch after the first scale is not a switch *)
Lemma Rdiv_by1 x : x / 1 = x. Proof. field. Qed.
Lemma pow2_pow k : Rpower 2 (INR k) = 2 ^ k.
Proof. apply Rpower_pow. lra. Qed.
Lemma make6 fds ds : make_scales 1 64 1 SLog fds ds = Ok [1; 2; 4; 8; 16; 32].
Proof.
  unfold make_scales. rewrite Rdiv_by1. rewrite log2_64, log2_1.
  assert (E6 : Rceil (1 * 6) = 6%Z) by (unfold Rceil; rewrite (Int_part_unique _ (-6)); [reflexivity|lra]).
  assert (E0 : Rfloor (1 * 0) = 0%Z) by (unfold Rfloor; apply Int_part_unique; lra).
  rewrite E6, E0. f_equal. apply list_eq_nth with (d := 0); [reflexivity|].
  intros k Hk. rewrite arange_length in Hk. change (Z.to_nat (0 + 6 - 0)) with 6%nat in Hk.
  rewrite arange_nth by (change (Z.to_nat (0 + 6 - 0)) with 6%nat; exact Hk).
  rewrite Z.add_0_l, <- INR_IZR_INZ, Rdiv_by1, pow2_pow.
  do 6 (destruct k as [|k]; [cbn; ring|]). lia.
Qed.
Lemma early_switch : exists fds s, fds [1; 2; 4; 8; 16; 32] = Ok (Some 1%nat) /\
  make_scales 1 64 1 SLog fds 2 = Ok [1; 2; 4; 8; 16; 32] /\
  make_scales 1 64 1 SPiece fds 2 = Ok s /\ s = [1; 4; 16] /\
  logscale_transition_idx true s = Ok None.
Proof.
  exists (fun _ => Ok (Some 1%nat)), [1; 4; 16]. split; [reflexivity|]. split; [apply make6|].
  split; [|split; [reflexivity|]].
  - pose proof (make6 (fun _ => Ok (Some 1%nat)) 2) as E. unfold make_scales in *. injection E as E.
    rewrite E. reflexivity.
  - apply transition_none; [cbn; lia|]. intros i Hi. cbn in Hi. assert (i = 0)%nat by lia. subst i.
    rewrite d2_log2. unfold lg. cbn [nth]. rewrite log2_1, log2_4, log2_16. ring.
Qed.

(** ** Time and rate *)
Theorem fs_accepted fs t N r : process_fs_and_t fs t N = Ok r ->
  match t with
  | None => match fs with None => r = 1 | Some f => r = f end /\ 0 < r
  | Some t => length t = N /\ (3 <= length t)%nat /\ r * (nth 1 t 0 - nth 0 t 0) = 1 /\
              (nth 0 t 0 < nth 1 t 0 -> 0 < r)
  end.
Proof.
  unfold process_fs_and_t. destruct t as [t|].
  - destruct (Nat.eqb_spec (length t) N); [|discriminate]. cbn [negb].
    destruct (Nat.ltb_spec (length t) 3); [discriminate|].
    destruct (negb _); [discriminate|]. destruct (Req_EM_T (nth 1 t 0) (nth 0 t 0)); [discriminate|].
    intros E. injection E as <-. repeat split; auto; [field; lra|].
    intros Hlt. apply Rdiv_lt_0_compat; lra.
  - destruct fs as [f|].
    + destruct (Rle_dec f 0); [discriminate|]. intros E. injection E as <-. split; [reflexivity|lra].
    + intros E. injection E as <-. split; [reflexivity|lra].
Qed.
Theorem t_rejected fs t N : length t <> N \/ / 10000000 <= mean (map Rabs (diff (diff t))) ->
  process_fs_and_t fs (Some t) N = Err PlainException.
Proof.
  intros H. unfold process_fs_and_t. destruct (Nat.eqb_spec (length t) N); [|reflexivity]. cbn [negb].
  destruct (length t <? 3)%nat; [reflexivity|]. destruct H as [H|H]; [contradiction|].
  rewrite Rltb'_false by exact H. reflexivity.
Qed.
(** exactly uniform increasing times are accepted *)
Theorem uniform_accepted fs t N dt t0 : length t = N -> (3 <= N)%nat -> 0 < dt ->
  (forall k, (k < N)%nat -> nth k t 0 = t0 + INR k * dt) ->
  exists r, process_fs_and_t fs (Some t) N = Ok r /\ r * dt = 1 /\ 0 < r.
Proof.
  intros Hl HN Hdt Ht. exists (1 / dt).
  assert (Hr : (1 / dt) * dt = 1 /\ 0 < 1 / dt) by (split; [field; lra|apply Rdiv_lt_0_compat; lra]).
  split; [|exact Hr]. unfold process_fs_and_t. rewrite Hl, Nat.eqb_refl. cbn [negb].
  destruct (Nat.ltb_spec N 3); [lia|].
  assert (E1 : nth 1 t 0 - nth 0 t 0 = dt) by (rewrite !Ht by lia; cbn [INR]; ring).
  rewrite Rltb'_true.
  - cbn [negb]. destruct (Req_EM_T (nth 1 t 0) (nth 0 t 0)) as [e|]; [lra|]. rewrite E1. reflexivity.
  - unfold mean. rewrite lsum_zero; [unfold Rdiv; lra|].
    intros i Hi. rewrite map_length, !diff_length in Hi.
    rewrite nth_map_R by (rewrite !diff_length; lia).
    rewrite nth_diff by (rewrite diff_length; lia). rewrite !nth_diff by lia. rewrite !Ht by lia.
    rewrite !S_INR. replace (_ - _ - _) with 0 by ring. apply Rabs_R0.
Qed.

Lemma decreasing_t : process_fs_and_t None (Some [2; 1; 0]) 3 = Ok (-1).
Proof.
  unfold process_fs_and_t. cbn [length Nat.eqb negb Nat.ltb Nat.leb].
  rewrite Rltb'_true.
  - cbn [negb nth]. destruct (Req_EM_T 1 2); [lra|]. f_equal. lra.
  - unfold mean, lsum. cbn [diff map fold_right length INR]. replace (0 - 1 - (1 - 2)) with 0 by ring. rewrite Rabs_R0. lra.
Qed.
(** steps of 10 ns, then 20 ns *)
Lemma tiny_nonuniform_t : exists t r, process_fs_and_t None (Some t) 3 = Ok r /\
  nth 2 t 0 - nth 1 t 0 = 2 * (nth 1 t 0 - nth 0 t 0) /\ nth 0 t 0 < nth 1 t 0.
Proof.
  exists [0; / 100000000; 3 / 100000000], 100000000. split; [|cbn [nth]; lra].
  unfold process_fs_and_t. cbn [length Nat.eqb negb Nat.ltb Nat.leb]. rewrite Rltb'_true.
  - cbn [negb nth]. destruct (Req_EM_T (/ 100000000) 0) as [e|]; [lra|]. f_equal. field.
  - unfold mean, lsum. cbn [diff map fold_right length INR]. rewrite Rabs_right; lra.
Qed.

(** ** The constant of the log integral *)
Theorem log_const mn mx nv fds ds s o f64 : 0 < mn < mx -> (1 <= nv)%Z ->
  make_scales mn mx nv SLog fds ds = Ok s -> (3 <= length s)%nat ->
  o_tr o = TCwt -> o_scales o = Some s ->
  exists k c, process_scales_arr f64 s = Ok k /\ (forall v, ssq_const o (Some k) v = Ok (CScalar c)) /\
    forall i, (S i < length s)%nat -> ln (nth (S i) s 0) - ln (nth i s 0) = c.
Proof.
  intros Hm Hnv Es Hl Ht Ho. exists (KLog nv), (ln 2 / IZR nv).
  split; [apply (log_scales_inferred f64 mn mx nv fds ds s); assumption|].
  split; [intros v; unfold ssq_const; rewrite Ht; reflexivity|].
  intros i Hi. pose proof (grid_lg mn mx nv fds ds s (S i) Hm Hnv Es Hi) as E1.
  pose proof (grid_lg mn mx nv fds ds s i Hm Hnv Es ltac:(lia)) as E0. unfold lg, log2 in *.
  rewrite S_INR in E1. assert (1 <= IZR nv) by (apply IZR_le, Hnv). pose proof ln2_pos.
  assert (E : ln (nth (S i) s 0) / ln 2 - ln (nth i s 0) / ln 2 = 1 / IZR nv) by (rewrite E1, E0; field; lra).
  apply Rmult_eq_reg_r with (/ ln 2); [|apply Rinv_neq_0_compat; lra].
  replace ((ln (nth (S i) s 0) - ln (nth i s 0)) * / ln 2) with (ln (nth (S i) s 0) / ln 2 - ln (nth i s 0) / ln 2) by (field; lra).
  rewrite E. field. lra.
Qed.
(** scales 1, 8, 64: a third of a voice per octave, which rounds to none *)
Lemma third_voice : process_scales_arr true [1; 8; 64] = Err ValueError.
Proof.
  unfold process_scales_arr. rewrite (infer_geometric true _ 3).
  - cbn [bind]. rewrite (rhe_unique (1 / 3) 0); [reflexivity|lra].
  - intros k Hk. cbn in Hk. destruct k as [|[|[|k]]]; cbn [nth]; lra || lia.
  - split; [cbn; lia|]. intros k Hk. unfold lg. cbn [nth]. rewrite log2_1. cbn in Hk.
    destruct k as [|[|[|k]]]; cbn [nth INR]; rewrite ?log2_1, ?log2_8, ?log2_64; try ring. lia.
  - lra.
Qed.
(** ratio 2^(2/3), i.e. 1.5 voices per octave, counted as 2 *)
Definition sesqui : list R := tab 4 (fun k => Rpower 2 (INR k * (2 / 3))).
Lemma sesqui_const o v : o_tr o = TCwt -> exists c,
  process_scales_arr true sesqui = Ok (KLog 2) /\ ssq_const o (Some (KLog 2)) v = Ok (CScalar c) /\
  4 * c = 3 * (ln (nth 1 sesqui 0) - ln (nth 0 sesqui 0)) /\ 0 < c.
Proof.
  intros Ht. exists (ln 2 / 2). pose proof ln2_pos.
  assert (Hn : forall k, (k < 4)%nat -> nth k sesqui 0 = Rpower 2 (INR k * (2 / 3))) by (intros; apply nth_tab; assumption).
  split; [|split; [|split; [|lra]]].
  - unfold process_scales_arr. rewrite (infer_geometric true _ (2 / 3)).
    + cbn [bind]. replace (1 / (2 / 3)) with (IZR 1 + 1 / 2) by lra. rewrite rhe_half. reflexivity.
    + intros k Hk. change (length sesqui) with 4%nat in Hk. rewrite Hn by exact Hk. apply pow2_pos.
    + split; [change (length sesqui) with 4%nat; lia|]. intros k Hk. change (length sesqui) with 4%nat in Hk.
      unfold lg. rewrite !Hn, !log2_pow2 by lia. cbn [INR]. ring.
    + lra.
  - unfold ssq_const. rewrite Ht. reflexivity.
  - rewrite !Hn by lia. unfold Rpower. rewrite !ln_exp. cbn [INR]. field.
Qed.

(** log-piecewise: every weight is the distance to the scale before *)
Theorem piece_const o f64 s nv v c : o_tr o = TCwt -> nv_from_scales f64 s = Ok nv ->
  ssq_const o (Some (KPiece nv)) v = Ok c ->
  exists l, c = CArr l /\ ((2 <= length s)%nat -> length l = length s) /\
    (forall k, (S k < length s)%nat -> nth (S k) l 0 = ln (nth (S k) s 0) - ln (nth k s 0)) /\
    ((2 <= length s)%nat -> nth 0 l 0 = nth 1 l 0).
Proof.
  intros Ht En Ec. unfold ssq_const in Ec. rewrite Ht in Ec. injection Ec as <-.
  eexists. split; [reflexivity|]. unfold nv_from_scales in En.
  set (D := diff (map log2 s)) in En.
  assert (HD : length D = (length s - 1)%nat) by (unfold D; rewrite diff_length, map_length; reflexivity).
  destruct (existsb _ D) eqn:Ex; [discriminate|].
  assert (Hnz : forall k, (k < length D)%nat -> nth k D 0 <> 0).
  { intros k Hk E. assert (existsb (fun y => if Req_EM_T y 0 then true else false) D = true); [|congruence].
    apply existsb_exists. exists (nth k D 0). split; [apply nth_In, Hk|]. destruct (Req_EM_T (nth k D 0) 0); auto. }
  assert (E : nv = firstn 1 (map (fun y => 1 / y) D) ++ map (fun y => 1 / y) D).
  { destruct (logscale_transition_idx f64 s) as [[i|]|]; cbn [bind] in En; try discriminate; [|congruence].
    destruct (_ =? _)%nat in En; [congruence|discriminate]. }
  subst nv. clear En Ex. pose proof ln2_pos as H2.
  assert (Hk : forall k, (S k < length s)%nat -> ln 2 / (1 / nth k D 0) = ln (nth (S k) s 0) - ln (nth k s 0)).
  { intros k Hk. specialize (Hnz k ltac:(lia)). revert Hnz. unfold D. rewrite nth_diff by (rewrite map_length; lia).
    rewrite !nth_map_R by lia. unfold log2. intros Hnz. field. split; [lra|]. intros E. apply Hnz.
    replace (ln (nth (S k) s 0) / ln 2 - ln (nth k s 0) / ln 2) with ((ln (nth (S k) s 0) - ln (nth k s 0)) / ln 2) by (field; lra).
    rewrite E. field. lra. }
  split; [|split].
  - intros. rewrite map_length, app_length, firstn_length, map_length, HD. lia.
  - intros k Hlt. rewrite (nth_map_R (fun n => ln 2 / n)) by (rewrite app_length, firstn_length, map_length; lia).
    rewrite app_nth2 by (rewrite firstn_length, map_length; lia). rewrite firstn_length, map_length, HD.
    replace (S k - Nat.min 1 (length s - 1))%nat with k by lia.
    rewrite (nth_map_R (fun y => 1 / y)) by lia. apply Hk, Hlt.
  - intros Hl. rewrite !(nth_map_R (fun n => ln 2 / n)) by (rewrite app_length, firstn_length, map_length; lia).
    rewrite app_nth1 by (rewrite firstn_length, map_length; lia).
    rewrite app_nth2 by (rewrite firstn_length, map_length; lia). rewrite nth_firstn_lt by lia.
    rewrite firstn_length, map_length, HD. replace (1 - Nat.min 1 (length s - 1))%nat with 0%nat by lia. reflexivity.
Qed.

(** ** Linear scales *)
Theorem linear_scales mn mx nv fds ds : 0 < mn < mx -> (1 <= nv)%Z -> exists s,
  make_scales mn mx nv SLin fds ds = Ok s /\ (2 <= length s)%nat /\
  mn / Rpower 2 (1 / IZR nv) < nth 0 s 0 <= mn /\
  mx / Rpower 2 (1 / IZR nv) < last s 0 < mx * Rpower 2 (1 / IZR nv) /\
  (forall k, (S k < length s)%nat -> nth (S k) s 0 - nth k s 0 = (last s 0 - nth 0 s 0) / INR (length s - 1)).
Proof.
  intros Hm Hnv. unfold make_scales.
  set (na := Rceil (IZR nv * log2 (mx / mn))). set (p0 := Rfloor (IZR nv * log2 mn)).
  pose proof (na_pos mn mx nv Hm Hnv) as Hna. fold na in Hna.
  assert (Hv : 1 <= IZR nv) by (apply IZR_le, Hnv).
  pose proof (Rfloor_bounds (IZR nv * log2 mn)) as Hf. fold p0 in Hf.
  pose proof (Rceil_bounds (IZR nv * log2 (mx / mn))) as Hc. fold na in Hc. rewrite log2_div in Hc by lra.
  set (a := Rpower 2 (IZR p0 / IZR nv)). set (b := Rpower 2 (IZR (p0 + na) / IZR nv)).
  assert (Hi : 0 < / IZR nv) by (apply Rinv_0_lt_compat; lra).
  assert (Hab : a < b). { apply pow2_lt. apply Rmult_lt_compat_r; [exact Hi|]. apply IZR_lt. lia. }
  assert (Ha : 0 < a) by apply pow2_pos.
  assert (Hn2 : (2 <= Rceil (b / a))%Z).
  { pose proof (Rceil_bounds (b / a)). assert (1 < b / a).
    { apply Rmult_lt_reg_r with a; [exact Ha|]. unfold Rdiv. rewrite Rmult_assoc, Rinv_l by lra. lra. }
    assert (1 < Rceil (b / a))%Z by (apply lt_IZR; lra). lia. }
  set (n := Z.to_nat (Rceil (b / a))). assert (Hn : (2 <= n)%nat) by (unfold n; lia).
  exists (linspace a b n). split; [reflexivity|].
  assert (Hlen : length (linspace a b n) = n) by apply tab_length.
  assert (Hnth : forall k, (k < n)%nat -> nth k (linspace a b n) 0 = a + INR k * ((b - a) / INR (n - 1))).
  { intros k Hk. unfold linspace. rewrite nth_tab by exact Hk. destruct (Nat.eqb_spec n 1); [lia|reflexivity]. }
  assert (Hn1 : 0 < INR (n - 1)) by (apply lt_0_INR; lia).
  assert (H0 : nth 0 (linspace a b n) 0 = a) by (rewrite Hnth by lia; cbn [INR]; ring).
  assert (HL : last (linspace a b n) 0 = b).
  { rewrite <- nth_last_R by (intros E; rewrite E in Hlen; cbn in Hlen; lia). rewrite Hlen, Hnth by lia. field. lra. }
  rewrite Hlen, H0, HL. split; [exact Hn|].
  assert (Em : Rpower 2 (log2 mn) = mn) by (apply pow2_log2; lra).
  assert (Ex : Rpower 2 (log2 mx) = mx) by (apply pow2_log2; lra).
  split; [|split].
  - split.
    + replace (mn / Rpower 2 (1 / IZR nv)) with (Rpower 2 ((IZR nv * log2 mn - 1) / IZR nv)).
      * apply pow2_lt, Rmult_lt_compat_r; lra.
      * replace ((IZR nv * log2 mn - 1) / IZR nv) with (log2 mn + - (1 / IZR nv)) by (field; lra).
        rewrite Rpower_plus, Rpower_Ropp, Em. reflexivity.
    + rewrite <- Em. apply pow2_le. replace (log2 mn) with ((IZR nv * log2 mn) / IZR nv) by (field; lra).
      apply Rmult_le_compat_r; lra.
  - unfold b. rewrite plus_IZR. split.
    + replace (mx / Rpower 2 (1 / IZR nv)) with (Rpower 2 ((IZR nv * log2 mx - 1) / IZR nv)).
      * apply pow2_lt, Rmult_lt_compat_r; lra.
      * replace ((IZR nv * log2 mx - 1) / IZR nv) with (log2 mx + - (1 / IZR nv)) by (field; lra).
        rewrite Rpower_plus, Rpower_Ropp, Ex. reflexivity.
    + replace (mx * Rpower 2 (1 / IZR nv)) with (Rpower 2 ((IZR nv * log2 mx + 1) / IZR nv)).
      * apply pow2_lt, Rmult_lt_compat_r; lra.
      * replace ((IZR nv * log2 mx + 1) / IZR nv) with (log2 mx + 1 / IZR nv) by (field; lra).
        rewrite Rpower_plus, Ex. reflexivity.
  - intros k Hk. rewrite !Hnth by lia. rewrite S_INR. field. lra.
Qed.
