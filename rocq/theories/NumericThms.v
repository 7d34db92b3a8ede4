(** Repackaging of lemmas for PropertiesNumeric, and the concrete cases. *)
From Coq Require Import Reals Lra ZifyBool ZifyNat.
From Verif Require Import Py Round Cplx CplxProofs Squeeze Scales Cwt Wavelets WaveletProofs Comb CombProofs
  Search SearchProofs Chirp ChirpProofs FreqScale FreqScaleProofs.
Local Open Scope R_scope.

Lemma first_stops_pos f value a : (0 < n_steps a)%Z -> (0 < increment a)%Z ->
  exists fuel r, find_first_occurrence f value a fuel = Some r.
Proof.
  intros Hs Hi. destruct (Z.eq_dec (n_steps a) 1) as [E|E].
  - exists 0%nat. unfold find_first_occurrence. replace (n_steps a <=? 1)%Z with true by lia. eauto.
  - apply find_first_stops; lia.
Qed.
Lemma find_maximum_result f a minv fuel x v : find_maximum f a minv fuel = Some (Ok (x, v)) ->
  let n := Z.to_nat (n_steps a) in
  let s i := sa_start a + INR i * (IZR (increment a) / IZR (n_steps a)) in
  exists K i0, (i0 < K * n)%nat /\ x = s i0 /\ v = f x /\ minv < v /\
    (forall i, (i < (K + 1) * n)%nat -> f (s i) <= v) /\
    (forall i, (i < i0)%nat -> f (s i) < v) /\
    (forall i, (K * n <= i < (K + 1) * n)%nat -> f (s i) < v).
Proof.
  intros E. destruct (Z_lt_le_dec 0 (n_steps a)) as [H|H].
  - exact (find_maximum_ok a H f minv fuel x v E).
  - unfold find_maximum in E. replace (n_steps a <=? 0)%Z with true in E by lia. discriminate.
Qed.
Lemma find_first_result f value a fuel x v : find_first_occurrence f value a fuel = Some (Ok (x, v)) ->
  let n := Z.to_nat (n_steps a) in
  let s i := sa_start a + INR i * (IZR (increment a) / IZR (n_steps a)) in
  let jump (y : nat -> R) m := (exists i, (S i < n)%nat /\ m = Rabs (y (S i) - y i)) /\
                               (forall i, (S i < n)%nat -> Rabs (y (S i) - y i) <= m) in
  exists K (u : nat -> R) j,
    ((forall i, u i = s (K * n + i)%nat) \/ (forall i, u i = Rmin (s (K * n + i)%nat) (sa_limit a))) /\
    (j < n)%nat /\ x = u j /\ v = f x /\
    (exists m, jump (fun i => f (u i)) m /\ Rabs (v - value) <= m) /\
    (forall i, (i < n)%nat -> Rabs (v - value) <= Rabs (f (u i) - value)) /\
    (forall i, (i < j)%nat -> Rabs (v - value) < Rabs (f (u i) - value)) /\
    (forall k, (k < K)%nat -> (forall i, (i < n)%nat -> s (k * n + i)%nat <= sa_limit a) /\
       exists m, jump (fun i => f (s (k * n + i)%nat)) m /\
         forall i, (i < n)%nat -> m < Rabs (f (s (k * n + i)%nat) - value)).
Proof.
  intros E. destruct (Z_lt_le_dec 1 (n_steps a)) as [H|H].
  - destruct (find_first_ok f value a H fuel x v E) as (K & j & Hj & Hx & Hv & Hm & Hc & Hf & He).
    exists K, (used a K), j.
    split. { unfold used. destruct (Rltb' _ _); [right|left]; reflexivity. }
    split; [exact Hj|]. split; [exact Hx|]. split; [exact Hv|]. split; [exact Hm|].
    split; [exact Hc|]. split; [exact Hf|]. intros k Hk. destruct (He k Hk) as [Hl Hd]. split; [|exact Hd].
    intros i Hi. apply Rle_trans with (lmax (inputs a k)); [|exact Hl].
    pose proof (inputs_nth a ltac:(lia) k i Hi) as N. unfold sample in N. rewrite <- N.
    apply lmax_ge. rewrite (inputs_length a). exact Hi.
  - unfold find_first_occurrence in E. replace (n_steps a <=? 1)%Z with true in E by lia. discriminate.
Qed.
Lemma search_hangs : exists a, (0 < n_steps a)%Z /\ 0 < sa_size a /\ sa_start a < sa_limit a /\
  forall f minv value, minv <= f (sa_start a) -> f (sa_start a) <> value ->
  forall fuel, find_maximum f a minv fuel = None /\ find_first_occurrence f value a fuel = None.
Proof.
  exists fine_args. rewrite fine_steps. split; [lia|]. split; [cbn; lra|]. split; [cbn; lra|].
  intros f minv value Hm Hv fuel. split.
  - apply find_maximum_hangs; [rewrite fine_steps; lia|apply fine_increment|cbn; lra|auto].
  - apply find_first_hangs; [rewrite fine_steps; lia|apply fine_increment|cbn; lra|auto].
Qed.

Lemma nCk_pascal n k : (S k <= n)%nat ->
  nCk (Z.of_nat (S n)) (Z.of_nat (S k)) = nCk (Z.of_nat n) (Z.of_nat k) + nCk (Z.of_nat n) (Z.of_nat (S k)).
Proof. intros H. rewrite !nCk_binom by lia. rewrite <- plus_INR. f_equal. Qed.
Lemma nCk_case : nCk 6 2 = 15.
Proof. change (nCk (Z.of_nat 6) (Z.of_nat 2) = 15). rewrite nCk_binom by lia. cbn. lra. Qed.
Lemma cumulants_nCk (m K : list R) : moments_to_cumulants m = Ok K -> nth 0 m 0 <> 0 ->
  length K = length m /\ nth 0 K 0 = ln (nth 0 m 0) /\
  forall n, (0 < n < length m)%nat -> nth n m 0 =
    Rsum n (fun i => nCk (Z.of_nat (n - 1)) (Z.of_nat i) * nth (S i) K 0 * nth (n - S i) m 0).
Proof.
  intros E H. destruct (cumulants_recursion m K E H) as (A & B & D). split; [auto|]. split; [auto|].
  intros n Hn. rewrite D by auto. apply Rsum_ext. intros i Hi. rewrite nCk_binom by lia. reflexivity.
Qed.
Lemma cumulants_only (m K : list R) : moments_to_cumulants m = Ok K -> nth 0 m 0 <> 0 ->
  forall K', length K' = length m -> nth 0 K' 0 = ln (nth 0 m 0) ->
  (forall n, (0 < n < length m)%nat -> nth n m 0 =
    Rsum n (fun i => nCk (Z.of_nat (n - 1)) (Z.of_nat i) * nth (S i) K' 0 * nth (n - S i) m 0)) -> K' = K.
Proof.
  intros E H K' L H0 HK. destruct (cumulants_recursion m K E H) as (A & B & D).
  apply (nth_ext _ _ 0 0); [congruence|]. intros i Hi. destruct i as [|i]; [congruence|].
  apply (cumulants_unique m (fun i => nth i K' 0) (fun i => nth i K 0) H); [|exact D|lia].
  intros n Hn. rewrite HK by auto. apply Rsum_ext. intros j Hj. rewrite nCk_binom by lia. reflexivity.
Qed.
Lemma nCk_00 : nCk 0 0 = 1.
Proof. change (nCk (Z.of_nat 0) (Z.of_nat 0) = 1). rewrite nCk_binom by lia. cbn. lra. Qed.
Lemma nCk_10 : nCk 1 0 = 1.
Proof. change (nCk (Z.of_nat 1) (Z.of_nat 0) = 1). rewrite nCk_binom by lia. cbn. lra. Qed.
Lemma cumulants_case : exists K, moments_to_cumulants [1; 2; 5] = Ok K /\ K = [0; 2; 1].
Proof.
  eexists. split; [reflexivity|]. cbn [length Nat.sub cumulants_upto app].
  unfold cumulant_next. cbn [nth Nat.sub seq fold_left Z.of_nat Z.sub Z.opp Z.add Z.pos_sub Pos.of_succ_nat Pos.succ Z.pred_double Pos.pred_double].
  rewrite nCk_10, ln_1. repeat (f_equal; try lra).
Qed.

Lemma gmw_freq_case : (2 <= length [2; 4])%nat /\
  Rpower (60 / 3) (1 / 3) <= nth 1 [2; 4] 0 * (2 * PI) * (INR (16 / 2) / INR 16).
Proof.
  split; [cbn; lia|]. cbn [nth]. replace (60 / 3) with 20 by field.
  change (16 / 2)%nat with 8%nat. replace (INR 8 / INR 16) with (1 / 2) by (cbn; field).
  pose proof PI2_3_2 as H. unfold PI2 in H. pose proof PI_RGT_0.
  apply Rle_trans with 3; [|nra].
  assert (E : Rpower 27 (1 / 3) = 3).
  { replace 27 with (Rpower 3 3). - rewrite Rpower_mult. replace (3 * (1 / 3)) with 1 by field. apply Rpower_1. lra.
    - replace 3 with (INR 3) at 2 by (cbn; ring). rewrite Rpower_pow by lra. lra. }
  assert (X : Rpower 20 (1 / 3) < Rpower 27 (1 / 3)) by (apply Rlt_Rpower_l; lra). lra.
Qed.
Definition flat_wf : wfun := WF (fun _ => RtoC 1) false NotGmw.
Lemma single_scale_case : exists f s N fs, (2 <= N)%nat /\ 0 < fs /\ 0 < s /\
  forall b, scale_to_freq f [s] N fs b = Err TypeError.
Proof. exists flat_wf, 1, 2%nat, 1. split; [lia|]. split; [lra|]. split; [lra|]. intros b. apply scale_to_freq_single. Qed.
Lemma one_sample_case : exists f scales fs, 0 < fs /\ scale_to_freq f scales 1 fs true = Err AssertionError.
Proof. exists flat_wf, [1; 2; 3], 1. split; [lra|]. apply scale_to_freq_one_sample. Qed.
Lemma echirp_zero_case : exists tmin tmax fmin fmax, tmin < tmax /\ 0 < fmin < fmax /\
  echirp tmin tmax fmin fmax = Err ZeroDivisionError.
Proof. exists (-1), 0, 1, 2. split; [lra|]. split; [lra|]. now apply echirp_fails. Qed.
