(** Proofs about [nCk] and the cumulants. *)
From Coq Require Import Reals Lra ZifyBool ZifyNat.
From Verif Require Import Py Cplx CplxProofs Comb.
Local Open Scope R_scope.

(** binomial coefficients by Pascal's rule *)
Fixpoint binom (n k : nat) : nat :=
  match k, n with
  | O, _ => 1
  | S _, O => 0
  | S k', S n' => binom n' k' + binom n' k
  end.
Lemma binom_n_0 n : binom n 0 = 1%nat. Proof. destruct n; reflexivity. Qed.
Lemma binom_over n : forall k, (n < k)%nat -> binom n k = 0%nat.
Proof. induction n; intros [|k] H; try lia; cbn; [reflexivity|]. rewrite !IHn; lia. Qed.
Lemma binom_diag n : binom n n = 1%nat.
Proof. induction n; cbn; [reflexivity|]. rewrite IHn, binom_over; lia. Qed.
Lemma binom_fact n : forall k, (k <= n)%nat -> (binom n k * (fact k * fact (n - k)))%nat = fact n.
Proof.
  induction n as [|n IH]; intros [|k] H; try lia; [cbn; lia|cbn [binom]; rewrite Nat.sub_0_r; cbn [fact]; lia|].
  cbn [binom]. rewrite Nat.mul_add_distr_r.
  assert (E1 : (binom n k * (fact (S k) * fact (S n - S k)))%nat = (S k * fact n)%nat).
  { rewrite <- (IH k) by lia. replace (S n - S k)%nat with (n - k)%nat by lia.
    change (fact (S k)) with (S k * fact k)%nat. nia. }
  rewrite E1. destruct (Nat.eq_dec k n) as [->|Hn].
  - rewrite binom_over by lia. rewrite Nat.mul_0_l, Nat.add_0_r. reflexivity.
  - assert (E2 : (binom n (S k) * (fact (S k) * fact (S n - S k)))%nat = ((n - k) * fact n)%nat).
    { rewrite <- (IH (S k)) by lia. replace (S n - S k)%nat with (S (n - S k)) by lia.
      change (fact (S (n - S k))) with (S (n - S k) * fact (n - S k))%nat.
      replace (S (n - S k)) with (n - k)%nat by lia. nia. }
    rewrite E2. replace (fact (S n)) with (S n * fact n)%nat by reflexivity. nia.
Qed.
Lemma binom_sym n k : (k <= n)%nat -> binom n (n - k) = binom n k.
Proof.
  intros H. pose proof (binom_fact n k H) as A. pose proof (binom_fact n (n - k) ltac:(lia)) as B.
  replace (n - (n - k))%nat with k in B by lia.
  rewrite (Nat.mul_comm (fact (n - k))) in B.
  apply (Nat.mul_cancel_r _ _ (fact k * fact (n - k))); [|congruence].
  apply Nat.neq_mul_0. split; apply fact_neq_0.
Qed.

Lemma prodZ_app l x : prodZ (l ++ [x]) = (prodZ l * x)%Z.
Proof. unfold prodZ. rewrite fold_left_app. reflexivity. Qed.
Lemma range_up_S a m : range_up a (a + Z.of_nat (S m)) = range_up a (a + Z.of_nat m) ++ [(a + Z.of_nat m)%Z].
Proof.
  unfold range_up. replace (Z.to_nat (a + Z.of_nat (S m) - a)) with (S m) by lia.
  replace (Z.to_nat (a + Z.of_nat m - a)) with m by lia. rewrite seq_S, map_app. reflexivity.
Qed.
Lemma range_down_S a m : range_down a (a - Z.of_nat (S m)) = range_down a (a - Z.of_nat m) ++ [(a - Z.of_nat m)%Z].
Proof.
  unfold range_down. replace (Z.to_nat (a - (a - Z.of_nat (S m)))) with (S m) by lia.
  replace (Z.to_nat (a - (a - Z.of_nat m))) with m by lia. rewrite seq_S, map_app. reflexivity.
Qed.
Lemma denom_fact r : prodZ (range_up 1 (1 + Z.of_nat r)) = Z.of_nat (fact r).
Proof.
  induction r as [|r IH]; [reflexivity|]. rewrite range_up_S, prodZ_app, IH.
  change (fact (S r)) with (S r * fact r)%nat. lia.
Qed.
Lemma numer_fact n r : (r <= n)%nat ->
  (prodZ (range_down (Z.of_nat n) (Z.of_nat n - Z.of_nat r)) * Z.of_nat (fact (n - r)))%Z = Z.of_nat (fact n).
Proof.
  induction r as [|r IH]; intros H.
  - rewrite Nat.sub_0_r. unfold range_down. replace (Z.to_nat _) with 0%nat by lia. cbn [seq map prodZ].
    unfold prodZ; cbn [fold_left]. lia.
  - rewrite range_down_S, prodZ_app, <- IH by lia. replace (n - r)%nat with (S (n - S r)) by lia.
    change (fact (S (n - S r))) with (S (n - S r) * fact (n - S r))%nat. rewrite Nat2Z.inj_mul.
    replace (Z.of_nat n - Z.of_nat r)%Z with (Z.of_nat (S (n - S r))) by lia. ring.
Qed.
Lemma nCk_min n r : (r <= n)%nat ->
  IZR (prodZ (range_down (Z.of_nat n) (Z.of_nat n - Z.of_nat r))) / IZR (prodZ (range_up 1 (Z.of_nat r + 1))) =
  INR (binom n r).
Proof.
  intros H. rewrite (Z.add_comm _ 1), denom_fact. pose proof (numer_fact n r H) as A.
  pose proof (binom_fact n r H) as B. pose proof (lt_O_fact r). pose proof (lt_O_fact (n - r)).
  assert (E : (prodZ (range_down (Z.of_nat n) (Z.of_nat n - Z.of_nat r)) = Z.of_nat (binom n r * fact r))%Z).
  { apply (Z.mul_reg_r _ _ (Z.of_nat (fact (n - r)))); [lia|]. rewrite A, <- B, !Nat2Z.inj_mul. ring. }
  rewrite E, <- INR_IZR_INZ, <- INR_IZR_INZ, mult_INR. field. apply not_0_INR. lia.
Qed.
Theorem nCk_binom n k : (k <= n)%nat -> nCk (Z.of_nat n) (Z.of_nat k) = INR (binom n k).
Proof.
  intros H. unfold nCk. destruct (Z.min_spec (Z.of_nat k) (Z.of_nat n - Z.of_nat k)) as [[_ ->]|[_ ->]].
  - now apply nCk_min.
  - rewrite <- (binom_sym n k) by auto. replace (Z.of_nat n - Z.of_nat k)%Z with (Z.of_nat (n - k)) by lia.
    apply nCk_min. lia.
Qed.
Theorem nCk_fact n k : (k <= n)%nat ->
  nCk (Z.of_nat n) (Z.of_nat k) = INR (fact n) / (INR (fact k) * INR (fact (n - k))).
Proof.
  intros H. rewrite nCk_binom, <- (binom_fact n k H), !mult_INR by auto. field.
  split; apply not_0_INR; apply fact_neq_0.
Qed.
(** outside [0 <= k <= n] the value is 1, where the coefficient is 0 *)
Theorem nCk_outside n k : (0 <= n)%Z -> (k < 0)%Z \/ (n < k)%Z -> nCk n k = 1.
Proof.
  intros Hn H. unfold nCk, range_up, range_down.
  replace (Z.to_nat (n - (n - Z.min k (n - k)))) with 0%nat by lia.
  replace (Z.to_nat (Z.min k (n - k) + 1 - 1)) with 0%nat by lia. cbn. field.
Qed.

(** ** cumulants *)
Lemma fold_Rsum (f : nat -> R) a n : fold_left (fun c k => c + f k) (seq a n) 0 = Rsum n (fun i => f (a + i)%nat).
Proof.
  induction n as [|n IH]; [reflexivity|]. rewrite seq_S, fold_left_app, IH. reflexivity.
Qed.
Lemma upto_length m n : length (cumulants_upto m n) = S n.
Proof. induction n; cbn; [reflexivity|]. rewrite app_length, IHn. cbn. lia. Qed.
Lemma upto_nth m n : forall k, (k <= n)%nat ->
  nth k (cumulants_upto m n) 0 =
  match k with O => ln (nth 0 m 0) | S k' => cumulant_next m (cumulants_upto m k') k end.
Proof.
  induction n as [|n IH]; intros k H.
  - assert (k = 0)%nat as -> by lia. reflexivity.
  - cbn [cumulants_upto]. destruct (Nat.eq_dec k (S n)) as [->|Hk].
    + rewrite app_nth2 by (rewrite upto_length; lia). rewrite upto_length, Nat.sub_diag. reflexivity.
    + rewrite app_nth1 by (rewrite upto_length; lia). apply IH. lia.
Qed.
Lemma upto_nth_stable m n n' k : (k <= n)%nat -> (k <= n')%nat -> nth k (cumulants_upto m n) 0 = nth k (cumulants_upto m n') 0.
Proof. intros. rewrite !upto_nth by auto. reflexivity. Qed.
(** the recursion, solved for the [n]-th moment *)
Theorem cumulants_recursion m K : moments_to_cumulants m = Ok K -> nth 0 m 0 <> 0 ->
  length K = length m /\ nth 0 K 0 = ln (nth 0 m 0) /\
  forall n, (0 < n < length m)%nat ->
    nth n m 0 = Rsum n (fun i => INR (binom (n - 1) i) * nth (S i) K 0 * nth (n - S i) m 0).
Proof.
  intros E H0. unfold moments_to_cumulants in E. destruct m as [|m0 m']; [discriminate|].
  set (m := m0 :: m') in *. assert (L : (1 <= length m)%nat) by (cbn; lia).
  assert (EK : K = cumulants_upto m (length m - 1)) by congruence. clear E. subst K.
  clearbody m. split; [rewrite upto_length; lia|]. split; [rewrite upto_nth by lia; reflexivity|].
  intros n Hn. destruct n as [|n]; [lia|].
  pose proof (upto_nth m (length m - 1) (S n) ltac:(lia)) as V. cbv beta iota in V.
  unfold cumulant_next in V. rewrite fold_Rsum in V.
  replace (S n - 1)%nat with n in V by lia. cbn [Rsum].
  replace (S n - 1)%nat with n by lia. rewrite binom_diag. replace (S n - S n)%nat with 0%nat by lia.
  rewrite V. set (G := Rsum n (fun i => INR (binom n i) * _ * _)).
  match goal with |- _ = G + _ * (_ - ?F) * _ => assert (EF : F = / nth 0 m 0 * G) end.
  { unfold G. rewrite <- Rsum_scal. apply Rsum_ext. intros i Hi.
    replace (Z.of_nat (S n) - 1)%Z with (Z.of_nat n) by lia.
    replace (Z.of_nat (1 + i) - 1)%Z with (Z.of_nat i) by lia. rewrite nCk_binom by lia.
    rewrite (upto_nth_stable m n (length m - 1)) by lia. cbn [Nat.add]. field. auto. }
  rewrite EF. cbn [INR]. field. auto.
Qed.
(** and the cumulants are the only sequence satisfying it *)
Theorem cumulants_unique m (K1 K2 : nat -> R) : nth 0 m 0 <> 0 ->
  (forall n, (0 < n < length m)%nat ->
     nth n m 0 = Rsum n (fun i => INR (binom (n - 1) i) * K1 (S i) * nth (n - S i) m 0)) ->
  (forall n, (0 < n < length m)%nat ->
     nth n m 0 = Rsum n (fun i => INR (binom (n - 1) i) * K2 (S i) * nth (n - S i) m 0)) ->
  forall n, (0 < n < length m)%nat -> K1 n = K2 n.
Proof.
  intros H0 H1 H2 n. induction n as [n IH] using lt_wf_ind. intros Hn.
  pose proof (H1 n Hn) as A. pose proof (H2 n Hn) as B. destruct n as [|n]; [lia|].
  cbn [Rsum] in A, B. replace (S n - 1)%nat with n in * by lia. rewrite binom_diag in A, B.
  replace (S n - S n)%nat with 0%nat in * by lia. cbn [INR] in A, B.
  rewrite (Rsum_ext n _ (fun i => INR (binom n i) * K2 (S i) * nth (S n - S i) m 0)) in A.
  - rewrite A in B. apply Rplus_eq_reg_l in B. apply Rmult_eq_reg_r in B; [lra|auto].
  - intros i Hi. rewrite IH by lia. reflexivity.
Qed.
