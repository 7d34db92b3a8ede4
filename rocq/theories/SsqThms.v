From Coq Require Import ZifyBool ZifyNat.
From Verif Require Import Py Round Parallel Cplx CplxProofs Stft Squeeze SqueezeProofs BinProofs
  SqueezeThms SqueezeThms2 SqueezeThms3 Scales Ssqueeze SsqueezeProofs.
Local Open Scope R_scope.
Ltac Zify.zify_post_hook ::= Z.div_mod_to_equations.

Lemma Rsum_mul_r n c f : Rsum n (fun i => f i * c) = Rsum n f * c.
Proof. induction n; simpl; [ring|rewrite IHn; ring]. Qed.

(** ** Component inversion (C33) *)
(** the band the user asks for: rows within [w] of the centre [c] *)
Definition covers (c w : Z) (r : nat) : Prop := (c <> -1 /\ c - w <= Z.of_nat r <= c + w)%Z.

Lemma in_band_spec L cc cw n m r : (r < L)%nat ->
  (-1 <= el cc m n)%Z -> (0 <= el cw m n)%Z ->
  in_band L cc cw n m r = true <-> covers (el cc m n) (el cw m n) r.
Proof.
  intros Hr Hc Hw. unfold in_band, in_slice, band_lower, band_upper, covers, clip, norm_bound.
  destruct (Z.eqb_spec (el cc m n) (-1)) as [E|E].
  - rewrite Bool.andb_true_iff, Z.leb_le, Z.ltb_lt.
    destruct (Z.ltb_spec 1 0); [lia|]. destruct (Z.ltb_spec (0 + 1) 0); lia.
  - rewrite Bool.andb_true_iff, Z.leb_le, Z.ltb_lt.
    destruct (Z.ltb_spec (Z.min (Z.max (el cc m n - el cw m n) 0) (Z.of_nat L)) 0);
    destruct (Z.ltb_spec (Z.min (Z.max (el cc m n + el cw m n) 0) (Z.of_nat L) + 1) 0); lia.
Qed.

(** [Rsum] over a list of rows *)
Definition lrow (l : list (list R)) (n m : nat) : R := nth m (nth n l []) 0.

Lemma remainder_el K L cc cw Tx r m :
  ((forall n, (n < K)%nat -> in_band L cc cw n m r = false) -> remainder K L cc cw Tx r m = el Tx r m) /\
  (forall n, (n < K)%nat -> in_band L cc cw n m r = true -> remainder K L cc cw Tx r m = C0).
Proof.
  induction K as [|K [IH1 IH2]]; cbn [remainder].
  - split; [reflexivity|intros; lia].
  - split.
    + intros H. rewrite H by lia. apply IH1. intros; apply H; lia.
    + intros n Hn Hb. destruct (in_band L cc cw K m r) eqn:E; [reflexivity|].
      apply (IH2 n); [|exact Hb]. destruct (Nat.eq_dec n K); [congruence|lia].
Qed.

(** one cell: the masked copies and the remainder add up *)
Lemma cell_partition K L cc cw Tx r m :
  (forall n n', (n < K)%nat -> (n' < K)%nat -> in_band L cc cw n m r = true ->
     in_band L cc cw n' m r = true -> n = n') ->
  Rsum K (fun n => Re (masked L cc cw Tx n r m)) + Re (remainder K L cc cw Tx r m) = Re (el Tx r m).
Proof.
  intros Hd. unfold masked.
  destruct (existsb (fun n => in_band L cc cw n m r) (seq 0 K)) eqn:E.
  - apply existsb_exists in E. destruct E as (n & Hn & Hb). apply in_seq in Hn.
    assert (Hs : forall i, (i < K)%nat -> i <> n -> Re (if in_band L cc cw i m r then el Tx r m else C0) = 0).
    { intros i Hi Hne. destruct (in_band L cc cw i m r) eqn:Ei; [|reflexivity].
      exfalso; apply Hne; apply Hd; auto; lia. }
    rewrite (Rsum_single K _ n ltac:(lia) Hs).
    rewrite Hb. rewrite (proj2 (remainder_el K L cc cw Tx r m) n) by (auto; lia). cbn. ring.
  - assert (Hf : forall n, (n < K)%nat -> in_band L cc cw n m r = false).
    { intros n Hn. destruct (in_band L cc cw n m r) eqn:Ei; [|reflexivity].
      assert (existsb (fun n => in_band L cc cw n m r) (seq 0 K) = true); [|congruence].
      apply existsb_exists. exists n. split; [apply in_seq; lia|exact Ei]. }
    rewrite Rsum_0 by (intros i Hi; rewrite Hf by exact Hi; reflexivity).
    rewrite (proj1 (remainder_el K L cc cw Tx r m) Hf). ring.
Qed.

Section Components.
Variables (Tx : mat C) (cc cw : mat Z) (xs : list (list R)).
Let K := ncols cc.
Let L := nrows Tx.
Hypothesis Hok : invert_components Tx cc cw = Ok xs.

Lemma components_val : length xs = S K /\
  (forall n m, (n < K)%nat -> (m < ncols Tx)%nat ->
     lrow xs n m = Rsum L (fun r => Re (masked L cc cw Tx n r m))) /\
  (forall m, (m < ncols Tx)%nat ->
     lrow xs K m = Rsum L (fun r => Re (remainder K L cc cw Tx r m))) /\
  (forall n, (n <= K)%nat -> length (nth n xs []) = ncols Tx).
Proof.
  pose proof Hok as E. unfold invert_components in E.
  destruct (ncols cc =? 0)%nat; [discriminate|]. destruct (_ || _ || _)%bool; [discriminate|].
  destruct (negb (nrows cw =? nrows cc)%nat); [discriminate|].
  destruct (negb (ncols Tx =? nrows cc)%nat); [destruct (ncols Tx =? 1)%nat; discriminate|].
  fold K L in E. injection E as <-.
  set (F := fun n => tab (ncols Tx) (fun m => Rsum L (fun r => Re (masked L cc cw Tx n r m)))).
  assert (HF : length (map F (seq 0 K)) = K) by (rewrite map_length, seq_length; reflexivity).
  assert (Hn : forall n, (n < K)%nat -> nth n (map F (seq 0 K)) [] = F n).
  { intros n Hn. rewrite (nth_indep _ [] (F 0%nat)) by lia. rewrite (map_nth F).
    rewrite seq_nth by lia. reflexivity. }
  repeat split.
  - rewrite app_length, HF. cbn. lia.
  - intros n m Hlt Hm. unfold lrow. rewrite app_nth1 by lia. rewrite Hn by exact Hlt.
    unfold F. rewrite nth_tab by exact Hm. reflexivity.
  - intros m Hm. unfold lrow. rewrite app_nth2 by lia. rewrite HF, Nat.sub_diag. cbn [nth].
    rewrite nth_tab by exact Hm. reflexivity.
  - intros n Hle. destruct (Nat.eq_dec n K) as [->|].
    + rewrite app_nth2 by lia. rewrite HF, Nat.sub_diag. cbn [nth]. apply tab_length.
    + rewrite app_nth1 by lia. rewrite Hn by lia. apply tab_length.
Qed.

Hypothesis Hcc : forall m n, (m < ncols Tx)%nat -> (n < K)%nat -> (-1 <= el cc m n)%Z /\ (0 <= el cw m n)%Z.

(** a component is the sum of the coefficients of its band *)
Theorem component_is_band n m (inb : nat -> bool) : (n < K)%nat -> (m < ncols Tx)%nat ->
  (forall r, (r < L)%nat -> inb r = true <-> covers (el cc m n) (el cw m n) r) ->
  lrow xs n m = Rsum L (fun r => if inb r then Re (el Tx r m) else 0).
Proof.
  intros Hn Hm Hi. destruct components_val as (_ & H & _). rewrite (H n m Hn Hm).
  apply Rsum_ext. intros r Hr. unfold masked. destruct (Hcc m n Hm Hn) as [H1 H2].
  pose proof (in_band_spec L cc cw n m r Hr H1 H2) as Hs. specialize (Hi r Hr).
  destruct (in_band L cc cw n m r), (inb r); try reflexivity; exfalso;
    [assert (false = true) by tauto|assert (false = true) by tauto]; discriminate.
Qed.

(** the last row holds exactly the coefficients in no band *)
Theorem residual_is_rest m (inb : nat -> bool) : (m < ncols Tx)%nat ->
  (forall r, (r < L)%nat -> inb r = true <-> exists n, (n < K)%nat /\ covers (el cc m n) (el cw m n) r) ->
  lrow xs K m = Rsum L (fun r => if inb r then 0 else Re (el Tx r m)).
Proof.
  intros Hm Hi. destruct components_val as (_ & _ & H & _). rewrite (H m Hm).
  apply Rsum_ext. intros r Hr. specialize (Hi r Hr).
  destruct (inb r).
  - destruct (proj1 Hi eq_refl) as (n & Hn & Hc). destruct (Hcc m n Hm Hn) as [H1 H2].
    apply (in_band_spec L cc cw n m r Hr H1 H2) in Hc.
    rewrite (proj2 (remainder_el K L cc cw Tx r m) n Hn Hc). reflexivity.
  - rewrite (proj1 (remainder_el K L cc cw Tx r m)); [reflexivity|].
    intros n Hn. destruct (in_band L cc cw n m r) eqn:E; [|reflexivity].
    destruct (Hcc m n Hm Hn) as [H1 H2]. apply (in_band_spec L cc cw n m r Hr H1 H2) in E.
    assert (false = true) by (apply Hi; eauto). discriminate.
Qed.

(** disjoint bands: everything adds up to the full inverse *)
Theorem components_partition :
  (forall m r n n', (m < ncols Tx)%nat -> (r < L)%nat -> (n < K)%nat -> (n' < K)%nat ->
     covers (el cc m n) (el cw m n) r -> covers (el cc m n') (el cw m n') r -> n = n') ->
  forall m, (m < ncols Tx)%nat -> Rsum (S K) (fun n => lrow xs n m) = nth m (real_colsum Tx) 0.
Proof.
  intros Hd m Hm. destruct components_val as (_ & H1 & H2 & _). cbn [Rsum].
  rewrite (Rsum_ext K _ (fun n => Rsum L (fun r => Re (masked L cc cw Tx n r m)))) by (intros n Hn; apply H1; auto).
  rewrite (H2 m Hm), Rsum_swap, <- Rsum_plus.
  unfold real_colsum. rewrite nth_tab by exact Hm. apply Rsum_ext. intros r Hr.
  apply cell_partition. intros n n' Hn Hn' E E'.
  destruct (Hcc m n Hm Hn) as [A1 A2]. destruct (Hcc m n' Hm Hn') as [B1 B2].
  apply (Hd m r); auto; [apply (in_band_spec L cc cw n m r Hr A1 A2); exact E|apply (in_band_spec L cc cw n' m r Hr B1 B2); exact E'].
Qed.
End Components.

Lemma nth_scaled c l n m : (n < length l)%nat -> lrow (map (map (fun y => y * c)) l) n m = lrow l n m * c.
Proof.
  intros Hn. unfold lrow. rewrite (nth_indep _ [] (map (fun y => y * c) [])) by (rewrite map_length; exact Hn).
  rewrite map_nth. destruct (Nat.lt_ge_cases m (length (nth n l []))).
  - rewrite (nth_indep _ 0 (0 * c)) by (rewrite map_length; assumption). apply (map_nth (fun y => y * c)).
  - rewrite !nth_overflow by (rewrite ?map_length; assumption). ring.
Qed.
Lemma nth_scaled1 c l m : nth m (map (fun y => y * c) l) 0 = nth m l 0 * c.
Proof.
  destruct (Nat.lt_ge_cases m (length l)).
  - rewrite (nth_indep _ 0 (0 * c)) by (rewrite map_length; assumption). apply (map_nth (fun y => y * c)).
  - rewrite !nth_overflow by (rewrite ?map_length; assumption). ring.
Qed.

Theorem issq_cwt_partition Css Tx cc cw xs y :
  issq_cwt Css Tx (Some (cc, cw)) = Ok (Many xs) -> issq_cwt Css Tx None = Ok (One y) ->
  (forall m n, (m < ncols Tx)%nat -> (n < ncols cc)%nat -> (-1 <= el cc m n)%Z /\ (0 <= el cw m n)%Z) ->
  (forall m r n n', (m < ncols Tx)%nat -> (r < nrows Tx)%nat -> (n < ncols cc)%nat -> (n' < ncols cc)%nat ->
     covers (el cc m n) (el cw m n) r -> covers (el cc m n') (el cw m n') r -> n = n') ->
  length xs = S (ncols cc) /\
  forall m, (m < ncols Tx)%nat -> Rsum (S (ncols cc)) (fun n => lrow xs n m) = nth m y 0.
Proof.
  unfold issq_cwt, invert. intros E1 E2 Hcc Hd. cbn [bind] in E2. injection E2 as <-.
  destruct (invert_components Tx cc cw) as [l|] eqn:E; [|discriminate]. cbn [bind] in E1.
  apply (f_equal (fun r => match r with Ok (Many l) => l | _ => [] end)) in E1. cbn in E1. subst xs.
  pose proof (components_val Tx cc cw l E) as (HL & _). split; [rewrite map_length; exact HL|].
  intros m Hm. rewrite nth_scaled1. rewrite <- (components_partition Tx cc cw l E Hcc Hd m Hm).
  rewrite <- Rsum_mul_r. apply Rsum_ext. intros n Hn. apply nth_scaled. lia.
Qed.
