(** Proofs about the frequency layout and the centring shifts. *)
From Coq Require Import Reals Lra ZifyBool ZifyNat.
From Coq Require Import Permutation.
From Verif Require Import Py Buffer BufferProofs Cplx CplxProofs Freqs.
Local Open Scope R_scope.
Ltac Zify.zify_post_hook ::= Z.div_mod_to_equations.

(** ** writes *)
Lemma lset_length A (l : list A) k v : length (lset l k v) = length l.
Proof.
  unfold lset. rewrite app_length, firstn_length.
  pose proof (skipn_length k l) as H. destruct (skipn k l); cbn [length] in *; lia.
Qed.
Lemma nth_lset A (l : list A) k v j d : (k < length l)%nat ->
  nth j (lset l k v) d = if (j =? k)%nat then v else nth j l d.
Proof.
  revert k j. induction l as [|a l IH]; intros k j H; cbn [length] in H; [lia|].
  destruct k; unfold lset; cbn [firstn skipn app].
  - destruct j; reflexivity.
  - destruct j; cbn [nth]; [reflexivity|]. change (nth j (lset l k v) d = if (S j =? S k)%nat then v else nth j l d).
    rewrite IH by lia. reflexivity.
Qed.
Section Scatter.
Context {A : Type} (g : nat -> nat) (val : nat -> A).
Let scatter l is := fold_left (fun l i => lset l (g i) (val i)) is l.
Lemma scatter_length is : forall l, length (scatter l is) = length l.
Proof. induction is as [|i is IH]; intros l; cbn; [reflexivity|]. unfold scatter in IH. rewrite IH. apply lset_length. Qed.
Lemma scatter_out is d j : forall l, (forall i, In i is -> (g i < length l)%nat) ->
  (forall i, In i is -> g i <> j) -> nth j (scatter l is) d = nth j l d.
Proof.
  induction is as [|i is IH]; intros l Hl Hj; cbn; [reflexivity|].
  unfold scatter in IH. rewrite IH.
  - rewrite nth_lset by (apply Hl; left; auto).
    pose proof (Hj i (or_introl eq_refl)). destruct (Nat.eqb_spec j (g i)); congruence.
  - intros i' Hi. rewrite lset_length. apply Hl. right; auto.
  - intros i' Hi. apply Hj. right; auto.
Qed.
Lemma scatter_in is d i : forall l, (forall i, In i is -> (g i < length l)%nat) ->
  In i is -> (forall i', In i' is -> g i' = g i -> i' = i) -> nth (g i) (scatter l is) d = val i.
Proof.
  induction is as [|a is IH]; intros l Hl Hi Hinj; [destruct Hi|]. cbn.
  destruct (in_dec Nat.eq_dec i is) as [Hin|Hout].
  - unfold scatter in IH. apply IH; [|exact Hin|].
    + intros i' Hi'. rewrite lset_length. apply Hl. right; auto.
    + intros i' Hi'. apply Hinj. right; auto.
  - destruct Hi as [->|Hi]; [|contradiction].
    pose proof (scatter_out is d (g i) (lset l (g i) (val i))) as S. unfold scatter in S.
    rewrite S.
    + rewrite nth_lset by (apply Hl; left; auto). now rewrite Nat.eqb_refl.
    + intros i' Hi'. rewrite lset_length. apply Hl. right; auto.
    + intros i' Hi' E. apply Hout. rewrite <- (Hinj i'); auto. right; auto.
Qed.
End Scatter.

Lemma aifftshift_length A (d : A) xh : length (aifftshift d xh) = length xh.
Proof.
  unfold aifftshift. destruct (_ =? 0)%nat; [|apply ifftshift_length].
  rewrite (scatter_length (fun i => i - length xh / 2 - 1)%nat (fun i => nth i xh d)).
  rewrite (scatter_length (fun i => i + length xh / 2 - 1)%nat (fun i => nth i xh d)).
  apply repeat_length.
Qed.
Lemma afftshift_length A (d : A) xh : length (afftshift d xh) = length xh.
Proof.
  unfold afftshift. destruct (_ =? 0)%nat; [|apply fftshift_length]. apply tab_length.
Qed.

Lemma nth_aifftshift_even A (d : A) xh h j : length xh = (2 * h)%nat -> (j < 2 * h)%nat ->
  nth j (aifftshift d xh) d = nth (if (j <? h - 1)%nat then j + h + 1 else j + 1 - h)%nat xh d.
Proof.
  intros L Hj. unfold aifftshift. rewrite L.
  replace (2 * h / 2)%nat with h by lia. replace ((2 * h) mod 2 =? 0)%nat with true by lia.
  set (a := fold_left _ (seq 0 _) _).
  assert (La : length a = (2 * h)%nat).
  { unfold a. rewrite (scatter_length (fun i => i + h - 1)%nat (fun i => nth i xh d)). apply repeat_length. }
  destruct (Nat.ltb_spec j (h - 1)) as [H|H].
  - replace j with ((j + h + 1) - h - 1)%nat at 1 by lia.
    apply (scatter_in (fun i => i - h - 1)%nat (fun i => nth i xh d)); rewrite ?La.
    + intros i Hi. apply in_seq in Hi. lia.
    + apply in_seq. lia.
    + intros i Hi E. apply in_seq in Hi. lia.
  - rewrite (scatter_out (fun i => i - h - 1)%nat (fun i => nth i xh d)); rewrite ?La.
    + unfold a. replace j with ((j + 1 - h) + h - 1)%nat at 1 by lia.
      apply (scatter_in (fun i => i + h - 1)%nat (fun i => nth i xh d)); rewrite ?repeat_length.
      * intros i Hi. apply in_seq in Hi. lia.
      * apply in_seq. lia.
      * intros i Hi E. apply in_seq in Hi. lia.
    + intros i Hi. apply in_seq in Hi. lia.
    + intros i Hi. apply in_seq in Hi. lia.
Qed.
Lemma nth_afftshift_even A (d : A) xh h j : length xh = (2 * h)%nat -> (j < 2 * h)%nat ->
  nth j (afftshift d xh) d = nth (if (j <? h + 1)%nat then j + h - 1 else j - h - 1)%nat xh d.
Proof.
  intros L Hj. unfold afftshift. rewrite L.
  replace (2 * h / 2)%nat with h by lia. replace ((2 * h) mod 2 =? 0)%nat with true by lia.
  rewrite nth_tab by lia. destruct (Nat.ltb_spec j (h + 1)); reflexivity.
Qed.

Theorem afftshift_aifftshift A (d : A) xh : afftshift d (aifftshift d xh) = xh.
Proof.
  destruct (Nat.Even_or_Odd (length xh)) as [[h E]|[h E]].
  - apply (nth_ext _ _ d d); rewrite afftshift_length, aifftshift_length; [reflexivity|].
    intros j Hj. rewrite (nth_afftshift_even A d _ h) by (rewrite ?aifftshift_length; lia).
    destruct (Nat.ltb_spec j (h + 1)) as [H|H];
      rewrite (nth_aifftshift_even A d xh h) by lia; f_equal.
    + destruct (Nat.ltb_spec (j + h - 1) (h - 1)); lia.
    + destruct (Nat.ltb_spec (j - h - 1) (h - 1)); lia.
  - unfold afftshift. rewrite aifftshift_length.
    replace (length xh mod 2 =? 0)%nat with false by lia.
    unfold aifftshift. replace (length xh mod 2 =? 0)%nat with false by lia.
    apply fftshift_ifftshift.
Qed.
Theorem aifftshift_afftshift A (d : A) xh : aifftshift d (afftshift d xh) = xh.
Proof.
  destruct (Nat.Even_or_Odd (length xh)) as [[h E]|[h E]].
  - apply (nth_ext _ _ d d); rewrite aifftshift_length, afftshift_length; [reflexivity|].
    intros j Hj. rewrite (nth_aifftshift_even A d _ h) by (rewrite ?afftshift_length; lia).
    destruct (Nat.ltb_spec j (h - 1)) as [H|H];
      rewrite (nth_afftshift_even A d xh h) by lia; f_equal.
    + destruct (Nat.ltb_spec (j + h + 1) (h + 1)); lia.
    + destruct (Nat.ltb_spec (j + 1 - h) (h + 1)); lia.
  - unfold aifftshift. rewrite afftshift_length.
    replace (length xh mod 2 =? 0)%nat with false by lia.
    unfold afftshift. replace (length xh mod 2 =? 0)%nat with false by lia.
    apply ifftshift_fftshift.
Qed.

(** ** the frequencies *)
Lemma xifn_length sc n : length (xifn sc n) = n.
Proof. apply tab_length. Qed.
Lemma nth_xifn sc n k : (k < n)%nat -> nth k (xifn sc n) 0 = IZR (xi_bin n k) * (sc * (2 * PI) / INR n).
Proof. intros H. unfold xifn. now rewrite nth_tab. Qed.

(** every frequency is [2 pi k / N] up to a whole number of turns, and lies in (-pi, pi] *)
Theorem xifn_dft n k : (k < n)%nat ->
  - PI < nth k (xifn 1 n) 0 <= PI /\
  exists z, nth k (xifn 1 n) 0 = 2 * PI * INR k / INR n + 2 * PI * IZR z.
Proof.
  intros H. rewrite nth_xifn by auto. pose proof PI_RGT_0 as P.
  assert (N : 0 < INR n) by (apply lt_0_INR; lia).
  assert (B : (- Z.of_nat n < 2 * xi_bin n k <= Z.of_nat n)%Z).
  { unfold xi_bin. destruct (Nat.ltb_spec k (n / 2 + 1)); lia. }
  replace (IZR (xi_bin n k) * (1 * (2 * PI) / INR n)) with (PI * (IZR (2 * xi_bin n k) / INR n))
    by (rewrite mult_IZR; field; lra).
  destruct B as [B1 B2]. apply IZR_lt in B1. apply IZR_le in B2.
  rewrite opp_IZR, <- INR_IZR_INZ in B1. rewrite <- INR_IZR_INZ in B2.
  split; [split|].
  - replace (- PI) with (PI * -1) by ring. apply Rmult_lt_compat_l; [lra|].
    apply (Rmult_lt_reg_r (INR n)); [lra|].
    replace (IZR (2 * xi_bin n k) / INR n * INR n) with (IZR (2 * xi_bin n k)) by (field; lra). lra.
  - rewrite <- (Rmult_1_r PI) at 2. apply Rmult_le_compat_l; [lra|].
    apply (Rmult_le_reg_r (INR n)); [lra|].
    replace (IZR (2 * xi_bin n k) / INR n * INR n) with (IZR (2 * xi_bin n k)) by (field; lra). lra.
  - unfold xi_bin. destruct (Nat.ltb_spec k (n / 2 + 1)).
    + exists 0%Z. rewrite mult_IZR, <- INR_IZR_INZ. field. lra.
    + exists (-1)%Z. rewrite mult_IZR, minus_IZR, <- !INR_IZR_INZ. field. lra.
Qed.

Lemma xifn_scale sc n k : (k < n)%nat -> nth k (xifn sc n) 0 = sc * nth k (xifn 1 n) 0.
Proof. intros H. rewrite !nth_xifn by auto. field. apply not_0_INR. lia. Qed.

(** consequently bin [k] of the DFT and sample [k] of the wavelet are the same tone *)
Theorem xifn_tone n k (m : nat) : (k < n)%nat ->
  cis (nth k (xifn 1 n) 0 * INR m) = tw n (Z.of_nat k * Z.of_nat m).
Proof.
  intros H. destruct (xifn_dft n k H) as [_ [z E]]. rewrite E. unfold tw.
  rewrite mult_IZR, <- !INR_IZR_INZ.
  assert (N : INR n <> 0) by (apply not_0_INR; lia).
  replace ((2 * PI * INR k / INR n + 2 * PI * IZR z) * INR m)
    with (2 * PI * (INR k * INR m) / INR n + 2 * IZR (z * Z.of_nat m) * PI)
    by (rewrite mult_IZR, <- INR_IZR_INZ; field; auto).
  rewrite cis_add. replace (2 * IZR (z * Z.of_nat m) * PI) with (2 * PI * IZR (z * Z.of_nat m)) by ring.
  rewrite cis_2PI_Z. unfold Cmul, C1. cbn [fst snd]. rewrite (surjective_pairing (cis _)) at 1.
  unfold cis; cbn [fst snd]. f_equal; ring.
Qed.

(** ** order after centring *)
Lemma xi_lt n a b : (0 < n)%nat -> (a < n)%nat -> (b < n)%nat -> (xi_bin n a < xi_bin n b)%Z ->
  nth a (xifn 1 n) 0 < nth b (xifn 1 n) 0.
Proof.
  intros N Ha Hb H. rewrite !nth_xifn by auto. apply Rmult_lt_compat_r; [|now apply IZR_lt].
  pose proof PI_RGT_0. pose proof (lt_0_INR n N). apply Rdiv_lt_0_compat; lra.
Qed.
Theorem aifftshift_sorts_even n i j : (n mod 2 = 0)%nat -> (i < j < n)%nat ->
  nth i (aifftshift 0 (xifn 1 n)) 0 < nth j (aifftshift 0 (xifn 1 n)) 0.
Proof.
  intros E H. assert (L : n = (2 * (n / 2))%nat) by lia. set (h := (n / 2)%nat) in *.
  rewrite !(nth_aifftshift_even R 0 _ h) by (rewrite ?xifn_length; lia).
  apply xi_lt; try lia.
  - destruct (Nat.ltb_spec i (h - 1)); lia.
  - destruct (Nat.ltb_spec j (h - 1)); lia.
  - unfold xi_bin. replace (n / 2)%nat with h by reflexivity.
    destruct (Nat.ltb_spec i (h - 1)); destruct (Nat.ltb_spec j (h - 1));
      repeat match goal with |- context [(?a <? h + 1)%nat] => destruct (Nat.ltb_spec a (h + 1)) end; lia.
Qed.

(** odd lengths: the first entry is the largest frequency, so the order is broken at once *)
Theorem aifftshift_odd_head n : (n mod 2 = 1)%nat -> (3 <= n)%nat ->
  nth 1 (aifftshift 0 (xifn 1 n)) 0 < nth 0 (aifftshift 0 (xifn 1 n)) 0.
Proof.
  intros E H. unfold aifftshift. rewrite xifn_length.
  replace (n mod 2 =? 0)%nat with false by lia.
  rewrite !nth_ifftshift by (rewrite xifn_length; lia). rewrite xifn_length.
  rewrite !Nat.mod_small by lia.
  apply xi_lt; try lia. unfold xi_bin.
  destruct (Nat.ltb_spec (1 + n / 2) (n / 2 + 1)); destruct (Nat.ltb_spec (0 + n / 2) (n / 2 + 1)); lia.
Qed.
Lemma nth_fftshift A (l : list A) d i : (i < length l)%nat ->
  nth i (fftshift l) d = nth (if (i <? length l / 2)%nat then i + (length l - length l / 2) else i - length l / 2)%nat l d.
Proof.
  intros H. unfold fftshift. destruct (Nat.ltb_spec i (length l / 2)) as [Hc|Hc].
  - rewrite app_nth1 by (rewrite skipn_length; lia). rewrite nth_skipn_add. f_equal. lia.
  - rewrite app_nth2 by (rewrite skipn_length; lia).
    rewrite skipn_length, nth_firstn_lt by lia. f_equal. lia.
Qed.
(** it is the other shift that sorts an odd number of frequencies *)
Theorem afftshift_sorts_odd n i j : (n mod 2 = 1)%nat -> (i < j < n)%nat ->
  nth i (afftshift 0 (xifn 1 n)) 0 < nth j (afftshift 0 (xifn 1 n)) 0.
Proof.
  intros E H. unfold afftshift. rewrite xifn_length. replace (n mod 2 =? 0)%nat with false by lia.
  rewrite !nth_fftshift by (rewrite xifn_length; lia). rewrite xifn_length.
  apply xi_lt; try lia.
  - destruct (Nat.ltb_spec i (n / 2)); lia.
  - destruct (Nat.ltb_spec j (n / 2)); lia.
  - unfold xi_bin.
    destruct (Nat.ltb_spec i (n / 2)); destruct (Nat.ltb_spec j (n / 2));
      repeat match goal with |- context [(?a <? n / 2 + 1)%nat] => destruct (Nat.ltb_spec a (n / 2 + 1)) end; lia.
Qed.

(** both shifts move entries without losing any *)
Theorem aifftshift_perm A (d : A) xh : Permutation (aifftshift d xh) xh.
Proof.
  destruct (Nat.Even_or_Odd (length xh)) as [[h E]|[h E]].
  - assert (F : aifftshift d xh = skipn (h + 1) xh ++ firstn (h + 1) xh).
    { apply (nth_ext _ _ d d).
      - rewrite aifftshift_length, app_length, skipn_length, firstn_length. lia.
      - intros j Hj. rewrite aifftshift_length in Hj.
        rewrite (nth_aifftshift_even A d xh h) by lia.
        destruct (Nat.ltb_spec j (h - 1)).
        + rewrite app_nth1 by (rewrite skipn_length; lia). rewrite nth_skipn_add. f_equal. lia.
        + rewrite app_nth2 by (rewrite skipn_length; lia).
          rewrite skipn_length, nth_firstn_lt by lia. f_equal. lia. }
    rewrite F. rewrite <- (firstn_skipn (h + 1) xh) at 3. apply Permutation_app_comm.
  - unfold aifftshift. replace (length xh mod 2 =? 0)%nat with false by lia. unfold ifftshift.
    rewrite <- (firstn_skipn (length xh / 2) xh) at 5. apply Permutation_app_comm.
Qed.
Theorem aifftshift_odd_unsorted n : (n mod 2 = 1)%nat -> (3 <= n)%nat ->
  exists i j, (i < j < n)%nat /\
    nth j (aifftshift 0 (xifn 1 n)) 0 < nth i (aifftshift 0 (xifn 1 n)) 0.
Proof. intros E H. exists 0%nat, 1%nat. split; [lia|]. now apply aifftshift_odd_head. Qed.
