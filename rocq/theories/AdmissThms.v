(** The numeric integral and the admissibility constants. *)
From Coq Require Import Reals Lra Lia Sorted ZifyBool ZifyNat.
From Verif Require Import Py Cplx CplxProofs Squeeze SqueezeProofs BinProofs Resol ResolProofs ToolkitThms Admiss.
Local Open Scope R_scope.

(** ** samples *)
(** sample [i] of the right part, step of the right part, sample [i] of the left part *)
Definition rstep (L : R) (N : nat) : R := (L - 1 / 10) / INR N.
Definition rgrid (L : R) (N i : nat) : R := 1 / 10 + INR (S i) * rstep L N.
Definition lgrid (i : nat) : R := Rpower 10 (-15 + INR i * (14 / 999)).
Lemma est_t_length L N : length (est_t L N) = N.
Proof. unfold est_t. now rewrite rev_length, tab_length. Qed.
Lemma nth_est_t L N i : (i < N)%nat -> nth i (est_t L N) 0 = rgrid L N i.
Proof.
  intros H. unfold est_t. rewrite rev_nth by now rewrite tab_length. rewrite tab_length, nth_tab by lia.
  assert (0 < INR N) by (apply lt_0_INR; lia). unfold rgrid, rstep. rewrite minus_INR by lia. field. lra.
Qed.
Lemma nth_arr fn L N i : (i < N)%nat -> nth i (map fn (est_t L N)) 0 = fn (rgrid L N i).
Proof.
  intros H. rewrite (nth_indep _ 0 (fn 0)) by now rewrite map_length, est_t_length. rewrite map_nth. now rewrite nth_est_t.
Qed.
Lemma rstep_pos L N : 1 / 10 < L -> (1 <= N)%nat -> 0 < rstep L N.
Proof. intros HL HN. apply Rmult_lt_0_compat; [lra|]. apply Rinv_0_lt_compat, lt_0_INR. lia. Qed.
Lemma rgrid_range L N i : 1 / 10 < L -> (i < N)%nat -> 1 / 10 < rgrid L N i <= L.
Proof.
  intros HL H. pose proof (rstep_pos L N HL ltac:(lia)) as Hs. unfold rgrid.
  assert (0 < INR (S i)) by (apply lt_0_INR; lia). assert (INR (S i) <= INR N) by (apply le_INR; lia).
  split; [nra|]. assert (INR (S i) * rstep L N <= INR N * rstep L N) by (apply Rmult_le_compat_r; lra).
  assert (INR N * rstep L N = L - 1 / 10) by (unfold rstep; field; lra). lra.
Qed.
Lemma rgrid_succ L N i : rgrid L N (S i) - rgrid L N i = rstep L N.
Proof. unfold rgrid. rewrite (S_INR (S i)). ring. Qed.
Lemma lgrid_pos i : 0 < lgrid i.
Proof. apply exp_pos. Qed.
Lemma lgrid_succ i : lgrid i < lgrid (S i).
Proof.
  unfold lgrid. apply Rpower_lt; [lra|]. rewrite S_INR. lra.
Qed.
Lemma lgrid_ends : lgrid 0 = 1 / 10 ^ 15 /\ lgrid 999 = 1 / 10.
Proof.
  unfold lgrid. split.
  - replace (-15 + INR 0 * (14 / 999)) with (- (INR 15)) by (cbn; lra). rewrite Rpower_Ropp, Rpower_pow by lra. field.
  - replace (INR 999) with 999 by (rewrite INR_IZR_INZ; reflexivity). replace (-15 + 999 * (14 / 999)) with (- (1)) by lra.
    rewrite Rpower_Ropp, Rpower_1 by lra. field.
Qed.

(** the trapezoid rule on either grid *)
Definition left_part (fn : R -> R) : R :=
  Rsum 999 (fun i => (lgrid (S i) - lgrid i) * (fn (lgrid i) + fn (lgrid (S i))) / 2).
Definition right_part (fn : R -> R) (L : R) (N n : nat) : R :=
  rstep L N * Rsum (n - 1) (fun i => (fn (rgrid L N i) + fn (rgrid L N (S i))) / 2).
Lemma near_zero_left fn : near_zero fn = left_part fn.
Proof.
  assert (Hn : forall i, (i < 1000)%nat -> nth i near_t 0 = lgrid i) by (intros i Hi; unfold near_t; now rewrite nth_tab by exact Hi).
  assert (Hl : length near_t = 1000%nat) by (unfold near_t; apply tab_length).
  assert (Hf : forall i, (i < 1000)%nat -> nth i (map fn near_t) 0 = fn (lgrid i)).
  { intros i Hi. rewrite (nth_indep _ 0 (fn 0)) by (rewrite map_length, Hl; exact Hi). rewrite map_nth. now rewrite Hn. }
  unfold near_zero, left_part, trapzx. rewrite map_length, Hl. replace (1000 - 1)%nat with 999%nat by reflexivity.
  apply Rsum_ext. intros i Hi. assert (i < 1000 /\ S i < 1000)%nat as [H1 H2] by (clear - Hi; apply Nat.ltb_lt in Hi; split; apply Nat.ltb_lt; apply Nat.ltb_lt in Hi; [apply Nat.ltb_lt|apply Nat.ltb_lt]; lia).
  now rewrite (Hn i H1), (Hn (S i) H2), (Hf i H1), (Hf (S i) H2).
Qed.
Lemma nth_firstn_lt A (l : list A) d n i : (i < n)%nat -> nth i (firstn n l) d = nth i l d.
Proof.
  revert n i. induction l as [|x l IH]; intros [|n] [|i] H; cbn; try reflexivity; try lia. apply IH. lia.
Qed.
Lemma right_trapz fn L N n : (n <= N)%nat -> trapzx (firstn n (map fn (est_t L N))) (firstn n (est_t L N)) = right_part fn L N n.
Proof.
  intros H. unfold trapzx, right_part. rewrite firstn_length, map_length, est_t_length, Nat.min_l by exact H.
  rewrite <- Rsum_scal. apply Rsum_ext. intros i Hi. rewrite !nth_firstn_lt by lia. rewrite !nth_arr, !nth_est_t, rgrid_succ by lia. unfold Rdiv. ring.
Qed.

(** ** where the right part stops *)
Definition tiny : R := 1 / 10 ^ 15.
(** [n]: the samples kept; [p]: the greatest sample *)
Definition stops (fn : R -> R) (L : R) (N n : nat) : Prop := exists p,
  (p <= n)%nat /\ (n < N)%nat /\
  (forall i, (i < N)%nat -> fn (rgrid L N i) <= fn (rgrid L N p)) /\
  (forall i, (i < p)%nat -> fn (rgrid L N i) < fn (rgrid L N p)) /\
  (forall i, (p <= i)%nat -> (i < n)%nat -> tiny <= Rabs (fn (rgrid L N i))) /\
  (Rabs (fn (rgrid L N n)) < tiny \/ n = (N - 1)%nat).
Lemma min_neglect_spec arr th : forall i, arr <> [] -> exists k, min_neglect_from arr th i = Ok (i + k)%nat /\ (k < length arr)%nat /\
  (forall j, (j < k)%nat -> th <= nth j arr 0) /\ (nth k arr 0 < th \/ k = (length arr - 1)%nat).
Proof.
  induction arr as [|x arr IH]; intros i H; [congruence|]. destruct arr as [|y arr].
  - exists 0%nat. cbn. repeat split; [f_equal; lia|lia|intros; lia|]. now right.
  - change (min_neglect_from (x :: y :: arr) th i) with (if Rlt_dec x th then Ok i else min_neglect_from (y :: arr) th (S i)).
    destruct (Rlt_dec x th) as [Hx|Hx].
    + exists 0%nat. cbn [nth length]. repeat split; [f_equal; lia|lia|intros; lia|]. now left.
    + destruct (IH (S i) ltac:(congruence)) as (k & E & Hk & Hj & Hend). exists (S k). rewrite E. repeat split.
      * f_equal. lia.
      * cbn [length] in *. lia.
      * intros [|j] Hjk; cbn [nth]; [lra|]. apply Hj. lia.
      * destruct Hend as [He|He]; [left; exact He|right; cbn [length] in *; lia].
Qed.
Lemma est_arr_spec fn L N : (1 <= N)%nat -> exists n, est_arr fn L N = Ok (map fn (est_t L N), est_t L N, n) /\ stops fn L N n.
Proof.
  intros HN. unfold est_arr, min_neglect_idx. set (arr := map fn (est_t L N)).
  assert (Hl : length arr = N) by (unfold arr; now rewrite map_length, est_t_length).
  assert (Ne : arr <> []) by (intros E; rewrite E in Hl; cbn in Hl; lia).
  destruct (argmax_spec arr Ne) as (Hp & Hmax & Hfirst). set (p := argmax arr) in *. rewrite Hl in Hp, Hmax.
  assert (Lk : length (map Rabs (skipn p arr)) = (N - p)%nat) by (rewrite map_length, skipn_length; lia).
  destruct (min_neglect_spec (map Rabs (skipn p arr)) (1 / 10 ^ 15) 0) as (k & E & Hk & Hj & Hend).
  { intros E0. rewrite E0 in Lk. cbn in Lk. lia. }
  rewrite Lk in Hk, Hend.
  assert (Hn : forall j, (j < N - p)%nat -> nth j (map Rabs (skipn p arr)) 0 = Rabs (fn (rgrid L N (p + j)))).
  { intros j Hjn. rewrite (nth_indep _ 0 (Rabs 0)) by (rewrite Lk; exact Hjn). rewrite map_nth, nth_skipn_add. f_equal. unfold arr. apply nth_arr. lia. }
  assert (Ha : forall i, (i < N)%nat -> nth i arr 0 = fn (rgrid L N i)) by (intros; now apply nth_arr).
  rewrite E. cbn [bind]. exists (k + p)%nat. split; [reflexivity|]. exists p. repeat split; try lia.
  - intros i Hi. rewrite <- !Ha by lia. now apply Hmax.
  - intros i Hi. rewrite <- !Ha by lia. now apply Hfirst.
  - intros i Hi Hi'. specialize (Hj (i - p)%nat ltac:(lia)). rewrite Hn in Hj by lia. replace (p + (i - p))%nat with i in Hj by lia. exact Hj.
  - destruct Hend as [He|He]; [left|right; lia]. rewrite Hn in He by lia. now rewrite Nat.add_comm.
Qed.
Lemma stops_unique fn L N n n' : stops fn L N n -> stops fn L N n' -> n = n'.
Proof.
  intros (p & Hp & Hn & Hm & Hf & Ha & He) (p' & Hp' & Hn' & Hm' & Hf' & Ha' & He').
  assert (p = p') as <-.
  { destruct (Nat.lt_trichotomy p p') as [H|[H|H]]; [|exact H|].
    - specialize (Hf' p H). specialize (Hm p' ltac:(lia)). lra.
    - specialize (Hf p' H). specialize (Hm' p ltac:(lia)). lra. }
  destruct (Nat.lt_trichotomy n n') as [H|[H|H]]; [|exact H|].
  - specialize (Ha' n Hp H). destruct He; [lra|lia].
  - specialize (Ha n' Hp' H). destruct He'; [lra|lia].
Qed.

(** ** which range is taken *)
Definition npts (m : Z) : nat := Z.to_nat (10000 * m).
(** more than a tenth of the samples left out, and something to integrate *)
Definition converged (fn : R -> R) (m : Z) (L : R) (n : nat) : Prop :=
  (1000 * m < 10000 * m - Z.of_nat n)%Z /\ 1 / 10 ^ 5 < Rsum (npts m) (fun i => Rabs (fn (rgrid L (npts m) i))).
Lemma lsum_Rsum l : lsum l = Rsum (length l) (fun i => nth i l 0).
Proof.
  unfold lsum. induction l as [|x l IH]; [reflexivity|]. cbn [fold_right length]. rewrite Rsum_first, IH. reflexivity.
Qed.
Lemma lsum_arr fn L N : lsum (map Rabs (map fn (est_t L N))) = Rsum N (fun i => Rabs (fn (rgrid L N i))).
Proof.
  rewrite lsum_Rsum, !map_length, est_t_length. apply Rsum_ext. intros i Hi.
  rewrite (nth_indep _ 0 (Rabs 0)) by (rewrite !map_length, est_t_length; exact Hi). rewrite map_nth, nth_arr by exact Hi. reflexivity.
Qed.
Lemma search_spec fn : forall l last, (forall m L, In (m, L) l -> (1 <= m)%Z) ->
  (exists l1 m L l2 n, l = (l1 ++ (m, L) :: l2)%list /\ stops fn L (npts m) n /\ converged fn m L n /\
     (forall m' L', In (m', L') l1 -> exists n', stops fn L' (npts m') n' /\ ~ converged fn m' L' n') /\
     search fn l last = Ok (true, (map fn (est_t L (npts m)), est_t L (npts m), n))) \/
  ((forall m' L', In (m', L') l -> exists n', stops fn L' (npts m') n' /\ ~ converged fn m' L' n') /\
   (l = [] /\ search fn l last = Ok (false, last) \/
    exists l1 m L n, l = (l1 ++ [(m, L)])%list /\ stops fn L (npts m) n /\ search fn l last = Ok (false, (map fn (est_t L (npts m)), est_t L (npts m), n)))).
Proof.
  induction l as [|[m L] l IH]; intros last Hm.
  - right. split; [intros ? ? []|]. now left.
  - assert (H1 : (1 <= m)%Z) by (apply (Hm m L); now left).
    destruct (est_arr_spec fn L (npts m) ltac:(unfold npts; lia)) as (n & E & S).
    assert (D : converged fn m L n \/ ~ converged fn m L n).
    { unfold converged. destruct (Z_lt_dec (1000 * m) (10000 * m - Z.of_nat n)); [|right; tauto].
      destruct (Rlt_dec (1 / 10 ^ 5) (Rsum (npts m) (fun i => Rabs (fn (rgrid L (npts m) i))))); [left|right]; tauto. }
    cbn [search]. fold (npts m). rewrite E. cbn [bind]. rewrite est_t_length, lsum_arr.
    destruct D as [D|D].
    + left. exists [], m, L, l, n. split; [reflexivity|]. split; [exact S|]. split; [exact D|]. split; [intros ? ? []|].
      destruct D as [D1 D2]. destruct (Rlt_dec _ _) as [_|C]; [|contradiction].
      replace (1000 * m <? Z.of_nat (npts m) - Z.of_nat n)%Z with true by (unfold npts; lia). reflexivity.
    + assert (Hc : (1000 * m <? Z.of_nat (npts m) - Z.of_nat n)%Z && (if Rlt_dec (1 / 10 ^ 5) (Rsum (npts m) (fun i => Rabs (fn (rgrid L (npts m) i)))) then true else false) = false).
      { destruct (Rlt_dec _ _) as [H|H]; [|apply andb_false_r]. rewrite andb_true_r. apply Z.ltb_ge.
        destruct (Z.le_gt_cases (Z.of_nat (npts m) - Z.of_nat n) (1000 * m)) as [G|G]; [exact G|]. exfalso. apply D. split; [unfold npts in G; lia|exact H]. }
      rewrite Hc. destruct (IH (map fn (est_t L (npts m)), est_t L (npts m), n) (fun m' L' Hin => Hm m' L' (or_intror Hin)))
        as [(l1 & m1 & L1 & l2 & n1 & -> & S1 & C1 & B1 & E1)|[B1 E1]].
      * left. exists ((m, L) :: l1), m1, L1, l2, n1. split; [reflexivity|]. split; [exact S1|]. split; [exact C1|]. split; [|exact E1].
        intros m' L' [[= <- <-]|Hin]; [now exists n|now apply B1].
      * right. split; [intros m' L' [[= <- <-]|Hin]; [now exists n|now apply B1]|]. right.
        destruct E1 as [[-> E1]|(l1 & m1 & L1 & n1 & -> & S1 & E1)].
        -- exists [], m, L, n. auto.
        -- exists ((m, L) :: l1), m1, L1, n1. auto.
Qed.
Lemma attempts_sorted : StronglySorted (fun a b : Z * R => snd a < snd b) attempts.
Proof. unfold attempts. repeat constructor; cbn [snd]; lra. Qed.
Lemma sorted_after A (Rel : A -> A -> Prop) l1 x l2 y : StronglySorted Rel (l1 ++ x :: l2) -> In y l2 -> Rel x y.
Proof.
  induction l1 as [|a l1 IH]; cbn; intros H Hy; inversion H as [|? ? H1 H2]; subst; [|now apply IH].
  rewrite Forall_forall in H2. now apply H2.
Qed.
Theorem integrate_spec fn nowarn :
  (exists m L n, In (m, L) attempts /\ stops fn L (npts m) n /\ converged fn m L n /\
     (forall m' L', In (m', L') attempts -> L' < L -> exists n', stops fn L' (npts m') n' /\ ~ converged fn m' L' n') /\
     integrate_analytic fn nowarn = Ok (right_part fn L (npts m) n + left_part fn, false)) \/
  ((forall m L, In (m, L) attempts -> exists n, stops fn L (npts m) n /\ ~ converged fn m L n) /\
   (left_part fn < 1 / 10 ^ 5 /\ integrate_analytic fn nowarn = Err PlainException \/
    1 / 10 ^ 5 <= left_part fn /\ exists n, stops fn 160 (npts 8) n /\
      integrate_analytic fn nowarn = Ok (right_part fn 160 (npts 8) n + left_part fn, negb nowarn))).
Proof.
  unfold integrate_analytic. rewrite near_zero_left.
  destruct (search_spec fn attempts ([], [], 0%nat)) as [(l1 & m & L & l2 & n & El & S & C & B & E)|[B E]].
  - intros m L H. cbn in H. repeat destruct H as [[= <- <-]|H]; try lia.
  - left. exists m, L, n. split; [rewrite El; apply in_or_app; right; now left|]. split; [exact S|]. split; [exact C|]. split.
    + intros m' L' Hin Hlt. apply B. rewrite El in Hin. apply in_app_or in Hin. destruct Hin as [Hin|[[= <- <-]|Hin]]; [exact Hin|lra|].
      exfalso. pose proof attempts_sorted as Hs. rewrite El in Hs. apply sorted_after with (2 := Hin) in Hs. cbn in Hs. lra.
    + rewrite E. cbn [bind negb andb]. do 2 f_equal. f_equal. apply right_trapz. destruct S as (p & _ & Hn & _). lia.
  - right. split; [exact B|]. destruct E as [[Ha _]|(l1 & m & L & n & El & S & E)]; [discriminate|].
    assert ((m, L) = (8%Z, 160)) as [= -> ->].
    { unfold attempts in El. assert (H := f_equal (fun q => List.last q (0%Z, 0)) El). cbv beta in H; rewrite last_last in H. cbn in H. now symmetry. }
    rewrite E. cbn [bind negb andb]. destruct (Rlt_dec (left_part fn) (1 / 10 ^ 5)) as [H|H].
    + left. split; [exact H|reflexivity].
    + right. split; [lra|]. exists n. split; [exact S|]. do 2 f_equal. f_equal. apply right_trapz. destruct S as (p & _ & Hn & _). lia.
Qed.
Lemma attempt_range m L : In (m, L) attempts -> (1 <= m <= 8)%Z /\ 1 <= L <= 160.
Proof. cbn. intros H. repeat destruct H as [[= <- <-]|H]; try (split; [lia|lra]). Qed.

(** ** signs and bounds *)
Lemma left_nonneg fn : (forall w, 0 < w -> 0 <= fn w) -> 0 <= left_part fn.
Proof.
  intros H. apply Rsum_nonneg. intros i _. pose proof (lgrid_succ i). pose proof (H _ (lgrid_pos i)). pose proof (H _ (lgrid_pos (S i))).
  assert (0 <= (lgrid (S i) - lgrid i) * (fn (lgrid i) + fn (lgrid (S i)))) by (apply Rmult_le_pos; lra). lra.
Qed.
Lemma left_pos fn : (forall w, 0 < w -> 0 < fn w) -> 0 < left_part fn.
Proof.
  intros H. unfold left_part.
  assert (P : forall i, 0 < (lgrid (S i) - lgrid i) * (fn (lgrid i) + fn (lgrid (S i))) / 2).
  { intros i. pose proof (lgrid_succ i). pose proof (H _ (lgrid_pos i)). pose proof (H _ (lgrid_pos (S i))).
    assert (0 < (lgrid (S i) - lgrid i) * (fn (lgrid i) + fn (lgrid (S i)))) by (apply Rmult_lt_0_compat; lra). lra. }
  eapply Rlt_le_trans; [apply (P 0%nat)|].
  apply (Rsum_pos_term 999 (fun i => (lgrid (S i) - lgrid i) * (fn (lgrid i) + fn (lgrid (S i))) / 2) 0).
  - apply Nat.ltb_lt. reflexivity.
  - intros i _. left. apply P.
Qed.
Lemma right_nonneg fn L N n : 1 / 10 < L -> (1 <= N)%nat -> (n <= N)%nat -> (forall w, 0 < w -> 0 <= fn w) -> 0 <= right_part fn L N n.
Proof.
  intros HL HN Hn H. apply Rmult_le_pos; [left; now apply rstep_pos|]. apply Rsum_nonneg. intros i Hi.
  pose proof (rgrid_range L N i HL ltac:(lia)). pose proof (rgrid_range L N (S i) HL ltac:(lia)).
  pose proof (H (rgrid L N i) ltac:(lra)). pose proof (H (rgrid L N (S i)) ltac:(lra)). lra.
Qed.
