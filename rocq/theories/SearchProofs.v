(** Proofs about the searches. *)
From Coq Require Import Reals Lra ZifyBool ZifyNat.
From Verif Require Import Py Round Cplx CplxProofs Squeeze BinProofs SqueezeThms3 Scales Search.
Local Open Scope R_scope.

(** sample [i] of the whole search, spaced by increment / steps *)
Definition sample (a : sargs) (i : nat) : R :=
  sa_start a + INR i * (IZR (increment a) / IZR (n_steps a)).

Lemma lmax_ge l i : (i < length l)%nat -> nth i l 0 <= lmax l.
Proof. intros H. destruct l as [|y l]; [cbn in H; lia|]. apply argmax_spec; [discriminate|auto]. Qed.
Lemma lmax_in l : l <> [] -> exists i, (i < length l)%nat /\ nth i l 0 = lmax l.
Proof. intros H. exists (argmax l). split; [now apply argmax_spec|reflexivity]. Qed.

Section Samples.
Variable a : sargs.
Hypothesis Hs : (0 < n_steps a)%Z.
Let n := Z.to_nat (n_steps a).

Lemma IZR_steps : IZR (n_steps a) = INR n.
Proof. unfold n. rewrite INR_IZR_INZ, Z2Nat.id by lia. reflexivity. Qed.
Lemma steps_pos : 0 < INR n.
Proof. apply lt_0_INR. unfold n. lia. Qed.
Lemma inputs_length k : length (inputs a k) = n.
Proof. apply tab_length. Qed.
Lemma inputs_nth k i : (i < n)%nat -> nth i (inputs a k) 0 = sample a (k * n + i).
Proof.
  intros H. unfold inputs. rewrite nth_tab by exact H. unfold sample.
  rewrite IZR_steps, plus_INR, mult_INR. pose proof steps_pos. field. lra.
Qed.
Lemma inputs_neq k : inputs a k <> [].
Proof. intros E. pose proof (inputs_length k) as L. rewrite E in L. cbn in L. unfold n in L. lia. Qed.
Lemma outs_nth (f : R -> R) k i : (i < n)%nat -> nth i (map f (inputs a k)) 0 = f (sample a (k * n + i)).
Proof.
  intros H. rewrite (nth_indep _ 0 (f 0)) by (rewrite map_length, inputs_length; auto).
  rewrite map_nth, inputs_nth by auto. reflexivity.
Qed.
Lemma outs_max (f : R -> R) k :
  exists i, (i < n)%nat /\ argmax (map f (inputs a k)) = i /\
    lmax (map f (inputs a k)) = f (sample a (k * n + i)) /\
    nth i (inputs a k) 0 = sample a (k * n + i) /\
    (forall j, (j < n)%nat -> f (sample a (k * n + j)) <= f (sample a (k * n + i))) /\
    (forall j, (j < i)%nat -> f (sample a (k * n + j)) < f (sample a (k * n + i))).
Proof.
  set (l := map f (inputs a k)). assert (L : length l = n) by (unfold l; rewrite map_length; apply inputs_length).
  assert (Ne : l <> []) by (intros E; rewrite E in L; unfold n in L; cbn in L; lia).
  destruct (argmax_spec l Ne) as (A & B & D). rewrite L in *. exists (argmax l).
  assert (V : forall j, (j < n)%nat -> nth j l 0 = f (sample a (k * n + j))) by (intros; now apply outs_nth).
  split; [auto|]. split; [reflexivity|]. split; [unfold lmax; now apply V|]. split; [now apply inputs_nth|].
  split; intros j Hj; rewrite <- !V by lia; auto.
Qed.

Section Grow.
Hypothesis Hinc : (0 < increment a)%Z.
Lemma inc_pos : 0 < IZR (increment a).
Proof. now apply IZR_lt. Qed.
Lemma sample_mono i j : (i < j)%nat -> sample a i < sample a j.
Proof.
  intros H. unfold sample. apply Rplus_lt_compat_l, Rmult_lt_compat_r; [|now apply lt_INR].
  rewrite IZR_steps. apply Rdiv_lt_0_compat; [apply inc_pos|apply steps_pos].
Qed.
Lemma inputs_max k : lmax (inputs a k) = sample a (k * n + (n - 1)).
Proof.
  assert (N : (0 < n)%nat) by (unfold n; lia).
  apply Rle_antisym.
  - destruct (lmax_in (inputs a k) (inputs_neq k)) as (i & Hi & <-). rewrite inputs_length in Hi.
    rewrite inputs_nth by auto. destruct (Nat.eq_dec i (n - 1)) as [->|Hne]; [lra|].
    left. apply sample_mono. lia.
  - rewrite <- inputs_nth by lia. apply lmax_ge. rewrite inputs_length. lia.
Qed.
(** the first input of search [k] *)
Lemma sample_search k : sample a (k * n) = sa_start a + INR k * IZR (increment a).
Proof. unfold sample. rewrite IZR_steps, mult_INR. pose proof steps_pos. field. lra. Qed.
Lemma inputs_max_ge k : sa_start a + INR k * IZR (increment a) <= lmax (inputs a k).
Proof.
  rewrite inputs_max, <- sample_search. destruct (Nat.eq_dec n 1) as [E|E].
  - rewrite E. cbn. rewrite Nat.add_0_r. lra.
  - left. apply sample_mono. unfold n in *. lia.
Qed.
(** some search starts above the limit *)
Lemma search_past : exists k, sa_limit a < sa_start a + INR k * IZR (increment a).
Proof.
  pose proof inc_pos. exists (Z.to_nat (up ((sa_limit a - sa_start a) / IZR (increment a)))).
  set (q := (sa_limit a - sa_start a) / IZR (increment a)). destruct (archimed q) as [A _].
  assert (B : q < INR (Z.to_nat (up q))).
  { destruct (Z_lt_le_dec (up q) 0) as [H1|H1].
    - apply IZR_lt in H1. pose proof (pos_INR (Z.to_nat (up q))). lra.
    - rewrite INR_IZR_INZ, Z2Nat.id by auto. lra. }
  apply (Rmult_lt_compat_r (IZR (increment a))) in B; [|auto].
  unfold q in B at 1. replace ((sa_limit a - sa_start a) / IZR (increment a) * IZR (increment a))
    with (sa_limit a - sa_start a) in B by (field; lra). lra.
Qed.
End Grow.

(** ** find_maximum *)
Section FM.
Variables (f : R -> R) (minv : R).
(** what is known after [k] searches *)
Definition fm_inv (k : nat) (largest : R) (best : option R) : Prop :=
  (forall i, (i < k * n)%nat -> f (sample a i) <= largest) /\
  match best with
  | None => largest = minv
  | Some x => exists i0, (i0 < k * n)%nat /\ x = sample a i0 /\ f x = largest /\ minv < largest /\
                forall i, (i < i0)%nat -> f (sample a i) < largest
  end.
Definition fm_found (x v : R) : Prop :=
  exists K i0, (i0 < K * n)%nat /\ x = sample a i0 /\ v = f x /\ minv < v /\
    (forall i, (i < (K + 1) * n)%nat -> f (sample a i) <= v) /\
    (forall i, (i < i0)%nat -> f (sample a i) < v) /\
    (forall i, (K * n <= i < (K + 1) * n)%nat -> f (sample a i) < v).

Lemma fm_inv_max k largest best i : fm_inv k largest best -> (i < n)%nat ->
  largest < f (sample a (k * n + i)) ->
  (forall j, (j < n)%nat -> f (sample a (k * n + j)) <= f (sample a (k * n + i))) ->
  (forall j, (j < i)%nat -> f (sample a (k * n + j)) < f (sample a (k * n + i))) ->
  fm_inv (S k) (f (sample a (k * n + i))) (Some (sample a (k * n + i))).
Proof.
  intros [I1 I2] Hi Hl Hmax Hlt. assert (M : minv <= largest).
  { destruct best as [x|]; [destruct I2 as (_ & _ & _ & _ & ? & _); lra|lra]. }
  split.
  - intros j Hj. destruct (Nat.lt_ge_cases j (k * n)) as [H|H]; [specialize (I1 j H); lra|].
    replace j with (k * n + (j - k * n))%nat by lia. apply Hmax. cbn in Hj. lia.
  - exists (k * n + i)%nat. split; [cbn; lia|]. split; [auto|]. split; [auto|]. split; [lra|].
    intros j Hj. destruct (Nat.lt_ge_cases j (k * n)) as [H|H]; [specialize (I1 j H); lra|].
    replace j with (k * n + (j - k * n))%nat by lia. apply Hlt. lia.
Qed.
Lemma fm_inv_keep k largest best : fm_inv k largest best ->
  (forall j, (j < n)%nat -> f (sample a (k * n + j)) <= largest) -> fm_inv (S k) largest best.
Proof.
  intros [I1 I2] Hmax. split.
  - intros j Hj. destruct (Nat.lt_ge_cases j (k * n)) as [H|H]; [auto|].
    replace j with (k * n + (j - k * n))%nat by lia. apply Hmax. cbn in Hj. lia.
  - destruct best as [x|]; [|auto]. destruct I2 as (i0 & H & R). exists i0. split; [cbn; lia|exact R].
Qed.
Lemma fm_loop_ok fuel : forall k largest best x v, fm_inv k largest best ->
  fm_loop f a fuel k largest best = Some (Ok (x, v)) -> fm_found x v.
Proof.
  induction fuel as [|fuel IH]; intros k largest best x v I E; [discriminate|]. cbn [fm_loop] in E.
  destruct (outs_max f k) as (i & Hi & Ea & Em & En & Hmax & Hlt). rewrite Em, Ea, En in E.
  destruct (Rlt_dec largest (f (sample a (k * n + i)))) as [Hl|Hl].
  - destruct (Rlt_dec (sa_limit a) _); [discriminate|].
    refine (IH (S k) _ _ x v _ E). now apply (fm_inv_max k largest best).
  - destruct (Rlt_dec (f (sample a (k * n + i))) largest) as [Hg|Hg].
    + destruct best as [y|]; [|discriminate]. injection E as <- <-. destruct I as [I1 (i0 & H0 & Hx & Hv & Hm & Hi0)].
      exists k, i0. split; [auto|]. split; [auto|]. split; [auto|]. split; [auto|]. split; [|split; [auto|]].
      * intros j Hj. destruct (Nat.lt_ge_cases j (k * n)) as [H|H]; [auto|].
        replace j with (k * n + (j - k * n))%nat by lia. specialize (Hmax (j - k * n)%nat ltac:(lia)). lra.
      * intros j Hj. replace j with (k * n + (j - k * n))%nat by lia.
        specialize (Hmax (j - k * n)%nat ltac:(lia)). lra.
    + destruct (Rlt_dec (sa_limit a) _); [discriminate|].
      refine (IH (S k) _ _ x v _ E). apply fm_inv_keep; [auto|]. intros j Hj. specialize (Hmax j Hj). lra.
Qed.
Theorem find_maximum_ok fuel x v : find_maximum f a minv fuel = Some (Ok (x, v)) -> fm_found x v.
Proof.
  unfold find_maximum. replace (n_steps a <=? 0)%Z with false by lia. apply fm_loop_ok.
  split; [intros i Hi; cbn in Hi; lia|reflexivity].
Qed.

Hypothesis Hinc : (0 < increment a)%Z.
Lemma fm_loop_stops K : sa_limit a < sa_start a + INR K * IZR (increment a) ->
  forall m k largest best, (K < k + m)%nat -> (k <= K)%nat -> fm_loop f a m k largest best <> None.
Proof.
  intros HK. induction m as [|m IH]; intros k largest best H H'; [lia|]. cbn [fm_loop].
  assert (Nx : forall l b, (if Rlt_dec (sa_limit a) (lmax (inputs a k)) then Some (Err ValueError)
                            else fm_loop f a m (S k) l b) <> None).
  { intros l b. destruct (Rlt_dec (sa_limit a) (lmax (inputs a k))) as [|Hn]; [discriminate|].
    destruct (Nat.eq_dec k K) as [->|Hne]; [exfalso; apply Hn; pose proof (inputs_max_ge Hinc K); lra|].
    apply IH; lia. }
  destruct (Rlt_dec largest _); [apply Nx|]. destruct (Rlt_dec _ largest); [discriminate|apply Nx].
Qed.
Theorem find_maximum_stops : exists fuel r, find_maximum f a minv fuel = Some r.
Proof.
  destruct (search_past Hinc) as [K HK]. exists (S K). unfold find_maximum.
  destruct (n_steps a <=? 0)%Z; [eauto|].
  destruct (fm_loop f a (S K) 0 minv None) as [r|] eqn:E; [eauto|].
  exfalso. revert E. apply (fm_loop_stops K HK); lia.
Qed.
End FM.
End Samples.

(** running longer does not change the outcome *)
Lemma fm_loop_more f a fuel r : forall k l b, fm_loop f a fuel k l b = Some r -> fm_loop f a (S fuel) k l b = Some r.
Proof.
  induction fuel as [|fuel IH]; intros k l b E; [discriminate|].
  cbn [fm_loop] in E. cbn [fm_loop] in IH |- *.
  destruct (Rlt_dec l _); [destruct (Rlt_dec (sa_limit a) _); [exact E|]; apply IH in E; exact E|].
  destruct (Rlt_dec _ l); [exact E|]. destruct (Rlt_dec (sa_limit a) _); [exact E|]. apply IH in E. exact E.
Qed.
Theorem find_maximum_more f a minv fuel r : find_maximum f a minv fuel = Some r -> find_maximum f a minv (S fuel) = Some r.
Proof. unfold find_maximum. destruct (_ <=? 0)%Z; auto. apply fm_loop_more. Qed.

(** ** no progress when the increment rounds to 0 *)
Lemma sample_stuck a i : increment a = 0%Z -> sample a i = sa_start a.
Proof. intros E. unfold sample. rewrite E. unfold Rdiv. ring. Qed.
Lemma inputs_stuck a k i : (0 < n_steps a)%Z -> increment a = 0%Z -> (i < length (inputs a k))%nat ->
  nth i (inputs a k) 0 = sa_start a.
Proof. intros Hs E H. rewrite inputs_length in H by auto. rewrite inputs_nth by auto. now apply sample_stuck. Qed.
Lemma lmax_const l c : l <> [] -> (forall i, (i < length l)%nat -> nth i l 0 = c) -> lmax l = c.
Proof. intros N H. destruct (lmax_in l N) as (i & Hi & <-). auto. Qed.
Lemma map_nth_lt (f : R -> R) l i : (i < length l)%nat -> nth i (map f l) 0 = f (nth i l 0).
Proof. intros H. rewrite (nth_indep _ 0 (f 0)) by (rewrite map_length; auto). apply map_nth. Qed.
Theorem find_maximum_hangs f a minv : (0 < n_steps a)%Z -> increment a = 0%Z ->
  sa_start a <= sa_limit a -> minv <= f (sa_start a) -> forall fuel, find_maximum f a minv fuel = None.
Proof.
  intros Hs E Hl Hm fuel. unfold find_maximum. replace (n_steps a <=? 0)%Z with false by lia.
  assert (Mi : forall k, lmax (inputs a k) = sa_start a).
  { intros k. apply lmax_const; [now apply inputs_neq|]. intros. now apply inputs_stuck. }
  assert (Mo : forall k, lmax (map f (inputs a k)) = f (sa_start a)).
  { intros k. apply lmax_const.
    - intros C. apply (inputs_neq a Hs k). destruct (inputs a k); [auto|discriminate].
    - intros i Hi. rewrite map_length in Hi. rewrite map_nth_lt by auto. f_equal. now apply inputs_stuck. }
  assert (G : forall fuel k l b, l <= f (sa_start a) -> fm_loop f a fuel k l b = None).
  { clear fuel. induction fuel as [|fuel IH]; intros k l b H; [reflexivity|]. cbn [fm_loop]. rewrite Mi, Mo.
    destruct (Rlt_dec (sa_limit a) (sa_start a)); [lra|].
    destruct (Rlt_dec l (f (sa_start a))); [apply IH; lra|].
    destruct (Rlt_dec (f (sa_start a)) l); [lra|]. now apply IH. }
  now apply G.
Qed.

(** ** find_first_occurrence *)
Section FO.
Variables (f : R -> R) (value : R) (a : sargs).
Hypothesis Hs : (1 < n_steps a)%Z.
Let n := Z.to_nat (n_steps a).
(** samples, clipped at the limit as the code does in the last search *)
Definition clipped (i : nat) : R := Rmin (sample a i) (sa_limit a).
(** largest jump between neighbouring outputs of a search *)
Definition is_mxdiff (out : nat -> R) (m : R) : Prop :=
  (exists i, (S i < n)%nat /\ m = Rabs (out (S i) - out i)) /\
  forall i, (S i < n)%nat -> Rabs (out (S i) - out i) <= m.
Lemma nth_diff l i : (S i < length l)%nat -> nth i (diff l) 0 = nth (S i) l 0 - nth i l 0.
Proof.
  revert i. induction l as [|x [|y l] IH]; intros i H; [cbn in H; lia|cbn in H; lia|].
  change (diff (x :: y :: l)) with ((y - x) :: diff (y :: l)). destruct i; [reflexivity|].
  cbn [nth]. rewrite IH by (cbn in *; lia). reflexivity.
Qed.
Lemma diff_len l : length (diff l) = (length l - 1)%nat.
Proof.
  induction l as [|x [|y l] IH]; auto.
  change (diff (x :: y :: l)) with ((y - x) :: diff (y :: l)). cbn [length] in *. lia.
Qed.
Lemma mxdiff_spec l : length l = n -> is_mxdiff (fun i => nth i l 0) (lmax (map Rabs (diff l))).
Proof.
  intros L. assert (N : (2 <= n)%nat) by (unfold n; lia).
  assert (Ld : length (map Rabs (diff l)) = (n - 1)%nat) by (rewrite map_length, diff_len; lia).
  assert (V : forall i, (S i < n)%nat -> nth i (map Rabs (diff l)) 0 = Rabs (nth (S i) l 0 - nth i l 0)).
  { intros i Hi. rewrite map_nth_lt by (rewrite diff_len; lia). rewrite nth_diff by lia. reflexivity. }
  split.
  - destruct (lmax_in (map Rabs (diff l))) as (i & Hi & E); [intros C; rewrite C in Ld; cbn in Ld; lia|].
    exists i. split; [lia|]. rewrite <- E. apply V. lia.
  - intros i Hi. rewrite <- V by auto. apply lmax_ge. lia.
Qed.
(** inputs of search [k] as the code uses them *)
Definition used (k i : nat) : R :=
  if Rltb' (sa_limit a) (lmax (inputs a k)) then clipped (k * n + i) else sample a (k * n + i).
Definition fo_found (x v : R) : Prop :=
  exists K j, (j < n)%nat /\ x = used K j /\ v = f x /\
    (exists m, is_mxdiff (fun i => f (used K i)) m /\ Rabs (v - value) <= m) /\
    (forall i, (i < n)%nat -> Rabs (v - value) <= Rabs (f (used K i) - value)) /\
    (forall i, (i < j)%nat -> Rabs (v - value) < Rabs (f (used K i) - value)) /\
    (forall k, (k < K)%nat -> lmax (inputs a k) <= sa_limit a /\
       exists m, is_mxdiff (fun i => f (sample a (k * n + i))) m /\
         forall i, (i < n)%nat -> m < Rabs (f (sample a (k * n + i)) - value)).
Lemma is_mxdiff_ext g h m : (forall i, (i < n)%nat -> g i = h i) -> is_mxdiff g m -> is_mxdiff h m.
Proof.
  intros E [[i [Hi Ei]] H]. split.
  - exists i. split; [auto|]. rewrite <- !E by lia. exact Ei.
  - intros j Hj. rewrite <- !E by lia. now apply H.
Qed.
Lemma fo_loop_ok fuel : forall k x v,
  (forall k', (k' < k)%nat -> lmax (inputs a k') <= sa_limit a /\
       exists m, is_mxdiff (fun i => f (sample a (k' * n + i))) m /\
         forall i, (i < n)%nat -> m < Rabs (f (sample a (k' * n + i)) - value)) ->
  fo_loop f value a fuel k = Some (Ok (x, v)) -> fo_found x v.
Proof.
  induction fuel as [|fuel IH]; intros k x v I E; [discriminate|]. cbn [fo_loop] in E.
  set (ex := Rltb' (sa_limit a) (lmax (inputs a k))) in *.
  set (ins := if ex then _ else _) in E.
  assert (Li : length ins = n).
  { unfold ins. destruct ex; rewrite ?map_length; apply inputs_length; lia. }
  assert (Vi : forall i, (i < n)%nat -> nth i ins 0 = used k i).
  { intros i Hi. unfold ins, used. fold ex. destruct ex.
    - rewrite map_nth_lt by (rewrite inputs_length by lia; auto).
      rewrite inputs_nth by (auto; lia). reflexivity.
    - apply inputs_nth; auto; lia. }
  set (outs := map f ins) in *. assert (Lo : length outs = n) by (unfold outs; now rewrite map_length).
  assert (Vo : forall i, (i < n)%nat -> nth i outs 0 = f (used k i)).
  { intros i Hi. unfold outs. rewrite map_nth_lt by lia. now rewrite Vi. }
  set (m := lmax (map Rabs (diff outs))) in *.
  assert (Hm : is_mxdiff (fun i => f (used k i)) m).
  { apply (is_mxdiff_ext (fun i => nth i outs 0)); [exact Vo|]. now apply mxdiff_spec. }
  set (dist := map (fun y => Rabs (y - value)) outs) in *.
  assert (Ld : length dist = n) by (unfold dist; now rewrite map_length).
  assert (Vd : forall i, (i < n)%nat -> nth i dist 0 = Rabs (f (used k i) - value)).
  { intros i Hi. unfold dist. rewrite (map_nth_lt (fun y => Rabs (y - value))) by lia. now rewrite Vo. }
  destruct (existsb _ dist) eqn:B.
  - injection E as <- <-. apply existsb_exists in B as (d & Hd & Hle).
    destruct (Rle_dec d m) as [Hle'|]; [|discriminate]. apply (In_nth dist d 0) in Hd as (q & Hq & <-).
    assert (Nd : dist <> []) by (intros C; rewrite C in Ld; unfold n in Ld; cbn in Ld; lia).
    destruct (argmin_spec dist Nd) as (A1 & A2 & A3). rewrite Ld in A1. set (j := argmin dist) in *.
    exists k, j. split; [auto|]. split; [now apply Vi|]. rewrite Vo, Vi by auto. split; [reflexivity|].
    split; [exists m; split; [exact Hm|]; rewrite <- Vd by auto; specialize (A2 q Hq); lra|].
    split; [intros i Hi; rewrite <- !Vd by auto; apply A2; lia|].
    split; [intros i Hi; rewrite <- !Vd by lia; now apply A3|]. exact I.
  - destruct ex eqn:X; [discriminate|]. refine (IH (S k) x v _ E).
    intros k' Hk'. destruct (Nat.eq_dec k' k) as [->|Hne]; [|apply I; lia].
    unfold ex, Rltb' in X. destruct (Rlt_dec (sa_limit a) (lmax (inputs a k))) as [|Hn]; [discriminate|].
    split; [lra|]. exists m. assert (U : forall i, used k i = sample a (k * n + i)).
    { intros i. unfold used, Rltb'. destruct (Rlt_dec (sa_limit a) _); [contradiction|reflexivity]. }
    split; [apply (is_mxdiff_ext (fun i => f (used k i))); [intros i _; now rewrite U|exact Hm]|].
    intros i Hi. rewrite <- U, <- Vd by auto. apply Rnot_le_lt. intros C.
    assert (T : existsb (fun d => if Rle_dec d m then true else false) dist = true).
    { apply existsb_exists. exists (nth i dist 0). split; [apply nth_In; lia|]. destruct (Rle_dec _ m); auto. }
    congruence.
Qed.
Theorem find_first_ok fuel x v : find_first_occurrence f value a fuel = Some (Ok (x, v)) -> fo_found x v.
Proof.
  unfold find_first_occurrence. replace (n_steps a <=? 1)%Z with false by lia. apply fo_loop_ok. intros k' H. lia.
Qed.
Hypothesis Hinc : (0 < increment a)%Z.
Lemma fo_loop_stops K : sa_limit a < sa_start a + INR K * IZR (increment a) ->
  forall m k, (K < k + m)%nat -> (k <= K)%nat -> fo_loop f value a m k <> None.
Proof.
  intros HK. induction m as [|m IH]; intros k H H'; [lia|]. cbn [fo_loop].
  destruct (existsb _ _); [discriminate|].
  destruct (Nat.eq_dec k K) as [->|Hne].
  - unfold Rltb'. destruct (Rlt_dec (sa_limit a) (lmax (inputs a K))) as [|Hn]; [discriminate|].
    exfalso. apply Hn. pose proof (inputs_max_ge a ltac:(lia) Hinc K). lra.
  - destruct (Rltb' _ _); [discriminate|]. apply IH; lia.
Qed.
Theorem find_first_stops : exists fuel r, find_first_occurrence f value a fuel = Some r.
Proof.
  destruct (search_past a Hinc) as [K HK]. exists (S K). unfold find_first_occurrence.
  destruct (n_steps a <=? 1)%Z; [eauto|].
  destruct (fo_loop f value a (S K) 0) as [r|] eqn:E; [eauto|].
  exfalso. revert E. apply (fo_loop_stops K HK); lia.
Qed.
End FO.

Theorem find_first_hangs f value a : (1 < n_steps a)%Z -> increment a = 0%Z ->
  sa_start a <= sa_limit a -> f (sa_start a) <> value -> forall fuel, find_first_occurrence f value a fuel = None.
Proof.
  intros Hs E Hl Hv fuel. unfold find_first_occurrence. replace (n_steps a <=? 1)%Z with false by lia.
  generalize 0%nat as k. induction fuel as [|fuel IH]; intros k; [reflexivity|]. cbn [fo_loop].
  assert (Hs0 : (0 < n_steps a)%Z) by lia.
  rewrite (lmax_const (inputs a k) (sa_start a)) by (auto using inputs_neq; intros; now apply inputs_stuck).
  unfold Rltb'. destruct (Rlt_dec (sa_limit a) (sa_start a)); [lra|].
  assert (Lo : length (map f (inputs a k)) = Z.to_nat (n_steps a)) by (rewrite map_length; now apply inputs_length).
  assert (V : forall i, (i < Z.to_nat (n_steps a))%nat -> nth i (map f (inputs a k)) 0 = f (sa_start a)).
  { intros i Hi. rewrite map_nth_lt by (rewrite inputs_length; auto). f_equal. apply inputs_stuck; auto.
    rewrite inputs_length; auto. }
  destruct (mxdiff_spec f value a Hs (map f (inputs a k)) Lo) as [(i & Hi & Em) _].
  rewrite !V in Em by lia. rewrite Em.
  replace (Rabs (f (sa_start a) - f (sa_start a))) with 0 by (rewrite Rminus_diag_eq, Rabs_R0; auto).
  destruct (existsb _ _) eqn:B; [|apply IH]. exfalso. apply existsb_exists in B as (d & Hd & Hle).
  destruct (Rle_dec d 0) as [H|]; [|discriminate]. apply in_map_iff in Hd as (y & <- & Hy).
  apply (In_nth _ _ 0) in Hy as (q & Hq & <-). rewrite V in H by lia.
  apply Hv. pose proof (Rabs_pos (f (sa_start a) - value)).
  destruct (Req_dec (f (sa_start a)) value) as [|Ne]; [auto|]. pose proof (Rabs_pos_lt (f (sa_start a) - value) ltac:(lra)). lra.
Qed.

(** ** one peak *)
Section Unimodal.
Variables (f : R -> R) (a : sargs) (minv p : R).
Hypotheses (Hs : (0 < n_steps a)%Z) (Hinc : (0 < increment a)%Z).
Hypotheses (Hup : forall x y, sa_start a <= x -> x < y -> y <= p -> f x < f y)
           (Hdn : forall x y, p <= x -> x < y -> f y < f x).
Hypothesis Hp : sa_start a <= p.
Let n := Z.to_nat (n_steps a).
Let h := IZR (increment a) / IZR (n_steps a).

Lemma h_pos : 0 < h.
Proof. apply Rdiv_lt_0_compat; now apply IZR_lt. Qed.
Lemma sample_ge i : sa_start a <= sample a i.
Proof. unfold sample. fold h. pose proof h_pos. pose proof (pos_INR i). pose proof (Rmult_le_pos (INR i) h). lra. Qed.
Lemma sample_S i : sample a (S i) = sample a i + h.
Proof. unfold sample. fold h. rewrite S_INR. ring. Qed.

Theorem unimodal_close fuel x v : find_maximum f a minv fuel = Some (Ok (x, v)) -> Rabs (x - p) < h.
Proof.
  intros E. apply (find_maximum_ok a Hs) in E as (K & i0 & H0 & Hx & Hv & _ & Hall & _ & _). fold n in H0, Hall.
  pose proof h_pos as Hh.
  assert (N : (0 < n)%nat) by (unfold n; lia).
  apply Rabs_def1.
  - apply Rnot_le_lt. intros C. (* x >= p + h: the sample before is larger *)
    destruct i0 as [|i0].
    + unfold sample in Hx. cbn in Hx. lra.
    + specialize (Hall i0 ltac:(lia)). rewrite sample_S in Hx.
      pose proof (Hdn (sample a i0) x ltac:(lra) ltac:(lra)). lra.
  - apply Rnot_le_lt. intros C.
    specialize (Hall (S i0) ltac:(nia)). rewrite sample_S in Hall.
    pose proof (Hup x (x + h) ltac:(subst x; apply sample_ge) ltac:(lra) ltac:(lra)). subst x. lra.
Qed.

Hypothesis Hmin : forall x, sa_start a <= x -> minv < f x.
Hypothesis Hlim : p + 2 * IZR (increment a) <= sa_limit a.

(** the search holding the last sample before the peak *)
Lemma peak_search : exists k, sample a (k * n) <= p < sample a ((k + 1) * n).
Proof.
  pose proof (inc_pos a Hinc) as Hi. set (q := (p - sa_start a) / IZR (increment a)).
  assert (Hq : 0 <= q).
  { unfold q. unfold Rdiv. apply Rmult_le_pos; [lra|]. left. now apply Rinv_0_lt_compat. }
  exists (Z.to_nat (Int_part q)). pose proof (base_Int_part q) as [A B].
  assert (Z0 : (0 <= Int_part q)%Z).
  { apply Z.lt_succ_r, lt_IZR. unfold Z.succ. rewrite plus_IZR. lra. }
  assert (EI : INR (Z.to_nat (Int_part q)) = IZR (Int_part q)).
  { rewrite INR_IZR_INZ, Z2Nat.id; auto. }
  rewrite !(sample_search a Hs), plus_INR, EI. change (INR 1) with 1.
  assert (Eq : q * IZR (increment a) = p - sa_start a) by (unfold q; field; lra).
  split; nra.
Qed.
Lemma outs_max_ge k i : (i < n)%nat -> f (sample a (k * n + i)) <= lmax (map f (inputs a k)).
Proof.
  intros Hi. pose proof (outs_nth a Hs f k i Hi) as E. fold n in E. rewrite <- E.
  apply lmax_ge. rewrite map_length, (inputs_length a). exact Hi.
Qed.
Lemma outs_max_after k : p <= sample a (k * n) -> lmax (map f (inputs a k)) = f (sample a (k * n)).
Proof.
  intros H. assert (N : (0 < n)%nat) by (unfold n; lia). apply Rle_antisym.
  - destruct (outs_max a Hs f k) as (i & Hi & _ & -> & _). fold n.
    destruct i; [rewrite Nat.add_0_r; lra|]. left. apply Hdn; [auto|]. apply sample_mono; auto. lia.
  - replace (sample a (k * n)) with (sample a (k * n + 0)) by (f_equal; lia). now apply outs_max_ge.
Qed.
Lemma fm_unimodal k1 : sample a (k1 * n) <= p < sample a ((k1 + 1) * n) ->
  forall m k largest best, (k1 + 2 < k + m)%nat -> (k <= k1 + 2)%nat ->
  (k = (k1 + 2)%nat -> f (sample a ((k1 + 1) * n)) <= largest) ->
  (best = None -> largest = minv) ->
  exists x v, fm_loop f a m k largest best = Some (Ok (x, v)).
Proof.
  intros Hk1. assert (N : (0 < n)%nat) by (unfold n; lia).
  assert (Hmm : forall k, minv < lmax (map f (inputs a k))).
  { intros k. pose proof (outs_max_ge k 0 N). pose proof (Hmin _ (sample_ge (k * n + 0))). lra. }
  assert (Hlast : forall k, k = (k1 + 2)%nat -> lmax (map f (inputs a k)) < f (sample a ((k1 + 1) * n))).
  { intros k ->. rewrite outs_max_after.
    - apply Hdn; [lra|]. apply sample_mono; auto. nia.
    - apply Rle_trans with (sample a ((k1 + 1) * n)); [lra|]. left. apply sample_mono; auto. nia. }
  assert (Hne : forall k, (k <= k1 + 1)%nat -> ~ sa_limit a < lmax (inputs a k)).
  { intros k Hk C. rewrite (inputs_max a Hs Hinc) in C. fold n in C.
    assert (L : sample a (k * n + (n - 1)) < sample a ((k1 + 2) * n)) by (apply sample_mono; auto; nia).
    rewrite (sample_search a Hs), plus_INR in L. cbn [INR] in L.
    destruct Hk1 as [A _]. rewrite (sample_search a Hs) in A. lra. }
  induction m as [|m IH]; intros k largest best Hm Hk Hlg Hb; [lia|]. cbn [fm_loop].
  destruct (Nat.eq_dec k (k1 + 2)) as [->|Hk'].
  - specialize (Hlast (k1 + 2)%nat eq_refl). specialize (Hlg eq_refl).
    destruct (Rlt_dec largest _); [lra|]. destruct (Rlt_dec _ largest); [|lra].
    destruct best as [x|]; [eauto|]. specialize (Hb eq_refl). specialize (Hmm (k1 + 2)%nat). lra.
  - destruct (Rlt_dec (sa_limit a) (lmax (inputs a k))) as [C|_]; [exfalso; revert C; apply Hne; lia|].
    destruct (Rlt_dec largest (lmax (map f (inputs a k)))) as [Hl|Hl].
    + apply IH; [lia|lia| |discriminate]. intros E. replace k with (k1 + 1)%nat by lia.
      replace (sample a ((k1 + 1) * n)) with (sample a ((k1 + 1) * n + 0)) by (f_equal; lia).
      now apply outs_max_ge.
    + destruct (Rlt_dec _ largest) as [Hg|Hg].
      * destruct best as [x|]; [eauto|]. specialize (Hb eq_refl). specialize (Hmm k). lra.
      * apply IH; [lia|lia| |auto]. intros E.
        assert (f (sample a ((k1 + 1) * n)) <= lmax (map f (inputs a k))); [|lra].
        replace k with (k1 + 1)%nat by lia.
        replace (sample a ((k1 + 1) * n)) with (sample a ((k1 + 1) * n + 0)) by (f_equal; lia).
        now apply outs_max_ge.
Qed.
Theorem find_maximum_unimodal : exists fuel x,
  find_maximum f a minv fuel = Some (Ok (x, f x)) /\ Rabs (x - p) < h.
Proof.
  destruct peak_search as [k1 Hk1].
  destruct (fm_unimodal k1 Hk1 (k1 + 3) 0 minv None) as (x & v & E); [lia|lia| |auto|].
  - intros. exfalso. lia.
  - assert (E' : find_maximum f a minv (k1 + 3) = Some (Ok (x, v))).
    { unfold find_maximum. replace (n_steps a <=? 0)%Z with false by lia. exact E. }
    exists (k1 + 3)%nat, x. pose proof (unimodal_close _ _ _ E').
    pose proof (find_maximum_ok a Hs f minv _ _ _ E') as (K & i0 & _ & _ & Hv & _). rewrite <- Hv. auto.
Qed.
End Unimodal.

(** the defaults: step_size 1e-3, 1e4 steps per search, from 0 to 1000 *)
Definition default_args : sargs := SA (1 / 1000) 10000 0 1000.
Lemma py_int_IZR z : (0 <= z)%Z -> py_int (IZR z) = z.
Proof.
  intros H. unfold py_int. destruct (Rle_dec 0 (IZR z)) as [|C]; [|exfalso; apply C; now apply IZR_le].
  apply Int_part_unique. lra.
Qed.
Lemma default_steps : n_steps default_args = 10000%Z.
Proof. apply (py_int_IZR 10000). lia. Qed.
Lemma default_increment : increment default_args = 10%Z.
Proof.
  unfold increment. rewrite default_steps. cbn [sa_size default_args].
  replace (10000 * (1 / 1000)) with 10 by field. apply (py_int_IZR 10). lia.
Qed.
(** a tenth of the step size and the same number of steps: increment 0 *)
Definition fine_args : sargs := SA (5 / 100000) 10000 0 1000.
Lemma fine_steps : n_steps fine_args = 10000%Z.
Proof. apply (py_int_IZR 10000). lia. Qed.
Lemma fine_increment : increment fine_args = 0%Z.
Proof.
  unfold increment. rewrite fine_steps. cbn [sa_size fine_args].
  replace (10000 * (5 / 100000)) with (1 / 2) by field. unfold py_int.
  destruct (Rle_dec 0 (1 / 2)); [|lra]. apply Int_part_unique. lra.
Qed.
