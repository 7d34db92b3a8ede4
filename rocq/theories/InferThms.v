From Coq Require Import Reals Lra ZifyBool ZifyNat.
From Verif Require Import Py Round Cplx CplxProofs Squeeze FreqRange BinProofs Scales SsqWitness CwtWitness ResolThms2.
Local Open Scope R_scope.

(** the sum of the moduli of the second differences of [f 0 .. f (n-1)] *)
Definition bend (f : nat -> R) (n : nat) : R := Rsum (n - 2) (fun k => Rabs (f (k + 2)%nat - 2 * f (k + 1)%nat + f k)).
Definition log_bend (s : list R) : R := bend (fun k => ln (nth k s 0)) (length s).
Definition lin_bend (s : list R) : R := bend (fun k => nth k s 0) (length s).
Definition tol (f64 : bool) : R := if f64 then 4 / 1000000000000000 else 8 / 10000000.
Definition positive (s : list R) : Prop := forall k, (k < length s)%nat -> 0 < nth k s 0.

Lemma tol_pos f64 : 0 < tol f64.
Proof. destruct f64; unfold tol; lra. Qed.
Lemma all_pos_iff s : all_pos s = true <-> positive s.
Proof.
  unfold all_pos, positive. rewrite forallb_forall. split.
  - intros H k Hk. specialize (H _ (nth_In s 0 Hk)). unfold Rltb' in H. destruct (Rlt_dec 0 (nth k s 0)); [auto|discriminate].
  - intros H x Hx. apply (In_nth _ _ 0) in Hx. destruct Hx as (k & Hk & <-). apply Rltb'_true. auto.
Qed.
Lemma d2_bend l : (3 <= length l)%nat ->
  mean (map Rabs (diff (diff l))) = lin_bend l / INR (length l - 2).
Proof.
  intros H. unfold mean, lin_bend, bend. rewrite map_length, !diff_length.
  replace (length l - 1 - 1)%nat with (length l - 2)%nat by lia. f_equal.
  rewrite lsum_Rsum, map_length, !diff_length. replace (length l - 1 - 1)%nat with (length l - 2)%nat by lia.
  apply Rsum_ext. intros k Hk. rewrite nth_map_R by (rewrite !diff_length; lia).
  rewrite nth_diff by (rewrite diff_length; lia). rewrite !nth_diff by lia.
  f_equal. replace (k + 2)%nat with (S (S k)) by lia. replace (k + 1)%nat with (S k) by lia. ring.
Qed.
Lemma ln_bend s : lin_bend (map ln s) = log_bend s.
Proof.
  unfold lin_bend, log_bend, bend. rewrite map_length. apply Rsum_ext. intros k Hk. rewrite !nth_map_R by lia. reflexivity.
Qed.
Lemma mean_test l t : (3 <= length l)%nat ->
  Rltb' (mean (map Rabs (diff (diff l)))) t = true <-> lin_bend l < INR (length l - 2) * t.
Proof.
  intros H. rewrite d2_bend by auto. assert (P : 0 < INR (length l - 2)) by (apply lt_0_INR; lia).
  unfold Rltb'. destruct (Rlt_dec _ t) as [L|L]; split; intros E; auto; try discriminate.
  - apply (Rmult_lt_compat_l (INR (length l - 2))) in L; [|auto]. replace (INR (length l - 2) * (lin_bend l / INR (length l - 2))) with (lin_bend l) in L by (field; lra). exact L.
  - exfalso. apply L. apply (Rmult_lt_reg_l (INR (length l - 2))); [auto|].
    replace (INR (length l - 2) * (lin_bend l / INR (length l - 2))) with (lin_bend l) by (field; lra). exact E.
Qed.

(** [log_like]: what the first test asks *)
Definition log_like (f64 : bool) (s : list R) : Prop := positive s /\ log_bend s < INR (length s - 2) * tol f64.
Lemma log_test f64 s : (3 <= length s)%nat ->
  all_pos s && Rltb' (mean (map Rabs (diff (diff (map ln s))))) (tol f64) = true <-> log_like f64 s.
Proof.
  intros H. rewrite andb_true_iff, all_pos_iff, mean_test by (rewrite map_length; lia).
  rewrite map_length, ln_bend. reflexivity.
Qed.
Lemma log2_step s : positive s -> (3 <= length s)%nat ->
  (log2 (nth 1 s 0) - log2 (nth 0 s 0) = 0 <-> nth 1 s 0 = nth 0 s 0).
Proof.
  intros P H. pose proof (P 0%nat ltac:(lia)). pose proof (P 1%nat ltac:(lia)). pose proof ln_lt_2 as L2.
  unfold log2. split; [|intros ->; lra]. intros E. apply ln_inv; auto.
  apply (Rmult_eq_reg_r (/ ln 2)); [unfold Rdiv in E; lra|]. apply Rinv_neq_0_compat. lra.
Qed.
Theorem infer_log f64 s nv : infer_scaletype f64 s = Ok (KLog nv) <->
  (3 <= length s)%nat /\ positive s /\ log_bend s < INR (length s - 2) * tol f64 /\
  nth 1 s 0 <> nth 0 s 0 /\ nv = round_half_even (1 / ((ln (nth 1 s 0) - ln (nth 0 s 0)) / ln 2)).
Proof.
  unfold infer_scaletype. fold (tol f64). destruct (Nat.ltb_spec (length s) 3) as [H|H].
  { split; [discriminate|]. intros []. lia. }
  pose proof (log_test f64 s H) as T. destruct (all_pos s && _) eqn:E.
  - destruct (proj1 T eq_refl) as [P B]. pose proof (log2_step s P H) as S.
    assert (D : log2 (nth 1 s 0) - log2 (nth 0 s 0) = (ln (nth 1 s 0) - ln (nth 0 s 0)) / ln 2) by (unfold log2, Rdiv; ring).
    rewrite D in *. destruct (Req_EM_T _ 0) as [Z|Z].
    + split; [discriminate|]. intros (_ & _ & _ & N & _). elim N. apply S. exact Z.
    + split.
      * intros Q; injection Q as <-. repeat (split; auto). intros Q. apply Z, S, Q.
      * intros (_ & _ & _ & _ & ->). reflexivity.
  - split.
    + clear E T. destruct (Rltb' _ _); [discriminate|]. destruct (negb _); [discriminate|].
      destruct (logscale_transition_idx f64 s) as [[i|]|]; cbn [bind]; try discriminate.
      destruct (nv_from_scales f64 s); cbn [bind]; discriminate.
    + intros (_ & P & B & _). assert (false = true) by (apply T; split; auto). discriminate.
Qed.
Theorem infer_linear f64 s : infer_scaletype f64 s = Ok KLinear <->
  (3 <= length s)%nat /\ ~ log_like f64 s /\ lin_bend s < INR (length s - 2) * (tol f64 * 1000).
Proof.
  unfold infer_scaletype. fold (tol f64). destruct (Nat.ltb_spec (length s) 3) as [H|H].
  { split; [discriminate|]. intros []. lia. }
  pose proof (log_test f64 s H) as T. pose proof (mean_test s (tol f64 * 1000) H) as U. destruct (all_pos s && _) eqn:E.
  - split; [destruct (Req_EM_T _ 0); discriminate|]. intros (_ & N & _). elim N. apply T. reflexivity.
  - assert (N : ~ log_like f64 s) by (intros Q; apply T in Q; discriminate).
    destruct (Rltb' (mean (map Rabs (diff (diff s)))) (tol f64 * 1000)) eqn:F.
    + split; auto. intros _. repeat (split; auto). apply U. reflexivity.
    + split.
      * destruct (negb _); [discriminate|].
        destruct (logscale_transition_idx f64 s) as [[i|]|]; cbn [bind]; try discriminate.
        destruct (nv_from_scales f64 s); cbn [bind]; discriminate.
      * intros (_ & _ & B). assert (false = true) by (apply U; exact B). discriminate.
Qed.

(** spacing *)
Lemma steps_even f n k : (S k < n)%nat -> Rabs ((f (S k) - f k) - (f 1%nat - f 0%nat)) <= bend f n.
Proof.
  intros H. unfold bend.
  assert (M : forall a b g, (a <= b)%nat -> (forall i, 0 <= g i) -> Rsum a g <= Rsum b g).
  { intros a b g Hab Hg. replace b with (a + (b - a))%nat by lia. rewrite Rsum_app.
    pose proof (Rsum_nonneg (b - a) (fun i => g (a + i)%nat) (fun i _ => Hg _)). lra. }
  apply Rle_trans with (Rsum k (fun k => Rabs (f (k + 2)%nat - 2 * f (k + 1)%nat + f k))).
  2: { apply M; [lia|]. intros i. apply Rabs_pos. }
  clear H. induction k as [|k IH]; [cbn [Rsum]; replace (_ - _ - _) with 0 by ring; rewrite Rabs_R0; lra|].
  cbn [Rsum]. replace (k + 2)%nat with (S (S k)) by lia. replace (k + 1)%nat with (S k) by lia.
  replace (f (S (S k)) - f (S k) - (f 1%nat - f 0%nat))
    with ((f (S k) - f k - (f 1%nat - f 0%nat)) + (f (S (S k)) - 2 * f (S k) + f k)) by ring.
  eapply Rle_trans; [apply Rabs_triang|]. lra.
Qed.
Theorem log_even f64 s nv k : infer_scaletype f64 s = Ok (KLog nv) -> (S k < length s)%nat ->
  Rabs (ln (nth (S k) s 0 / nth k s 0) - ln (nth 1 s 0 / nth 0 s 0)) < INR (length s - 2) * tol f64.
Proof.
  intros E Hk. apply infer_log in E. destruct E as (H & P & B & _).
  pose proof (P 0%nat ltac:(lia)). pose proof (P 1%nat ltac:(lia)).
  pose proof (P k ltac:(lia)). pose proof (P (S k) Hk). rewrite !ln_div by auto.
  eapply Rle_lt_trans; [|exact B]. exact (steps_even (fun k => ln (nth k s 0)) (length s) k Hk).
Qed.
Theorem linear_even f64 s k : infer_scaletype f64 s = Ok KLinear -> (S k < length s)%nat ->
  Rabs ((nth (S k) s 0 - nth k s 0) - (nth 1 s 0 - nth 0 s 0)) < INR (length s - 2) * (tol f64 * 1000).
Proof.
  intros E Hk. apply infer_linear in E. destruct E as (H & _ & B).
  eapply Rle_lt_trans; [|exact B]. exact (steps_even (fun k => nth k s 0) (length s) k Hk).
Qed.

(** change of units *)
Lemma scale_nth c s k : (k < length s)%nat -> nth k (map (Rmult c) s) 0 = c * nth k s 0.
Proof. intros H. rewrite nth_map_R by auto. reflexivity. Qed.
Lemma scale_positive c s : 0 < c -> positive (map (Rmult c) s) <-> positive s.
Proof.
  intros Hc. unfold positive. rewrite map_length. split; intros H k Hk; specialize (H k Hk).
  - rewrite scale_nth in H by auto. apply (Rmult_lt_reg_l c); lra.
  - rewrite scale_nth by auto. apply Rmult_lt_0_compat; auto.
Qed.
Lemma scale_log_bend c s : 0 < c -> positive s -> log_bend (map (Rmult c) s) = log_bend s.
Proof.
  intros Hc P. unfold log_bend, bend. rewrite map_length. apply Rsum_ext. intros k Hk. rewrite !scale_nth by lia.
  rewrite !ln_mult by (auto; apply P; lia). f_equal. ring.
Qed.
Lemma scale_lin_bend c s : 0 < c -> lin_bend (map (Rmult c) s) = c * lin_bend s.
Proof.
  intros Hc. unfold lin_bend, bend. rewrite map_length, <- Rsum_scal. apply Rsum_ext. intros k Hk. rewrite !scale_nth by lia.
  rewrite <- (Rabs_right c) at 4 by lra. rewrite <- Rabs_mult. f_equal. ring.
Qed.
Theorem log_units f64 s c nv : 0 < c ->
  infer_scaletype f64 (map (Rmult c) s) = Ok (KLog nv) <-> infer_scaletype f64 s = Ok (KLog nv).
Proof.
  intros Hc. rewrite !infer_log, map_length. pose proof (scale_positive c s Hc) as SP. split; intros (H & P & B & N & E).
  - apply SP in P. rewrite scale_log_bend in B by auto. rewrite !scale_nth in N, E by lia.
    rewrite !ln_mult in E by (auto; apply P; lia). repeat (split; auto).
    + intros Q. apply N. rewrite Q. reflexivity.
    + rewrite E. do 3 f_equal. ring.
  - rewrite scale_log_bend, !scale_nth, !ln_mult by (auto; try apply P; lia). apply SP in P. repeat (split; auto).
    + intros Q. apply N. apply (Rmult_eq_reg_l c); lra.
    + rewrite E. do 3 f_equal. ring.
Qed.
Lemma scale_log_like f64 c s : 0 < c -> log_like f64 (map (Rmult c) s) <-> log_like f64 s.
Proof.
  intros Hc. unfold log_like. pose proof (scale_positive c s Hc) as SP. rewrite map_length. split; intros [P B].
  - apply SP in P. rewrite scale_log_bend in B by auto. auto.
  - rewrite scale_log_bend by auto. split; auto. apply SP. auto.
Qed.
(** in small enough units whatever is not logarithmic is taken for linear *)
Theorem small_units_linear f64 s : (3 <= length s)%nat -> ~ log_like f64 s ->
  exists c0, 0 < c0 /\ forall c, 0 < c <= c0 -> infer_scaletype f64 (map (Rmult c) s) = Ok KLinear.
Proof.
  intros H N. pose proof (tol_pos f64) as Ht. assert (Pn : 0 < INR (length s - 2)) by (apply lt_0_INR; lia).
  assert (B0 : 0 <= lin_bend s) by (apply Rsum_nonneg; intros; apply Rabs_pos).
  set (T := INR (length s - 2) * (tol f64 * 1000)). assert (HT : 0 < T) by (unfold T; nra).
  exists (T / (lin_bend s + 1)). split; [apply Rdiv_lt_0_compat; lra|]. intros c [Hc1 Hc2]. apply infer_linear.
  rewrite map_length, scale_log_like, scale_lin_bend by auto. repeat (split; auto). fold T.
  apply Rle_lt_trans with (T / (lin_bend s + 1) * lin_bend s); [apply Rmult_le_compat_r; auto|].
  unfold Rdiv. rewrite Rmult_assoc. rewrite <- (Rmult_1_r T) at 2. apply Rmult_lt_compat_l; auto.
  apply (Rmult_lt_reg_l (lin_bend s + 1)); [lra|]. rewrite <- Rmult_assoc, Rinv_r by lra. lra.
Qed.
(** a log-piecewise array taken for linear after a change of units *)
Theorem units_matter : exists s nv c, infer_scaletype true s = Ok (KPiece nv) /\ 0 < c /\
  infer_scaletype true (map (Rmult c) s) = Ok KLinear.
Proof.
  destruct piece6_kind as (v & E). unfold process_scales_arr in E.
  destruct (infer_scaletype true piece6) as [[n| |w]|] eqn:I; cbn [bind] in E; try discriminate.
  { destruct (n <=? 0)%Z; discriminate. }
  destruct (small_units_linear true piece6) as (c & Hc & Q); [cbn; lia| |].
  - intros L. unfold infer_scaletype in I. fold (tol true) in I. cbn [length piece6 Nat.ltb Nat.leb] in I.
    rewrite (proj2 (log_test true piece6 ltac:(cbn; lia)) L) in I. destruct (Req_EM_T _ _); discriminate.
  - exists piece6, w, c. split; [exact I|]. split; [exact Hc|]. apply Q. lra.
Qed.
(** three evenly spaced values, close together, are taken for logarithmic *)
Theorem near_constant_log : exists nv, infer_scaletype true [1; 1 + / 100000000; 1 + 2 * / 100000000] = Ok (KLog nv).
Proof.
  set (h := / 100000000). assert (Hh : 0 < h < 1) by (unfold h; split; lra).
  assert (H2 : h * h = / 10000000000000000) by (unfold h; lra). clearbody h.
  eexists. apply infer_log. split; [cbn; lia|]. split.
  { intros k Hk. cbn in Hk. destruct k as [|[|[|k]]]; cbn [nth]; lra || lia. }
  split; [|split; [cbn [nth]; lra|reflexivity]].
  unfold log_bend, bend. cbn [length Nat.sub Rsum Nat.add nth INR]. rewrite ln_1, Rplus_0_r, Rplus_0_l.
  replace (2 * ln (1 + h)) with (ln ((1 + h) * (1 + h))) by (rewrite ln_mult by lra; ring).
  rewrite <- ln_div by nra. set (q := (1 + 2 * h) / ((1 + h) * (1 + h))).
  assert (Q : 1 / q = 1 + h * h / (1 + 2 * h)) by (unfold q; field; split; lra).
  assert (Q0 : 0 < q) by (unfold q; apply Rdiv_lt_0_compat; nra).
  assert (Q1 : q < 1).
  { unfold q. apply (Rmult_lt_reg_r ((1 + h) * (1 + h))); [nra|]. unfold Rdiv. rewrite Rmult_assoc, Rinv_l by nra. nra. }
  assert (L0 : ln q < 0) by (rewrite <- ln_1; apply ln_increasing; auto).
  rewrite Rabs_left by auto. rewrite <- ln_Rinv by auto. replace (/ q) with (1 / q) by (unfold Rdiv; ring). rewrite Q.
  set (e := h * h / (1 + 2 * h)). assert (He : 0 < e <= h * h).
  { unfold e. split; [apply Rdiv_lt_0_compat; nra|]. apply (Rmult_le_reg_r (1 + 2 * h)); [lra|].
    unfold Rdiv. rewrite Rmult_assoc, Rinv_l by lra. nra. }
  assert (ln (1 + e) < e).
  { apply exp_lt_inv. rewrite exp_ln by lra. apply exp_ineq1. lra. }
  unfold tol. lra.
Qed.
