(** How the penalty shapes a ridge: more penalty, less roughness and less energy; none, the
    largest energy of each column; enough, one row. *)
From Coq Require Import Reals Lra.
From Verif Require Import Py Parallel Cplx CplxProofs Squeeze Ssqueeze SsqueezeProofs Ridge RidgeProofs RidgeOpt RidgeThms RidgeWitness.
Local Open Scope R_scope.

(** the sum of the squared steps along a path, in log-scale for a CWT *)
Definition roughness (cwt : bool) (scales : list R) (T : nat) (p : nat -> nat) : R :=
  let s k := if cwt then ln (nth k scales 0) else nth k scales 0 in
  Rsum (T - 1) (fun t => (s (p (S t)) - s (p t)) ^ 2).
Definition energy_cost (f64 : bool) (E : nat -> nat -> R) (M : nat -> R) (T : nat) (p : nat -> nat) : R :=
  Rsum T (fun t => - ln (E (p t) t / M t + eps_of f64)).
Lemma path_cost_split f64 E M cwt scales penalty T p :
  path_cost (cost_of f64 E M) (jump cwt scales penalty) T p = energy_cost f64 E M T p + penalty * roughness cwt scales T p.
Proof. unfold path_cost, energy_cost, roughness, cost_of, jump. cbv zeta. f_equal. rewrite Rsum_scal. reflexivity. Qed.

(** the columns of [Tf] all have energy *)
Definition col_peaks (Tf : mat C) (M : nat -> R) : Prop :=
  forall t, (t < ncols Tf)%nat -> is_colmax (nrows Tf) (energy Tf) t (M t) /\ M t <> 0.
Definition first_ridge (o : list (list nat * list R * list R)) (t : nat) : nat := nth t (r_idx (nth 0 o ridge0)) 0%nat.

Theorem penalty_smooths par par' f64 Tf scales p1 p2 n bw cwt o1 o2 M :
  extract_ridges par f64 Tf scales p1 n bw cwt = Ok o1 -> extract_ridges par' f64 Tf scales p2 n bw cwt = Ok o2 ->
  sched_ok (nrows Tf) par -> sched_ok (nrows Tf) par' -> (1 <= n)%nat -> (nrows Tf <= ncols Tf)%nat -> col_peaks Tf M -> p1 < p2 ->
  let T := ncols Tf in let slack := INR (T - 1) * eps_of f64 in
  roughness cwt scales T (first_ridge o2) <= roughness cwt scales T (first_ridge o1) + 2 * slack / (p2 - p1) /\
  (0 <= p1 -> energy_cost f64 (energy Tf) M T (first_ridge o1) <= energy_cost f64 (energy Tf) M T (first_ridge o2) + slack + 2 * slack * p1 / (p2 - p1)).
Proof.
  intros H1 H2 S1 S2 Hn HFT HM Hp T slack.
  assert (V1 : valid_path (nrows Tf) T (first_ridge o1)).
  { intros t Ht. destruct (ridges_valid _ _ _ _ _ _ _ _ _ H1 S1) as (_ & V). destruct (V 0%nat Hn) as (_ & V'). exact (proj1 (V' t Ht)). }
  assert (V2 : valid_path (nrows Tf) T (first_ridge o2)).
  { intros t Ht. destruct (ridges_valid _ _ _ _ _ _ _ _ _ H2 S2) as (_ & V). destruct (V 0%nat Hn) as (_ & V'). exact (proj1 (V' t Ht)). }
  pose proof (ridge_k_optimal par f64 Tf scales p1 n bw cwt o1 0 M H1 S1 Hn HFT HM _ V2) as A1.
  pose proof (ridge_k_optimal par' f64 Tf scales p2 n bw cwt o2 0 M H2 S2 Hn HFT HM _ V1) as A2.
  change (energy_at (nrows Tf) bw (firstn 0 o1) (energy Tf)) with (energy Tf) in A1.
  change (energy_at (nrows Tf) bw (firstn 0 o2) (energy Tf)) with (energy Tf) in A2.
  rewrite !path_cost_split in A1, A2. fold (first_ridge o1) in A1. fold (first_ridge o2) in A2. fold T slack in A1, A2.
  change (fun t => first_ridge o1 t) with (first_ridge o1) in *. change (fun t => first_ridge o2 t) with (first_ridge o2) in *.
  set (r1 := roughness cwt scales T (first_ridge o1)) in *. set (r2 := roughness cwt scales T (first_ridge o2)) in *.
  set (a1 := energy_cost f64 (energy Tf) M T (first_ridge o1)) in *. set (a2 := energy_cost f64 (energy Tf) M T (first_ridge o2)) in *.
  change (a1 + p1 * r1 <= a2 + p1 * r2 + slack) in A1. change (a2 + p2 * r2 <= a1 + p2 * r1 + slack) in A2.
  assert (D : r2 - r1 <= 2 * slack / (p2 - p1)).
  { apply Rmult_le_reg_r with (p2 - p1); [lra|]. replace (2 * slack / (p2 - p1) * (p2 - p1)) with (2 * slack) by (field; lra). lra. }
  split; [lra|]. intros H0. assert (p1 * (r2 - r1) <= p1 * (2 * slack / (p2 - p1))) by (apply Rmult_le_compat_l; assumption).
  replace (2 * slack * p1 / (p2 - p1)) with (p1 * (2 * slack / (p2 - p1))) by (field; lra). lra.
Qed.

(** ** No penalty *)
Lemma Rsum_diff1 n f g k : (k < n)%nat -> (forall i, (i < n)%nat -> i <> k -> f i = g i) -> Rsum n f - Rsum n g = f k - g k.
Proof.
  induction n as [|n IH]; intros Hk H; [lia|]. cbn [Rsum]. destruct (Nat.eq_dec k n) as [->|N].
  - rewrite (Rsum_ext n f g) by (intros i Hi; apply H; lia). ring.
  - rewrite (H n) by lia. specialize (IH ltac:(lia) (fun i Hi Hn => H i ltac:(lia) Hn)). lra.
Qed.
Theorem no_penalty_peaks par f64 Tf scales n bw cwt o M :
  extract_ridges par f64 Tf scales 0 n bw cwt = Ok o ->
  sched_ok (nrows Tf) par -> (1 <= n)%nat -> (nrows Tf <= ncols Tf)%nat -> col_peaks Tf M ->
  forall t, (t < ncols Tf)%nat -> (1 - INR (ncols Tf - 1) * eps_of f64 * (1 + eps_of f64)) * M t <= energy Tf (first_ridge o t) t.
Proof.
  intros H Hs Hn HFT HM t Ht. set (T := ncols Tf) in *. set (eps := eps_of f64). pose proof (eps_pos f64) as He. fold eps in He.
  assert (V : valid_path (nrows Tf) T (first_ridge o)).
  { intros u Hu. destruct (ridges_valid _ _ _ _ _ _ _ _ _ H Hs) as (_ & V). destruct (V 0%nat Hn) as (_ & V'). exact (proj1 (V' u Hu)). }
  destruct (HM t Ht) as (((f & Hf & Ef) & Hmax) & HM0).
  assert (HMp : 0 < M t).
  { assert (0 <= energy Tf f t) by (unfold energy; apply pow2_ge_0). rewrite <- Ef in H0. lra. }
  set (q := fun u => if Nat.eq_dec u t then f else first_ridge o u).
  assert (Vq : valid_path (nrows Tf) T q) by (intros u Hu; unfold q; destruct (Nat.eq_dec u t); [exact Hf|apply V, Hu]).
  pose proof (ridge_k_optimal par f64 Tf scales 0 n bw cwt o 0 M H Hs Hn HFT HM _ Vq) as A.
  change (energy_at (nrows Tf) bw (firstn 0 o) (energy Tf)) with (energy Tf) in A. rewrite !path_cost_split in A.
  change (fun t => nth t (r_idx (nth 0 o ridge0)) 0%nat) with (first_ridge o) in A. rewrite !Rmult_0_l, !Rplus_0_r in A. fold T in A.
  unfold energy_cost in A.
  pose proof (Rsum_diff1 T (fun u => - ln (energy Tf (first_ridge o u) u / M u + eps_of f64)) (fun u => - ln (energy Tf (q u) u / M u + eps_of f64)) t Ht) as D.
  cbv beta in D. specialize (D ltac:(intros i Hi Hne; unfold q; destruct (Nat.eq_dec i t); [contradiction|reflexivity])).
  assert (q t = f) as Eq by (unfold q; destruct (Nat.eq_dec t t); [reflexivity|contradiction]). rewrite Eq, <- Ef in D.
  replace (M t / M t) with 1 in D by (field; exact HM0). fold eps in A, D.
  set (x := energy Tf (first_ridge o t) t) in *. set (d := INR (T - 1) * eps) in *.
  assert (Hx : 0 <= x / M t) by (unfold Rdiv; apply Rmult_le_pos; [unfold x, energy; apply pow2_ge_0|left; apply Rinv_0_lt_compat, HMp]).
  assert (L : ln (1 + eps) - d <= ln (x / M t + eps)) by lra.
  assert (Q : (1 + eps) * exp (- d) <= x / M t + eps).
  { rewrite <- (exp_ln (x / M t + eps)) by lra. rewrite <- (exp_ln (1 + eps)) at 1 by lra. rewrite <- exp_plus.
    destruct (Rle_lt_or_eq_dec _ _ L) as [L'|L']; [left; apply exp_increasing; lra|]. right. f_equal. lra. }
  assert (E1 : 1 - d <= exp (- d)).
  { destruct (Req_dec d 0) as [->|N]; [rewrite Ropp_0, exp_0; lra|]. left. pose proof (exp_ineq1 (- d) ltac:(lra)). lra. }
  assert (Y : (1 + eps) * (1 - d) - eps <= x / M t) by nra.
  apply Rmult_le_reg_r with (/ M t); [apply Rinv_0_lt_compat, HMp|]. fold (x / M t).
  replace ((1 - d * (1 + eps)) * M t * / M t) with (1 - d * (1 + eps)) by (field; exact HM0). nra.
Qed.

(** ** Enough penalty *)
Lemma Rsum_bounds n f a b : (forall i, (i < n)%nat -> a <= f i <= b) -> INR n * a <= Rsum n f <= INR n * b.
Proof.
  induction n as [|n IH]; intros H; cbn [Rsum]; [cbn [INR]; lra|]. rewrite S_INR. specialize (IH (fun i Hi => H i ltac:(lia))).
  specialize (H n ltac:(lia)). lra.
Qed.
Lemma Rsum_term n f k : (forall i, (i < n)%nat -> 0 <= f i) -> (k < n)%nat -> f k <= Rsum n f.
Proof.
  intros H Hk. pose proof (Rsum_diff1 n f (fun i => if Nat.eq_dec i k then 0 else f i) k Hk) as D. cbv beta in D.
  destruct (Nat.eq_dec k k) as [_|N]; [|contradiction].
  specialize (D ltac:(intros i Hi Hn; destruct (Nat.eq_dec i k); [contradiction|reflexivity])).
  assert (0 <= Rsum n (fun i => if Nat.eq_dec i k then 0 else f i)); [|lra].
  pose proof (Rsum_bounds n (fun i => if Nat.eq_dec i k then 0 else f i)) as B. clear D.
  clear B. revert H. clear Hk. induction n as [|n IH]; intros H; cbn [Rsum]; [lra|]. specialize (IH (fun i Hi => H i ltac:(lia))).
  pose proof (H n ltac:(lia)). destruct (Nat.eq_dec n k); lra.
Qed.
Definition row_cost (f64 : bool) (Tf : mat C) (M : nat -> R) (f : nat) : R := energy_cost f64 (energy Tf) M (ncols Tf) (fun _ => f).
Theorem penalty_flattens par f64 Tf scales penalty n bw cwt o M :
  extract_ridges par f64 Tf scales penalty n bw cwt = Ok o ->
  sched_ok (nrows Tf) par -> (1 <= n)%nat -> (nrows Tf <= ncols Tf)%nat -> col_peaks Tf M -> 0 <= penalty ->
  (forall a b, (a < nrows Tf)%nat -> (b < nrows Tf)%nat -> a <> b ->
     INR (ncols Tf) * (ln (1 + eps_of f64) - ln (eps_of f64)) + INR (ncols Tf - 1) * eps_of f64 < jump cwt scales penalty a b) ->
  exists f, (f < nrows Tf)%nat /\ (forall t, (t < ncols Tf)%nat -> first_ridge o t = f) /\
    forall g, (g < nrows Tf)%nat -> row_cost f64 Tf M f <= row_cost f64 Tf M g + INR (ncols Tf - 1) * eps_of f64.
Proof.
  intros H Hs Hn HFT HM Hp Hgap. set (T := ncols Tf) in *. set (eps := eps_of f64) in *. pose proof (eps_pos f64) as He. fold eps in He.
  destruct (extract_inv _ _ _ _ _ _ _ _ _ H) as (HT & HL & HF & _ & _). specialize (HF Hn). fold T in HT.
  assert (V : valid_path (nrows Tf) T (first_ridge o)).
  { intros u Hu. destruct (ridges_valid _ _ _ _ _ _ _ _ _ H Hs) as (_ & V). destruct (V 0%nat Hn) as (_ & V'). exact (proj1 (V' u Hu)). }
  assert (OPT : forall q, valid_path (nrows Tf) T q -> energy_cost f64 (energy Tf) M T (first_ridge o) + penalty * roughness cwt scales T (first_ridge o) <=
    energy_cost f64 (energy Tf) M T q + penalty * roughness cwt scales T q + INR (T - 1) * eps).
  { intros q Vq. pose proof (ridge_k_optimal par f64 Tf scales penalty n bw cwt o 0 M H Hs Hn HFT HM q Vq) as A.
    change (energy_at (nrows Tf) bw (firstn 0 o) (energy Tf)) with (energy Tf) in A. rewrite !path_cost_split in A. exact A. }
  assert (EC : forall q, valid_path (nrows Tf) T q -> INR T * - ln (1 + eps) <= energy_cost f64 (energy Tf) M T q <= INR T * - ln eps).
  { intros q Vq. apply Rsum_bounds. intros i Hi. destruct (HM i Hi) as (((g & Hg & Eg) & Hmax) & HM0). specialize (Hmax (q i) (Vq i Hi)).
    assert (0 < M i) by (assert (0 <= energy Tf g i) by (unfold energy; apply pow2_ge_0); lra).
    assert (0 <= energy Tf (q i) i) by (unfold energy; apply pow2_ge_0).
    assert (0 <= energy Tf (q i) i / M i <= 1).
    { split; [unfold Rdiv; apply Rmult_le_pos; [assumption|left; apply Rinv_0_lt_compat; assumption]|].
      apply Rmult_le_reg_r with (M i); [assumption|]. replace (energy Tf (q i) i / M i * M i) with (energy Tf (q i) i) by (field; exact HM0). lra. }
    fold eps. split; apply Ropp_le_contravar.
    - destruct (Rle_lt_or_eq_dec (energy Tf (q i) i / M i + eps) (1 + eps) ltac:(lra)) as [Q|Q]; [left; apply ln_increasing; lra|right; f_equal; exact Q].
    - destruct (Rle_lt_or_eq_dec eps (energy Tf (q i) i / M i + eps) ltac:(lra)) as [Q|Q]; [left; apply ln_increasing; lra|right; f_equal; exact Q]. }
  assert (RC : forall f, roughness cwt scales T (fun _ => f) = 0).
  { intros f. unfold roughness. cbv zeta. rewrite (Rsum_ext _ _ (fun _ => 0)) by (intros i _; ring). pose proof (Rsum_bounds (T - 1) (fun _ => 0) 0 0 (fun i _ => conj (Rle_refl 0) (Rle_refl 0))). lra. }
  assert (VC : forall f, (f < nrows Tf)%nat -> valid_path (nrows Tf) T (fun _ => f)) by (intros f Hf u _; exact Hf).
  assert (ST : forall t, (S t < T)%nat -> first_ridge o (S t) = first_ridge o t).
  { intros t Ht. destruct (Nat.eq_dec (first_ridge o (S t)) (first_ridge o t)) as [E|N]; [exact E|]. exfalso.
    specialize (Hgap _ _ (V (S t) Ht) (V t ltac:(lia)) N).
    specialize (OPT _ (VC 0%nat ltac:(lia))). rewrite RC, Rmult_0_r, Rplus_0_r in OPT.
    pose proof (EC _ V) as (B1 & _). pose proof (EC _ (VC 0%nat ltac:(lia))) as (_ & B2).
    assert (J : jump cwt scales penalty (first_ridge o (S t)) (first_ridge o t) <= penalty * roughness cwt scales T (first_ridge o)).
    { unfold jump, roughness. cbv zeta. apply Rmult_le_compat_l; [exact Hp|].
      apply (Rsum_term (T - 1) (fun t => ((if cwt then ln (nth (first_ridge o (S t)) scales 0) else nth (first_ridge o (S t)) scales 0) -
        (if cwt then ln (nth (first_ridge o t) scales 0) else nth (first_ridge o t) scales 0)) ^ 2) t); [|lia]. intros i _. apply pow2_ge_0. }
    lra. }
  assert (CONST : forall t, (t < T)%nat -> first_ridge o t = first_ridge o 0).
  { induction t as [|t IH]; intros Ht; [reflexivity|]. rewrite ST by exact Ht. apply IH. lia. }
  exists (first_ridge o 0). split; [apply V; lia|]. split; [exact CONST|]. intros g Hg. specialize (OPT _ (VC g Hg)). rewrite RC, Rmult_0_r, Rplus_0_r in OPT.
  unfold row_cost. fold T. fold T in OPT.
  assert (energy_cost f64 (energy Tf) M T (fun _ => first_ridge o 0) = energy_cost f64 (energy Tf) M T (first_ridge o)) as ->.
  { unfold energy_cost. apply Rsum_ext. intros i Hi. rewrite (CONST i Hi). reflexivity. }
  assert (0 <= penalty * roughness cwt scales T (first_ridge o)); [|lra]. apply Rmult_le_pos; [exact Hp|].
  unfold roughness. cbv zeta. apply Rsum_nonneg. intros i _. apply pow2_ge_0.
Qed.
