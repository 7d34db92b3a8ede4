(** [extract_ridges] on a transform whose energy lies on one curve. *)
From Coq Require Import Reals Lra.
From Coq Require Import ZifyBool ZifyNat.
From Verif Require Import Py Parallel Cplx CplxProofs Squeeze Ssqueeze Ridge RidgeOpt RidgeThms.
Local Open Scope R_scope.

Lemma Rsum_bump n g b c t0 : (t0 < n)%nat -> (forall t, (t < n)%nat -> b <= g t) -> b + c <= g t0 ->
  INR n * b + c <= Rsum n g.
Proof.
  intros Ht Hb Hc. induction n as [|n IH]; [lia|]. cbn [Rsum]. rewrite S_INR.
  destruct (Nat.eq_dec t0 n) as [->|Hne].
  - assert (INR n * b <= Rsum n g).
    { rewrite <- Rsum_const. apply Rsum_le. intros; apply Hb; lia. }
    lra.
  - assert (INR n * b + c <= Rsum n g) by (apply IH; [lia|intros; apply Hb; lia]).
    specialize (Hb n ltac:(lia)). lra.
Qed.

(** [c t] is the row with energy at time [t] *)
Definition on_curve (Tf : mat C) (c : nat -> nat) : Prop :=
  valid_path (nrows Tf) (ncols Tf) c /\
  forall f t, (f < nrows Tf)%nat -> (t < ncols Tf)%nat -> (el Tf f t = C0 <-> f <> c t).

Theorem curve_found par f64 Tf scales penalty n bw cwt o c :
  extract_ridges par f64 Tf scales penalty n bw cwt = Ok o -> sched_ok (nrows Tf) par -> (1 <= n)%nat ->
  (nrows Tf <= ncols Tf)%nat -> 0 <= penalty -> on_curve Tf c ->
  Rsum (ncols Tf - 1) (fun t => jump cwt scales penalty (c (S t)) (c t)) + INR (ncols Tf - 1) * eps_of f64
    < ln (1 + / eps_of f64) ->
  forall t, (t < ncols Tf)%nat -> nth t (r_idx (nth 0 o ridge0)) 0%nat = c t.
Proof.
  intros H Hs Hn HFT Hpen (Hv & Hc) HL t0 Ht0.
  pose proof (eps_pos f64) as He. set (eps := eps_of f64) in *.
  set (M := fun t => energy Tf (c t) t).
  assert (HM : forall t, (t < ncols Tf)%nat -> is_colmax (nrows Tf) (energy Tf) t (M t) /\ M t <> 0).
  { intros t Ht. assert (el Tf (c t) t <> C0) by (intros E; apply Hc in E; auto).
    assert (0 < M t) by (unfold M, energy; apply pow_lt, Cabs_pos; assumption).
    split; [|lra]. split; [exists (c t); split; [apply Hv, Ht|reflexivity]|].
    intros f Hf. destruct (Nat.eq_dec f (c t)) as [->|Hne]; [unfold M; lra|].
    unfold energy at 1. replace (el Tf f t) with C0 by (symmetry; apply Hc; assumption).
    rewrite Cabs_0. replace (0 ^ 2) with 0 by ring. left. assumption. }
  pose proof (ridge_k_optimal par f64 Tf scales penalty n bw cwt o 0 M H Hs Hn HFT HM c Hv) as Hopt.
  set (p := fun t => nth t (r_idx (nth 0 o ridge0)) 0%nat) in *.
  destruct (Nat.eq_dec (p t0) (c t0)) as [E|Hne]; [exact E|exfalso].
  destruct (ridges_valid _ _ _ _ _ _ _ _ _ H Hs) as (_ & V). destruct (V 0%nat Hn) as (_ & V').
  assert (Hp : valid_path (nrows Tf) (ncols Tf) p) by (intros t Ht; exact (proj1 (V' t Ht))).
  set (cost := cost_of f64 (energy_at (nrows Tf) bw (firstn 0 o) (energy Tf)) M) in *.
  assert (Hon : forall t, (t < ncols Tf)%nat -> cost (c t) t = - ln (1 + eps)).
  { intros t Ht. unfold cost, cost_of. cbn [firstn energy_at]. fold eps. do 2 f_equal.
    destruct (HM t Ht) as (_ & Hz). unfold M in *. field. exact Hz. }
  assert (Hoff : forall f t, (f < nrows Tf)%nat -> (t < ncols Tf)%nat -> f <> c t -> cost f t = - ln (1 + eps) + ln (1 + / eps)).
  { intros f t Hf Ht Hne'. unfold cost, cost_of. cbn [firstn energy_at]. fold eps.
    assert (E0 : energy Tf f t = 0).
    { unfold energy. replace (el Tf f t) with C0 by (symmetry; apply Hc; assumption). rewrite Cabs_0. ring. }
    rewrite E0. destruct (HM t Ht) as (_ & Hz). replace (0 / M t + eps) with eps by (field; exact Hz).
    replace (1 + eps) with (eps * (1 + / eps)) by (field; lra).
    assert (0 < / eps) by (apply Rinv_0_lt_compat; exact He).
    rewrite ln_mult by lra. ring. }
  assert (Hinv : 0 < / eps) by (apply Rinv_0_lt_compat; exact He).
  assert (HL0 : 0 < ln (1 + / eps)) by (rewrite <- ln_1; apply ln_increasing; lra).
  unfold path_cost in Hopt. unfold M in *.
  assert (H1 : Rsum (ncols Tf) (fun t => cost (c t) t) = INR (ncols Tf) * - ln (1 + eps)).
  { rewrite (Rsum_ext _ _ (fun _ => - ln (1 + eps))); [apply Rsum_const|exact Hon]. }
  assert (H2 : INR (ncols Tf) * - ln (1 + eps) + ln (1 + / eps) <= Rsum (ncols Tf) (fun t => cost (p t) t)).
  { apply Rsum_bump with (t0 := t0); [exact Ht0| |].
    - intros t Ht. destruct (Nat.eq_dec (p t) (c t)) as [->|Hd]; [rewrite Hon by exact Ht; lra|].
      rewrite Hoff by (auto; apply Hp, Ht). lra.
    - rewrite Hoff by (auto; apply Hp, Ht0). lra. }
  assert (H3 : 0 <= Rsum (ncols Tf - 1) (fun t => jump cwt scales penalty (p (S t)) (p t))).
  { replace 0 with (Rsum (ncols Tf - 1) (fun _ => 0)) by (rewrite Rsum_const; ring).
    apply Rsum_le. intros t Ht. unfold jump. apply Rmult_le_pos; [exact Hpen|apply pow2_ge_0]. }
  rewrite H1 in Hopt. fold eps in Hopt. lra.
Qed.

(** a constant row: the condition is on the length only *)
Lemma eps_room (f64 : bool) T : (Z.of_nat T <= (if f64 then 2 ^ 52 else 2 ^ 23))%Z -> INR T * eps_of f64 < ln (1 + / eps_of f64).
Proof.
  intros HT. pose proof (eps_pos f64) as He.
  assert (H1 : INR T * eps_of f64 <= 1).
  { rewrite INR_IZR_INZ. apply IZR_le in HT. apply Rle_trans with (IZR (if f64 then 2 ^ 52 else 2 ^ 23) * eps_of f64).
    - apply Rmult_le_compat_r; lra.
    - destruct f64; cbn [eps_of]; unfold EPS64, EPS32; cbn; lra. }
  assert (H2 : 1 < ln (1 + / eps_of f64)); [|lra].
  apply exp_lt_inv. rewrite exp_ln.
  - pose proof exp_le_3. destruct f64; cbn [eps_of]; unfold EPS64, EPS32; rewrite Rinv_inv; lra.
  - pose proof (Rinv_0_lt_compat _ He). lra.
Qed.
Corollary row_found par (f64 : bool) Tf scales penalty n bw cwt o row :
  extract_ridges par f64 Tf scales penalty n bw cwt = Ok o -> sched_ok (nrows Tf) par -> (1 <= n)%nat ->
  (nrows Tf <= ncols Tf)%nat -> 0 <= penalty -> (row < nrows Tf)%nat ->
  (forall f t, (f < nrows Tf)%nat -> (t < ncols Tf)%nat -> (el Tf f t = C0 <-> f <> row)) ->
  (Z.of_nat (ncols Tf) <= (if f64 then 2 ^ 52 else 2 ^ 23))%Z ->
  forall t, (t < ncols Tf)%nat ->
    nth t (r_idx (nth 0 o ridge0)) 0%nat = row /\ nth t (r_freq (nth 0 o ridge0)) 0 = nth row scales 0 /\
    nth t (r_energy (nth 0 o ridge0)) 0 = energy Tf row t.
Proof.
  intros H Hs Hn HFT Hpen Hr Hz HT t Ht.
  assert (E : nth t (r_idx (nth 0 o ridge0)) 0%nat = row).
  { refine (curve_found par f64 Tf scales penalty n bw cwt o (fun _ => row) H Hs Hn HFT Hpen (conj _ Hz) _ t Ht).
    - intros u Hu. exact Hr.
    - rewrite (Rsum_0 _ (fun t => jump _ _ _ _ _)); [|intros; unfold jump; ring]. rewrite Rplus_0_l.
      apply eps_room. lia. }
  split; [exact E|]. destruct (ridges_valid _ _ _ _ _ _ _ _ _ H Hs) as (_ & V). destruct (V 0%nat Hn) as (_ & V').
  destruct (V' t Ht) as (_ & B & D). rewrite E in B, D. split; [exact B|exact D].
Qed.
