(** Rounding of reals to integers: Python/numpy/numba [round] (half to even) and CUDA
    [round] (half away from zero). *)
From Coq Require Import Reals Lra Psatz.
From Verif Require Import Py.
Local Open Scope R_scope.

(** Python's [round], [np.round], numba's [round]: nearest, ties to even. *)
Definition round_half_even (r : R) : Z :=
  let f := Int_part r in
  let d := frac_part r in
  if Rlt_dec d (1/2) then f
  else if Rlt_dec (1/2) d then (f + 1)%Z
  else if Z.even f then f else (f + 1)%Z.

(** C / CUDA [round]: nearest, ties away from zero. *)
Definition round_half_away (r : R) : Z :=
  let f := Int_part r in
  let d := frac_part r in
  if Rlt_dec d (1/2) then f
  else if Rlt_dec (1/2) d then (f + 1)%Z
  else if Rlt_dec r 0 then f else (f + 1)%Z.

Lemma Int_part_bounds r : IZR (Int_part r) <= r < IZR (Int_part r) + 1.
Proof. destruct (base_Int_part r); lra. Qed.

Lemma frac_part_eq r : frac_part r = r - IZR (Int_part r).
Proof. reflexivity. Qed.

Lemma rhe_near r : -(1/2) <= r - IZR (round_half_even r) <= 1/2.
Proof.
  unfold round_half_even. rewrite frac_part_eq.
  pose proof (Int_part_bounds r).
  destruct (Rlt_dec _ _); [lra|].
  destruct (Rlt_dec _ _); [rewrite plus_IZR; lra|].
  destruct (Z.even _); [lra|rewrite plus_IZR; lra].
Qed.

Lemma rha_near r : -(1/2) <= r - IZR (round_half_away r) <= 1/2.
Proof.
  unfold round_half_away. rewrite frac_part_eq.
  pose proof (Int_part_bounds r).
  destruct (Rlt_dec _ _); [lra|].
  destruct (Rlt_dec _ _); [rewrite plus_IZR; lra|].
  destruct (Rlt_dec r 0); [lra|rewrite plus_IZR; lra].
Qed.

Lemma IZR_dist_lt1 a b : -1 < IZR a - IZR b < 1 -> a = b.
Proof.
  intros [H1 H2].
  assert (a - b < 1)%Z by (apply lt_IZR; rewrite minus_IZR; lra).
  assert (-1 < a - b)%Z by (apply lt_IZR; rewrite minus_IZR; lra).
  lia.
Qed.

Lemma rhe_unique r k : -(1/2) < r - IZR k < 1/2 -> round_half_even r = k.
Proof. intros H; pose proof (rhe_near r); apply IZR_dist_lt1; lra. Qed.

Lemma rha_unique r k : -(1/2) < r - IZR k < 1/2 -> round_half_away r = k.
Proof. intros H; pose proof (rha_near r); apply IZR_dist_lt1; lra. Qed.

Lemma rhe_IZR k : round_half_even (IZR k) = k.
Proof. apply rhe_unique; lra. Qed.

Lemma Int_part_unique r k : IZR k <= r < IZR k + 1 -> Int_part r = k.
Proof. intros H; pose proof (Int_part_bounds r); apply IZR_dist_lt1; lra. Qed.

(** Exactly half-way: the even neighbour. *)
Lemma rhe_half k : round_half_even (IZR k + 1/2) = if Z.even k then k else (k + 1)%Z.
Proof.
  unfold round_half_even. rewrite frac_part_eq.
  rewrite (Int_part_unique (IZR k + 1/2) k) by lra.
  destruct (Rlt_dec _ _); [lra|]. destruct (Rlt_dec _ _); [lra|]. reflexivity.
Qed.

Lemma rha_half k : (0 <= k)%Z -> round_half_away (IZR k + 1/2) = (k + 1)%Z.
Proof.
  intros Hk. apply IZR_le in Hk.
  unfold round_half_away. rewrite frac_part_eq.
  rewrite (Int_part_unique (IZR k + 1/2) k) by lra.
  destruct (Rlt_dec _ _); [lra|]. destruct (Rlt_dec _ _); [lra|].
  destruct (Rlt_dec _ 0); [lra|]. reflexivity.
Qed.

Lemma rhe_mono r s : r <= s -> (round_half_even r <= round_half_even s)%Z.
Proof.
  intros Hrs.
  destruct (Z.le_gt_cases (round_half_even r) (round_half_even s)) as [|Hlt]; auto.
  exfalso.
  pose proof (rhe_near r). pose proof (rhe_near s).
  assert (Hlt1 : (round_half_even s + 1 <= round_half_even r)%Z) by lia.
  apply IZR_le in Hlt1. rewrite plus_IZR in Hlt1.
  assert (r = s) by lra. subst. lia.
Qed.

Lemma rhe_lower r k : IZR k <= r -> (k <= round_half_even r)%Z.
Proof. intros H; rewrite <- (rhe_IZR k); apply rhe_mono; auto. Qed.

Lemma rhe_upper r k : r <= IZR k -> (round_half_even r <= k)%Z.
Proof. intros H; rewrite <- (rhe_IZR k) at 1; apply rhe_mono; auto. Qed.

(** Nearest: no integer is closer than the rounded one. *)
Lemma rhe_nearest r k : Rabs (r - IZR (round_half_even r)) <= Rabs (r - IZR k).
Proof.
  pose proof (rhe_near r) as H.
  destruct (Z.eq_dec k (round_half_even r)) as [->|Hne]; [lra|].
  assert (Hd : 1 <= Rabs (IZR k - IZR (round_half_even r))).
  { rewrite <- minus_IZR. rewrite <- abs_IZR. apply IZR_le. lia. }
  revert Hd. unfold Rabs.
  repeat destruct (Rcase_abs _); lra.
Qed.

Lemma rha_nearest r k : Rabs (r - IZR (round_half_away r)) <= Rabs (r - IZR k).
Proof.
  pose proof (rha_near r) as H.
  destruct (Z.eq_dec k (round_half_away r)) as [->|Hne]; [lra|].
  assert (Hd : 1 <= Rabs (IZR k - IZR (round_half_away r))).
  { rewrite <- minus_IZR. rewrite <- abs_IZR. apply IZR_le. lia. }
  revert Hd. unfold Rabs.
  repeat destruct (Rcase_abs _); lra.
Qed.

(** The two roundings differ only on exact half-integers. *)
Lemma rhe_rha_agree r :
  (forall k, r <> IZR k + 1/2) -> round_half_even r = round_half_away r.
Proof.
  intros H. pose proof (rhe_near r) as H1. pose proof (rha_near r) as H2.
  symmetry; apply rha_unique.
  destruct H1 as [[H1|H1] [H3|H3]]; try lra.
  - exfalso; apply (H (round_half_even r)); lra.
  - exfalso; apply (H (round_half_even r - 1)%Z). rewrite minus_IZR; lra.
Qed.
