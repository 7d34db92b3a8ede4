(** A continuous function on the positive reals has a primitive. *)
From Coq Require Import Reals Lra ZifyBool ZifyNat.
From Verif Require Import Py Integral IntegralProofs.
Local Open Scope R_scope.

Section Prim.
Variable h : R -> R.
Hypothesis Hc : forall x, 0 < x -> continuity_pt h x.

Definition lo_end (n : nat) : R := / (INR n + 1).
Definition hi_end (n : nat) : R := INR n + 1.
Lemma ends n : 0 < lo_end n <= 1 /\ 1 <= hi_end n.
Proof.
  unfold lo_end, hi_end. pose proof (pos_INR n). split; [split; [apply Rinv_0_lt_compat; lra|]|lra].
  rewrite <- Rinv_1. apply Rinv_le_contravar; lra.
Qed.
Lemma local_prim n : exists F : R -> R, forall x, lo_end n <= x <= hi_end n -> derivable_pt_lim F x (h x).
Proof.
  destruct (ends n) as (E1 & E2). assert (H : lo_end n <= hi_end n) by lra.
  assert (C : forall x, lo_end n <= x <= hi_end n -> continuity_pt h x) by (intros; apply Hc; lra).
  exists (primitive H (FTC_P1 H C)). intros x Hx. apply RiemannInt_P28. exact Hx.
Qed.
Lemma same_increment F G a b x : (forall y, a <= y <= b -> derivable_pt_lim F y (h y)) -> (forall y, a <= y <= b -> derivable_pt_lim G y (h y)) ->
  a <= 1 <= b -> a <= x <= b -> F x - F 1 = G x - G 1.
Proof.
  intros HF HG H1 Hx. set (D := fun y => F y - G y).
  assert (DD : forall y, a <= y <= b -> derivable_pt_lim D y (h y - h y)) by (intros; apply derivable_pt_lim_minus; auto).
  destruct (Rtotal_order x 1) as [L|[E|L]].
  - destruct (MVT_cor2 D (fun y => h y - h y) x 1 L) as (c & E & _); [intros; apply DD; lra|]. unfold D in E. lra.
  - subst x. ring.
  - destruct (MVT_cor2 D (fun y => h y - h y) 1 x L) as (c & E & _); [intros; apply DD; lra|]. unfold D in E. lra.
Qed.
Lemma some_n x : 0 < x -> exists n, lo_end n < x < hi_end n.
Proof.
  intros Hx. destruct (archimed (x + / x)) as (A & _). pose proof (Rinv_0_lt_compat x Hx) as Hi.
  exists (Z.to_nat (up (x + / x))). unfold lo_end, hi_end.
  assert (0 < IZR (up (x + / x))) by lra. rewrite INR_IZR_INZ, Z2Nat.id by (apply le_IZR; lra). split; [|lra].
  apply Rlt_le_trans with (/ / x); [|rewrite Rinv_inv; lra]. apply Rinv_lt_contravar; [|lra]. apply Rmult_lt_0_compat; lra.
Qed.

Theorem primitive_exists : exists P : R -> R, forall x, 0 < x -> derivable_pt_lim P x (h x).
Proof.
  set (Q := fun x v => exists n F, lo_end n < x < hi_end n /\
     (forall y, lo_end n <= y <= hi_end n -> derivable_pt_lim F y (h y)) /\ v = F x - F 1).
  assert (U : forall x v w, Q x v -> Q x w -> v = w).
  { intros x v w (n & F & Hn & HF & ->) (m & G & Hm & HG & ->).
    destruct (ends n), (ends m). apply (same_increment F G (Rmax (lo_end n) (lo_end m)) (Rmin (hi_end n) (hi_end m))).
    - intros y Hy. apply HF. pose proof (Rmax_l (lo_end n) (lo_end m)). pose proof (Rmin_l (hi_end n) (hi_end m)). lra.
    - intros y Hy. apply HG. pose proof (Rmax_r (lo_end n) (lo_end m)). pose proof (Rmin_r (hi_end n) (hi_end m)). lra.
    - split; [apply Rmax_lub; lra|apply Rmin_glb; lra].
    - split; [apply Rmax_lub; lra|apply Rmin_glb; lra]. }
  (* unique values: completeness gives the function *)
  assert (ex : forall x, { v : R | 0 < x -> Q x v }).
  { intros x. destruct (Rlt_dec 0 x) as [Hx|Hx]; [|exists 0; intros; contradiction].
    assert (E : exists v, Q x v).
    { destruct (some_n x Hx) as (n & Hn). destruct (local_prim n) as (F & HF). exists (F x - F 1), n, F. auto. }
    destruct (completeness (fun y => Q x y)) as (v & [V1 V2]).
    - destruct E as (v & Hv). exists v. intros w Hw. rewrite (U x w v Hw Hv). lra.
    - destruct E as (v & Hv). exists v. exact Hv.
    - exists v. intros _. destruct E as (w & Hw). replace v with w; [exact Hw|]. apply Rle_antisym; [apply V1, Hw|].
      apply V2. intros y Hy. rewrite (U x y w Hy Hw). lra. }
  exists (fun x => proj1_sig (ex x)). intros x Hx. destruct (some_n x Hx) as (n & Hn). destruct (local_prim n) as (F & HF).
  apply (derivable_pt_lim_locally_ext (fun y => F y - F 1) _ x (lo_end n) (hi_end n)); [exact Hn| |].
  - intros z Hz. destruct (ends n). destruct (ex z) as (v & Hv). cbn. apply (U z); [|apply Hv; lra]. exists n, F. auto.
  - replace (h x) with (h x - 0) by ring. apply (derivable_pt_lim_minus F (fct_cte (F 1))); [apply HF; lra|apply derivable_pt_lim_const].
Qed.
End Prim.
