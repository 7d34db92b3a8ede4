(** The wavelets summed over geometric scales against their integral. *)
From Coq Require Import Reals Lra ZifyBool ZifyNat.
From Verif Require Import Py Cplx CplxProofs.
Local Open Scope R_scope.

(** ** Specification *)
(** nonnegative, at most [M], rising up to [c] and falling after *)
Definition unimodal (g : R -> R) (c M : R) : Prop :=
  (forall w, 0 < w -> 0 <= g w <= M) /\
  (forall u v, 0 < u -> u <= v -> v <= c -> g u <= g v) /\
  (forall u v, 0 < u -> c <= u -> u <= v -> g v <= g u).
(** [P b - P a] is the integral of [g w / w] from [a] to [b] *)
Definition log_primitive (g P : R -> R) : Prop := forall w, 0 < w -> derivable_pt_lim P w (g w / w).

Lemma primitive_bound g P a b lo hi : log_primitive g P -> 0 < a -> a < b ->
  (forall w, a < w < b -> lo <= g w <= hi) -> lo * ln (b / a) <= P b - P a <= hi * ln (b / a).
Proof.
  intros HP Ha Hab Hg.
  assert (L : ln (b / a) = ln b - ln a).
  { unfold Rdiv. rewrite ln_mult, ln_Rinv by (lra || (apply Rinv_0_lt_compat; lra)). ring. }
  assert (K : forall c, exists w, a < w < b /\ P b - P a - c * (ln b - ln a) = (g w / w - c * / w) * (b - a)).
  { intros c. destruct (MVT_cor2 (fun w => P w - c * ln w) (fun w => g w / w - c * / w) a b Hab) as (w & E & Hw).
    - intros w Hw. apply derivable_pt_lim_minus; [apply HP; lra|]. apply derivable_pt_lim_scal. apply derivable_pt_lim_ln. lra.
    - exists w. split; [exact Hw|]. rewrite <- E. ring. }
  rewrite L. split.
  - destruct (K lo) as (w & Hw & E). destruct (Hg w Hw) as (B & _).
    assert (0 <= (g w / w - lo * / w) * (b - a)); [|lra].
    apply Rmult_le_pos; [|lra]. unfold Rdiv. rewrite <- Rmult_minus_distr_r. apply Rmult_le_pos; [lra|]. left. apply Rinv_0_lt_compat. lra.
  - destruct (K hi) as (w & Hw & E). destruct (Hg w Hw) as (_ & B).
    assert (0 <= (hi - g w) * / w * (b - a)).
    { apply Rmult_le_pos; [|lra]. apply Rmult_le_pos; [lra|]. left. apply Rinv_0_lt_compat. lra. }
    replace ((g w / w - hi * / w) * (b - a)) with (- ((hi - g w) * / w * (b - a))) in E by (unfold Rdiv; ring). lra.
Qed.

Section Sum.
Variable g P : R -> R.
Variable c M d : R.
Variable u : nat -> R.
Hypothesis Hg : unimodal g c M.
Hypothesis HP : log_primitive g P.
Hypothesis Hu : forall i, 0 < u i.
Hypothesis Hd : 0 < d.
Hypothesis Hstep : forall i, u (S i) = u i * exp d.

Lemma step_lt i : u i < u (S i).
Proof.
  rewrite Hstep. pose proof (Hu i). assert (1 < exp d) by (rewrite <- exp_0; apply exp_increasing; exact Hd). nra.
Qed.
Lemma step_ln i : ln (u (S i) / u i) = d.
Proof. rewrite Hstep. pose proof (Hu i). replace (u i * exp d / u i) with (exp d) by (field; lra). apply ln_exp. Qed.

Lemma sum_inv L : let S0 := Rsum (S L) (fun i => g (u i)) in
  (u L <= c -> d * (S0 - g (u L)) <= P (u L) - P (u 0%nat) <= d * (S0 - g (u 0%nat))) /\
  d * (S0 - M) <= P (u L) - P (u 0%nat) <= d * (S0 - g (u L) + M).
Proof.
  destruct Hg as (G0 & G1 & G2). induction L as [|L IH]; cbn [Rsum] in *.
  - pose proof (G0 (u 0%nat) (Hu 0%nat)). split; [intros _; split; nra|]. split; nra.
  - destruct IH as (IA & IB). set (S0 := Rsum L (fun i => g (u i)) + g (u L)) in *.
    pose proof (Hu L) as HL. pose proof (Hu (S L)) as HL'. pose proof (step_lt L) as Hlt.
    pose proof (G0 _ HL) as B1. pose proof (G0 _ HL') as B2.
    assert (PB : forall lo hi, (forall w, u L < w < u (S L) -> lo <= g w <= hi) -> lo * d <= P (u (S L)) - P (u L) <= hi * d).
    { intros lo hi Hb. rewrite <- (step_ln L). apply (primitive_bound g P); auto. }
    split.
    + intros Hc. destruct (PB (g (u L)) (g (u (S L)))) as (C1 & C2).
      { intros w Hw. split; apply G1; lra. }
      destruct (IA ltac:(lra)) as (D1 & D2). split; nra.
    + destruct (Rle_dec c (u L)) as [Hc|Hc].
      * destruct (PB (g (u (S L))) (g (u L))) as (C1 & C2).
        { intros w Hw. split; apply G2; lra. }
        split; nra.
      * destruct (IA ltac:(lra)) as (D1 & D2). destruct (PB (Rmin (g (u L)) (g (u (S L)))) M) as (C1 & C2).
        { intros w Hw. split; [|apply G0; lra]. destruct (Rle_dec w c).
          - apply Rle_trans with (1 := Rmin_l _ _). apply G1; lra.
          - apply Rle_trans with (1 := Rmin_r _ _). apply G2; lra. }
        pose proof (G0 _ (Hu 0%nat)). split; [|nra].
        unfold Rmin in C1. destruct (Rle_dec (g (u L)) (g (u (S L)))); nra.
Qed.

Theorem sum_vs_integral L : (0 < L)%nat ->
  Rabs (d * Rsum L (fun i => g (u i)) - (P (u (L - 1)%nat) - P (u 0%nat))) <= d * M.
Proof.
  intros HL. destruct L as [|L]; [lia|]. replace (S L - 1)%nat with L by lia.
  destruct (sum_inv L) as (_ & A & B). destruct Hg as (G0 & _). pose proof (G0 _ (Hu L)). apply Rabs_le. split; nra.
Qed.
End Sum.

(** ** Trapezoids on any grid *)
Definition primitive (g P : R -> R) : Prop := forall w, 0 < w -> derivable_pt_lim P w (g w).
Lemma prim_bound g P a b lo hi : primitive g P -> 0 < a -> a < b ->
  (forall w, a < w < b -> lo <= g w <= hi) -> lo * (b - a) <= P b - P a <= hi * (b - a).
Proof.
  intros HP Ha Hab Hg. destruct (MVT_cor2 P g a b Hab) as (w & E & Hw); [intros w Hw; apply HP; lra|].
  rewrite E. destruct (Hg w Hw). split; apply Rmult_le_compat_r; lra.
Qed.
Lemma trapz_cell x y lo hi d I : lo <= x <= hi -> lo <= y <= hi -> 0 <= d -> lo * d <= I <= hi * d ->
  (x = lo /\ y = hi) \/ (x = hi /\ y = lo) -> Rabs (d * (x + y) / 2 - I) <= d / 2 * (hi - lo).
Proof. intros Hx Hy Hd HI [(-> & ->)|(-> & ->)]; apply Rabs_le; split; nra. Qed.

Section Trapz.
Variable g P : R -> R.
Variable c M h : R.
Variable u : nat -> R.
Hypothesis Hg : unimodal g c M.
Hypothesis HP : primitive g P.
Hypothesis Hu : 0 < u 0%nat.

Lemma trapz_inv L : (forall i, (i < L)%nat -> u i < u (S i) <= u i + h) -> 0 <= h ->
  let E := Rabs (Rsum L (fun i => (u (S i) - u i) * (g (u i) + g (u (S i))) / 2) - (P (u L) - P (u 0%nat))) in
  u 0%nat <= u L /\ (u L <= c -> E <= h / 2 * (g (u L) - g (u 0%nat))) /\ E <= h / 2 * (2 * M - g (u L)).
Proof.
  destruct Hg as (G0 & G1 & G2). induction L as [|L IH]; intros Hs Hh; cbn [Rsum].
  - pose proof (G0 _ Hu). replace (0 - (P (u 0%nat) - P (u 0%nat))) with 0 by ring. rewrite Rabs_R0.
    split; [lra|]. split; [intros _; lra|]. apply Rmult_le_pos; lra.
  - destruct (IH (fun i Hi => Hs i ltac:(lia)) Hh) as (I0 & IA & IB). clear IH. destruct (Hs L ltac:(lia)) as (S1 & S2).
    set (S0 := Rsum L _) in *. set (x := u L) in *. set (y := u (S L)) in *.
    assert (Hx : 0 < x) by lra. assert (Hy : 0 < y) by lra.
    pose proof (G0 _ Hx) as B1. pose proof (G0 _ Hy) as B2.
    assert (T : forall e1 e2, Rabs (S0 - (P x - P (u 0%nat))) <= e1 -> Rabs ((y - x) * (g x + g y) / 2 - (P y - P x)) <= e2 ->
      Rabs (S0 + (y - x) * (g x + g y) / 2 - (P y - P (u 0%nat))) <= e1 + e2).
    { intros e1 e2 H1 H2. replace (S0 + _ - _) with ((S0 - (P x - P (u 0%nat))) + ((y - x) * (g x + g y) / 2 - (P y - P x))) by ring.
      eapply Rle_trans; [apply Rabs_triang|]. lra. }
    split; [lra|]. split.
    + intros Hc. assert (g x <= g y) by (apply G1; lra).
      eapply Rle_trans; [apply T; [apply IA; lra|apply (trapz_cell _ _ (g x) (g y)); [split; lra|split; lra|lra| |auto]]|].
      * apply (prim_bound g); auto. intros w Hw. split; apply G1; lra.
      * nra.
    + destruct (Rle_dec c x) as [Hc|Hc].
      * assert (g y <= g x) by (apply G2; lra).
        eapply Rle_trans; [apply T; [exact IB|apply (trapz_cell _ _ (g y) (g x)); [split; lra|split; lra|lra| |auto]]|].
        -- apply (prim_bound g); auto. intros w Hw. split; apply G2; lra.
        -- nra.
      * assert (IA' := IA ltac:(lra)). pose proof (G0 _ Hu) as B0.
        assert (Hm : forall w, x < w < y -> Rmin (g x) (g y) <= g w <= M).
        { intros w Hw. split; [|apply G0; lra]. destruct (Rle_dec w c).
          - apply Rle_trans with (1 := Rmin_l _ _). apply G1; lra.
          - apply Rle_trans with (1 := Rmin_r _ _). apply G2; lra. }
        destruct (prim_bound g P x y _ _ HP Hx S1 Hm) as (C1 & C2).
        assert (E2 : Rabs ((y - x) * (g x + g y) / 2 - (P y - P x)) <= (y - x) / 2 * (2 * M - g x - g y)).
        { unfold Rmin in C1. apply Rabs_le. destruct (Rle_dec (g x) (g y)); split; nra. }
        eapply Rle_trans; [apply T; [exact IA'|exact E2]|]. nra.
Qed.

Theorem trapz_unimodal L : (forall i, (i < L)%nat -> u i < u (S i) <= u i + h) -> 0 <= h ->
  Rabs (Rsum L (fun i => (u (S i) - u i) * (g (u i) + g (u (S i))) / 2) - (P (u L) - P (u 0%nat))) <= h * M.
Proof.
  intros Hs Hh. destruct (trapz_inv L Hs Hh) as (A & _ & B). destruct Hg as (G0 & _). pose proof (G0 (u L) ltac:(lra)). nra.
Qed.
(** on the rising side the error is that of the last sample *)
Theorem trapz_rising L : (forall i, (i < L)%nat -> u i < u (S i) <= u i + h) -> 0 <= h -> u L <= c ->
  Rabs (Rsum L (fun i => (u (S i) - u i) * (g (u i) + g (u (S i))) / 2) - (P (u L) - P (u 0%nat))) <= h / 2 * g (u L).
Proof.
  intros Hs Hh Hc. destruct (trapz_inv L Hs Hh) as (A & B & _). destruct Hg as (G0 & _). pose proof (G0 _ Hu). specialize (B Hc). nra.
Qed.
End Trapz.
