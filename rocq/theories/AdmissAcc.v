(** Accuracy of the numeric integral on unimodal integrands. *)
From Coq Require Import Reals Lra Lia ZifyBool ZifyNat.
From Verif Require Import Py Cplx CplxProofs Squeeze SqueezeProofs Resol Admiss AdmissThms AdmissThms2 GainBound.
Local Open Scope R_scope.

Lemma attempt_step m L : In (m, L) attempts -> rstep L (npts m) <= 2 / 1000.
Proof.
  assert (EN : forall m, (1 <= m)%Z -> INR (npts m) = 10000 * IZR m).
  { intros k Hk. unfold npts. rewrite INR_IZR_INZ, Z2Nat.id by lia. now rewrite mult_IZR. }
  intros H. unfold rstep. destruct (attempt_range m L H) as (Hm & _). rewrite EN by lia. cbn in H.
  destruct H as [H|[H|[H|[H|[]]]]]; injection H as <- <-; lra.
Qed.
(** left samples are at most 0.0033 apart *)
Lemma lgrid_step i : (i < 999)%nat -> lgrid (S i) <= lgrid i + 33 / 10000.
Proof.
  intros Hi. assert (E : lgrid i = lgrid (S i) * Rpower 10 (- (14 / 999))).
  { unfold lgrid. rewrite <- Rpower_plus. f_equal. rewrite S_INR. lra. }
  assert (HS : 0 < lgrid (S i) <= 1 / 10).
  { split; [apply lgrid_pos|]. destruct lgrid_ends as (_ & <-). unfold lgrid. apply Rle_Rpower; [lra|].
    assert (INR (S i) <= INR 999) by (apply le_INR; lia). lra. }
  assert (L10 : ln 10 <= 235 / 100).
  { apply Rnot_lt_le. intros N. apply exp_increasing in N. rewrite exp_ln in N by lra.
    (* exp 2.35 > 10 *)
    pose proof (exp_ineq1_le (235 / 100 / 256)) as X. set (y := exp (235 / 100 / 256)) in *.
    assert (Y : exp (235 / 100) = y ^ 256).
    { unfold y. rewrite <- Rpower_pow by apply exp_pos. unfold Rpower. rewrite ln_exp. f_equal. rewrite INR_IZR_INZ. field. }
    rewrite Y in N. assert (H1 : 100910 / 100000 <= y) by lra.
    assert (H2 : 101828 / 100000 <= y ^ 2) by (replace (y ^ 2) with (y * y) by ring; nra).
    assert (H4 : 103689 / 100000 <= y ^ 4) by (replace (y ^ 4) with (y ^ 2 * y ^ 2) by ring; nra).
    assert (H8 : 107514 / 100000 <= y ^ 8) by (replace (y ^ 8) with (y ^ 4 * y ^ 4) by ring; nra).
    assert (H16 : 115592 / 100000 <= y ^ 16) by (replace (y ^ 16) with (y ^ 8 * y ^ 8) by ring; nra).
    assert (H32 : 133615 / 100000 <= y ^ 32) by (replace (y ^ 32) with (y ^ 16 * y ^ 16) by ring; nra).
    assert (H64 : 178529 / 100000 <= y ^ 64) by (replace (y ^ 64) with (y ^ 32 * y ^ 32) by ring; nra).
    assert (H128 : 318726 / 100000 <= y ^ 128) by (replace (y ^ 128) with (y ^ 64 * y ^ 64) by ring; nra).
    replace (y ^ 256) with (y ^ 128 * y ^ 128) in N by ring.
    nra. }
  pose proof (exp_ineq1_le (- (14 / 999) * ln 10)) as X. change (exp (- (14 / 999) * ln 10)) with (Rpower 10 (- (14 / 999))) in X. rewrite E. nra.
Qed.

Lemma abs_le_inv x a : Rabs x <= a -> - a <= x <= a.
Proof. intros H. pose proof (Rle_abs x). pose proof (Rle_abs (- x)) as N. rewrite Rabs_Ropp in N. lra. Qed.

Section Acc.
Variables (fn P : R -> R) (c M : R).
Hypothesis (Hf : unimodal fn c M) (HP : primitive fn P).

Lemma M_nonneg : 0 <= M.
Proof. destruct Hf as (G0 & _). destruct (G0 1 ltac:(lra)). lra. Qed.
(** an integral is at most the length times the bound *)
Lemma piece a b K : 0 < a -> a <= b -> (forall w, a < w < b -> fn w <= K) -> 0 <= P b - P a <= K * (b - a).
Proof.
  intros Ha [Hab| ->] HK; [|lra]. destruct Hf as (G0 & _).
  destruct (prim_bound fn P a b 0 K HP Ha Hab) as (A & B); [|lra].
  intros w Hw. split; [apply G0; lra|apply HK, Hw].
Qed.

Lemma left_acc : Rabs (left_part fn - (P (1 / 10) - P (1 / 10 ^ 15))) <= 33 / 10000 * M /\
  (1 / 10 <= c -> Rabs (left_part fn - (P (1 / 10) - P (1 / 10 ^ 15))) <= 17 / 10000 * fn (1 / 10)).
Proof.
  destruct lgrid_ends as (E0 & E1). rewrite <- E0. unfold left_part.
  assert (Hs : forall i, (i < 999)%nat -> lgrid i < lgrid (S i) <= lgrid i + 33 / 10000) by (intros i Hi; split; [apply lgrid_succ|apply lgrid_step, Hi]).
  set (K := 999%nat) in *. split.
  - rewrite <- E1. apply (trapz_unimodal fn P c M (33 / 10000) lgrid Hf HP (lgrid_pos 0) K Hs). lra.
  - intros Hc. rewrite <- E1 in Hc |- *. pose proof (trapz_rising fn P c M (33 / 10000) lgrid Hf HP (lgrid_pos 0) K Hs ltac:(lra) Hc) as T.
    destruct Hf as (G0 & _). pose proof (G0 (lgrid K) (lgrid_pos K)). lra.
Qed.

Lemma right_acc L N n : 1 / 10 < L -> (1 <= n)%nat -> (n < N)%nat -> c <= rgrid L N n ->
  Rabs (right_part fn L N n - (P (rgrid L N n) - P (rgrid L N 0))) <= 3 / 2 * rstep L N * M.
Proof.
  intros HL Hn HN Hc. set (h := rstep L N). assert (Hh : 0 < h) by (apply rstep_pos; [exact HL|lia]).
  set (u := rgrid L N) in *. assert (Hu : forall i, (i < N)%nat -> 0 < u i) by (intros i Hi; pose proof (rgrid_range L N i HL Hi : 1 / 10 < u i <= L); lra).
  assert (Hs : forall i, u (S i) = u i + h) by (intros i; pose proof (rgrid_succ L N i : u (S i) - u i = h); lra).
  pose proof (trapz_inv fn P c M h u Hf HP (Hu 0%nat ltac:(lia)) (n - 1)) as T.
  assert (Hs' : forall i, (i < n - 1)%nat -> u i < u (S i) <= u i + h) by (intros i Hi; rewrite Hs; lra).
  specialize (T Hs' ltac:(lra)). cbv zeta in T. destruct T as (_ & T1 & T2).
  assert (ER : right_part fn L N n = Rsum (n - 1) (fun i => (u (S i) - u i) * (fn (u i) + fn (u (S i))) / 2)).
  { unfold right_part. fold h u. rewrite <- Rsum_scal. apply Rsum_ext. intros i Hi. rewrite Hs. field. }
  rewrite <- ER in T1, T2. set (x := u (n - 1)%nat) in *. assert (En : u n = x + h) by (unfold x; replace n with (S (n - 1)) at 1 by lia; apply Hs).
  assert (Hx : 0 < x) by (apply Hu; lia). destruct Hf as (G0 & G1 & G2). pose proof (G0 x Hx).
  set (Rt := right_part fn L N n) in *.
  replace (Rt - (P (u n) - P (u 0%nat))) with ((Rt - (P x - P (u 0%nat))) - (P (u n) - P x)) by ring.
  destruct (Rle_dec c x) as [C|C].
  - destruct (piece x (u n) (fn x) Hx ltac:(lra)) as (Q1 & Q2); [intros w Hw; apply G2; lra|].
    replace (u n - x) with h in Q2 by lra. apply Rabs_le. apply abs_le_inv in T2. nra.
  - specialize (T1 ltac:(lra)). destruct (piece x (u n) M Hx ltac:(lra)) as (Q1 & Q2); [intros w Hw; apply G0; lra|].
    replace (u n - x) with h in Q2 by lra. pose proof (G0 (u 0%nat) (Hu 0%nat ltac:(lia))). apply Rabs_le.
    apply abs_le_inv in T1. nra.
Qed.

(** the samples stop beyond the peak, where the integrand is below 1e-15 *)
Lemma stop_far m L n : In (m, L) attempts -> stops fn L (npts m) n -> converged fn m L n ->
  (1 <= n)%nat /\ (n < npts m)%nat /\ c <= rgrid L (npts m) n /\ fn (rgrid L (npts m) n) < tiny.
Proof.
  intros Hin (p & Hp & Hn & Hmax & _ & _ & He) (C1 & C2). destruct (attempt_range m L Hin) as (Hm & HL).
  assert (G0 : forall i, (i < npts m)%nat -> 0 <= fn (rgrid L (npts m) i)).
  { intros i Hi. destruct Hf as (G0 & _). apply G0. pose proof (rgrid_range L (npts m) i ltac:(lra) Hi). lra. }
  assert (Ht : fn (rgrid L (npts m) n) < tiny).
  { destruct He as [He|He]; [rewrite Rabs_right in He by (apply Rle_ge, G0; exact Hn); exact He|]. exfalso. unfold npts in *. lia. }
  assert (Hlt : fn (rgrid L (npts m) n) < fn (rgrid L (npts m) p)).
  { apply Rnot_le_lt. intros Hle. (* then every sample is below 1e-15 *)
    assert (B : Rsum (npts m) (fun i => Rabs (fn (rgrid L (npts m) i))) <= Rsum (npts m) (fun _ => tiny)).
    { apply Rsum_le. intros i Hi. rewrite Rabs_right by (apply Rle_ge, G0; exact Hi). pose proof (Hmax i Hi). lra. }
    rewrite Rsum_const in B. assert (INR (npts m) <= 80000).
    { unfold npts. rewrite INR_IZR_INZ, Z2Nat.id by lia. apply IZR_le. lia. }
    unfold tiny in *. assert (INR (npts m) * (1 / 10 ^ 15) <= 80000 * (1 / 10 ^ 15)) by (apply Rmult_le_compat_r; lra). lra. }
  assert (Hpn : (p < n)%nat) by (destruct (Nat.eq_dec p n) as [->|]; [lra|lia]).
  split; [lia|]. split; [exact Hn|]. split; [|exact Ht]. apply Rnot_lt_le. intros Hc.
  destruct Hf as (_ & G1 & _). pose proof (rgrid_range L (npts m) p ltac:(lra) ltac:(lia)).
  assert (rgrid L (npts m) p <= rgrid L (npts m) n).
  { unfold rgrid. pose proof (rstep_pos L (npts m) ltac:(lra) ltac:(lia)). assert (INR (S p) <= INR (S n)) by (apply le_INR; lia). nra. }
  pose proof (G1 (rgrid L (npts m) p) (rgrid L (npts m) n) ltac:(lra) ltac:(lra) ltac:(lra)). lra.
Qed.

Theorem integrate_accuracy v B : integrate_analytic fn false = Ok (v, false) -> 160 <= B ->
  Rabs (v - (P B - P (1 / 10 ^ 15))) <= M / 100 + tiny * B /\
  (11 / 100 <= c -> Rabs (v - (P B - P (1 / 10 ^ 15))) <= 3 / 1000 * M + 4 / 1000 * fn (11 / 100) + tiny * B).
Proof.
  intros E HB. destruct (integrate_spec fn false) as [(m & L & n & Hin & Hst & Hcv & _ & E')|(_ & [(_ & E')|(_ & n & _ & E')])]; rewrite E' in E.
  2: { congruence. }
  2: { apply Ok_inj in E. destruct E as (_ & E). discriminate E. }
  apply Ok_inj in E. destruct E as (<- & _). destruct (stop_far m L n Hin Hst Hcv) as (Hn & HN & Hc & Ht). destruct (attempt_range m L Hin) as (Hm & HL).
  pose proof (rgrid_range L (npts m) n ltac:(lra) HN) as Rn. pose proof (rgrid_range L (npts m) 0 ltac:(lra) ltac:(lia)) as R0.
  pose proof (right_acc L (npts m) n ltac:(lra) Hn HN Hc) as AR. pose proof (attempt_step m L Hin) as Hh. pose proof M_nonneg as HM.
  pose proof (rstep_pos L (npts m) ltac:(lra) ltac:(lia)) as Ph. assert (E0 : rgrid L (npts m) 0 = 1 / 10 + rstep L (npts m)) by (unfold rgrid; cbn [INR]; ring).
  destruct left_acc as (AL1 & AL2). pose proof Hf as (G0 & G1 & G2).
  set (un := rgrid L (npts m) n) in *. set (u0 := rgrid L (npts m) 0) in *. set (h := rstep L (npts m)) in *.
  assert (T : 0 <= P B - P un <= tiny * (B - un)).
  { apply piece; [lra|lra|]. intros w Hw. pose proof (G2 un w ltac:(lra) Hc ltac:(lra)). lra. }
  assert (Pt : 0 < tiny) by (unfold tiny; lra). assert (tiny * (B - un) <= tiny * B) by (apply Rmult_le_compat_l; lra).
  apply abs_le_inv in AR. split.
  - assert (Gp : 0 <= P u0 - P (1 / 10) <= M * (u0 - 1 / 10)) by (apply piece; [lra|lra|intros w Hw; apply G0; lra]).
    replace (u0 - 1 / 10) with h in Gp by lra. apply abs_le_inv in AL1.
    assert (h * M <= 2 / 1000 * M) by (apply Rmult_le_compat_r; assumption). apply Rabs_le. split; nra.
  - intros Hc1. specialize (AL2 ltac:(lra)). apply abs_le_inv in AL2.
    assert (Gp : 0 <= P u0 - P (1 / 10) <= fn (11 / 100) * (u0 - 1 / 10)) by (apply piece; [lra|lra|intros w Hw; apply G1; lra]).
    replace (u0 - 1 / 10) with h in Gp by lra. pose proof (G1 (1 / 10) (11 / 100) ltac:(lra) ltac:(lra) ltac:(lra)) as G1'. pose proof (G0 (11 / 100) ltac:(lra)).
    assert (h * M <= 2 / 1000 * M) by (apply Rmult_le_compat_r; assumption). assert (fn (11 / 100) * h <= fn (11 / 100) * (2 / 1000)) by (apply Rmult_le_compat_l; lra).
    apply Rabs_le. split; nra.
Qed.
End Acc.
