(** The ridges of the [stft] of tones do not move under noise of bounded size. *)
From Coq Require Import Reals Lra Lia List ZifyBool ZifyNat.
Import ListNotations.
From Verif Require Import Py Round Padding Parallel Cplx CplxProofs Buffer Freqs Stft StftProofs WindowProofs Separate
  Squeeze SqueezeProofs SqueezeThms SqueezeThms2 SqueezeThms3 Scales Ssqueeze SsqueezeProofs SsqThms CwtTone IssqProofs StftTone StftToneThms StftToneWitness StftMap StftChord StftChordThms
  StftStable2 Ridge RidgeProofs RidgeOpt RidgeThms RidgeCurve RidgeWitness RidgeBand.
Local Open Scope R_scope.
Ltac Zify.zify_post_hook ::= Z.div_mod_to_equations.

(** [y] is the chord plus an error of at most [e] at every sample *)
Definition noisy_chord (M : nat) (A phi : nat -> R) (m : nat -> nat) (n : nat) (e : R) (y : list R) : Prop :=
  forall i, (i < length y)%nat -> Rabs (nth i y 0 - Rsum M (fun r => A r * cos (2 * PI * INR (m r) * INR i / INR n + phi r))) <= e.
(** the window's spectrum, beside its centre, is at most [q] of the centre *)
Definition side_ratio (n : nat) (w : list R) (q : R) : Prop :=
  forall d, d <> 0%Z -> (Z.abs d < Z.of_nat n)%Z -> Cabs (wspec n w d) <= q * Cabs (wspec n w 0).

Lemma ratio_pow p q X Z : 0 <= p -> 0 < q -> 0 <= Z -> q * Z <= p * X -> 0 <= X -> Z ^ 2 <= (p / q) ^ 2 * X ^ 2.
Proof.
  intros Hp Hq HZ H HX. rewrite <- Rpow_mult_distr. apply pow_incr. split; [exact HZ|].
  apply (Rmult_le_reg_l q); [exact Hq|]. replace (q * (p / q * X)) with (p * X) by (field; lra). exact H.
Qed.
Lemma Cabs_near z u d : Cabs (Csub z u) <= d -> Cabs u - d <= Cabs z <= Cabs u + d.
Proof.
  intros H. split.
  - assert (Cabs u <= Cabs z + Cabs (Csub u z)); [|assert (Ez : Cabs (Csub u z) = Cabs (Csub z u)) by (replace (Csub u z) with (Cmul (RtoC (-1)) (Csub z u)) by (apply C_eq; unfold Csub, Copp, Cadd, Cmul, RtoC; cbn [fst snd]; ring); rewrite Cabs_mul, Cabs_RtoC, Rabs_left by lra; ring); lra].
    replace u with (Cadd z (Csub u z)) at 1 by ring. apply Cabs_triangle.
  - assert (Cabs z <= Cabs u + Cabs (Csub z u)); [|lra]. replace z with (Cadd u (Csub z u)) at 1 by ring. apply Cabs_triangle.
Qed.

Section Noise.
Variables (M : nat) (A phi : nat -> R) (m : nat -> nat) (y : list R) (a : stft_args) (n : nat) (w : list R) (b : nat) (e : R).
Variables (Y dY : mat C) (par : option ridge_scheds) (f64 cwt : bool) (scales : list R) (penalty : R) (bw : Z)
  (o : list (list nat * list R * list R)) (ratio kappa : R).
Let x := bin_chord M A phi m n (length y).
Let W := Cabs (wspec n w 0).
Let peak r := Rabs (A r) / 2 * W.
Let noise := e * Rsum n (fun u => Rabs (nth u w 0)).
Let rho := ((ratio + kappa) / (1 - kappa)) ^ 2.
Hypothesis Hy : noisy_chord M A phi m n e y.
Hypothesis U : usable y a n w.
Hypothesis Hn : (2 <= n)%nat.
Hypothesis Hmod : a_modulated a = true.
Hypothesis Hb : narrow n w b.
Hypothesis Hap : bins_apart M m n b.
Hypothesis Hwrap : a_padtype a = PWrap.
Hypothesis Hmult : (length y mod n = 0)%nat.
Hypothesis Hside : side_ratio n w ratio.
Hypothesis HY : stft y a = Ok (Y, dY).
Hypothesis Ho : extract_ridges par f64 Y scales penalty M bw cwt = Ok o.
Hypothesis Hs : sched_ok (n / 2 + 1) par.
Hypothesis Hpen : 0 <= penalty.
Hypothesis Hbw : (Z.of_nat b < bw)%Z.
Hypothesis Hin : forall r, (r < M)%nat -> (bw <= Z.of_nat (m r))%Z /\ (Z.of_nat (m r) <= (Z.of_nat (length y) - 1) / a_hop a)%Z.
Hypothesis Hsep : forall r r', (r < r')%nat -> (r' < M)%nat -> (bw < Z.abs (Z.of_nat (m r') - Z.of_nat (m r)))%Z.
Hypothesis Hkap : 0 <= ratio /\ 0 <= kappa /\ ratio + 2 * kappa <= 1.
Hypothesis Hk1 : kappa < 1.
Hypothesis He : 0 <= e.
Hypothesis Hamp : forall r, (r < M)%nat -> 0 < peak r /\ noise <= kappa * peak r.
Hypothesis Hord : forall r r', (r < r')%nat -> (r' < M)%nat -> Rabs (A r') <= ratio * Rabs (A r).
Hypothesis Hgap : INR (ncols Y - 1) * eps_of f64 < ln ((1 + eps_of f64) / (rho + eps_of f64)).

Lemma Wpos : 0 <= W. Proof. apply Cabs_nonneg. Qed.
Lemma noisy_cells : nrows Y = (n / 2 + 1)%nat /\ Z.of_nat (ncols Y) = ((Z.of_nat (length y) - 1) / a_hop a + 1)%Z /\
  forall h k, (h < ncols Y)%nat -> (k <= n / 2)%nat -> Cabs (Csub (el Y k h) (Csum M (fun r => part A phi m a n w r k h))) <= noise.
Proof.
  assert (Hl : length x = length y) by apply tab_length. pose proof (usable_len y x a n w Hl U) as Ux.
  destruct (chord_stft M A phi m x a n w b Ux Hn) as (X & dX & EX & RX & CX & V); [rewrite Hl; reflexivity|exact Hmod|exact Hb|apply Hap|].
  destruct (stft_cells y a n w U) as (yp & Y' & dY' & _ & _ & _ & EY & RY & _ & _ & CY & _). rewrite HY in EY. injection EY as <- <-.
  split; [exact RY|]. split; [exact CY|]. intros h k Hh Hk. destruct (V h k) as [V1 _]; [rewrite Hl in CX; lia| |exact Hk|].
  - right. rewrite Hl. split; assumption.
  - rewrite <- V1. apply (stft_sup y x a n w Y dY X dX e U Hl He); [|exact HY|exact EX|exact Hh].
    intros i Hi. unfold x, bin_chord. rewrite nth_tab by exact Hi. apply Hy, Hi.
Qed.
Lemma part_size r k h : Cabs (part A phi m a n w r k h) = Rabs (A r) / 2 * Cabs (wspec n w (Z.of_nat k - Z.of_nat (m r))).
Proof.
  unfold part. rewrite !Cabs_mul, bin_phase_abs, Cabs_RtoC. unfold Rdiv. rewrite Rabs_mult, (Rabs_right (/ 2)) by lra. ring.
Qed.
Lemma part_off r k h : (r < M)%nat -> (k <= n / 2)%nat -> (m r + b < k)%nat \/ (k + b < m r)%nat -> part A phi m a n w r k h = C0.
Proof.
  intros Hr Hk Hf. destruct Hap as [Hm _]. destruct (Hm r Hr). unfold part. rewrite (narrow_far x a n w b Hn Hb) by lia. ring.
Qed.
(** the chord's own cells: the peak, and no more than [ratio] of it in any row no louder tone owns *)
Lemma chord_peak r h : (r < M)%nat -> Cabs (Csum M (fun r' => part A phi m a n w r' (m r) h)) = peak r.
Proof.
  intros Hr. destruct Hap as [Hm Hd]. destruct (Hm r Hr). rewrite (Csum_single M _ r Hr).
  - rewrite part_size, Z.sub_diag. reflexivity.
  - intros i Hi Hne. apply part_off; [exact Hi|lia|]. destruct (Hd r i Hr Hi ltac:(congruence)); lia.
Qed.
Lemma chord_rest r k h : (r < M)%nat -> (k <= n / 2)%nat -> k <> m r -> (forall l, (l < r)%nat -> (m l + b < k)%nat \/ (k + b < m l)%nat) ->
  Cabs (Csum M (fun r' => part A phi m a n w r' k h)) <= ratio * peak r.
Proof.
  intros Hr Hk Hne Hl. destruct Hap as [Hm Hd]. pose proof Wpos as HW. assert (HP : 0 <= ratio * peak r) by (destruct (Hamp r Hr); apply Rmult_le_pos; lra).
  destruct (find (fun q => (k <=? m q + b)%nat && (m q <=? k + b)%nat) (seq 0 M)) as [q|] eqn:Ef.
  - apply find_some in Ef. destruct Ef as [Iq Bq]. apply in_seq in Iq. assert (Hq : (q < M)%nat) by lia.
    assert (Hqr : (r <= q)%nat) by (destruct (Nat.le_gt_cases r q) as [|G]; [assumption|specialize (Hl q G); lia]).
    rewrite (Csum_single M _ q Hq).
    + rewrite part_size. destruct (Hm q Hq). destruct (Nat.eq_dec q r) as [->|Hqn].
      * assert (S1 : Cabs (wspec n w (Z.of_nat k - Z.of_nat (m r))) <= ratio * W) by (apply Hside; lia).
        unfold peak. pose proof (Rabs_pos (A r)). replace (ratio * (Rabs (A r) / 2 * W)) with (Rabs (A r) / 2 * (ratio * W)) by ring. apply Rmult_le_compat_l; lra.
      * assert (S1 : Cabs (wspec n w (Z.of_nat k - Z.of_nat (m q))) <= W).
        { destruct (Z.eq_dec (Z.of_nat k - Z.of_nat (m q)) 0) as [->|Hz]; [apply Rle_refl|].
          apply Rle_trans with (ratio * W); [apply Hside; lia|]. assert (ratio * W <= 1 * W) by (apply Rmult_le_compat_r; lra). lra. }
        specialize (Hord r q ltac:(lia) Hq). unfold peak. pose proof (Rabs_pos (A q)).
        apply Rle_trans with (Rabs (A q) / 2 * W); [apply Rmult_le_compat_l; lra|].
        replace (ratio * (Rabs (A r) / 2 * W)) with (ratio * Rabs (A r) / 2 * W) by field. apply Rmult_le_compat_r; lra.
    + intros i Hi Hni. apply part_off; [exact Hi|exact Hk|]. specialize (Hd q i Hq Hi ltac:(congruence)). lia.
  - rewrite Csum_0; [rewrite Cabs_0; exact HP|]. intros i Hi. apply part_off; [exact Hi|exact Hk|].
    pose proof (find_none _ _ Ef i ltac:(apply in_seq; lia)) as B. cbv beta in B. lia.
Qed.

Theorem noisy_ridges r j : (r < M)%nat -> (j < ncols Y)%nat -> nth j (r_idx (nth r o ridge0)) 0%nat = m r /\
  nth j (r_freq (nth r o ridge0)) 0 = nth (m r) scales 0 /\
  (peak r - noise) ^ 2 <= nth j (r_energy (nth r o ridge0)) 0 <= (peak r + noise) ^ 2.
Proof.
  intros Hr Hj. destruct noisy_cells as (RY & CY & V).
  assert (Hnoise : 0 <= noise) by (apply Rmult_le_pos; [exact He|]; replace 0 with (Rsum n (fun _ => 0)) by (apply Rsum_0; reflexivity); apply Rsum_le; intros; apply Rabs_pos).
  assert (Hrow : forall r, (r < M)%nat -> (m r <= n / 2)%nat) by (intros q Hq; destruct Hap as [Hm _]; destruct (Hm q Hq); lia).
  assert (Pk : forall q h, (q < M)%nat -> (h < ncols Y)%nat -> peak q - noise <= Cabs (el Y (m q) h) <= peak q + noise).
  { intros q h Hq Hh. rewrite <- (chord_peak q h Hq). apply Cabs_near, V; [exact Hh|apply Hrow, Hq]. }
  assert (Hc : components Y bw M (fun r _ => m r) rho).
  { assert (R1 : 0 <= (ratio + kappa) / (1 - kappa) <= 1).
    { split; [apply Rmult_le_pos; [lra|left; apply Rinv_0_lt_compat; lra]|]. apply (Rmult_le_reg_r (1 - kappa)); [lra|]. unfold Rdiv. rewrite Rmult_assoc, Rinv_l by lra. lra. }
    split; [unfold rho; split; [apply pow2_ge_0|]; apply Rle_trans with (1 ^ 2); [apply pow_incr; exact R1|lra]|]. split; [lia|].
    intros q h Hq Hh. specialize (Hrow q Hq). destruct (Hin q Hq) as [I1 I2]. destruct (Hamp q Hq) as [A1 A2]. destruct (Pk q h Hq Hh) as [P1 P2].
    split; [lia|]. split; [exact I1|].
    assert (Hpos : 0 < peak q - noise) by (assert (0 < (1 - kappa) * peak q) by (apply Rmult_lt_0_compat; lra); lra).
    split; [unfold energy; apply pow_lt; lra|]. split.
    - intros l Hl. unfold near_curve. specialize (Hsep l q Hl Hq). lia.
    - intros f Hf Hfq Hnear. unfold energy. apply ratio_pow; [lra|lra|apply Cabs_nonneg| |apply Cabs_nonneg].
      assert (X1 : Cabs (el Y f h) <= ratio * peak q + noise).
      { pose proof (Cabs_near _ _ _ (V h f Hh ltac:(lia))) as [_ N2]. eapply Rle_trans; [exact N2|]. apply Rplus_le_compat_r. apply chord_rest; [exact Hq|lia|exact Hfq|].
        intros l Hl. specialize (Hnear l Hl). unfold near_curve in Hnear. lia. }
      assert (X2 : (1 - kappa) * Cabs (el Y f h) <= (1 - kappa) * ((ratio + kappa) * peak q)) by (apply Rmult_le_compat_l; lra).
      assert (X3 : (ratio + kappa) * ((1 - kappa) * peak q) <= (ratio + kappa) * Cabs (el Y (m q) h)) by (apply Rmult_le_compat_l; lra).
      lra. }
  assert (HJ : forall k t, (k < M)%nat -> (S t < ncols Y)%nat -> jump cwt scales penalty (m k) (m k) <= 0) by (intros k t Hk Ht; unfold jump; rewrite Rminus_eq_0; lra).
  assert (HsY : sched_ok (nrows Y) par) by (rewrite RY; exact Hs).
  assert (Hend : forall k, (k < M)%nat -> (m k < ncols Y)%nat) by (intros k Hk; destruct (Hin k Hk); lia).
  destruct (components_found par f64 Y scales penalty M bw cwt o (fun r _ => m r) rho 0 Ho HsY Hpen Hc HJ (Rle_refl 0) ltac:(lra) Hend r j Hr Hj) as (E1 & E2 & E3).
  split; [exact E1|]. split; [exact E2|]. rewrite E3. unfold energy. destruct (Pk r j Hr Hj) as [P1 P2]. destruct (Hamp r Hr) as [A1 A2].
  assert (kappa * peak r <= 1 * peak r) by (apply Rmult_le_compat_r; lra). split; apply pow_incr; lra.
Qed.
End Noise.
