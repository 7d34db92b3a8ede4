(** Two components over a noise floor, both moving by a row halfway; more rows than times. *)
From Coq Require Import Reals Lra.
From Coq Require Import ZifyBool ZifyNat.
From Verif Require Import Py Parallel Cplx CplxProofs Squeeze Ssqueeze SsqueezeProofs Ridge RidgeProofs RidgeOpt RidgeThms RidgeWitness RidgeCurve RidgeBand.
Local Open Scope R_scope.

Definition step_curve (k t : nat) : nat := ((if t <? 20 then 10 else 11) + 20 * k)%nat.
Definition floor_amp (f t : nat) : R :=
  if (f =? step_curve 0 t)%nat then 4 else if (f =? step_curve 1 t)%nat then 2 else / 10.
Definition floor_mat : mat C := Mat 60 40 (fun f t => RtoC (floor_amp f t)).
Definition scales60 : list R := tab 60 (fun f => (INR f + 1) / 10).

Lemma floor_energy f t : energy floor_mat f t = floor_amp f t ^ 2.
Proof.
  unfold energy, floor_mat. cbn [el]. rewrite Cabs_RtoC, Rabs_right; [reflexivity|].
  unfold floor_amp. destruct (f =? _)%nat; [lra|]. destruct (f =? _)%nat; lra.
Qed.

Lemma floor_components : components floor_mat 8 2 step_curve (/ 4).
Proof.
  split; [lra|]. split; [lia|]. intros k t Hk Ht. cbn [nrows ncols floor_mat] in *.
  assert (Hc : (step_curve k t = step_curve 0 t + 20 * k)%nat) by (unfold step_curve; lia).
  assert (Hr : (10 <= step_curve 0 t <= 11)%nat) by (unfold step_curve; destruct (t <? 20)%nat; lia).
  assert (H1 : (step_curve 1 t = step_curve 0 t + 20)%nat) by (unfold step_curve; lia).
  split; [lia|]. split; [lia|]. split; [|split].
  - rewrite floor_energy. apply pow_lt. unfold floor_amp. destruct (_ =? _)%nat; [lra|]. destruct (_ =? _)%nat; lra.
  - intros l Hl. unfold near_curve. replace l with 0%nat by lia. lia.
  - intros f Hf Hne Hfar. rewrite !floor_energy.
    destruct k as [|[|k]]; [| |lia].
    + unfold floor_amp. rewrite Nat.eqb_refl. destruct (Nat.eqb_spec f (step_curve 0 t)); [contradiction|].
      destruct (f =? step_curve 1 t)%nat; cbn; lra.
    + assert (f <> step_curve 0 t).
      { intros ->. apply (Hfar 0%nat ltac:(lia)). unfold near_curve. lia. }
      unfold floor_amp. rewrite Nat.eqb_refl. destruct (Nat.eqb_spec f (step_curve 0 t)); [contradiction|].
      destruct (Nat.eqb_spec f (step_curve 1 t)); [contradiction|]. destruct (Nat.eqb_spec (step_curve 1 t) (step_curve 0 t)); [lia|]. cbn. lra.
Qed.

Lemma floor_found par : sched_ok 60 par -> exists o, extract_ridges par true floor_mat scales60 2 2 8 false = Ok o /\
  forall t, (t < 40)%nat ->
    nth t (r_idx (nth 0 o ridge0)) 0%nat = (if t <? 20 then 10 else 11)%nat /\
    nth t (r_idx (nth 1 o ridge0)) 0%nat = (if t <? 20 then 30 else 31)%nat /\
    nth t (r_energy (nth 0 o ridge0)) 0 = 16 /\ nth t (r_energy (nth 1 o ridge0)) 0 = 4.
Proof.
  intros Hs. assert (X : exists o, extract_ridges par true floor_mat scales60 2 2 8 false = Ok o).
  { apply extract_ok; cbn [nrows ncols floor_mat]; try lia; try reflexivity. }
  destruct X as (o & Ho). exists o. split; [exact Ho|].
  assert (Hall := components_found par true floor_mat scales60 2 2 8 false o step_curve (/ 4) (/ 50) Ho Hs ltac:(lra) floor_components).
  assert (Hj : forall k t, (k < 2)%nat -> (S t < ncols floor_mat)%nat -> jump false scales60 2 (step_curve k (S t)) (step_curve k t) <= / 50).
  { intros k t Hk Ht. cbn [ncols floor_mat] in Ht. unfold jump.
    assert (B1 : (step_curve k (S t) < 60)%nat) by (unfold step_curve; destruct (S t <? 20)%nat; lia).
    assert (B2 : (step_curve k t < 60)%nat) by (unfold step_curve; destruct (t <? 20)%nat; lia).
    unfold scales60. rewrite !nth_tab by assumption.
    assert (B3 : INR (step_curve k (S t)) = INR (step_curve k t) \/ INR (step_curve k (S t)) = INR (step_curve k t) + 1).
    { assert (B : (step_curve k (S t) = step_curve k t \/ step_curve k (S t) = S (step_curve k t))%nat)
        by (unfold step_curve; destruct (Nat.ltb_spec (S t) 20), (Nat.ltb_spec t 20); lia).
      destruct B as [ -> | -> ]; [left; reflexivity|right; apply S_INR]. }
    destruct B3 as [ -> | -> ]; [left|]; nra. }
  specialize (Hall Hj ltac:(lra)). cbn [ncols floor_mat eps_of Nat.sub] in Hall.
  assert (Hgap : 2 * / 50 + INR 39 * EPS64 < ln ((1 + EPS64) / (/ 4 + EPS64))).
  { pose proof eps_small as He. replace (INR 39) with 39 by (cbn; ring).
    assert (1 < ln ((1 + EPS64) / (/ 4 + EPS64))); [|lra].
    apply exp_lt_inv. rewrite exp_ln by (apply Rdiv_lt_0_compat; lra). apply Rle_lt_trans with 3; [apply exp_le_3|].
    apply Rmult_lt_reg_r with (/ 4 + EPS64); [lra|]. unfold Rdiv. rewrite Rmult_assoc, Rinv_l by lra. lra. }
  specialize (Hall Hgap). assert (Hl : forall k, (k < 2)%nat -> (step_curve k 39 < 40)%nat) by (intros k Hk; unfold step_curve; cbn; lia).
  specialize (Hall Hl). intros t Ht.
  destruct (Hall 0%nat t ltac:(lia) Ht) as (A1 & _ & A3). destruct (Hall 1%nat t ltac:(lia) Ht) as (B1 & _ & B3).
  rewrite A1, A3, B1, B3, !floor_energy. unfold floor_amp. rewrite !Nat.eqb_refl.
  assert (H1 : (step_curve 1 t = step_curve 0 t + 20)%nat) by (unfold step_curve; lia).
  destruct (Nat.eqb_spec (step_curve 1 t) (step_curve 0 t)); [lia|].
  unfold step_curve. repeat split; try lra; destruct (t <? 20)%nat; reflexivity.
Qed.
