(** Constant signals of any level, some below [gamma]. *)
From Coq Require Import Reals Lra Lia List ZifyBool ZifyNat.
Import ListNotations.
From Verif Require Import Py Round Parallel Padding Cplx CplxProofs Buffer Freqs Squeeze SqueezeProofs SqueezeThms SqueezeThms2 SqueezeThms3 Scales Ssqueeze SsqueezeProofs
  IssqProofs SsqThms FreqRange SsqWitness Cwt CwtProofs CwtThms CwtWitness SsqCwt SsqCwtProofs SsqCwtInv CwtWitness2 SsqCwtWitness ToneThms SsqStable.
Local Open Scope R_scope.

(** options of the runs below: scales 1, 2, 4 and [gamma] 1/2 *)
Definition qs : ssq_args := arg_w DTrig None (1 / 2) false None.

Lemma level_caught c : exists r s', caught serial_order false flat_wave fam0 qs 1 [c; c; c] st0 r s' /\
  r_scales r = [1; 2; 4] /\ forall i j, (j < 3)%nat -> el (r_Wx r) i j = RtoC c.
Proof.
  destruct (ssq_w_ok flat_wave DTrig None (1 / 2) false [c; c; c] [c; c; c] 0 fam0 ltac:(discriminate) eq_refl ltac:(congruence) ltac:(congruence)) as (r & s' & E & Hsc).
  fold qs in E. exists r, s'.
  assert (HW : forall i j, (j < 3)%nat -> el (r_Wx r) i j = RtoC c /\ el (r_dWx r) i j = C0).
  { destruct (ssq_cwt_inv serial_order false flat_wave fam0 qs _ st0 r s' eq_refl E) as (k & fs & sc & kind & W & dW & Hk & _ & _ & Hc & Hst).
    destruct (step_inv _ _ _ _ _ _ _ _ _ _ _ Hk Hst) as (w & Tx & Es & E1 & E2 & E3 & E4 & E5 & _).
    rewrite E2, E5. change (crop (q_diff qs) W) with W. intros i j Hj.
    destruct (cwt_rows _ _ _ _ _ _ _ _ _ _ flat_real (or_introl eq_refl : uncached true (inner qs fs (ScArr sc) true true (numeric qs) (q_pat qs)) st0) Hc) as (fs' & xp & n1 & _ & Hp & _ & HW & HdW).
    cbn [inner a_pad qs arg_w q_pad pad_input] in Hp. injection Hp as <- <-.
    rewrite HW, HdW. unfold finish_cell. cbn [inner a_l1 a_pad qs arg_w q_pad]. rewrite Bool.andb_false_r. cbn [Nat.add].
    change [c; c; c] with (repeat c 3). split; [apply flat_row; lia|apply flat_drow; lia]. }
  split; [|split; [exact Hsc|intros i j Hj; apply HW, Hj]].
  split; [exact E|]. exists 1, SLog, (Some (KLog 1)), [1; 2; 3], false, (reach_lin [1; 2; 3]). rewrite Hsc.
  split; [reflexivity|]. split; [apply (scales_w DTrig None (1 / 2) false None)|]. split; [apply scales124|].
  split; [apply (wit_freqs SqSum (1 / 2) true 3)|]. split; [apply fg_lin; cbn; lia|]. split; [discriminate|]. split; [reflexivity|].
  intros i j a _ Hj _. cbn [length] in Hj. unfold found.
  destruct (r_w r) as [w|] eqn:Ew.
  { exfalso. destruct (ssq_cwt_inv serial_order false flat_wave fam0 qs _ st0 r s' eq_refl E) as (k & fs & sc & kind & W & dW & Hk & _ & _ & Hc & Hst).
    destruct (step_inv _ _ _ _ _ _ _ _ _ _ _ Hk Hst) as (w' & Tx & Es & E1 & E2 & E3 & E4 & E5 & E6).
    change (q_get_w qs) with false in E6. destruct E6 as (-> & _). rewrite Ew in E4. discriminate. }
  destruct (HW i j Hj) as (-> & ->). intros Ha. injection Ha as <-.
  assert (phase_cwt_pt (RtoC c) C0 = 0) as ->.
  { unfold phase_cwt_pt, phase_ratio, RtoC, C0, Re, Im. cbn. match goal with |- Rabs (?a / ?b) = _ => replace (a / b) with 0 by (unfold Rdiv; ring) end. apply Rabs_R0. }
  unfold reach_lin. cbn [nth]. pose proof (Rmax_l (2 - 1) EPS64). assert (0 < IZR (2 ^ 62)) by (apply IZR_lt; lia). nra.
Qed.

Lemma stable_case : exists rx sx ry sy,
  caught serial_order false flat_wave fam0 qs 1 [1; 1; 1] st0 rx sx /\
  caught serial_order false flat_wave fam0 qs 1 [1 / 4; 1 / 4; 1 / 4] st0 ry sy /\
  el (r_Wx rx) 0 1 = C1 /\ el (r_Wx ry) 0 1 = RtoC (1 / 4) /\ ~ passes qs (Cabs (el (r_Wx ry) 0 1)) /\ passes qs (Cabs (el (r_Wx rx) 0 1)) /\
  valid_order serial_order /\ q_order qs = None /\ q_sq qs = SqSum /\ q_diff qs <> DNumeric /\ 0 <= ssq_gamma qs /\ (1 : R) <> 0 /\
  real_valued flat_wave /\ s_cache st0 = None /\ forall w, Cabs (wf flat_wave w) <= 1.
Proof.
  destruct (level_caught 1) as (rx & sx & Hx & _ & Wx). destruct (level_caught (1 / 4)) as (ry & sy & Hy & _ & Wy).
  exists rx, sx, ry, sy. split; [exact Hx|]. split; [exact Hy|].
  split; [rewrite Wx by lia; reflexivity|]. split; [apply Wy; lia|].
  assert (A : forall c, 0 <= c -> Cabs (RtoC c) = c).
  { intros c Hc. unfold Cabs, Cnorm2, RtoC. cbn [fst snd]. replace (c * c + 0 * 0) with (c ^ 2) by ring. apply sqrt_pow2, Hc. }
  rewrite Wx, Wy by lia. rewrite !A by lra. unfold passes. cbn [qs arg_w q_get_w]. unfold ssq_gamma. cbn [q_gamma qs arg_w].
  repeat split; try lra; try discriminate; try apply serial_order_valid.
  intros w. cbn [wf flat_wave]. change C1 with (RtoC 1). rewrite A; lra.
Qed.

(** the [gamma] in the bound cannot go: what is recovered jumps where a coefficient crosses it *)
Lemma recovered_jumps K : exists e rx sx ry sy u v, 0 < e /\
  caught serial_order false flat_wave fam0 qs 1 [1 / 2 + e; 1 / 2 + e; 1 / 2 + e] st0 rx sx /\
  caught serial_order false flat_wave fam0 qs 1 [1 / 2; 1 / 2; 1 / 2] st0 ry sy /\
  issq_cwt 1 (r_Tx rx) None = Ok (One u) /\ issq_cwt 1 (r_Tx ry) None = Ok (One v) /\
  K * e < Rabs (nth 0 u 0 - nth 0 v 0).
Proof.
  assert (HK : exists e, 0 < e /\ K * e < ln 2).
  { assert (L : 0 < ln 2) by (rewrite <- ln_1; apply ln_increasing; lra).
    destruct (Rle_dec K 0). { exists 1. lra. } exists (ln 2 / (2 * K)). split; [apply Rdiv_lt_0_compat; lra|].
    replace (K * (ln 2 / (2 * K))) with (ln 2 / 2) by (field; lra). lra. }
  destruct HK as (e & He & HK).
  destruct (level_caught (1 / 2 + e)) as (rx & sx & Hx & Sx & Wx). destruct (level_caught (1 / 2)) as (ry & sy & Hy & Sy & Wy).
  destruct (ssq_kept _ _ _ _ qs _ _ _ rx sx serial_order_valid eq_refl eq_refl ltac:(discriminate) Hx) as (Ax & _).
  destruct (ssq_kept _ _ _ _ qs _ _ _ ry sy serial_order_valid eq_refl eq_refl ltac:(discriminate) Hy) as (Ay & _).
  destruct (Ax 1) as (u & Eu & _ & Hu). destruct (Ay 1) as (v & Ev & _ & Hv).
  exists e, rx, sx, ry, sy, u, v. split; [exact He|]. split; [exact Hx|]. split; [exact Hy|]. split; [exact Eu|]. split; [exact Ev|].
  rewrite Hu, Hv by (cbn; lia). rewrite Sx, Sy. cbn [length].
  assert (A : forall c, 0 <= c -> Cabs (RtoC c) = c).
  { intros c Hc. unfold Cabs, Cnorm2, RtoC. cbn [fst snd]. replace (c * c + 0 * 0) with (c ^ 2) by ring. apply sqrt_pow2, Hc. }
  assert (Kx : kept qs (RtoC (1 / 2 + e)) = RtoC (1 / 2 + e)).
  { unfold kept. destruct (passes_dec _ _) as [p|p]; [reflexivity|]. exfalso. apply p. rewrite A by lra.
    unfold passes. cbn [qs arg_w q_get_w]. unfold ssq_gamma. cbn [q_gamma qs arg_w]. lra. }
  assert (Ky : kept qs (RtoC (1 / 2)) = C0).
  { unfold kept. destruct (passes_dec _ _) as [p|p]; [|reflexivity]. exfalso. rewrite A in p by lra.
    unfold passes in p. cbn [qs arg_w q_get_w] in p. unfold ssq_gamma in p. cbn [q_gamma qs arg_w] in p. lra. }
  cbn [Csum]. rewrite !Wx, !Wy by lia. rewrite Kx, Ky. unfold Re, Cadd, RtoC, C0. cbn [fst snd].
  rewrite Rabs_pos_eq; assert (L : 0 < ln 2) by (rewrite <- ln_1; apply ln_increasing; lra); nra.
Qed.
