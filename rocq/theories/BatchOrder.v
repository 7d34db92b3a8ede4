(** [order > 0] on a 2-D array: not what the calls on its signals return. *)
From Coq Require Import Reals Lra ZifyBool ZifyNat.
From Verif Require Import Py Round Parallel Cplx CplxProofs Padding PaddingProofs Buffer Freqs Squeeze SqueezeProofs
  SqueezeThms SqueezeThms2 SqueezeThms3 Scales Ssqueeze SsqueezeProofs IssqProofs SsqThms FreqRange SsqWitness Cwt CwtProofs CwtThms
  CwtTone CwtThms2 CwtWitness CwtWitness2 Pointwise PointwiseProofs SsqCwt DiffProofs SsqCwtProofs SsqCwtInv SsqCwtWitness.
Local Open Scope R_scope.

Definition arg_o : ssq_args := arg_w DTrig (Some PReflect) (1 / 2) false (Some (HOInt 1)).

Lemma order_single : exists r,
  ssq_cwt serial_order false gmw_wave gmw_fam arg_o [1; 1] st0 = (Ok r, st0) /\
  nrows (r_Wx r) = 3%nat /\ ncols (r_Wx r) = 2%nat.
Proof.
  set (q := arg_o). set (x := [1; 1]). set (a := arg_h (Some PReflect)).
  assert (exists xp, pad_input (Some PReflect) x = Ok (xp, 1%Z) /\ length xp = 4%nat) as (xp & Hp & Lp)
    by (eexists; split; reflexivity).
  destruct (fresh_h (Some PReflect) x xp 1 Hp) as (W & E & Hr & Hc). rewrite Lp in Hc.
  assert (Eho : cwt_higher_order false gmw_fam (HOInt 1) (Some false) a x st0 = (Ok (HOOne W, None), st0)).
  { unfold cwt_higher_order. unfold mbind at 1, lift. unfold a. cbn [ho_scales arg_h a_scales]. fold (arg_h (Some PReflect)). fold a.
    unfold mbind. match goal with |- context [msequence ?m ?s] =>
      change (msequence m s) with (msequence (map (fun k => cwt_fresh false (gmw_fam k) a x) [1%nat]) st0) end.
    rewrite (msequence_run (fun k => cwt_fresh false (gmw_fam k) a x) [1%nat] st0 [(W, [1; 2; 4], None)]); [reflexivity|].
    repeat constructor. exact E. }
  assert (exists d, trigdiff W 1 None (Some true) (Some 2%Z) (Some 1%Z) = Ok d) as (d & Ed) by (unfold trigdiff; cbn [bind orb]; eauto).
  set (V := mcols W 1 (1 + 2)).
  destruct (step_ok DTrig (Some PReflect) (1 / 2) false (Some (HOInt 1)) 4 2 V d eq_refl Hr ltac:(discriminate)) as (r & Es).
  fold arg_o in Es. fold q in Es.
  exists r. split.
  - unfold ssq_cwt. unfold mbind at 1, lift at 1. change (check_diff q) with (Ok 4%Z : res Z). cbv iota.
    unfold mbind at 1, lift at 1. change (process_fs_and_t (q_fs q) (q_t q) (length x)) with (Ok 1 : res R). cbv iota.
    change (q_order q) with (Some (HOInt 1)). cbv iota. unfold mbind at 1.
    assert (Eh : ssq_higher false gmw_wave gmw_fam q 1 (HOInt 1) x st0 = (Ok (V, d, [1; 2; 4], true), st0)).
    { unfold ssq_higher. change (wf_norm gmw_wave) with GmwL1. cbv iota.
      change (p2up (Z.of_nat (length x))) with (4, 1, 1)%Z. cbv iota.
      change (match q_scales q with ScArr _ => q_f64s q | ScAuto _ => q_f64 q end) with true.
      change (inner q 1 (q_scales q) true false true (PatInt 0)) with a.
      unfold mbind at 1, lift at 1. change (ho_scales a (length x)) with (Ok (ScArr [1; 2; 4]) : res scales_arg). cbv iota.
      change (is_tuple (HOInt 1)) with false. unfold mbind at 1. rewrite Eho.
      unfold mbind at 1. cbn [fft_check negb andb st0 s_pat Z.eqb]. fold st0. unfold mbind at 1, lift at 1.
      change (Z.of_nat (length x)) with 2%Z. rewrite Ed. reflexivity. }
    rewrite Eh. unfold mbind, lift. change (q_kind q) with SLog.
    assert (Esc : ssq_scales true (ScArr [1; 2; 4]) SLog (ssq_nv q) (length x) = Ok ([1; 2; 4], SLog)) by apply scales_w.
    rewrite Esc. cbv iota. change (length x) with 2%nat. rewrite Es. reflexivity.
  - destruct (step_inv serial_order q 1 4 2 V d [1; 2; 4] true SLog r eq_refl Es) as (w & Tx & _ & _ & E2 & _).
    rewrite E2. change (crop (q_diff q) V) with V. split; [exact Hr|].
    unfold V. rewrite ncols_mcols, Hc. reflexivity.
Qed.

(** each signal's [Wx] has three rows and two columns; in the batch, if there is a result, two
    rows and four columns *)
Theorem order_batch_differs :
  (forall b, (b < length batch22)%nat -> exists r,
     ssq_cwt serial_order false gmw_wave gmw_fam arg_o (nth b batch22 []) st0 = (Ok r, st0) /\
     nrows (r_Wx r) = 3%nat /\ ncols (r_Wx r) = 2%nat) /\
  forall r s', ssq_cwt2 serial_order false gmw_wave gmw_fam arg_o batch22 st0 = (Ok r, s') ->
    forall b, (b < length batch22)%nat -> nrows (nth b (r2_Wx r) mat0) = 2%nat /\ ncols (nth b (r2_Wx r) mat0) = 4%nat.
Proof.
  split.
  - intros b Hb. destruct order_single as (r & H). exists r.
    destruct b as [|[|b]]; [exact H|exact H|cbn in Hb; lia].
  - intros r s' H b Hb. destruct order_batch as (Ws & dWs & s1 & E & _ & _ & HW). fold arg_o in E.
    unfold ssq_cwt2 in H. change (q_get_w arg_o) with false in H. cbv iota in H.
    unfold mbind at 1, lift at 1 in H. change (check_diff arg_o) with (Ok 4%Z : res Z) in H. cbv iota in H.
    unfold mbind at 1, lift at 1 in H.
    change (process_fs_and_t (q_fs arg_o) (q_t arg_o) (length (nth 0 batch22 []))) with (Ok 1 : res R) in H. cbv iota in H.
    change (q_order arg_o) with (Some (HOInt 1)) in H. cbv iota in H. unfold mbind at 1 in H. rewrite E in H.
    unfold mbind at 1, lift at 1 in H.
    destruct (ssq_scales _ _ _ _ _) as [[sc kind]|e]; [|discriminate H].
    unfold lift, squeeze_step2 in H. destruct (ssqueeze_batch _ _ _ _ _) as [[Ts v]|e]; [|discriminate H].
    cbn [bind] in H. injection H as <- _. cbn [r2_Wx]. destruct (HW b Hb) as (A & B & _). auto.
Qed.
Lemma batch22_some : batch22 <> [].
Proof. discriminate. Qed.
Lemma batch22_same : same_length batch22 2.
Proof. intros b Hb. cbn in Hb. destruct b as [|[|b]]; [reflexivity|reflexivity|lia]. Qed.
