(** Two tones: keeping the row of one returns it exactly. *)
From Coq Require Import Reals Lra ZifyBool ZifyNat.
From Verif Require Import Py Round Cplx CplxProofs Padding PaddingProofs Buffer Freqs Squeeze Scales IssqProofs Cwt CwtProofs CwtThms CwtThms2 CwtTone
  SsqCwt SsqCwtProofs SsqCwtInv SsqWitness CwtWitness RoundTrip RoundTripWitness SsqCwtWitness CwtFilter.
Local Open Scope R_scope.

(** one octave *)
Definition octave : wfun := WF (fun w => if Rle_dec 1.1 w then (if Rlt_dec w 2.2 then C1 else C0) else C0) false NotGmw.
Lemma octave_real : real_valued octave.
Proof. intros w. cbn [octave wf]. destruct (Rle_dec 1.1 w); [destruct (Rlt_dec w 2.2)|]; reflexivity. Qed.
Lemma octave_in w : 1.1 <= w < 2.2 -> wf octave w = C1.
Proof. intros H. cbn [octave wf]. destruct (Rle_dec 1.1 w); [|lra]. destruct (Rlt_dec w 2.2); [reflexivity|lra]. Qed.
Lemma octave_out w : w < 1.1 \/ 2.2 <= w -> wf octave w = C0.
Proof. intros H. cbn [octave wf]. destruct (Rle_dec 1.1 w); [destruct (Rlt_dec w 2.2); [lra|reflexivity]|reflexivity]. Qed.
Definition first (i : nat) : R := if ((0 <=? i) && (i <? 0 + 1))%nat then 1 else 0.
Definition two_tones : list R := lin 1 1 (tone 1 0 2 8) (tone 5 1 1 8).

Lemma first_gain k : wgain octave first [1; 2; 4] 1 (ln 2) 8 k = if (2 * k =? 8)%nat then wbank octave first [1; 2; 4] (bin_xi 8 k) else wbank octave first [1; 2; 4] (bin_xi 8 k) + wbank octave first [1; 2; 4] (- bin_xi 8 k).
Proof. unfold wgain. replace (ln 2 / 1 / ln 2) with 1; [destruct (2 * k =? 8)%nat; ring|]. pose proof ln_lt_2. field. lra. Qed.
Lemma first_bank xi : wbank octave first [1; 2; 4] xi = Re (wf octave xi).
Proof.
  unfold wbank. cbn [length Rsum nth]. change (first 0) with 1. change (first 1) with 0. change (first 2) with 0. rewrite (Rmult_1_l xi). ring.
Qed.
Lemma xi8 k q : Nat.min k (8 - k) = q -> bin_xi 8 k = PI / 4 * INR q.
Proof. intros <-. unfold bin_xi. replace (INR 8) with 8 by (cbn; ring). field. Qed.
Lemma gain_up k : k = 2%nat \/ k = 6%nat -> wgain octave first [1; 2; 4] 1 (ln 2) 8 k = 1.
Proof.
  intros H. rewrite first_gain, !first_bank. pose proof PI2_3_2 as A. pose proof PI_4 as B.
  rewrite (xi8 k 2) by (destruct H as [-> | ->]; reflexivity). replace (PI / 4 * INR 2) with (PI / 2) by (cbn; field).
  rewrite octave_in, octave_out by lra. destruct H as [-> | ->]; cbn; ring.
Qed.
Lemma gain_down k : k = 1%nat \/ k = 7%nat -> wgain octave first [1; 2; 4] 1 (ln 2) 8 k = 0.
Proof.
  intros H. rewrite first_gain, !first_bank. pose proof PI2_3_2 as A. pose proof PI_4 as B.
  rewrite (xi8 k 1) by (destruct H as [-> | ->]; reflexivity). replace (PI / 4 * INR 1) with (PI / 4) by (cbn; field).
  rewrite !octave_out by lra. destruct H as [-> | ->]; cbn; ring.
Qed.

Theorem cwt_filter_case : exists W dW s', cwt false true octave (arg_d [1; 2; 4]) two_tones st0 = (Ok (W, [1; 2; 4], Some dW), s') /\
  exists y, icwt octave (ln 2) (weigh first W) [1; 2; 4] true None true true None 0 PReflect false = Ok y /\ length y = 8%nat /\
  forall j, (j < 8)%nat -> nth j y 0 = nth j (tone 1 0 2 8) 0.
Proof.
  assert (Hs := scales124 true). set (x := two_tones). assert (Lx : length x = 8%nat) by (unfold x, two_tones; rewrite lin_length; [apply tone_length|rewrite !tone_length; reflexivity]).
  assert (Hp : pad_input None x = Ok (x, 0%Z)) by (unfold pad_input; destruct x eqn:E; [discriminate|reflexivity]).
  assert (P : pre octave (arg_d [1; 2; 4]) x 1 x 0 [1; 2; 4]).
  { unfold pre. cbn [arg_d a_fs a_t a_l1 a_pad a_scales a_f64s]. split; [apply fs_1|]. split; [reflexivity|]. split; [exact Hp|]. unfold process_scales. rewrite Hs. reflexivity. }
  pose proof (cwt_run false true octave (arg_d [1; 2; 4]) x st0 1 x 0 [1; 2; 4] P eq_refl eq_refl) as E. cbv zeta in E.
  change (a_deriv (arg_d [1; 2; 4])) with true in E. cbv iota in E. do 3 eexists. split; [exact E|].
  assert (Hf0 : wf octave 0 = C0) by (apply octave_out; lra).
  destruct (icwt_picks false true octave (arg_d [1; 2; 4]) (tone 1 0 2 8) (tone 5 1 1 8) st0 _ [1; 2; 4] _ _ (tone 1 0 2 8) 0%Z true 1 (ln 2) None 0 PReflect false first 0
    ltac:(rewrite !tone_length; reflexivity) octave_real ltac:(left; reflexivity) eq_refl eq_refl Hf0 (Rle_refl 0) E Hs tone_pad) as (vp & Hv & K).
  assert (Hv' : pad_input None (tone 5 1 1 8) = Ok (tone 5 1 1 8, 0%Z)) by (set (z := tone 5 1 1 8); unfold pad_input; destruct z eqn:Ez; [discriminate|reflexivity]).
  change (a_pad (arg_d [1; 2; 4])) with (@None padtype) in Hv. rewrite Hv' in Hv. injection Hv as <-.
  rewrite tone_length in K.
  assert (T : forall A phi q k, (0 < q)%nat -> (2 * q <= 8)%nat -> (k < 8)%nat -> k <> q -> k <> (8 - q)%nat -> dft 8 (fun m => RtoC (nth m (tone A phi q 8) 0)) k = C0).
  { intros A phi q k H1 H2 H3 H4 H5. pose proof (tone_dft A phi q 8 k H1 H2 H3 H4 H5) as D. unfold sig_dft in D. rewrite tone_length in D. exact D. }
  destruct K as (y & Ey & Ly & B).
  - intros k Hk. destruct (Nat.eq_dec k 2) as [->|N2]; [right; rewrite gain_up by auto; rewrite Rminus_diag_eq, Rabs_R0 by reflexivity; lra|].
    destruct (Nat.eq_dec k 6) as [->|N6]; [right; rewrite gain_up by auto; rewrite Rminus_diag_eq, Rabs_R0 by reflexivity; lra|]. left. apply T; lia.
  - intros k Hk. destruct (Nat.eq_dec k 1) as [->|N2]; [right; rewrite gain_down by auto; rewrite Rabs_R0; lra|].
    destruct (Nat.eq_dec k 7) as [->|N6]; [right; rewrite gain_down by auto; rewrite Rabs_R0; lra|]. left. apply T; lia.
  - exists y. split; [exact Ey|]. split; [exact Ly|]. intros j Hj.
    assert (A0 : avg (tone 1 0 2 8) = 0).
    { pose proof (dft_bin0 (tone 1 0 2 8)) as D. rewrite tone_length in D. rewrite T in D by lia. unfold avg. rewrite tone_length. apply (f_equal fst) in D. cbn [RtoC C0 fst] in D. rewrite <- D. unfold Rdiv. ring. }
    rewrite A0 in B. rewrite pow_i, Rmult_0_r, Rmult_0_l in B by lia.
    pose proof (Rsum_window 8 j 1 (fun j => (nth j y 0 - nth j (tone 1 0 2 8) 0 - (0 - 0)) ^ 2) ltac:(lia) (fun i => pow2_ge_0 _)) as Hw. pose proof (Rle_trans _ _ _ Hw B) as Hw'. clear Hw B. cbn [Rsum] in Hw'. rewrite Nat.add_0_r in Hw'.
    set (d := nth j y 0 - nth j (tone 1 0 2 8) 0 - (0 - 0)) in *. assert (d = 0) by nra. unfold d in *. lra.
Qed.
