(** Concrete runs of [ssq_cwt]. *)
From Coq Require Import Reals Lra ZifyBool ZifyNat.
From Verif Require Import Py Round Parallel Cplx CplxProofs Padding PaddingProofs Buffer Freqs Squeeze SqueezeProofs
  SqueezeThms SqueezeThms2 SqueezeThms3 Scales Ssqueeze SsqueezeProofs IssqProofs SsqThms FreqRange SsqWitness Cwt CwtProofs CwtThms
  CwtTone CwtThms2 CwtWitness CwtWitness2 Pointwise PointwiseProofs SsqCwt DiffProofs SsqCwtProofs SsqCwtInv.
Local Open Scope R_scope.

(** three octave scales, frequencies 1, 2, 3; rate 1 *)
Definition arg_w (d : difftype) (pad : option padtype) (gamma : R) (gw : bool) (ord : option ho_order) : ssq_args :=
  SQ (ScArr [1; 2; 4]) SLog None true true true None None (FArray [1; 2; 3]) pad SqSum MRMaximal d None
     (Some gamma) true ord (PatInt 0) true None gw.

Lemma no_negative (w : mat fval) : (forall i j r, el w i j = Fin r -> 0 <= r) -> has_negative w = false.
Proof.
  intros H. unfold has_negative. destruct (existsb _ _) eqn:E; [|reflexivity]. exfalso.
  apply existsb_exists in E. destruct E as (i & _ & E). apply existsb_exists in E. destruct E as (j & _ & E).
  destruct (el w i j) eqn:Ew; [|discriminate]. apply H in Ew. rewrite Rltb'_false in E by exact Ew. discriminate.
Qed.

Lemma squeeze_ok gamma W w d : nrows W <> 1%nat ->
  (match w with Some w => forall i j r, el w i j = Fin r -> 0 <= r | None => d <> None end) ->
  exists Tx, ssqueeze serial_order (wit SqSum gamma true) W w d = Ok (Tx, [3; 2; 1]) /\
    nrows Tx = nrows W /\ ncols Tx = ncols W.
Proof.
  intros Hn Hw.
  assert (Eg : get_grid true false [1; 2; 3] = Ok (GLin 1 (ensure_nonzero_nonnegative (2 - 1)))) by reflexivity.
  pose proof (const_arr_scalar (nrows W) (ln 2 / 1) Hn) as Ea.
  set (out := Mat (nrows W) (ncols W) (fun _ _ => C0)).
  unfold ssqueeze. rewrite wit_freqs. unfold ssqueeze_one.
  cbn [wit o_gamma o_sq squeeze_input bind ssq_const o_tr o_f64v o_flip o_Sfs]. fold out.
  destruct w as [w|].
  - rewrite (no_negative w Hw).
    destruct (onfly_sum serial_order true W w [1; 2; 3] (CScalar (ln 2 / 1)) false true out _ _ serial_order_valid Ea Eg) as (Tx & E & H1 & H2 & _).
    rewrite E. cbn [bind]. exists Tx. split; [reflexivity|]. split; [exact H1|exact H2].
  - destruct d as [d|]; [|congruence].
    destruct (fast_sum serial_order true W d [1; 2; 3] (CScalar (ln 2 / 1)) false true gamma None out _ _ serial_order_valid Ea Eg (or_introl eq_refl)) as (Tx & E & H1 & H2 & _).
    rewrite E. cbn [bind]. exists Tx. split; [reflexivity|]. split; [exact H1|exact H2].
Qed.

(** the phase transforms give no negative frequency *)
Lemma phase_nonneg f64 W dW N dt gamma d k W' w : phase_transform f64 W dW N dt gamma d k = Ok (W', w) ->
  forall i j r, el w i j = Fin r -> 0 <= r.
Proof.
  intros H i j r. unfold phase_transform in H. destruct d.
  - injection H as <- <-. cbn [phase_cwt el]. destruct (Rlt_dec _ _); [discriminate|]. intros E. injection E as <-. apply Rabs_pos.
  - unfold phase_phase in H. destruct (ncols W =? 0)%nat; [discriminate|]. cbn [bind] in H. injection H as <- <-.
    cbn [el]. destruct (Rlt_dec _ _); [discriminate|]. intros E. injection E as <-. apply Rabs_pos.
  - destruct (p2up N) as [[u n1] n2]. unfold phase_cwt_num in H. destruct (negb _); [discriminate|].
    destruct (_ && _); [discriminate|]. cbn [bind] in H. cbv zeta in H.
    match type of H with Ok (_, ?m) = Ok _ => assert (E' : w = m) by congruence end. rewrite E'. cbn [el].
    destruct (Rlt_dec _ _); [discriminate|]. intros E. injection E as <-. apply Rabs_pos.
Qed.

Lemma step_ok d pad gamma gw o k N W dW : check_diff (arg_w d pad gamma gw o) = Ok k -> nrows W = 3%nat ->
  (gw = true -> exists W' w, phase_transform true W dW (Z.of_nat N) (1 / 1) gamma d k = Ok (W', w) /\ nrows W' = 3%nat) ->
  exists r, squeeze_step serial_order (arg_w d pad gamma gw o) 1 k N W dW [1; 2; 4] true SLog = Ok r.
Proof.
  intros Hk Hr Hp. unfold squeeze_step, arg_w.
  cbn [q_get_w q_f64 q_diff ssq_gamma q_gamma ssq_freqs q_freqs q_f64v q_sq q_mr q_flip].
  destruct gw.
  - destruct (Hp eq_refl) as (W' & w & E & Hr'). unfold ssq_gamma. cbn [q_gamma]. rewrite E. cbn [bind].
    destruct (squeeze_ok gamma W' (Some w) None ltac:(lia)) as (Tx & ET & _).
    { intros i j r. eapply phase_nonneg; exact E. }
    unfold wit in ET. rewrite ET. cbn [bind]. eauto.
  - cbn [bind]. unfold ssq_gamma. cbn [q_gamma].
    destruct (squeeze_ok gamma W None (Some dW) ltac:(lia)) as (Tx & ET & _); [discriminate|].
    unfold wit in ET. rewrite ET. cbn [bind]. eauto.
Qed.

Lemma infer124 f64 : infer_scaletype f64 [1; 2; 4] = Ok (KLog 1).
Proof.
  pose proof (scales124 f64) as H. unfold process_scales_arr in H. destruct (infer_scaletype f64 [1; 2; 4]) as [[n| |]|]; cbn [bind] in H; try discriminate.
  destruct (n <=? 0)%Z; [discriminate|]. injection H as ->. reflexivity.
Qed.
Lemma scales_w d pad gamma gw o N : ssq_scales true (ScArr [1; 2; 4]) SLog (ssq_nv (arg_w d pad gamma gw o)) N = Ok ([1; 2; 4], SLog).
Proof. unfold ssq_scales, process_scales_nv. cbn [ssq_nv arg_w q_nv q_scales]. rewrite infer124. reflexivity. Qed.

Definition arg_c (pad : option padtype) (rp : bool) : cwt_args :=
  CA (ScArr [1; 2; 4]) true (Some 1) None true true pad rp true (PatInt 0) None.
Lemma arg_c_inner d pad gamma gw o rp : inner (arg_w d pad gamma gw o) 1 (ScArr [1; 2; 4]) true true rp (PatInt 0) = arg_c pad rp.
Proof. reflexivity. Qed.

Lemma fs_1 n : process_fs_and_t (Some 1) None n = Ok 1.
Proof. unfold process_fs_and_t. destruct (Rle_dec 1 0); [lra|reflexivity]. Qed.

Lemma cwt_c_ok f pad rp x xp n1 : wf_norm f <> GmwL2 -> pad_input pad x = Ok (xp, n1) ->
  exists W dW s', cwt false true f (arg_c pad rp) x st0 = (Ok (W, [1; 2; 4], Some dW), s').
Proof.
  intros Hf Hp.
  assert (P : pre f (arg_c pad rp) x 1 xp n1 [1; 2; 4]).
  { unfold pre. cbn [arg_c a_fs a_t a_l1 a_pad a_scales a_f64s]. split; [apply fs_1|].
    split; [unfold check_gmw; destruct (wf_norm f); congruence|]. split; [exact Hp|].
    unfold process_scales. rewrite scales124. reflexivity. }
  pose proof (cwt_run false true f (arg_c pad rp) x st0 1 xp n1 [1; 2; 4] P eq_refl eq_refl) as E. cbv zeta in E.
  change (a_deriv (arg_c pad rp)) with true in E. cbv iota in E. do 3 eexists. exact E.
Qed.

(** order 0 *)
Theorem ssq_w_ok f d pad gamma gw x xp n1 fam : wf_norm f <> GmwL2 -> pad_input pad x = Ok (xp, n1) ->
  (d <> DTrig -> gw = true) -> (d = DNumeric -> pad <> None /\ (length x = 9 \/ length x = 16)%nat) ->
  exists r s', ssq_cwt serial_order false f fam (arg_w d pad gamma gw None) x st0 = (Ok r, s') /\
    r_scales r = [1; 2; 4].
Proof.
  intros Hf Hp Hgw Hnum. set (q := arg_w d pad gamma gw None).
  assert (exists k, check_diff q = Ok k /\ (k = 4)%Z) as (k & Hk & ->).
  { unfold check_diff. cbn [q arg_w q_diff q_get_w q_difforder]. exists 4%Z. split; [|reflexivity]. destruct d; [reflexivity| |]; rewrite (Hgw ltac:(discriminate)); reflexivity. }
  destruct (cwt_c_ok f pad (numeric q) x xp n1 Hf Hp) as (W & dW & s' & Ec).
  destruct (cwt_ncols _ _ _ _ _ _ _ _ _ _ Ec) as (Hr & Hn). cbn [arg_c a_rpadded a_pad] in Hn.
  assert (HN : (length x <> 0)%nat).
  { destruct x; [|cbn; lia]. unfold pad_input in Hp. destruct pad as [p|]; [destruct p; cbn in Hp|]; discriminate. }
  destruct (step_ok d pad gamma gw None 4 (length x) W dW Hk Hr) as (r & Es).
  { intros ->. unfold phase_transform. destruct d.
    - do 2 eexists. split; [reflexivity|exact Hr].
    - unfold phase_phase. cbn [q numeric arg_w q_diff andb] in Hn.
      destruct (Nat.eqb_spec (ncols W) 0); [lia|]. cbn [bind]. do 2 eexists. split; [reflexivity|exact Hr].
    - destruct (p2up (Z.of_nat (length x))) as [[u m1] m2] eqn:Eu. unfold phase_cwt_num.
      change (negb ((4 =? 1) || (4 =? 2) || (4 =? 4))%Z) with false. cbv iota.
      cbn [q numeric arg_w q_diff andb] in Hn.
      assert (ncols (mcols W (m1 - 4) (m1 + Z.of_nat (length x) + 4)) <> 1%nat) as H1.
      { rewrite ncols_mcols. assert (H1x : (1 <= Z.of_nat (length x))%Z) by lia. destruct (p2up_bounds _ _ _ _ H1x Eu) as (_ & _ & Hlt & Hsum & Hn2 & Hn1').
        destruct (Hnum eq_refl) as (B & [A|A]); (destruct pad; [|congruence]); rewrite A in *.
        - change (p2up (Z.of_nat 9)) with (16, 4, 3)%Z in Eu. injection Eu as <- <- <-. nb.
        - change (p2up (Z.of_nat 16)) with (32, 8, 8)%Z in Eu. injection Eu as <- <- <-. nb. }
      destruct (Nat.eqb_spec (ncols (mcols W (m1 - 4) (m1 + Z.of_nat (length x) + 4))) 1); [contradiction|].
      cbn [andb bind]. do 2 eexists. split; [reflexivity|exact Hr]. }
  exists r, s'. split.
  - unfold ssq_cwt. fold q. unfold mbind at 1, lift at 1. rewrite Hk. unfold mbind at 1, lift at 1.
    change (process_fs_and_t (q_fs q) (q_t q) (length x)) with (Ok 1 : res R).
    change (q_order q) with (@None ho_order). cbv iota. unfold mbind at 1, lift at 1.
    change (ssq_scales (q_f64s q) (q_scales q) (q_kind q) (ssq_nv q) (length x)) with (ssq_scales true (ScArr [1; 2; 4]) SLog (ssq_nv q) (length x)).
    unfold q at 1. rewrite scales_w. unfold mbind at 1.
    change (inner q 1 (ScArr [1; 2; 4]) (match q_scales q with ScArr _ => q_f64s q | ScAuto _ => true end) true
       (match q_diff q with DNumeric => true | _ => false end) (q_pat q)) with (arg_c pad (numeric q)).
    rewrite Ec. cbv iota. unfold lift. f_equal. exact Es.
  - destruct (step_inv _ _ _ _ _ _ _ _ _ _ _ Hk Es) as (w & Tx & _ & _ & _ & E3 & _). exact E3.
Qed.

(** C57: nine samples, difftype 'numeric' *)
Definition nine : list R := repeat 1 9.
Lemma numeric_nine pt : exists r s',
  ssq_cwt serial_order false flat_wave fam0 (arg_w DNumeric (Some pt) (1 / 2) true None) nine st0 = (Ok r, s') /\
  ncols (r_Tx r) = 8%nat /\ ncols (r_Wx r) = 8%nat.
Proof.
  set (q := arg_w DNumeric (Some pt) (1 / 2) true None).
  assert (exists xp n1, pad_input (Some pt) nine = Ok (xp, n1)) as (xp & n1 & Ep) by (destruct pt; cbn; eauto).
  destruct (ssq_w_ok flat_wave DNumeric (Some pt) (1 / 2) true nine xp n1 fam0 ltac:(discriminate) Ep ltac:(reflexivity)) as (r & s' & E & _).
  { intros _. split; [discriminate|left; reflexivity]. }
  fold q in E. exists r, s'. split; [exact E|].
  destruct (ssq_cwt_inv serial_order false flat_wave fam0 q nine st0 r s' eq_refl E) as (k & fs & sc & kind & W & dW & Hk & _ & _ & Hc & Hst).
  destruct (step_inv _ _ _ _ _ _ _ _ _ _ _ Hk Hst) as (w & Tx & Es & E1 & E2 & _).
  destruct (cwt_ncols _ _ _ _ _ _ _ _ _ _ Hc) as (_ & Hn). change (Z.of_nat (ncols W) = 16)%Z in Hn.
  pose proof Es as AB. apply ssqueeze_shape in AB; [|apply serial_order_valid|exact I]. destruct AB as (_ & B).
  assert (B' : ncols Tx = 16%nat).
  { rewrite B. change (squeezed q (length nine) W) with (mcols W 0 17). rewrite ncols_mcols. nb. }
  rewrite E1, E2. change (q_diff q) with DNumeric. cbn [crop]. rewrite !ncols_mcols, B'. split; nb.
Qed.

(** ** A constant signal: [W] is the mean, [dW] vanishes *)
Lemma sig_dft_const c n k : (k < n)%nat -> sig_dft (repeat c n) k = if (k =? 0)%nat then RtoC (c * INR n) else C0.
Proof.
  intros Hk. unfold sig_dft. rewrite repeat_length. unfold dft.
  rewrite (Csum_ext n _ (fun j => Cmul (tw n ((0 - Z.of_nat k) * Z.of_nat j)) (RtoC c))).
  - rewrite Csum_scal_r. pose proof (roots_delta n ltac:(lia) 0 k ltac:(lia) Hk) as D. change (Z.of_nat 0) with 0%Z in D.
    rewrite D. destruct k; cbn [Nat.eqb]; apply C_eq; simpl; ring.
  - intros j Hj. rewrite nth_repeat_in by exact Hj.
    replace ((0 - Z.of_nat k) * Z.of_nat j)%Z with (- (Z.of_nat k * Z.of_nat j))%Z by ring. apply C_eq; simpl; ring.
Qed.
Lemma flat_real : real_valued flat_wave.
Proof. intros w. reflexivity. Qed.
Lemma flat_row s c n j : (2 <= n)%nat -> (j < n)%nat -> row_val flat_wave s (repeat c n) j = RtoC c.
Proof.
  intros Hn Hj. unfold row_val. rewrite repeat_length. unfold idft. rewrite (Csum_single n _ 0 ltac:(lia)).
  - rewrite sig_dft_const by lia. unfold psih_val. replace (0 =? n / 2)%nat with false
      by (symmetry; apply Nat.eqb_neq; pose proof (Nat.div_str_pos n 2 ltac:(lia)); lia).
    rewrite Bool.andb_false_r. cbn [wf flat_wave Nat.eqb]. change (Z.of_nat 0 * Z.of_nat j)%Z with 0%Z. rewrite tw_0 by lia.
    assert (INR n <> 0) by (apply not_0_INR; lia). apply C_eq; simpl; field; assumption.
  - intros i Hi Hne. rewrite sig_dft_const by exact Hi. destruct i; [congruence|]. cbn [Nat.eqb]. apply C_eq; simpl; ring.
Qed.
Lemma flat_drow s fs c n j : (2 <= n)%nat -> drow_val flat_wave s fs (repeat c n) j = C0.
Proof.
  intros Hn. unfold drow_val. rewrite repeat_length. unfold idft. rewrite Csum_0.
  - apply C_eq; simpl; ring.
  - intros i Hi. rewrite sig_dft_const by exact Hi. destruct i; cbn [Nat.eqb].
    + rewrite xi_low by (apply Nat.div_le_lower_bound || idtac; lia). cbn [INR]. apply C_eq; simpl; unfold Rdiv; ring.
    + apply C_eq; simpl; ring.
Qed.

(** three samples of 1, no padding *)
Lemma const_run d gw : d <> DNumeric -> (d <> DTrig -> gw = true) -> exists r s',
  ssq_cwt serial_order false flat_wave fam0 (arg_w d None (1 / 2) gw None) [1; 1; 1] st0 = (Ok r, s') /\
  r_scales r = [1; 2; 4] /\
  (forall i j, (j < 3)%nat -> el (r_Wx r) i j = C1 /\ el (r_dWx r) i j = C0).
Proof.
  intros Hd Hgw. set (q := arg_w d None (1 / 2) gw None).
  destruct (ssq_w_ok flat_wave d None (1 / 2) gw [1; 1; 1] [1; 1; 1] 0 fam0 ltac:(discriminate) eq_refl Hgw ltac:(congruence)) as (r & s' & E & Hsc).
  exists r, s'. split; [exact E|]. split; [exact Hsc|]. fold q in E.
  destruct (ssq_cwt_inv serial_order false flat_wave fam0 q _ st0 r s' eq_refl E) as (k & fs & sc & kind & W & dW & Hk & _ & _ & Hc & Hst).
  destruct (step_inv _ _ _ _ _ _ _ _ _ _ _ Hk Hst) as (w & Tx & Es & E1 & E2 & E3 & E4 & E5 & _).
  assert (Ec : crop (q_diff q) W = W) by (unfold crop; cbn [q arg_w q_diff]; destruct d; congruence).
  rewrite E2, E5, Ec. intros i j Hj.
  destruct (cwt_rows _ _ _ _ _ _ _ _ _ _ flat_real (or_introl eq_refl : uncached true (inner q fs (ScArr sc) true true (numeric q) (q_pat q)) st0) Hc) as (fs' & xp & n1 & _ & Hp & _ & HW & HdW).
  cbn [inner a_pad q arg_w q_pad pad_input] in Hp. injection Hp as <- <-.
  rewrite HW, HdW. unfold finish_cell. cbn [inner a_l1 a_pad q arg_w q_pad]. rewrite Bool.andb_false_r. cbn [Nat.add].
  change [1; 1; 1] with (repeat 1 3). split; [apply flat_row; lia|apply flat_drow; lia].
Qed.

Lemma angle_1 : angle C1 = 0.
Proof. unfold angle, Re, Im. cbn [C1 fst snd]. destruct (Rlt_dec 0 1); [|lra]. replace (0 / 1) with 0 by field. apply atan_0. Qed.
Lemma phase_C1 : phase_cwt_pt C1 C0 = 0.
Proof.
  unfold phase_cwt_pt, phase_ratio, C1, C0, Re, Im. cbn. match goal with |- Rabs (?a / ?b) = _ => replace (a / b) with 0 by (unfold Rdiv; ring) end.
  apply Rabs_R0.
Qed.

Lemma unwrap_0 p n : (forall j, (j <= n)%nat -> p j = 0) -> unwrap p n = 0.
Proof.
  intros H. unfold unwrap. rewrite H by lia. rewrite Rplus_0_l.
  rewrite (Rsum_ext n _ (fun _ => 0)); [rewrite Rsum_const; ring|]. intros k Hk. unfold unwrap_correct.
  rewrite !H by lia. rewrite Rminus_0_r, Rabs_R0. pose proof PI_RGT_0. destruct (Rlt_dec 0 PI); [reflexivity|lra].
Qed.

(** the hypotheses of [issq_icwt] hold of it *)
Lemma const_found d gw r s' : d <> DNumeric -> (d <> DTrig -> gw = true) ->
  ssq_cwt serial_order false flat_wave fam0 (arg_w d None (1 / 2) gw None) [1; 1; 1] st0 = (Ok r, s') ->
  (forall i j, (j < 3)%nat -> el (r_Wx r) i j = C1 /\ el (r_dWx r) i j = C0) ->
  forall i j a, (j < 3)%nat -> found r i j = Fin a -> a = 0.
Proof.
  intros Hd Hgw E HW i j a Hj. set (q := arg_w d None (1 / 2) gw None) in E.
  destruct (ssq_cwt_inv serial_order false flat_wave fam0 q _ st0 r s' eq_refl E) as (k & fs & sc & kind & W & dW & Hk & _ & _ & Hc & Hst).
  destruct (step_inv _ _ _ _ _ _ _ _ _ _ _ Hk Hst) as (w & Tx & Es & E1 & E2 & E3 & E4 & E5 & Ew).
  destruct (cwt_ncols _ _ _ _ _ _ _ _ _ _ Hc) as (Hr & Hn). cbn [inner a_pad q arg_w q_pad] in Hn. rewrite Bool.andb_false_r in Hn. cbn [length] in Hn.
  assert (Ec : forall T (V : mat T), crop (q_diff q) V = V) by (intros; unfold crop; cbn [q arg_w q_diff]; destruct d; congruence).
  rewrite Ec in E2. unfold found. rewrite E4. destruct (q_get_w q) eqn:Eg.
  - destruct Ew as (w' & -> & Ep). cbn [opt_map]. rewrite Ec. unfold phase_transform in Ep.
    change (q_diff q) with d in Ep. destruct d; [| |congruence].
    + match type of Ep with Ok (_, ?m) = Ok _ => assert (Ew' : w' = m) by congruence end. rewrite Ew'. cbn [phase_cwt el]. destruct (Rlt_dec _ _); [discriminate|].
      rewrite <- E2, <- E5. destruct (HW i j Hj) as (-> & ->). rewrite phase_C1. intros H. injection H as <-. reflexivity.
    + unfold phase_phase in Ep. destruct (ncols W =? 0)%nat; [discriminate|]. cbn [bind] in Ep. match type of Ep with Ok (_, ?m) = Ok _ => assert (Ew' : w' = m) by congruence end. rewrite Ew'.
      cbn [el]. destruct (Rlt_dec _ _); [discriminate|]. intros H. injection H as <-. unfold phase_phase_pt.
      assert (A : forall n, (n < 3)%nat -> unwrap (fun j => angle (el W i j)) n = 0).
      { intros z Hz3. apply unwrap_0. intros m Hm. rewrite <- E2. destruct (HW i m ltac:(lia)) as (-> & _). apply angle_1. }
      assert (ncols W = 3%nat) as Hc3 by lia.
      destruct (Nat.eqb_spec (S j) (ncols W)); rewrite !A by lia; rewrite Rminus_0_r; unfold Rdiv; rewrite Rmult_0_l; apply Rabs_R0.
  - destruct Ew as (-> & _). cbn [opt_map]. destruct (HW i j Hj) as (-> & ->). rewrite phase_C1. intros H. injection H as <-. reflexivity.
Qed.

Lemma const_issq d gw Css : d <> DNumeric -> (d <> DTrig -> gw = true) -> exists r s',
  ssq_cwt serial_order false flat_wave fam0 (arg_w d None (1 / 2) gw None) [1; 1; 1] st0 = (Ok r, s') /\
  exists y, issq_cwt Css (r_Tx r) None = Ok (One y) /\
    icwt flat_wave Css (r_Wx r) (r_scales r) true None true true None 0 PReflect false = Ok y /\ length y = 3%nat.
Proof.
  intros Hd Hgw. destruct (const_run d gw Hd Hgw) as (r & s' & E & Hsc & HW). exists r, s'. split; [exact E|].
  assert (Hf : ssq_freqs_of (ssq_o (arg_w d None (1 / 2) gw None) 1 [1; 2; 4] SLog true) 3 = Ok (Some (KLog 1), [1; 2; 3], false))
    by apply (wit_freqs SqSum (1 / 2) true 3).
  apply (issq_icwt serial_order false flat_wave fam0 (arg_w d None (1 / 2) gw None) [1; 1; 1] st0 r s' 1 SLog 1 (Some (KLog 1)) [1; 2; 3] false
           (reach_lin [1; 2; 3]) Css PReflect false serial_order_valid eq_refl eq_refl Hd E eq_refl).
  - rewrite Hsc. apply (scales_w d None (1 / 2) gw None).
  - rewrite Hsc. apply scales124.
  - rewrite Hsc. exact Hf.
  - apply fg_lin. cbn; lia.
  - discriminate.
  - rewrite Hsc. reflexivity.
  - intros i j _ Hj. cbn [length] in Hj. split.
    + destruct (HW i j Hj) as (-> & _). rewrite Cabs_1. unfold ssq_gamma. cbn [arg_w q_gamma]. lra.
    + intros a Ha. rewrite (const_found d gw r s' Hd Hgw E HW i j a Hj Ha). unfold reach_lin. cbn [nth].
      pose proof (Rmax_l (2 - 1) EPS64). assert (0 < IZR (2 ^ 62)) by (apply IZR_lt; lia). nra.
Qed.

(** difftype 'numeric': sixteen samples of 1, reflected to 32 *)
Definition ones16 : list R := repeat 1 16.
Lemma const_numeric Css : exists r s' Wc dWc s1,
  ssq_cwt serial_order false flat_wave fam0 (arg_w DNumeric (Some PReflect) (1 / 2) true None) ones16 st0 = (Ok r, s') /\
  cwt false true flat_wave (arg_c (Some PReflect) false) ones16 st0 = (Ok (Wc, [1; 2; 4], dWc), s1) /\
  exists y, issq_cwt Css (r_Tx r) None = Ok (One y) /\
    icwt flat_wave Css Wc (r_scales r) true None true true None 0 PReflect false = Ok y /\ length y = 16%nat.
Proof.
  set (q := arg_w DNumeric (Some PReflect) (1 / 2) true None).
  assert (Ep : pad_input (Some PReflect) ones16 = Ok (repeat 1 32, 8%Z)) by reflexivity.
  destruct (ssq_w_ok flat_wave DNumeric (Some PReflect) (1 / 2) true ones16 (repeat 1 32) 8 fam0 ltac:(discriminate) Ep ltac:(reflexivity)) as (r & s' & E & Hsc).
  { intros _. split; [discriminate|right; reflexivity]. }
  fold q in E.
  destruct (cwt_c_ok flat_wave (Some PReflect) false ones16 _ _ ltac:(discriminate) Ep) as (Wc & dWc & s1 & Ec).
  exists r, s', Wc, (Some dWc), s1. split; [exact E|]. split; [exact Ec|].
  assert (Hf : ssq_freqs_of (ssq_o q 1 [1; 2; 4] SLog true) 24 = Ok (Some (KLog 1), [1; 2; 3], false))
    by apply (wit_freqs SqSum (1 / 2) true 24).
  assert (HWc : forall i j, (j < 16)%nat -> el Wc i j = C1).
  { intros i j Hj.
    destruct (cwt_rows _ _ _ _ _ _ _ _ _ _ flat_real (or_introl eq_refl : uncached true (arg_c (Some PReflect) false) st0) Ec) as (fs' & xp & n1 & _ & Hp & _ & HW & _).
    change (a_pad (arg_c (Some PReflect) false)) with (Some PReflect) in Hp. rewrite Ep in Hp. injection Hp as <- <-.
    rewrite HW. unfold finish_cell. cbn [arg_c a_l1 a_pad a_rpadded negb andb]. apply (flat_row _ 1 32); [lia|].
    change (Z.to_nat 8) with 8%nat. lia. }
  destruct (ssq_cwt_inv serial_order false flat_wave fam0 q ones16 st0 r s' eq_refl E) as (k & fs & sc & kind & W & dW & Hk & Hfs & Hscs & Hc & Hst).
  assert (fs = 1) as -> by (rewrite fs_1 in Hfs || idtac; change (Ok 1 = Ok fs) in Hfs; congruence).
  destruct (step_inv _ _ _ _ _ _ _ _ _ _ _ Hk Hst) as (w & Tx & Es & E1 & E2 & E3 & E4 & E5 & Ew).
  change (q_get_w q) with true in Ew. cbv iota in Ew. destruct Ew as (w' & -> & Epn).
  assert (k = 4%Z) as -> by (change (Ok 4%Z = Ok k) in Hk; congruence).
  change (q_diff q) with DNumeric in *. unfold phase_transform in Epn.
  change (p2up (Z.of_nat (length ones16))) with (32, 8, 8)%Z in Epn. cbv iota in Epn.
  destruct (cwt_ncols _ _ _ _ _ _ _ _ _ _ Hc) as (Hr & Hn). change (Z.of_nat (ncols W) = 32)%Z in Hn.
  set (V := mcols W (8 - 4) (8 + Z.of_nat (length ones16) + 4)) in *.
  assert (HVc : ncols V = 24%nat) by (unfold V; rewrite ncols_mcols; change (Z.of_nat (length ones16)) with 16%Z; nb).
  assert (HV : forall i j, (j < 24)%nat -> el V i j = C1).
  { intros i j Hj.
    destruct (cwt_rows _ _ _ _ _ _ _ _ _ _ flat_real (or_introl eq_refl : uncached true (inner q 1 (ScArr sc) true true (numeric q) (q_pat q)) st0) Hc) as (fs' & xp & n1 & _ & Hp & _ & HW & _).
    change (pad_input (Some PReflect) ones16 = Ok (xp, n1)) in Hp. rewrite Ep in Hp. injection Hp as <- <-.
    unfold V, mcols. cbn [el]. rewrite HW. unfold finish_cell. cbn [inner a_l1 a_pad a_rpadded q arg_w q_pad numeric q_diff negb andb].
    apply (flat_row _ 1 32); [lia|]. rewrite Hn. change (Z.to_nat (norm_bound 32 (8 - 4))) with 4%nat. lia. }
  destruct (phase_cwt_num (q_f64 q) V (1 / 1) 4 (Some (ssq_gamma q))) as [w0|] eqn:Ew; [|discriminate].
  cbn [bind] in Epn. match type of Epn with Ok (_, ?m) = Ok _ => assert (Ew' : w' = m) by congruence end. subst w0.
  assert (Hg : or_real (Some (ssq_gamma q)) (10 * (if q_f64 q then EPS64 else EPS32)) = 1 / 2).
  { unfold or_real, ssq_gamma. cbn [q arg_w q_gamma]. destruct (Req_EM_T (1 / 2) 0); [lra|reflexivity]. }
  apply (issq_icwt_numeric serial_order false flat_wave fam0 q ones16 st0 r s' 1 SLog 1 (Some (KLog 1)) [1; 2; 3] false
           (reach_lin [1; 2; 3]) Css PReflect false 32 8 8 PReflect Wc (Some dWc) s1 serial_order_valid eq_refl eq_refl eq_refl eq_refl eq_refl ltac:(lia) E eq_refl).
  - rewrite Hsc. apply (scales_w DNumeric (Some PReflect) (1 / 2) true None).
  - rewrite Hsc. exact Ec.
  - rewrite Hsc. apply scales124.
  - rewrite Hsc. exact Hf.
  - apply fg_lin. cbn; lia.
  - discriminate.
  - rewrite Hsc. reflexivity.
  - intros i j Hi Hj. change (length ones16) with 16%nat in Hj. rewrite Hsc in Hi. change (length [1; 2; 4]) with 3%nat in Hi. split.
    + rewrite HWc by exact Hj. rewrite Cabs_1, Hg. lra.
    + intros w0 a Hw0 Ha. rewrite E4 in Hw0. cbn [opt_map crop] in Hw0. injection Hw0 as <-.
      unfold mcols in Ha. cbn [el] in Ha.
      assert (ncols w' = 24%nat) as Hwc.
      { unfold phase_cwt_num in Ew. cbn [negb orb Z.eqb Pos.eqb] in Ew. destruct (_ && _); [discriminate|]. cbv zeta in Ew.
        match type of Ew with Ok ?m = Ok _ => assert (E' : w' = m) by congruence end. rewrite E'. exact HVc. }
      rewrite Hwc in Ha. change (Z.to_nat (norm_bound (Z.of_nat 24) 4)) with 4%nat in Ha.
      assert (P : phase_is (fun z => Rabs (Im z) / (2 * PI)) (1 / 2) (el V i (4 + j)) (peval (pderiv [C1]) (0 + INR (4 + j) * (1 / 1))) (el w' i (4 + j)%nat)).
      { apply (phase_num_poly (q_f64 q) V (1 / 1) 4 (Some (ssq_gamma q)) w' 0 [C1] i (4 + j) (1 / 2)); auto.
        - lra.
        - cbn; lia.
        - intros m Hm. rewrite HVc in Hm. rewrite HV by exact Hm. cbn [peval]. apply C_eq; simpl; ring.
        - unfold interior. cbn [Z.eqb Pos.eqb]. lia.
        - change (nrows V) with (nrows W). rewrite Hr, <- E3, Hsc. exact Hi.
        - lra. }
      rewrite Ha in P. rewrite HV in P by lia. destruct P as (_ & _ & z & Hz & ->).
      cbn [pderiv pderiv_from peval] in Hz. assert (z = C0) as -> by (rewrite <- Hz; apply C_eq; simpl; ring).
      replace (Rabs (Im C0) / (2 * PI)) with 0 by (change (Im C0) with 0; rewrite Rabs_R0; unfold Rdiv; ring).
      unfold reach_lin. cbn [nth]. pose proof (Rmax_l (2 - 1) EPS64). assert (0 < IZR (2 ^ 62)) by (apply IZR_lt; lia). nra.
Qed.

(** ** Higher orders *)
Definition gmw_wave : wfun := WF (fun _ => C1) false GmwL1.
Definition gmw_fam (k : nat) : wfun := gmw_wave.
Definition arg_h (pad : option padtype) : cwt_args :=
  CA (ScArr [1; 2; 4]) true (Some 1) None true false pad true true (PatInt 0) None.
Lemma fresh_h pad x xp n1 : pad_input pad x = Ok (xp, n1) ->
  exists W, cwt_fresh false gmw_wave (arg_h pad) x st0 = (Ok (W, [1; 2; 4], None), st0) /\
    nrows W = 3%nat /\ ncols W = length xp.
Proof.
  intros Hp.
  assert (P : pre gmw_wave (arg_h pad) x 1 xp n1 [1; 2; 4]).
  { unfold pre. cbn [arg_h a_fs a_t a_l1 a_pad a_scales a_f64s]. split; [apply fs_1|]. split; [reflexivity|]. split; [exact Hp|].
    unfold process_scales. rewrite scales124. reflexivity. }
  pose proof (cwt_run false true gmw_wave (arg_h pad) x st0 1 xp n1 [1; 2; 4] P eq_refl eq_refl) as E. cbv zeta in E.
  change (a_deriv (arg_h pad)) with false in E. cbv iota in E.
  eexists. unfold cwt_fresh. change (CS (s_pat st0) (s_lim st0) 1024 None) with st0. rewrite E.
  split; [reflexivity|split; reflexivity].
Qed.

(** C57: nine samples, order 1, no padding: five columns *)
Lemma order_nopad : exists r s',
  ssq_cwt serial_order false gmw_wave gmw_fam (arg_w DTrig None (1 / 2) false (Some (HOInt 1))) nine st0 = (Ok r, s') /\
  ncols (r_Tx r) = 5%nat /\ ncols (r_Wx r) = 5%nat.
Proof.
  set (q := arg_w DTrig None (1 / 2) false (Some (HOInt 1))).
  destruct (fresh_h None nine nine 0 eq_refl) as (W & E & Hr & Hc).
  assert (Eho : cwt_higher_order false gmw_fam (HOInt 1) (Some false) (arg_h None) nine st0 = (Ok (HOOne W, None), st0)).
  { unfold cwt_higher_order. unfold mbind at 1, lift. cbn [ho_scales arg_h a_scales]. fold (arg_h None).
    unfold mbind. match goal with |- context [msequence ?m ?s] =>
      change (msequence m s) with (msequence (map (fun k => cwt_fresh false (gmw_fam k) (arg_h None) nine) [1%nat]) st0) end.
    rewrite (msequence_run (fun k => cwt_fresh false (gmw_fam k) (arg_h None) nine) [1%nat] st0 [(W, [1; 2; 4], None)]); [reflexivity|].
    repeat constructor. exact E. }
  assert (exists d, trigdiff W 1 None (Some true) (Some 9%Z) (Some 4%Z) = Ok d) as (d & Ed) by (unfold trigdiff; cbn [bind orb]; eauto).
  set (V := mcols W 4 (4 + 9)).
  destruct (step_ok DTrig None (1 / 2) false (Some (HOInt 1)) 4 9 V d eq_refl Hr ltac:(discriminate)) as (r & Es). fold q in Es.
  assert (HV : ncols V = 5%nat) by (unfold V; rewrite ncols_mcols, Hc; reflexivity).
  exists r, st0. split.
  - unfold ssq_cwt. unfold mbind at 1, lift at 1. change (check_diff q) with (Ok 4%Z : res Z). cbv iota.
    unfold mbind at 1, lift at 1. change (process_fs_and_t (q_fs q) (q_t q) (length nine)) with (Ok 1 : res R). cbv iota.
    change (q_order q) with (Some (HOInt 1)). cbv iota. unfold mbind at 1.
    assert (Eh : ssq_higher false gmw_wave gmw_fam q 1 (HOInt 1) nine st0 = (Ok (V, d, [1; 2; 4], true), st0)).
    { unfold ssq_higher. change (wf_norm gmw_wave) with GmwL1. cbv iota.
      change (p2up (Z.of_nat (length nine))) with (16, 4, 3)%Z. cbv iota.
      change (match q_scales q with ScArr _ => q_f64s q | ScAuto _ => q_f64 q end) with true.
      change (inner q 1 (q_scales q) true false true (PatInt 0)) with (arg_h None).
      unfold mbind at 1, lift at 1. cbn [ho_scales arg_h a_scales]. fold (arg_h None).
      change (is_tuple (HOInt 1)) with false. unfold mbind at 1. rewrite Eho.
      unfold mbind at 1. cbn [fft_check negb andb st0 s_pat Z.eqb]. fold st0. unfold mbind at 1, lift at 1.
      change (Z.of_nat (length nine)) with 9%Z. rewrite Ed. reflexivity. }
    rewrite Eh. unfold mbind, lift. change (q_kind q) with SLog.
    assert (Esc : ssq_scales true (ScArr [1; 2; 4]) SLog (ssq_nv q) (length nine) = Ok ([1; 2; 4], SLog)) by apply scales_w.
    rewrite Esc. cbv iota. change (length nine) with 9%nat. rewrite Es. reflexivity.
  - destruct (step_inv serial_order q 1 4 9 V d [1; 2; 4] true SLog r eq_refl Es) as (w & Tx & ET & E1 & E2 & _).
    pose proof ET as AB. apply ssqueeze_shape in AB; [|apply serial_order_valid|exact I]. destruct AB as (_ & B).
    rewrite E1, E2. change (crop (q_diff q) V) with V. change (crop (q_diff q) Tx) with Tx.
    change (squeezed q 9 V) with V in B. split; congruence.
Qed.

(** C57: a batch of two constant signals of two samples, order 1: the rows are sliced instead
    of the columns, so [Wx] holds two of the three scales and all four padded samples, while
    [dWx] holds three scales and two samples *)
Definition batch22 : list (list R) := [[1; 1]; [1; 1]].
Lemma order_batch : exists Ws dWs s',
  ssq_higher2 false gmw_wave gmw_fam (arg_w DTrig (Some PReflect) (1 / 2) false (Some (HOInt 1))) 1 (HOInt 1) batch22 st0
    = (Ok (Ws, dWs, [1; 2; 4], true), s') /\
  length Ws = 2%nat /\ length dWs = 2%nat /\
  forall b, (b < 2)%nat -> nrows (nth b Ws mat0) = 2%nat /\ ncols (nth b Ws mat0) = 4%nat /\
                          nrows (nth b dWs mat0) = 3%nat /\ ncols (nth b dWs mat0) = 2%nat.
Proof.
  set (q := arg_w DTrig (Some PReflect) (1 / 2) false (Some (HOInt 1))).
  set (a := arg_h (Some PReflect)).
  assert (Hp : exists xp, pad_input (Some PReflect) [1; 1] = Ok (xp, 1%Z) /\ length xp = 4%nat).
  { eexists. split; reflexivity. }
  destruct Hp as (xp & Hp & Lp).
  assert (P : pre gmw_wave a [1; 1] 1 xp 1 [1; 2; 4]).
  { unfold pre, a. cbn [arg_h a_fs a_t a_l1 a_pad a_scales a_f64s]. split; [apply fs_1|]. split; [reflexivity|]. split; [exact Hp|].
    unfold process_scales. rewrite scales124. reflexivity. }
  pose proof (cwt_run false true gmw_wave a [1; 1] st0 1 xp 1 [1; 2; 4] P eq_refl eq_refl) as E. cbv zeta in E.
  change (a_deriv a) with false in E. cbv iota in E.
  match type of E with _ = (Ok (?w, _, _), ?t) => set (W := w) in E; set (st1 := t) in E end.
  assert (HL : same_length batch22 2) by (intros b Hb; cbn in Hb; destruct b as [|[|b]]; [reflexivity|reflexivity|lia]).
  assert (HW : nrows W = 3%nat /\ ncols W = 4%nat) by (split; [reflexivity|exact Lp]).
  clearbody W. destruct HW as (HWr & HWc).
  destruct (cwt2_ok false true gmw_wave a batch22 2 st0 _ _ _ _ ltac:(discriminate) HL E) as (Ws & dWs & E2).
  destruct (cwt_batch false true gmw_wave a batch22 2 st0 Ws _ dWs _ ltac:(discriminate) HL E2) as (HWs & Hit).
  assert (H0 : nth 0 Ws mat0 = W).
  { specialize (Hit 0%nat ltac:(cbn; lia)). cbn [nth batch22] in Hit. rewrite E in Hit. congruence. }
  assert (H1 : nth 1 Ws mat0 = W).
  { specialize (Hit 1%nat ltac:(cbn; lia)). cbn [nth batch22] in Hit. rewrite E in Hit. congruence. }
  destruct Ws as [|W0 [|W1 [|W2 Ws]]]; try discriminate HWs. cbn [nth] in H0, H1. subst W0 W1.
  destruct (cwt_restores _ _ _ _ _ _ _ _ E) as (_ & K2 & K3).
  assert (E3 : cwt_fresh2 false gmw_wave a batch22 st0 = (Ok ([W; W], [1; 2; 4], dWs), st0)).
  { unfold cwt_fresh2. change (CS (s_pat st0) (s_lim st0) 1024 None) with st0. rewrite E2.
    rewrite K2, K3. reflexivity. }
  assert (Eho : exists dd, cwt_higher_order2 false gmw_fam (HOInt 1) (Some false) a batch22 st0 = (Ok (HOOne [W; W], dd), st0)).
  { unfold cwt_higher_order2. unfold mbind at 1, lift. unfold a. cbn [ho_scales arg_h a_scales]. fold (arg_h (Some PReflect)). fold a.
    unfold mbind. match goal with |- context [msequence ?m ?s] =>
      change (msequence m s) with (msequence (map (fun k => cwt_fresh2 false (gmw_fam k) a batch22) [1%nat]) st0) end.
    rewrite (msequence_run (fun k => cwt_fresh2 false (gmw_fam k) a batch22) [1%nat] st0 [([W; W], [1; 2; 4], dWs)]); [eexists; reflexivity|].
    repeat constructor. exact E3. }
  destruct Eho as (dd & Eho).
  assert (exists d, trigdiff W 1 None (Some true) (Some 2%Z) (Some 1%Z) = Ok d /\ nrows d = 3%nat /\ ncols d = 2%nat) as (d & Ed & Hdr & Hdc).
  { unfold trigdiff. cbn [bind orb]. eexists. split; [reflexivity|]. split; [exact HWr|]. rewrite ncols_mcols. cbn [ncols]. rewrite HWc. reflexivity. }
  exists [mrows W 1 3; mrows W 1 3], [d; d], st0. split; [|split; [reflexivity|split; [reflexivity|]]].
  - unfold ssq_higher2. change (wf_norm gmw_wave) with GmwL1. cbv iota.
    change (Z.of_nat (length (nth 0 batch22 []))) with 2%Z.
    change (p2up 2) with (4, 1, 1)%Z. cbv iota.
    change (match q_scales q with ScArr _ => q_f64s q | ScAuto _ => q_f64 q end) with true.
    change (inner q 1 (q_scales q) true false true (PatInt 0)) with a.
    unfold mbind at 1, lift at 1. change (ho_scales a (length batch22)) with (Ok (ScArr [1; 2; 4]) : res scales_arg). cbv iota.
    change (is_tuple (HOInt 1)) with false. unfold mbind at 1. rewrite Eho.
    unfold mbind at 1. cbn [fft_check negb andb st0 s_pat Z.eqb]. fold st0. unfold mbind at 1, lift at 1.
    cbn [trigdiff_batch]. rewrite Ed. reflexivity.
  - assert (HR : nrows (mrows W 1 3) = 2%nat /\ ncols (mrows W 1 3) = 4%nat).
    { unfold mrows. cbn [nrows ncols]. rewrite HWr, HWc. split; reflexivity. }
    intros b Hb. destruct b as [|[|b]]; [| |lia]; cbn [nth]; tauto.
Qed.

(** C29: the row [t + i] at [t = 0, 1, 2], first order *)
Definition lin_row : mat C := Mat 1 3 (fun _ j => (INR j, 1)).
Lemma diff_example : exists w, phase_cwt_num true lin_row 1 1 (Some (1 / 2)) = Ok w /\ el w 0 1 = Fin (1 / 2 / (2 * PI)).
Proof.
  eexists. split; [reflexivity|]. cbn [el lin_row].
  assert (Ex : or_real (Some (1 / 2)) (10 * EPS64) = 1 / 2).
  { unfold or_real. destruct (Req_EM_T (1 / 2) 0); [lra|reflexivity]. }
  rewrite Ex.
  destruct (Rlt_dec (Cabs (INR 1, 1)) (1 / 2)) as [H|H].
  - exfalso. assert (H1 : 1 <= Cnorm2 (INR 1, 1)) by (unfold Cnorm2; cbn [fst snd INR]; lra). apply sqrt_le_1_alt in H1. rewrite sqrt_1 in H1. fold (Cabs (INR 1, 1)) in H1. lra.
  - f_equal. change (nth 1 (differentiate 1 1 (mrow lin_row 0)) C0) with (Cmul (RtoC (/ 1)) (Csub (INR 2, 1) (INR 1, 1))).
    unfold Re. cbn [fst snd Cmul Csub Cinv RtoC INR]. unfold Cnorm2.
    assert (HP : 0 < 2 * PI) by (pose proof PI_RGT_0; lra). cbn.
    rewrite <- (Rabs_pos_eq (1 / 2 / (2 * PI))).
    2:{ apply Rmult_le_pos; [lra|]. left. apply Rinv_0_lt_compat, HP. }
    rewrite <- (Rabs_Ropp (1 / 2 / (2 * PI))). f_equal. field. pose proof PI_RGT_0; lra.
Qed.

Lemma batch_case : exists r s',
  ssq_cwt2 serial_order false flat_wave fam0 (arg_w DTrig None (1 / 2) false None) [[1; 2; 3]; [0; 5; 0]] st0 = (Ok r, s').
Proof.
  apply (ssq_batch_ok _ _ _ _ _ _ 3); [exact I|reflexivity|reflexivity|reflexivity|discriminate| |].
  - intros b Hb. cbn in Hb. destruct b as [|[|b]]; [reflexivity|reflexivity|lia].
  - intros b Hb. destruct (ssq_w_ok flat_wave DTrig None (1 / 2) false (nth b [[1; 2; 3]; [0; 5; 0]] []) (nth b [[1; 2; 3]; [0; 5; 0]] []) 0 fam0) as (r & s' & E & _).
    + discriminate.
    + cbn in Hb. destruct b as [|[|b]]; [reflexivity|reflexivity|lia].
    + congruence.
    + discriminate.
    + exists r, s'. exact E.
Qed.
