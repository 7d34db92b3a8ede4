(** Concrete cases for scaling, shifting and reversing. *)
From Coq Require Import Reals Lra Lia List ZifyBool ZifyNat.
Import ListNotations.
From Verif Require Import Py Round Parallel Cplx CplxProofs Padding PaddingProofs Buffer Freqs Stft Squeeze SqueezeProofs BinProofs
  SqueezeThms SqueezeThms2 SqueezeThms3 Scales Ssqueeze SsqueezeProofs IssqProofs SsqThms FreqRange SsqWitness Cwt CwtProofs CwtThms
  AdmissThms CwtTone CwtThms2 CwtWitness CwtWitness2 Pointwise SsqCwt DiffProofs SsqCwtProofs SsqCwtInv SsqCwtWitness ToneThms ToneWitness
  Transport RateThms SymmThms SymmInst.
Local Open Scope R_scope.

(** ** Success does not depend on the threshold *)
Theorem gamma_total ord py f fam q g x s r s' : valid_order ord -> q_order q = None -> q_diff q = DTrig -> q_sq q = SqSum ->
  0 < ssq_gamma q -> 0 < g -> ssq_cwt ord py f fam q x s = (Ok r, s') ->
  exists r', ssq_cwt ord py f fam (set_gamma (Some g) q) x s = (Ok r', s') /\ r_scales r' = r_scales r.
Proof.
  intros Ho Hq Hd Hsq Hg0 Hg H. set (a := g / ssq_gamma q).
  assert (Ha : 0 < a) by (unfold a; apply Rdiv_lt_0_compat; assumption).
  assert (Hn : forall z, Cabs (scaled a z) = a * Cabs z).
  { intros z. unfold scaled. rewrite Cabs_mul, Cabs_RtoC, Rabs_pos_eq by lra. reflexivity. }
  destruct (ssq_cwt_map ord py f fam q (Some g) x x s r s' (scaled a) (scaled a) (scaled a) a (fun _ => False) (fun j => j)
    Ho Hq Hd eq_refl Ha (real_linear_scal _) Hn Hn (fun z d => phase_scaled a z d ltac:(lra))) as (r' & E & _ & E2 & _).
  - rewrite Hsq. intros z. reflexivity.
  - unfold a. cbn [set_gamma ssq_gamma q_gamma]. field. lra.
  - intros aa W sc dW _ _ _ _ _ _ E. exists W, dW. split; [exact E|]. split; (split; [reflexivity|split; [reflexivity|intros j _ []]]).
  - exact H.
  - exists r'. auto.
Qed.

(** ** A tone under the default threshold *)
Definition arg_default : ssq_args := set_gamma None (arg_t false).
Lemma tone_scaled al : map (Rmult al) (tone 1 0 2 8) = tone al 0 2 8.
Proof. unfold tone, tab. rewrite map_map. apply map_ext. intros m. ring. Qed.
Lemma default_run al : 0 < al -> exists r s',
  ssq_cwt serial_order false pos_wave fam0 arg_default (tone al 0 2 8) st0 = (Ok r, s') /\ r_scales r = [1; 2; 4].
Proof.
  intros Ha. destruct (tone8_run false) as (r & s' & E & Hsc).
  destruct (ssq_cwt_scale _ _ _ _ (arg_t false) al _ _ _ _ serial_order_valid eq_refl eq_refl (or_introl eq_refl) ltac:(lra) E) as (r1 & E1 & _ & Hs1 & _).
  rewrite tone_scaled in E1.
  assert (Hg : 0 < ssq_gamma (set_gamma (Some (Rabs al * ssq_gamma (arg_t false))) (arg_t false))).
  { cbn [set_gamma ssq_gamma q_gamma arg_t]. rewrite Rabs_pos_eq by lra. lra. }
  destruct (gamma_total _ _ _ _ (set_gamma (Some (Rabs al * ssq_gamma (arg_t false))) (arg_t false)) (10 * EPS64) _ _ _ _ serial_order_valid eq_refl eq_refl eq_refl Hg ltac:(unfold EPS64; lra) E1) as (r2 & E2 & Hs2).
  exists r2, s'. split; [exact E2|congruence].
Qed.
Lemma default_tone al : 0 < al -> exists r s', tone_run serial_order false pos_wave fam0 arg_default al 0 2 8 st0 r s' 1 1 /\
  r_scales r = [1; 2; 4] /\ gain arg_default pos_wave (r_scales r) 1 al 2 8 = if Rlt_dec (10 * EPS64) (al / 2) then 3 * ln 2 else 0.
Proof.
  intros Ha. destruct (default_run al Ha) as (r & s' & E & Hsc). destruct (tone8 false) as (r0 & s0 & H0 & Hsc0 & _).
  exists r, s'. split; [|split; [exact Hsc|]].
  - destruct H0 as (H1 & H2 & H3 & H4 & H5 & H6 & H7 & H8 & H9 & H10 & H11 & H12).
    unfold tone_run. rewrite Hsc. rewrite Hsc0 in *.
    split; [exact H1|]. split; [exact H2|]. split; [exact H3|]. split; [exact H4|].
    split; [unfold ssq_gamma; cbn [arg_default set_gamma q_gamma arg_t q_f64]; unfold EPS64; lra|].
    split; [exact H6|]. split; [exact H7|]. split; [exact H8|]. split; [exact E|]. split; [exact H10|]. split; [exact H11|]. exact H12.
  - rewrite Hsc. unfold gain. cbn [length Rsum nth]. rewrite !pos_response by (lra || lia).
    rewrite Rmult_1_r, Rabs_pos_eq by lra.
    change (passes_dec arg_default (al / 2)) with (Rlt_dec (10 * EPS64) (al / 2)).
    destruct (Rlt_dec (10 * EPS64) (al / 2)); lra.
Qed.

(** the same tone, quieter: every coefficient falls below the default threshold *)
Theorem quiet_vanishes : exists r s1 r' s2 row,
  ssq_cwt serial_order false pos_wave fam0 arg_default (tone 1 0 2 8) st0 = (Ok r, s1) /\
  ssq_cwt serial_order false pos_wave fam0 arg_default (map (Rmult EPS64) (tone 1 0 2 8)) st0 = (Ok r', s2) /\
  (row < 3)%nat /\ el (r_Tx r) row 0 <> C0 /\ nrows (r_Tx r') = 3%nat /\ ncols (r_Tx r') = 8%nat /\
  forall i j, (i < 3)%nat -> (j < 8)%nat -> el (r_Tx r') i j = C0.
Proof.
  destruct (default_tone 1 ltac:(lra)) as (r & s1 & H & Hsc & G).
  destruct (default_tone EPS64 ltac:(unfold EPS64; lra)) as (r' & s2 & H' & Hsc' & G').
  destruct (Rlt_dec (10 * EPS64) (1 / 2)) as [_|N]; [|exfalso; apply N; unfold EPS64; lra].
  destruct (Rlt_dec (10 * EPS64) (EPS64 / 2)) as [N|_]; [exfalso; unfold EPS64 in N; lra|].
  destruct (tone_one_row _ _ _ _ _ _ _ _ _ _ _ _ _ _ H) as (_ & _ & row & (B & _) & T).
  destruct (tone_one_row _ _ _ _ _ _ _ _ _ _ _ _ _ _ H') as (R1 & C1 & row' & _ & T').
  rewrite Hsc in *. rewrite Hsc' in *. cbn [length] in *. exists r, s1, r', s2, row.
  split; [apply H|]. split; [rewrite tone_scaled; apply H'|]. split; [exact B|]. split; [|split; [exact R1|split; [exact C1|]]].
  - rewrite T, Nat.eqb_refl, G by lia. intros K. apply (f_equal Re) in K. unfold analytic, cis, C0, RtoC, Cmul, Re in K. cbn [fst snd] in K.
    replace (2 * PI * INR 2 * INR 0 / INR 8 + 0) with 0 in K by (cbn [INR]; unfold Rdiv; ring). rewrite cos_0, sin_0 in K.
    pose proof ln2_pos. lra.
  - intros i j Hi Hj. rewrite T' by assumption. destruct (i =? row')%nat; [|reflexivity]. rewrite G', Rmult_0_r. apply C_eq; simpl; ring.
Qed.

(** ** Scaling, rotating, delaying, reversing: small runs *)
Lemma scale_case : exists r s' r', let q := arg_w DTrig (Some PReflect) (1 / 2) false None in
  ssq_cwt serial_order false flat_wave fam0 q [1; 2; 3; 1; 5] st0 = (Ok r, s') /\
  ssq_cwt serial_order false flat_wave fam0 (set_gamma (Some (3 / 2)) q) [-3; -6; -9; -3; -15] st0 = (Ok r', s') /\
  forall i j, (i < nrows (r_Tx r))%nat -> (j < ncols (r_Tx r))%nat -> el (r_Tx r') i j = Cmul (RtoC (-3)) (el (r_Tx r) i j).
Proof.
  destruct (pad_input (Some PReflect) [1; 2; 3; 1; 5]) as [[xp n1]|] eqn:Ep; [|discriminate Ep].
  destruct (ssq_w_ok flat_wave DTrig (Some PReflect) (1 / 2) false [1; 2; 3; 1; 5] xp n1 fam0 ltac:(discriminate) Ep ltac:(congruence) ltac:(discriminate)) as (r & s' & E & _).
  destruct (ssq_cwt_scale _ _ _ _ (arg_w DTrig (Some PReflect) (1 / 2) false None) (-3) _ _ _ _ serial_order_valid eq_refl eq_refl (or_introl eq_refl) ltac:(lra) E) as (r' & E' & _ & _ & T & _).
  exists r, s', r'. cbv zeta. split; [exact E|]. split.
  - cbn [map] in E'. replace (Rabs (-3) * ssq_gamma (arg_w DTrig (Some PReflect) (1 / 2) false None)) with (3 / 2) in E'
      by (cbn [ssq_gamma arg_w q_gamma]; rewrite Rabs_left by lra; lra).
    rewrite <- E'. do 2 f_equal; [lra|]. f_equal; [lra|]. f_equal; [lra|]. f_equal; [lra|]. f_equal; lra.
  - destruct T as (_ & _ & T). intros i j Hi Hj. apply (T j Hj I), Hi.
Qed.
Lemma roll_case : exists r s' r', let q := arg_w DTrig None (1 / 2) false None in
  ssq_cwt serial_order false flat_wave fam0 q [1; 2; 3] st0 = (Ok r, s') /\
  ssq_cwt serial_order false flat_wave fam0 q [2; 3; 1] st0 = (Ok r', s') /\
  el (r_Wx r') 0 2 = el (r_Wx r) 0 0 /\ ncols (r_Wx r) = 3%nat /\ nrows (r_Wx r) = 3%nat.
Proof.
  destruct (ssq_w_ok flat_wave DTrig None (1 / 2) false [1; 2; 3] [1; 2; 3] 0 fam0 ltac:(discriminate) eq_refl ltac:(congruence) ltac:(discriminate)) as (r & s' & E & Hsc).
  assert (Hr : rolled 1 [1; 2; 3] [2; 3; 1]) by (split; [reflexivity|intros [|[|[|m]]] Hm; cbn in *; try lia; reflexivity]).
  destruct (ssq_cwt_roll _ _ _ _ (arg_w DTrig None (1 / 2) false None) 1 [1; 2; 3] [2; 3; 1] _ _ _ serial_order_valid eq_refl eq_refl (or_introl eq_refl) eq_refl ltac:(cbn; lia) Hr E) as (r' & E' & _ & _ & _ & W & _).
  exists r, s', r'. cbv zeta. split; [exact E|]. split; [exact E'|].
  destruct (ssq_cwt_inv serial_order false _ fam0 (arg_w DTrig _ (1 / 2) false None) _ st0 _ _ eq_refl E) as (k & fs & sc & kind & W0 & dW & Hk & _ & _ & Hc & Hst).
  destruct (step_inv _ _ _ _ _ _ _ _ _ _ _ Hk Hst) as (w & Tx & _ & _ & E2 & E3 & _).
  destruct (cwt_ncols _ _ _ _ _ _ _ _ _ _ Hc) as (Hn1 & Hn2). cbn in E2, Hn2. 
  assert (Hn : ncols (r_Wx r) = 3%nat) by (rewrite E2; lia). assert (Hm : nrows (r_Wx r) = 3%nat) by (rewrite E2, Hn1, <- E3, Hsc; reflexivity).
  split; [|split; [exact Hn|exact Hm]]. destruct W as (_ & _ & W). rewrite Hn, Hm in W. apply (W 2%nat ltac:(lia) I). lia.
Qed.
Lemma delay_case : exists r s' r', let q := arg_w DTrig (Some PZero) (1 / 2) false None in
  ssq_cwt serial_order false flat_wave fam0 q [1; 2; 3; 0; 0] st0 = (Ok r, s') /\
  ssq_cwt serial_order false flat_wave fam0 q [0; 0; 1; 2; 3] st0 = (Ok r', s') /\
  forall i j, (i < nrows (r_Tx r))%nat -> (2 <= j < ncols (r_Tx r))%nat -> el (r_Tx r') i j = el (r_Tx r) i (j - 2).
Proof.
  destruct (pad_input (Some PZero) [1; 2; 3; 0; 0]) as [[xp n1]|] eqn:Ep; [|discriminate Ep].
  destruct (ssq_w_ok flat_wave DTrig (Some PZero) (1 / 2) false [1; 2; 3; 0; 0] xp n1 fam0 ltac:(discriminate) Ep ltac:(congruence) ltac:(discriminate)) as (r & s' & E & _).
  destruct (ssq_cwt_delay _ _ _ _ (arg_w DTrig (Some PZero) (1 / 2) false None) [1; 2; 3] 2 _ _ _ serial_order_valid eq_refl eq_refl (or_introl eq_refl) eq_refl E) as (r' & E' & _ & _ & T & _).
  exists r, s', r'. cbv zeta. split; [exact E|]. split; [exact E'|]. destruct T as (_ & _ & T). intros i j Hi Hj. apply (T j); lia.
Qed.
Lemma rev_case pt : exists r s' r', let q := arg_w DTrig (Some pt) (1 / 2) false None in
  ssq_cwt serial_order false flat_wave fam0 q [1; 2; 3; 5] st0 = (Ok r, s') /\
  ssq_cwt serial_order false flat_wave fam0 q [5; 3; 2; 1] st0 = (Ok r', s') /\
  forall i j, (i < nrows (r_Tx r))%nat -> (j < ncols (r_Tx r))%nat -> el (r_Tx r') i j = Cconj (el (r_Tx r) i (3 - j)).
Proof.
  destruct (pad_input (Some pt) [1; 2; 3; 5]) as [[xp n1]|] eqn:Ep; [|destruct pt; discriminate Ep].
  destruct (ssq_w_ok flat_wave DTrig (Some pt) (1 / 2) false [1; 2; 3; 5] xp n1 fam0 ltac:(discriminate) Ep ltac:(congruence) ltac:(discriminate)) as (r & s' & E & _).
  destruct (ssq_cwt_rev _ _ _ _ (arg_w DTrig (Some pt) (1 / 2) false None) [1; 2; 3; 5] st0 _ _ serial_order_valid eq_refl eq_refl (or_introl eq_refl)
    flat_real (or_introl eq_refl) (or_intror (or_intror eq_refl)) E) as (r' & E' & _ & _ & T & _).
  exists r, s', r'. cbv zeta. split; [exact E|]. split; [exact E'|]. destruct T as (_ & _ & T). intros i j Hi Hj. apply (T j Hj I), Hi.
Qed.

(** ** Reflected signals: neither delay nor reversal carries over *)
Definition dc_wave : wfun := WF (fun w => if Req_EM_T w 0 then C1 else C0) false NotGmw.
Lemma dc_real : real_valued dc_wave.
Proof. intros w. cbn [wf dc_wave]. destruct (Req_EM_T w 0); reflexivity. Qed.
Lemma dc_row s xp j : (2 <= length xp)%nat -> s <> 0 -> row_val dc_wave s xp j = RtoC (lsum xp / INR (length xp)).
Proof.
  intros Hn Hs. unfold row_val. set (n := length xp) in *. unfold idft. rewrite (Csum_single n _ 0 ltac:(lia)).
  - change (Z.of_nat 0 * Z.of_nat j)%Z with 0%Z. rewrite tw_0 by lia.
    unfold psih_val. replace (0 =? n / 2)%nat with false
      by (symmetry; apply Nat.eqb_neq; pose proof (Nat.div_str_pos n 2 ltac:(lia)); lia).
    rewrite Bool.andb_false_r. cbn [wf dc_wave]. rewrite xi_low by lia. cbn [INR].
    destruct (Req_EM_T (s * (2 * PI * 0 / INR n)) 0) as [_|N]; [|exfalso; apply N; unfold Rdiv; ring].
    assert (E : sig_dft xp 0 = RtoC (lsum xp)).
    { unfold sig_dft, dft. fold n. rewrite (Csum_ext n _ (fun m => RtoC (nth m xp 0))).
      - rewrite Csum_RtoC. f_equal. unfold n. symmetry. apply lsum_Rsum.
      - intros m Hm. change (Z.of_nat 0 * Z.of_nat m)%Z with 0%Z. cbn [Z.opp]. rewrite tw_0 by lia. ring. }
    rewrite E. assert (INR n <> 0) by (apply not_0_INR; lia). apply C_eq; simpl; field; assumption.
  - intros k Hk Hk0. unfold psih_val. cbn [wf dc_wave].
    rewrite xi_bin_freq by exact Hk. destruct (Req_EM_T (s * bin_freq k n) 0) as [E|_].
    + exfalso. apply Rmult_integral in E. destruct E as [E|E]; [contradiction|]. unfold bin_freq in E.
      assert (I0 : 0 < INR n) by (apply lt_0_INR; lia). pose proof PI_RGT_0.
      assert (Ik : INR k < INR n) by (apply lt_INR; exact Hk). assert (I1 : 0 < INR k) by (apply lt_0_INR; lia).
      destruct (k <=? n / 2)%nat; [assert (0 < 2 * PI * INR k / INR n) by (apply Rdiv_lt_0_compat; nra); lra|].
      assert (0 < 2 * PI * (INR n - INR k) / INR n) by (apply Rdiv_lt_0_compat; nra).
      replace (2 * PI * (INR k - INR n) / INR n) with (- (2 * PI * (INR n - INR k) / INR n)) in E by (unfold Rdiv; ring). lra.
    + destruct (negb false && _ && _); apply C_eq; simpl; ring.
Qed.
Lemma dc_run x xp n1 : pad_input (Some PReflect) x = Ok (xp, n1) -> (2 <= length xp)%nat -> exists r s',
  ssq_cwt serial_order false dc_wave fam0 (arg_w DTrig (Some PReflect) (1 / 2) false None) x st0 = (Ok r, s') /\
  r_scales r = [1; 2; 4] /\ forall i j, (i < 3)%nat -> (j < length x)%nat -> el (r_Wx r) i j = RtoC (lsum xp / INR (length xp)).
Proof.
  intros Ep Hn. set (q := arg_w DTrig (Some PReflect) (1 / 2) false None).
  destruct (ssq_w_ok dc_wave DTrig (Some PReflect) (1 / 2) false x xp n1 fam0 ltac:(discriminate) Ep ltac:(congruence) ltac:(discriminate)) as (r & s' & E & Hsc).
  exists r, s'. split; [exact E|]. split; [exact Hsc|]. fold q in E. intros i j Hi Hj.
  destruct (ssq_cwt_inv serial_order false _ fam0 (arg_w DTrig _ (1 / 2) false None) _ st0 _ _ eq_refl E) as (k & fs & sc & kind & W0 & dW & Hk & _ & _ & Hc & Hst).
  destruct (step_inv _ _ _ _ _ _ _ _ _ _ _ Hk Hst) as (w & Tx & _ & _ & E2 & E3 & _).
  destruct (cwt_rows _ _ _ _ _ _ _ _ _ _ dc_real (or_introl eq_refl : uncached true (inner q fs (ScArr sc) true true (numeric q) (q_pat q)) st0) Hc) as (fs' & xp' & n1' & _ & Hp & _ & HW & _).
  change (pad_input (Some PReflect) x = Ok (xp', n1')) in Hp. rewrite Ep in Hp. injection Hp as <- <-.
  change (r_Wx r = W0) in E2. rewrite E2, HW. unfold finish_cell. rewrite <- E3, Hsc.
  change (a_l1 (inner q fs (ScArr [1; 2; 4]) true true (numeric q) (q_pat q))) with true.
  apply dc_row; [exact Hn|]. destruct i as [|[|[|i]]]; cbn [nth]; try lra. lia.
Qed.

Definition late : list R := [0; 1; 0; 0; 0; 0; 0].
Theorem reflect_not_shift : exists r s1 r' s2 r2 s3, let q := arg_w DTrig (Some PReflect) (1 / 2) false None in
  ssq_cwt serial_order false dc_wave fam0 q late st0 = (Ok r, s1) /\
  ssq_cwt serial_order false dc_wave fam0 q [0; 0; 1; 0; 0; 0; 0] st0 = (Ok r', s2) /\
  ssq_cwt serial_order false dc_wave fam0 q (rev late) st0 = (Ok r2, s3) /\
  (forall j, (j < 7)%nat -> el (r_Wx r) 0 j = RtoC (1 / 8)) /\
  (forall j, (j < 7)%nat -> el (r_Wx r') 0 j = RtoC (3 / 16)) /\
  (forall j, (j < 7)%nat -> el (r_Wx r2) 0 j = RtoC (3 / 16)).
Proof.
  destruct (dc_run late [0; 0; 0; 0; 1; 0; 1; 0; 0; 0; 0; 0; 0; 0; 0; 0] 5 eq_refl ltac:(cbn [length]; lia)) as (r & s1 & E & _ & H).
  destruct (dc_run [0; 0; 1; 0; 0; 0; 0] [0; 0; 0; 1; 0; 0; 0; 1; 0; 0; 0; 0; 0; 0; 0; 1] 5 eq_refl ltac:(cbn [length]; lia)) as (r' & s2 & E' & _ & H').
  destruct (dc_run (rev late) [1; 0; 0; 0; 0; 0; 0; 0; 0; 0; 1; 0; 1; 0; 0; 0] 5 eq_refl ltac:(cbn [length]; lia)) as (r2 & s3 & E2 & _ & H2).
  exists r, s1, r', s2, r2, s3. cbv zeta. split; [exact E|]. split; [exact E'|]. split; [exact E2|].
  split; [|split]; intros j Hj; [rewrite H|rewrite H'|rewrite H2]; try (cbn [length late rev app]; lia); f_equal; cbn [lsum fold_right length]; rewrite INR_IZR_INZ; cbn [Z.of_nat Pos.of_succ_nat Pos.succ]; lra.
Qed.
