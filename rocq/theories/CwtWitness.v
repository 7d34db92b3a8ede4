(** Concrete runs of [cwt], [icwt], [trigdiff]. *)
From Coq Require Import Reals Lra.
From Coq Require Import ZifyBool ZifyNat.
From Verif Require Import Py Round Cplx CplxProofs Padding PaddingProofs Buffer Freqs Squeeze SqueezeThms SqueezeThms2 SqueezeThms3 FreqRange Scales Cwt CwtProofs CwtThms
  CwtTone CwtThms2 SsqWitness ScaleThms BinProofs.
Local Open Scope R_scope.

(** ** Scales *)
Definition rt2 : R := Rpower 2 (1 / 2).
Lemma rt2_sq : rt2 * rt2 = 2.
Proof. unfold rt2. rewrite <- Rpower_plus. replace (1 / 2 + 1 / 2) with 1 by field. apply Rpower_1. lra. Qed.
Lemma rt2_bounds : 1 < rt2 < 3 / 2.
Proof.
  pose proof rt2_sq. assert (0 < rt2) by apply exp_pos. split; nra.
Qed.
Lemma log2_rt2 : log2 rt2 = 1 / 2.
Proof. apply log2_pow2. Qed.

Lemma scales122 f64 : process_scales_arr f64 [1; rt2; 2] = Ok (KLog 2).
Proof.
  pose proof rt2_bounds. unfold process_scales_arr. rewrite (infer_geometric f64 _ (1 / 2)).
  - cbn [bind]. replace (1 / (1 / 2)) with (IZR 2) by lra. rewrite rhe_IZR. reflexivity.
  - intros k Hk. cbn in Hk. destruct k as [|[|[|k]]]; cbn [nth]; lra || lia.
  - split; [cbn; lia|]. intros k Hk. unfold lg. cbn [nth]. rewrite log2_1.
    cbn in Hk. destruct k as [|[|[|k]]]; cbn [nth INR]; rewrite ?log2_1, ?log2_2, ?log2_rt2; try field. lia.
  - lra.
Qed.
Lemma scales4816 f64 : process_scales_arr f64 [4; 8; 16] = Ok (KLog 1).
Proof.
  unfold process_scales_arr. rewrite (infer_geometric f64 _ 1).
  - cbn [bind]. replace (1 / 1) with (IZR 1) by (unfold Rdiv; lra). rewrite rhe_IZR. reflexivity.
  - intros k Hk. cbn in Hk. destruct k as [|[|[|k]]]; cbn [nth]; lra || lia.
  - split; [cbn; lia|]. intros k Hk. unfold lg. cbn [nth].
    cbn in Hk. destruct k as [|[|[|k]]]; cbn [nth INR]; rewrite ?log2_4, ?log2_8, ?log2_16; try ring. lia.
  - lra.
Qed.

Definition piece6 : list R := [1; rt2; 2; 4; 8; 16].
Lemma piece6_lg k : (k < 6)%nat -> lg piece6 k = 0 + INR (piece_pos 3 2 k) / IZR 2.
Proof.
  intros Hk. unfold lg, piece6, piece_pos.
  destruct k as [|[|[|[|[|[|k]]]]]]; [..|lia]; cbn -[INR log2 Rdiv]; cbn [INR].
  - rewrite log2_1. field.
  - rewrite log2_rt2. field.
  - rewrite log2_2. field.
  - rewrite log2_4. field.
  - rewrite log2_8. field.
  - rewrite log2_16. field.
Qed.
Lemma piece6_trans f64 : logscale_transition_idx f64 piece6 = Ok (Some 3%nat).
Proof. apply (transition_recovered piece6 3 2 2 0); [cbn; lia|lia|lia|exact piece6_lg]. Qed.
Lemma piece6_kind : exists v, process_scales_arr true piece6 = Ok (KPiece v).
Proof.
  destruct (nv_recovered piece6 3 2 2 0 ltac:(cbn; lia) ltac:(lia) ltac:(lia) piece6_lg true) as (v & Ev & _).
  exists v. unfold process_scales_arr, infer_scaletype. cbn [length piece6 Nat.ltb Nat.leb].
  pose proof rt2_bounds as Hr. pose proof ln2_pos as Hl.
  assert (Hp : all_pos piece6 = true).
  { unfold all_pos, piece6. cbn [forallb]. rewrite !Rltb'_true by lra. reflexivity. }
  fold piece6. rewrite Hp. cbn [andb negb].
  assert (Ln : forall k, (k < 6)%nat -> ln (nth k piece6 0) = lg piece6 k * ln 2).
  { intros k Hk. unfold lg, log2. field. lra. }
  pose proof (Ln 0%nat ltac:(lia)) as L0. pose proof (Ln 1%nat ltac:(lia)) as L1. pose proof (Ln 2%nat ltac:(lia)) as L2.
  pose proof (Ln 3%nat ltac:(lia)) as L3. pose proof (Ln 4%nat ltac:(lia)) as L4. pose proof (Ln 5%nat ltac:(lia)) as L5.
  rewrite piece6_lg in L0, L1, L2, L3, L4, L5 by lia. unfold piece6, piece_pos in L0, L1, L2, L3, L4, L5.
  cbn -[ln INR Rdiv] in L0, L1, L2, L3, L4, L5. cbn [INR] in L0, L1, L2, L3, L4, L5.
  rewrite Rltb'_false.
  2:{ unfold piece6. cbn [map diff]. rewrite L0, L1, L2, L3, L4, L5. unfold mean. cbn [length lsum fold_right INR].
      match goal with |- _ <= (?a + (?b + (?c + (?d + 0)))) / _ =>
        assert (0 <= a) by apply Rabs_pos; assert (0 <= c) by apply Rabs_pos; assert (0 <= d) by apply Rabs_pos end.
      match goal with |- _ <= (?a + (?b + _)) / _ => assert (HL : ln 2 / 2 <= b) by (rewrite Rabs_right; lra) end.
      assert (/ 2 <= ln 2). { pose proof ln43. assert (ln 4 = 2 * ln 2) by (replace 4 with (2*2) by ring; rewrite ln_mult; lra).
        assert (0 <= ln 3 - ln 2) by (assert (ln 2 < ln 3) by (apply ln_increasing; lra); lra).
        assert (/ 4 <= ln 3 - ln 2).
        { assert (K : 1 + (- (ln 3 - ln 2)) <= exp (- (ln 3 - ln 2))).
          { destruct (Req_dec (- (ln 3 - ln 2)) 0) as [->|E]; [rewrite exp_0; lra|left; apply exp_ineq1; exact E]. }
          rewrite <- ln_div in K by lra. rewrite exp_Ropp, exp_ln in K by lra. rewrite <- ln_div by lra. lra. }
        lra. }
      lra. }
  rewrite Rltb'_false.
  2:{ unfold piece6. cbn [map diff]. unfold mean. cbn [length lsum fold_right INR].
      match goal with |- _ <= (?a + (?b + (?c + (?d + 0)))) / _ =>
        assert (0 <= a) by apply Rabs_pos; assert (0 <= b) by apply Rabs_pos; assert (0 <= c) by apply Rabs_pos;
        assert (4 <= d) by (rewrite Rabs_right; lra) end. lra. }
  rewrite piece6_trans. cbn [bind]. rewrite Ev. reflexivity.
Qed.

(** ** Runs without padding *)
Definition arg0 (sc : list R) (deriv vec : bool) : cwt_args :=
  CA (ScArr sc) true None None true deriv None false vec (PatInt 0) None.
Definition st0 : cstate := CS 0 None 1024 None.
Lemma pre0 f sc deriv vec x k : wf_norm f = NotGmw -> process_scales_arr true sc = Ok k -> x <> [] ->
  pre f (arg0 sc deriv vec) x 1 x 0 sc.
Proof.
  intros Hf Hk Hx. unfold pre, arg0. cbn [a_fs a_t a_l1 a_pad a_scales a_f64s].
  split; [reflexivity|]. split; [unfold check_gmw; rewrite Hf; reflexivity|].
  split; [destruct x; [congruence|reflexivity]|]. unfold process_scales. rewrite Hk. reflexivity.
Qed.
Lemma run0 py inst f sc deriv vec x k : wf_norm f = NotGmw -> process_scales_arr true sc = Ok k -> x <> [] ->
  exists s', cwt py inst f (arg0 sc deriv vec) x st0 =
    (Ok (finish (arg0 sc deriv vec) 0 (length x) sc
           (raw (psih_used inst f (arg0 sc deriv vec) sc (length x) None) (length sc) (length x) (sig_dft x)), sc,
         if deriv then Some (finish (arg0 sc deriv vec) 0 (length x) sc
           (draw vec (psih_used inst f (arg0 sc deriv vec) sc (length x) None) (length sc) (length x) 1 (sig_dft x))) else None), s').
Proof.
  intros Hf Hk Hx. eexists.
  rewrite (cwt_run py inst f (arg0 sc deriv vec) x st0 1 x 0 sc); [|eapply pre0; eauto|destruct py; reflexivity|destruct py; reflexivity].
  cbn [arg0 a_deriv a_vec st0 s_cache]. reflexivity.
Qed.

Lemma dft_delta n q : (0 < n)%nat -> dft n (fun m => RtoC (nth m (1 :: repeat 0 (n - 1)) 0)) q = C1.
Proof.
  intros Hn. unfold dft. rewrite (Csum_single n _ 0 ltac:(lia)).
  - cbn [nth]. rewrite Z.mul_0_r. change (- 0)%Z with 0%Z. rewrite tw_0 by lia. apply C_eq; simpl; ring.
  - intros i Hi Hne. destruct i as [|i]; [congruence|]. cbn [nth].
    assert (nth i (repeat 0 (n - 1)) 0 = 0) as ->
      by (generalize (n - 1)%nat; clear; intros m; revert m; induction i; destruct m; cbn; auto).
    apply C_eq; simpl; ring.
Qed.

(** a wavelet that is positive for positive frequencies only *)
Definition pos_wave : wfun := WF (fun w => if Rlt_dec 0 w then C1 else C0) false NotGmw.
Definition flat_wave : wfun := WF (fun _ => C1) false NotGmw.

Lemma pos_wave_tone : exists W dW s',
  cwt false false pos_wave (arg0 [1; 2; 4] true true) (tone 1 0 1 4) st0 = (Ok (W, [1; 2; 4], Some dW), s') /\
  1 / 4 <= Cabs (el W 1 3).
Proof.
  destruct (run0 false false pos_wave [1; 2; 4] true true (tone 1 0 1 4) (KLog 1) eq_refl (scales124 true)) as (s' & E).
  { unfold tone. cbn. discriminate. }
  do 3 eexists. split; [exact E|].
  set (W := finish _ _ _ _ _).
  (* the only nonzero product is at bin 1: a real tone of amplitude 1 has [xh 1 = 2] *)
  assert (HX : forall q, (q < 4)%nat -> q <> 1%nat ->
    Cmul (el (psih_used false pos_wave (arg0 [1; 2; 4] true true) [1; 2; 4] 4 None) 1 q) (sig_dft (tone 1 0 1 4) q) = C0).
  { intros q Hq Hne. destruct (Nat.eq_dec q 3) as [->|H3].
    - rewrite (psih_used_zero false pos_wave (arg0 [1; 2; 4] true true) [1; 2; 4] 4 st0); [apply C_eq; simpl; ring|left; reflexivity|].
      pose proof (xi_high 4 1 ltac:(lia) ltac:(lia)) as X3. cbn [Nat.sub] in X3. rewrite X3. cbn [wf pos_wave nth]. pose proof PI_RGT_0. simpl INR.
      destruct (Rlt_dec _ _); [lra|reflexivity].
    - rewrite tone_dft by lia. apply C_eq; simpl; ring. }
  assert (Hx1 : sig_dft (tone 1 0 1 4) 1 = (2, 0)).
  { unfold sig_dft. rewrite tone_length. unfold dft. cbn [Csum].
    assert (T : forall z, tw 4 z = (cos (PI / 2 * IZR z), sin (PI / 2 * IZR z))).
    { intros z. unfold tw, cis. simpl INR. replace (2 * PI * IZR z / (1 + 1 + 1 + 1)) with (PI / 2 * IZR z) by field. reflexivity. }
    rewrite !T. unfold tone. rewrite !nth_tab by lia. simpl INR. rewrite !Rplus_0_r.
    replace (2 * PI * 1 * 0 / (1 + 1 + 1 + 1)) with 0 by field.
    replace (2 * PI * 1 * 1 / (1 + 1 + 1 + 1)) with (PI / 2) by field.
    replace (2 * PI * 1 * (1 + 1) / (1 + 1 + 1 + 1)) with PI by field.
    replace (2 * PI * 1 * (1 + 1 + 1) / (1 + 1 + 1 + 1)) with (3 * (PI / 2)) by field.
    rewrite cos_0, cos_PI2, cos_PI, cos_3PI2. cbn -[cos sin].
    replace (PI / 2 * 0) with 0 by ring. replace (PI / 2 * -2) with (- PI) by field.
    rewrite cos_0, sin_0, cos_neg, sin_neg, cos_PI, sin_PI. apply C_eq; cbn -[cos sin]; ring. }
  assert (Hp : el (psih_used false pos_wave (arg0 [1; 2; 4] true true) [1; 2; 4] 4 None) 1 1 = C1).
  { unfold psih_used, arg0. cbn [a_vec a_cache use_cache andb]. 
    rewrite wavelet_call_el by (intros w; cbn; destruct (Rlt_dec 0 w); reflexivity).
    unfold psih_val. cbn [Nat.modulo Nat.div Nat.divmod fst snd Nat.eqb Nat.sub negb andb].
    rewrite (xi_low 4 1) by (cbn; lia). cbn [nth wf pos_wave]. pose proof PI_RGT_0. simpl INR.
    destruct (Rlt_dec _ _); [reflexivity|lra]. }
  assert (EW : el W 1 3 = Cmul (RtoC (/ 4)) (Cmul (2, 0) (tw 4 3))).
  { subst W. rewrite tone_length. unfold finish, arg0. cbn [a_rpadded a_pad a_l1 negb andb].
    unfold raw, cwt_cell. cbn [el]. unfold idft. rewrite (Csum_single 4 _ 1 ltac:(lia)).
    - fold (arg0 [1; 2; 4] true true). rewrite Hp, Hx1. simpl INR. replace (1 + 1 + 1 + 1) with 4 by ring.
      change (Z.of_nat 1 * Z.of_nat 3)%Z with 3%Z. apply C_eq; simpl; ring.
    - intros q Hq Hne. fold (arg0 [1; 2; 4] true true). rewrite HX by auto. apply C_eq; simpl; ring. }
  rewrite EW, !Cabs_mul. unfold tw. rewrite Cabs_cis, Cabs_RtoC, Rabs_right by lra.
  replace (2, 0) with (RtoC 2) by reflexivity. rewrite Cabs_RtoC, Rabs_right by lra. lra.
Qed.

(** with a wavelet that passes negative frequencies the tone's phase is lost *)
Lemma flat_wave_tone : exists W dW s',
  cwt false false flat_wave (arg0 [1; 2; 4] true true) [1; -1/2; -1/2] st0 = (Ok (W, [1; 2; 4], Some dW), s') /\
  1 <= Cabs (el W 0 0) /\ el (phase_cwt (1 / 10) W dW) 0 0 = Fin 0.
Proof.
  destruct (run0 false false flat_wave [1; 2; 4] true true [1; -1/2; -1/2] (KLog 1) eq_refl (scales124 true) ltac:(discriminate)) as (s' & E).
  do 3 eexists. split; [exact E|].
  set (W := finish _ _ _ _ (raw _ _ _ _)). set (dW := finish _ _ _ _ (draw _ _ _ _ _ _)).
  assert (Hp : forall q, el (psih_used false flat_wave (arg0 [1; 2; 4] true true) [1; 2; 4] 3 None) 0 q = C1).
  { intros q. unfold psih_used, arg0. cbn [a_vec a_cache use_cache andb].
    rewrite wavelet_call_el by (intros w; reflexivity). reflexivity. }
  assert (EW : el W 0 0 = C1).
  { subst W. unfold finish, arg0. cbn [a_rpadded a_pad a_l1 negb andb length].
    unfold raw, cwt_cell. cbn [el]. fold (arg0 [1; 2; 4] true true).
    rewrite (idft_ext 3 _ (sig_dft [1; -1 / 2; -1 / 2])).
    - unfold sig_dft. cbn [length]. rewrite idft_dft by lia. reflexivity.
    - intros q Hq. rewrite Hp. apply C_eq; simpl; ring. }
  (* real signal, odd length: the derivative is real *)
  assert (Him : Im (el dW 0 0) = 0).
  { subst dW. unfold finish, arg0. cbn [a_rpadded a_pad a_l1 negb andb length].
    fold (arg0 [1; 2; 4] true true). rewrite draw_el. unfold dcwt_cell, idft. cbn [Csum]. rewrite !Hp.
    assert (E2 : sig_dft [1; -1 / 2; -1 / 2] 2 = Cconj (sig_dft [1; -1 / 2; -1 / 2] 1))
      by (apply (dft_real_sym 3 ltac:(lia) (fun m => nth m [1; -1 / 2; -1 / 2] 0) 1); lia).
    rewrite E2. rewrite !Z.mul_0_r. rewrite tw_0 by lia.
    assert (X0 : nth 0 (xifn 1 3) 0 = 0) by (unfold xifn; rewrite nth_tab by lia; cbn; ring).
    assert (X1 : nth 2 (xifn 1 3) 0 = - nth 1 (xifn 1 3) 0)
      by (unfold xifn; rewrite !nth_tab by lia; cbn; field).
    rewrite X0, X1. unfold Im, Cconj. generalize (sig_dft [1; -1 / 2; -1 / 2] 0), (sig_dft [1; -1 / 2; -1 / 2] 1).
    intros [a b] [c d]. cbn. ring. }
  split; [rewrite EW, Cabs_1; lra|].
  unfold phase_cwt. cbn [el]. rewrite EW. destruct (Rlt_dec _ _) as [H|H]; [rewrite Cabs_1 in H; lra|].
  f_equal. unfold phase_cwt_pt, phase_ratio. rewrite Him. unfold Re, Im, C1. cbn.
  match goal with |- Rabs ?t = 0 => replace t with 0; [apply Rabs_R0|] end. pose proof PI_RGT_0. field. lra.
Qed.
Lemma cos_third : [1; -1/2; -1/2] = tone 1 0 1 3.
Proof.
  unfold tone. cbn [tab seq map]. unfold tab. cbn [seq map]. simpl INR.
  replace (2 * PI * 1 * 0 / (1 + 1 + 1) + 0) with 0 by field.
  replace (2 * PI * 1 * 1 / (1 + 1 + 1) + 0) with (2 * (PI / 3)) by field.
  replace (2 * PI * 1 * (1 + 1) / (1 + 1 + 1) + 0) with (PI + PI / 3) by field.
  rewrite cos_0, cos_2PI3, Rtrigo_facts.cos_pi_plus, cos_PI3.
  repeat (apply (f_equal2 cons); [field|]). reflexivity.
Qed.
