(** A concrete chord: 8 and 64 periods in 256 samples, the second a fifth as loud; the default wavelet and threshold, 32 voices from scale 1 to 64,
    ridges with the default penalty and bandwidth. *)
From Coq Require Import Reals Lra Lia List ZifyBool ZifyNat.
Import ListNotations.
From Verif Require Import Py Round Parallel Cplx CplxProofs Padding PaddingProofs Buffer Freqs Squeeze SqueezeThms Scales ScaleThms SsqWitness Cwt CwtProofs CwtThms CwtTone
  CwtWitness CwtWitness2 SqueezeProofs SqueezeThms2 SqueezeThms3 Ssqueeze SsqueezeProofs IssqProofs SsqThms FreqRange CwtThms2 SsqCwt SsqCwtProofs SsqCwtInv SsqCwtWitness ToneWitness Wavelets WaveletProofs Admiss AdmissThms AdmissThms2 AdmissThms3 Integral IntegralProofs
  RoundTrip GainBound RoundTripGain GmwRoundTrip DefaultRoundTrip RoundTripWitness ToneThms Separate OctaveSep ChordSep Reassign ChordSqueeze ChordRecover ChordWitness
  Ridge RidgeProofs RidgeOpt RidgeThms RidgeCurve RidgeWitness RidgeBand ChordRidge.
Local Open Scope R_scope.

Definition lead_A (r : nat) : R := match r with O => 1 | _ => 1 / 5 end.
Definition lead_phi (r : nat) : R := match r with O => 0 | _ => 1 end.
Definition lead_k (r : nat) : nat := match r with O => 8 | _ => 64 end.
Definition lead : list R := chord 2 lead_A lead_phi lead_k 256.
Definition arg_r (sc : list R) : ssq_args :=
  SQ (ScArr sc) SLog None true true true None None FNone None SqSum MRMaximal DTrig None None true None (PatInt 0) true None false.
Lemma gamma_r sc : ssq_gamma (arg_r sc) = 10 * EPS64.
Proof. reflexivity. Qed.

Lemma lead_cwt sc : process_scales_arr true sc = Ok (KLog 32) -> exists W dW s',
  cwt false true (gmw_wave gmw60) (arg_d sc) lead st0 = (Ok (W, sc, Some dW), s').
Proof.
  intros Hs. assert (Hx : length lead = 256%nat) by apply chord_length. set (x := lead) in *.
  assert (Hp : pad_input None x = Ok (x, 0%Z)).
  { unfold pad_input. destruct x eqn:E; [discriminate Hx|reflexivity]. }
  assert (P : pre (gmw_wave gmw60) (arg_d sc) x 1 x 0 sc).
  { unfold pre. cbn [arg_d a_fs a_t a_l1 a_pad a_scales a_f64s]. split; [apply fs_1|].
    split; [reflexivity|]. split; [exact Hp|]. unfold process_scales. rewrite Hs. reflexivity. }
  pose proof (cwt_run false true (gmw_wave gmw60) (arg_d sc) x st0 1 x 0 sc P eq_refl eq_refl) as E. cbv zeta in E.
  change (a_deriv (arg_d sc)) with true in E. cbv iota in E. do 3 eexists. exact E.
Qed.

Definition freqs_r (sc : list R) : list R := log_freqs (1 / 256) (1 / 2) (length sc).
Definition step_r (sc : list R) : R := (ln (1 / 2) - ln (1 / 256)) / INR (length sc - 1) / ln 2.
Lemma lead_grid sc nv : process_scales_arr true sc = Ok (KLog nv) ->
  ssq_freqs_of (ssq_o (arg_r sc) 1 sc SLog true) 256 = Ok (Some (KLog nv), freqs_r sc, true) /\
  freq_grid true (freqs_r sc) true (reach_log (freqs_r sc) 0) /\ geometric (freqs_r sc) (step_r sc).
Proof.
  intros Hs.
  assert (Hr : ssq_freqrange MRMaximal (1 / 1) 256 sc = (1 / 256, 1 / 2)).
  { unfold ssq_freqrange. f_equal; [replace (INR 256) with 256 by (rewrite INR_IZR_INZ; reflexivity)|]; lra. }
  destruct (default_log_grid (ssq_o (arg_r sc) 1 sc SLog true) sc nv 256 (1 / 256) (1 / 2)
              eq_refl eq_refl Hs (or_intror eq_refl) Hr ltac:(lra) ltac:(lra)) as (E & G).
  split; [exact E|]. split; [exact G|].
  apply (log_freqs_geometric (1 / 256) (1 / 2) (length sc)); [lra|lra|]. apply (process_log_len _ _ _ Hs).
Qed.
Lemma lead_step sc : (161 <= length sc <= 225)%nat -> 1 / 32 <= step_r sc <= 7 / 160.
Proof.
  intros HL. unfold step_r. pose proof ln2_pos.
  assert (E : ln (1 / 2) - ln (1 / 256) = 7 * ln 2).
  { replace (1 / 256) with (1 / 2 * (1 / 2) * (1 / 2) * (1 / 2) * (1 / 2) * (1 / 2) * (1 / 2) * (1 / 2)) by lra. rewrite !ln_mult by lra. replace (1 / 2) with (/ 2) by lra. rewrite ln_Rinv by lra. ring. }
  rewrite E. assert (H1 : INR 160 <= INR (length sc - 1) <= INR 224) by (split; apply le_INR; lia). rewrite (INR_IZR_INZ 160), (INR_IZR_INZ 224) in H1. cbn in H1.
  set (m := INR (length sc - 1)) in *. replace (7 * ln 2 / m / ln 2) with (7 / m) by (field; lra).
  split; apply (Rmult_le_reg_r m); try lra; unfold Rdiv; rewrite ?Rmult_assoc, ?Rinv_l by lra; lra.
Qed.

Lemma lead_ssq sc : process_scales_arr true sc = Ok (KLog 32) -> exists r s',
  ssq_cwt serial_order false (gmw_wave gmw60) fam0 (arg_r sc) lead st0 = (Ok r, s') /\ r_scales r = sc /\ r_freqs r = rev (freqs_r sc).
Proof.
  intros Hs. assert (Hx : length lead = 256%nat) by apply chord_length. set (q := arg_r sc). set (x := lead) in *.
  destruct (lead_cwt sc Hs) as (W & dW & s' & Ec). fold x in Ec.
  destruct (cwt_ncols _ _ _ _ _ _ _ _ _ _ Ec) as (Hr & Hn). cbn [arg_d a_rpadded a_pad negb andb] in Hn.
  assert (Hcol : ncols W = 256%nat) by lia. pose proof (process_log_len _ _ _ Hs) as Hlen.
  destruct (lead_grid sc 32 Hs) as (Ef & _ & Hg). fold q in Ef.
  assert (exists r, squeeze_step serial_order q 1 4 256 W dW sc true SLog = Ok r /\ r_freqs r = rev (freqs_r sc)) as (r & Es & Efr).
  { pose proof (grid_log true (freqs_r sc) _ Hg) as Eg.
    pose proof (const_arr_scalar (nrows W) (ln 2 / 32) ltac:(lia)) as Ea.
    unfold squeeze_step. change (q_get_w q) with false. cbv iota zeta. cbn [bind].
    set (o := SO _ _ _ _ _ _ _ _ _ _ _).
    change o with (ssq_o q 1 sc SLog true) in *. unfold ssqueeze.
    set (out := Mat (nrows W) (ncols W) (fun _ _ => C0)).
    cbn [bind]. rewrite Hcol. rewrite Ef. cbn [bind].
    unfold ssqueeze_one. cbn [ssq_const ssq_o o_tr o_sq q arg_r q_sq squeeze_input bind o_f64v q_f64v o_flip q_flip o_gamma o_Sfs].
    fold out.
    destruct (fast_sum serial_order true W dW (freqs_r sc) (CScalar (ln 2 / 32)) true true (ssq_gamma q) None out _ _ serial_order_valid Ea Eg (or_introl eq_refl)) as (Tx & E & _).
    match goal with |- context [ssqueeze_fast ?a ?b ?c ?d ?e ?f ?g ?h ?i ?j ?k] =>
      replace (ssqueeze_fast a b c d e f g h i j k) with (Ok Tx) by (symmetry; exact E) end.
    cbn [bind]. eexists. split; [reflexivity|]. reflexivity. }
  assert (Hk : check_diff q = Ok 4%Z) by reflexivity.
  exists r, s'. split; [|split].
  - unfold ssq_cwt. unfold mbind at 1, lift at 1. rewrite Hk. unfold mbind at 1, lift at 1.
    replace (process_fs_and_t (q_fs q) (q_t q) (length x)) with (Ok 1 : res R) by (rewrite Hx; reflexivity).
    change (q_order q) with (@None ho_order). cbv iota. unfold mbind at 1, lift at 1.
    change (ssq_scales (q_f64s q) (q_scales q) (q_kind q) (ssq_nv q) (length x)) with (ssq_scales true (ScArr sc) SLog None (length x)).
    rewrite (arg_s_scales sc 32 (length x) Hs). cbv iota.
    unfold mbind at 1.
    change (inner q 1 (ScArr sc) (match q_scales q with ScArr _ => q_f64s q | ScAuto _ => true end) true
       (match q_diff q with DNumeric => true | _ => false end) (q_pat q)) with (arg_d sc).
    rewrite Ec. cbv iota. unfold lift. f_equal. rewrite Hx. exact Es.
  - destruct (step_inv _ _ _ _ _ _ _ _ _ _ _ Hk Es) as (w & Tx & _ & _ & _ & E3 & _). exact E3.
  - exact Efr.
Qed.

Definition lead_ratio : R := 9 / 10.
Theorem lead_run par : (forall F, sched_ok F par) -> exists sc out s' Css o d (rho : nat -> nat),
  make_scales 1 64 32 SLog (fun _ => Ok None) 5%Z = Ok sc /\ r_scales out = sc /\
  chord_run serial_order false fam0 (arg_r sc) 2 lead_A lead_phi lead_k 256 st0 out s' 1 32 d /\ adm_ssq gmw60 = Ok Css /\ voices (r_scales out) 32 /\
  (forall r, (r < 2)%nat -> (nth 0 (r_scales out) 0 * (2 * PI * INR (lead_k r) / INR 256)) ^ 3 <= 10 /\
     40 <= (nth (length (r_scales out) - 1) (r_scales out) 0 * (2 * PI * INR (lead_k r) / INR 256)) ^ 3) /\
  (forall r, (r < 2)%nat -> nearest_row out (tone_freq 1 (lead_k r) 256) (rho r)) /\
  extract_ridges par true (r_Tx out) (r_scales out) 2 2 15 true = Ok o /\
  (forall r, (r < 2)%nat -> (16 <= rho r)%nat /\ (rho r + 1 < 256)%nat) /\
  (17 < Z.abs (Z.of_nat (rho 1%nat) - Z.of_nat (rho 0%nat)))%Z /\
  0 <= slack (arg_r sc) out 32 <= 1 / 10 ^ 10 /\
  2 * (2 * (INR (2 * 1) * (ln 2 / IZR 32)) ^ 2) + INR (256 - 1) * eps_of true < ln ((1 + eps_of true) / (lead_ratio ^ 2 + eps_of true)).
Proof.
  intros Hpar. destruct two_scales as (sc & Es & HL & H0 & H1).
  pose proof (log_scales_inferred true 1 64 32 (fun _ => Ok None) 5%Z sc ltac:(lra) ltac:(lia) Es ltac:(lia)) as Ep.
  destruct (lead_ssq sc Ep) as (out & s' & E & Esc & Efr). destruct default_adm_ssq as (v & Ev & _).
  pose proof (library_voices 1 64 32 (fun _ => Ok None) 5%Z sc ltac:(lra) ltac:(lia) Es) as Hv.
  pose proof (lead_step sc HL) as Hd. destruct (lead_grid sc 32 Ep) as (Ef & _ & Hg).
  assert (Llen : length (freqs_r sc) = length sc) by (unfold freqs_r; apply tab_length).
  assert (I256 : INR 256 = 256) by (rewrite INR_IZR_INZ; reflexivity).
  assert (F0 : tone_freq 1 (lead_k 0) 256 = 1 / 32) by (unfold tone_freq, lead_k; rewrite I256, (INR_IZR_INZ 8); cbn; lra).
  assert (F1 : tone_freq 1 (lead_k 1) 256 = 1 / 4) by (unfold tone_freq, lead_k; rewrite I256, (INR_IZR_INZ 64); cbn; lra).
  pose proof ln2_pos as L2.
  assert (G : forall i, (i < length sc)%nat -> log2 (nth i (r_freqs out) 0) = - 8 + INR (length sc - 1 - i) * step_r sc).
  { intros i Hi. rewrite Efr, rev_nth by lia. rewrite Llen. destruct Hg as (_ & Hg). fold (lg (freqs_r sc) (length sc - S i)). rewrite Hg by lia.
    replace (length sc - S i)%nat with (length sc - 1 - i)%nat by lia. f_equal. unfold lg, freqs_r. rewrite log_freqs_nth by (lra || lia).
    unfold log2. rewrite ln_exp. cbn [INR]. replace (1 / 256) with (1 / 2 * (1 / 2) * (1 / 2) * (1 / 2) * (1 / 2) * (1 / 2) * (1 / 2) * (1 / 2)) at 1 by lra. rewrite !ln_mult by lra.
    replace (1 / 2) with (/ 2) by lra. rewrite ln_Rinv by lra. field. repeat split; solve [lra|apply not_0_INR; lia]. }
  assert (Lr : length (r_freqs out) = length (r_scales out)) by (rewrite Efr, rev_length, Esc; exact Llen).
  assert (Hlast : log2 (nth (length sc - 1) (r_freqs out) 0) = - 8) by (rewrite G by lia; rewrite Nat.sub_diag; cbn [INR]; ring).
  assert (G0 : log2 (1 / 32) = - 5).
  { unfold log2. replace (1 / 32) with (1 / 2 * (1 / 2) * (1 / 2) * (1 / 2) * (1 / 2)) by lra. rewrite !ln_mult by lra. replace (1 / 2) with (/ 2) by lra. rewrite ln_Rinv by lra. field. lra. }
  assert (G1 : log2 (1 / 4) = - 2).
  { unfold log2. replace (1 / 4) with (1 / 2 * (1 / 2)) by lra. rewrite !ln_mult by lra. replace (1 / 2) with (/ 2) by lra. rewrite ln_Rinv by lra. field. lra. }
  destruct (nearest_exists out (1 / 32) ltac:(rewrite Esc; lia) Lr) as (r0 & N0). destruct (nearest_exists out (1 / 4) ltac:(rewrite Esc; lia) Lr) as (r1 & N1).
  assert (Gd : forall i, (i < length sc)%nat -> log2 (nth i (r_freqs out) 0) = - 1 - INR i * step_r sc).
  { intros i Hi. rewrite G by exact Hi. rewrite !minus_INR by lia. cbn [INR].
    assert (T : INR (length sc) * step_r sc = 7 + step_r sc).
    { unfold step_r. rewrite minus_INR by lia. replace (ln (1 / 2) - ln (1 / 256)) with (7 * ln 2).
      - cbn [INR]. assert (1 < INR (length sc)) by (change 1 with (INR 1); apply lt_INR; lia). field. lra.
      - replace (1 / 256) with (1 / 2 * (1 / 2) * (1 / 2) * (1 / 2) * (1 / 2) * (1 / 2) * (1 / 2) * (1 / 2)) by lra. rewrite !ln_mult by lra. replace (1 / 2) with (/ 2) by lra. rewrite ln_Rinv by lra. ring. }
    lra. }
  set (d := step_r sc) in *.
  assert (Q : forall a b : nat, (a <= b)%nat -> INR a <= INR b) by (intros; apply le_INR; assumption).
  assert (Cst : INR 15 = 15 /\ INR 20 = 20 /\ INR 33 = 33 /\ INR 41 = 41 /\ INR 69 = 69 /\ INR 80 = 80) by (repeat split; rewrite INR_IZR_INZ; reflexivity).
  destruct Cst as (c15 & c20 & c33 & c41 & c69 & c80).
  assert (Hr1 : (16 <= r1 <= 40)%nat).
  { destruct N1 as (A0 & _ & A1). rewrite Esc in A0, A1. split.
    - destruct (le_lt_dec 16 r1) as [|K]; [assumption|exfalso]. specialize (A1 20%nat ltac:(lia)). rewrite G1, !Gd, c20 in A1 by lia.
      pose proof (Q r1 15%nat ltac:(lia)) as K1. rewrite c15 in K1. pose proof (pos_INR r1).
      assert (INR r1 * d <= 15 * d) by (apply Rmult_le_compat_r; lra). rewrite !Rabs_left in A1 by lra. lra.
    - destruct (le_lt_dec r1 40) as [|K]; [assumption|exfalso]. specialize (A1 33%nat ltac:(lia)). rewrite G1, !Gd, c33 in A1 by lia.
      pose proof (Q 41%nat r1 ltac:(lia)) as K1. rewrite c41 in K1.
      assert (41 * d <= INR r1 * d) by (apply Rmult_le_compat_r; lra). rewrite !Rabs_right in A1 by lra. lra. }
  assert (Hr0 : (70 <= r0)%nat).
  { destruct N0 as (A0 & _ & A1). rewrite Esc in A0, A1. destruct (le_lt_dec 70 r0) as [|K]; [assumption|exfalso]. specialize (A1 80%nat ltac:(lia)). rewrite G0, !Gd, c80 in A1 by lia.
    pose proof (Q r0 69%nat ltac:(lia)) as K1. rewrite c69 in K1. pose proof (pos_INR r0).
    assert (INR r0 * d <= 69 * d) by (apply Rmult_le_compat_r; lra). rewrite !Rabs_left in A1 by lra. lra. }
  assert (Hr0' : (r0 < length sc)%nat) by (destruct N0 as (A0 & _); rewrite Esc in A0; exact A0).
  assert (Hpos : forall i, (i < length sc)%nat -> 0 < nth i sc 0).
  { intros i Hi. rewrite (voices_nth sc 32 i Hv Hi). apply Rmult_lt_0_compat; [lra|apply exp_pos]. }
  assert (He64 : 1 / 10 ^ 16 <= EPS64 <= 1 / 10 ^ 15).
  { unfold EPS64. assert (P1 : 2 ^ 52 = 4503599627370496) by ring. rewrite ?P1. split; [apply (Rmult_le_reg_r 4503599627370496)|apply (Rmult_le_reg_r 4503599627370496)]; try lra; rewrite Rinv_l by lra; lra. }
  assert (Hrun : chord_run serial_order false fam0 (arg_r sc) 2 lead_A lead_phi lead_k 256 st0 out s' 1 32 d).
  { unfold chord_run. split.
    - unfold log_run. split; [exact serial_order_valid|]. split; [repeat split|]. split; [exact E|]. split; [rewrite chord_length; reflexivity|]. rewrite Esc. split; [exact Ep|].
      exists SLog, (Some (KLog 32)), (freqs_r sc). rewrite chord_length. split; [apply (arg_s_scales sc 32 256 Ep)|]. split; [exact Ef|]. split; [exact Hg|].
      split; [fold d; lra|exact Llen].
    - rewrite Esc. split.
      { intros r r' Hr Hr' Hne. destruct r as [|[|]], r' as [|[|]]; cbn; lia. }
      split; [intros r Hr; destruct r as [|[|]]; cbn; lia|]. split; [lia|]. split; [reflexivity|]. split; [left; reflexivity|]. split; [exact Hpos|].
      rewrite gamma_r. split; [lra|]. split.
      { unfold loud. cbn [Rsum lead_A]. rewrite !Rabs_right by lra. lra. }
      split; [lra|]. intros r Hr. rewrite Hlast.
      assert (Bd : 6 + d <= IZR (2 ^ 62) * d). { assert (1000 <= IZR (2 ^ 62)) by (apply IZR_le; lia). nra. }
      destruct r as [|[|]]; [| |lia]; rewrite ?F0, ?F1, ?G0, ?G1; split; lra. }
  assert (Hnear : forall r, (r < 2)%nat -> nearest_row out (tone_freq 1 (lead_k r) 256) (match r with O => r0 | _ => r1 end)).
  { intros r Hr; destruct r as [|[|]]; [rewrite F0; exact N0|rewrite F1; exact N1|lia]. }
  destruct (chord_squeezed _ _ _ _ _ _ _ _ _ _ _ _ _ _ _ Hrun _ Hnear) as (R1 & C1 & _).
  destruct (extract_ok par true (r_Tx out) (r_scales out) 2 2 15 true) as (o & Eo); [rewrite C1; lia|rewrite R1, Esc; lia|rewrite R1; reflexivity|intros _ i Hi; rewrite Esc; apply Hpos; rewrite R1, Esc in Hi; exact Hi|].
  exists sc, out, s', v, o, d, (fun r => match r with O => r0 | _ => r1 end).
  split; [exact Es|]. split; [exact Esc|]. split; [exact Hrun|]. split; [exact Ev|]. split; [rewrite Esc; exact Hv|]. split.
  { rewrite Esc. pose proof PI2_3_2. pose proof PI_4. intros r Hr. destruct r as [|[|]]; [| |lia]; cbn [lead_k]; rewrite I256.
    - replace (2 * PI * INR 8 / 256) with (PI / 16) by (rewrite (INR_IZR_INZ 8); cbn; field).
      assert (Ha : 0 <= nth 0 sc 0 * (PI / 16) <= 1) by (split; [apply Rmult_le_pos; lra|replace 1 with (1 * 1) by lra; apply Rmult_le_compat; lra]).
      assert (Hb : 6 <= nth (length sc - 1) sc 0 * (PI / 16)) by (replace 6 with (32 * (3 / 16)) by lra; apply Rmult_le_compat; lra).
      pose proof (pow_incr _ _ 3 Ha). assert (Hz : 0 <= 6) by lra. pose proof (pow_incr _ _ 3 (conj Hz Hb)). split; lra.
    - replace (2 * PI * INR 64 / 256) with (PI / 2) by (rewrite (INR_IZR_INZ 64); cbn; field).
      assert (Ha : 0 <= nth 0 sc 0 * (PI / 2) <= 2) by (split; [apply Rmult_le_pos; lra|replace 2 with (1 * 2) at 2 by lra; apply Rmult_le_compat; lra]).
      assert (Hb : 32 <= nth (length sc - 1) sc 0 * (PI / 2)) by (replace 32 with (32 * 1) by lra; apply Rmult_le_compat; lra).
      pose proof (pow_incr _ _ 3 Ha). assert (Hz : 0 <= 32) by lra. pose proof (pow_incr _ _ 3 (conj Hz Hb)). split; lra. }
  split; [exact Hnear|]. split; [exact Eo|]. split; [intros r Hr; destruct r as [|[|]]; lia|]. split; [lia|].
  pose proof ln2_high as L2h. split.
  - unfold slack. rewrite gamma_r, Esc.
    assert (B : 0 <= INR (length sc) * (ln 2 / 32) <= 225 * (1 / 32)).
    { assert (INR (length sc) <= 225) by (replace 225 with (INR 225) by (rewrite INR_IZR_INZ; reflexivity); apply le_INR; lia). pose proof (pos_INR (length sc)).
      split; [apply Rmult_le_pos; lra|apply Rmult_le_compat; lra]. }
    split; [apply Rmult_le_pos; lra|]. apply Rle_trans with (11 * (10 * (1 / 10 ^ 15)) * (225 * (1 / 32))); [apply Rmult_le_compat; lra|lra].
  - unfold lead_ratio, eps_of. assert (J : (INR (2 * 1) * (ln 2 / 32)) ^ 2 <= (1 / 20) ^ 2) by (apply pow_incr; cbn [INR Nat.mul Nat.add]; split; [apply Rmult_le_pos; lra|lra]).
    replace (INR (256 - 1)) with 255 by (rewrite INR_IZR_INZ; reflexivity).
    assert (1 / 10 < ln ((1 + EPS64) / ((9 / 10) ^ 2 + EPS64))); [|lra].
    apply exp_lt_inv. rewrite exp_ln by (apply Rdiv_lt_0_compat; lra).
    apply Rle_lt_trans with (10 / 9).
    + pose proof (exp_ineq1_le (- (1 / 10))) as X. rewrite exp_Ropp in X. pose proof (exp_pos (1 / 10)) as Y. apply (Rmult_le_reg_l (/ exp (1 / 10))); [apply Rinv_0_lt_compat; exact Y|]. rewrite Rinv_l by lra. lra.
    + assert (Hu : 0 < (9 / 10) ^ 2 + EPS64 <= 9 / 10 * (1 + EPS64) - 1 / 100) by lra. set (u := (9 / 10) ^ 2 + EPS64) in *. apply (Rmult_lt_reg_r u); [lra|]. replace ((1 + EPS64) / u * u) with (1 + EPS64) by (field; lra). lra.
Qed.

Theorem lead_recovered par : (forall F, sched_ok F par) -> exists sc out s' Css o xs,
  ssq_cwt serial_order false (gmw_wave gmw60) fam0 (arg_r sc) lead st0 = (Ok out, s') /\ adm_ssq gmw60 = Ok Css /\
  extract_ridges par true (r_Tx out) (r_scales out) 2 2 15 true = Ok o /\
  issq_cwt Css (r_Tx out) (Some (ridge_cc 256 2 o, Mat 256 2 (fun _ _ => 5%Z))) = Ok (Many xs) /\ nth 2 xs [] = repeat 0 256 /\
  forall j, (j < 256)%nat -> Rabs (nth j (nth 0 xs []) 0 - cos (2 * PI * INR j / 32)) <= 31 / 1000 /\
    Rabs (nth j (nth 1 xs []) 0 - 1 / 5 * cos (2 * PI * INR j / 4 + 1)) <= 7 / 1000.
Proof.
  intros Hpar. destruct (lead_run par Hpar) as (sc & out & s' & Css & o & d & rho & Es & Eo & H & HC & Hv & Hb & Hr & Er & Hin & Hsep & (Hs0 & Hs1) & Hgap).
  destruct (chord_ridges_recovered _ _ _ _ _ _ _ _ _ _ _ _ _ 32 _ Css rho 1 par true 2 15 o lead_ratio 5 H HC ltac:(lia) Hv ltac:(lia) Hb Hr) as (xs & E & L & Z & B).
  - left. reflexivity.
  - exact Er.
  - apply Hpar.
  - lra.
  - lia.
  - intros r Hr2. destruct (Hin r Hr2). lia.
  - intros r r' Hlt Hr'. replace r' with 1%nat by lia. replace r with 0%nat by lia. exact Hsep.
  - unfold lead_ratio. lra.
  - intros r Hr2. destruct r as [|[|]]; [| |lia]; cbn [lead_A]; rewrite Rabs_right by lra; lra.
  - intros r r' Hlt Hr'. replace r' with 1%nat by lia. replace r with 0%nat by lia. cbn [lead_A]. unfold lead_ratio. rewrite !Rabs_right by lra. cbn [INR Nat.mul Nat.add]. lra.
  - exact Hgap.
  - lia.
  - exists sc, out, s', Css, o, xs. split; [exact (proj1 (proj2 (proj2 (proj1 H))))|]. split; [exact HC|]. split; [exact Er|]. split; [exact E|]. split; [exact Z|].
    intros j Hj. assert (I256 : INR 256 = 256) by (rewrite INR_IZR_INZ; reflexivity). split.
    + destruct (B 0%nat ltac:(lia)) as (_ & B0). specialize (B0 j Hj). unfold tone in B0. rewrite nth_tab in B0 by exact Hj. cbn [lead_A lead_phi lead_k] in B0.
      rewrite I256, (INR_IZR_INZ 8), Rabs_R1 in B0. change (IZR (Z.of_nat 8)) with 8 in B0.
      replace (1 * cos (2 * PI * 8 * INR j / 256 + 0)) with (cos (2 * PI * INR j / 32)) in B0 by (rewrite Rmult_1_l; f_equal; field). lra.
    + destruct (B 1%nat ltac:(lia)) as (_ & B0). specialize (B0 j Hj). unfold tone in B0. rewrite nth_tab in B0 by exact Hj. cbn [lead_A lead_phi lead_k] in B0.
      rewrite I256, (INR_IZR_INZ 64), (Rabs_right (1 / 5)) in B0 by lra. change (IZR (Z.of_nat 64)) with 64 in B0.
      replace (2 * PI * 64 * INR j / 256) with (2 * PI * INR j / 4) in B0 by field. lra.
Qed.
