(** A concrete chord: 1 and 8 periods in 32 samples, the default wavelet, 32 voices from scale 1 to 64. *)
From Coq Require Import Reals Lra Lia List ZifyBool ZifyNat.
Import ListNotations.
From Verif Require Import Py Round Parallel Cplx CplxProofs Padding PaddingProofs Buffer Freqs Squeeze SqueezeThms Scales ScaleThms SsqWitness Cwt CwtProofs CwtThms CwtTone
  CwtWitness CwtWitness2 SqueezeProofs SqueezeThms2 SqueezeThms3 Ssqueeze SsqueezeProofs IssqProofs SsqThms FreqRange CwtThms2 SsqCwt SsqCwtProofs SsqCwtInv SsqCwtWitness ToneWitness Wavelets WaveletProofs Admiss AdmissThms AdmissThms2 AdmissThms3 Integral IntegralProofs
  RoundTrip GainBound RoundTripGain GmwRoundTrip DefaultRoundTrip RoundTripWitness ToneThms Separate OctaveSep ChordSep Reassign ChordSqueeze ChordRecover.
Local Open Scope R_scope.

Definition two_A (r : nat) : R := match r with O => 1 | _ => 1 / 2 end.
Definition two_phi (r : nat) : R := match r with O => 0 | _ => 1 end.
Definition two_k (r : nat) : nat := match r with O => 1 | _ => 8 end.
Definition two : list R := chord 2 two_A two_phi two_k 32.

Lemma two_scales : exists sc, make_scales 1 64 32 SLog (fun _ => Ok None) 5%Z = Ok sc /\ (161 <= length sc <= 225)%nat /\
  0 < nth 0 sc 0 <= 1 /\ 32 <= nth (length sc - 1) sc 0.
Proof.
  assert (Hm : 0 < 1 < 64) by lra.
  destruct (log_scales 1 64 32 Hm ltac:(lia) (fun _ => Ok None) 5%Z) as (sc & E & Hne & Hg & (H0 & H0') & (Hl & Hl')).
  assert (Hlen : (0 < length sc)%nat) by (destruct sc; [congruence|cbn; lia]).
  assert (El : last sc 0 = nth (length sc - 1) sc 0).
  { rewrite (app_removelast_last 0 Hne) at 2 3. rewrite app_length, app_nth2; cbn [length]; [|lia].
    replace (length (removelast sc) + 1 - 1 - length (removelast sc))%nat with 0%nat by lia. reflexivity. }
  assert (Hpow : forall r, 0 <= r <= 1 -> 1 <= Rpower 2 r <= 2).
  { intros r Hr. split; [rewrite <- (Rpower_O 2) by lra|rewrite <- (Rpower_1 2) at 2 by lra]; apply Rle_Rpower; lra. }
  destruct (Hpow (1 / 32) ltac:(lra)) as (P1 & P1'). destruct (Hpow (2 / 32) ltac:(lra)) as (P2 & P2').
  assert (H0'' : 1 / 2 <= nth 0 sc 0).
  { left. eapply Rle_lt_trans; [|exact H0]. set (y := Rpower 2 (1 / 32)) in *. apply (Rmult_le_reg_r y); [lra|]. replace (1 / y * y) with 1 by (field; lra). lra. }
  assert (H4 : 32 <= last sc 0).
  { left. eapply Rle_lt_trans; [|exact Hl]. set (y := Rpower 2 (2 / 32)) in *. apply (Rmult_le_reg_r y); [lra|]. replace (64 / y * y) with 64 by (field; lra). lra. }
  exists sc. split; [exact E|]. rewrite <- El. split; [|split; [lra|exact H4]].
  rewrite El, (Hg (length sc - 1)%nat) in H4, Hl' by lia. set (L := length sc) in *.
  assert (P5 : Rpower 2 5 = 32) by (replace 5 with (INR 5) by (cbn; lra); rewrite Rpower_pow by lra; lra).
  assert (P7 : Rpower 2 7 = 128) by (replace 7 with (INR 7) by (cbn; lra); rewrite Rpower_pow by lra; lra).
  set (y := Rpower 2 (INR (L - 1) / 32)) in *.
  split.
  - destruct (le_lt_dec 161 L) as [|K]; [assumption|exfalso].
    assert (y < 32).
    { unfold y. apply Rlt_le_trans with (Rpower 2 5); [|lra]. apply Rpower_lt; [lra|]. assert (INR (L - 1) < INR 160) by (apply lt_INR; lia). replace (INR 160) with 160 in H by (rewrite INR_IZR_INZ; reflexivity). lra. }
    assert (0 < y) by apply exp_pos. nra.
  - destruct (le_lt_dec L 225) as [|K]; [assumption|exfalso].
    assert (128 <= y).
    { unfold y. rewrite <- P7. apply Rle_Rpower; [lra|]. assert (INR 224 <= INR (L - 1)) by (apply le_INR; lia). replace (INR 224) with 224 in H by (rewrite INR_IZR_INZ; reflexivity). lra. }
    nra.
Qed.

Lemma two_cwt sc : process_scales_arr true sc = Ok (KLog 32) -> exists W dW s',
  cwt false true (gmw_wave gmw60) (arg_d sc) two st0 = (Ok (W, sc, Some dW), s').
Proof.
  intros Hs. assert (Hx : length two = 32%nat) by apply chord_length. set (x := two) in *.
  assert (Hp : pad_input None x = Ok (x, 0%Z)).
  { unfold pad_input. destruct x eqn:E; [discriminate Hx|reflexivity]. }
  assert (P : pre (gmw_wave gmw60) (arg_d sc) x 1 x 0 sc).
  { unfold pre. cbn [arg_d a_fs a_t a_l1 a_pad a_scales a_f64s]. split; [apply fs_1|].
    split; [reflexivity|]. split; [exact Hp|]. unfold process_scales. rewrite Hs. reflexivity. }
  pose proof (cwt_run false true (gmw_wave gmw60) (arg_d sc) x st0 1 x 0 sc P eq_refl eq_refl) as E. cbv zeta in E.
  change (a_deriv (arg_d sc)) with true in E. cbv iota in E. do 3 eexists. exact E.
Qed.

Definition freqs_t (sc : list R) : list R := log_freqs (1 / 32) (1 / 2) (length sc).
Definition step_t (sc : list R) : R := (ln (1 / 2) - ln (1 / 32)) / INR (length sc - 1) / ln 2.
Lemma two_grid sc nv : process_scales_arr true sc = Ok (KLog nv) ->
  ssq_freqs_of (ssq_o (arg_s sc) 1 sc SLog true) 32 = Ok (Some (KLog nv), freqs_t sc, true) /\
  freq_grid true (freqs_t sc) true (reach_log (freqs_t sc) 0) /\ geometric (freqs_t sc) (step_t sc).
Proof.
  intros Hs.
  assert (Hr : ssq_freqrange MRMaximal (1 / 1) 32 sc = (1 / 32, 1 / 2)).
  { unfold ssq_freqrange. f_equal; [replace (INR 32) with 32 by (rewrite INR_IZR_INZ; reflexivity)|]; lra. }
  destruct (default_log_grid (ssq_o (arg_s sc) 1 sc SLog true) sc nv 32 (1 / 32) (1 / 2)
              eq_refl eq_refl Hs (or_intror eq_refl) Hr ltac:(lra) ltac:(lra)) as (E & G).
  split; [exact E|]. split; [exact G|].
  apply (log_freqs_geometric (1 / 32) (1 / 2) (length sc)); [lra|lra|]. apply (process_log_len _ _ _ Hs).
Qed.
Lemma two_step sc : (161 <= length sc <= 225)%nat -> 1 / 56 <= step_t sc <= 1 / 40.
Proof.
  intros HL. unfold step_t. pose proof ln2_pos.
  assert (E : ln (1 / 2) - ln (1 / 32) = 4 * ln 2).
  { replace (1 / 32) with (1 / 2 * (1 / 2) * (1 / 2) * (1 / 2) * (1 / 2)) by lra. rewrite !ln_mult by lra. replace (1 / 2) with (/ 2) by lra. rewrite ln_Rinv by lra. ring. }
  rewrite E. assert (H1 : INR 160 <= INR (length sc - 1) <= INR 224) by (split; apply le_INR; lia). rewrite (INR_IZR_INZ 160), (INR_IZR_INZ 224) in H1. cbn in H1.
  set (m := INR (length sc - 1)) in *. replace (4 * ln 2 / m / ln 2) with (4 / m) by (field; lra).
  split; apply (Rmult_le_reg_r m); try lra; unfold Rdiv; rewrite ?Rmult_assoc, ?Rinv_l by lra; lra.
Qed.

Lemma two_ssq sc : process_scales_arr true sc = Ok (KLog 32) -> exists r s',
  ssq_cwt serial_order false (gmw_wave gmw60) fam0 (arg_s sc) two st0 = (Ok r, s') /\ r_scales r = sc /\ r_freqs r = rev (freqs_t sc).
Proof.
  intros Hs. assert (Hx : length two = 32%nat) by apply chord_length. set (q := arg_s sc). set (x := two) in *.
  destruct (two_cwt sc Hs) as (W & dW & s' & Ec). fold x in Ec.
  destruct (cwt_ncols _ _ _ _ _ _ _ _ _ _ Ec) as (Hr & Hn). cbn [arg_d a_rpadded a_pad negb andb] in Hn.
  assert (Hcol : ncols W = 32%nat) by lia. pose proof (process_log_len _ _ _ Hs) as Hlen.
  destruct (two_grid sc 32 Hs) as (Ef & _ & Hg). fold q in Ef.
  assert (exists r, squeeze_step serial_order q 1 4 32 W dW sc true SLog = Ok r /\ r_freqs r = rev (freqs_t sc)) as (r & Es & Efr).
  { pose proof (grid_log true (freqs_t sc) _ Hg) as Eg.
    pose proof (const_arr_scalar (nrows W) (ln 2 / 32) ltac:(lia)) as Ea.
    unfold squeeze_step. change (q_get_w q) with false. cbv iota zeta. cbn [bind].
    set (o := SO _ _ _ _ _ _ _ _ _ _ _).
    change o with (ssq_o q 1 sc SLog true) in *. unfold ssqueeze.
    set (out := Mat (nrows W) (ncols W) (fun _ _ => C0)).
    cbn [bind]. rewrite Hcol. rewrite Ef. cbn [bind].
    unfold ssqueeze_one. cbn [ssq_const ssq_o o_tr o_sq q arg_s q_sq squeeze_input bind o_f64v q_f64v o_flip q_flip o_gamma o_Sfs].
    fold out.
    destruct (fast_sum serial_order true W dW (freqs_t sc) (CScalar (ln 2 / 32)) true true (ssq_gamma q) None out _ _ serial_order_valid Ea Eg (or_introl eq_refl)) as (Tx & E & _).
    match goal with |- context [ssqueeze_fast ?a ?b ?c ?d ?e ?f ?g ?h ?i ?j ?k] =>
      replace (ssqueeze_fast a b c d e f g h i j k) with (Ok Tx) by (symmetry; exact E) end.
    cbn [bind]. eexists. split; [reflexivity|]. reflexivity. }
  assert (Hk : check_diff q = Ok 4%Z) by reflexivity.
  exists r, s'. split; [|split].
  - unfold ssq_cwt. unfold mbind at 1, lift at 1. rewrite Hk. unfold mbind at 1, lift at 1.
    replace (process_fs_and_t (q_fs q) (q_t q) (length x)) with (Ok 1 : res R) by (rewrite Hx; reflexivity).
    change (q_order q) with (@None ho_order). cbv iota. unfold mbind at 1, lift at 1.
    change (ssq_scales (q_f64s q) (q_scales q) (q_kind q) (ssq_nv q) (length x)) with (ssq_scales true (ScArr sc) SLog None (length x)).
    rewrite (arg_s_scales sc 32 (length x) Hs). cbv iota.
    unfold mbind at 1.
    change (inner q 1 (ScArr sc) (match q_scales q with ScArr _ => q_f64s q | ScAuto _ => true end) true
       (match q_diff q with DNumeric => true | _ => false end) (q_pat q)) with (arg_d sc).
    rewrite Ec. cbv iota. unfold lift. f_equal. rewrite Hx. exact Es.
  - destruct (step_inv _ _ _ _ _ _ _ _ _ _ _ Hk Es) as (w & Tx & _ & _ & _ & E3 & _). exact E3.
  - exact Efr.
Qed.

(** the hypotheses of [chord_recovered], with bands of three rows *)
Theorem two_run : exists sc out s' Css d (rho : nat -> nat) cc cw,
  make_scales 1 64 32 SLog (fun _ => Ok None) 5%Z = Ok sc /\ r_scales out = sc /\
  chord_run serial_order false fam0 (arg_s sc) 2 two_A two_phi two_k 32 st0 out s' 1 32 d /\ adm_ssq gmw60 = Ok Css /\ voices (r_scales out) 32 /\
  (forall r, (r < 2)%nat -> (nth 0 (r_scales out) 0 * (2 * PI * INR (two_k r) / INR 32)) ^ 3 <= 10 /\
     40 <= (nth (length (r_scales out) - 1) (r_scales out) 0 * (2 * PI * INR (two_k r) / INR 32)) ^ 3) /\
  (forall r, (r < 2)%nat -> nearest_row out (tone_freq 1 (two_k r) 32) (rho r)) /\
  nrows cc = 32%nat /\ ncols cc = 2%nat /\ nrows cw = 32%nat /\ ncols cw = 2%nat /\
  (forall j r, (j < 32)%nat -> (r < 2)%nat -> (0 <= el cc j r)%Z /\ (Z.abs (el cc j r - Z.of_nat (rho r)) + 1 <= el cw j r)%Z) /\
  (forall j r r', (j < 32)%nat -> (r < 2)%nat -> (r' < 2)%nat -> r' <> r -> (el cw j r + 1 < Z.abs (el cc j r - Z.of_nat (rho r')))%Z).
Proof.
  destruct two_scales as (sc & Es & HL & H0 & H1).
  pose proof (log_scales_inferred true 1 64 32 (fun _ => Ok None) 5%Z sc ltac:(lra) ltac:(lia) Es ltac:(lia)) as Ep.
  destruct (two_ssq sc Ep) as (out & s' & E & Esc & Efr). destruct default_adm_ssq as (v & Ev & _).
  pose proof (library_voices 1 64 32 (fun _ => Ok None) 5%Z sc ltac:(lra) ltac:(lia) Es) as Hv.
  pose proof (two_step sc HL) as Hd. destruct (two_grid sc 32 Ep) as (Ef & _ & Hg).
  assert (Llen : length (freqs_t sc) = length sc) by (unfold freqs_t; apply tab_length).
  assert (I32 : INR 32 = 32) by (rewrite INR_IZR_INZ; reflexivity).
  assert (F0 : tone_freq 1 (two_k 0) 32 = 1 / 32) by (unfold tone_freq, two_k; rewrite I32; cbn [INR]; lra).
  assert (F1 : tone_freq 1 (two_k 1) 32 = 1 / 4) by (unfold tone_freq, two_k; rewrite I32, (INR_IZR_INZ 8); cbn; lra).
  pose proof ln2_pos as L2.
  assert (G : forall i, (i < length sc)%nat -> log2 (nth i (r_freqs out) 0) = - 5 + INR (length sc - 1 - i) * step_t sc).
  { intros i Hi. rewrite Efr, rev_nth by lia. rewrite Llen. destruct Hg as (_ & Hg). fold (lg (freqs_t sc) (length sc - S i)). rewrite Hg by lia.
    replace (length sc - S i)%nat with (length sc - 1 - i)%nat by lia. f_equal. unfold lg, freqs_t. rewrite log_freqs_nth by (lra || lia).
    unfold log2. rewrite ln_exp. cbn [INR]. replace (1 / 32) with (1 / 2 * (1 / 2) * (1 / 2) * (1 / 2) * (1 / 2)) at 1 by lra. rewrite !ln_mult by lra.
    replace (1 / 2) with (/ 2) by lra. rewrite ln_Rinv by lra. field. repeat split; solve [lra|apply not_0_INR; lia]. }
  assert (Lr : length (r_freqs out) = length (r_scales out)) by (rewrite Efr, rev_length, Esc; exact Llen).
  assert (Hlast : log2 (nth (length sc - 1) (r_freqs out) 0) = - 5) by (rewrite G by lia; rewrite Nat.sub_diag; cbn [INR]; ring).
  assert (G0 : log2 (1 / 32) = - 5).
  { unfold log2. replace (1 / 32) with (1 / 2 * (1 / 2) * (1 / 2) * (1 / 2) * (1 / 2)) by lra. rewrite !ln_mult by lra. replace (1 / 2) with (/ 2) by lra. rewrite ln_Rinv by lra. field. lra. }
  assert (G1 : log2 (1 / 4) = - 2).
  { unfold log2. replace (1 / 4) with (1 / 2 * (1 / 2)) by lra. rewrite !ln_mult by lra. replace (1 / 2) with (/ 2) by lra. rewrite ln_Rinv by lra. field. lra. }
  destruct (nearest_exists out (1 / 32) ltac:(rewrite Esc; lia) Lr) as (r0 & N0). destruct (nearest_exists out (1 / 4) ltac:(rewrite Esc; lia) Lr) as (r1 & N1).
  set (d := step_t sc) in *.
  assert (Hr0 : r0 = (length sc - 1)%nat).
  { destruct N0 as (A0 & _ & A1). rewrite Esc in A0, A1. specialize (A1 (length sc - 1)%nat ltac:(lia)). rewrite Hlast, G0, (G r0 A0) in A1.
    replace (-5 - -5) with 0 in A1 by ring. rewrite Rabs_R0 in A1. pose proof (Rabs_pos (-5 - (-5 + INR (length sc - 1 - r0) * d))) as A2.
    destruct (Nat.eq_dec r0 (length sc - 1)) as [|K]; [assumption|exfalso].
    assert (1 <= INR (length sc - 1 - r0)) by (change 1 with (INR 1); apply le_INR; lia).
    rewrite Rabs_left in A1 by nra. nra. }
  assert (Hr1 : (r1 < length sc - 3)%nat).
  { destruct N1 as (A0 & _ & A1). rewrite Esc in A0, A1. destruct (le_lt_dec (length sc - 3) r1) as [K|]; [exfalso|assumption].
    specialize (A1 (length sc - 5)%nat ltac:(lia)). rewrite G1, !G in A1 by lia.
    replace (length sc - 1 - (length sc - 5))%nat with 4%nat in A1 by lia. cbn [INR] in A1.
    assert (INR (length sc - 1 - r1) <= 2) by (change 2 with (INR 2); apply le_INR; lia). pose proof (pos_INR (length sc - 1 - r1)).
    rewrite Rabs_right in A1 by nra. rewrite Rabs_right in A1 by nra. nra. }
  exists sc, out, s', v, d, (fun r => match r with O => r0 | _ => r1 end),
    (Mat 32 2 (fun _ r => match r with O => Z.of_nat r0 | _ => Z.of_nat r1 end)), (Mat 32 2 (fun _ _ => 1%Z)).
  split; [exact Es|]. split; [exact Esc|].
  assert (Hpos : forall i, (i < length sc)%nat -> 0 < nth i sc 0).
  { intros i Hi. rewrite (voices_nth sc 32 i Hv Hi). apply Rmult_lt_0_compat; [lra|apply exp_pos]. }
  split.
  { unfold chord_run. split.
    - unfold log_run. split; [exact serial_order_valid|]. split; [repeat split|]. split; [exact E|]. split; [rewrite chord_length; reflexivity|]. rewrite Esc. split; [exact Ep|].
      exists SLog, (Some (KLog 32)), (freqs_t sc). rewrite chord_length. split; [apply (arg_s_scales sc 32 32 Ep)|]. split; [exact Ef|]. split; [exact Hg|].
      split; [unfold EPS64; fold d; lra|exact Llen].
    - rewrite Esc. split.
      { intros r r' Hr Hr' Hne. destruct r as [|[|]], r' as [|[|]]; cbn; lia. }
      split; [intros r Hr; destruct r as [|[|]]; cbn; lia|]. split; [lia|]. split; [reflexivity|]. split; [left; reflexivity|]. split; [exact Hpos|].
      assert (Eg : ssq_gamma (arg_s sc) = 1 / 1000) by reflexivity. rewrite Eg. split; [lra|]. split.
      { unfold loud. cbn [Rsum two_A]. rewrite !Rabs_right by lra. lra. }
      split; [lra|]. intros r Hr. rewrite Hlast.
      assert (B62 : 64 <= IZR (2 ^ 62)) by (apply IZR_le; lia).
      assert (2 + d <= IZR (2 ^ 62) * (1 / 56) -> 3 + d <= IZR (2 ^ 62) * d). { intros _. assert (1000 <= IZR (2 ^ 62)) by (apply IZR_le; lia). nra. }
      assert (Bd : 3 + d <= IZR (2 ^ 62) * d). { assert (1000 <= IZR (2 ^ 62)) by (apply IZR_le; lia). nra. }
      destruct r as [|[|]]; [| |lia]; rewrite ?F0, ?F1, ?G0, ?G1; split; lra. }
  split; [exact Ev|]. rewrite Esc. split; [exact Hv|]. split.
  { pose proof PI2_3_2. pose proof PI_4. intros r Hr. destruct r as [|[|]]; [| |lia]; cbn [two_k]; rewrite I32.
    - replace (2 * PI * INR 1 / 32) with (PI / 16) by (cbn; field).
      assert (Ha : 0 <= nth 0 sc 0 * (PI / 16) <= 1) by (split; [apply Rmult_le_pos; lra|replace 1 with (1 * 1) by lra; apply Rmult_le_compat; lra]).
      assert (Hb : 6 <= nth (length sc - 1) sc 0 * (PI / 16)) by (replace 6 with (32 * (3 / 16)) by lra; apply Rmult_le_compat; lra).
      pose proof (pow_incr _ _ 3 Ha). assert (Hz : 0 <= 6) by lra. pose proof (pow_incr _ _ 3 (conj Hz Hb)). split; lra.
    - replace (2 * PI * INR 8 / 32) with (PI / 2) by (rewrite (INR_IZR_INZ 8); cbn; field).
      assert (Ha : 0 <= nth 0 sc 0 * (PI / 2) <= 2) by (split; [apply Rmult_le_pos; lra|replace 2 with (1 * 2) at 2 by lra; apply Rmult_le_compat; lra]).
      assert (Hb : 32 <= nth (length sc - 1) sc 0 * (PI / 2)) by (replace 32 with (32 * 1) by lra; apply Rmult_le_compat; lra).
      pose proof (pow_incr _ _ 3 Ha). assert (Hz : 0 <= 32) by lra. pose proof (pow_incr _ _ 3 (conj Hz Hb)). split; lra. }
  split; [intros r Hr; destruct r as [|[|]]; [rewrite F0; exact N0|rewrite F1; exact N1|lia]|].
  split; [reflexivity|]. split; [reflexivity|]. split; [reflexivity|]. split; [reflexivity|].
  split.
  - intros j r _ Hr. destruct r as [|[|]]; cbn [el]; lia.
  - intros j r r' _ Hr Hr' Hne. destruct r as [|[|]], r' as [|[|]]; cbn [el]; try lia.
Qed.
