(** Concrete cases for the sampling rate. *)
From Coq Require Import Reals Lra Lia List ZifyBool ZifyNat.
Import ListNotations.
From Verif Require Import Py Round Parallel Cplx CplxProofs Padding PaddingProofs Buffer Freqs Squeeze SqueezeThms Scales ScaleThms SsqWitness Cwt CwtProofs CwtThms CwtTone
  CwtWitness CwtWitness2 SqueezeProofs SqueezeThms2 SqueezeThms3 Ssqueeze SsqueezeProofs IssqProofs SsqThms FreqRange CwtThms2 SsqCwt SsqCwtProofs SsqCwtInv SsqCwtWitness ToneWitness Wavelets WaveletProofs Admiss AdmissThms AdmissThms2 AdmissThms3
  RoundTrip GainBound RoundTripGain GmwRoundTrip DefaultRoundTrip RoundTripWitness ToneThms Separate OctaveSep ChordSep Reassign ChordSqueeze ChordRecover ChordWitness Transport RateThms.
Local Open Scope R_scope.

(** 'phase': [w] does not know the rate *)
Theorem phase_no_rate ord py f fam q c x s r s' r' s2 : 0 < c -> q_order q = None -> q_t q = None -> q_diff q = DPhase ->
  ssq_cwt ord py f fam q x s = (Ok r, s') -> ssq_cwt ord py f fam (set_rate c q) x s = (Ok r', s2) ->
  r_Wx r' = r_Wx r /\ r_w r' = r_w r.
Proof.
  intros Hc Hq Ht Hd E E'.
  destruct (ssq_cwt_inv _ _ _ _ _ _ _ _ _ Hq E) as (k & fs & sc & kind & W & dW & E1 & E2 & E3 & E4 & E5).
  destruct (ssq_cwt_inv _ _ _ _ (set_rate c q) _ _ _ _ Hq E') as (k' & fs' & sc' & kind' & W' & dW' & E1' & E2' & E3' & E4' & E5').
  destruct (step_inv _ _ _ _ _ _ _ _ _ _ _ E1 E5) as (w & T & _ & _ & F3 & _ & F5 & _ & F7).
  destruct (step_inv _ _ _ _ _ _ _ _ _ _ _ E1' E5') as (w' & T' & _ & _ & F3' & _ & F5' & _ & F7').
  change (check_diff (set_rate c q)) with (check_diff q) in E1'. rewrite E1 in E1'. injection E1' as <-.
  change (ssq_scales (q_f64s q) (q_scales q) (q_kind q) (ssq_nv q) (length x) = Ok (sc', kind')) in E3'. rewrite E3 in E3'. injection E3' as <- <-.
  assert (Hf : 0 < fs /\ fs' = c * fs).
  { unfold process_fs_and_t in *. cbn [set_rate q_fs q_t] in E2'. rewrite Ht in *. destruct (q_fs q) as [f0|].
    - destruct (Rle_dec f0 0); [discriminate|]. injection E2 as ->. destruct (Rle_dec (c * fs) 0); [nra|]. injection E2' as <-. split; lra.
    - injection E2 as <-. destruct (Rle_dec c 0); [lra|]. injection E2' as <-. split; lra. }
  destruct Hf as [Hf ->].
  destruct (cwt_rate _ _ _ c _ _ _ _ q (set_rate c q) _ _ _ _ _ _ _ Hc Hf eq_refl eq_refl eq_refl E4) as (dW1 & E4'' & Hdw).
  change (numeric (set_rate c q)) with (numeric q) in E4'. cbn [set_rate q_scales q_f64s q_pat] in E4'. rewrite E4'' in E4'. injection E4' as <- _ _.
  rewrite F3, F3', F5, F5'. cbn [set_rate q_diff q_get_w q_f64] in *. change (ssq_gamma (set_rate c q)) with (ssq_gamma q) in F7'.
  change (squeezed (set_rate c q)) with (squeezed q) in F7'.
  split; [reflexivity|]. destruct (q_get_w q).
  - destruct F7 as (w0 & -> & F7). destruct F7' as (w1 & -> & F7'). rewrite Hd in *. unfold phase_transform in F7, F7'.
    destruct (phase_phase (ssq_gamma q) W) as [u|]; [|discriminate]. cbn [bind] in F7, F7'. injection F7 as _ <-. injection F7' as _ <-. reflexivity.
  - destruct F7 as [-> _]. destruct F7' as [-> _]. reflexivity.
Qed.

(** a quarter of a cycle per sample at 2 Hz and at [2 c] Hz *)
Definition q_ph : ssq_args :=
  SQ (ScArr [1; 2; 4]) SLog None true true true (Some 2) None FNone None SqSum MRMaximal DPhase None (Some (1 / 10)) true None (PatInt 0) true None true.
Theorem phase_rate_case c : 0 < c -> exists W dW dW' s' W1 w,
  cwt false true pos_wave (inner q_ph 2 (ScArr [1; 2; 4]) true true false (PatInt 0)) (tone 1 0 2 8) st0 = (Ok (W, [1; 2; 4], Some dW), s') /\
  cwt false true pos_wave (inner q_ph (c * 2) (ScArr [1; 2; 4]) true true false (PatInt 0)) (tone 1 0 2 8) st0 = (Ok (W, [1; 2; 4], Some dW'), s') /\
  phase_transform true W dW 8 (1 / 2) (1 / 10) DPhase 4 = Ok (W1, w) /\
  phase_transform true W dW' 8 (1 / (c * 2)) (1 / 10) DPhase 4 = Ok (W1, w) /\
  el w 1 3 = Fin (1 / 4).
Proof.
  intros Hc. destruct phase_units as (W & dW & s' & w & E & Ew & H).
  destruct (cwt_rate false true pos_wave c 2 [1; 2; 4] true true q_ph q_ph false (PatInt 0) (tone 1 0 2 8) st0 W (Some dW) s' Hc ltac:(lra)
              eq_refl eq_refl eq_refl E) as (dW' & E' & Hdw).
  destruct dW' as [dW'|]; [|contradiction]. exists W, dW, dW', s', W, w.
  split; [exact E|]. split; [exact E'|]. unfold phase_transform. rewrite Ew. cbn [bind]. split; [reflexivity|]. split; [reflexivity|].
  destruct (H 1%nat 3%nat ltac:(lia) ltac:(lia)) as [_ H1]. exact H1.
Qed.

(** frequencies given as an array: what counts as linear depends on the unit *)
Lemma linear_unit : infer_scaletype true (map (Rmult (1 / 1000000000000000)) [1; 2; 6]) = Ok KLinear /\
  infer_scaletype true [1; 2; 6] <> Ok KLinear.
Proof.
  assert (Hl : 1 / 3 <= ln 6 - ln 2 - (ln 2 - ln 1)).
  { rewrite ln_1. replace 6 with (3 * 2) by lra. rewrite ln_mult by lra. 
    assert (H : 1 + (- ln (3 / 2)) <= exp (- ln (3 / 2))).
    { destruct (Req_dec (- ln (3 / 2)) 0) as [->|E]; [rewrite exp_0; lra|left; apply exp_ineq1; exact E]. }
    rewrite exp_Ropp, exp_ln, ln_div in H by lra. lra. }
  set (e := 1 / 1000000000000000). assert (He : 0 < e) by (unfold e; lra).
  split.
  - unfold infer_scaletype. cbn [length map Nat.ltb Nat.leb diff].
    rewrite !(ln_mult e) by lra.
    rewrite (Rltb'_false (mean _)); [|unfold mean; cbn [lsum fold_right length INR]; rewrite Rabs_pos_eq by lra; lra].
    rewrite Bool.andb_false_r. rewrite Rltb'_true; [reflexivity|].
    unfold mean; cbn [lsum fold_right length INR]. rewrite Rabs_pos_eq by lra. unfold e. lra.
  - unfold infer_scaletype. cbn [length map Nat.ltb Nat.leb diff].
    rewrite (Rltb'_false (mean _)); [|unfold mean; cbn [lsum fold_right length INR]; rewrite Rabs_pos_eq by lra; lra].
    rewrite Bool.andb_false_r. rewrite (Rltb'_false (mean _)); [|unfold mean; cbn [lsum fold_right length INR]; rewrite Rabs_pos_eq by lra; lra].
    destruct (negb _); [intros K; discriminate K|].
    destruct (logscale_transition_idx _ _) as [[i|]|]; cbn [bind]; [|intros K; discriminate K|intros K; discriminate K].
    destruct (nv_from_scales _ _); cbn [bind]; intros K; discriminate K.
Qed.

(** the chord of ChordWitness.v in other units *)
Theorem rate_case c : 0 < c -> exists sc r s' r', process_scales_arr true sc = Ok (KLog 32) /\
  ssq_cwt serial_order false (gmw_wave gmw60) fam0 (arg_s sc) two st0 = (Ok r, s') /\
  ssq_cwt serial_order false (gmw_wave gmw60) fam0 (set_rate c (arg_s sc)) two st0 = (Ok r', s') /\
  meq (r_Tx r') (r_Tx r) /\ r_freqs r' = map (Rmult c) (r_freqs r) /\ nth 0 (r_freqs r') 0 = c / 2.
Proof.
  intros Hc. destruct two_scales as (sc & Em & HL & _).
  pose proof (log_scales_inferred true 1 64 32 (fun _ => Ok None) 5%Z sc ltac:(lra) ltac:(lia) Em ltac:(lia)) as Ep.
  destruct (two_ssq sc Ep) as (r & s' & E & Esc & Efr). exists sc, r, s'.
  destruct (ssq_cols_plain _ _ _ _ (arg_s sc) _ _ _ _ serial_order_valid I eq_refl ltac:(discriminate) E) as (Hn & _).
  destruct (ssq_cwt_rate serial_order false (gmw_wave gmw60) fam0 (arg_s sc) c two st0 r s' serial_order_valid I Hc)
    as (r' & E' & H1 & _ & _ & H2 & _).
  - rewrite Hn. unfold two. rewrite chord_length. lia.
  - reflexivity.
  - reflexivity.
  - discriminate.
  - exact I.
  - exact I.
  - left. unfold asks_log. cbn [arg_s q_freqs q_scales q_f64s]. exists (KLog 32). split; [exact (infer_of _ _ _ Ep)|reflexivity].
  - exact E.
  - exists r'. split; [exact Ep|]. split; [exact E|]. split; [exact E'|]. split; [exact H1|]. split; [exact H2|].
    rewrite H2, Efr. assert (Hl : length (freqs_t sc) = length sc) by (unfold freqs_t; apply tab_length).
    rewrite (nth_indep _ 0 (c * 0)) by (rewrite map_length, rev_length; lia). rewrite map_nth, rev_nth by lia.
    rewrite Hl. unfold freqs_t. rewrite log_freqs_nth by (lra || lia). replace (length sc - 1)%nat with (length sc - 1)%nat by lia.
    replace (ln (1 / 32) + INR (length sc - 1) * ((ln (1 / 2) - ln (1 / 32)) / INR (length sc - 1))) with (ln (1 / 2))
      by (field; apply not_0_INR; lia).
    rewrite exp_ln by lra. lra.
Qed.
