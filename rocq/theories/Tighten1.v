(** Sharper forms found by editing the model (seeded/LOG.jsonl). *)
From Coq Require Import Reals Lra Lia List.
Import ListNotations.
From Verif Require Import Py Round Parallel Cplx Padding Buffer Freqs Stft Squeeze Scales Ssqueeze Cwt SsqCwt
  SqueezeProofs SqueezeThms SqueezeThms3 SsqWitness CwtWitness CwtWitness2 CwtProofs CwtThms SsqCwtInv SsqCwtProofs SsqCwtWitness Experimental ExperimentalThms ExperimentalWitness.
Local Open Scope R_scope.

(** no [maprange]: [ssq_cwt]'s own default, 'peak' *)
Theorem px_default_mr ord py f fam q x s r s' fs sc kind pk : q_order q = None -> q_diff q <> DNumeric -> q_mr q = MRCenter pk ->
  ssq_cwt ord py f fam q x s = (Ok r, s') ->
  process_fs_and_t (q_fs q) (q_t q) (length x) = Ok fs ->
  ssq_scales (q_f64s q) (q_scales q) (q_kind q) (ssq_nv q) (length x) = Ok (sc, kind) ->
  forall Sfs rp pt N n1 k gd, rp = false \/ N <> None ->
  phase_ssqueeze ord (PX TCwt (ssq_freqs q kind) (Some sc) Sfs fs None (q_sq q) None pk (q_gamma q)
      (q_flip q) rp pt N n1 (Some (q_diff q)) k (q_get_w q) gd (q_f64 q) (q_f64 q) (q_f64v q))
    (r_Wx r) (Some (r_dWx r)) =
  Ok (PXO (r_Tx r) (r_Wx r) (r_freqs r) (Some sc) None (r_w r)
        (if q_get_w q && negb gd then None else Some (r_dWx r))).
Proof.
  intros Ho Hd Hm H Hfs Hsc Sfs rp pt N n1 k gd Hr.
  rewrite <- (like_ssq_cwt ord py f fam q x s r s' fs sc kind Ho Hd H Hfs Hsc Sfs pk rp pt N n1 k gd Hr). rewrite Hm. reflexivity.
Qed.

(** linear frequencies over the wavelet's range: with 'maximal' they would start at 1/3 *)
Definition arg_peak : ssq_args :=
  SQ (ScArr [1; 2; 4]) SLog None true true true None None (FKind SLin) None SqSum (MRCenter (fun s => 1 / s)) DTrig None
     (Some (1 / 2)) true None (PatInt 0) true None false.
Lemma px_default_mr_case : exists r s' p,
  ssq_cwt serial_order false flat_wave fam0 arg_peak [1; 1; 1] st0 = (Ok r, s') /\
  nth 2 (r_freqs r) 0 = 1 / 4 /\
  phase_ssqueeze serial_order (PX TCwt (FKind SLin) (Some [1; 2; 4]) None 1 None SqSum None (fun s => 1 / s) (Some (1 / 2))
      true false None None None (Some DTrig) None false false true true true) (r_Wx r) (Some (r_dWx r)) = Ok p /\
  p_Tx p = r_Tx r /\ p_freqs p = r_freqs r.
Proof.
  destruct (cwt_c_ok flat_wave None false [1; 1; 1] [1; 1; 1] 0 ltac:(discriminate) eq_refl) as (W & D & s1 & E).
  destruct (cwt_ncols _ _ _ _ _ _ _ _ _ _ E) as (Hr & _). cbn [length] in Hr.
  set (v := linspace (1 / 4) (1 / 1) 3).
  set (o := SO TCwt (FKind SLin) (Some [1; 2; 4]) true true 1 SqSum (MRCenter (fun s => 1 / s)) (Some (1 / 2)) true None).
  assert (exists Tx, ssqueeze serial_order o W None (Some D) = Ok (Tx, rev v)) as (Tx & ET).
  { assert (Eg : exists g, get_grid true false v = Ok g) by (eexists; reflexivity). destruct Eg as (g & Eg).
    pose proof (const_arr_scalar (nrows W) (ln 2 / 1) ltac:(lia)) as Ea.
    unfold ssqueeze, o. cbn [o_gamma]. unfold ssq_freqs_of. cbn [o_tr o_scales o_f64s o_freqs o_f64v o_mr]. rewrite scales124. cbn [bind].
    unfold associated_frequencies. cbn [ssq_freqrange last nth length bind is_log]. fold v.
    unfold ssqueeze_one. cbn [o_gamma o_sq squeeze_input bind ssq_const o_tr o_f64v o_flip o_Sfs].
    destruct (fast_sum serial_order true W D v (CScalar (ln 2 / 1)) false true (1 / 2) None (Mat (nrows W) (ncols W) (fun _ _ => C0)) _ _ serial_order_valid Ea Eg (or_introl eq_refl)) as (Tx & E1 & _).
    rewrite E1. cbn [bind]. eexists. reflexivity. }
  assert (ES : ssq_cwt serial_order false flat_wave fam0 arg_peak [1; 1; 1] st0 = (Ok (SQO Tx W (rev v) [1; 2; 4] None D), s1)).
  { unfold ssq_cwt. unfold mbind at 1, lift at 1. change (check_diff arg_peak) with (Ok 4%Z : res Z). cbv iota. unfold mbind at 1, lift at 1.
    change (process_fs_and_t (q_fs arg_peak) (q_t arg_peak) (length [1; 1; 1])) with (Ok 1 : res R).
    change (q_order arg_peak) with (@None ho_order). cbv iota. unfold mbind at 1, lift at 1.
    change (ssq_scales (q_f64s arg_peak) (q_scales arg_peak) (q_kind arg_peak) (ssq_nv arg_peak) (length [1; 1; 1])) with
      (ssq_scales true (ScArr [1; 2; 4]) SLog (ssq_nv (arg_w DTrig None (1 / 2) false None)) 3). rewrite scales_w. unfold mbind at 1.
    match goal with |- context [inner ?a ?b ?c ?d ?e ?f ?g] => change (inner a b c d e f g) with (arg_c None false) end.
    rewrite E. cbv iota. unfold lift. f_equal. unfold squeeze_step. cbn [arg_peak q_get_w bind ssq_freqs q_freqs q_f64 q_f64v q_sq q_mr q_flip q_diff]. unfold ssq_gamma. cbn [q_gamma].
    match goal with |- context [ssqueeze ?a ?b ?c ?d ?e] => change (ssqueeze a b c d e) with (ssqueeze serial_order o W None (Some D)) end.
    rewrite ET. cbn [bind crop opt_map]. reflexivity. }
  eexists _, _, _. split; [exact ES|]. split.
  { cbn [r_freqs]. unfold v, linspace. cbn [tab seq map rev app nth]. cbn. lra. }
  split.
  - exact (px_default_mr serial_order false flat_wave fam0 arg_peak [1; 1; 1] st0 _ _ 1 [1; 2; 4] SLog (fun s => 1 / s) eq_refl ltac:(discriminate) eq_refl ES eq_refl
      (scales_w DTrig None (1 / 2) false None _) None false None None None None false (or_introl eq_refl)).
  - split; reflexivity.
Qed.
