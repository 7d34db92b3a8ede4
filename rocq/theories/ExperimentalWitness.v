(** Concrete runs of [phase_ssqueeze]. *)
From Coq Require Import Reals Lra ZifyBool ZifyNat.
From Verif Require Import Py Round Parallel Cplx CplxProofs Padding PaddingProofs Buffer Freqs Stft Squeeze SqueezeProofs
  SqueezeThms SqueezeThms2 SqueezeThms3 Scales Ssqueeze SsqueezeProofs IssqProofs SsqThms FreqRange SsqWitness Cwt CwtProofs CwtThms
  CwtTone CwtThms2 CwtWitness CwtWitness2 Pointwise PointwiseProofs SsqCwt DiffProofs SsqCwtProofs SsqCwtInv SsqCwtWitness
  Experimental ExperimentalThms.
Local Open Scope R_scope.

(** [phase_ssqueeze] on what [ssq_cwt] returned for the constant signal *)
Lemma px_const d gw : d <> DNumeric -> (d <> DTrig -> gw = true) -> exists r s' p,
  ssq_cwt serial_order false flat_wave fam0 (arg_w d None (1 / 2) gw None) [1; 1; 1] st0 = (Ok r, s') /\
  phase_ssqueeze serial_order (PX TCwt (FArray [1; 2; 3]) (Some [1; 2; 4]) None 1 None SqSum (Some MRMaximal) (fun s => 1 / s) (Some (1 / 2))
      true false None None None (Some d) None gw false true true true) (r_Wx r) (Some (r_dWx r)) = Ok p /\
  p_Tx p = r_Tx r /\ p_freqs p = r_freqs r /\ p_w p = r_w r.
Proof.
  intros Hd Hg. destruct (const_run d gw Hd Hg) as (r & s' & E & _). exists r, s'.
  eexists. split; [exact E|]. split.
  - exact (like_ssq_cwt serial_order false flat_wave fam0 (arg_w d None (1 / 2) gw None) [1; 1; 1] st0 r s' 1 [1; 2; 4] SLog eq_refl Hd E eq_refl (scales_w d None (1 / 2) gw None _)
      None (fun s => 1 / s) false None None None None false (or_introl eq_refl)).
  - cbn [p_Tx p_freqs p_w]. auto.
Qed.

(** and for the STFT *)
Definition sa4 : stft_args := SA 1 (WArray [1; 2; 2; 1]) (Some 4%Z) None 1 true PZero false.
Lemma px_stft_case gw : exists Tx Sx f Sfs W dW p,
  ssq_stft serial_order [1] sa4 (Some 2) None (SS None SqSum (Some (1 / 2)) false gw true) = Ok (Tx, Sx, f, Sfs) /\
  stft [1] (SA 2 (WArray [1; 2; 2; 1]) (Some 4%Z) None 1 true PZero false) = Ok (W, dW) /\
  phase_ssqueeze serial_order (PX TStft (FArray Sfs) None None 2 None SqSum None (fun s => 1 / s) (Some (1 / 2)) false false None None None None
      None gw false true true true) W (Some dW) = Ok p /\
  p_Tx p = Tx.
Proof.
  destruct (issq_case gw) as (Tx & Sx & f & Sfs & E & _). cbv zeta in E.
  assert (Ef : process_fs_and_t (Some 2) None (length [1]) = Ok 2).
  { unfold process_fs_and_t. destruct (Rle_dec 2 0); [lra|reflexivity]. }
  pose proof E as E0. unfold ssq_stft in E0. rewrite Ef in E0. cbn [bind s_freqs] in E0.
  destruct (stft _ _) as [[W dW]|] eqn:Es in E0; [|discriminate]. clear E0.
  exists Tx, Sx, f, Sfs, W, dW.
  destruct (like_ssq_stft serial_order [1] sa4 (Some 2) None (SS None SqSum (Some (1 / 2)) false gw true) Tx Sx f Sfs W dW 2 ltac:(lra) E Ef Es
    None None (fun s => 1 / s) None None None false) as (p & P & Q & _).
  exists p. split; [exact E|]. split; [exact Es|]. split; [exact P|exact Q].
Qed.

(** ** [rpadded=True] with [N=2] on four padded columns: four columns come back *)
Definition w34 : mat C := Mat 3 4 (fun i j => RtoC (INR (i + j))).
Definition px_rp : px_args :=
  PX TCwt (FArray [1; 2; 3]) (Some [1; 2; 4]) None 1 None SqSum (Some MRMaximal) (fun s => 1 / s) (Some (1 / 2)) true true None
     (Some 2%Z) None (Some DTrig) None false true true true true.
Lemma rpadded_case : exists p, phase_ssqueeze serial_order px_rp w34 (Some w34) = Ok p /\
  ncols (p_Tx p) = 4%nat /\ ncols (p_Wx p) = 4%nat.
Proof.
  destruct (squeeze_ok (1 / 2) w34 None (Some w34)) as (Tx & E & H1 & H2); [cbn; lia|discriminate|].
  eexists. split.
  - unfold phase_ssqueeze. rewrite px_transform_plain; [|reflexivity|right; discriminate|reflexivity].
    cbn [bind]. cbn [px_rp x_fs x_t]. rewrite fs_1. cbn [bind].
    cbn [w34 nrows ncols Nat.ltb Nat.leb orb bind]. fold w34.
    unfold wit in E. unfold px_gamma. cbn [px_rp x_tr x_freqs x_scales x_f64s x_f64v x_sq x_mr x_flip x_gamma].
    rewrite E. cbn [bind]. reflexivity.
  - cbn [p_Tx p_Wx]. split; [exact H2|reflexivity].
Qed.

(** ** [t] has no effect with [ssq_freqs] an array, whatever rate it stands for *)
Definition with_t (a : px_args) (t : option (list R)) : px_args :=
  PX (x_tr a) (x_freqs a) (x_scales a) (x_Sfs a) (x_fs a) t (x_sq a) (x_mr a) (x_peak a) (x_gamma a) (x_flip a)
     (x_rpadded a) (x_pad a) (x_N a) (x_n1 a) (x_diff a) (x_difforder a) (x_get_w a) (x_get_dWx a) (x_f64 a) (x_f64s a) (x_f64v a).
Lemma ssqueeze_fs ord tr v sc f1 f2 fs fs' sq mr g fl Sf W w d :
  ssqueeze ord (SO tr (FArray v) sc f1 f2 fs sq mr g fl Sf) W w d = ssqueeze ord (SO tr (FArray v) sc f1 f2 fs' sq mr g fl Sf) W w d.
Proof. reflexivity. Qed.
Theorem t_no_effect ord a t W dW v rate p : x_tr a = TStft -> x_freqs a = FArray v -> 0 < x_fs a ->
  process_fs_and_t (Some (x_fs a)) (Some t) (ncols W) = Ok rate ->
  phase_ssqueeze ord (with_t a None) W dW = Ok p <-> phase_ssqueeze ord (with_t a (Some t)) W dW = Ok p.
Proof.
  intros Ht Hv Hf Hr. unfold phase_ssqueeze, px_transform. cbn [with_t x_tr x_rpadded x_N]. rewrite Ht.
  destruct dW as [dW|]; [|reflexivity]. destruct (x_rpadded a && _); [reflexivity|].
  unfold px_stft. cbn [bind with_t x_fs x_t x_get_w x_get_dWx]. 
  assert (E : process_fs_and_t (Some (x_fs a)) None (ncols W) = Ok (x_fs a)).
  { unfold process_fs_and_t. destruct (Rle_dec (x_fs a) 0); [lra|reflexivity]. }
  rewrite E, Hr. cbn [bind x_freqs with_t x_scales x_f64s x_f64v x_sq x_mr x_peak x_flip]. rewrite Hv.
  rewrite (ssqueeze_fs _ _ _ _ _ _ rate (x_fs a)). reflexivity.
Qed.
Lemma two_seconds : process_fs_and_t (Some 1) (Some [0; 2; 4]) 3 = Ok (1 / (2 - 0)).
Proof.
  unfold process_fs_and_t. cbn [length Nat.eqb negb Nat.ltb Nat.leb].
  assert (E : mean (map Rabs (diff (diff [0; 2; 4]))) = 0).
  { cbn. replace (4 - 2 - (2 - 0)) with 0 by ring. rewrite Rabs_R0. unfold mean, lsum. cbn. field. }
  rewrite E, Rltb'_true by lra. cbn [negb nth]. destruct (Req_EM_T 2 0); [lra|reflexivity].
Qed.
