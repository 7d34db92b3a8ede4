(** [ssq_cwt] under a change of sampling rate, scaling, shifting and reversing of the signal. *)
From Coq Require Import Reals Lra Lia List.
Import ListNotations.
From Verif Require Import Py Round Parallel Cplx CplxProofs Padding Freqs Stft Squeeze SqueezeProofs BinProofs
  SqueezeThms SqueezeThms2 SqueezeThms3 Scales Ssqueeze SsqueezeProofs FreqRange SsqWitness Cwt CwtProofs CwtThms CwtTone
  CwtWitness CwtWitness2 Pointwise SsqCwt DiffProofs SsqCwtProofs SsqCwtInv SsqCwtWitness ToneWitness Wavelets Admiss RoundTripWitness DefaultRoundTrip AdmissThms3 
  GmwRoundTrip ChordSqueeze ChordWitness Transport RateThms RateWitness SymmThms SymmInst SymmWitness.
Local Open Scope R_scope.

(** * C112: the sampling rate only relabels frequencies *)

(** missing: difftype 'phase' and arrays of frequencies taken to be linear (refuted below), higher orders *)
Theorem C112_rate_partial ord py f fam q c x s r s' : valid_order ord -> shape_keeping (q_sq q) -> 0 < c -> (0 < ncols (r_Tx r))%nat ->
  q_order q = None ->
  q_t q = None -> q_diff q <> DPhase -> mr_positive (q_mr q) (r_scales r) -> log_array (q_f64v q) (q_freqs q) ->
  asks_log q \/ steps_resolved c (r_freqs r) ->
  ssq_cwt ord py f fam q x s = (Ok r, s') ->
  exists r', ssq_cwt ord py f fam (set_rate c q) x s = (Ok r', s') /\
    meq (r_Tx r') (r_Tx r) /\ r_Wx r' = r_Wx r /\ r_scales r' = r_scales r /\
    r_freqs r' = map (Rmult c) (r_freqs r) /\ cscaled c (r_dWx r) (r_dWx r') /\ opt_rel (wscaled c) (r_w r) (r_w r').
Proof. exact (ssq_cwt_rate ord py f fam q c x s r s'). Qed.
Print Assumptions C112_rate_partial.

(** and of [cwt], at any rate, scales and options *)
Theorem C112_cwt py inst f c fs sc f64s deriv q q' rp pat x s W dW s' : 0 < c -> 0 < fs ->
  q_pad q' = q_pad q -> q_vec q' = q_vec q -> q_cache q' = q_cache q ->
  cwt py inst f (inner q fs (ScArr sc) f64s deriv rp pat) x s = (Ok (W, sc, dW), s') ->
  exists dW', cwt py inst f (inner q' (c * fs) (ScArr sc) f64s deriv rp pat) x s = (Ok (W, sc, dW'), s') /\
    opt_rel (cscaled c) dW dW'.
Proof. exact (cwt_rate py inst f c fs sc f64s deriv q q' rp pat x s W dW s'). Qed.
Print Assumptions C112_cwt.

(** difftype 'phase': the frequencies found are the same at 2 Hz and at 4 Hz *)
Theorem C112_phase_refuted : exists W dW dW' s' W1 w,
  cwt false true pos_wave (inner q_ph 2 (ScArr [1; 2; 4]) true true false (PatInt 0)) (tone 1 0 2 8) st0 = (Ok (W, [1; 2; 4], Some dW), s') /\
  cwt false true pos_wave (inner q_ph (2 * 2) (ScArr [1; 2; 4]) true true false (PatInt 0)) (tone 1 0 2 8) st0 = (Ok (W, [1; 2; 4], Some dW'), s') /\
  phase_transform true W dW 8 (1 / 2) (1 / 10) DPhase 4 = Ok (W1, w) /\
  phase_transform true W dW' 8 (1 / (2 * 2)) (1 / 10) DPhase 4 = Ok (W1, w) /\
  el w 1 3 = Fin (1 / 4).
Proof. exact (phase_rate_case 2 ltac:(lra)). Qed.
Print Assumptions C112_phase_refuted.
(** an array of frequencies in a larger unit is taken to be linear *)
Theorem C112_unit_refuted : exists c v, 0 < c /\ infer_scaletype true (map (Rmult c) v) = Ok KLinear /\ infer_scaletype true v <> Ok KLinear.
Proof. exists (1 / 1000000000000000), [1; 2; 6]. split; [lra|]. exact linear_unit. Qed.
Print Assumptions C112_unit_refuted.

(** the chord of C107 in other units *)
Example C112_case c : 0 < c -> exists sc r s' r', process_scales_arr true sc = Ok (KLog 32) /\
  ssq_cwt serial_order false (gmw_wave gmw60) fam0 (arg_s sc) two st0 = (Ok r, s') /\
  ssq_cwt serial_order false (gmw_wave gmw60) fam0 (set_rate c (arg_s sc)) two st0 = (Ok r', s') /\
  meq (r_Tx r') (r_Tx r) /\ r_freqs r' = map (Rmult c) (r_freqs r) /\ nth 0 (r_freqs r') 0 = c / 2.
Proof. exact (rate_case c). Qed.

(** * C113: scaling the signal scales the transform *)

(** the threshold scaled alike; missing: the same threshold (refuted below), difftype 'phase' and 'numeric', higher orders *)
Theorem C113_scale_partial ord py f fam q al x s r s' : valid_order ord -> q_order q = None -> q_diff q = DTrig ->
  q_sq q = SqSum \/ q_sq q = SqAbs -> al <> 0 ->
  ssq_cwt ord py f fam q x s = (Ok r, s') ->
  exists r', ssq_cwt ord py f fam (set_gamma (Some (Rabs al * ssq_gamma q)) q) (map (Rmult al) x) s = (Ok r', s') /\
    r_freqs r' = r_freqs r /\ r_scales r' = r_scales r /\
    related (scaled (match q_sq q with SqAbs => Rabs al | _ => al end)) (fun _ => True) (fun j => j) (r_Tx r) (r_Tx r') /\
    related (scaled al) (fun _ => True) (fun j => j) (r_Wx r) (r_Wx r') /\
    related (scaled al) (fun _ => True) (fun j => j) (r_dWx r) (r_dWx r') /\
    opt_rel (related (fun w => w) (fun _ => True) (fun j => j)) (r_w r) (r_w r').
Proof. exact (ssq_cwt_scale ord py f fam q al x s r s'). Qed.
Print Assumptions C113_scale_partial.

(** whether [ssq_cwt] succeeds does not depend on the threshold *)
Theorem C113_threshold_partial ord py f fam q g x s r s' : valid_order ord -> q_order q = None -> q_diff q = DTrig -> q_sq q = SqSum ->
  0 < ssq_gamma q -> 0 < g -> ssq_cwt ord py f fam q x s = (Ok r, s') ->
  exists r', ssq_cwt ord py f fam (set_gamma (Some g) q) x s = (Ok r', s') /\ r_scales r' = r_scales r.
Proof. exact (gamma_total ord py f fam q g x s r s'). Qed.
Print Assumptions C113_threshold_partial.

(** under the default threshold a quiet tone vanishes *)
Theorem C113_default_gamma_refuted : exists r s1 r' s2 row,
  ssq_cwt serial_order false pos_wave fam0 arg_default (tone 1 0 2 8) st0 = (Ok r, s1) /\
  ssq_cwt serial_order false pos_wave fam0 arg_default (map (Rmult EPS64) (tone 1 0 2 8)) st0 = (Ok r', s2) /\
  (row < 3)%nat /\ el (r_Tx r) row 0 <> C0 /\ nrows (r_Tx r') = 3%nat /\ ncols (r_Tx r') = 8%nat /\
  forall i j, (i < 3)%nat -> (j < 8)%nat -> el (r_Tx r') i j = C0.
Proof. exact quiet_vanishes. Qed.
Print Assumptions C113_default_gamma_refuted.

Example C113_case : exists r s' r', let q := arg_w DTrig (Some PReflect) (1 / 2) false None in
  ssq_cwt serial_order false flat_wave fam0 q [1; 2; 3; 1; 5] st0 = (Ok r, s') /\
  ssq_cwt serial_order false flat_wave fam0 (set_gamma (Some (3 / 2)) q) [-3; -6; -9; -3; -15] st0 = (Ok r', s') /\
  forall i j, (i < nrows (r_Tx r))%nat -> (j < ncols (r_Tx r))%nat -> el (r_Tx r') i j = Cmul (RtoC (-3)) (el (r_Tx r) i j).
Proof. exact scale_case. Qed.

(** * C114: shifting and reversing *)

(** unpadded, rotated: the columns are; missing: padding that depends on the samples (refuted below), difftype 'phase' and 'numeric', higher orders *)
Theorem C114_roll_partial ord py f fam q k x x' s r s' : valid_order ord -> q_order q = None -> q_diff q = DTrig ->
  q_sq q = SqSum \/ q_sq q = SqAbs -> q_pad q = None -> (k <= length x)%nat -> rolled k x x' ->
  ssq_cwt ord py f fam q x s = (Ok r, s') ->
  exists r', ssq_cwt ord py f fam q x' s = (Ok r', s') /\ r_freqs r' = r_freqs r /\ r_scales r' = r_scales r /\
    let by_k {X} := @related X X (fun z => z) (fun _ => True) (fun j => ((j + k) mod length x)%nat) in
    by_k (r_Tx r) (r_Tx r') /\ by_k (r_Wx r) (r_Wx r') /\ by_k (r_dWx r) (r_dWx r') /\ opt_rel by_k (r_w r) (r_w r').
Proof. exact (ssq_cwt_roll ord py f fam q k x x' s r s'). Qed.
Print Assumptions C114_roll_partial.

(** padtype 'zero': a delay *)
Theorem C114_delay_partial ord py f fam q y k s r s' : valid_order ord -> q_order q = None -> q_diff q = DTrig ->
  q_sq q = SqSum \/ q_sq q = SqAbs -> q_pad q = Some PZero ->
  ssq_cwt ord py f fam q (y ++ repeat 0 k) s = (Ok r, s') ->
  exists r', ssq_cwt ord py f fam q (repeat 0 k ++ y) s = (Ok r', s') /\ r_freqs r' = r_freqs r /\ r_scales r' = r_scales r /\
    let by_k {X} := @related X X (fun z => z) (fun j => (k <= j)%nat) (fun j => (j - k)%nat) in
    by_k (r_Tx r) (r_Tx r') /\ by_k (r_Wx r) (r_Wx r') /\ by_k (r_dWx r) (r_dWx r') /\ opt_rel by_k (r_w r) (r_w r').
Proof. exact (ssq_cwt_delay ord py f fam q y k s r s'). Qed.
Print Assumptions C114_delay_partial.

(** reversed in time, real spectrum: the columns are reversed and conjugated; unpadded, padded with zeros, or of even length *)
Theorem C114_reverse_partial ord py f fam q x s r s' : valid_order ord -> q_order q = None -> q_diff q = DTrig ->
  q_sq q = SqSum \/ q_sq q = SqAbs -> real_valued f -> s_cache s = None \/ use_cache true (q_vec q) (q_cache q) = false ->
  q_pad q = None \/ q_pad q = Some PZero \/ Nat.even (length x) = true ->
  ssq_cwt ord py f fam q x s = (Ok r, s') ->
  exists r', ssq_cwt ord py f fam q (rev x) s = (Ok r', s') /\ r_freqs r' = r_freqs r /\ r_scales r' = r_scales r /\
    let mirror {X} (phi : X -> X) := @related X X phi (fun _ => True) (fun j => (length x - 1 - j)%nat) in
    mirror Cconj (r_Tx r) (r_Tx r') /\ mirror Cconj (r_Wx r) (r_Wx r') /\
    mirror (fun d => Copp (Cconj d)) (r_dWx r) (r_dWx r') /\ opt_rel (mirror (fun w => w)) (r_w r) (r_w r').
Proof. exact (ssq_cwt_rev ord py f fam q x s r s'). Qed.
Print Assumptions C114_reverse_partial.

(** padtype 'reflect', seven samples: a delay and a reversal change every coefficient of the averaging window *)
Theorem C114_reflect_refuted : exists r s1 r' s2 r2 s3, let q := arg_w DTrig (Some PReflect) (1 / 2) false None in
  ssq_cwt serial_order false dc_wave fam0 q late st0 = (Ok r, s1) /\
  ssq_cwt serial_order false dc_wave fam0 q [0; 0; 1; 0; 0; 0; 0] st0 = (Ok r', s2) /\
  ssq_cwt serial_order false dc_wave fam0 q (rev late) st0 = (Ok r2, s3) /\
  (forall j, (j < 7)%nat -> el (r_Wx r) 0 j = RtoC (1 / 8)) /\
  (forall j, (j < 7)%nat -> el (r_Wx r') 0 j = RtoC (3 / 16)) /\
  (forall j, (j < 7)%nat -> el (r_Wx r2) 0 j = RtoC (3 / 16)).
Proof. exact reflect_not_shift. Qed.
Print Assumptions C114_reflect_refuted.

Example C114_roll_case : exists r s' r', let q := arg_w DTrig None (1 / 2) false None in
  ssq_cwt serial_order false flat_wave fam0 q [1; 2; 3] st0 = (Ok r, s') /\
  ssq_cwt serial_order false flat_wave fam0 q [2; 3; 1] st0 = (Ok r', s') /\
  el (r_Wx r') 0 2 = el (r_Wx r) 0 0 /\ ncols (r_Wx r) = 3%nat /\ nrows (r_Wx r) = 3%nat.
Proof. exact roll_case. Qed.

Example C114_delay_case : exists r s' r', let q := arg_w DTrig (Some PZero) (1 / 2) false None in
  ssq_cwt serial_order false flat_wave fam0 q [1; 2; 3; 0; 0] st0 = (Ok r, s') /\
  ssq_cwt serial_order false flat_wave fam0 q [0; 0; 1; 2; 3] st0 = (Ok r', s') /\
  forall i j, (i < nrows (r_Tx r))%nat -> (2 <= j < ncols (r_Tx r))%nat -> el (r_Tx r') i j = el (r_Tx r) i (j - 2).
Proof. exact delay_case. Qed.

Example C114_reverse_case pt : exists r s' r', let q := arg_w DTrig (Some pt) (1 / 2) false None in
  ssq_cwt serial_order false flat_wave fam0 q [1; 2; 3; 5] st0 = (Ok r, s') /\
  ssq_cwt serial_order false flat_wave fam0 q [5; 3; 2; 1] st0 = (Ok r', s') /\
  forall i j, (i < nrows (r_Tx r))%nat -> (j < ncols (r_Tx r))%nat -> el (r_Tx r') i j = Cconj (el (r_Tx r) i (3 - j)).
Proof. exact (rev_case pt). Qed.
