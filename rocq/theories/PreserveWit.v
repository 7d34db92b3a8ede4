(** Two calls: one sample through [ssq_stft]; three scales through [ssq_cwt] with a squeezing
    function that doubles its argument in place. *)
From Coq Require Import Reals Lra List Arith ZArith Lia Bool.
Import ListNotations.
From Verif Require Import Py Round Parallel Cplx CplxProofs Padding Buffer Freqs Stft Squeeze SqueezeProofs Scales Ssqueeze SsqueezeProofs SsqWitness
  Cwt SsqCwt SsqCwtWitness StftToneWitness NoiseRidgeWit NoiseSsqWit Preserve PreserveThms PreserveThms2.
Local Open Scope R_scope.

Definition a24 : stft_args := SA 1 (WArray (hann 24)) (Some 24%Z) None 1 true PWrap false.
Definition s24 : ssq_stft_opts := SS None SqSum (Some (1 / 100)) false false true.
Definition empty : mem := Mem [] [].

(** the frequencies of the two outputs are one array: filling [Sfs] with zeros fills
    [ssq_freqs] *)
Lemma stft_shared_case p tn : exists m' T S F B w D,
  ssq_stft_mem serial_order shaken a24 (Some 24) None s24 MSum p tn None empty = Ok (m', T, S, F, B, w, D) /\
  vec_at m' B = make_Sfs 13 24 /\ vec_at (write_vec m' B (repeat 0 13)) F <> vec_at m' F.
Proof.
  destruct (noisy_ssq_case serial_order false serial_order_valid) as (Tx & Sx & f & E & _).
  pose proof (stft_mem_ok serial_order shaken a24 (Some 24) None s24 MSum p tn None empty I) as H.
  change (seen s24 MSum None empty) with s24 in H. unfold a24, s24 in H. rewrite E in H.
  destruct H as (dSx & m' & T & S & F & B & w & D & _ & G & _ & _ & _ & HF & HB & _ & _ & _ & _ & _ & _ & Hv & HhF & HhB).
  exists m', T, S, F, B, w, D. split; [exact G|]. split; [exact HB|].
  rewrite write_seen by (assumption || congruence). intros Hc.
  assert (Hz : vec_at m' F = repeat 0 13).
  { rewrite <- Hc. destruct (Bool.eqb _ _); [reflexivity|]. cbn. reflexivity. }
  assert (Hz2 : vec_at m' B = repeat 0 13).
  { unfold vec_at in *. rewrite Hv in Hz. destruct (v_rev F), (v_rev B); auto.
    - rewrite <- (rev_involutive (nth _ _ _)), Hz. reflexivity.
    - rewrite Hz. reflexivity. }
  rewrite HB in Hz2. apply (f_equal (fun l => nth 12 l 0)) in Hz2.
  unfold make_Sfs, linspace in Hz2. rewrite nth_tab in Hz2 by lia. cbn [Nat.eqb Nat.sub nth repeat] in Hz2.
  assert (0 < INR 12) by (apply lt_0_INR; lia).
  apply (Rmult_eq_compat_r 1) in Hz2. field_simplify in Hz2; lra.
Qed.

(** three scales, two times; the caller holds the scales and the frequencies *)
Definition W32 : mat C := Mat 3 2 (fun i j => RtoC (INR (S i))).
Definition dW32 : mat C := Mat 3 2 (fun i j => (0, INR (S j))).
Definition double (W : mat C) : mat C := Mat (nrows W) (ncols W) (fun i j => Cmul (RtoC 2) (el W i j)).
(** [def f(W): W *= 2; return W] *)
Definition doubling : msq := MFun (UF double None).
Definition held : mem := Mem [] [[1; 2; 4]; [1; 2; 3]].

Lemma step_doubling keep : exists m' T A F w D,
  squeeze_step_mem serial_order (arg_w DTrig None 0 false None) doubling keep 1 4 2 (Some (VR 1 false)) W32 dW32 (VR 0 false) true SLog held
    = Ok (m', T, A, F, VR 0 false, w, D) /\
  el (mat_at m' A) 0 0 = (if keep then RtoC 1 else RtoC 2) /\
  vec_at m' (VR 1 false) = [1; 2; 3] /\ vec_at (write_vec m' F [0; 0; 0]) (VR 1 false) = [0; 0; 0].
Proof.
  assert (Hd : q_diff (arg_w DTrig None 0 false None) <> DNumeric) by discriminate.
  assert (Hv : view_of (Some (VR 1 false)) held) by (cbn; unfold held_vec; cbn; lia).
  assert (Hs : held_vec held (VR 0 false)) by (unfold held_vec; cbn; lia).
  pose proof (step_mem_ok serial_order (arg_w DTrig None 0 false None) doubling keep 1 4 2 (Some (VR 1 false)) W32 dW32 (VR 0 false) true SLog held Hv Hs Hd) as H.
  destruct (squeeze_ok 0 (double W32) None (Some dW32) ltac:(cbn; lia) ltac:(discriminate)) as (Tx & ET & _).
  assert (E : exists r, squeeze_step serial_order (seen_cwt (arg_w DTrig None 0 false None) doubling (Some (VR 1 false)) held) 1 4 2 W32 dW32
     (vec_at held (VR 0 false)) true SLog = Ok r).
  { unfold squeeze_step. cbn [seen_cwt arg_w q_get_w bind]. 
    match goal with |- context [ssqueeze ?o ?p W32 ?w ?d] => assert (Es : ssqueeze o p W32 w d = Ok (Tx, [3; 2; 1])) end.
    { rewrite <- ET. reflexivity. }
    rewrite Es. cbn [bind]. eauto. }
  destruct E as (r & E). rewrite E in H.
  destruct H as (m' & T & A & F & w & D & G & _ & _ & _ & _ & _ & _ & HA & HI & _ & _ & _ & _ & Hat & HhF).
  exists m', T, A, F, w, D. split; [exact G|].
  split.
  { rewrite HA. destruct keep; cbn [left_by doubling u_left double W32 el]; apply C_eq; cbn; ring. }
  split; [rewrite (proj2 HI) by (unfold held_vec; cbn; lia); reflexivity|].
  rewrite write_seen by (auto; cbn; congruence). destruct (Bool.eqb _ _); reflexivity.
Qed.
