(** Sharper forms, sixth round. *)
From Coq Require Import Reals List Arith ZArith Bool.
Import ListNotations.
From Verif Require Import Py Round Parallel Cplx Padding Buffer Freqs Stft Squeeze Scales Ssqueeze Cwt SsqCwt Preserve PreserveThms PreserveThms2 SsqCwtWitness PreserveWit Tighten6.
Local Open Scope R_scope.

(** * C166: which settings preserve the transform *)

(** true, or None with NumPy arrays: Sx is what stft computed; false, or None with tensors: what the squeezing function left *)
Theorem C166_stft_asked ord x a fs t s q p tn v m m' T S F B w D : view_of v m ->
  ssq_stft_mem ord x a fs t s q p tn v m = Ok (m', T, S, F, B, w, D) ->
  exists Sx dSx, own_stft x a fs t = Ok (Sx, dSx) /\ (asked p tn -> mat_at m' S = Sx) /\
    (~ asked p tn -> mat_at m' S = match q with MFun u => u_left u Sx | _ => Sx end).
Proof. exact (stft_asked ord x a fs t s q p tn v m m' T S F B w D). Qed.
Print Assumptions C166_stft_asked.

(** the same for ssq_cwt *)
Theorem C166_cwt_asked ord q sq p tn fs difforder N v W dW sc f64s kind m m' T A F sc' w D :
  view_of v m -> held_vec m sc -> q_diff q <> DNumeric ->
  squeeze_step_mem ord q sq (keeps p tn) fs difforder N v W dW sc f64s kind m = Ok (m', T, A, F, sc', w, D) ->
  (asked p tn -> mat_at m' A = W) /\ (~ asked p tn -> mat_at m' A = match sq with MFun u => u_left u W | _ => W end).
Proof. exact (cwt_asked ord q sq p tn fs difforder N v W dW sc f64s kind m m' T A F sc' w D). Qed.
Print Assumptions C166_cwt_asked.

(** a doubling function and the default setting: Wx comes back as computed from NumPy arrays, doubled from tensors *)
Example C166_asked_case tn : exists m' T A F w D,
  squeeze_step_mem serial_order (arg_w DTrig None 0 false None) doubling (keeps None tn) 1 4 2 (Some (VR 1 false)) W32 dW32 (VR 0 false) true SLog held
    = Ok (m', T, A, F, VR 0 false, w, D) /\
  el (mat_at m' A) 0 0 = (if tn then RtoC 2 else RtoC 1).
Proof. destruct (step_doubling (keeps None tn)) as (m' & T & A & F & w & D & H1 & H2 & _). exists m', T, A, F, w, D. split; [exact H1|]. rewrite H2. destruct tn; reflexivity. Qed.
