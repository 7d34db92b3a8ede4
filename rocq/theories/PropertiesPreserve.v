(** [preserve_transform], and which returned arrays share memory. *)
From Coq Require Import Reals List Arith ZArith Bool.
Import ListNotations.
From Verif Require Import Py Round Parallel Cplx Padding Buffer Freqs Stft Squeeze Scales Ssqueeze SsqCwtWitness StftToneWitness NoiseSsqWit
  Cwt SsqCwt Preserve PreserveThms PreserveThms2 PreserveWit.
Local Open Scope R_scope.

(** * C166: [preserve_transform] decides about Wx (Sx) and nothing else *)

(** any two settings, devices, give the same Tx, ssq_freqs, Sfs and dSx, also with functions that work in place *)
Theorem C166_stft_same ord x a fs t s q p1 t1 p2 t2 v m m1 T1 S1 F1 B1 w1 D1 : view_of v m ->
  ssq_stft_mem ord x a fs t s q p1 t1 v m = Ok (m1, T1, S1, F1, B1, w1, D1) ->
  exists m2 T2 S2 F2 B2 w2 D2, ssq_stft_mem ord x a fs t s q p2 t2 v m = Ok (m2, T2, S2, F2, B2, w2, D2) /\
    mat_at m2 T2 = mat_at m1 T1 /\ vec_at m2 F2 = vec_at m1 F1 /\ vec_at m2 B2 = vec_at m1 B1 /\ mat_at m2 D2 = mat_at m1 D1.
Proof. exact (stft_preserve ord x a fs t s q p1 t1 p2 t2 v m m1 T1 S1 F1 B1 w1 D1). Qed.
Print Assumptions C166_stft_same.

(** they are the values of [ssq_stft]; Sx is [stft]'s if preserved, else what the squeezing function left *)
Theorem C166_stft_values ord x a fs t s q p tn v m m' T S F B w D : view_of v m ->
  ssq_stft_mem ord x a fs t s q p tn v m = Ok (m', T, S, F, B, w, D) ->
  exists Sx dSx, own_stft x a fs t = Ok (Sx, dSx) /\
    ssq_stft ord x a fs t (seen s q v m) = Ok (mat_at m' T, Sx, vec_at m' F, vec_at m' B) /\
    mat_at m' D = dSx /\
    (keeps p tn = true -> mat_at m' S = Sx) /\
    (keeps p tn = false -> mat_at m' S = match q with MFun u => u_left u Sx | _ => Sx end).
Proof. exact (stft_values ord x a fs t s q p tn v m m' T S F B w D). Qed.
Print Assumptions C166_stft_values.

(** the same for [ssq_cwt], from the transform on *)
Theorem C166_cwt_same ord q sq k1 k2 fs difforder N v W dW sc f64s kind m m1 T1 A1 F1 sc1 w1 D1 :
  view_of v m -> held_vec m sc -> q_diff q <> DNumeric ->
  squeeze_step_mem ord q sq k1 fs difforder N v W dW sc f64s kind m = Ok (m1, T1, A1, F1, sc1, w1, D1) ->
  exists m2 T2 A2 F2 D2, squeeze_step_mem ord q sq k2 fs difforder N v W dW sc f64s kind m = Ok (m2, T2, A2, F2, sc1, w1, D2) /\
    mat_at m2 T2 = mat_at m1 T1 /\ vec_at m2 F2 = vec_at m1 F1 /\ mat_at m2 D2 = mat_at m1 D1.
Proof. exact (cwt_preserve ord q sq k1 k2 fs difforder N v W dW sc f64s kind m m1 T1 A1 F1 sc1 w1 D1). Qed.
Print Assumptions C166_cwt_same.

Theorem C166_cwt_values ord q sq k fs difforder N v W dW sc f64s kind m m' T A F sc' w D :
  view_of v m -> held_vec m sc -> q_diff q <> DNumeric ->
  squeeze_step_mem ord q sq k fs difforder N v W dW sc f64s kind m = Ok (m', T, A, F, sc', w, D) ->
  squeeze_step ord (seen_cwt q sq v m) fs difforder N W dW (vec_at m sc) f64s kind =
    Ok (SQO (mat_at m' T) W (vec_at m' F) (vec_at m' sc') w (mat_at m' D)) /\
  mat_at m' A = (if k then W else match sq with MFun u => u_left u W | _ => W end) /\
  intact m m' /\ ~ held_mat m T /\ ~ held_mat m A /\ ~ held_mat m D /\ NoDup [T; A; D].
Proof. exact (cwt_values ord q sq k fs difforder N v W dW sc f64s kind m m' T A F sc' w D). Qed.
Print Assumptions C166_cwt_values.

(** a function doubling its argument in place: Wx comes back as computed or doubled *)
Example C166_case keep : exists m' T A F w D,
  squeeze_step_mem serial_order (arg_w DTrig None 0 false None) doubling keep 1 4 2 (Some (VR 1 false)) W32 dW32 (VR 0 false) true SLog held
    = Ok (m', T, A, F, VR 0 false, w, D) /\
  el (mat_at m' A) 0 0 = (if keep then RtoC 1 else RtoC 2) /\
  vec_at m' (VR 1 false) = [1; 2; 3] /\ vec_at (write_vec m' F [0; 0; 0]) (VR 1 false) = [0; 0; 0].
Proof. exact (step_doubling keep). Qed.

(** * C167: returned arrays are the caller's own *)

(** Tx, Sx and dSx are three new arrays; nothing that existed is written *)
Theorem C167_stft_fresh_partial ord x a fs t s q p tn v m m' T S F B w D : view_of v m ->
  ssq_stft_mem ord x a fs t s q p tn v m = Ok (m', T, S, F, B, w, D) ->
  intact m m' /\ ~ held_mat m T /\ ~ held_mat m S /\ ~ held_mat m D /\ NoDup [T; S; D] /\ ~ held_vec m B.
Proof. exact (stft_fresh ord x a fs t s q p tn v m m' T S F B w D). Qed.
Print Assumptions C167_stft_fresh_partial.

(** ssq_freqs is Sfs, or a view of the caller's array *)
Theorem C167_stft_shared_partial ord x a fs t s q p tn v m m' T S F B w D : view_of v m ->
  ssq_stft_mem ord x a fs t s q p tn v m = Ok (m', T, S, F, B, w, D) ->
  let other := match v with Some r => r | None => B end in
  (forall l, vec_at (write_vec m' F l) other = l \/ vec_at (write_vec m' F l) other = rev l) /\
  (forall l, vec_at (write_vec m' other l) F = l \/ vec_at (write_vec m' other l) F = rev l).
Proof. exact (stft_shared ord x a fs t s q p tn v m m' T S F B w D). Qed.
Print Assumptions C167_stft_shared_partial.

(** [scales] comes back itself, a given ssq_freqs as a view; computed frequencies are a new array *)
Theorem C167_cwt_shared_partial ord q sq k fs difforder N v W dW sc f64s kind m m' T A F sc' w D :
  view_of v m -> held_vec m sc -> q_diff q <> DNumeric ->
  squeeze_step_mem ord q sq k fs difforder N v W dW sc f64s kind m = Ok (m', T, A, F, sc', w, D) ->
  sc' = sc /\
  match v with
  | Some r => forall l, (vec_at (write_vec m' F l) r = l \/ vec_at (write_vec m' F l) r = rev l)
  | None => forall r l, held_vec m r -> vec_at (write_vec m' F l) r = vec_at m r
  end.
Proof. exact (cwt_shared ord q sq k fs difforder N v W dW sc f64s kind m m' T A F sc' w D). Qed.
Print Assumptions C167_cwt_shared_partial.

(** zeros written into [Sfs] appear in [ssq_freqs] *)
Theorem C167_Sfs_refuted : exists x a s, forall p tn, exists m' T S F B w D,
  ssq_stft_mem serial_order x a (Some 24) None s MSum p tn None (Mem [] []) = Ok (m', T, S, F, B, w, D) /\
  vec_at m' B = make_Sfs 13 24 /\ vec_at (write_vec m' B (repeat 0 13)) F <> vec_at m' F.
Proof. exists shaken, a24, s24. exact stft_shared_case. Qed.
Print Assumptions C167_Sfs_refuted.
(** zeros written into the [ssq_freqs] that [ssq_cwt] returned appear in the caller's array *)
Theorem C167_caller_refuted : exists q sq W dW m r, forall keep, exists m' T A F w D,
  squeeze_step_mem serial_order q sq keep 1 4 2 (Some r) W dW (VR 0 false) true SLog m = Ok (m', T, A, F, VR 0 false, w, D) /\
  vec_at m r = [1; 2; 3] /\ vec_at m' r = [1; 2; 3] /\ vec_at (write_vec m' F [0; 0; 0]) r = [0; 0; 0].
Proof.
  exists (arg_w DTrig None 0 false None), doubling, W32, dW32, held, (VR 1 false). intros keep.
  destruct (step_doubling keep) as (m' & T & A & F & w & D & H1 & _ & H2 & H3).
  exists m', T, A, F, w, D. split; [exact H1|]. split; [reflexivity|]. split; [exact H2|exact H3].
Qed.
Print Assumptions C167_caller_refuted.
