(** [preserve_transform] spelled out: true, false, or left to the device. *)
From Coq Require Import Reals List Arith ZArith Bool.
Import ListNotations.
From Verif Require Import Py Round Parallel Cplx Padding Buffer Freqs Stft Squeeze Scales Ssqueeze Cwt SsqCwt Preserve PreserveThms PreserveThms2.
Local Open Scope R_scope.

(** asked for, or not said and NumPy arrays in use *)
Definition asked (p : option bool) (tensor : bool) : Prop := p = Some true \/ (p = None /\ tensor = false).
Lemma keeps_asked p tn : (asked p tn -> keeps p tn = true) /\ (~ asked p tn -> keeps p tn = false).
Proof. unfold asked, keeps. destruct p as [[|]|], tn; cbn; split; intros H; try reflexivity; try (exfalso; apply H; tauto); destruct H as [H|[H H']]; congruence. Qed.

Lemma stft_asked ord x a fs t s q p tn v m m' T S F B w D : view_of v m ->
  ssq_stft_mem ord x a fs t s q p tn v m = Ok (m', T, S, F, B, w, D) ->
  exists Sx dSx, own_stft x a fs t = Ok (Sx, dSx) /\ (asked p tn -> mat_at m' S = Sx) /\
    (~ asked p tn -> mat_at m' S = match q with MFun u => u_left u Sx | _ => Sx end).
Proof.
  intros Hv H. destruct (stft_values ord x a fs t s q p tn v m m' T S F B w D Hv H) as (Sx & dSx & E & _ & _ & K1 & K2).
  destruct (keeps_asked p tn). exists Sx, dSx. auto.
Qed.
Lemma cwt_asked ord q sq p tn fs difforder N v W dW sc f64s kind m m' T A F sc' w D :
  view_of v m -> held_vec m sc -> q_diff q <> DNumeric ->
  squeeze_step_mem ord q sq (keeps p tn) fs difforder N v W dW sc f64s kind m = Ok (m', T, A, F, sc', w, D) ->
  (asked p tn -> mat_at m' A = W) /\ (~ asked p tn -> mat_at m' A = match sq with MFun u => u_left u W | _ => W end).
Proof.
  intros Hv Hs Hn H. destruct (cwt_values ord q sq _ fs difforder N v W dW sc f64s kind m m' T A F sc' w D Hv Hs Hn H) as (_ & -> & _).
  destruct (keeps_asked p tn) as [K1 K2]. split; intros K; [rewrite (K1 K)|rewrite (K2 K)]; reflexivity.
Qed.
