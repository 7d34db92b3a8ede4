(** C40: cached FFT plans. *)
From Coq Require Import Reals Lra.
From Verif Require Import Py Cplx FftCache FftCacheProofs.
Local Open Scope R_scope.

(** [alone c]: what the call returns on its own, nothing cached.  [view s r]: what the caller
    sees in the returned array when the state is [s]. *)

(** Without caching (the default) every result is right and stays right, whatever is called
    before and after. *)
Theorem C40_uncached cs1 c cs2 :
  let s1 := snd (fft_run false cs1 start) in
  let '(r, s2) := fft_call false c s1 in
  view s2 r = alone c /\ view (snd (fft_run false cs2 s2)) r = alone c.
Proof. exact (uncached_right cs1 c cs2). Qed.
Print Assumptions C40_uncached.

(** [alone] is the transform asked for, when the arguments are valid. *)
Theorem C40_alone c : f_pat c = 0%Z \/ validate c = Ok tt ->
  alone c = match transform (f_inv c) (f_real c) (f_axis c) (f_n c) (f_x c) with
            | Ok v => Ok (Some v)
            | Err e => Err e
            end.
Proof. exact (alone_transform c). Qed.
Print Assumptions C40_alone.

(** With caching: right when returned, if no earlier call had the same shape, dtype, axis,
    realness and [n] but the other direction; it stays right until a later call with them. *)
Theorem C40_cached_partial cs1 c cs2 :
  (f_pat c = 0%Z \/ ((f_pat c = 1%Z \/ f_pat c = 2%Z) /\
     forall c', In c' cs1 -> f_pat c' = 0%Z \/ key_of c' <> key_of c \/ f_inv c' = f_inv c)) ->
  let s1 := snd (fft_run true cs1 start) in
  let '(r, s2) := fft_call true c s1 in
  view s2 r = alone c /\
  ((f_pat c = 0%Z \/ forall c', In c' cs2 -> f_pat c' = 0%Z \/ key_of c' <> key_of c) ->
   view (snd (fft_run true cs2 s2)) r = alone c).
Proof. exact (cached_right cs1 c cs2). Qed.
Print Assumptions C40_cached_partial.

Example C40_cached_case : let c := fft_of (sig2 1 0) in
  f_pat c = 1%Z /\ forall c', In c' [fft_of (sig2 3 4); fft_of (sig2 0 1)] -> f_inv c' = f_inv c.
Proof. split; [reflexivity|]. intros c' [<-|[<-|[]]]; reflexivity. Qed.

(** Finding: [ifft] after [fft] of the same shape and dtype returns the forward transform. *)
Theorem C40_direction_refuted : exists c1 c2, f_inv c1 = false /\ f_inv c2 = true /\ validate c2 = Ok tt /\
  let '(r, s) := fft_call true c2 (snd (fft_run true [c1] start)) in view s r <> alone c2.
Proof. exact ifft_after_fft. Qed.
Print Assumptions C40_direction_refuted.

(** Finding: a second call overwrites the array the first one returned. *)
Theorem C40_alias_refuted : exists c1 c2, f_inv c1 = f_inv c2 /\ validate c1 = Ok tt /\ validate c2 = Ok tt /\
  let '(r, s) := fft_call true c1 start in view s r = alone c1 /\ view (snd (fft_run true [c2] s)) r <> alone c1.
Proof. exact result_overwritten. Qed.
Print Assumptions C40_alias_refuted.

(** Finding: an invalid [patience] is rejected unless a plan is cached. *)
Theorem C40_patience_refuted : exists c1 c2, f_inv c1 = f_inv c2 /\ alone c2 = Err ValueError /\
  let '(r, s) := fft_call true c2 (snd (fft_run true [c1] start)) in exists v, view s r = Ok (Some v).
Proof. exact bad_patience_accepted. Qed.
Print Assumptions C40_patience_refuted.
