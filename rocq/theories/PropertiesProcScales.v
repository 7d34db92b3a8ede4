(** [scales] and [nv] as users pass them. *)
From Coq Require Import Reals Lra String Ascii.
From Verif Require Import Py Round Cplx Padding Freqs Squeeze Scales Resol Search Ssqueeze ScaleBounds SsqCwt Validate ProcScales
  ProcScalesThms ProcScalesWitness.
Local Open Scope R_scope.

(** * C121: the strings and numbers of voices [process_scales] accepts *)

(** [voices v z]: [v] is a number (int, bool or float) equal to the positive integer [z] *)
Theorem C121_voices v z : assert_positive_integer v = Ok z <-> voices v z.
Proof. exact (positive_integer v z). Qed.
Print Assumptions C121_voices.

(** [spelt s k p]: [s] is the kind's name, alone or with a colon and the preset's name *)
Theorem C121_string s k p v z N g fds ds pad fuel : spelt s k p -> voices_or_32 v z ->
  process_scales_any (VVal (PStr s)) N (Some g) v fds ds pad fuel =
  rmap (fun l => (l, k, length l, NvInt z)) (process_scales_str g N k p z fds ds pad fuel).
Proof. exact (scales_string s k p v z N g fds ds pad fuel). Qed.
Print Assumptions C121_string.

(** any other string, a missing wavelet, any other [nv]: refused before any search *)
Theorem C121_refused s v N w fds ds pad fuel :
  ~ (w <> None /\ (exists k p, spelt s k p) /\ exists z, voices_or_32 v z) ->
  exists e, process_scales_any (VVal (PStr s)) N w v fds ds pad fuel = Some (Err e) /\
            (e = ValueError \/ e = TypeError).
Proof. exact (scales_string_refused s v N w fds ds pad fuel). Qed.
Print Assumptions C121_refused.

(** neither a string nor an array *)
Theorem C121_other v N w nv fds ds pad fuel : (forall s, v <> PStr s) ->
  process_scales_any (VVal v) N w nv fds ds pad fuel = Some (Err TypeError).
Proof. exact (scales_other v N w nv fds ds pad fuel). Qed.
Print Assumptions C121_other.

(** 2.0 voices are 2 *)
Example C121_case g fds ds pad fuel : process_scales_any (VVal (PStr "linear:naive")) 4 (Some g) (PFloat 2) fds ds pad fuel =
  Some (Ok ([1; 2; 3; 4], SLin, 4%nat, NvInt 2)).
Proof. exact (naive4 g fds ds pad fuel). Qed.

(** * C122: [nv] against an array of scales *)

(** the same as in [ssq_cwt] of SsqCwt.v *)
Theorem C122_same_partial f64 l v o N w fds ds pad fuel :
  match o with None => v = PNone | Some z => number v = Some (IZR z) end ->
  process_scales_any (VArr f64 l) N w v fds ds pad fuel =
  Some (do k <- process_scales_nv f64 l o; Ok (l, skind_of k, length l, nv_of k o)).
Proof. exact (scales_array f64 l v o N w fds ds pad fuel). Qed.
Print Assumptions C122_same_partial.

(** logarithmic scales: [nv] not given, or the array's own; the array's own is returned.
    Missing: other arrays *)
Theorem C122_log_partial f64 l v n r N w fds ds pad fuel : infer_scaletype f64 l = Ok (KLog n) ->
  process_scales_any (VArr f64 l) N w v fds ds pad fuel = Some (Ok r) ->
  r = (l, SLog, length l, NvInt n) /\ (0 < n)%Z /\ (v = PNone \/ voices v n).
Proof. exact (scales_array_log f64 l v n r N w fds ds pad fuel). Qed.
Print Assumptions C122_log_partial.

(** linear scales: none, or any positive integer, returned as given *)
Theorem C122_linear_partial f64 l v r N w fds ds pad fuel : infer_scaletype f64 l = Ok KLinear ->
  process_scales_any (VArr f64 l) N w v fds ds pad fuel = Some (Ok r) ->
  (v = PNone /\ r = (l, SLin, length l, NvNone)) \/
  exists z, voices v z /\ r = (l, SLin, length l, NvInt z).
Proof. exact (scales_array_linear f64 l v r N w fds ds pad fuel). Qed.
Print Assumptions C122_linear_partial.

(** so linear scales have whatever number of voices the caller says *)
Theorem C122_linear_refuted : exists l, forall N w fds ds pad fuel, process_scales_any (VArr true l) N w (PInt 7) fds ds pad fuel = Some (Ok (l, SLin, length l, NvInt 7)).
Proof. exact linear_any. Qed.
Print Assumptions C122_linear_refuted.

(** and next to scales at two rates anything goes, a string too *)
Theorem C122_piecewise_refuted : exists l a, forall N w fds ds pad fuel,
  process_scales_any (VArr true l) N w (PStr "many") fds ds pad fuel = Some (Ok (l, SPiece, length l, NvArr a)).
Proof. exact piece_any. Qed.
Print Assumptions C122_piecewise_refuted.
