(** Which exception [gmw] raises. *)
From Coq Require Import Reals Lra.
From Verif Require Import Py Cplx Freqs Pointwise Comb Wavelets GmwOrders GmwThms GmwErrors.
Local Open Scope R_scope.

(** * C66: gmw accepts what its argument check accepts *)

(** [gmw] fails with ValueError or TypeError; with the latter exactly for an order that is no integer, or is a positive float *)
Theorem C66_errors_partial G gamma beta norm order centered f32 :
  (forall e, gmw G gamma beta norm order centered f32 = Err e -> e = ValueError \/ e = TypeError) /\
  (gmw G gamma beta norm order centered f32 = Err TypeError <->
   0 < gamma /\ 0 <= beta /\ norm <> OtherNorm /\
   (order = OOther \/ exists r, order = OFloat r /\
     ((forall z, r <> IZR z) \/ (exists z, r = IZR z) /\ 0 < r /\ 0 < beta /\ ~ (norm = Energy /\ f32 = true)))).
Proof. exact (gmw_errors G gamma beta norm order centered f32). Qed.
Print Assumptions C66_errors_partial.

(** norm='energy' with dtype='float32' raises ValueError for every order *)
Theorem C66_energy_single_partial G gamma beta k centered : gmw G gamma beta Energy (OInt k) centered true = Err ValueError.
Proof. exact (energy_single G gamma beta k centered). Qed.
Print Assumptions C66_energy_single_partial.

(** order 2 in single precision; order 1/2 *)
Example C66_errors_case : gmw (fun _ => 1) 3 60 Energy (OInt 2) false true = Err ValueError /\ gmw (fun _ => 1) 3 60 Bandpass (OFloat (1 / 2)) false true = Err TypeError.
Proof. exact gmw_errors_case. Qed.
