(** C163: the threshold [gamma]. *)
From Coq Require Import Reals Lra.
From Verif Require Import Py Round Parallel Padding Buffer Cplx CplxProofs Freqs Stft Squeeze SqueezeProofs Ssqueeze SsqueezeProofs SymmThms SsqWitness Threshold ThresholdWit.
Local Open Scope R_scope.

(** * C163: gamma removes coefficients, and nothing else *)

(** coefficients at or below gamma might as well be zero, the rest go where any lower gamma sends them *)
Theorem C163_gate ord o X d g g' T f : valid_order ord -> o_sq o = SqSum -> 0 <= g' <= g ->
  ssqueeze ord (with_gamma (Some g) o) X None (Some d) = Ok (T, f) ->
  exists T', ssqueeze ord (with_gamma (Some g') o) (above g X) None (Some d) = Ok (T', f) /\ nrows T' = nrows T /\ ncols T' = ncols T /\
    forall q j, (q < nrows T)%nat -> (j < ncols T)%nat -> el T' q j = el T q j.
Proof. exact (gamma_gate ord o X d g g' T f). Qed.
Print Assumptions C163_gate.

(** raising gamma removes what the coefficients between contributed; their column sum is at most gamma times the weights *)
Theorem C163_step ord o X d g1 g2 T1 f : valid_order ord -> o_sq o = SqSum -> 0 <= g1 <= g2 ->
  ssqueeze ord (with_gamma (Some g1) o) X None (Some d) = Ok (T1, f) ->
  exists T2 TB ca, ssqueeze ord (with_gamma (Some g2) o) X None (Some d) = Ok (T2, f) /\ ssqueeze ord (with_gamma (Some g1) o) (between g1 g2 X) None (Some d) = Ok (TB, f) /\
    nrows T2 = nrows T1 /\ ncols T2 = ncols T1 /\ length ca = nrows X /\
    (forall q j, (q < nrows T1)%nat -> (j < ncols T1)%nat -> el T1 q j = Cadd (el T2 q j) (el TB q j)) /\
    (forall j, (j < ncols T1)%nat -> Rsum (nrows T1) (fun q => Cabs (Csub (el T1 q j) (el T2 q j))) <= g2 * Rsum (nrows X) (fun i => Rabs (nth i ca 0))).
Proof. exact (gamma_step ord o X d g1 g2 T1 f). Qed.
Print Assumptions C163_step.

(** coefficients 1, 3, 5, from gamma 0 to 2 *)
Example C163_case : exists T1 T2 TB, ssqueeze serial_order (wit SqSum 0 true) x135 None (Some x135) = Ok (T1, [3; 2; 1]) /\
  ssqueeze serial_order (wit SqSum 2 true) x135 None (Some x135) = Ok (T2, [3; 2; 1]) /\
  ssqueeze serial_order (wit SqSum 0 true) (between 0 2 x135) None (Some x135) = Ok (TB, [3; 2; 1]) /\
  (forall q, (q < 3)%nat -> el T1 q 0%nat = Cadd (el T2 q 0%nat) (el TB q 0%nat)) /\
  el (between 0 2 x135) 0 0 = RtoC 1 /\ el (between 0 2 x135) 1 0 = C0 /\ el (between 0 2 x135) 2 0 = C0.
Proof. exact threshold_case. Qed.
