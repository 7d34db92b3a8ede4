(** C157: [ssqueeze] for given frequencies. *)
From Coq Require Import Reals Lra.
From Verif Require Import Py Round Parallel Padding Buffer Cplx CplxProofs Freqs Stft Squeeze SqueezeProofs BinProofs SqueezeThms SqueezeThms2 SqueezeThms3 Scales ScaleThms Ssqueeze SsqueezeProofs
  ShiftProofs Cwt CwtProofs CwtThms IcwtLin SsqLinear SsqWitness SsqCwtWitness SsqLinearWit.
Local Open Scope R_scope.

(** * C157: [ssqueeze] is linear for given frequencies and never adds modulus *)

(** squeezing='sum', the frequencies given *)
Theorem C157_linear ord o X Y Z w dX dY dZ a b TX f : valid_order ord -> o_sq o = SqSum -> mix a b X Y Z ->
  ssqueeze ord o X (Some w) dX = Ok (TX, f) ->
  exists TY TZ, ssqueeze ord o Y (Some w) dY = Ok (TY, f) /\ ssqueeze ord o Z (Some w) dZ = Ok (TZ, f) /\ mix a b TX TY TZ.
Proof. exact (ssqueeze_linear ord o X Y Z w dX dY dZ a b TX f). Qed.
Print Assumptions C157_linear.

(** any squeezing: a column's sum of moduli is at most the weighted sum of those reassigned *)
Theorem C157_column ord o X w dX TX f : valid_order ord -> ssqueeze ord o X w dX = Ok (TX, f) ->
  let W := squeeze_input (o_sq o) (nrows X) X in
  exists ca, length ca = nrows W /\ forall j, (j < ncols TX)%nat ->
    Rsum (nrows TX) (fun q => Cabs (el TX q j)) <= Rsum (nrows W) (fun i => match freq_at o W w dX i j with Fin _ => Cabs (el W i j) * Rabs (nth i ca 0) | Inf => 0 end).
Proof. exact (squeeze_l1 ord o X w dX TX f). Qed.
Print Assumptions C157_column.

(** no modulus above gamma: a zero column *)
Theorem C157_silent ord o X dX gm TX f j : valid_order ord -> o_gamma o = Some gm -> ssqueeze ord o X None dX = Ok (TX, f) ->
  (forall i, (i < nrows (squeeze_input (o_sq o) (nrows X) X))%nat -> Cabs (el (squeeze_input (o_sq o) (nrows X) X) i j) <= gm) ->
  forall q, (q < nrows TX)%nat -> (j < ncols TX)%nat -> el TX q j = C0.
Proof. exact (squeeze_silent ord o X dX gm TX f j). Qed.
Print Assumptions C157_silent.

(** 'abs' gives a real bound on 'sum', cell by cell *)
Theorem C157_abs_bounds_sum ord o X w dX TX f k v ls cst : valid_order ord -> o_sq o = SqSum -> ssqueeze ord o X (Some w) dX = Ok (TX, f) ->
  ssq_freqs_of o (ncols X) = Ok (k, v, ls) -> ssq_const o k v = Ok cst -> nonneg_const cst ->
  exists TA, ssqueeze ord (with_sq o SqAbs) X (Some w) dX = Ok (TA, f) /\ nrows TA = nrows TX /\ ncols TA = ncols TX /\
    forall q j, (q < nrows TX)%nat -> (j < ncols TX)%nat -> Im (el TA q j) = 0 /\ Cabs (el TX q j) <= Re (el TA q j).
Proof. exact (squeeze_abs ord o X w dX TX f k v ls cst). Qed.
Print Assumptions C157_abs_bounds_sum.

(** frequencies equal to those of the rows: nothing moves *)
Theorem C157_still ord o X w dX TX f k v ls cst ca : valid_order ord -> ssqueeze ord o X (Some w) dX = Ok (TX, f) -> o_sq o = SqSum ->
  ssq_freqs_of o (ncols X) = Ok (k, v, ls) -> ssq_const o k v = Ok cst -> const_arr (nrows X) cst = Ok ca ->
  grid_of v ls -> length v = nrows X -> (Z.of_nat (length v) < 2 ^ 62)%Z ->
  forall j, (j < ncols X)%nat -> (forall i, (i < nrows X)%nat -> el w i j = Fin (row_freq o v i)) ->
  forall i, (i < nrows X)%nat -> el TX i j = Cmul (el X i j) (RtoC (nth i ca 0)).
Proof. exact (squeeze_still ord o X w dX TX f k v ls cst ca). Qed.
Print Assumptions C157_still.

(** 2 A - 3 B *)
Example C157_linear_case : mix 2 (-3) xa xb xm /\
  exists Tm Ta Tb, ssqueeze serial_order (wit SqSum 0 true) xm (Some w_own) None = Ok (Tm, [3; 2; 1]) /\
    ssqueeze serial_order (wit SqSum 0 true) xa (Some w_own) None = Ok (Ta, [3; 2; 1]) /\
    ssqueeze serial_order (wit SqSum 0 true) xb (Some w_own) None = Ok (Tb, [3; 2; 1]) /\ mix 2 (-3) Ta Tb Tm.
Proof. exact mixed_case. Qed.

(** three rows at 3, 2, 1 *)
Example C157_still_case : exists Tx, ssqueeze serial_order (wit SqSum 0 true) xa (Some w_own) None = Ok (Tx, [3; 2; 1]) /\
  forall i j, (i < 3)%nat -> (j < 2)%nat -> el Tx i j = Cmul (el xa i j) (RtoC (ln 2)).
Proof. exact still_case. Qed.

(** 1 and -1 at one frequency *)
Example C157_abs_case : exists Tx Ta, ssqueeze serial_order (wit SqSum 0 true) xc (Some (fin3 2)) None = Ok (Tx, [3; 2; 1]) /\
  ssqueeze serial_order (with_sq (wit SqSum 0 true) SqAbs) xc (Some (fin3 2)) None = Ok (Ta, [3; 2; 1]) /\
  (forall q, (q < 3)%nat -> Im (el Ta q 0%nat) = 0 /\ Cabs (el Tx q 0%nat) <= Re (el Ta q 0%nat)).
Proof. exact cancel_case. Qed.

(** ones, gamma = 2 *)
Example C157_silent_case : exists Tx, ssqueeze serial_order (wit SqSum 2 true) (col3 C1) None (Some (col3 C1)) = Ok (Tx, [3; 2; 1]) /\
  forall q, (q < 3)%nat -> el Tx q 0%nat = C0.
Proof. exact silent_case. Qed.

(** equality is attained *)
Example C157_column_case : exists Tx, ssqueeze serial_order (wit SqSum 0 true) (col3 C1) (Some (fin3 2)) None = Ok (Tx, [3; 2; 1]) /\
  Rsum 3 (fun q => Cabs (el Tx q 0%nat)) = 3 * ln 2.
Proof. exact l1_case. Qed.
