(** The energy of [cwt]'s rows, and what [cwt] does not see. *)
From Coq Require Import Reals Lra Lia List.
Import ListNotations.
From Verif Require Import Py Cplx CplxProofs Padding Freqs Stft Squeeze Scales Ssqueeze Cwt CwtProofs CwtThms
  SsqCwtWitness Wavelets Admiss GmwRoundTrip DefaultRoundTrip AdmissThms3 CwtWitness CwtEnergy CwtEnergyWitness.
Local Open Scope R_scope.

(** * C117: the energy of the rows *)

(** of an unpadded or uncropped transform, exactly *)
Theorem C117_energy py inst f a x s W sc dW s' : real_valued f -> uncached inst a s ->
  cwt py inst f a x s = (Ok (W, sc, dW), s') -> whole a -> (a_l1 a = false -> forall i, (i < length sc)%nat -> 0 <= nth i sc 0) ->
  exists fs xp n1, process_fs_and_t (a_fs a) (a_t a) (length x) = Ok fs /\ pad_input (a_pad a) x = Ok (xp, n1) /\
    ncols W = length xp /\
    let n := length xp in let X := dft n (fun m => RtoC (nth m xp 0)) in
    forall i, (i < length sc)%nat ->
      row_energy W i = norm_gain (a_l1 a) (nth i sc 0) / INR n *
        Rsum n (fun k => Cnorm2 (psih_val f (nth i sc 0) n false k) * Cnorm2 (X k)) /\
      match dW with
      | Some d => row_energy d i = norm_gain (a_l1 a) (nth i sc 0) / INR n *
          Rsum n (fun k => Cnorm2 (psih_val f (nth i sc 0) n false k) * Cnorm2 (X k) * (nth k (xifn 1 n) 0 * fs) ^ 2)
      | None => True
      end.
Proof. exact (cwt_energy py inst f a x s W sc dW s'). Qed.
Print Assumptions C117_energy.

(** of any transform: at most the square of the wavelet's peak times the energy of the padded signal *)
Theorem C117_bounded py inst f a x s W sc dW s' P : real_valued f -> uncached inst a s ->
  cwt py inst f a x s = (Ok (W, sc, dW), s') -> (a_l1 a = false -> forall i, (i < length sc)%nat -> 0 <= nth i sc 0) ->
  0 <= P -> (forall w, Cabs (wf f w) <= P) ->
  exists xp n1, pad_input (a_pad a) x = Ok (xp, n1) /\
    forall i, (i < length sc)%nat ->
      row_energy W i <= norm_gain (a_l1 a) (nth i sc 0) * P ^ 2 * Rsum (length xp) (fun m => nth m xp 0 ^ 2).
Proof. exact (cwt_bounded py inst f a x s W sc dW s' P). Qed.
Print Assumptions C117_bounded.

(** hence rows move by at most that when the signal does *)
Theorem C117_stable py inst f a x y s W sc dW s' P : real_valued f -> uncached inst a s -> length x = length y ->
  cwt py inst f a x s = (Ok (W, sc, dW), s') -> (a_l1 a = false -> forall i, (i < length sc)%nat -> 0 <= nth i sc 0) ->
  0 <= P -> (forall w, Cabs (wf f w) <= P) ->
  exists V dV zp n1, cwt py inst f a y s = (Ok (V, sc, dV), s') /\ ncols V = ncols W /\
    pad_input (a_pad a) (lin 1 (-1) x y) = Ok (zp, n1) /\
    forall i, (i < length sc)%nat ->
      Rsum (ncols W) (fun j => Cnorm2 (Csub (el W i j) (el V i j)))
      <= norm_gain (a_l1 a) (nth i sc 0) * P ^ 2 * Rsum (length zp) (fun m => nth m zp 0 ^ 2).
Proof. exact (cwt_stable py inst f a x y s W sc dW s' P). Qed.
Print Assumptions C117_stable.

(** the default wavelet *)
Example C117_case : exists W dW s',
  cwt false true (gmw_wave gmw60) (arg_c None false) [1; 2; 4; 3] st0 = (Ok (W, [1; 2; 4], Some dW), s') /\
  forall i, (i < 3)%nat -> row_energy W i <= 120.
Proof. exact default_energy_case. Qed.

(** * C118: the transform determines the signal up to a constant *)

(** any wavelet nonzero at each frequency for some scale *)
Theorem C118_determines py inst f a x y s W V sc dW dV s' s'' : real_valued f -> uncached inst a s -> length x = length y ->
  cwt py inst f a x s = (Ok (W, sc, dW), s') -> cwt py inst f a y s = (Ok (V, sc, dV), s'') -> whole a ->
  (forall xp n1, pad_input (a_pad a) x = Ok (xp, n1) -> covers f sc (length xp)) ->
  (forall i j, (i < nrows W)%nat -> (j < ncols W)%nat -> el W i j = el V i j) ->
  exists c, forall j, (j < length x)%nat -> nth j x 0 = nth j y 0 + c.
Proof. exact (cwt_kernel py inst f a x y s W V sc dW dV s' s''). Qed.
Print Assumptions C118_determines.

(** wavelets with no mean do not see constants, however the signal is padded but with zeros *)
Theorem C118_constant py inst f a x s W sc dW s' c : real_valued f -> uncached inst a s -> wf f 0 = C0 -> a_pad a <> Some PZero ->
  cwt py inst f a x s = (Ok (W, sc, dW), s') ->
  exists V dV, cwt py inst f a (map (fun v => v + c) x) s = (Ok (V, sc, dV), s') /\
    nrows V = nrows W /\ ncols V = ncols W /\ forall i j, el V i j = el W i j.
Proof. exact (cwt_const py inst f a x s W sc dW s' c). Qed.
Print Assumptions C118_constant.

(** both, for generalized Morse wavelets at any positive scales *)
Theorem C118_gmw : forall gamma beta g, 0 < gamma -> 0 < beta -> gmw_l1 gamma beta false = Ok g ->
  forall py inst a x y s W V sc dW dV s' s'', uncached inst a s -> length x = length y ->
  cwt py inst (gmw_wave g) a x s = (Ok (W, sc, dW), s') -> cwt py inst (gmw_wave g) a y s = (Ok (V, sc, dV), s'') -> whole a ->
  sc <> [] -> (forall i, (i < length sc)%nat -> 0 < nth i sc 0) -> a_pad a <> Some PZero ->
  ((forall i j, (i < nrows W)%nat -> (j < ncols W)%nat -> el W i j = el V i j) <->
   exists c, forall j, (j < length x)%nat -> nth j x 0 = nth j y 0 + c).
Proof. exact gmw_kernel. Qed.
Print Assumptions C118_gmw.

(** four samples, the default wavelet: raising all by one changes nothing, raising three by one and one by two does *)
Example C118_case : exists W dW V dV s',
  cwt false true (gmw_wave gmw60) (arg_c None false) [1; 2; 4; 3] st0 = (Ok (W, [1; 2; 4], Some dW), s') /\
  cwt false true (gmw_wave gmw60) (arg_c None false) [2; 3; 5; 4] st0 = (Ok (V, [1; 2; 4], Some dV), s') /\
  (forall i j, el V i j = el W i j) /\
  exists V' dV' i j, cwt false true (gmw_wave gmw60) (arg_c None false) [2; 3; 5; 5] st0 = (Ok (V', [1; 2; 4], Some dV'), s') /\
    el V' i j <> el W i j.
Proof. exact default_kernel_case. Qed.
