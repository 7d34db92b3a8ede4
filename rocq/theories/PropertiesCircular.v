(** Circular transforms: wrap padding, and [icwt] with two integrals. *)
From Coq Require Import Reals Lra ZifyBool ZifyNat.
From Verif Require Import Py Round Cplx CplxProofs Padding PaddingProofs Buffer Freqs Squeeze Scales IssqProofs Cwt CwtProofs CwtThms CwtThms2 CwtTone
  SsqCwt SsqCwtProofs SsqCwtInv CwtWitness SymmThms SymmInst RoundTrip Circular CircThms Icwt2 Icwt2Wit.
Local Open Scope R_scope.

(** * C127: wrap padding of a power of two of samples is no padding *)

(** [W], the scales and [dW] alike *)
Theorem C127_wrap_circular py inst f a x s W sc dW s' m : real_valued f -> uncached inst a s -> a_rpadded a = false -> length x = (2 ^ m)%nat ->
  cwt py inst f (set_pad a (Some PWrap)) x s = (Ok (W, sc, dW), s') ->
  exists W0 dW0 s0, cwt py inst f (set_pad a None) x s = (Ok (W0, sc, dW0), s0) /\ same_cells W W0 /\
    match dW, dW0 with Some d, Some d0 => same_cells d d0 | None, None => True | _, _ => False end.
Proof. exact (wrap_circular py inst f a x s W sc dW s' m). Qed.
Print Assumptions C127_wrap_circular.

Example C127_case : exists W s' W0 s0,
  cwt false false band_wave (set_pad (arg0 [1; rt2; 2] false true) (Some PWrap)) q4 st0 = (Ok (W, [1; rt2; 2], None), s') /\
  cwt false false band_wave (set_pad (arg0 [1; rt2; 2] false true) None) q4 st0 = (Ok (W0, [1; rt2; 2], None), s0) /\ same_cells W W0.
Proof.
  assert (P : exists W s', cwt false false band_wave (set_pad (arg0 [1; rt2; 2] false true) (Some PWrap)) q4 st0 = (Ok (W, [1; rt2; 2], None), s')).
  { assert (P : pre band_wave (set_pad (arg0 [1; rt2; 2] false true) (Some PWrap)) q4 1 [-2; 0; 2; 0; -2; 0; 2; 0] 2 [1; rt2; 2]).
    { split; [reflexivity|]. split; [reflexivity|]. split; [vm_compute; reflexivity|]. unfold process_scales. cbn [set_pad arg0 a_scales a_f64s]. rewrite scales122. reflexivity. }
    pose proof (cwt_run false false band_wave _ q4 st0 _ _ _ _ P eq_refl eq_refl) as E. do 2 eexists. exact E. }
  destruct P as (W & s' & E).
  destruct (C127_wrap_circular false false band_wave (arg0 [1; rt2; 2] false true) q4 st0 W [1; rt2; 2] None s' 2 band_real (or_introl eq_refl) eq_refl eq_refl E)
    as (W0 & [d|] & s0 & E0 & H & K); [destruct K|]. exists W, s', W0, s0. auto.
Qed.

(** * C128: icwt with two integrals is a zero-phase filter *)

(** after [cwt] without padding or with wrap padding.  Missing: other paddings, other lengths *)
Theorem C128_filter_partial py inst f a x s W sc dW s' f64 nv Cpsi xm m : real_valued f -> uncached inst a s ->
  a_l1 a = true -> a_rpadded a = false -> a_pad a = None \/ a_pad a = Some PWrap -> length x = (2 ^ m)%nat ->
  cwt py inst f a x s = (Ok (W, sc, dW), s') -> process_scales_arr f64 sc = Ok (KLog nv) ->
  icwt f Cpsi W sc f64 None false true None xm PWrap false =
  Ok (tab (length x) (fun j => filtered (two_gain f sc nv Cpsi (length x)) x j + xm)).
Proof. exact (icwt_two_cwt py inst f a x s W sc dW s' f64 nv Cpsi xm m). Qed.
Print Assumptions C128_filter_partial.

(** so it inverts as well as the squared bank is flat *)
Theorem C128_error_partial py inst f a x s W sc dW s' f64 nv Cpsi xm m eps : real_valued f -> uncached inst a s ->
  a_l1 a = true -> a_rpadded a = false -> a_pad a = None \/ a_pad a = Some PWrap -> length x = (2 ^ m)%nat ->
  cwt py inst f a x s = (Ok (W, sc, dW), s') -> process_scales_arr f64 sc = Ok (KLog nv) -> wf f 0 = C0 -> 0 <= eps ->
  (forall k, (0 < k < length x)%nat -> dft (length x) (fun m => RtoC (nth m x 0)) k = C0 \/ Rabs (two_gain f sc nv Cpsi (length x) k - 1) <= eps) ->
  exists y, icwt f Cpsi W sc f64 None false true None xm PWrap false = Ok y /\ length y = length x /\
    Rsum (length x) (fun j => (nth j y 0 - nth j x 0 - (xm - avg x)) ^ 2) <= eps ^ 2 * Rsum (length x) (fun i => (nth i x 0 - avg x) ^ 2).
Proof. exact (icwt_two_error py inst f a x s W sc dW s' f64 nv Cpsi xm m eps). Qed.
Print Assumptions C128_error_partial.

(** any matrix: each row filtered by its own wavelet, the rows summed *)
Theorem C128_rows_partial f W sc log l1 m : real_valued f -> ncols W = (2 ^ m)%nat -> length sc = nrows W ->
  icwt_2int f W sc log l1 (Z.of_nat (ncols W)) PWrap false =
  Ok (tab (ncols W) (fun j => Rsum (nrows W) (fun i =>
    Re (idft (ncols W) (fun k => Cmul (psih_val f (nth i sc 0) (ncols W) true k) (dft (ncols W) (el W i) k)) j) / icwt_norm log l1 (nth i sc 0)))).
Proof. exact (two_int_wrap f W sc log l1 m). Qed.
Print Assumptions C128_rows_partial.

(** with the default [padtype] it is not that filter: half the tone is lost *)

Theorem C128_reflect_refuted : exists W s' y y', cwt false false band_wave (arg0 [1; rt2; 2] false true) q4 st0 = (Ok (W, [1; rt2; 2], None), s') /\
  icwt band_wave 1 W [1; rt2; 2] true None false true None 0 PWrap false = Ok y /\
  icwt band_wave 1 W [1; rt2; 2] true None false true None 0 PReflect false = Ok y' /\ nth 0 y' 0 = / 2 * nth 0 y 0 /\ 0 < nth 0 y 0.
Proof. exact two_int_reflect. Qed.
Print Assumptions C128_reflect_refuted.

Example C128_case : exists W s', cwt false false band_wave (arg0 [1; rt2; 2] false true) q4 st0 = (Ok (W, [1; rt2; 2], None), s') /\
  icwt band_wave 1 W [1; rt2; 2] true None false true None 0 PWrap false =
  Ok (tab 4 (fun j => filtered (two_gain band_wave [1; rt2; 2] 2 1 4) q4 j + 0)).
Proof. exact two_filter_case. Qed.
