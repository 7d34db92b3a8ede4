(** C156: the inverses are linear in what they invert. *)
From Coq Require Import Reals Lra.
From Verif Require Import Py Padding PaddingProofs Buffer Cplx CplxProofs Freqs Stft Squeeze BinProofs Scales Ssqueeze ShiftProofs Cwt CwtProofs CwtThms CwtThms2 NormThms
  IcwtLin CwtWitness CwtWitness2 IcwtLinThms.
Local Open Scope R_scope.

(** * C156: [icwt], [issq_cwt], [issq_stft] are linear and stable *)

(** log, linear and piecewise scales; one or two integrals; the means combine too *)
Theorem C156_icwt f Cpsi f64 one l1 xl pt rp a b m1 m2 X Y Z sc nv x : mix a b X Y Z ->
  icwt f Cpsi X sc f64 nv one l1 xl m1 pt rp = Ok x ->
  exists y, icwt f Cpsi Y sc f64 nv one l1 xl m2 pt rp = Ok y /\ length y = length x /\
    icwt f Cpsi Z sc f64 nv one l1 xl (a * m1 + b * m2) pt rp = Ok (lin a b x y).
Proof. exact (icwt_linear f Cpsi f64 one l1 xl pt rp a b m1 m2 X Y Z sc nv x). Qed.
Print Assumptions C156_icwt.

(** whether it raises depends on the shape only *)
Theorem C156_icwt_errors f Cpsi f64 one l1 xl pt rp a b m1 m2 X Y Z sc nv e : mix a b X Y Z ->
  icwt f Cpsi X sc f64 nv one l1 xl m1 pt rp = Err e ->
  icwt f Cpsi Y sc f64 nv one l1 xl m2 pt rp = Err e /\ icwt f Cpsi Z sc f64 nv one l1 xl (a * m1 + b * m2) pt rp = Err e.
Proof. exact (icwt_same_error f Cpsi f64 one l1 xl pt rp a b m1 m2 X Y Z sc nv e). Qed.
Print Assumptions C156_icwt_errors.

(** hence the round trip is linear in the signal *)
Theorem C156_round_trip py inst f a s al be x y Wx sc dx s' Cpsi f64 nv one l1 xl m1 m2 pt rp u : length x = length y ->
  cwt py inst f a x s = (Ok (Wx, sc, dx), s') -> icwt f Cpsi Wx sc f64 nv one l1 xl m1 pt rp = Ok u ->
  exists Wy dy Wz dz v, cwt py inst f a y s = (Ok (Wy, sc, dy), s') /\ cwt py inst f a (lin al be x y) s = (Ok (Wz, sc, dz), s') /\
    icwt f Cpsi Wy sc f64 nv one l1 xl m2 pt rp = Ok v /\ length v = length u /\
    icwt f Cpsi Wz sc f64 nv one l1 xl (al * m1 + be * m2) pt rp = Ok (lin al be u v).
Proof. exact (round_trip_linear py inst f a s al be x y Wx sc dx s' Cpsi f64 nv one l1 xl m1 m2 pt rp u). Qed.
Print Assumptions C156_round_trip.

(** every component *)
Theorem C156_issq_cwt Css a b X Y Z comp x : mix a b X Y Z -> issq_cwt Css X comp = Ok x ->
  exists y z, issq_cwt Css Y comp = Ok y /\ issq_cwt Css Z comp = Ok z /\ lin_out a b x y z.
Proof. exact (issq_cwt_linear Css a b X Y Z comp x). Qed.
Print Assumptions C156_issq_cwt.

(** every component *)
Theorem C156_issq_stft a b X Y Z wa comp n_fft wl hop md f32 x : mix a b X Y Z -> issq_stft X wa comp n_fft wl hop md f32 = Ok x ->
  exists y z, issq_stft Y wa comp n_fft wl hop md f32 = Ok y /\ issq_stft Z wa comp n_fft wl hop md f32 = Ok z /\ lin_out a b x y z.
Proof. exact (issq_stft_linear a b X Y Z wa comp n_fft wl hop md f32 x). Qed.
Print Assumptions C156_issq_stft.

(** one integral: an error in the coefficients is weighted by step / norm *)
Theorem C156_icwt_stable f Cpsi f64 l1 xl pt rp X Y sc nv m k x : nrows Y = nrows X -> ncols Y = ncols X ->
  process_scales_arr f64 sc = Ok k -> is_piece k = false -> (forall v, In v sc -> 0 < v) ->
  icwt f Cpsi X sc f64 nv true l1 xl m pt rp = Ok x ->
  exists y, icwt f Cpsi Y sc f64 nv true l1 xl m pt rp = Ok y /\ length y = length x /\
    forall j, (j < length x)%nat -> Rabs (nth j x 0 - nth j y 0) <=
      Rabs (icwt_step k Cpsi) * Rsum (nrows X) (fun i => Cabs (Csub (el X i j) (el Y i j)) / icwt_norm (is_log k) l1 (nth i sc 0)).
Proof. exact (icwt_stable f Cpsi f64 l1 xl pt rp X Y sc nv m k x). Qed.
Print Assumptions C156_icwt_stable.

(** every component, and the remainder *)
Theorem C156_issq_stable Css X Y comp x : nrows Y = nrows X -> ncols Y = ncols X -> issq_cwt Css X comp = Ok x ->
  exists y, issq_cwt Css Y comp = Ok y /\ length (outs y) = length (outs x) /\
    forall n j, (n < length (outs x))%nat ->
      Rabs (nth j (nth n (outs x) []) 0 - nth j (nth n (outs y) []) 0) <= Rabs (2 / Css) * Rsum (nrows X) (fun i => Cabs (Csub (el X i j) (el Y i j))).
Proof. exact (issq_stable Css X Y comp x). Qed.
Print Assumptions C156_issq_stable.

(** 2 W - 3 V *)
Example C156_case : exists x y, icwt flat_wave 1 (Mat 3 1 (fun _ _ => C1)) [1; 2; 4] true None true true None 5 PReflect false = Ok x /\
  icwt flat_wave 1 (Mat 3 1 (fun i _ => RtoC (INR i))) [1; 2; 4] true None true true None 7 PReflect false = Ok y /\
  icwt flat_wave 1 (Mat 3 1 (fun i _ => RtoC (2 - 3 * INR i))) [1; 2; 4] true None true true None (2 * 5 + -3 * 7) PReflect false = Ok (lin 2 (-3) x y) /\ x = [6 * ln 2 + 5].
Proof. exact linear_case. Qed.

(** one component and the remainder *)
Example C156_component_case : exists x y, issq_cwt 2 (Mat 3 2 (fun i _ => RtoC (INR i))) (Some (Mat 2 1 (fun _ _ => 1%Z), Mat 2 1 (fun _ _ => 0%Z))) = Ok x /\
  issq_cwt 2 (Mat 3 2 (fun _ j => RtoC (INR j))) (Some (Mat 2 1 (fun _ _ => 1%Z), Mat 2 1 (fun _ _ => 0%Z))) = Ok y /\
  outs x = [[1; 1]; [2; 2]] /\ outs y = [[0; 1]; [0; 2]].
Proof. exact component_case. Qed.
