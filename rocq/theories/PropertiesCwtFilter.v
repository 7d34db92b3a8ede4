(** C162: weighting the rows of [cwt] and inverting filters the signal. *)
From Coq Require Import Reals Lra.
From Verif Require Import Py Round Cplx CplxProofs Padding PaddingProofs Buffer Freqs Squeeze Scales IssqProofs Cwt CwtProofs CwtThms CwtThms2 CwtTone
  SsqCwt SsqCwtProofs SsqCwtInv CwtWitness RoundTrip RoundTripWitness CwtFilter CwtFilterWit.
Local Open Scope R_scope.

(** * C162: selecting or weighting rows of cwt before icwt *)

(** [filtered]: bin [k] of the padded signal's DFT times the gain; [wgain]: the weighted wavelets at that bin's frequency *)
Theorem C162_filter py inst f a x s W sc dW s' xp n1 f64 nv Css xl xm pt rp m : real_valued f -> uncached inst a s ->
  a_l1 a = true -> a_rpadded a = false ->
  cwt py inst f a x s = (Ok (W, sc, dW), s') -> process_scales_arr f64 sc = Ok (KLog nv) ->
  pad_input (a_pad a) x = Ok (xp, n1) ->
  icwt f Css (weigh m W) sc f64 None true true xl xm pt rp =
  Ok (tab (length x) (fun j => filtered (wgain f m sc nv Css (length xp)) xp (Z.to_nat n1 + j) + xm)).
Proof. exact (icwt_weighted py inst f a x s W sc dW s' xp n1 f64 nv Css xl xm pt rp m). Qed.
Print Assumptions C162_filter.

(** some adjacent rows: the gain (C104) of their scales alone *)
Theorem C162_mask f sc p L nv Css n k : (p + L <= length sc)%nat ->
  wgain f (fun i => if ((p <=? i) && (i <? p + L))%nat then 1 else 0) sc nv Css n k = rt_gain f (firstn L (skipn p sc)) nv Css n k.
Proof. exact (wgain_mask f sc p L nv Css n k). Qed.
Print Assumptions C162_mask.

(** weights in [lo, hi], nonnegative wavelet: between lo and hi times the gain of the plain round trip *)
Theorem C162_between f m sc nv Css n k lo hi : (forall w, 0 <= Re (wf f w)) -> (1 <= nv)%Z -> 0 < Css -> (forall i, (i < length sc)%nat -> lo <= m i <= hi) ->
  lo * rt_gain f sc nv Css n k <= wgain f m sc nv Css n k <= hi * rt_gain f sc nv Css n k.
Proof. exact (wgain_between f m sc nv Css n k lo hi). Qed.
Print Assumptions C162_between.

(** a sum of two signals: gain near 1 where the first has energy, near 0 where the second has, returns the first *)
Theorem C162_picks py inst f a u v s W sc dW s' up n1 f64 nv Css xl xm pt rp m eps : length u = length v -> real_valued f -> uncached inst a s ->
  a_l1 a = true -> a_rpadded a = false -> wf f 0 = C0 -> 0 <= eps ->
  cwt py inst f a (lin 1 1 u v) s = (Ok (W, sc, dW), s') -> process_scales_arr f64 sc = Ok (KLog nv) ->
  pad_input (a_pad a) u = Ok (up, n1) -> exists vp, pad_input (a_pad a) v = Ok (vp, n1) /\
  ((forall k, (0 < k < length up)%nat -> dft (length up) (fun m => RtoC (nth m up 0)) k = C0 \/ Rabs (wgain f m sc nv Css (length up) k - 1) <= eps) ->
   (forall k, (0 < k < length up)%nat -> dft (length up) (fun m => RtoC (nth m vp 0)) k = C0 \/ Rabs (wgain f m sc nv Css (length up) k) <= eps) ->
   exists y, icwt f Css (weigh m W) sc f64 None true true xl xm pt rp = Ok y /\ length y = length u /\
     Rsum (length u) (fun j => (nth j y 0 - nth j u 0 - (xm - avg up)) ^ 2) <=
     2 * eps ^ 2 * (Rsum (length up) (fun i => (nth i up 0 - avg up) ^ 2) + Rsum (length up) (fun i => (nth i vp 0 - avg vp) ^ 2))).
Proof. exact (icwt_picks py inst f a u v s W sc dW s' up n1 f64 nv Css xl xm pt rp m eps). Qed.
Print Assumptions C162_picks.

(** two tones an octave apart, one row kept: exactly that tone *)
Example C162_case : exists W dW s', cwt false true octave (arg_d [1; 2; 4]) two_tones st0 = (Ok (W, [1; 2; 4], Some dW), s') /\
  exists y, icwt octave (ln 2) (weigh first W) [1; 2; 4] true None true true None 0 PReflect false = Ok y /\ length y = 8%nat /\
  forall j, (j < 8)%nat -> nth j y 0 = nth j (tone 1 0 2 8) 0.
Proof. exact cwt_filter_case. Qed.
