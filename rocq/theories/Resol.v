(** wavelets.py: time-domain wavelets, centre frequency, frequency and time resolution.
    numpy divisions by zero and roots of negative numbers give nan or inf, written [None].
    Only the numbers returned are modelled, not the plots and printed notes. *)
From Coq Require Import Reals Lra.
From Verif Require Import Py Cplx Squeeze Scales Freqs Cwt GmwOrders.
Local Open Scope R_scope.

(** numpy float division and [np.sqrt]; [None]: not finite *)
Definition npdiv (a b : R) : option R := if Req_EM_T b 0 then None else Some (a / b).
Definition npsqrt (a : R) : option R := if Rlt_dec a 0 then None else Some (sqrt a).
Definition obind {A B} (o : option A) (k : A -> option B) : option B :=
  match o with Some a => k a | None => None end.
(** scipy [integrate.trapezoid(y)] and [integrate.trapezoid(y, x)] *)
Definition trapz (y : list R) : R :=
  Rsum (length y - 1) (fun i => (nth i y 0 + nth (S i) y 0) / 2).
Definition trapzx (y x : list R) : R :=
  Rsum (length y - 1) (fun i => (nth (S i) x 0 - nth i x 0) * (nth i y 0 + nth (S i) y 0) / 2).

(** wavelets.py:62-84 [Wavelet.__call__(w)] on a 1D array *)
Definition wavelet_at (f : wfun) (w : list R) (nohalf : bool) : list C :=
  let p := Mat 1 (length w) (fun _ j => wf f (nth j w 0)) in
  let p := if nohalf then p else halve_nyquist p in
  let p := if wf_cplx f && drops_imag p then real_part p else p in
  tab (length w) (el p 0).
(** 103-107: [ifft(psih * (-1)**arange(n))] *)
Definition center_psi (psih : list C) : list C :=
  let n := length psih in
  tab n (idft n (fun k => Cmul (nth k psih C0) (RtoC (sgn1 k)))).
(** 97-108 [psifn(scale=scale, N=N)], [scale] a number *)
Definition psifn (f : wfun) (scale : R) (N : nat) : list C :=
  center_psi (wavelet_at f (map (Rmult scale) (xifn 1 N)) false).

(** 677-682 [_params]: [w] and [apsih2]; also 782-786 *)
Definition cf_w (N : nat) : list R := aifftshift 0 (xifn 1 N).
Definition apsih2 (f : wfun) (scale : R) (N : nat) : list R :=
  map Cnorm2 (wavelet_at f (map (Rmult scale) (cf_w N)) true).
Definition lmul (a b : list R) : list R := map (fun '(x, y) => x * y) (combine a b).

Inductive cf_kind := KEnergy | KPeak | KPeakCt | KOther.
(** 705 [(4/pi) * wc] *)
Definition well_scale (ct : R) : R := 4 / PI * ct.
(** 684-697 [_energy_wc] *)
Definition energy_wc (f : wfun) (ct : res R) (scale : R) (N : nat) (force_int : bool) : res (option R) :=
  if force_int then
    Ok (npdiv (trapz (lmul (apsih2 f scale N) (cf_w N))) (trapz (apsih2 f scale N)))
  else
    do c <- ct;
    let s := well_scale c in
    Ok (obind (npdiv (trapz (lmul (apsih2 f s N) (cf_w N))) (trapz (apsih2 f s N)))
              (fun wc => Some (wc * (s / scale)))).
(** 699-702 [_peak_wc] *)
Definition peak_wc (f : wfun) (scale : R) (N : nat) : R :=
  nth (argmax (apsih2 f scale N)) (cf_w N) 0.
(** 728: [force_int or True] *)
Definition force_or_true (force_int : option bool) : bool :=
  match force_int with Some true => true | _ => true end.
(** 611-738 [center_frequency].  [ct] is the outcome of [find_maximum(wavelet.fn)[0]] (Search.v);
    [inst]: [wavelet] is a [Wavelet] and not a name.  [N = 0]: numba's division by zero in
    [_xifn]. *)
Definition center_frequency (f : wfun) (inst : bool) (ct : res R) (scale : option R) (N : nat)
    (kind : cf_kind) (force_int : option bool) : res (option R) :=
  match kind with KOther => Err ValueError | _ =>
  do sc <- match scale, kind with
           | Some s, _ => Ok s
           | None, KPeakCt => Ok 0
           | None, _ => if inst then do wc <- ct; Ok (well_scale wc) else Err AttributeError
           end;
  match kind with
  | KEnergy => if (N =? 0)%nat then Err ZeroDivisionError
               else energy_wc f ct sc N (force_or_true force_int)
  | KPeak => if (N =? 0)%nat then Err ZeroDivisionError else Ok (Some (peak_wc f sc N))
  | _ => do wc <- ct; if (N =? 0)%nat then Err ZeroDivisionError else Ok (Some wc)
  end end.

(** 779, 900 *)
Definition use_formula (scale : R) (N : nat) (force_int : bool) : bool :=
  (Rltb' scale 4 || Rltb' (INR N / 5) scale) && negb force_int.
(** 740-808 [freq_resolution]; both calls of [center_frequency] leave [N] at its default 1024 *)
Definition var_w (f : wfun) (scale : R) (N : nat) (wce : R) : option R :=
  let w := cf_w N in
  npdiv (trapzx (lmul (map (fun x => (x - wce) ^ 2) w) (apsih2 f scale N)) w)
        (trapzx (apsih2 f scale N) w).
Definition freq_resolution (f : wfun) (ct : res R) (scale : R) (N : nat) (nondim force_int : bool)
    : res (option R) :=
  let formula := use_formula scale N force_int in
  do s <- (if formula then do c <- ct; Ok (well_scale c) else Ok scale);
  if (N =? 0)%nat then Err ZeroDivisionError else
  do wce <- center_frequency f true ct (Some s) 1024 KEnergy (Some force_int);
  let std := obind wce (fun wce => obind (var_w f s N wce) npsqrt) in
  let std := if formula then obind std (fun v => Some (v * (s / scale))) else std in
  if nondim then
    do wcp <- center_frequency f true ct (Some scale) 1024 KPeak None;
    Ok (obind std (fun v => obind wcp (fun c => npdiv v c)))
  else Ok std.

(** 877-886: [apsi2.max() / apsi2[:k].mean() > min_decay], with [x/0 = inf], [0/0 = nan] *)
Definition apsi2 (f : wfun) (scale : R) (Nt : nat) : list R := map Cnorm2 (psifn f scale Nt).
Definition decays (a : list R) (min_decay : R) : bool :=
  let mx := nth (argmax a) a 0 in
  let m := mean (firstn (Nat.max 10 (length a / 100)) a) in
  if Req_EM_T m 0 then Rltb' 0 mx else Rltb' min_decay (mx / m).
(** 872-893 [_make_integration_t]: the chosen [mult]; [n]: how many values of [mult] are still to be tried *)
Fixpoint find_mult (f : wfun) (scale : R) (N : nat) (min_decay : R) (mult n : nat) : res nat :=
  match n with
  | O => Err PlainException
  | S n =>
      if (mult * N =? 0)%nat then Err ZeroDivisionError
      else if decays (apsi2 f scale (mult * N)) min_decay then Ok mult
      else find_mult f scale N min_decay (S mult) n
  end.
Definition integration_t (mult N : nat) : list R :=
  tab (mult * N) (fun i => - (INR mult * INR N / 2) + INR i).
(** 910-917 *)
Definition var_t (f : wfun) (scale : R) (t : list R) : option R :=
  let Nt := length t in
  let a := map Cnorm2 (center_psi (wavelet_at f (map (Rmult scale) (xifn 1 Nt)) false)) in
  npdiv (trapzx (lmul (map (fun x => x ^ 2) t) a) t) (trapzx a t).
(** 811-926 [time_resolution] *)
Definition time_resolution (f : wfun) (ct : res R) (scale : R) (N : nat) (min_decay : R)
    (max_mult min_mult : nat) (force_int nondim : bool) : res (option R) :=
  let formula := use_formula scale N force_int in
  do s <- (if formula then do c <- ct; Ok (well_scale c) else Ok scale);
  do mult <- find_mult f s N min_decay min_mult (S max_mult - min_mult);
  let std := obind (var_t f s (integration_t mult N)) npsqrt in
  let std := if formula then obind std (fun v => Some (v * (scale / s))) else std in
  if nondim then
    do wc <- center_frequency f true ct (Some scale) N KPeak None;
    Ok (obind std (fun v => obind wc (fun c => Some (v * c))))
  else Ok std.
