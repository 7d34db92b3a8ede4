(** utils/stft_utils.py: [window_resolution], [window_area].  numpy divisions by zero and roots of
    negative numbers give nan or inf, written [None]. *)
From Coq Require Import Reals Lra.
From Verif Require Import Py Buffer Cplx Squeeze Freqs Resol.
Local Open Scope R_scope.

(** 204, 229: [np.arange(-N/2, N/2, step=1)] *)
Definition win_t (N : nat) : list R := tab N (fun i => - (INR N / 2) + INR i).
(** 205, 231: [fftshift(_xifn(1, N))], numpy's [fftshift] *)
Definition win_w (N : nat) : list R := fftshift (xifn 1 N).
(** 207-209, 232: [np.abs(fftshift(fft(window)))**2] *)
Definition win_spec (window : list R) : list R :=
  let N := length window in
  map Cnorm2 (fftshift (tab N (dft N (fun m => RtoC (nth m window 0))))).
(** 208: [np.abs(window)**2] *)
Definition win_energy (window : list R) : list R := map (fun x => Rabs x ^ 2) window.
Definition second_moment (y x : list R) : option R :=
  npdiv (trapzx (lmul (map (fun u => u ^ 2) x) y) x) (trapzx y x).

(** 194-216 [window_resolution]: std_w, std_t, harea; [min] of an empty array raises *)
Definition window_resolution (window : list R) : res (option R * option R * option R) :=
  if (length window =? 0)%nat then Err ValueError
  else if existsb (fun x => if Rlt_dec x 0 then true else false) window then Err AssertionError
  else
    let N := length window in
    let std_w := obind (second_moment (win_spec window) (win_w N)) npsqrt in
    let std_t := obind (second_moment (win_energy window) (win_t N)) npsqrt in
    Ok (std_w, std_t, obind std_w (fun a => obind std_t (fun b => Some (a * b)))).

(** 219-239 [window_area]; [_xifn] of length 0 divides by zero *)
Inductive area := AreaT (at_ : R) | AreaW (aw : R) | AreaTW (at_ aw : R).
Definition window_area (window : list R) (time frequency : bool) : res area :=
  let N := length window in
  let at_ := trapzx (win_energy window) (win_t N) in
  let aw := trapzx (win_spec window) (win_w N) in
  match time, frequency with
  | false, false => Err ValueError
  | true, false => Ok (AreaT at_)
  | t, true => if (N =? 0)%nat then Err ZeroDivisionError else Ok (if t then AreaTW at_ aw else AreaW aw)
  end.
