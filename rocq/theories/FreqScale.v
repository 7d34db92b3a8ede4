(** experimental.py [scale_to_freq]. *)
From Coq Require Import Reals Lra.
From Verif Require Import Py Round Cplx Padding Freqs Squeeze Scales Cwt.
Local Open Scope R_scope.

(** numpy's order on complex numbers: real parts, then imaginary parts *)
Definition clt (a b : C) : bool :=
  Rltb' (Re a) (Re b) || (if Req_EM_T (Re a) (Re b) then Rltb' (Im a) (Im b) else false).
(** [np.argmax] of [g 0 .. g (n - 1)]: the first maximum *)
Fixpoint cargmax (g : nat -> C) (n : nat) : nat :=
  match n with
  | O => O
  | S m => let b := cargmax g m in if clt (g b) (g m) then m else b
  end.

(** experimental.py:118: [wavelet(scale=scales, N=Npad)] pads unless [padtype is None] *)
Definition padded_len (N : nat) (padtype_none : bool) : nat :=
  if padtype_none then N else Z.to_nat (fst (fst (p2up (Z.of_nat N)))).

(** 127-137: peak index of row [i] of [n_psis], after rounding of ill-behaved wavelets *)
Definition fix_idx (Npad n_psis i ix : nat) : nat :=
  if (Npad / 2 <? ix)%nat || (ix =? 0)%nat then
    if (n_psis / 2 <? i)%nat then 1%nat else (Npad / 2)%nat
  else ix.

(** 85-142 [scale_to_freq].  A one-element [scales] gives a 1-D [psis] (wavelets.py:119 adds
    the dimension only for two or more), so [idxs] is a numpy integer and [0 in idxs] or
    [enumerate(idxs)] raises; an empty [scales] does not broadcast.  [N >= 1] is assumed. *)
Definition scale_to_freq (f : wfun) (scales : list R) (N : nat) (fs : R) (padtype_none : bool) : res (list R) :=
  match scales with
  | [] => Err ValueError
  | [_] => Err TypeError
  | _ =>
      let Npad := padded_len N padtype_none in
      let psis := wavelet_call f scales Npad true in
      let idxs := tab (nrows psis) (fun i => cargmax (el psis i) (ncols psis)) in
      let bad := existsb (fun ix => (Npad / 2 <? ix)%nat || (ix =? 0)%nat) idxs in
      let idxs := if bad then tab (length idxs) (fun i => fix_idx Npad (nrows psis) i (nth i idxs 0%nat)) else idxs in
      let freqs := map (fun ix => INR ix / INR Npad) idxs in
      if existsb (fun x => Rltb' x 0) freqs then Err AssertionError
      else if existsb (fun x => Rltb' (1 / 2) x) freqs then Err AssertionError
      else Ok (map (fun x => x * fs) freqs)
  end.
