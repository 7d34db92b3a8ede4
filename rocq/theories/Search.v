(** algos.py [find_maximum] and [find_first_occurrence].  The argument [fn] is a function of one
    real; [f] below is its absolute value, which is all the code looks at.  NaN outputs are not
    modelled.  The loops are run for a given number of rounds; [None] means "still running". *)
From Coq Require Import Reals Lra.
From Verif Require Import Py Round Cplx Squeeze Scales.
Local Open Scope R_scope.

(** Python's [int] of a float: towards zero *)
Definition py_int (x : R) : Z := if Rle_dec 0 x then Int_part x else (- Int_part (- x))%Z.

(** step_size, steps_per_search, step_start, step_limit *)
Record sargs := SA { sa_size : R; sa_steps : R; sa_start : R; sa_limit : R }.
(** algos.py:633, 635, 671-672 *)
Definition n_steps (a : sargs) : Z := py_int (sa_steps a).
Definition increment (a : sargs) : Z := py_int (IZR (n_steps a) * sa_size a).
(** 642-644: [np.linspace(start, end, steps_per_search, endpoint=False)] of search [k] *)
Definition inputs (a : sargs) (k : nat) : list R :=
  let start := sa_start a + IZR (increment a) * INR k in
  let end_ := start + IZR (increment a) in
  tab (Z.to_nat (n_steps a)) (fun i => start + INR i * ((end_ - start) / IZR (n_steps a))).
(** [arr.max()] *)
Definition lmax (l : list R) : R := nth (argmax l) l 0.

(** 641-660, from search [k] on, with [largest_max] and [input_value] (unset: [None]) *)
Fixpoint fm_loop (f : R -> R) (a : sargs) (fuel k : nat) (largest : R) (best : option R)
  : option (res (R * R)) :=
  match fuel with
  | O => None
  | S fuel =>
      let ins := inputs a k in
      let outs := map f ins in
      let output_max := lmax outs in
      let next largest best :=
        if Rlt_dec (sa_limit a) (lmax ins) then Some (Err ValueError)
        else fm_loop f a fuel (S k) largest best in
      if Rlt_dec largest output_max then next output_max (Some (nth (argmax outs) ins 0))
      else if Rlt_dec output_max largest then
        Some match best with Some x => Ok (x, largest) | None => Err UnboundLocalError end
      else next largest best
  end.
(** 625-662 [find_maximum]; no steps per search is a ValueError from [np.ones] or [max] *)
Definition find_maximum (f : R -> R) (a : sargs) (min_value : R) (fuel : nat) : option (res (R * R)) :=
  if (n_steps a <=? 0)%Z then Some (Err ValueError) else fm_loop f a fuel 0 min_value None.

(** 680-702 [find_first_occurrence], from search [k] on *)
Fixpoint fo_loop (f : R -> R) (value : R) (a : sargs) (fuel k : nat) : option (res (R * R)) :=
  match fuel with
  | O => None
  | S fuel =>
      let ins0 := inputs a k in
      let exceeded := Rltb' (sa_limit a) (lmax ins0) in
      let ins := if exceeded then map (fun x => Rmin x (sa_limit a)) ins0 else ins0 in
      let outs := map f ins in
      let mxdiff := lmax (map Rabs (diff outs)) in
      let dist := map (fun y => Rabs (y - value)) outs in
      if existsb (fun d => if Rle_dec d mxdiff then true else false) dist
      then Some (Ok (nth (argmin dist) ins 0, nth (argmin dist) outs 0))
      else if exceeded then Some (Err ValueError)
      else fo_loop f value a fuel (S k)
  end.
(** 665-703; with fewer than two steps [np.diff] is empty and [max] raises *)
Definition find_first_occurrence (f : R -> R) (value : R) (a : sargs) (fuel : nat) : option (res (R * R)) :=
  if (n_steps a <=? 1)%Z then Some (Err ValueError) else fo_loop f value a fuel 0.
