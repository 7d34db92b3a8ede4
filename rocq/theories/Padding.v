(** Model of signal padding: ssqueezepy/utils/common.py, [p2up] and [padsignal]. *)
From Coq Require Import Reals.
From Verif Require Import Py Round.
Local Open Scope Z_scope.

(** common.py:48: [np.round(np.log2(n))] in exact real arithmetic; [round_half_even]
    is numpy's rounding (Round.v). *)
Definition log2R (x : R) : R := (ln x / ln 2)%R.

(** common.py:32-51 [p2up], given the value [L] that [np.log2(n)] returned
    (exact: [L = log2R n]; a float log2 returns a nearby [L]). *)
Definition p2up_of_log (L : R) (n : Z) : Z * Z * Z :=
  let up := 2 ^ (1 + round_half_even L) in
  let n2 := (up - n) / 2 in
  let n1 := up - n - n2 in
  (up, n1, n2).

(** Same function, computable: [round(log2 n)] by integer comparison.
    [PaddingProofs.p2up_is_source] proves it equal to
    [p2up_of_log (log2R n) n] for every [n >= 1]. *)
Definition round_log2 (n : Z) : Z :=
  let f := Z.log2 n in
  if n * n <? 2 ^ (2 * f + 1) then f else f + 1.

Definition p2up (n : Z) : Z * Z * Z :=
  let up := 2 ^ (1 + round_log2 n) in
  let n2 := (up - n) / 2 in
  let n1 := up - n - n2 in
  (up, n1, n2).

(** common.py:94-106: accepted values of [padtype] for numpy input. *)
Inductive padtype := PZero | PReflect | PSymmetric | PReplicate | PWrap.

Definition padtype_eq_dec (a b : padtype) : {a = b} + {a <> b}.
Proof. decide equality. Defined.

(** common.py:111-121: pad widths. *)
Definition pad_widths (N : Z) (padlength : option Z) : Z * Z * Z :=
  match padlength with
  | None => p2up N
  | Some n_up =>
      if Z.abs (n_up - N) mod 2 =? 0
      then let n := (n_up - N) / 2 in (n_up, n, n)
      else let n2 := (n_up - N) / 2 in (n_up, n2 + 1, n2)
  end.

(** numpy's [np.pad] (external; modelled by its documented rule): sample [m] of the
    extended signal, [m] counted from the first original sample. *)
Definition np_pad_index (pt : padtype) (N m : Z) : option Z :=
  if (0 <=? m) && (m <? N) then Some m
  else match pt with
  | PZero => None
  | PReplicate => Some (if m <? 0 then 0 else N - 1)
  | PWrap => Some (m mod N)
  | PReflect =>
      if N =? 1 then Some 0          (* numpy extends a single sample by itself *)
      else let p := m mod (2 * (N - 1)) in
           Some (if p <? N then p else 2 * (N - 1) - p)
  | PSymmetric => None               (* not used: the source slices by hand *)
  end.

Definition np_pad {A} (zero : A) (pt : padtype) (x : list A) (n1 n2 : Z)
  : res (list A) :=
  if (n1 <? 0) || (n2 <? 0) then Err ValueError
  else
    let N := Z.of_nat (length x) in
    Ok (tab (Z.to_nat (n1 + N + n2))
            (fun i => match np_pad_index pt N (Z.of_nat i - n1) with
                      | Some k => nth (Z.to_nat k) x zero
                      | None => zero
                      end)).

(** common.py:54-158 [padsignal], 1-D numpy input, [get_params=True].
    The empty signal is outside the model. *)
Definition padsignal {A} (zero : A) (x : list A) (pt : padtype)
  (padlength : option Z) : res (list A * Z * Z * Z) :=
  match x with
  | [] => Err NotModelled
  | _ :: _ =>
    let N := Z.of_nat (length x) in
    let '(n_up, n1, n2) := pad_widths N padlength in
    match pt with
    | PSymmetric =>                                  (* lines 144-147 *)
        Ok (pyslice_from (rev x) (- n1) ++ x ++ pyslice_to (rev x) n2,
            n_up, n1, n2)
    | _ =>                                           (* lines 132-143 *)
        do xp <- np_pad zero pt x n1 n2;
        Ok (xp, n_up, n1, n2)
    end
  end.

(** 2-D input: the same widths on every row (lines 126-128, 148-149). *)
Fixpoint padsignal_rows {A} (zero : A) (xs : list (list A)) (pt : padtype)
  (padlength : option Z) : res (list (list A)) :=
  match xs with
  | [] => Ok []
  | x :: xs' =>
      do p <- padsignal zero x pt padlength;
      do ps <- padsignal_rows zero xs' pt padlength;
      let '(xp, _, _, _) := p in Ok (xp :: ps)
  end.

(** Torch input (lines 150-156): only 'zero' and 'reflect', and torch's reflect pad
    needs each pad shorter than the signal. *)
Definition padsignal_torch {A} (zero : A) (x : list A) (pt : padtype)
  (padlength : option Z) : res (list A * Z * Z * Z) :=
  match x with
  | [] => Err NotModelled
  | _ :: _ =>
    let N := Z.of_nat (length x) in
    let '(n_up, n1, n2) := pad_widths N padlength in
    match pt with
    | PZero => do xp <- np_pad zero PZero x n1 n2; Ok (xp, n_up, n1, n2)
    | PReflect =>
        if (n1 <? N) && (n2 <? N)
        then do xp <- np_pad zero PReflect x n1 n2; Ok (xp, n_up, n1, n2)
        else Err RuntimeError
    | _ => Err ValueError
    end
  end.
