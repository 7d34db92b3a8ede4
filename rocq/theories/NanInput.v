(** _cwt.py:207-216: [cwt] on arrays with NaN or infinite samples, and the caller's array
    afterwards.  NumPy input. *)
From Coq Require Import Reals Lra.
From Verif Require Import Py Round Parallel Cplx Padding Buffer Freqs Squeeze Scales Cwt Pointwise.
Local Open Scope R_scope.

(** [x.max()], [x.min()]: NaN if any entry is *)
Definition nmax (a b : num) : num :=
  if isnan a || isnan b then NaN else if num_lt a b then b else a.
Definition nmin (a b : num) : num :=
  if isnan a || isnan b then NaN else if num_lt b a then b else a.
Definition np_max (l : list num) : res num :=
  match l with [] => Err ValueError | y :: ys => Ok (fold_left nmax ys y) end.
Definition np_min (l : list num) : res num :=
  match l with [] => Err ValueError | y :: ys => Ok (fold_left nmin ys y) end.

(** [np.isnan(x.max()) or np.isinf(x.max()) or np.isinf(x.min())] *)
Definition found_bad (l : list num) : res bool :=
  do M <- np_max l; do m <- np_min l; Ok (isnan M || isinf M || isinf m).

(** a 1-D array, and a 2-D array of [n] columns, as [replace_at_inf_or_nan] sees them *)
Definition arr1 (x : list num) : arr3 := A3 (length x) 1 1 (fun '(i, _, _) => nth i x NaN).
Definition arr2 (n : nat) (xs : list (list num)) : arr3 :=
  A3 (length xs) n 1 (fun '(i, j, _) => nth j (nth i xs []) NaN).

(** the caller's array after the check, and whether it warned.  [nan_checks=None] checks NumPy
    arrays. *)
Definition wants (nan_checks : option bool) : bool := match nan_checks with Some b => b | None => true end.
Definition process_nan (nan_checks : option bool) (x : list num) : res (list num * bool) :=
  if wants nan_checks then
    do b <- found_bad x;
    if b then do y <- replace_at AtInfOrNan (arr1 x) None (Num 0);
              Ok (tab (length x) (fun i => at3 y (i, 0, 0)%nat), true)
    else Ok (x, false)
  else Ok (x, false).
Definition process_nan2 (nan_checks : option bool) (n : nat) (xs : list (list num))
  : res (list (list num) * bool) :=
  if wants nan_checks then
    do b <- found_bad (concat xs);
    if b then do y <- replace_at AtInfOrNan (arr2 n xs) None (Num 0);
              Ok (tab (length xs) (fun i => tab n (fun j => at3 y (i, j, 0)%nat)), true)
    else Ok (xs, false)
  else Ok (xs, false).

(** the samples, if all are finite; the transform of others is not modelled *)
Fixpoint samples (x : list num) : option (list R) :=
  match x with
  | [] => Some []
  | Num r :: x' => match samples x' with Some l => Some (r :: l) | None => None end
  | _ :: _ => None
  end.

(** [cwt(x, ..., nan_checks=...)], 1-D: the result and the caller's array afterwards *)
Definition cwt_np (nan_checks : option bool) (py inst : bool) (f : wfun) (a : cwt_args)
  (x : list num) : M (mat C * list R * option (mat C)) * list num :=
  match process_nan nan_checks x with
  | Err e => (lift (Err e), x)
  | Ok (x', _) => (match samples x' with
                   | Some r => cwt py inst f a r
                   | None => lift (Err NotModelled)
                   end, x')
  end.

(** [order > 0], _cwt.py:233-239, 586-592: [nan_checks] is not handed on, so the transform for
    each order checks; the caller's array after the calls for the wavelets [fs] *)
Fixpoint cwt_np_orders (nan_checks : option bool) (py : bool) (fs : list wfun) (a : cwt_args)
  (x : list num) : list (M (mat C * list R * option (mat C))) * list num :=
  match fs with
  | [] => ([], x)
  | f :: fs' => let '(r, x1) := cwt_np None py true f a x in
                let '(rs, x2) := cwt_np_orders nan_checks py fs' a x1 in (r :: rs, x2)
  end.
