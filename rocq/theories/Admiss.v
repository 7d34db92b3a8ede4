(** utils/cwt_utils.py [integrate_analytic], [adm_ssq], [adm_cwt]; algos.py [_min_neglect_idx].
    Integrands are real functions applied entry by entry (the transforms of the wavelets are real;
    [np.argmax] of complex arrays is not modelled); floats are exact reals. *)
From Coq Require Import Reals Lra.
From Verif Require Import Py Cplx Squeeze Resol.
Local Open Scope R_scope.

(** algos.py:617-622: of an empty array the name [i] is never bound *)
Fixpoint min_neglect_from (arr : list R) (th : R) (i : nat) : res nat :=
  match arr with
  | [] => Err UnboundLocalError
  | [x] => Ok i
  | x :: arr' => if Rlt_dec x th then Ok i else min_neglect_from arr' th (S i)
  end.
Definition min_neglect_idx (arr : list R) (th : R) : res nat := min_neglect_from arr th 0.

(** 592: [np.linspace(mxlim, .1, N, endpoint=False)[::-1]] *)
Definition est_t (mxlim : R) (N : nat) : list R :=
  rev (tab N (fun k => mxlim + INR k * ((1 / 10 - mxlim) / INR N))).
(** 591-598 [_est_arr]; [N] is never 0 here *)
Definition est_arr (fn : R -> R) (mxlim : R) (N : nat) : res (list R * list R * nat) :=
  let t := est_t mxlim N in
  let arr := map fn t in
  let max_idx := argmax arr in
  do k <- min_neglect_idx (map Rabs (skipn max_idx arr)) (1 / 10 ^ 15);
  Ok (arr, t, (k + max_idx)%nat).

(** 619-621 [_integrate_near_zero]: [np.logspace(-15, -1, 1000)] *)
Definition near_t : list R := tab 1000 (fun i => Rpower 10 (-15 + INR i * (14 / 999))).
Definition near_zero (fn : R -> R) : R := trapzx (map fn near_t) near_t.

(** 601-602: the pairs (m, mxlim) *)
Definition attempts : list (Z * R) := [(1%Z, 1); (1%Z, 20); (4%Z, 80); (8%Z, 160)].
(** 602-607: the loop; on exhaustion its last values stay; [true]: left by [break] *)
Fixpoint search (fn : R -> R) (l : list (Z * R)) (last : list R * list R * nat) : res (bool * (list R * list R * nat)) :=
  match l with
  | [] => Ok (false, last)
  | (m, mxlim) :: l' =>
      do (arr, t, idx) <- est_arr fn mxlim (Z.to_nat (10000 * m));
      if (1000 * m <? Z.of_nat (length t) - Z.of_nat idx)%Z
         && (if Rlt_dec (1 / 10 ^ 5) (lsum (map Rabs arr)) then true else false)
      then Ok (true, (arr, t, idx))
      else search fn l' (arr, t, idx)
  end.
(** 583-625; the second component: whether the warning is shown ([nowarn] false) *)
Definition integrate_analytic (fn : R -> R) (nowarn : bool) : res (R * bool) :=
  let int_nz := near_zero fn in
  do (ok, (arr, t, idx)) <- search fn attempts ([], [], 0%nat);
  if negb ok && (if Rlt_dec int_nz (1 / 10 ^ 5) then true else false) then Err PlainException
  else Ok (trapzx (firstn idx arr) (firstn idx t) + int_nz, negb ok && negb nowarn).

(** 28-47 [adm_ssq], 50-63 [adm_cwt]; the imaginary parts are 0 *)
Definition adm_ssq (psi : R -> R) : res R :=
  do (v, _) <- integrate_analytic (fun w => psi w / w) false; Ok v.
Definition adm_cwt (psi : R -> R) : res R :=
  do (v, _) <- integrate_analytic (fun w => psi w * psi w / w) false; Ok v.
