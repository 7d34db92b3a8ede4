(** ssqueezepy/algos.py: the squeezing kernels, their index computation and drivers. *)
From Coq Require Import Reals Lra.
From Verif Require Import Py Round Parallel Cplx.
Local Open Scope R_scope.

(** ** Index computation *)

(** [np.finfo(float64).eps], utils/common.py:13 *)
Definition EPS64 : R := / 4503599627370496.

(** algos.py:347-353 (the warning is not modelled) *)
Definition ensure_nonzero_nonnegative (x : R) : R := if Rlt_dec x EPS64 then EPS64 else x.

Definition log2 (x : R) : R := ln x / ln 2.

(** first index of the maximum, [np.argmax]; [-1] entries never occur (called on
    absolute values) *)
Fixpoint argmax_from (l : list R) (i best : nat) (bv : R) : nat :=
  match l with
  | [] => best
  | y :: l' => if Rlt_dec bv y then argmax_from l' (S i) i y else argmax_from l' (S i) best bv
  end.
Definition argmax (l : list R) : nat :=
  match l with [] => 0%nat | y :: l' => argmax_from l' 1 0 y end.

Fixpoint diff (l : list R) : list R :=
  match l with
  | x :: ((y :: _) as l') => (y - x) :: diff l'
  | _ => []
  end.
Fixpoint set_nth {A} (l : list A) (i : nat) (v : A) : list A :=
  match l, i with
  | [], _ => []
  | _ :: l', O => v :: l'
  | y :: l', S i' => y :: set_nth l' i' v
  end.
Definition lsum (l : list R) : R := fold_right Rplus 0 l.
Definition mean (l : list R) : R := lsum l / INR (length l).

(** utils/cwt_utils.py:375-394 [logscale_transition_idx], exact logarithms.  [f64]: the
    array is float64.  Fewer than 3 entries: [argmax] of an empty array raises. *)
Definition logscale_transition_idx (f64 : bool) (scales : list R) : res (option nat) :=
  let d2 := map Rabs (diff (diff (map ln scales))) in
  match d2 with
  | [] => Err ValueError
  | _ =>
      let idx := (argmax d2 + 2)%nat in
      let diff2_max := nth (argmax d2) d2 0 in
      let rest := set_nth d2 (idx - 2) 0 in
      let th := if f64 then / 100000000000000 else / 1000000 in
      if Rlt_dec (100 * mean (map Rabs rest)) diff2_max
      then if forallb (fun y => if Rlt_dec (Rabs y) th then true else false) rest
           then Ok (Some idx) else Ok None
      else Ok None
  end.

(** parameters of the three kernel families *)
Inductive grid :=
| GLin (vmin dv : R)
| GLog (vlmin dvl : R)
| GPiece (vlmin0 vlmin1 dvl0 dvl1 : R) (idx1 : Z).

(** algos.py:356-374 [_get_params_find_closest_log] *)
Definition get_params_log (f64 : bool) (v : list R) : res grid :=
  do idx <- logscale_transition_idx f64 v;
  let lv i := log2 (nth i v 0) in
  match idx with
  | None => Ok (GLog (lv 0%nat) (ensure_nonzero_nonnegative (lv 1%nat - lv 0%nat)))
  | Some i =>
      Ok (GPiece (lv 0%nat) (lv (i - 1)%nat)
                 (ensure_nonzero_nonnegative (lv 1%nat - lv 0%nat))
                 (ensure_nonzero_nonnegative (lv i - lv (i - 1)%nat))
                 (Z.of_nat i - 1))
  end.

(** algos.py:81-87, within [_process_ssq_params] *)
Definition get_grid (f64 logscale : bool) (v : list R) : res grid :=
  if logscale then get_params_log f64 v
  else match v with
       | v0 :: v1 :: _ => Ok (GLin v0 (ensure_nonzero_nonnegative (v1 - v0)))
       | _ => Err IndexError
       end.

(** [round(x)] in numba: nearest even, then a float-to-int64 conversion.  Out of range the
    conversion is undefined; on x86-64 it gives the least int64. *)
Definition i64_min : Z := (- 2 ^ 63)%Z.
Definition rnd_i64 (r : R) : Z :=
  let k := round_half_even r in
  if ((i64_min <=? k) && (k <? 2 ^ 63))%Z then k else i64_min.

(** [np.log2(w)] for [w >= 0]; [None] is -inf *)
Definition log2e (w : R) : option R := if Rlt_dec 0 w then Some (log2 w) else None.

(** algos.py:231-250 [_indexed_sum_lin], 928-984 [_ssq_cwt_lin], [_ssq_stft] *)
Definition bin_lin (omax : Z) (vmin dv w : R) : Z :=
  Z.min (rnd_i64 (Rmax ((w - vmin) / dv) 0)) omax.
(** algos.py:173-192 [_indexed_sum_log], 899-924 [_ssq_cwt_log] *)
Definition bin_log (omax : Z) (vlmin dvl w : R) : Z :=
  Z.min (rnd_i64 (match log2e w with
                  | None => 0                                     (* max(-inf, 0) *)
                  | Some l => Rmax ((l - vlmin) / dvl) 0
                  end)) omax.
(** algos.py:196-227 [_indexed_sum_log_piecewise]: the lower branch has no upper clamp *)
Definition bin_piece (omax : Z) (vlmin0 vlmin1 dvl0 dvl1 : R) (idx1 : Z) (w : R) : Z :=
  match log2e w with
  | None => rnd_i64 0                                             (* max(-inf, 0) *)
  | Some wl =>
      if Rlt_dec vlmin1 wl then Z.min (rnd_i64 ((wl - vlmin1) / dvl1) + idx1) omax
      else rnd_i64 (Rmax ((wl - vlmin0) / dvl0) 0)
  end.
(** algos.py:860-895 [_ssq_cwt_log_piecewise]: rounds before clamping at 0 *)
Definition bin_piece_fast (omax : Z) (vlmin0 vlmin1 dvl0 dvl1 : R) (idx1 : Z) (w : R) : Z :=
  match log2e w with
  | None => Z.max i64_min 0
  | Some wl =>
      if Rlt_dec vlmin1 wl then Z.min (rnd_i64 ((wl - vlmin1) / dvl1) + idx1) omax
      else Z.max (rnd_i64 ((wl - vlmin0) / dvl0)) 0
  end.

Definition bin_onfly (omax : Z) (g : grid) (w : R) : Z :=
  match g with
  | GLin vmin dv => bin_lin omax vmin dv w
  | GLog vlmin dvl => bin_log omax vlmin dvl w
  | GPiece a b c d i => bin_piece omax a b c d i w
  end.
Definition bin_fast (omax : Z) (g : grid) (w : R) : Z :=
  match g with
  | GLin vmin dv => bin_lin omax vmin dv w
  | GLog vlmin dvl => bin_log omax vlmin dvl w
  | GPiece a b c d i => bin_piece_fast omax a b c d i w
  end.

(** CUDA kernels, algos.py:1007-1260: [(int)round(x)] rounds half away from zero and
    saturates to int32; int32 addition wraps. *)
Definition i32_min : Z := (- 2 ^ 31)%Z.
Definition rnd_i32 (r : R) : Z := Z.max i32_min (Z.min (2 ^ 31 - 1) (round_half_away r)).
Definition wrap32 (k : Z) : Z := ((k + 2 ^ 31) mod 2 ^ 32 - 2 ^ 31)%Z.
Definition clamp_gpu (M k : Z) : Z :=
  (if k >=? M then M - 1 else if k <? 0 then 0 else k)%Z.
Definition bin_gpu (M : Z) (g : grid) (w : R) : Z :=
  match g with
  | GLin vmin dv => clamp_gpu M (rnd_i32 ((w - vmin) / dv))
  | GLog vlmin dvl =>
      clamp_gpu M (match log2e w with
                   | None => i32_min
                   | Some l => rnd_i32 ((l - vlmin) / dvl)
                   end)
  | GPiece vlmin0 vlmin1 dvl0 dvl1 idx1 =>
      match log2e w with
      | None => 0
      | Some wl =>
          if Rlt_dec vlmin1 wl then
            let k := wrap32 (rnd_i32 ((wl - vlmin1) / dvl1) + idx1) in
            if (k >=? M)%Z then M - 1 else k
          else let k := rnd_i32 ((wl - vlmin0) / dvl0) in if (k <? 0)%Z then 0 else k
      end%Z
  end.

(** ** The accumulating loops *)
Definition cellZ_dec (a b : Z * nat) : {a = b} + {a <> b}.
Proof. decide equality; [apply Nat.eq_dec|apply Z.eq_dec]. Defined.

Section Kernel.
Variable V : Type.
Variable add : V -> V -> V.
Variable zero : V.

(** [out[k, j] += val] where [row i j] is the index ([None]: [continue]) *)
Definition sq_body (row : nat -> nat -> option Z) (val : nat -> nat -> V) (i j : nat)
  : list (mop (Z * nat) V) :=
  match row i j with
  | None => []
  | Some k => [MLoad (k, j); MStore (k, j) (fun r => add r (val i j))]
  end.

(** the store after the loops, for a given order of the micro-steps *)
Definition sq_exec (out0 : Z * nat -> V) (tr : list (event (Z * nat) V)) : Z * nat -> V :=
  fst (exec cellZ_dec tr (out0, fun _ => zero)).

(** serial kernels: [for i: for j:]; parallel kernels: [for j in prange: for i:] *)
Definition sq_serial (m n : nat) row val : list (event (Z * nat) V) :=
  nest m n (sq_body row val).
Definition sq_par_progs (m n : nat) row val : nat -> list (mop (Z * nat) V) :=
  nest_progs m n (sq_body row val).

(** an array passed as or returned from [out] *)
Definition mat_store (M : mat V) : Z * nat -> V :=
  fun c => if (0 <=? fst c)%Z then el M (Z.to_nat (fst c)) (snd c) else zero.
Definition store_mat (m n : nat) (s : Z * nat -> V) : mat V :=
  Mat m n (fun i j => s (Z.of_nat i, j)).

(** algos.py:22-41 [indexed_sum]; [parallel=None] falls back on the configuration, the
    parallel loop is run in the order [tr] *)
Definition indexed_sum (is_parallel : bool) (parallel : option bool)
  (tr : list (event (Z * nat) V)) (a : mat V) (k : nat -> nat -> Z) : mat V :=
  let par := match parallel with Some b => b | None => is_parallel end in
  let row i j := Some (k i j) in
  store_mat (nrows a) (ncols a)
    (sq_exec (fun _ => zero)
       (if par then tr else sq_serial (nrows a) (ncols a) row (el a))).
End Kernel.
Arguments sq_body {V} add row val i j.
Arguments sq_exec {V} zero out0 tr.
Arguments sq_serial {V} add m n row val.
Arguments sq_par_progs {V} add m n row val.
Arguments mat_store {V} zero M.
Arguments store_mat {V} m n s.
Arguments indexed_sum {V} add zero is_parallel parallel tr a k.

(** ** Phase transforms, algos.py:706-856.  [6.283185307179586] is taken as 2*pi; a
    division by zero (only possible with [gamma <= 0]) is not modelled. *)
Inductive fval := Fin (r : R) | Inf.

Definition phase_ratio (W dW : C) : R :=
  (Im dW * Re W - Re dW * Im W) / ((Re W * Re W + Im W * Im W) * (2 * PI)).
Definition phase_cwt_pt (W dW : C) : R := Rabs (phase_ratio W dW).
Definition phase_stft_pt (Sf : R) (W dW : C) : R := Rabs (Sf - phase_ratio W dW).

(** [phase_cwt_cpu] / [phase_cwt_gpu] and [phase_stft_cpu] / [phase_stft_gpu] *)
Definition phase_cwt (gamma : R) (Wx dWx : mat C) : mat fval :=
  Mat (nrows Wx) (ncols Wx) (fun i j =>
    if Rlt_dec (Cabs (el Wx i j)) gamma then Inf
    else Fin (phase_cwt_pt (el Wx i j) (el dWx i j))).
Definition phase_stft (Sfs : list R) (gamma : R) (Wx dWx : mat C) : mat fval :=
  Mat (nrows Wx) (ncols Wx) (fun i j =>
    if Rlt_dec (Cabs (el Wx i j)) gamma then Inf
    else Fin (phase_stft_pt (nth i Sfs 0) (el Wx i j) (el dWx i j))).

(** ** Drivers, exact arithmetic *)
Inductive const_arg := CScalar (c : R) | CArr (l : list R).

(** algos.py:65-79.  With a single row every form of [const] ends up 0-dimensional and
    indexing it raises (AttributeError for Python scalars, numba typing error else). *)
Definition const_arr (m : nat) (c : const_arg) : res (list R) :=
  if (m =? 1)%nat then Err TypeError
  else match c with
       | CScalar r => Ok (repeat r m)
       | CArr l => if (length l =? m)%nat then Ok l
                   else if (length l =? 1)%nat then Ok (repeat (nth 0 l 0) m)
                   else Err ValueError
       end.

Definition flip_row (flipud : bool) (omax k : Z) : Z := if flipud then (omax - k)%Z else k.

Definition onfly_row (omax : Z) (g : grid) (flipud : bool) (w : fval) : option Z :=
  match w with
  | Inf => None
  | Fin r => Some (flip_row flipud omax (bin_onfly omax g r))
  end.
Definition fast_row (omax : Z) (g : grid) (flipud : bool) (gamma : R) (ph : C -> C -> R)
  (W dW : C) : option Z :=
  if Rlt_dec gamma (Cabs W) then Some (flip_row flipud omax (bin_fast omax g (ph W dW)))
  else None.

(** the order in which a loop nest is executed: [nest] for the serial kernels, any
    schedule of [nest_progs] for the parallel ones *)
Definition order := nat -> nat -> (nat -> nat -> list (mop (Z * nat) C)) -> list (event (Z * nat) C).
Definition serial_order : order := fun m n body => nest m n body.

Definition squeeze_rows (ord : order) (out : mat C) (row : nat -> nat -> option Z)
  (Wx : mat C) (cst : list R) : mat C :=
  let val i j := Cmul (el Wx i j) (RtoC (nth i cst 0)) in
  store_mat (nrows out) (ncols out)
    (sq_exec C0 (mat_store C0 out) (ord (nrows Wx) (ncols Wx) (sq_body Cadd row val))).

(** algos.py:153-169 [indexed_sum_onfly] *)
Definition indexed_sum_onfly (ord : order) (f64 : bool) (Wx : mat C) (w : mat fval)
  (v : list R) (cst : const_arg) (logscale flipud : bool) (out : mat C) : res (mat C) :=
  do ca <- const_arr (nrows Wx) cst;
  do g <- get_grid f64 logscale v;
  let omax := (Z.of_nat (nrows out) - 1)%Z in
  Ok (squeeze_rows ord out (fun i j => onfly_row omax g flipud (el w i j)) Wx ca).

(** algos.py:126-150 [ssqueeze_fast]; [Sfs = None] is the CWT.  [fn_name] drops the
    '_par' suffix for the STFT, whose loop is therefore always the serial one (allowing
    any order is more general).  STFT kernels exist for linear frequencies only: the log
    parameters are unexpected keywords. *)
Definition ssqueeze_fast (ord : order) (f64 : bool) (Wx dWx : mat C) (v : list R)
  (cst : const_arg) (logscale flipud : bool) (gamma : R) (Sfs : option (list R))
  (out : mat C) : res (mat C) :=
  do ca <- const_arr (nrows Wx) cst;
  do g <- get_grid f64 logscale v;
  let omax := (Z.of_nat (nrows out) - 1)%Z in
  match Sfs, logscale with
  | Some _, true => Err TypeError
  | _, _ =>
      let ph i := match Sfs with
                  | None => phase_cwt_pt
                  | Some s => phase_stft_pt (nth i s 0)
                  end in
      Ok (squeeze_rows ord out
            (fun i j => fast_row omax g flipud gamma (ph i) (el Wx i j) (el dWx i j)) Wx ca)
  end.

(** ** find_closest, algos.py:254-449 *)

(** [find_closest_lin]/[_log]: [omax] is [len(a) - 1], the number of ROWS of [a] *)
Definition find_closest_lin (a : mat R) (v : list R) : res (mat Z) :=
  match v with
  | v0 :: v1 :: _ =>
      Ok (Mat (nrows a) (ncols a)
            (fun i j => bin_lin (Z.of_nat (nrows a) - 1) v0 (v1 - v0) (el a i j)))
  | _ => Err IndexError
  end.
Definition find_closest_log (f64 : bool) (a : mat R) (v : list R) : res (mat Z) :=
  do g <- get_params_log f64 v;
  Ok (Mat (nrows a) (ncols a)
        (fun i j => bin_onfly (Z.of_nat (nrows a) - 1) g (el a i j))).

(** [np.argmin(np.abs(a - v))], algos.py:321-327 [find_closest_brute]: first minimiser *)
Fixpoint argmin_from (l : list R) (i best : nat) (bv : R) : nat :=
  match l with
  | [] => best
  | y :: l' => if Rlt_dec y bv then argmin_from l' (S i) i y else argmin_from l' (S i) best bv
  end.
Definition argmin (l : list R) : nat :=
  match l with [] => 0%nat | y :: l' => argmin_from l' 1 0 y end.
Definition find_closest_brute (a : R) (v : list R) : nat :=
  argmin (map (fun y => Rabs (a - y)) v).

(** [np.searchsorted(vs, a)] (side='left'): number of leading entries [< a] *)
Fixpoint searchsorted (vs : list R) (a : R) : nat :=
  match vs with
  | [] => 0
  | y :: vs' => if Rlt_dec y a then S (searchsorted vs' a) else 0
  end.

(** algos.py:330-344 [find_closest_smart] for one entry; [sidx] is [v.argsort()], whose
    order among equal entries numpy leaves open *)
Definition find_closest_smart (sidx : list nat) (v : list R) (a : R) : nat :=
  let v_s := map (fun i => nth i v 0) sidx in
  let idx0 := searchsorted v_s a in
  let idx := if (idx0 =? length v)%nat then (length v - 1)%nat else idx0 in
  let prev := (idx - 1)%nat in                       (* clip(min=0) *)
  let m := if Rge_dec (Rabs (a - nth idx v_s 0)) (Rabs (nth prev v_s 0 - a)) then true else false in
  let m := if (idx =? 0)%nat then false else m in
  nth (if m then (idx - 1)%nat else idx) sidx 0%nat.
