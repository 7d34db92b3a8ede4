(** Element-by-element kernels: CPU loops, CUDA launches, [replace_*], [zero_denormals],
    phase transforms. *)
From Verif Require Import Py Parallel Cplx Squeeze.
Local Open Scope R_scope.

(** ** Loops over cells *)
Section PW.
Variables Cell V : Type.
(** [op c]: what the loop body does at cell [c]; iteration (or thread) [t] handles the cells
    of [cells] that [own] assigns to it, in order.  [own = fun _ => 0] is the serial loop,
    [own = row of c] the [prange] loop over rows, other choices any other chunking. *)
Definition pw_progs (cells : list Cell) (own : Cell -> nat) (op : Cell -> list (mop Cell V))
  (t : nat) : list (mop Cell V) :=
  concat (map op (filter (fun c => (own c =? t)%nat) cells)).
Definition pw_serial (cells : list Cell) (op : Cell -> list (mop Cell V)) : list (event Cell V) :=
  concat (map (fun c => tag 0 (op c)) cells).

(** [if cond: out[c] = v], the condition on other arrays *)
Definition put_op (cond : Cell -> bool) (v : Cell -> V) (c : Cell) : list (mop Cell V) :=
  if cond c then [MStore c (fun _ => v c)] else [].
(** [if cond(out[c]): out[c] = v]; not storing is storing what was read *)
Definition own_op (cond : V -> bool) (v : V) (c : Cell) : list (mop Cell V) :=
  [MLoad c; MStore c (fun r => if cond r then v else r)].
End PW.
Arguments pw_progs {Cell V} cells own op t.
Arguments pw_serial {Cell V} cells op.
Arguments put_op {Cell V} cond v c.
Arguments own_op {Cell V} cond v c.

Definition cells2 (m n : nat) : list (nat * nat) := list_prod (seq 0 m) (seq 0 n).

(** ** CUDA launches, utils/gpu_utils.py:24-40 [_get_kernel_params] (default block sizes) *)
Definition ceil_div (a b : Z) : Z := (- ((- a) / b))%Z.
Definition block1 : Z := 1024.
Definition grid1 (M N : Z) : Z := ceil_div (M * N) block1.
Definition block2 : Z := 32.
Definition grid2 (M N : Z) : Z * Z := (ceil_div M block2, ceil_div N block2).
(** limits of CUDA devices (compute capability >= 3.0), not in the source *)
Definition launch_ok (gx gy : Z) : bool :=
  ((1 <=? gx) && (gx <=? 2 ^ 31 - 1) && (1 <=? gy) && (gy <=? 65535))%Z.
(** [int j = blockIdx.x * blockDim.x + threadIdx.x]: unsigned 32-bit product, read as int *)
Definition thread_index (block b t : Z) : Z := wrap32 (b * block + t).
(** the 1-D kernels (algos.py:1018-1020 etc., stft_utils.py:110-112): what [j] a thread that
    gets past [if (j >= N) return;] works on *)
Definition works1 (M N b t j : Z) : Prop :=
  (0 <= b < grid1 M N /\ 0 <= t < block1 /\ j = thread_index block1 b t /\ ~ (j >= N))%Z.
(** the 2-D kernels (algos.py:570-574, 751-754, 826-829) *)
Definition works2 (M N bx tx byy ty i j : Z) : Prop :=
  (0 <= bx < fst (grid2 M N) /\ 0 <= byy < snd (grid2 M N) /\
   0 <= tx < block2 /\ 0 <= ty < block2 /\
   i = thread_index block2 bx tx /\ j = thread_index block2 byy ty /\ ~ (i >= M \/ j >= N))%Z.

(** a 2-D launch as parallel iterations: thread number [X * (gy*32) + Y], where [X], [Y] are
    the values of [blockIdx * blockDim + threadIdx] in x and y *)
Definition gpu2_cells (M N t : nat) : list (nat * nat) :=
  let gx := fst (grid2 (Z.of_nat M) (Z.of_nat N)) in
  let gy := snd (grid2 (Z.of_nat M) (Z.of_nat N)) in
  let H := Z.to_nat (gy * block2) in
  let X := (t / H)%nat in let Y := (t mod H)%nat in
  if (Z.of_nat X <? gx * block2)%Z
  then let i := wrap32 (Z.of_nat X) in let j := wrap32 (Z.of_nat Y) in
       if ((i >=? Z.of_nat M) || (j >=? Z.of_nat N))%Z then [] else [(Z.to_nat i, Z.to_nat j)]
  else [].
Definition gpu2_progs {V} (M N : nat) (op : nat * nat -> list (mop (nat * nat) V)) (t : nat)
  : list (mop (nat * nat) V) :=
  if (Z.of_nat N =? 0)%Z then [] else concat (map op (gpu2_cells M N t)).

(** ** Phase transforms as kernels, algos.py:706-856.  The store is [out]. *)
Definition phase_op (ph : nat -> C -> C -> R) (gamma : R) (Wx dWx : mat C) (c : nat * nat)
  : list (mop (nat * nat) fval) :=
  let W := el Wx (fst c) (snd c) in
  let dW := el dWx (fst c) (snd c) in
  [MStore c (fun _ => if Rlt_dec (Cabs W) gamma then Inf else Fin (ph (fst c) W dW))].
Definition run_phase (Wx : mat C) (tr : list (event (nat * nat) fval)) : mat fval :=
  let out := fst (exec cell2_dec tr ((fun _ => Fin 0), fun _ => Fin 0)) in
  Mat (nrows Wx) (ncols Wx) (fun i j => out (i, j)).
Definition cwt_op := phase_op (fun _ => phase_cwt_pt).
Definition stft_op (Sfs : list R) := phase_op (fun i => phase_stft_pt (nth i Sfs 0)).

(** ** Numbers with infinities and NaN, for the replacement helpers *)
Inductive num := Num (r : R) | PInf | NInf | NaN.
Definition isinf (x : num) : bool := match x with PInf | NInf => true | _ => false end.
Definition isnan (x : num) : bool := match x with NaN => true | _ => false end.
Definition Rltb (a b : R) : bool := if Rlt_dec a b then true else false.
Definition Reqb (a b : R) : bool := if Req_EM_T a b then true else false.
Definition num_lt (x y : num) : bool :=
  match x, y with
  | NaN, _ | _, NaN => false
  | Num a, Num b => Rltb a b
  | NInf, NInf => false
  | NInf, _ => true
  | _, NInf => false
  | PInf, _ => false
  | Num _, PInf => true
  end.
Definition num_eq (x y : num) : bool :=
  match x, y with
  | Num a, Num b => Reqb a b
  | PInf, PInf | NInf, NInf => true
  | _, _ => false
  end.
Definition num_abs (x : num) : num :=
  match x with Num a => Num (Rabs a) | NInf | PInf => PInf | NaN => NaN end.
Definition num_opp (x : num) : num :=
  match x with Num a => Num (- a) | NInf => PInf | PInf => NInf | NaN => NaN end.

(** ** [replace_at_*], algos.py:452-531.  1-D and 2-D arrays are 3-D with trailing axes of
    length 1.  Reading [ref] out of bounds is undefined behaviour in numba: not modelled. *)
Record arr3 := A3 { d0 : nat; d1 : nat; d2 : nat; at3 : nat * nat * nat -> num }.
Definition cells3 (x : arr3) : list (nat * nat * nat) :=
  list_prod (list_prod (seq 0 (d0 x)) (seq 0 (d1 x))) (seq 0 (d2 x)).
Definition cell3_dec (a b : nat * nat * nat) : {a = b} + {a <> b}.
Proof. decide equality; [apply Nat.eq_dec|apply cell2_dec]. Defined.
(** which cells match: [RAt_value v] is [ref == v] *)
Inductive which := AtInfOrNan | AtInf | AtNan | AtValue (v : num).
Definition matches (k : which) (r : num) : bool :=
  match k with
  | AtInfOrNan => isinf r || isnan r
  | AtInf => isinf r
  | AtNan => isnan r
  | AtValue v => num_eq r v
  end.
Definition replace_at (k : which) (x : arr3) (ref : option arr3) (repl : num) : res arr3 :=
  match ref with
  | None =>
      let s := fst (exec cell3_dec (pw_serial (cells3 x) (own_op (matches k) repl))
                         (at3 x, fun _ => NaN)) in
      Ok (A3 (d0 x) (d1 x) (d2 x) s)
  | Some r =>
      if (d0 r <? d0 x)%nat || (d1 r <? d1 x)%nat || (d2 r <? d2 x)%nat then Err NotModelled
      else
        let s := fst (exec cell3_dec
                   (pw_serial (cells3 x) (put_op (fun c => matches k (at3 r c)) (fun _ => repl)))
                   (at3 x, fun _ => NaN)) in
        Ok (A3 (d0 x) (d1 x) (d2 x) s)
  end.

(** ** [replace_under_abs], algos.py:496-591.  [ref=None] is not handled by the kernels: numba
    (and the CUDA wrapper) raise.  [RSelf]: [ref] is [x] itself. *)
Inductive ref_arg := RNone | RSelf | RNum (r : mat num) | RCplx (r : mat C).
Definition under_op (ref : ref_arg) (value repl : num) : nat * nat -> list (mop (nat * nat) num) :=
  match ref with
  | RNone => fun _ => []
  | RSelf => own_op (fun r => num_lt (num_abs r) value) repl
  | RNum r => put_op (fun c => num_lt (num_abs (el r (fst c) (snd c))) value) (fun _ => repl)
  | RCplx r => put_op (fun c => num_lt (Num (Cabs (el r (fst c) (snd c)))) value) (fun _ => repl)
  end.
Definition ref_fits (x : mat num) (ref : ref_arg) : bool :=
  match ref with
  | RNone | RSelf => true
  | RNum r => (nrows x <=? nrows r)%nat && (ncols x <=? ncols r)%nat
  | RCplx r => (nrows x <=? nrows r)%nat && (ncols x <=? ncols r)%nat
  end.
(** [tr]: the order of the micro-steps *)
Definition replace_under_abs (x : mat num) (ref : ref_arg) (value repl : num)
  (tr : list (event (nat * nat) num)) : res (mat num) :=
  match ref with
  | RNone => Err TypeError
  | _ => if ref_fits x ref
         then let s := fst (exec cell2_dec tr ((fun c => el x (fst c) (snd c)), fun _ => NaN)) in
              Ok (Mat (nrows x) (ncols x) (fun i j => s (i, j)))
         else Err NotModelled
  end.

(** ** [zero_denormals], algos.py:593-613.  [x.ravel()] is a view of a contiguous array and a
    copy of any other; the kernel writes to it, and nothing is returned. *)
Definition denormal (tiny : R) (r : num) : bool := num_lt r (Num tiny) && num_lt (Num (- tiny)) r.
Definition zd_op (tiny : R) : nat -> list (mop nat num) := own_op (denormal tiny) (Num 0).
Definition zero_denormals (contiguous : bool) (tiny : R) (x : list num)
  (tr : list (event nat num)) : list num :=
  if contiguous
  then tab (length x) (fst (exec Nat.eq_dec tr ((fun i => nth i x NaN), fun _ => NaN)))
  else x.
