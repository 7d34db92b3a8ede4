(** ssqueezepy/ridge_extraction.py: forward-backward ridge tracking. *)
From Coq Require Import Reals Lra.
From Verif Require Import Py Parallel Cplx Squeeze Ssqueeze.
Local Open Scope R_scope.

(** What a parallel loop does with its iterations: a function from their programs to a
    global trace.  [valid_sched]: the trace is an interleaving of the programs. *)
Definition scheduler (Cell V : Type) := (nat -> list (mop Cell V)) -> list (event Cell V).
Definition valid_sched {Cell V} (n : nat) (sch : scheduler Cell V) : Prop :=
  forall progs, (forall t, (n <= t)%nat -> progs t = []) -> schedule_of progs (sch progs).

(** ** The kernels, over any arithmetic *)
Section Kernels.
Variable V : Type.
Variables add sub : V -> V -> V.
Variable amin : list V -> V.                   (* [np.amin] *)
Variable near : V -> V -> bool.                (* [abs(a - b) < eps] *)
Variable pen : nat -> nat -> V.                (* [penalty_matrix] *)
Variables F T : nat.                           (* [penalized_energy.shape] *)
Notation store2 := (nat * nat -> V).

(** ridge_extraction.py:169-175 *)
Definition fw_new (s : store2) (t f : nat) (r : V) : V :=
  add r (amin (tab F (fun g => add (s (g, t - 1)%nat) (pen f g)))).
Definition fw_serial (s : store2) : store2 :=
  fold_left (fun s t =>
    fold_left (fun s f => upd cell2_dec s (f, t) (fw_new s t f (s (f, t)))) (seq 0 F) s)
    (seq 1 (T - 1)) s.
(** ridge_extraction.py:177-183.  In the [prange] at time [t] iteration [f] loads and stores
    the cell [(f, t)]; the cells of column [t - 1] that it reads are stored by none. *)
Definition fw_progs (s : store2) (t f : nat) : list (mop (nat * nat) V) :=
  if (f <? F)%nat then [MLoad (f, t); MStore (f, t) (fw_new s t f)] else [].
Definition fw_phase (sch : scheduler (nat * nat) V) (t : nat) (s : store2) : store2 :=
  fst (exec cell2_dec (sch (fw_progs s t)) (s, fun _ => s (0, 0)%nat)).
Definition fw_par (sch : nat -> scheduler (nat * nat) V) (s : store2) : store2 :=
  fold_left (fun s t => fw_phase (sch t) t s) (seq 1 (T - 1)) s.

(** ridge_extraction.py:206-215 *)
Definition bw_hit (e pen_e : store2) (r : nat -> nat) (t f : nat) : bool :=
  let val := sub (pen_e (r (t + 1)%nat, (t + 1)%nat)) (e (r (t + 1)%nat, (t + 1)%nat)) in
  let new_penalty := pen (r (t + 1)%nat) f in
  near val (add (pen_e (f, t)) new_penalty).
Definition bw_serial (e pen_e : store2) (r : nat -> nat) : nat -> nat :=
  fold_left (fun r t =>
    fold_left (fun r f => if bw_hit e pen_e r t f then upd Nat.eq_dec r t f else r) (seq 0 F) r)
    (rev (seq 0 (T - 1))) r.
(** ridge_extraction.py:217-232 *)
Definition bw_progs (e pen_e : store2) (r : nat -> nat) (t f : nat) : list (mop nat nat) :=
  if (f <? F)%nat && bw_hit e pen_e r t f then [MStore t (fun _ => f)] else [].
Definition bw_phase (sch : scheduler nat nat) (e pen_e : store2) (t : nat) (r : nat -> nat) : nat -> nat :=
  fst (exec Nat.eq_dec (sch (bw_progs e pen_e r t)) (r, fun _ => 0%nat)).
Definition bw_par (sch : nat -> scheduler nat nat) (e pen_e : store2) (r : nat -> nat) : nat -> nat :=
  fold_left (fun r tidx => let t := (T - 2 - tidx)%nat in bw_phase (sch t) e pen_e t r) (seq 0 (T - 1)) r.
End Kernels.
Arguments fw_serial {V}.
Arguments fw_par {V}.
Arguments fw_phase {V}.
Arguments fw_progs {V}.
Arguments fw_new {V}.
Arguments bw_hit {V}.
Arguments bw_serial {V}.
Arguments bw_par {V}.
Arguments bw_phase {V}.
Arguments bw_progs {V}.

(** ** Real arithmetic with NaN (0/0 in a column without energy) *)
Inductive fl := Num (r : R) | NaN.
Definition fadd (a b : fl) : fl := match a, b with Num a, Num b => Num (a + b) | _, _ => NaN end.
Definition fsub (a b : fl) : fl := match a, b with Num a, Num b => Num (a - b) | _, _ => NaN end.
Definition fmin2 (a b : fl) : fl :=
  match a, b with Num a, Num b => Num (if Rlt_dec b a then b else a) | _, _ => NaN end.
(** [np.amin]: NaN if any entry is; of no entries: not reached ([F >= 2]) *)
Definition famin (l : list fl) : fl := match l with [] => NaN | x :: l' => fold_left fmin2 l' x end.
(** [np.argmin]: the first minimum, or the first NaN *)
Fixpoint fargmin_from (l : list fl) (i best : nat) (bv : fl) : nat :=
  match bv, l with
  | NaN, _ => best
  | _, [] => best
  | Num b, NaN :: _ => i
  | Num b, Num y :: l' => if Rle_dec b y then fargmin_from l' (S i) best bv else fargmin_from l' (S i) i (Num y)
  end.
Definition fargmin (l : list fl) : nat := match l with [] => 0%nat | y :: l' => fargmin_from l' 1 0 y end.
Definition fnear (eps : R) (a b : fl) : bool :=
  match a, b with Num a, Num b => if Rlt_dec (Rabs (a - b)) eps then true else false | _, _ => false end.

(** ** [extract_ridges] *)
(** the kernels chosen by [parallel]; [None]: serial, else the schedules of the two loops at
    each ridge and time *)
Definition ridge_scheds : Type :=
  (nat -> nat -> scheduler (nat * nat) fl) * (nat -> nat -> scheduler nat nat).
(** ridge_extraction.py:149-166: [np.unravel_index(argmin, shape)[1]] is [argmin mod T] *)
Definition fw_idx (F T : nat) (pe : nat * nat -> fl) : nat -> nat :=
  fun t => (fargmin (tab F (fun f => pe (f, t))) mod T)%nat.
(** ridge_extraction.py:92-111, 186-203 *)
Definition track (par : option ridge_scheds) (i : nat) (F T : nat) (pen : nat -> nat -> fl) (eps : R)
  (e : nat * nat -> fl) : nat -> nat :=
  let pe := match par with
            | Some (sf, _) => fw_par fadd famin pen F T (sf i) e
            | None => fw_serial fadd famin pen F T e
            end in
  let r := fw_idx F T pe in
  match par with
  | Some (_, sb) => bw_par fadd fsub (fnear eps) pen F T (sb i) e pe r
  | None => bw_serial fadd fsub (fnear eps) pen F T e pe r
  end.
(** ridge_extraction.py:79-90 *)
Definition penalty_matrix (penalty : R) (scales : list R) : nat -> nat -> fl :=
  fun a b => let d := nth a scales 0 - nth b scales 0 in Num (penalty * (d * d)).
(** ridge_extraction.py:132-133; [energy.max(axis=0)] *)
Definition colmax (F : nat) (E : nat -> nat -> R) (t : nat) : R :=
  fold_left Rmax (tab (F - 1) (fun f => E (S f) t)) (E 0%nat t).
Definition neg_log_norm (F : nat) (eps : R) (E : nat -> nat -> R) : nat * nat -> fl :=
  fun '(f, t) => let m := colmax F E t in
                 if Req_EM_T m 0 then NaN else Num (- ln (E f t / m + eps)).
(** ridge_extraction.py:141-143: [energy[ridx - bw:ridx + bw, t] = 0] *)
Definition zero_band (F : nat) (bw : Z) (r : nat -> nat) (E : nat -> nat -> R) : nat -> nat -> R :=
  fun f t =>
    let a := norm_bound (Z.of_nat F) (Z.of_nat (r t) - bw) in
    let b := norm_bound (Z.of_nat F) (Z.of_nat (r t) + bw) in
    if (a <=? Z.of_nat f)%Z && (Z.of_nat f <? b)%Z then 0 else E f t.
(** ridge_extraction.py:131-143: one entry per ridge: indices, [ridge_f], [ridge_e] *)
Fixpoint ridge_loop (par : option ridge_scheds) (i n : nat) (F T : nat) (pen : nat -> nat -> fl) (eps : R)
  (bw : Z) (scales_orig : list R) (E : nat -> nat -> R) : list (list nat * list R * list R) :=
  match n with
  | O => []
  | S n' =>
      let r := track par i F T pen eps (neg_log_norm F eps E) in
      (tab T r, tab T (fun t => nth (r t) scales_orig 0), tab T (fun t => E (r t) t))
        :: ridge_loop par (S i) n' F T pen eps bw scales_orig (zero_band F bw r E)
  end.
Definition is_pos (x : R) : bool := if Rlt_dec 0 x then true else false.
(** ridge_extraction.py:11-146, [get_params=True].  [f64]: [Tf] is complex128.  [scales] is
    1-D (or squeezes to it).  Simplified: a wrong number of scales, an empty time axis, and
    the logarithm of a scale that is not positive are not modelled. *)
Definition extract_ridges (par : option ridge_scheds) (f64 : bool) (Tf : mat C) (scales : list R)
  (penalty : R) (n_ridges : nat) (bw : Z) (cwt : bool) : res (list (list nat * list R * list R)) :=
  let F := nrows Tf in
  let T := ncols Tf in
  let eps := if f64 then EPS64 else EPS32 in
  if negb (length scales =? F)%nat || (T =? 0)%nat || (cwt && negb (forallb is_pos scales)) then Err NotModelled
  else if (n_ridges =? 0)%nat then Ok []
  else if (F =? 0)%nat then Err ValueError           (* [energy.max(axis=0)] of no rows *)
  else if (F =? 1)%nat then Err TypeError            (* [penalty_matrix] squeezed to 0-d: numba typing error *)
  else
    let sc := if cwt then map ln scales else scales in
    Ok (ridge_loop par 0 n_ridges F T (penalty_matrix penalty sc) eps bw scales
          (fun f t => Cabs (el Tf f t) * Cabs (el Tf f t))).
