(** Which arrays [ssq_stft] and [ssq_cwt] hand back: [preserve_transform], arrays shared
    between outputs, and arrays shared with the caller (_ssq_stft.py:13-136,
    _ssq_cwt.py:250-310, ssqueezing.py:170-224).  Memory is a list of matrix buffers and a
    list of vector buffers; an array is a reference into one of them. *)
From Coq Require Import Reals List Arith ZArith Lia Bool.
Import ListNotations.
From Verif Require Import Py Round Parallel Cplx Padding Buffer Freqs Stft Squeeze Scales Ssqueeze Cwt SsqCwt.
Local Open Scope R_scope.

Record mem := Mem { mats : list (mat C); vecs : list (list R) }.
(** [v_rev]: the view [a[::-1]] of the buffer *)
Record vref := VR { v_at : nat; v_rev : bool }.

Definition no_mat : mat C := Mat 0 0 (fun _ _ => C0).
Definition mat_at (m : mem) (a : nat) : mat C := nth a (mats m) no_mat.
Definition vec_at (m : mem) (r : vref) : list R :=
  let l := nth (v_at r) (vecs m) [] in if v_rev r then rev l else l.
Definition new_mat (m : mem) (W : mat C) : mem * nat := (Mem (mats m ++ [W]) (vecs m), length (mats m)).
Definition new_vec (m : mem) (v : list R) : mem * vref := (Mem (mats m) (vecs m ++ [v]), VR (length (vecs m)) false).
Definition flipped (r : vref) : vref := VR (v_at r) (negb (v_rev r)).

Fixpoint put {A} (l : list A) (a : nat) (y : A) : list A :=
  match l, a with
  | [], _ => []
  | _ :: l', O => y :: l'
  | x :: l', S a' => x :: put l' a' y
  end.
(** writing all of an array in place: [a[:] = ...] *)
Definition write_mat (m : mem) (a : nat) (W : mat C) : mem := Mem (put (mats m) a W) (vecs m).
Definition write_vec (m : mem) (r : vref) (l : list R) : mem :=
  Mem (mats m) (put (vecs m) (v_at r) (if v_rev r then rev l else l)).

(** A user's squeezing function: what it leaves in the array it is given, and what it
    returns, [None] being that array itself.  It touches no other array. *)
Record ufun := UF { u_left : mat C -> mat C; u_new : option (mat C -> mat C) }.
Definition u_value (u : ufun) (W : mat C) : mat C :=
  match u_new u with None => u_left u W | Some g => g W end.
Inductive msq := MSum | MLebesgue | MAbs | MFun (u : ufun).
(** what remains of it when arrays are values *)
Definition value_sq (q : msq) : squeezing :=
  match q with MSum => SqSum | MLebesgue => SqLebesgue | MAbs => SqAbs | MFun u => SqFun (u_value u) end.

(** ssqueezing.py:197-202 *)
Definition squeeze_mem (q : msq) (m : mem) (a : nat) : mem * nat :=
  let W := mat_at m a in
  match q with
  | MSum => (m, a)
  | MLebesgue | MAbs => new_mat m (squeeze_input (value_sq q) (nrows W) W)
  | MFun u =>
      let m1 := write_mat m a (u_left u W) in
      match u_new u with None => (m1, a) | Some g => new_mat m1 (g W) end
  end.

Definition put_freqs (o : ssq_opts) (v : freqs_arg) (sq : squeezing) : ssq_opts :=
  SO (o_tr o) v (o_scales o) (o_f64s o) (o_f64v o) (o_fs o) sq (o_mr o) (o_gamma o) (o_flip o) (o_Sfs o).

(** ssqueezing.py:108-224 [ssqueeze] on references, 2-D input; [v]: the array [ssq_freqs], or
    how to compute it.  [Tx] is a new array (line 205), and lines 217-222 give a view. *)
Definition ssqueeze_mem (ord : order) (o : ssq_opts) (q : msq) (v : freqs_arg + vref) (m : mem) (a : nat)
  (w : option (mat fval)) (d : option nat) : res (mem * nat * vref) :=
  let o := put_freqs o (match v with inl f => f | inr r => FArray (vec_at m r) end) (value_sq q) in
  if match w, d, o_gamma o with
     | None, None, _ | None, _, None => true
     | Some w, _, _ => has_negative w
     | _, _, _ => false
     end then Err ValueError
  else
    do f <- ssq_freqs_of o (ncols (mat_at m a));
    let '(k, l, ls) := f in
    let '(m, r) := match v with inl _ => new_vec m l | inr r => (m, r) end in
    let '(m, b) := squeeze_mem q m a in
    do Tx <- ssqueeze_one ord o k l ls (mat_at m b) w (opt_map (mat_at m) d);
    let '(m, t) := new_mat m Tx in
    Ok (m, t, match o_tr o, o_flip o with TStft, false => r | _, _ => flipped r end).

(** _ssq_stft.py:93-99, _ssq_cwt.py:257-263: [preserve_transform] and the array worked on *)
Definition keeps (preserve : option bool) (tensor : bool) : bool :=
  match preserve with Some b => b | None => negb tensor end.
Definition working (keep : bool) (m : mem) (a : nat) : mem * nat :=
  if keep then new_mat m (mat_at m a) else (m, a).

(** _ssq_stft.py:88-136 after [_process_fs_and_t]: [Sx], [dSx] are what [stft] made.  Outputs:
    memory, Tx, Sx, ssq_freqs, Sfs, w, dSx ([dSx] always, whatever [get_dWx]). *)
Definition ssq_stft_tail (ord : order) (s : ssq_stft_opts) (q : msq) (keep : bool) (fs gamma : R)
  (v : option vref) (Sx dSx : mat C) (m : mem)
  : res (mem * nat * nat * vref * vref * option (mat fval) * nat) :=
  let '(m, a) := new_mat m Sx in
  let '(m, d) := new_mat m dSx in
  let '(m, a') := working keep m a in
  let '(m, rS) := new_vec m (make_Sfs (nrows (mat_at m a)) fs) in
  let w := if s_get_w s then Some (phase_stft (vec_at m rS) gamma (mat_at m a') (mat_at m d)) else None in
  let r := match v with Some r => r | None => rS end in
  do out <- ssqueeze_mem ord (SO TStft FNone None true (s_f64v s) 1 SqSum MRMaximal (Some gamma)
                               (s_flip s) (Some (vec_at m rS))) q (inr r) m a' w
              (if s_get_w s then None else Some d);
  let '(m, t, r) := out in
  Ok (m, t, a, r, rS, w, d).
(** the options of a call whose [ssq_freqs] is the array [v] of memory [m] *)
Definition seen (s : ssq_stft_opts) (q : msq) (v : option vref) (m : mem) : ssq_stft_opts :=
  SS (opt_map (vec_at m) v) (value_sq q) (s_gamma s) (s_flip s) (s_get_w s) (s_f64v s).
Definition ssq_stft_mem (ord : order) (x : list R) (a : stft_args) (fs : option R) (t : option (list R))
  (s : ssq_stft_opts) (q : msq) (preserve : option bool) (tensor : bool) (v : option vref) (m : mem)
  : res (mem * nat * nat * vref * vref * option (mat fval) * nat) :=
  do fs <- process_fs_and_t fs t (length x);
  do _ <- match v with
          | Some r => do k <- infer_scaletype (s_f64v s) (vec_at m r);
                      match k with KLinear => Ok tt | _ => Err ValueError end
          | None => Ok tt
          end;
  let a := SA fs (a_window a) (a_n_fft a) (a_win_len a) (a_hop a) (a_modulated a)
              (a_padtype a) (a_f32 a) in
  do SD <- stft x a;
  let '(Sx, dSx) := SD in
  let gamma := match s_gamma s with
               | Some g => g
               | None => 10 * (if a_f32 a then EPS32 else EPS64)
               end in
  ssq_stft_tail ord s q (keeps preserve tensor) fs gamma v Sx dSx m.

(** _ssq_cwt.py:256-310 for [difftype] 'trig' and 'phase' ('numeric' works on columns of
    [Wx], not modelled here): [W], [dW] are what [cwt] made.  [sc]: the scales in use, a
    reference to the caller's array when that has the dtype of the wavelet ([asarray],
    [reshape] and [squeeze] copy nothing).  Outputs: memory, Tx, Wx, ssq_freqs, scales, w, dWx. *)
Definition squeeze_step_mem (ord : order) (q : ssq_args) (sq : msq) (keep : bool) (fs : R)
  (difforder : Z) (N : nat) (v : option vref) (W dW : mat C) (sc : vref) (f64s : bool) (kind : skind)
  (m : mem) : res (mem * nat * nat * vref * vref * option (mat fval) * nat) :=
  let gamma := ssq_gamma q in
  let '(m, a) := new_mat m W in
  let '(m, d) := new_mat m dW in
  let '(m, a') := working keep m a in
  do w <- (if q_get_w q
           then do (_, w) <- phase_transform (q_f64 q) (mat_at m a') (mat_at m d) (Z.of_nat N) (1 / fs) gamma
                               (q_diff q) difforder;
                Ok (Some w)
           else Ok None);
  do out <- ssqueeze_mem ord (SO TCwt FNone (Some (vec_at m sc)) f64s (q_f64v q) fs SqSum
                               (q_mr q) (Some gamma) (q_flip q) None) sq
              (match v with Some r => inr r | None => inl (ssq_freqs q kind) end) m a' w
              (if q_get_w q then None else Some d);
  let '(m, t, r) := out in
  Ok (m, t, a, r, sc, w, d).
(** the options of a call with [squeezing] [sq] and the array [v] of memory [m], if any, for
    [ssq_freqs] *)
Definition seen_cwt (q : ssq_args) (sq : msq) (v : option vref) (m : mem) : ssq_args :=
  SQ (q_scales q) (q_kind q) (q_nv q) (q_f64s q) (q_f64 q) (q_f64v q) (q_fs q) (q_t q)
     (match v with Some r => FArray (vec_at m r) | None => q_freqs q end) (q_pad q) (value_sq sq) (q_mr q)
     (q_diff q) (q_difforder q) (q_gamma q) (q_vec q) (q_order q) (q_pat q) (q_flip q) (q_cache q) (q_get_w q).
