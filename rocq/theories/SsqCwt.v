(** _ssq_cwt.py: [ssq_cwt], [phase_cwt] with difftype 'phase', [phase_cwt_num].
    Exact arithmetic; NumPy arrays (no GPU tensors); casts between float32 and float64 only
    change the thresholds that depend on the dtype. *)
From Coq Require Import Reals Lra.
From Verif Require Import Py Round Parallel Cplx Padding Buffer Freqs Squeeze Scales Ssqueeze Cwt.
Local Open Scope R_scope.

(** ** [phase_cwt] with difftype 'phase', _ssq_cwt.py:498-504 *)
(** [np.angle]; the sign of zeros is not modelled *)
Definition angle (z : C) : R :=
  let a := Re z in let b := Im z in
  if Rlt_dec 0 a then atan (b / a)
  else if Rlt_dec a 0 then (if Rle_dec 0 b then atan (b / a) + PI else atan (b / a) - PI)
  else if Rlt_dec 0 b then PI / 2 else if Rlt_dec b 0 then - PI / 2 else 0.
(** [np.mod] for a positive divisor *)
Definition Rmod (a p : R) : R := a - p * IZR (Int_part (a / p)).
(** [np.unwrap(p)] on one row: numpy/lib/function_base.py [unwrap], default arguments *)
Definition unwrap_correct (dd : R) : R :=
  let m := Rmod (dd + PI) (2 * PI) - PI in
  let m := if Req_EM_T m (- PI) then (if Rlt_dec 0 dd then PI else m) else m in
  if Rlt_dec (Rabs dd) PI then 0 else m - dd.
Definition unwrap (p : nat -> R) (j : nat) : R :=
  p j + Rsum j (fun k => unwrap_correct (p (S k) - p k)).
Definition phase_phase_pt (W : mat C) (i j : nat) : R :=
  let u := unwrap (fun j => angle (el W i j)) in
  Rabs ((if (S j =? ncols W)%nat then u (ncols W - 1)%nat - u 0%nat else u (S j) - u j) / (2 * PI)).
(** no columns: [u[-1]] raises *)
Definition phase_phase (gamma : R) (W : mat C) : res (mat fval) :=
  if (ncols W =? 0)%nat then Err IndexError
  else Ok (Mat (nrows W) (ncols W) (fun i j =>
    if Rlt_dec (Cabs (el W i j)) gamma then Inf else Fin (phase_phase_pt W i j))).

(** ** [phase_cwt_num], _ssq_cwt.py:512-589 *)
Definition czip (f : C -> C -> C) (a b : list C) : list C := map (fun p => f (fst p) (snd p)) (combine a b).
Definition cscale (r : R) (l : list C) : list C := map (Cmul (RtoC r)) l.
Definition cneg (l : list C) : list C := map Copp l.
Definition cdiv (l : list C) (r : R) : list C := cscale (/ r) l.
(** _ssq_cwt.py:549-572 [_differentiate] on one row *)
Definition differentiate (difforder : Z) (dt : R) (r : list C) : list C :=
  let wxr := pyslice_from r (-2) ++ r ++ pyslice_to r 2 in
  if (difforder =? 1)%Z then
    cdiv (czip Csub (pyslice_from r 1) (pyslice_to r (-1)) ++
          czip Csub (pyslice_to r 1) (pyslice_from r (-1))) dt
  else if (difforder =? 2)%Z then
    cdiv (czip Csub (czip Cadd (cneg (pyslice_from wxr 4)) (cscale 4 (pyslice wxr 3 (-1))))
                    (cscale 3 (pyslice wxr 2 (-2)))) (2 * dt)
  else
    cdiv (czip Cadd (czip Csub (czip Cadd (cneg (pyslice_from wxr 4)) (cscale 8 (pyslice wxr 3 (-1))))
                               (cscale 8 (pyslice wxr 1 (-3))))
                    (pyslice wxr 0 (-4))) (12 * dt).
Definition mrow (W : mat C) (i : nat) : list C := tab (ncols W) (el W i).
(** [gamma or default]: [0] counts as missing *)
Definition phase_cwt_num (f64 : bool) (W : mat C) (dt : R) (difforder : Z) (gamma : option R)
  : res (mat fval) :=
  if negb ((difforder =? 1) || (difforder =? 2) || (difforder =? 4))%Z then Err ValueError
  else if (ncols W =? 1)%nat && negb (difforder =? 1)%Z then Err IndexError  (* mask and [w] differ *)
  else
    let g := or_real gamma (10 * (if f64 then EPS64 else EPS32)) in
    Ok (Mat (nrows W) (ncols W) (fun i j =>
      if Rlt_dec (Cabs (el W i j)) g then Inf
      else
        let d := nth j (differentiate difforder dt (mrow W i)) C0 in
        (* [np.real(-1j * w / Wx) / (2*pi)], then [abs] *)
        Fin (Rabs (Re (Cmul (Cmul (0, -1) d) (Cinv (el W i j))) / (2 * PI))))).

(** ** [ssq_cwt], _ssq_cwt.py:12-310 *)
Inductive difftype := DTrig | DPhase | DNumeric.
(** [q_kind]: the type named by a string [scales]; [q_f64s]: dtype of a [scales] array;
    [q_f64]: dtype of the wavelet, hence of [Wx]; [q_order]: [None] is [order=0]. *)
Record ssq_args := SQ {
  q_scales : scales_arg; q_kind : skind; q_nv : option Z; q_f64s : bool; q_f64 : bool;
  q_f64v : bool; q_fs : option R; q_t : option (list R); q_freqs : freqs_arg;
  q_pad : option padtype; q_sq : squeezing; q_mr : maprange; q_diff : difftype;
  q_difforder : option Z; q_gamma : option R; q_vec : bool; q_order : option ho_order;
  q_pat : pat_arg; q_flip : bool; q_cache : option bool; q_get_w : bool }.

Record ssq_out := SQO {
  r_Tx : mat C; r_Wx : mat C; r_freqs : list R; r_scales : list R; r_w : option (mat fval);
  r_dWx : mat C }.

(** ssqueezing.py:314-368, the difftype and difforder checks *)
Definition check_diff (q : ssq_args) : res Z :=
  match q_diff q with
  | DTrig => Ok 4%Z
  | d =>
      if negb (q_get_w q) then Err ValueError
      else match d, q_difforder q with
           | DNumeric, Some k => if ((k =? 1) || (k =? 2) || (k =? 4))%Z then Ok k else Err ValueError
           | _, _ => Ok 4%Z
           end
  end.

(** cwt_utils.py:196-261 for an array and a given [nv] *)
Definition process_scales_nv (f64 : bool) (l : list R) (nv : option Z) : res scale_kind :=
  do k <- infer_scaletype f64 l;
  match k, nv with
  | KLog n, Some m => if negb (n =? m)%Z then Err PlainException
                      else if (n <=? 0)%Z then Err ValueError else Ok k
  | KLog n, None => if (n <=? 0)%Z then Err ValueError else Ok k
  | KLinear, Some m => if (m <=? 0)%Z then Err ValueError else Ok k
  | _, _ => Ok k
  end.
(** the arrays [scales] and the type that ssq_freqs default to *)
Definition ssq_scales (f64 : bool) (sc : scales_arg) (kind : skind) (nv : option Z) (N : nat)
  : res (list R * skind) :=
  match sc with
  | ScArr l => do k <- process_scales_nv f64 l nv; Ok (l, skind_of k)
  | ScAuto make => do l <- make N; Ok (l, kind)
  end.
(** _ssq_cwt.py:202-203 *)
Definition ssq_nv (q : ssq_args) : option Z :=
  match q_nv q, q_scales q with None, ScAuto _ => Some 32%Z | nv, _ => nv end.

(** arguments of the inner [cwt] call *)
Definition inner (q : ssq_args) (fs : R) (sc : scales_arg) (f64s deriv rpadded : bool) (pat : pat_arg)
  : cwt_args :=
  CA sc f64s (Some fs) None true deriv (q_pad q) rpadded (q_vec q) pat (q_cache q).

(** _ssq_cwt.py:233-249: higher orders.  Returns [Wx], [dWx], [scales] and whether these are
    float64. *)
Definition is_tuple (o : ho_order) : bool := match o with HOTuple _ => true | HOInt _ => false end.
Definition ssq_higher (py : bool) (f : wfun) (fam : nat -> wfun) (q : ssq_args) (fs : R)
  (o : ho_order) (x : list R) : M (mat C * mat C * list R * bool) :=
  let N := Z.of_nat (length x) in
  let f64s := match q_scales q with ScArr _ => q_f64s q | ScAuto _ => q_f64 q end in
  let a := inner q fs (q_scales q) f64s false true (PatInt 0) in
  match wf_norm f, o with
  | NotGmw, _ => lift (Err ValueError)
  | _, HOTuple [] => lift (Err ValueError)               (* mean of no arrays *)
  | _, _ =>
      let '(_, n1, _) := p2up N in
      mdo sc <- lift (ho_scales a (length x));
      mdo (W, _) <- cwt_higher_order py fam o (Some (is_tuple o)) a x;
      match sc, W with
      | ScArr l, HOOne W =>
          mdo _ <- fft_check py;
          mdo d <- lift (trigdiff W fs None (Some true) (Some N) (Some n1));
          mret (mcols W n1 (n1 + N), d, l, f64s)
      | _, _ => lift (Err NotModelled)                   (* excluded by [ho_scales], [average] *)
      end
  end.

(** _ssq_cwt.py:207-229 [_phase_transform]; returns the (sliced) [Wx] and [w] *)
Definition phase_transform (f64 : bool) (W dW : mat C) (N : Z) (dt gamma : R) (d : difftype)
  (difforder : Z) : res (mat C * mat fval) :=
  match d with
  | DTrig => Ok (W, phase_cwt gamma W dW)
  | DPhase => do w <- phase_phase gamma W; Ok (W, w)
  | DNumeric =>
      let '(_, n1, _) := p2up N in
      let W := mcols W (n1 - 4) (n1 + N + 4) in
      do w <- phase_cwt_num f64 W dt difforder (Some gamma); Ok (W, w)
  end.

Definition ssq_gamma (q : ssq_args) : R :=
  match q_gamma q with Some g => g | None => 10 * (if q_f64 q then EPS64 else EPS32) end.
Definition ssq_freqs (q : ssq_args) (kind : skind) : freqs_arg :=
  match q_freqs q with FNone => FKind kind | v => v end.
Definition crop {A} (d : difftype) (W : mat A) : mat A :=
  match d with DNumeric => mcols W 4 (-4) | _ => W end.

(** _ssq_cwt.py:264-297: everything after the transform *)
Definition squeeze_step (ord : order) (q : ssq_args) (fs : R) (difforder : Z) (N : nat) (W dW : mat C)
  (scales : list R) (f64s : bool) (kind : skind) : res ssq_out :=
  let gamma := ssq_gamma q in
  do (W', w) <- (if q_get_w q
                 then do (W', w) <- phase_transform (q_f64 q) W dW (Z.of_nat N) (1 / fs) gamma (q_diff q) difforder;
                      Ok (W', Some w)
                 else Ok (W, None));
  let d := if q_get_w q then None else Some dW in
  do (Tx, v) <- ssqueeze ord (SO TCwt (ssq_freqs q kind) (Some scales) f64s (q_f64v q) fs (q_sq q)
                               (q_mr q) (Some gamma) (q_flip q) None) W' w d;
  Ok (SQO (crop (q_diff q) Tx) (crop (q_diff q) W) v scales (opt_map (crop (q_diff q)) w) dW).

(** 1-D input; [f] is the wavelet, an instance by then (line 232), [fam] its higher orders *)
Definition ssq_cwt (ord : order) (py : bool) (f : wfun) (fam : nat -> wfun) (q : ssq_args) (x : list R)
  : M ssq_out :=
  let N := length x in
  mdo difforder <- lift (check_diff q);
  let nv := ssq_nv q in
  mdo fs <- lift (process_fs_and_t (q_fs q) (q_t q) N);
  match q_order q with
  | Some o =>
      mdo (W, dW, sc, f64s) <- ssq_higher py f fam q fs o x;
      mdo (sc, kind) <- lift (ssq_scales f64s (ScArr sc) (q_kind q) nv N);
      lift (squeeze_step ord q fs difforder N W dW sc f64s kind)
  | None =>
      mdo (sc, kind) <- lift (ssq_scales (q_f64s q) (q_scales q) (q_kind q) nv N);
      let f64s := match q_scales q with ScArr _ => q_f64s q | ScAuto _ => true end in
      let a := inner q fs (ScArr sc) f64s true
                 (match q_diff q with DNumeric => true | _ => false end) (q_pat q) in
      mdo (W, sc, dW) <- cwt py true f a x;
      match dW with
      | Some dW => lift (squeeze_step ord q fs difforder N W dW sc (q_f64 q) kind)
      | None => lift (Err NotModelled)                   (* [derivative=True] *)
      end
  end.

(** ** 2-D input: rows of [xs] are signals of one length.  [get_w] is rejected, and other
    difftypes than 'trig' require it. *)
Record ssq_out2 := SQO2 {
  r2_Tx : list (mat C); r2_Wx : list (mat C); r2_freqs : list R; r2_scales : list R;
  r2_dWx : list (mat C) }.
Fixpoint trigdiff_batch (Ws : list (mat C)) (fs : R) (N n1 : Z) : res (list (mat C)) :=
  match Ws with
  | [] => Ok []
  | W :: Ws' => do d <- trigdiff W fs None (Some true) (Some N) (Some n1);
                do ds <- trigdiff_batch Ws' fs N n1;
                Ok (d :: ds)
  end.
(** _ssq_cwt.py:247: [Wx = Wx[:, n1:n1 + N]] of a 3-D array takes a range of its rows *)
Definition ssq_higher2 (py : bool) (f : wfun) (fam : nat -> wfun) (q : ssq_args) (fs : R)
  (o : ho_order) (xs : list (list R)) : M (list (mat C) * list (mat C) * list R * bool) :=
  let N := Z.of_nat (length (nth 0 xs [])) in
  let f64s := match q_scales q with ScArr _ => q_f64s q | ScAuto _ => q_f64 q end in
  let a := inner q fs (q_scales q) f64s false true (PatInt 0) in
  match wf_norm f, o with
  | NotGmw, _ => lift (Err ValueError)
  | _, HOTuple [] => lift (Err ValueError)
  | _, _ =>
      let '(_, n1, _) := p2up N in
      mdo sc <- lift (ho_scales a (length xs));
      mdo (W, _) <- cwt_higher_order2 py fam o (Some (is_tuple o)) a xs;
      match sc, W with
      | ScArr l, HOOne Ws =>
          mdo _ <- fft_check py;
          mdo d <- lift (trigdiff_batch Ws fs N n1);
          mret (map (fun W => mrows W n1 (n1 + N)) Ws, d, l, f64s)
      | _, _ => lift (Err NotModelled)
      end
  end.
Definition squeeze_step2 (ord : order) (q : ssq_args) (fs : R) (Ws dWs : list (mat C))
  (scales : list R) (f64s : bool) (kind : skind) : res ssq_out2 :=
  do (Ts, v) <- ssqueeze_batch ord (SO TCwt (ssq_freqs q kind) (Some scales) f64s (q_f64v q) fs (q_sq q)
                               (q_mr q) (Some (ssq_gamma q)) (q_flip q) None) Ws None (Some dWs);
  Ok (SQO2 Ts Ws v scales dWs).
Definition ssq_cwt2 (ord : order) (py : bool) (f : wfun) (fam : nat -> wfun) (q : ssq_args)
  (xs : list (list R)) : M ssq_out2 :=
  let N := length (nth 0 xs []) in
  if q_get_w q then lift (Err NotImplementedError)
  else
  mdo _ <- lift (check_diff q);
  let nv := ssq_nv q in
  mdo fs <- lift (process_fs_and_t (q_fs q) (q_t q) N);
  match q_order q with
  | Some o =>
      mdo (W, dW, sc, f64s) <- ssq_higher2 py f fam q fs o xs;
      mdo (sc, kind) <- lift (ssq_scales f64s (ScArr sc) (q_kind q) nv N);
      lift (squeeze_step2 ord q fs W dW sc f64s kind)
  | None =>
      mdo (sc, kind) <- lift (ssq_scales (q_f64s q) (q_scales q) (q_kind q) nv N);
      let f64s := match q_scales q with ScArr _ => q_f64s q | ScAuto _ => true end in
      let a := inner q fs (ScArr sc) f64s true false (q_pat q) in
      mdo (W, sc, dW) <- cwt2 py true f a xs;
      match dW with
      | Some dW => lift (squeeze_step2 ord q fs W dW sc (q_f64 q) kind)
      | None => lift (Err NotModelled)
      end
  end.
