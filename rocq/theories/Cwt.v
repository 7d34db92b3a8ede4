(** _cwt.py: the continuous wavelet transform, its inverse, the higher-order transform, and
    utils/common.py [trigdiff].  Exact arithmetic: casts to float32 are not modelled; a
    division by a zero [scale] norm is not modelled.

    A wavelet is an elementwise function of the sampled frequencies, as all built-in ones
    are; a custom function that mixes array entries is outside the model. *)
From Coq Require Import Reals Lra.
From Verif Require Import Py Round Cplx Padding Buffer Freqs Squeeze Scales.
Local Open Scope R_scope.

(** ** Wavelet evaluation, wavelets.py *)
Inductive gnorm := GmwL1 | GmwL2 | NotGmw.
(** [wf_cplx]: the function returns a complex dtype (as 'bump' does) *)
Record wfun := WF { wf : R -> C; wf_cplx : bool; wf_norm : gnorm }.

(** wavelets.py:87-95 [_halve_nyquist] *)
Definition halve_nyquist (p : mat C) : mat C :=
  let N := ncols p in
  if (N mod 2 =? 0)%nat then
    Mat (nrows p) N (fun i j => if (j =? N / 2)%nat then Cmul (RtoC (/ 2)) (el p i j) else el p i j)
  else p.

(** wavelets.py:80-83: the imaginary part is dropped from the whole array if the ratio of
    the sums is below [imag_th = 1e-8]; division by a zero sum follows IEEE (nan or inf). *)
Definition imag_th : R := / 100000000.
Definition msum (f : C -> R) (p : mat C) : R :=
  Rsum (nrows p) (fun i => Rsum (ncols p) (fun j => f (el p i j))).
Definition drops_imag (p : mat C) : bool :=
  if Req_EM_T (msum Re p) 0 then Rltb' (msum Im p) 0
  else Rltb' (msum Im p / msum Re p) imag_th.
Definition real_part (p : mat C) : mat C :=
  Mat (nrows p) (ncols p) (fun i j => RtoC (Re (el p i j))).

(** wavelets.py:62-84 [Wavelet.__call__(scale=scales, N=N, nohalf=...)] *)
Definition wavelet_call (f : wfun) (scales : list R) (N : nat) (nohalf : bool) : mat C :=
  let p := Mat (length scales) N (fun i j => wf f (nth i scales 0 * nth j (xifn 1 N) 0)) in
  let p := if nohalf then p else halve_nyquist p in
  if wf_cplx f && drops_imag p then real_part p else p.

(** ** Mutable state touched by [cwt] *)
(** [FFT_GLOBAL.patience], [FFT_GLOBAL.planning_timelimit] (fft_utils.py:124-153), and of
    the [Wavelet] instance: [N] and the [Psih] cache ([_Psih_N], [_Psih_scale], [_Psih]) *)
Record cstate := CS { s_pat : Z; s_lim : option R; s_N : nat;
                      s_cache : option (nat * list R * mat C) }.
Definition M (A : Type) : Type := cstate -> res A * cstate.
Definition mret {A} (a : A) : M A := fun s => (Ok a, s).
Definition mbind {A B} (m : M A) (k : A -> M B) : M B :=
  fun s => match m s with (Ok a, s') => k a s' | (Err e, s') => (Err e, s') end.
Definition lift {A} (r : res A) : M A := fun s => (r, s).
Notation "'mdo' x <- m ; k" := (mbind m (fun x => k))
  (at level 200, x pattern, m at level 100, k at level 200).

Inductive pat_arg := PatInt (p : Z) | PatTuple (p : Z) (lim : option R) | PatBad.

(** fft_utils.py:142-153, 349-355: the [patience] setter *)
Definition set_patience (a : pat_arg) : M unit := fun s =>
  match a with
  | PatBad => (Err TypeError, s)
  | PatInt p => if (0 <=? p)%Z && (p <=? 2)%Z
                then (Ok tt, CS p (s_lim s) (s_N s) (s_cache s)) else (Err ValueError, s)
  | PatTuple p l => (Ok tt, CS p l (s_N s) (s_cache s))
  end.

(** fft_utils.py:156-208, 357-361: every transform first checks the global patience; the
    value computed does not depend on it.  [pyfftw]: the package is installed. *)
Definition fft_check (pyfftw : bool) : M unit := fun s =>
  (if negb pyfftw && negb (s_pat s =? 0)%Z then Err ValueError else Ok tt, s).

(** wavelets.py:167-172 *)
Definition set_N (n : nat) : M unit := fun s => (Ok tt, CS (s_pat s) (s_lim s) n (s_cache s)).

(** [np.allclose] with its default tolerances *)
Definition close (a b : R) : bool :=
  if Rle_dec (Rabs (a - b)) (/ 100000000 + / 100000 * Rabs b) then true else false.
Definition allclose (a b : list R) : bool :=
  forallb (fun p => close (fst p) (snd p)) (combine a b).

(** wavelets.py:135-160 [Psih], [scale] given; [N=None] is [self.N] *)
Definition Psih (f : wfun) (scales : list R) (N : option nat) (nohalf : bool) : M (mat C) := fun s =>
  let n := match N with Some n => if (n =? 0)%nat then s_N s else n | None => s_N s end in
  let fresh := wavelet_call f scales n nohalf in
  match s_cache s with
  | Some (pN, ps, P) =>
      if (n =? pN)%nat && (length scales =? length ps)%nat && allclose scales ps
      then (Ok P, s) else (Ok fresh, CS (s_pat s) (s_lim s) (s_N s) (Some (n, scales, fresh)))
  | None => (Ok fresh, CS (s_pat s) (s_lim s) (s_N s) (Some (n, scales, fresh)))
  end.

(** ** [cwt], _cwt.py:12-320 *)
(** [scales]: an array, or a string, for which [process_scales] makes scales from the signal
    length (the wavelet and [nv] are fixed in a call) *)
Inductive scales_arg := ScArr (l : list R) | ScAuto (make : nat -> res (list R)).
Record cwt_args := CA {
  a_scales : scales_arg; a_f64s : bool; a_fs : option R; a_t : option (list R);
  a_l1 : bool; a_deriv : bool; a_pad : option padtype; a_rpadded : bool; a_vec : bool;
  a_pat : pat_arg; a_cache : option bool }.

(** cwt_utils.py:196-261 as called by [cwt], which passes [nv=None] with an array *)
Definition process_scales (sc : scales_arg) (f64 : bool) (N : nat) : res (list R) :=
  match sc with
  | ScArr l => do _ <- process_scales_arr f64 l; Ok l
  | ScAuto make => make N
  end.

(** _cwt.py:497-514 for a [Wavelet] instance *)
Definition check_gmw (f : wfun) (l1 : bool) : res unit :=
  match wf_norm f, l1 with
  | GmwL2, true | GmwL1, false => Err ValueError
  | _, _ => Ok tt
  end.

(** _cwt.py:216-227; [inst]: the wavelet was passed as an instance, not by name *)
Definition use_cache (inst vec : bool) (c : option bool) : bool :=
  match c with
  | Some true => inst && vec
  | Some false => false
  | None => inst && vec
  end.

(** [ifft(psih * xh)] of row [i], and with the factor [1j * xi / dt] *)
Definition cwt_cell (p : mat C) (n : nat) (xh : nat -> C) (i : nat) : nat -> C :=
  idft n (fun k => Cmul (el p i k) (xh k)).
Definition dcwt_cell (p : mat C) (n : nat) (fs : R) (xh : nat -> C) (i : nat) : nat -> C :=
  idft n (fun k => Cmul (Cmul (el p i k) (xh k)) (0, nth k (xifn 1 n) 0 * fs)).

(** _cwt.py:167-178 *)
Definition vectorized (pyfftw : bool) (f : wfun) (cache : bool) (scales : list R) (n : nat)
  (fs : R) (deriv : bool) (xh : nat -> C) : M (mat C * option (mat C)) :=
  mdo p <- (if cache then Psih f scales None false
            else fun s => (Ok (wavelet_call f scales (s_N s) false), s));
  mdo _ <- fft_check pyfftw;
  let Wx := Mat (length scales) n (cwt_cell p n xh) in
  mret (Wx, if deriv then Some (Mat (length scales) n (dcwt_cell p n fs xh)) else None).

(** _cwt.py:179-200: one evaluation of the wavelet per scale *)
Definition for_loop (pyfftw : bool) (f : wfun) (scales : list R) (n : nat) (fs : R)
  (deriv : bool) (xh : nat -> C) : M (mat C * option (mat C)) := fun s =>
  let psih i := wavelet_call f [nth i scales 0] (s_N s) false in
  let Wx := Mat (length scales) n (fun i => cwt_cell (psih i) n xh 0) in
  let dpsih i k := Cmul (0, nth k (xifn 1 n) 0 * fs) (el (psih i) 0 k) in
  let dWx := Mat (length scales) n (fun i => idft n (fun k => Cmul (dpsih i k) (xh k))) in
  (mdo _ <- fft_check pyfftw; mret (Wx, if deriv then Some dWx else None)) s.

(** [A[:, a:b]] *)
Definition mcols {A} (W : mat A) (a b : Z) : mat A :=
  let n := Z.of_nat (ncols W) in
  let a' := Z.to_nat (norm_bound n a) in
  Mat (nrows W) (Z.to_nat (norm_bound n b) - a') (fun i j => el W i (a' + j)).
(** [W *= sqrt(scales)] *)
Definition scale_rows (scales : list R) (W : mat C) : mat C :=
  Mat (nrows W) (ncols W) (fun i j => Cmul (el W i j) (RtoC (sqrt (nth i scales 0)))).
Definition opt_map {A B} (g : A -> B) (o : option A) : option B :=
  match o with Some a => Some (g a) | None => None end.

(** padding, _cwt.py:257-263: the padded signal and [n1] *)
Definition pad_input (pt : option padtype) (x : list R) : res (list R * Z) :=
  match pt with
  | Some pt => do p <- padsignal 0 x pt None; let '(xp, _, n1, _) := p in Ok (xp, n1)
  | None => match x with [] => Err NotModelled | _ => Ok (x, 0%Z) end
  end.

(** _cwt.py:294-313: unpadding and normalisation *)
Definition finish (a : cwt_args) (n1 : Z) (N : nat) (scales : list R) (W : mat C) : mat C :=
  let W := if negb (a_rpadded a) && (if a_pad a then true else false)
           then mcols W n1 (n1 + Z.of_nat N) else W in
  if a_l1 a then W else scale_rows scales W.

Definition cwt (pyfftw inst : bool) (f : wfun) (a : cwt_args) (x : list R)
  : M (mat C * list R * option (mat C)) :=
  let N := length x in
  let cache := use_cache inst (a_vec a) (a_cache a) in
  mdo fs <- lift (process_fs_and_t (a_fs a) (a_t a) N);
  mdo _ <- lift (check_gmw f (a_l1 a));
  mdo (xp, n1) <- lift (pad_input (a_pad a) x);
  mdo _ <- fft_check pyfftw;
  let n := length xp in
  let xh := dft n (fun m => RtoC (nth m xp 0)) in
  mdo scales <- lift (process_scales (a_scales a) (a_f64s a) N);
  mdo (N_orig, pat_orig) <- (fun s => (Ok (s_N s, PatTuple (s_pat s) (s_lim s)), s));
  mdo _ <- set_N n;
  mdo _ <- set_patience (a_pat a);
  mdo (Wx, dWx) <- (if a_vec a then vectorized pyfftw f cache scales n fs (a_deriv a) xh
                     else for_loop pyfftw f scales n fs (a_deriv a) xh);
  mdo _ <- set_N N_orig;
  mdo _ <- set_patience pat_orig;
  mret (finish a n1 N scales Wx, scales, opt_map (finish a n1 N scales) dWx).

(** a complex [x] is cast to the wavelet's real dtype, _cwt.py:254 *)
Definition cwt_complex (pyfftw inst : bool) (f : wfun) (a : cwt_args) (x : list C) :=
  cwt pyfftw inst f a (map Re x).

(** a wavelet given by name: a fresh instance with [N=1024], dropped afterwards *)
Definition cwt_named (pyfftw : bool) (f : wfun) (a : cwt_args) (x : list R)
  : M (mat C * list R * option (mat C)) := fun s =>
  let '(r, s') := cwt pyfftw false f a x (CS (s_pat s) (s_lim s) 1024 None) in
  (r, CS (s_pat s') (s_lim s') (s_N s) (s_cache s)).

(** ** 2-D input, the same function with [is_2D]: rows of [xs] are signals of one length *)
Fixpoint pad_rows (pt : padtype) (xs : list (list R)) : res (list (list R)) :=
  match xs with
  | [] => Ok []
  | x :: xs' => do p <- padsignal 0 x pt None;
                do ps <- pad_rows pt xs';
                let '(xp, _, _, _) := p in Ok (xp :: ps)
  end.
Definition pad_input2 (pt : option padtype) (xs : list (list R)) (N : nat)
  : res (list (list R) * Z) :=
  match N with
  | O => Err NotModelled
  | _ => match pt with
         | Some pt => do ps <- pad_rows pt xs;
                      let '(_, n1, _) := p2up (Z.of_nat N) in Ok (ps, n1)
         | None => Ok (xs, 0%Z)
         end
  end.

Definition vectorized2 (pyfftw : bool) (f : wfun) (cache : bool) (scales : list R) (n : nat)
  (fs : R) (deriv : bool) (xhs : list (nat -> C)) : M (list (mat C) * option (list (mat C))) :=
  mdo p <- (if cache then Psih f scales None false
            else fun s => (Ok (wavelet_call f scales (s_N s) false), s));
  mdo _ <- fft_check pyfftw;
  let Wx := map (fun xh => Mat (length scales) n (cwt_cell p n xh)) xhs in
  mret (Wx, if deriv then Some (map (fun xh => Mat (length scales) n (dcwt_cell p n fs xh)) xhs) else None).
Definition for_loop2 (pyfftw : bool) (f : wfun) (scales : list R) (n : nat) (fs : R)
  (deriv : bool) (xhs : list (nat -> C)) : M (list (mat C) * option (list (mat C))) := fun s =>
  let psih i := wavelet_call f [nth i scales 0] (s_N s) false in
  let Wx := map (fun xh => Mat (length scales) n (fun i => cwt_cell (psih i) n xh 0)) xhs in
  let dpsih i k := Cmul (0, nth k (xifn 1 n) 0 * fs) (el (psih i) 0 k) in
  let dWx := map (fun xh => Mat (length scales) n
                   (fun i => idft n (fun k => Cmul (dpsih i k) (xh k)))) xhs in
  (mdo _ <- fft_check pyfftw; mret (Wx, if deriv then Some dWx else None)) s.

Definition cwt2 (pyfftw inst : bool) (f : wfun) (a : cwt_args) (xs : list (list R))
  : M (list (mat C) * list R * option (list (mat C))) :=
  let N := length (nth 0 xs []) in
  let cache := use_cache inst (a_vec a) (a_cache a) in
  mdo fs <- lift (process_fs_and_t (a_fs a) (a_t a) N);
  mdo _ <- lift (check_gmw f (a_l1 a));
  mdo (xps, n1) <- lift (pad_input2 (a_pad a) xs N);
  mdo _ <- fft_check pyfftw;
  let n := length (nth 0 xps []) in
  let xhs := map (fun xp => dft n (fun m => RtoC (nth m xp 0))) xps in
  mdo scales <- lift (process_scales (a_scales a) (a_f64s a) N);
  mdo (N_orig, pat_orig) <- (fun s => (Ok (s_N s, PatTuple (s_pat s) (s_lim s)), s));
  mdo _ <- set_N n;
  mdo _ <- set_patience (a_pat a);
  mdo (Wx, dWx) <- (if a_vec a then vectorized2 pyfftw f cache scales n fs (a_deriv a) xhs
                     else for_loop2 pyfftw f scales n fs (a_deriv a) xhs);
  mdo _ <- set_N N_orig;
  mdo _ <- set_patience pat_orig;
  mret (map (finish a n1 N scales) Wx, scales, opt_map (map (finish a n1 N scales)) dWx).

(** ** [cwt_higher_order], _cwt.py:517-610.  [fam k] is the GMW of order [k] (a fresh
    instance); [d0] is [len(x)], the first axis of the input. *)
Inductive ho_order := HOInt (k : nat) | HOTuple (l : list nat).
Inductive ho_out (A : Type) := HOOne (W : A) | HOList (l : list A).
Arguments HOOne {A} W.
Arguments HOList {A} l.
Definition ho_list (o : ho_order) : list nat := match o with HOInt k => [k] | HOTuple l => l end.
Fixpoint msequence {A} (l : list (M A)) : M (list A) :=
  match l with
  | [] => mret []
  | m :: l' => mdo a <- m; mdo r <- msequence l'; mret (a :: r)
  end.
(** [np.mean(np.stack(l), axis=0)] *)
Definition mmean (l : list (mat C)) : mat C :=
  let d := nth 0 l (Mat 0 0 (fun _ _ => C0)) in
  Mat (nrows d) (ncols d) (fun i j =>
    Cmul (RtoC (/ INR (length l))) (Csum (length l) (fun k => el (nth k l d) i j))).
Definition ho_scales (a : cwt_args) (d0 : nat) : res scales_arg :=
  match a_scales a with
  | ScArr l => Ok (ScArr l)
  | ScAuto make => do l <- make d0; Ok (ScArr l)
  end.
Definition set_scales (a : cwt_args) (sc : scales_arg) : cwt_args :=
  CA sc (a_f64s a) (a_fs a) (a_t a) (a_l1 a) (a_deriv a) (a_pad a) (a_rpadded a) (a_vec a)
     (a_pat a) (a_cache a).
(** _cwt.py:563-571, 594-605: [average] after its processing, then the choice of output *)
Definition ho_averages (o : ho_order) (average : option bool) : bool :=
  match average with
  | Some true => negb (length (ho_list o) =? 1)%nat
  | Some false => false
  | None => match o with HOTuple _ => true | HOInt _ => false end
  end.
Definition ho_collect {A} (avg : bool) (mn : list A -> A) (l : list A) : ho_out A :=
  if avg then HOOne (mn l)
  else match l with [W] => HOOne W | _ => HOList l end.

(** each wavelet is a fresh instance: its [N] and cache are dropped *)
Definition cwt_fresh (pyfftw : bool) (f : wfun) (a : cwt_args) (x : list R)
  : M (mat C * list R * option (mat C)) := fun s =>
  let '(r, s') := cwt pyfftw true f a x (CS (s_pat s) (s_lim s) 1024 None) in
  (r, CS (s_pat s') (s_lim s') (s_N s) (s_cache s)).
Definition cwt_higher_order (pyfftw : bool) (fam : nat -> wfun) (o : ho_order)
  (average : option bool) (a : cwt_args) (x : list R)
  : M (ho_out (mat C) * option (ho_out (mat C))) :=
  mdo sc <- lift (ho_scales a (length x));
  let a' := set_scales a sc in
  mdo outs <- msequence (map (fun k => cwt_fresh pyfftw (fam k) a' x) (ho_list o));
  let avg := ho_averages o average in
  let Ws := map (fun r => fst (fst r)) outs in
  let dWs := flat_map (fun r => match snd r with Some d => [d] | None => [] end) outs in
  mret (ho_collect avg mmean Ws, if a_deriv a then Some (ho_collect avg mmean dWs) else None).

Definition cwt_fresh2 (pyfftw : bool) (f : wfun) (a : cwt_args) (xs : list (list R))
  : M (list (mat C) * list R * option (list (mat C))) := fun s =>
  let '(r, s') := cwt2 pyfftw true f a xs (CS (s_pat s) (s_lim s) 1024 None) in
  (r, CS (s_pat s') (s_lim s') (s_N s) (s_cache s)).
Definition mmean2 (l : list (list (mat C))) : list (mat C) :=
  let b := length (nth 0 l []) in
  tab b (fun q => mmean (map (fun Ws => nth q Ws (Mat 0 0 (fun _ _ => C0))) l)).
Definition cwt_higher_order2 (pyfftw : bool) (fam : nat -> wfun) (o : ho_order)
  (average : option bool) (a : cwt_args) (xs : list (list R))
  : M (ho_out (list (mat C)) * option (ho_out (list (mat C)))) :=
  mdo sc <- lift (ho_scales a (length xs));
  let a' := set_scales a sc in
  mdo outs <- msequence (map (fun k => cwt_fresh2 pyfftw (fam k) a' xs) (ho_list o));
  let avg := ho_averages o average in
  let Ws := map (fun r => fst (fst r)) outs in
  let dWs := flat_map (fun r => match snd r with Some d => [d] | None => [] end) outs in
  mret (ho_collect avg mmean2 Ws, if a_deriv a then Some (ho_collect avg mmean2 dWs) else None).

(** ** [icwt], _cwt.py:323-494 *)
(** _cwt.py:485-494 [_icwt_norm]; only reached with 'log' and 'linear' *)
Definition icwt_norm (log l1 : bool) (s : R) : R :=
  if l1 then (if log then 1 else s) else (if log then sqrt s else s * sqrt s).
(** _cwt.py:479-482 *)
Definition icwt_1int (Wx : mat C) (scales : list R) (log l1 : bool) : list R :=
  tab (ncols Wx) (fun j =>
    Rsum (nrows Wx) (fun i => Re (el Wx i j) / icwt_norm log l1 (nth i scales 0))).
(** _cwt.py:456-476; [n_up] and [n1] are only assigned when [not rpadded].  Fewer than one
    column is not modelled. *)
Fixpoint pad_mat_rows (pt : padtype) (rows : list (list C)) : res (list (list C)) :=
  match rows with
  | [] => Ok []
  | r :: rs => do p <- padsignal C0 r pt None;
               do ps <- pad_mat_rows pt rs;
               let '(xp, _, _, _) := p in Ok (xp :: ps)
  end.
Definition pad_mat (pt : padtype) (A : mat C) : res (mat C * Z) :=
  if (ncols A =? 0)%nat then Err NotModelled
  else
    do rows <- pad_mat_rows pt (tab (nrows A) (fun i => tab (ncols A) (el A i)));
    let '(n_up, n1, _) := p2up (Z.of_nat (ncols A)) in
    Ok (Mat (nrows A) (Z.to_nat n_up) (fun i j => nth j (nth i rows []) C0), n1).
Definition icwt_2int (f : wfun) (Wx : mat C) (scales : list R) (log l1 : bool) (x_len : Z)
  (pt : padtype) (rpadded : bool) : res (list R) :=
  if rpadded then Err UnboundLocalError
  else
    do (W, n1) <- pad_mat pt Wx;
    let n := ncols W in
    let psih i k := Cmul (el (wavelet_call f [nth i scales 0] n true) 0 k)
                         (RtoC (if Nat.even k then 1 else -1)) in
    let xa i := ifftshift (tab n (idft n (fun k => Cmul (dft n (el W i) k) (psih i k)))) in
    let x := tab n (fun j =>
      Rsum (Nat.min (length scales) (nrows W))
           (fun i => Re (nth j (xa i) C0) / icwt_norm log l1 (nth i scales 0))) in
    Ok (pyslice x n1 (n1 + x_len)).

Definition mrows {A} (W : mat A) (a b : Z) : mat A :=
  let n := Z.of_nat (nrows W) in
  let a' := Z.to_nat (norm_bound n a) in
  Mat (Z.to_nat (norm_bound n b) - a') (ncols W) (fun i j => el W (a' + i) j).
Definition ladd (x y : list R) : res (list R) :=
  if (length x =? length y)%nat then Ok (map (fun p => fst p + snd p) (combine x y)) else Err ValueError.

(** _cwt.py:418-453 for scale arrays, after [x_len = x_len or n] (line 409); [Cpsi] is
    [adm_ssq]/[adm_cwt].  [fuel]: depth of the recursion on piecewise scales. *)
Fixpoint icwt_rec (fuel : nat) (f : wfun) (Cpsi : R) (Wx : mat C) (scales : list R) (f64 : bool)
  (nv : option Z) (one_int l1 : bool) (x_len : Z) (x_mean : R) (pt : padtype) (rpadded : bool)
  : res (list R) :=
  match fuel with
  | O => Err OutOfFuel
  | S fuel' =>
    do _ <- check_gmw f l1;
    do k <- process_scales_arr f64 scales;
    do _ <- match k, nv with
            | KLog n, Some m => if (n =? m)%Z then Ok tt else Err PlainException
            | KLinear, Some m => if (0 <? m)%Z then Ok tt else Err ValueError
            | _, _ => Ok tt
            end;
    if negb (length scales =? nrows Wx)%nat then Err AssertionError
    else
    match k with
    | KPiece _ =>
        do idx <- logscale_transition_idx f64 scales;
        match idx with
        | None => Err NotModelled          (* excluded by [infer_scaletype] *)
        | Some idx =>
            let i := Z.of_nat idx in
            do x <- icwt_rec fuel' f Cpsi (mrows Wx 0 i) (firstn idx scales) f64 None one_int l1 x_len x_mean pt rpadded;
            do y <- icwt_rec fuel' f Cpsi (mrows Wx i (Z.of_nat (nrows Wx))) (skipn idx scales) f64 None one_int l1 x_len x_mean pt rpadded;
            ladd x y
        end
    | KLog n =>
        do x <- (if one_int then Ok (icwt_1int Wx scales true l1)
                 else icwt_2int f Wx scales true l1 x_len pt rpadded);
        Ok (map (fun y => y * (2 / Cpsi * ln (Rpower 2 (1 / IZR n))) + x_mean) x)
    | KLinear =>
        do x <- (if one_int then Ok (icwt_1int Wx scales false l1)
                 else icwt_2int f Wx scales false l1 x_len pt rpadded);
        Ok (map (fun y => y * (2 / Cpsi * PI / 4) + x_mean) x)
    end
  end.
Definition icwt (f : wfun) (Cpsi : R) (Wx : mat C) (scales : list R) (f64 : bool) (nv : option Z)
  (one_int l1 : bool) (x_len : option Z) (x_mean : R) (pt : padtype) (rpadded : bool)
  : res (list R) :=
  let n := Z.of_nat (ncols Wx) in
  let x_len := match x_len with Some l => if (l =? 0)%Z then n else l | None => n end in
  icwt_rec (S (length scales)) f Cpsi Wx scales f64 nv one_int l1 x_len x_mean pt rpadded.

(** ** utils/common.py:161-245 [trigdiff], [transform='cwt'] and 2-D [A] *)
Definition trigdiff (A : mat C) (fs : R) (pt : option padtype) (rpadded : option bool)
  (N : option Z) (n1 : option Z) : res (mat C) :=
  let rp := match rpadded with Some true => true | _ => false end in
  match rp, N with
  | true, None => Err ValueError
  | _, _ =>
    let pt := match pt with Some p => Some p | None => if rp then None else Some PReflect end in
    do (A, n1) <- match pt with
                   | Some p => do (A', k) <- pad_mat p A; Ok (A', Some k)
                   | None => Ok (A, n1)
                   end;
    let n := ncols A in
    let D := Mat (nrows A) n (fun i => idft n (fun k =>
               Cmul (dft n (el A i) k) (0, nth k (xifn 1 n) 0 * fs))) in
    if rp || (if pt then true else false) then
      let N := match N with Some N => N | None => Z.of_nat n end in
      let n1 := match n1 with Some k => k | None => let '(_, k, _) := p2up N in k end in
      Ok (mcols D n1 (n1 + N))
    else Ok D
  end.
