(** ssqueezing.py [ssqueeze] and its helpers, _ssq_stft.py, and the inversions of
    _ssq_cwt.py.  Exact arithmetic. *)
From Coq Require Import Reals Lra.
From Verif Require Import Py Round Parallel Cplx Padding Buffer Freqs Stft Squeeze Scales.
Local Open Scope R_scope.

Inductive transform := TCwt | TStft.

(** [maprange]; for 'peak' and 'energy' [center] is [_get_center_frequency] as a function of
    the scale, ssqueezing.py:301-311 (wavelet, N, dt and was_padded are fixed in a call) *)
Inductive maprange := MRTuple (fm fM : R) | MRMaximal | MRCenter (center : R -> R).

(** ssqueezing.py:228-244 *)
Definition ssq_freqrange (mr : maprange) (dt : R) (N : nat) (scales : list R) : R * R :=
  match mr with
  | MRTuple fm fM => (fm, fM)
  | MRMaximal => (1 / (dt * INR N), 1 / (2 * dt))
  | MRCenter c => (c (last scales 0), c (nth 0 scales 0))
  end.

(** ssqueezing.py:294-298 [_exp_fm], for positive frequencies *)
Definition tmin (t : list R) : R := fold_left Rmin t (nth 0 t 0).
Definition tmax (t : list R) : R := fold_left Rmax t (nth 0 t 0).
Definition exp_fm (t : list R) (fmin fmax : R) : list R :=
  let a := Rpower (Rpower fmin (tmax t) / Rpower fmax (tmin t)) (1 / (tmax t - tmin t)) in
  let b := Rpower fmax (1 / tmax t) * Rpower (1 / a) (1 / tmax t) in
  map (fun u => a * Rpower b u) t.

(** ssqueezing.py:258, 263: [fm * (fM / fm) ** (arange(na) / (na - 1))] *)
Definition log_freqs (fm fM : R) (na : nat) : list R :=
  tab na (fun k => fm * Rpower (fM / fm) (INR k / INR (na - 1))).

(** ssqueezing.py:247-291.  [f64s]: scales are float64; the frequencies always are. *)
Definition associated_frequencies (f64s : bool) (scales : list R) (N : nat) (st : skind)
  (mr : maprange) (dt : R) (tr : transform) : res (list R) :=
  let '(fm, fM) := ssq_freqrange mr dt N scales in
  let na := length scales in
  match st with
  | SLog => Ok (log_freqs fm fM na)
  | SPiece =>
      do idx <- logscale_transition_idx f64s scales;
      match idx with
      | None => Ok (log_freqs fm fM na)
      | Some idx =>
          match mr with
          | MRCenter c =>
              let f1 := c (nth idx scales 0) in
              let t k := INR k / INR (na - 1) in
              let t2 := map t (seq (na - idx - 1) (idx + 1)) in
              let t1 := map t (seq 0 (na - idx - 1)) ++ [nth 0 t2 0] in
              let ssq_freqs := removelast (exp_fm t1 fm f1) ++ exp_fm t2 f1 fM in
              do si <- logscale_transition_idx true ssq_freqs;
              match si with
              | None => Err PlainException
              | Some s => if (Z.of_nat na - Z.of_nat s =? Z.of_nat idx)%Z then Ok ssq_freqs
                          else Err AssertionError
              end
          | _ => Err ValueError        (* rejected before, ssqueezing.py:183-187 *)
          end
      end
  | SLin => match tr with
            | TCwt => Ok (linspace fm fM na)
            | TStft => Ok (map (fun f => f / dt) (linspace 0 (1 / 2) na))
            end
  end.

(** ** The driver *)
Inductive squeezing := SqSum | SqLebesgue | SqAbs | SqFun (f : mat C -> mat C).
Inductive freqs_arg := FArray (v : list R) | FKind (k : skind) | FNone.

Record ssq_opts := SO {
  o_tr : transform; o_freqs : freqs_arg; o_scales : option (list R); o_f64s : bool;
  o_f64v : bool; o_fs : R; o_sq : squeezing; o_mr : maprange; o_gamma : option R;
  o_flip : bool; o_Sfs : option (list R) }.

Definition skind_of (k : scale_kind) : skind :=
  match k with KLog _ => SLog | KLinear => SLin | KPiece _ => SPiece end.
Definition is_log (s : skind) : bool := match s with SLin => false | _ => true end.

(** ssqueezing.py:170-194: scale type, frequencies, whether they are logarithmic.  Without
    [scales] the STFT has no default frequencies ([len(None)]). *)
Definition ssq_freqs_of (o : ssq_opts) (N : nat) : res (option scale_kind * list R * bool) :=
  let auto (sc : list R) (k : option scale_kind) (st : skind) :=
    match st, o_mr o with
    | SPiece, MRTuple _ _ | SPiece, MRMaximal => Err ValueError
    | _, _ => do v <- associated_frequencies (o_f64s o) sc N st (o_mr o) (1 / o_fs o) (o_tr o);
              Ok (k, v, is_log st)
    end in
  match o_tr o with
  | TCwt =>
      match o_scales o with
      | None => Err ValueError
      | Some sc =>
          do k <- process_scales_arr (o_f64s o) sc;
          match o_freqs o with
          | FKind st => auto sc (Some k) st
          | FNone => auto sc (Some k) (skind_of k)
          | FArray v => do vk <- infer_scaletype (o_f64v o) v;
                        Ok (Some k, v, is_log (skind_of vk))
          end
      end
  | TStft =>
      match o_freqs o with
      | FArray v => Ok (None, v, false)
      | FKind st => match o_scales o with
                    | None => Err TypeError
                    | Some sc => auto sc None st
                    end
      | FNone => match o_scales o with None => Err TypeError | Some _ => Err AttributeError end
      end
  end.

(** ssqueezing.py:124-134 *)
Definition ssq_const (o : ssq_opts) (k : option scale_kind) (v : list R) : res const_arg :=
  match o_tr o with
  | TStft => match v with v0 :: v1 :: _ => Ok (CScalar (v1 - v0)) | _ => Err IndexError end
  | TCwt =>
      match k with
      | Some (KLog nv) => Ok (CScalar (ln 2 / IZR nv))
      | Some (KPiece nv) => Ok (CArr (map (fun n => ln 2 / n) nv))
      | Some KLinear =>
          match o_scales o with
          | Some ((s0 :: s1 :: _) as sc) => Ok (CArr (map (fun s => (s1 - s0) / s) sc))
          | _ => Err IndexError
          end
      | None => Err ValueError
      end
  end.

(** ssqueezing.py:197-202; [n0] is [len(Wx)], the first axis of the array passed in *)
Definition squeeze_input (sq : squeezing) (n0 : nat) (Wx : mat C) : mat C :=
  match sq with
  | SqSum => Wx
  | SqLebesgue => Mat (nrows Wx) (ncols Wx) (fun _ _ => RtoC (1 / INR n0))
  | SqAbs => Mat (nrows Wx) (ncols Wx) (fun i j => RtoC (Cabs (el Wx i j)))
  | SqFun f => f Wx
  end.

(** ssqueezing.py:122-146 on one (already transformed) array.  [dWx = Some None] never
    occurs: missing [dWx] or [gamma] is rejected first. *)
Definition ssqueeze_one (ord : order) (o : ssq_opts) (k : option scale_kind) (v : list R)
  (ls : bool) (Wx : mat C) (w : option (mat fval)) (dWx : option (mat C)) : res (mat C) :=
  do cst <- ssq_const o k v;
  let out := Mat (nrows Wx) (ncols Wx) (fun _ _ => C0) in
  match w with
  | Some w => indexed_sum_onfly ord (o_f64v o) Wx w v cst ls (o_flip o) out
  | None =>
      match dWx, o_gamma o with
      | Some d, Some g => ssqueeze_fast ord (o_f64v o) Wx d v cst ls (o_flip o) g (o_Sfs o) out
      | _, _ => Err ValueError
      end
  end.

Definition has_negative (w : mat fval) : bool :=
  existsb (fun i => existsb (fun j => match el w i j with Fin r => Rltb' r 0 | Inf => false end)
                            (seq 0 (ncols w))) (seq 0 (nrows w)).

(** ssqueezing.py:217-222 *)
Definition flip_freqs (o : ssq_opts) (v : list R) : list R :=
  match o_tr o, o_flip o with
  | TCwt, false => rev v
  | _, true => rev v
  | TStft, false => v
  end.

(** [ssqueeze], 2-D input *)
Definition ssqueeze (ord : order) (o : ssq_opts) (Wx : mat C) (w : option (mat fval))
  (dWx : option (mat C)) : res (mat C * list R) :=
  if match w, dWx, o_gamma o with
     | None, None, _ | None, _, None => true
     | Some w, _, _ => has_negative w
     | _, _, _ => false
     end then Err ValueError
  else
    do f <- ssq_freqs_of o (ncols Wx);
    let '(k, v, ls) := f in
    do Tx <- ssqueeze_one ord o k v ls (squeeze_input (o_sq o) (nrows Wx) Wx) w dWx;
    Ok (Tx, flip_freqs o v).

(** [ssqueeze], 3-D input: ssqueezing.py:209-214.  [SqFun] is applied to the whole batch by
    the source; functions acting item by item are modelled. *)
Fixpoint zip_squeeze (ord : order) (o : ssq_opts) (k : option scale_kind) (v : list R)
  (ls : bool) (Wxs : list (mat C)) (ws : list (option (mat fval)))
  (dWxs : list (option (mat C))) : res (list (mat C)) :=
  match Wxs, ws, dWxs with
  | Wx :: Wxs', w :: ws', dWx :: dWxs' =>
      do T <- ssqueeze_one ord o k v ls Wx w dWx;
      do Ts <- zip_squeeze ord o k v ls Wxs' ws' dWxs';
      Ok (T :: Ts)
  | [], _, _ => Ok []
  | _, _, _ => Ok (map (fun W => Mat (nrows W) (ncols W) (fun _ _ => C0)) Wxs)
  end.
Definition ssqueeze_batch (ord : order) (o : ssq_opts) (Wxs : list (mat C))
  (ws : option (list (mat fval))) (dWxs : option (list (mat C)))
  : res (list (mat C) * list R) :=
  if match ws, dWxs, o_gamma o with
     | None, None, _ | None, _, None => true
     | Some ws, _, _ => existsb has_negative ws
     | _, _, _ => false
     end then Err ValueError
  else
    let nones {A} : list (option A) := repeat None (length Wxs) in
    let opt {A} (g : option (list A)) := match g with Some l => map Some l | None => nones end in
    do f <- ssq_freqs_of o (match Wxs with W :: _ => ncols W | [] => 0 end);
    let '(k, v, ls) := f in
    do Ts <- zip_squeeze ord o k v ls (map (squeeze_input (o_sq o) (length Wxs)) Wxs)
               (opt ws) (opt dWxs);
    Ok (Ts, flip_freqs o v).

(** ** _ssq_stft.py *)
Definition EPS32 : R := / 8388608.

(** _ssq_stft.py:249-257 [_make_Sfs] *)
Definition make_Sfs (n_rows : nat) (fs : R) : list R := linspace 0 (fs / 2) n_rows.

Record ssq_stft_opts := SS {
  s_freqs : option (list R); s_sq : squeezing; s_gamma : option R; s_flip : bool;
  s_get_w : bool; s_f64v : bool }.

(** _ssq_stft.py:13-136 [ssq_stft], 1-D input; returns Tx, Sx, ssq_freqs, Sfs.  The rate in
    [a] is replaced by the one [_process_fs_and_t] gives. *)
Definition ssq_stft (ord : order) (x : list R) (a : stft_args) (fs : option R)
  (t : option (list R)) (s : ssq_stft_opts) : res (mat C * mat C * list R * list R) :=
  do fs <- process_fs_and_t fs t (length x);
  do _ <- match s_freqs s with
          | Some v => do k <- infer_scaletype (s_f64v s) v;
                      match k with KLinear => Ok tt | _ => Err ValueError end
          | None => Ok tt
          end;
  let a := SA fs (a_window a) (a_n_fft a) (a_win_len a) (a_hop a) (a_modulated a)
              (a_padtype a) (a_f32 a) in
  do SD <- stft x a;
  let '(Sx, dSx) := SD in
  let Sfs := make_Sfs (nrows Sx) fs in
  let gamma := match s_gamma s with
               | Some g => g
               | None => 10 * (if a_f32 a then EPS32 else EPS64)
               end in
  let w := if s_get_w s then Some (phase_stft Sfs gamma Sx dSx) else None in
  let d := if s_get_w s then None else Some dSx in
  let v := match s_freqs s with Some v => v | None => Sfs end in
  do r <- ssqueeze ord (SO TStft (FArray v) None true (s_f64v s) 1 (s_sq s) MRMaximal (Some gamma)
                           (s_flip s) (Some Sfs)) Sx w d;
  let '(Tx, v') := r in
  Ok (Tx, Sx, v', Sfs).

(** ** Inversion *)

(** [Tx.real.sum(axis=0)] *)
Definition real_colsum (Tx : mat C) : list R :=
  tab (ncols Tx) (fun j => Rsum (nrows Tx) (fun i => Re (el Tx i j))).

(** _ssq_cwt.py:381-403 [_invert_components]: [cc], [cw] have one row per time and one
    column per component.  The band of component [n] at time [m] is
    [slice(lower, upper + 1)].  int32 overflow of [cc +- cw] is not modelled.  The 2-D
    result is a list of rows. *)
Definition clip (x lo hi : Z) : Z := Z.min (Z.max x lo) hi.
Definition band_upper (L : nat) (c w : Z) : Z :=
  if (c =? -1)%Z then 0%Z else clip (c + w) 0 (Z.of_nat L).
Definition band_lower (L : nat) (c w : Z) : Z :=
  if (c =? -1)%Z then 1%Z else clip (c - w) 0 (Z.of_nat L).
Definition in_slice (L : nat) (a b : Z) (r : nat) : bool :=
  ((norm_bound (Z.of_nat L) a <=? Z.of_nat r) && (Z.of_nat r <? norm_bound (Z.of_nat L) b))%Z.
Definition in_band (L : nat) (cc cw : mat Z) (n m r : nat) : bool :=
  in_slice L (band_lower L (el cc m n) (el cw m n)) (band_upper L (el cc m n) (el cw m n) + 1) r.

(** the remainder after removing the bands of components [< K] *)
Fixpoint remainder (K L : nat) (cc cw : mat Z) (Tx : mat C) (r m : nat) : C :=
  match K with
  | O => el Tx r m
  | S K' => if in_band L cc cw K' m r then C0 else remainder K' L cc cw Tx r m
  end.
Definition masked (L : nat) (cc cw : mat Z) (Tx : mat C) (n r m : nat) : C :=
  if in_band L cc cw n m r then el Tx r m else C0.

Definition invert_components (Tx : mat C) (cc cw : mat Z) : res (list (list R)) :=
  if (ncols cc =? 0)%nat then Err UnboundLocalError
  else if (nrows cc <? ncols Tx)%nat || (nrows cw <? ncols Tx)%nat || (ncols cw <? ncols cc)%nat
  then Err IndexError
  else if negb (nrows cw =? nrows cc)%nat then Err ValueError
  else if negb (ncols Tx =? nrows cc)%nat
  then (if (ncols Tx =? 1)%nat then Err NotModelled (* broadcast *) else Err ValueError)
  else
    let L := nrows Tx in
    let sum f := tab (ncols Tx) (fun m => Rsum L (fun r => Re (f r m))) in
    Ok (map (fun n => sum (masked L cc cw Tx n)) (seq 0 (ncols cc)) ++
        [sum (remainder (ncols cc) L cc cw Tx)]).

(** result of an inversion: one signal, or one row per component plus the remainder *)
Inductive inv_out := One (x : list R) | Many (xs : list (list R)).
Definition scale_out (c : R) (o : inv_out) : inv_out :=
  let s := map (fun y => y * c) in
  match o with One x => One (s x) | Many xs => Many (map s xs) end.

Definition invert (Tx : mat C) (comp : option (mat Z * mat Z)) : res inv_out :=
  match comp with
  | None => Ok (One (real_colsum Tx))
  | Some (cc, cw) => do xs <- invert_components Tx cc cw; Ok (Many xs)
  end.

(** _ssq_cwt.py:313-378 [issq_cwt]; [Css] is [adm_ssq(wavelet)] *)
Definition issq_cwt (Css : R) (Tx : mat C) (comp : option (mat Z * mat Z)) : res inv_out :=
  do o <- invert Tx comp; Ok (scale_out (2 / Css) o).

(** _ssq_stft.py:139-198 [issq_stft]; [f32]: the window is float32 *)
Definition issq_stft (Tx : mat C) (wa : window_arg) (comp : option (mat Z * mat Z))
  (n_fft win_len : option Z) (hop : Z) (modulated f32 : bool) : res inv_out :=
  if negb modulated then Err ValueError
  else if negb (hop =? 1)%Z then Err ValueError
  else
    let n_fft := or_default n_fft ((Z.of_nat (nrows Tx) - 1) * 2)%Z in
    let win_len := or_default win_len n_fft in
    do w <- get_window wa win_len n_fft;
    do _ <- check_NOLA f32 w hop;
    do o <- invert Tx comp;
    Ok (scale_out (2 / nth (length w / 2) w 0) o).
