(** utils/cwt_utils.py: scale arrays and time/rate arguments.  Exact arithmetic; the
    wavelet enters only through the functions named in each definition. *)
From Coq Require Import Reals Lra.
From Verif Require Import Py Round Squeeze.
Local Open Scope R_scope.

Definition Rltb' (a b : R) : bool := if Rlt_dec a b then true else false.
Definition all_pos (l : list R) : bool := forallb (fun s => Rltb' 0 s) l.

(** cwt_utils.py:698-718 [_process_fs_and_t]: the sampling rate ([dt] is its inverse).
    [t] of fewer than 3 entries: the mean of an empty array is NaN, hence rejected.
    [t[1] == t[0]]: numpy's 1/0 is inf, not modelled. *)
Definition process_fs_and_t (fs : option R) (t : option (list R)) (N : nat) : res R :=
  match t with
  | Some t =>
      if negb (length t =? N)%nat then Err PlainException
      else if (length t <? 3)%nat then Err PlainException
      else if negb (Rltb' (mean (map Rabs (diff (diff t)))) (/ 10000000)) then Err PlainException
      else if Req_EM_T (nth 1 t 0) (nth 0 t 0) then Err NotModelled
      else Ok (1 / (nth 1 t 0 - nth 0 t 0))
  | None =>
      match fs with
      | None => Ok 1
      | Some f => if Rle_dec f 0 then Err ValueError else Ok f
      end
  end.

(** [scaletype] together with the [nv] inferred with it *)
Inductive scale_kind := KLog (nv : Z) | KLinear | KPiece (nv : list R).

(** cwt_utils.py:397-409 [nv_from_scales]; equal neighbours (1/0) are not modelled *)
Definition nv_from_scales (f64 : bool) (scales : list R) : res (list R) :=
  let d := diff (map log2 scales) in
  if existsb (fun y => if Req_EM_T y 0 then true else false) d then Err NotModelled
  else
    let logdiffs := map (fun y => 1 / y) d in
    let nv := firstn 1 logdiffs ++ logdiffs in
    do idx <- logscale_transition_idx f64 scales;
    match idx with
    | None => Ok nv
    | Some i => if (argmax (map Rabs (diff nv)) + 1 =? i)%nat then Ok nv else Err AssertionError
    end.

(** cwt_utils.py:264-298 [infer_scaletype].  With fewer than 3 entries both means are NaN
    and [logscale_transition_idx] raises.  An entry [<= 0] makes the logarithmic mean
    infinite or NaN, so that the linear test decides; what follows if that one fails too is
    not modelled. *)
Definition infer_scaletype (f64 : bool) (scales : list R) : res scale_kind :=
  let th_log := if f64 then 4 / 1000000000000000 else 8 / 10000000 in
  let th_lin := th_log * 1000 in
  if (length scales <? 3)%nat then Err ValueError
  else if all_pos scales && Rltb' (mean (map Rabs (diff (diff (map ln scales))))) th_log then
    let d := log2 (nth 1 scales 0) - log2 (nth 0 scales 0) in
    if Req_EM_T d 0 then Err OverflowError else Ok (KLog (round_half_even (1 / d)))
  else if Rltb' (mean (map Rabs (diff (diff scales)))) th_lin then Ok KLinear
  else if negb (all_pos scales) then Err NotModelled
  else
    do idx <- logscale_transition_idx f64 scales;
    match idx with
    | None => Err ValueError
    | Some _ => do nv <- nv_from_scales f64 scales; Ok (KPiece nv)
    end.

(** cwt_utils.py:196-261 [process_scales], array argument, [nv=None], [get_params=True] *)
Definition process_scales_arr (f64 : bool) (scales : list R) : res scale_kind :=
  do k <- infer_scaletype f64 scales;
  match k with
  | KLog nv => if (nv <=? 0)%Z then Err ValueError else Ok k
  | _ => Ok k
  end.

(** [np.linspace(a, b, n)] *)
Definition linspace (a b : R) (n : nat) : list R :=
  tab n (fun k => if (n =? 1)%nat then a else a + INR k * ((b - a) / INR (n - 1))).

(** floor and ceil *)
Definition Rfloor (r : R) : Z := Int_part r.
Definition Rceil (r : R) : Z := (- Int_part (- r))%Z.

(** cwt_utils.py:301-372 [make_scales] with both bounds given; [fds] stands for
    [find_downsampling_scale(wavelet, .)], [downsample] for the configured factor.
    [np.arange(mn, mx)] is empty when [mx <= mn]; a slice step of 0 raises. *)
Inductive skind := SLog | SPiece | SLin.
Fixpoint every {A} (k : nat) (l : list A) (skip : nat) : list A :=
  match l with
  | [] => []
  | y :: l' => match skip with
               | O => y :: every k l' (k - 1)
               | S s => every k l' s
               end
  end.
Definition pow2_arange (mn mx nv : Z) : list R :=
  tab (Z.to_nat (mx - mn)) (fun i => Rpower 2 (IZR (mn + Z.of_nat i) / IZR nv)).
Definition make_scales (min_scale max_scale : R) (nv : Z) (st : skind)
  (fds : list R -> res (option nat)) (downsample : Z) : res (list R) :=
  let na := Rceil (IZR nv * log2 (max_scale / min_scale)) in
  let mn_pow := Rfloor (IZR nv * log2 min_scale) in
  let mx_pow := (mn_pow + na)%Z in
  let scales := pow2_arange mn_pow mx_pow nv in
  match st with
  | SLog => Ok scales
  | SPiece =>
      do idx <- fds scales;
      match idx with
      | None => Ok scales
      | Some i =>
          if (downsample =? 0)%Z then Err ValueError
          else if (downsample <? 0)%Z then Err NotModelled
          else Ok (firstn i scales ++
                   every (Z.to_nat downsample)
                     (pyslice_from scales (Z.of_nat i + downsample - 1)) 0)
      end
  | SLin =>
      let mn := Rpower 2 (IZR mn_pow / IZR nv) in
      let mx := Rpower 2 (IZR mx_pow / IZR nv) in
      Ok (linspace mn mx (Z.to_nat (Rceil (mx / mn))))
  end.

(** cwt_utils.py:348-352: bounds given as optional numbers, [0] counting as missing; the case
    of both missing with a wavelet calls [cwt_scalebounds] and is not modelled. *)
Definition or_real (o : option R) (d : R) : R :=
  match o with Some r => if Req_EM_T r 0 then d else r | None => d end.
Definition make_scales_bounds (N : nat) (min_scale max_scale : option R) : R * R :=
  (or_real min_scale 1, or_real max_scale (INR N)).

(** cwt_utils.py:459-580 [find_downsampling_scale].  [Psih] is the sampled wavelet array; its
    rows are cut to their left half.  [tol] is an int.  Plotting is not modelled; a row
    without entries (numpy's [max] raises) is outside the model. *)
Inductive dmethod := DAny | DAll | DSum.
Definition rowmax (l : list R) : R := fold_left Rmax l (nth 0 l 0).
Definition where_eq (l : list R) (m : R) : list nat :=
  filter (fun j => if Req_EM_T (nth j l 0) m then true else false) (seq 0 (length l)).
Definition check_group (method : dmethod) (tol : Z) (peaks : list nat) (joint : nat) : bool :=
  let distances := map (fun p => Z.abs (Z.of_nat p - Z.of_nat joint)) peaks in
  match method with
  | DAny => (fold_left Z.max distances 0 <? tol)%Z
  | DAll => negb (forallb (fun d => (tol <? d)%Z) distances)
  | DSum => (fold_left Z.add distances 0 <? tol)%Z
  end.
(** lines 556-570 for group [i]: [true] is [break] *)
Definition group_breaks (span : nat) (tol : Z) (method : dmethod) (nonzero_th nonzero_tol : R)
  (Psih : list (list R)) (i : nat) : bool :=
  let psihs := firstn span (skipn i Psih) in
  let nonzeros := length (flat_map (fun row => filter (fun y => Rltb' (nonzero_th * rowmax row) y) row) psihs) in
  if Rltb' nonzero_tol (INR nonzeros / INR span) then false
  else
    let peaks := flat_map (fun row => where_eq row (rowmax row)) psihs in
    let width := length (nth 0 psihs []) in
    let joint := argmax (tab width (fun j => fold_left (fun p row => p * nth j row 0) psihs 1)) in
    check_group method tol peaks joint.
(** the value of [i] after [for i in range(n)], [n >= 1] *)
Fixpoint loop_index (stop : nat -> bool) (n i : nat) : nat :=
  match n with
  | O => i
  | S O => i
  | S n' => if stop i then i else loop_index stop n' (S i)
  end.
Definition find_downsampling_scale (span : nat) (tol : Z) (method : dmethod)
  (nonzero_th nonzero_tol : R) (Psih : list (list R)) (scales : list R) : res (option nat) :=
  if negb (length Psih =? length scales)%nat then Err ValueError
  else
    let half := map (fun row => firstn (length row / 2) row) Psih in
    let n_groups := (length Psih - span - 1)%nat in
    if (n_groups =? 0)%nat then Err UnboundLocalError      (* the loop never sets [i] *)
    else
      let i := loop_index (group_breaks span tol method nonzero_th nonzero_tol half) n_groups 0 in
      Ok (if (i <? n_groups - 1)%nat then Some i else None).
