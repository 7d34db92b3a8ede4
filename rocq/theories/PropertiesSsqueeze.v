(** C14, C23-C26, C33, C50: the [ssqueeze] driver, [ssq_stft]/[issq_stft], component
    inversion and the computed frequencies. *)
From Verif Require Import Py Round Padding Cplx CplxProofs Stft StftProofs Squeeze SqueezeProofs
  BinProofs SqueezeThms SqueezeThms2 SqueezeThms3 Scales Ssqueeze SsqueezeProofs IssqProofs
  SsqThms FreqRange SsqWitness.
Local Open Scope R_scope.

(** ** C14 *)
(** [p] is the last row, [rate] the sampling rate in use, [w] the window.  For even [n] the
    factor [rate / (2 p)] is [rate / n].  The hypotheses on the cells: zero or above gamma,
    with a frequency that does not overflow int64. *)
Theorem C14_issq_stft_formula ord x a fs t s rate n w nf wl f32 g :
  valid_order ord -> x <> [] -> process_fs_and_t fs t (length x) = Ok rate ->
  (3 <= n < 2 ^ 62)%Z -> a_hop a = 1%Z -> a_modulated a = true ->
  stft_n_fft a (Z.of_nat (length x)) = Ok n ->
  get_window (a_window a) (stft_win_len a n) n = Ok w -> Z.of_nat (length w) = n ->
  a_padtype a <> PSymmetric \/ (2 <= n /\ n - 1 <= 2 * Z.of_nat (length x))%Z ->
  or_default nf ((Z.of_nat (rfft_len (Z.to_nat n)) - 1) * 2) = n ->
  get_window (a_window a) (or_default wl n) n = Ok w ->
  nth (Z.to_nat (n / 2)) w 0 <> 0 ->
  s_freqs s = None -> s_sq s = SqSum ->
  g = match s_gamma s with
      | Some g => g
      | None => 10 * (if a_f32 a then EPS32 else EPS64)
      end ->
  let a' := SA rate (a_window a) (a_n_fft a) (a_win_len a) (a_hop a) (a_modulated a)
               (a_padtype a) (a_f32 a) in
  let Sfs := make_Sfs (rfft_len (Z.to_nat n)) rate in
  (forall Sx dSx k j, stft x a' = Ok (Sx, dSx) -> (k < nrows Sx)%nat -> (j < ncols Sx)%nat ->
     el Sx k j = C0 \/
     (g < Cabs (el Sx k j) /\
      phase_stft_pt (nth k Sfs 0) (el Sx k j) (el dSx k j)
      <= IZR (2 ^ 62) * Rmax (nth 1 Sfs 0) EPS64)) ->
  0 <= g -> (s_get_w s = true -> 0 < g) ->
  exists Tx Sx dSx f y,
    stft x a' = Ok (Sx, dSx) /\
    ssq_stft ord x a fs t s = Ok (Tx, Sx, f, Sfs) /\
    issq_stft Tx (a_window a) None nf wl 1 true f32 = Ok (One y) /\
    length y = length x /\
    forall j, (j < length x)%nat ->
      let p := (Z.to_nat n / 2)%nat in
      nth j y 0 = rate / (2 * INR p) *
        (IZR n * nth j x 0 +
         (Re (el Sx 0%nat j) + (if Z.even n then Re (el Sx p j) else 0))
         / nth (Z.to_nat (n / 2)) w 0).
Proof. exact (issq_ssq ord x a fs t s rate n w nf wl f32 g). Qed.
Print Assumptions C14_issq_stft_formula.

(** one sample of value 1 at rate 2 comes back as 3, whether or not get_w *)
Example C14_case gw : exists Tx Sx f Sfs,
  let a := SA 1 (WArray [1; 2; 2; 1]) (Some 4%Z) None 1 true PZero false in
  ssq_stft serial_order [1] a (Some 2) None (SS None SqSum (Some (1 / 2)) false gw true)
    = Ok (Tx, Sx, f, Sfs) /\
  (forall k, (k < 3)%nat -> el Sx k 0%nat = RtoC 2) /\
  issq_stft Tx (WArray [1; 2; 2; 1]) None None None 1 true false = Ok (One [3]).
Proof. exact (issq_case gw). Qed.

(** ** C23 *)
(** Every coefficient is added to the row whose returned frequency is nearest to its own, if
    the transform is the STFT or flipud is set.  [freq_at] is the frequency of a coefficient:
    the given [w], or the phase transform computed in the kernel. *)
Theorem C23_rows_match_ssq_freqs_partial ord o Wx w dWx Tx f k v ls reach : valid_order ord ->
  (o_tr o = TCwt -> o_flip o = true) ->
  ssq_freqs_of o (ncols Wx) = Ok (k, v, ls) -> bin_grid v ls reach ->
  let W := squeeze_input (o_sq o) (nrows Wx) Wx in
  length v = nrows W ->
  (forall i j r, (i < nrows W)%nat -> (j < ncols W)%nat -> freq_at o W w dWx i j = Fin r -> reach r) ->
  ssqueeze ord o Wx w dWx = Ok (Tx, f) ->
  exists (kap : nat -> nat -> nat) ca,
    (forall i j r, (i < nrows W)%nat -> (j < ncols W)%nat -> freq_at o W w dWx i j = Fin r ->
       nearest ls f r (kap i j)) /\
    (exists cst, ssq_const o k v = Ok cst /\ const_arr (nrows W) cst = Ok ca) /\
    forall q j, (q < nrows W)%nat -> (j < ncols W)%nat ->
      el Tx q j = Csum (nrows W) (fun i => match freq_at o W w dWx i j with
        | Inf => C0
        | Fin _ => if (kap i j =? q)%nat then Cmul (el W i j) (RtoC (nth i ca 0)) else C0 end).
Proof. exact (rows_labelled ord o Wx w dWx Tx f k v ls reach). Qed.
Print Assumptions C23_rows_match_ssq_freqs_partial.

(** CWT without flipud: the returned frequencies are in reverse order. *)
Theorem C23_unflipped_cwt_reversed ord o Wx w dWx Tx f k v ls reach : valid_order ord ->
  o_tr o = TCwt -> o_flip o = false ->
  ssq_freqs_of o (ncols Wx) = Ok (k, v, ls) -> bin_grid v ls reach ->
  let W := squeeze_input (o_sq o) (nrows Wx) Wx in
  length v = nrows W ->
  (forall i j r, (i < nrows W)%nat -> (j < ncols W)%nat -> freq_at o W w dWx i j = Fin r -> reach r) ->
  ssqueeze ord o Wx w dWx = Ok (Tx, f) ->
  exists (kap : nat -> nat -> nat) ca,
    (forall i j r, (i < nrows W)%nat -> (j < ncols W)%nat -> freq_at o W w dWx i j = Fin r ->
       nearest ls f r (length f - 1 - kap i j)) /\
    forall q j, (q < nrows W)%nat -> (j < ncols W)%nat ->
      el Tx q j = Csum (nrows W) (fun i => match freq_at o W w dWx i j with
        | Inf => C0
        | Fin _ => if (kap i j =? q)%nat then Cmul (el W i j) (RtoC (nth i ca 0)) else C0 end).
Proof. exact (rows_mislabelled ord o Wx w dWx Tx f k v ls reach). Qed.
Print Assumptions C23_unflipped_cwt_reversed.

(** all coefficients have the frequency listed last; they are in the first row *)
Theorem C23_rows_refuted : exists o Wx w Tx f,
  o_tr o = TCwt /\ o_flip o = false /\ (nrows Wx = 3 /\ ncols Wx = 1)%nat /\ length f = 3%nat /\
  ssqueeze serial_order o Wx (Some w) None = Ok (Tx, f) /\
  (forall i, (i < 3)%nat -> el w i 0%nat = Fin (nth 2 f 0)) /\
  el Tx 2%nat 0%nat = C0 /\ el Tx 0%nat 0%nat <> C0 /\ nth 0 f 0 <> nth 2 f 0.
Proof. exact unflipped_refuted. Qed.
Print Assumptions C23_rows_refuted.

Example C23_case : bin_grid [1; 2; 3] false (reach_lin [1; 2; 3]) /\ exists Tx,
  ssqueeze serial_order (wit SqSum 0 true) (col3 C1) (Some (fin3 2)) None = Ok (Tx, [3; 2; 1]) /\
  el Tx 1%nat 0%nat = RtoC (3 * ln 2) /\ el Tx 0%nat 0%nat = C0 /\ el Tx 2%nat 0%nat = C0.
Proof. split; [exact grid123|exact flipped_case]. Qed.

(** ** C24 *)
Theorem C24_shape ord o Wx w dWx Tx f : valid_order ord -> shape_keeping (o_sq o) ->
  ssqueeze ord o Wx w dWx = Ok (Tx, f) -> nrows Tx = nrows Wx /\ ncols Tx = ncols Wx.
Proof. exact (ssqueeze_shape ord o Wx w dWx Tx f). Qed.
Print Assumptions C24_shape.
(** frequencies computed by the library *)
Theorem C24_rows_are_freqs_partial ord o Wx w dWx Tx f sc : valid_order ord ->
  shape_keeping (o_sq o) ->
  o_scales o = Some sc -> (forall u, o_freqs o <> FArray u) -> length sc = nrows Wx ->
  ssqueeze ord o Wx w dWx = Ok (Tx, f) -> nrows Tx = length f.
Proof. exact (default_rows ord o Wx w dWx Tx f sc). Qed.
Print Assumptions C24_rows_are_freqs_partial.
(** a frequency array of another length is accepted *)
Theorem C24_user_freqs_refuted : exists o Wx w Tx f,
  ssqueeze serial_order o Wx (Some w) None = Ok (Tx, f) /\ nrows Tx = 3%nat /\ length f = 4%nat.
Proof. exact user_freqs_refuted. Qed.
Print Assumptions C24_user_freqs_refuted.
Example C24_case : shape_keeping SqSum /\ shape_keeping SqAbs /\ shape_keeping SqLebesgue /\
  length (log_freqs 1 8 4) = 4%nat.
Proof. cbn. auto. Qed.

(** ** C25 *)
Theorem C25_get_w_same_partial ord o gamma Wx dWx k v ls reach : valid_order ord ->
  o_sq o = SqSum -> o_gamma o = Some gamma ->
  ssq_freqs_of o (ncols Wx) = Ok (k, v, ls) -> freq_grid (o_f64v o) v ls reach ->
  (o_Sfs o = None \/ ls = false) ->
  (forall i j, (i < nrows Wx)%nat -> (j < ncols Wx)%nat -> Cabs (el Wx i j) <> gamma) ->
  res_meq2 (squeeze_stage ord o gamma true Wx dWx) (squeeze_stage ord o gamma false Wx dWx).
Proof. exact (get_w_same ord o gamma Wx dWx k v ls reach). Qed.
Print Assumptions C25_get_w_same_partial.
(** a coefficient of modulus exactly gamma is kept with get_w, dropped without *)
Theorem C25_threshold_refuted : exists o Wx dWx T T' f,
  o_gamma o = Some 1 /\ o_sq o = SqSum /\ (forall i j, Cabs (el Wx i j) = 1) /\
  squeeze_stage serial_order o 1 true Wx dWx = Ok (T, f) /\
  squeeze_stage serial_order o 1 false Wx dWx = Ok (T', f) /\
  el T 2%nat 0%nat <> C0 /\ (forall q, (q < nrows T')%nat -> el T' q 0%nat = C0).
Proof. exact get_w_threshold_refuted. Qed.
Print Assumptions C25_threshold_refuted.
(** squeezing='abs' without get_w takes the phase of |Wx| *)
Theorem C25_abs_refuted : exists o Wx dWx T T' f,
  o_gamma o = Some (1 / 2) /\ o_sq o = SqAbs /\ (forall i j, Cabs (el Wx i j) = 1) /\
  squeeze_stage serial_order o (1 / 2) true Wx dWx = Ok (T, f) /\
  squeeze_stage serial_order o (1 / 2) false Wx dWx = Ok (T', f) /\
  el T 1%nat 0%nat <> C0 /\ el T' 1%nat 0%nat = C0.
Proof. exact get_w_abs_refuted. Qed.
Print Assumptions C25_abs_refuted.
Example C25_case : ssq_freqs_of (wit SqSum 0 true) 1 = Ok (Some (KLog 1), [1; 2; 3], false) /\
  freq_grid true [1; 2; 3] false (reach_lin [1; 2; 3]) /\ Cabs C1 <> 0.
Proof. split; [apply wit_freqs|]. split; [constructor; cbn; auto|]. rewrite Cabs_1. apply R1_neq_R0. Qed.

(** ** C26 *)
(** 'sum', 'abs' and functions: a batch gives the results of its items, and succeeds when
    they do. *)
Theorem C26_batch_items_partial ord o Wxs ws dWxs N dW dw Ts f : not_lebesgue (o_sq o) ->
  (forall i, (i < length Wxs)%nat -> ncols (nth i Wxs dW) = N) ->
  (forall l, ws = Some l -> length l = length Wxs) ->
  (forall l, dWxs = Some l -> length l = length Wxs) ->
  ssqueeze_batch ord o Wxs ws dWxs = Ok (Ts, f) ->
  length Ts = length Wxs /\ forall i dT, (i < length Wxs)%nat ->
    ssqueeze ord o (nth i Wxs dW) (nth_opt ws dw i) (nth_opt dWxs dW i) = Ok (nth i Ts dT, f).
Proof. exact (fun H1 H2 H3 H4 => batch_item ord o Wxs ws dWxs N dW dw H1 H2 H3 H4 Ts f). Qed.
Print Assumptions C26_batch_items_partial.
Theorem C26_batch_succeeds_partial ord o Wxs ws dWxs N dW dw : not_lebesgue (o_sq o) ->
  (forall i, (i < length Wxs)%nat -> ncols (nth i Wxs dW) = N) ->
  (forall l, ws = Some l -> length l = length Wxs) ->
  (forall l, dWxs = Some l -> length l = length Wxs) -> Wxs <> [] ->
  (forall i, (i < length Wxs)%nat -> exists r,
     ssqueeze ord o (nth i Wxs dW) (nth_opt ws dw i) (nth_opt dWxs dW i) = Ok r) ->
  exists r, ssqueeze_batch ord o Wxs ws dWxs = Ok r.
Proof. exact (batch_ok ord o Wxs ws dWxs N dW dw). Qed.
Print Assumptions C26_batch_succeeds_partial.
(** 'lebesgue' divides by the batch size instead of the number of rows *)
Theorem C26_lebesgue_refuted : exists o W w T0 T1 T f,
  o_sq o = SqLebesgue /\
  ssqueeze serial_order o W (Some w) None = Ok (T, f) /\
  ssqueeze_batch serial_order o [W; W] (Some [w; w]) None = Ok ([T0; T1], f) /\
  el T0 2%nat 0%nat <> el T 2%nat 0%nat.
Proof. exact batch_lebesgue_refuted. Qed.
Print Assumptions C26_lebesgue_refuted.
Example C26_case : exists r,
  ssqueeze_batch serial_order (wit SqSum 0 true) [col3 C1; col3 C1] (Some [fin3 2; fin3 2]) None = Ok r.
Proof.
  apply (C26_batch_succeeds_partial serial_order (wit SqSum 0 true) [col3 C1; col3 C1]
           (Some [fin3 2; fin3 2]) None 1 (col3 C1) (fin3 2)); try exact I; try discriminate.
  - intros [|[|[|i]]]; reflexivity.
  - intros l E. injection E as <-. reflexivity.
  - intros i _. destruct flipped_case as (Tx & E & _). exists (Tx, [3; 2; 1]). rewrite <- E.
    destruct i as [|[|[|i]]]; reflexivity.
Qed.

(** ** C33 *)
Theorem C33_components_partition Css Tx cc cw xs y :
  issq_cwt Css Tx (Some (cc, cw)) = Ok (Many xs) -> issq_cwt Css Tx None = Ok (One y) ->
  (forall m n, (m < ncols Tx)%nat -> (n < ncols cc)%nat -> (-1 <= el cc m n)%Z /\ (0 <= el cw m n)%Z) ->
  (forall m r n n', (m < ncols Tx)%nat -> (r < nrows Tx)%nat -> (n < ncols cc)%nat -> (n' < ncols cc)%nat ->
     covers (el cc m n) (el cw m n) r -> covers (el cc m n') (el cw m n') r -> n = n') ->
  length xs = S (ncols cc) /\
  forall m, (m < ncols Tx)%nat -> Rsum (S (ncols cc)) (fun n => lrow xs n m) = nth m y 0.
Proof. exact (issq_cwt_partition Css Tx cc cw xs y). Qed.
Print Assumptions C33_components_partition.
(** bands may overlap in the next two *)
Theorem C33_component_is_its_band Tx cc cw xs : invert_components Tx cc cw = Ok xs ->
  (forall m n, (m < ncols Tx)%nat -> (n < ncols cc)%nat -> (-1 <= el cc m n)%Z /\ (0 <= el cw m n)%Z) ->
  forall n m (inb : nat -> bool), (n < ncols cc)%nat -> (m < ncols Tx)%nat ->
  (forall r, (r < nrows Tx)%nat -> inb r = true <-> covers (el cc m n) (el cw m n) r) ->
  lrow xs n m = Rsum (nrows Tx) (fun r => if inb r then Re (el Tx r m) else 0).
Proof. exact (component_is_band Tx cc cw xs). Qed.
Print Assumptions C33_component_is_its_band.
Theorem C33_residual_is_the_rest Tx cc cw xs : invert_components Tx cc cw = Ok xs ->
  (forall m n, (m < ncols Tx)%nat -> (n < ncols cc)%nat -> (-1 <= el cc m n)%Z /\ (0 <= el cw m n)%Z) ->
  forall m (inb : nat -> bool), (m < ncols Tx)%nat ->
  (forall r, (r < nrows Tx)%nat -> inb r = true <->
     exists n, (n < ncols cc)%nat /\ covers (el cc m n) (el cw m n) r) ->
  lrow xs (ncols cc) m = Rsum (nrows Tx) (fun r => if inb r then 0 else Re (el Tx r m)).
Proof. exact (residual_is_rest Tx cc cw xs). Qed.
Print Assumptions C33_residual_is_the_rest.
(** overlapping bands are counted twice *)
Theorem C33_overlap_counted_twice : exists Tx cc cw xs, invert_components Tx cc cw = Ok xs /\
  ncols cc = 2%nat /\ (forall m n, (0 <= el cc m n)%Z /\ (0 <= el cw m n)%Z) /\
  Rsum 3 (fun n => lrow xs n 0) <> nth 0 (real_colsum Tx) 0.
Proof. exact overlap_refuted. Qed.
Print Assumptions C33_overlap_counted_twice.
(** a band entirely below row 0 (centre -5, width 2) still takes row 0 *)
Theorem C33_below_minus_one : exists Tx cc cw xs, invert_components Tx cc cw = Ok xs /\
  ncols cc = 1%nat /\ el cc 0%nat 0%nat = (-5)%Z /\ el cw 0%nat 0%nat = 2%Z /\
  lrow xs 0 0 = Re (el Tx 0%nat 0%nat) /\ lrow xs 0 0 <> 0.
Proof. exact below_minus_one_refuted. Qed.
Print Assumptions C33_below_minus_one.
Example C33_case : exists xs,
  invert_components (Mat 4 2 (fun _ _ => C1)) (zmat 2 2 (fun m n => if (n =? 0)%nat then -1 else 2)%Z)
    (zmat 2 2 (fun _ _ => 1%Z)) = Ok xs /\
  lrow xs 0 1 = 0 /\ lrow xs 1 1 = 0 + 0 + 1 + 1 + 1 /\ lrow xs 2 1 = 0 + 1 + 0 + 0 + 0.
Proof. eexists. split; [reflexivity|]. vm_compute. repeat split; ring. Qed.

(** ** C50 *)
Theorem C50_log_linear_range f64s scales N st mr dt tr fm fM : st <> SPiece -> (st = SLin -> tr = TCwt) ->
  (2 <= length scales)%nat -> ssq_freqrange mr dt N scales = (fm, fM) -> 0 < fm < fM ->
  exists v, associated_frequencies f64s scales N st mr dt tr = Ok v /\
    length v = length scales /\ spans v fm fM.
Proof. exact (log_lin_freqs f64s scales N st mr dt tr fm fM). Qed.
Print Assumptions C50_log_linear_range.
Theorem C50_stft_linear_range f64s scales N mr dt : (2 <= length scales)%nat -> 0 < dt ->
  exists v, associated_frequencies f64s scales N SLin mr dt TStft = Ok v /\
    length v = length scales /\ spans v 0 (1 / 2 / dt).
Proof. exact (stft_lin_freqs f64s scales N mr dt). Qed.
Print Assumptions C50_stft_linear_range.
Theorem C50_maximal_range dt N scales : 0 < dt -> (3 <= N)%nat ->
  exists fm fM, ssq_freqrange MRMaximal dt N scales = (fm, fM) /\ 0 < fm < fM /\
    fm * (dt * INR N) = 1 /\ fM * (2 * dt) = 1.
Proof. exact (maximal_range dt N scales). Qed.
Print Assumptions C50_maximal_range.
(** log-piecewise: through three anchors, or an exception when the change of scale spacing is
    at the last scale or both halves come out equally spaced *)
Theorem C50_piecewise_range_partial f64s scales N c dt tr idx :
  logscale_transition_idx f64s scales = Ok (Some idx) ->
  let na := length scales in
  let f0 := c (last scales 0) in let f1 := c (nth idx scales 0) in let f2 := c (nth 0 scales 0) in
  0 < f0 < f1 -> f1 < f2 ->
  match associated_frequencies f64s scales N SPiece (MRCenter c) dt tr with
  | Ok v => length v = na /\ spans v f0 f2 /\ nth (na - idx - 1) v 0 = f1 /\ (idx < na - 1)%nat /\
      logscale_transition_idx true v = Ok (Some (na - idx)%nat)
  | Err e => e = PlainException /\
      (idx = (na - 1)%nat \/ (ln f1 - ln f0) / INR (na - idx - 1) = (ln f2 - ln f1) / INR idx)
  end.
Proof. exact (piecewise_freqs f64s scales N c dt tr idx). Qed.
Print Assumptions C50_piecewise_range_partial.
(** when the lowest scales share a centre frequency the result repeats it *)
Theorem C50_repeated_freqs f64s scales N c dt tr idx :
  logscale_transition_idx f64s scales = Ok (Some idx) -> (idx < length scales - 2)%nat ->
  let f0 := c (last scales 0) in
  0 < f0 -> c (nth idx scales 0) = f0 -> f0 < c (nth 0 scales 0) ->
  exists v, associated_frequencies f64s scales N SPiece (MRCenter c) dt tr = Ok v /\
    nth 0 v 0 = nth 1 v 0.
Proof. exact (piecewise_repeated f64s scales N c dt tr idx). Qed.
Print Assumptions C50_repeated_freqs.
Example C50_case : exists v,
  associated_frequencies true [1; 2; 4; 16; 64] 100 SPiece (MRCenter (fun s => / s)) 1 TCwt = Ok v /\
  spans v (/ 64) 1 /\ nth 1 v 0 = / 16.
Proof. exact piece_case. Qed.
(** one coarser scale at the end: always rejected *)
Theorem C50_late_transition_refuted :
  associated_frequencies true [1; 2; 4; 16] 100 SPiece (MRCenter (fun s => / s)) 1 TCwt
  = Err PlainException.
Proof. exact late_case. Qed.
Print Assumptions C50_late_transition_refuted.
