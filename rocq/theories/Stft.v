(** Model of ssqueezepy/_stft.py: [stft], [istft], [get_window], [_check_NOLA], and of
    [unbuffer], [window_norm] in utils/stft_utils.py.  Exact real arithmetic.
    Simplified: dtype casts and [zero_denormals] on the window are identities here;
    [sig.get_window]/[sig.windows.dpss] are an arbitrary function of the length. *)
From Verif Require Import Py Padding Buffer Cplx Freqs.
Local Open Scope Z_scope.

(** [window] argument: an ndarray, or a name/None that scipy turns into a window. *)
Inductive window_arg :=
| WArray (w : list R)
| WGen (g : Z -> list R).

(** [x or default] for an optional int: 0 counts as missing. *)
Definition or_default (o : option Z) (d : Z) : Z :=
  match o with Some k => if k =? 0 then d else k | None => d end.

(** _stft.py:259-293 (window part). *)
Definition get_window (wa : window_arg) (win_len n_fft : Z) : res (list R) :=
  if win_len >? n_fft then Err ValueError
  else
    let pl := (n_fft - win_len) / 2 in
    let pr := n_fft - win_len - pl in
    let w := match wa with WArray w => w | WGen g => g win_len end in
    Ok (if Z.of_nat (length w) <? win_len + pl + pr
        then repeat 0%R (Z.to_nat pl) ++ w ++ repeat 0%R (Z.to_nat pr)
        else w).

(** _stft.py:295-302: [ifft(fft(window) * 1j * xi)] with the Nyquist entry of [xi] zeroed
    when the length is even; [.real] is taken by [diff_window]. *)
Definition xi_diff (Nw k : nat) : R :=
  if (Nw mod 2 =? 0)%nat && (k =? Nw / 2)%nat then 0%R else nth k (xifn 1 Nw) 0%R.
Definition diff_window_c (w : list R) (m : nat) : C :=
  let Nw := length w in
  idft Nw (fun k => Cmul (Cmul (dft Nw (fun j => RtoC (nth j w 0%R)) k) Ci)
                         (RtoC (xi_diff Nw k))) m.
Definition diff_window (w : list R) : list R :=
  tab (length w) (fun m => Re (diff_window_c w m)).

(** _stft.py:313-335 [_check_NOLA].  It only warns, except that
    [scipy.signal.check_NOLA] raises when [noverlap >= nperseg] or [noverlap < 0], and
    the float32 check at line 330 is made even when [hop_len > len(window)]. *)
Definition check_NOLA (f32 : bool) (w : list R) (hop_len : Z) : res unit :=
  let L := Z.of_nat (length w) in
  if hop_len <=? 0 then Err ValueError
  else if f32 && (hop_len >? L) then Err ValueError
  else Ok tt.

(** numpy broadcasting of a length-1 or length-n window against n rows *)
Definition bcast_ok (w : list R) (n : Z) : bool :=
  (Z.of_nat (length w) =? n) || (length w =? 1)%nat.
Definition bcast (w : list R) (r : nat) : R :=
  if (length w =? 1)%nat then nth 0 w 0%R else nth r w 0%R.

(** _stft.py:127-147: window the buffer and transform each column. *)
Definition stft_cols (buf : mat R) (w : list R) : mat C :=
  Mat (rfft_len (nrows buf)) (ncols buf)
      (fun k h => rfft (nrows buf) (fun r => (el buf r h * bcast w r)%R) k).

Record stft_args := SA {
  a_fs : R; a_window : window_arg; a_n_fft : option Z; a_win_len : option Z;
  a_hop : Z; a_modulated : bool; a_padtype : padtype; a_f32 : bool }.

(** line 153 *)
Definition stft_n_fft (a : stft_args) (N : Z) : res Z :=
  match a_n_fft a with
  | Some k => if k =? 0 then
                if a_hop a =? 0 then Err ZeroDivisionError else Ok (Z.min (N / a_hop a) 512)
              else Ok k
  | None => if a_hop a =? 0 then Err ZeroDivisionError else Ok (Z.min (N / a_hop a) 512)
  end.
(** lines 156-158 *)
Definition stft_win_len (a : stft_args) (n_fft : Z) : Z :=
  match a_win_len a with
  | Some l => l
  | None => match a_window a with WArray w => Z.of_nat (length w) | WGen _ => n_fft end
  end.

(** [stft], 1-D input, [derivative=True]: returns [(Sx, dSx)].  [n_fft <= 0] is outside
    the model. *)
Definition stft (x : list R) (a : stft_args) : res (mat C * mat C) :=
  let N := Z.of_nat (length x) in
  do n_fft <- stft_n_fft a N;
  if n_fft <=? 0 then Err NotModelled else
  do w <- get_window (a_window a) (stft_win_len a n_fft) n_fft;
  let dw := diff_window w in
  do _ <- check_NOLA (a_f32 a) w (a_hop a);
  do p <- padsignal 0%R x (a_padtype a) (Some (N + n_fft - 1));
  let '(xp, _, _, _) := p in
  do buf <- buffer 0%R xp n_fft (n_fft - a_hop a) (a_modulated a);
  let w' := if a_modulated a then ifftshift w else w in
  let dw' := if a_modulated a then map (fun v => (v * a_fs a)%R) (ifftshift dw) else dw in
  if bcast_ok w' n_fft
  then Ok (stft_cols buf w', stft_cols buf dw')
  else Err ValueError.

(** 2-D input: every row independently (lines 138, 143). *)
Fixpoint stft_batch (xs : list (list R)) (a : stft_args) : res (list (mat C * mat C)) :=
  match xs with
  | [] => Ok []
  | x :: xs' => do s <- stft x a; do ss <- stft_batch xs' a; Ok (s :: ss)
  end.

(** stft_utils.py:177-181: [x[n:n+len(v)] += v] *)
Definition add_at (x : list R) (n : nat) (v : list R) : list R :=
  tab (length x) (fun t => if (n <=? t)%nat && (t <? n + length v)%nat
                           then (nth t x 0 + nth (t - n) v 0)%R else nth t x 0%R).

(** [_overlap_add]; numba raises when the slice is shorter than the column. *)
Fixpoint overlap_add (hops : list nat) (x : list R) (column : nat -> list R) (hop : Z)
  : res (list R) :=
  match hops with
  | [] => Ok x
  | i :: hops' =>
      let n := Z.of_nat i * hop in
      if Z.of_nat (length (column i)) + n <=? Z.of_nat (length x)
      then overlap_add hops' (add_at x (Z.to_nat n) (column i)) column hop
      else Err ValueError
  end.

(** stft_utils.py:141-166 [unbuffer]; [N] is never None when called from [istft]. *)
Definition unbuffer (xbuf : mat R) (window : list R) (hop n_fft N : Z) (win_exp : nat)
  : res (list R) :=
  if negb (Z.of_nat (length window) =? n_fft) then Err ValueError
  else if N + n_fft - 1 <? 0 then Err ValueError
  else
    let wfac r := match win_exp with O => 1%R | _ => (nth r window 0 ^ win_exp)%R end in
    overlap_add (seq 0 (ncols xbuf)) (repeat 0%R (Z.to_nat (N + n_fft - 1)))
      (fun i => tab (nrows xbuf) (fun r => (el xbuf r i * wfac r)%R)) hop.

(** stft_utils.py:169-174, 184-191 [window_norm] *)
Definition window_norm (window : list R) (hop n_fft N : Z) (win_exp : nat) : res (list R) :=
  let L := N + n_fft - 1 in
  if L <? 0 then Err ValueError
  else if hop =? 0 then Err ZeroDivisionError
  else
    let max_hops := (L - n_fft) / hop + 1 in
    overlap_add (seq 0 (Z.to_nat max_hops)) (repeat 0%R (Z.to_nat L))
      (fun _ => map (fun v => (v ^ (win_exp + 1))%R) window) hop.

(** _stft.py:244-251: divide by the window norm where it is above [th]. *)
Definition Rltb (a b : R) : bool := if Rlt_dec a b then true else false.
Definition normalise (th : R) (x wn : list R) : list R :=
  if existsb (fun v => Rltb v th) wn          (* wn.min() < th *)
  then tab (length x) (fun t => if Rltb th (nth t wn 0%R) then (nth t x 0 / nth t wn 0)%R
                                else nth t x 0%R)
  else tab (length x) (fun t => (nth t x 0 / nth t wn 0)%R).

(** [irfft(Sx, n=n_fft, axis=0)]: rows beyond the array read as zero, extra rows are
    dropped (numpy pads/crops the transform input). *)
Definition spec_col (Sx : mat C) (h : nat) (k : nat) : C :=
  if (k <? nrows Sx)%nat then el Sx k h else C0.

(** [istft], lines 184-256.  [n_fft <= 0] is outside the model.  [tiny] is
    [np.finfo(x.dtype).tiny]. *)
Definition istft (tiny : R) (Sx : mat C) (wa : window_arg) (n_fft win_len : option Z)
  (hop : Z) (N : option Z) (modulated : bool) (win_exp : nat) (f32 : bool)
  : res (list R) :=
  let n_fft := or_default n_fft ((Z.of_nat (nrows Sx) - 1) * 2) in
  let win_len := or_default win_len n_fft in
  let N := or_default N (hop * Z.of_nat (ncols Sx)) in
  if n_fft <=? 0 then Err NotModelled else
  do w <- get_window wa win_len n_fft;
  do _ <- check_NOLA f32 w hop;
  let nf := Z.to_nat n_fft in
  let cols h := tab nf (irfft nf (spec_col Sx h)) in
  let cols' h := if modulated then fftshift (cols h) else cols h in
  let xbuf := Mat nf (ncols Sx) (fun r h => nth r (cols' h) 0%R) in
  do x <- unbuffer xbuf w hop n_fft N win_exp;
  do wn <- window_norm w hop n_fft N win_exp;
  let x := normalise tiny x wn in
  Ok (pyslice x (n_fft / 2) (- ((n_fft - 1) / 2))).
