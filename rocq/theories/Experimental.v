(** experimental.py: [phase_transform], [phase_ssqueeze].  2-D NumPy arrays, exact arithmetic.
    ([freq_to_scale], [scale_to_freq]: FreqScale.v.) *)
From Coq Require Import Reals Lra.
From Verif Require Import Py Round Parallel Cplx Padding Buffer Freqs Squeeze Scales Ssqueeze Cwt SsqCwt.
Local Open Scope R_scope.

(** [x_diff = None]: [difftype=None], or a string other than the three known ones; [x_f64]: [Wx]
    is complex128; [x_f64s], [x_f64v]: dtypes of [scales], [ssq_freqs]; [x_mr = None] is
    [maprange=None], and [x_peak] what 'peak' then stands for (see [maprange] in Ssqueeze.v) *)
Record px_args := PX {
  x_tr : transform; x_freqs : freqs_arg; x_scales : option (list R); x_Sfs : option (list R);
  x_fs : R; x_t : option (list R); x_sq : squeezing; x_mr : option maprange; x_peak : R -> R;
  x_gamma : option R; x_flip : bool; x_rpadded : bool; x_pad : option padtype; x_N : option Z; x_n1 : option Z;
  x_diff : option difftype; x_difforder : option Z; x_get_w : bool; x_get_dWx : bool;
  x_f64 : bool; x_f64s : bool; x_f64v : bool }.

(** experimental.py:199-231 [_cwt]; reading a [dWx] that is smaller than [Wx] in the kernel of
    [phase_cwt] is not modelled *)
Definition px_cwt (a : px_args) (gamma : R) (W : mat C) (dW : option (mat C))
  : res (option (mat fval) * mat C * mat C) :=
  let N := match x_N a with
           | None => if x_rpadded a then None else Some (Z.of_nat (ncols W))
           | n => n
           end in
  match N with
  | None => Err ValueError                    (* rejected before, line 248 *)
  | Some N =>
      let n1 := match x_n1 a with Some k => k | None => let '(_, k, _) := p2up N in k end in
      do dW <- match dW with
               | Some d => Ok d
               | None => trigdiff W (x_fs a) (x_pad a) (Some (x_rpadded a)) (Some N) (Some n1)
               end;
      if x_get_w a then
        match x_diff a with
        | Some DTrig =>
            if (nrows dW <? nrows W)%nat || (ncols dW <? ncols W)%nat then Err NotModelled
            else Ok (Some (phase_cwt gamma W dW), W, dW)
        | Some DPhase => do w <- phase_phase gamma W; Ok (Some w, W, dW)
        | Some DNumeric =>
            let W := mcols W (n1 - 4) (n1 + N + 4) in
            match x_difforder a with
            | None => Err ValueError
            | Some k => do w <- phase_cwt_num (x_f64 a) W (1 / x_fs a) k (Some gamma); Ok (Some w, W, dW)
            end
        | None => Err UnboundLocalError
        end
      else Ok (None, W, dW)
  end.

(** experimental.py:233-241 [_stft]; [Sfs] is [phase_transform]'s argument *)
Definition px_stft (a : px_args) (Sfs : option (list R)) (gamma : R) (W dW : mat C)
  : option (mat fval) * mat C * mat C * list R :=
  let Sfs := match Sfs with Some s => s | None => make_Sfs (nrows W) (x_fs a) end in
  (if x_get_w a then Some (phase_stft Sfs gamma W dW) else None, W, dW, Sfs).

(** experimental.py:193-270 [phase_transform] *)
Definition px_gamma (a : px_args) : R :=
  match x_gamma a with Some g => g | None => 10 * (if x_f64 a then EPS64 else EPS32) end.
Definition px_transform (a : px_args) (Sfs : option (list R)) (W : mat C) (dW : option (mat C))
  : res (option (mat fval) * mat C * mat C * option (list R) * R) :=
  match x_tr a, dW with
  | TStft, None => Err NotImplementedError
  | _, _ =>
    if x_rpadded a && match x_N a with None => true | _ => false end then Err ValueError
    else
    let gamma := px_gamma a in
    match x_tr a, dW with
    | TCwt, dW => do (w, W, dW) <- px_cwt a gamma W dW; Ok (w, W, dW, None, gamma)
    | TStft, Some dW => let '(w, W, dW, Sfs) := px_stft a Sfs gamma W dW in Ok (w, W, dW, Some Sfs, gamma)
    | TStft, None => Err NotImplementedError
    end
  end.

Record px_out := PXO {
  p_Tx : mat C; p_Wx : mat C; p_freqs : list R; p_scales : option (list R); p_Sfs : option (list R);
  p_w : option (mat fval); p_dWx : option (mat C) }.

(** experimental.py:145-190 [phase_ssqueeze]: [Sfs] is not passed on (line 177-179), [t] only to
    [ssqueeze].  A [dWx] smaller than [Wx] in [ssqueeze_fast] is not modelled. *)
Definition phase_ssqueeze (ord : order) (a : px_args) (W : mat C) (dW : option (mat C)) : res px_out :=
  do (w, W, dW, Sfs, gamma) <- px_transform a None W dW;
  let dW := match w with Some _ => if x_get_dWx a then Some dW else None | None => Some dW end in
  let mr := match x_mr a with
            | Some m => m
            | None => match x_tr a with TCwt => MRCenter (x_peak a) | TStft => MRMaximal end
            end in
  do fs <- process_fs_and_t (Some (x_fs a)) (x_t a) (ncols W);
  do _ <- match w, dW with
          | None, Some d => if (nrows d <? nrows W)%nat || (ncols d <? ncols W)%nat then Err NotModelled else Ok tt
          | _, _ => Ok tt
          end;
  do (Tx, v) <- ssqueeze ord (SO (x_tr a) (x_freqs a) (x_scales a) (x_f64s a) (x_f64v a) fs (x_sq a) mr
                               (Some gamma) (x_flip a) Sfs) W w dW;
  Ok (PXO Tx W v (x_scales a) Sfs w dW).
