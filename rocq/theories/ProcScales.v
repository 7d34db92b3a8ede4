(** utils/cwt_utils.py:191-261 [_assert_positive_integer] and the whole of [process_scales], for
    [scales] and [nv] of any type.  ScaleBounds.v has the string branch with its argument
    already split, Scales.v and SsqCwt.v the array branch with [nv] an integer.  Arrays are
    one-dimensional; a float is finite ([inf] and [nan] as [nv] fail the check as 1/2 does). *)
From Coq Require Import Reals Lra String Ascii.
From Verif Require Import Py Round Cplx Padding Freqs Squeeze Scales Resol Search ScaleBounds SsqCwt Validate.
From Verif Require Config.
Local Open Scope R_scope.

(** 191-193, and the [int(nv)] of 237.  Comparing anything but a number with 0 raises
    TypeError. *)
Definition assert_positive_integer (g : pyv) : res Z :=
  match number g with
  | None => Err TypeError
  | Some r =>
      if Rlt_dec 0 r then
        if Req_EM_T r (IZR (Int_part r)) then Ok (Int_part r) else Err ValueError
      else Err ValueError
  end.

(** 212-220: [scales] split at the colon, the kind checked.  The preset is checked later, by
    [cwt_scalebounds]. *)
Definition kind_of (s : string) : res skind :=
  if String.eqb s "log" then Ok SLog
  else if String.eqb s "log-piecewise" then Ok SPiece
  else if String.eqb s "linear" then Ok SLin
  else Err ValueError.
Definition preset_of (s : string) : preset :=
  if String.eqb s "maximal" then Maximal
  else if String.eqb s "minimal" then Minimal
  else if String.eqb s "naive" then Naive
  else PresetOther.
Definition split_scales (s : string) : res (skind * option preset) :=
  match Config.split_on ":" s with
  | [_] => do k <- kind_of s;
           Ok (k, if String.eqb s "log-piecewise" then Some Maximal else None)
  | [a; p] => do k <- kind_of a; Ok (k, Some (preset_of p))
  | _ => Err ValueError                      (* scales, preset = scales.split(':') *)
  end.

(** [scales]: an array of dtype float64 or float32, or another value *)
Inductive scales_val := VArr (f64 : bool) (l : list R) | VVal (v : pyv).
(** the [nv] returned: one number, none, or one for each scale *)
Inductive nv_out := NvNone | NvInt (z : Z) | NvArr (l : list R).
(** [_nv != nv] *)
Definition differs (n : Z) (v : pyv) : bool := negb (is_int v n).
(** 222-236 *)
Definition array_args (f64 : bool) (l : list R) (nv : pyv) : res (skind * nv_out) :=
  do k <- infer_scaletype f64 l;
  match k with
  | KLog n =>
      if negb (is_none nv) && differs n nv then Err PlainException
      else do z <- assert_positive_integer (PInt n); Ok (SLog, NvInt z)
  | KPiece a => Ok (SPiece, NvArr a)
  | KLinear =>
      if is_none nv then Ok (SLin, NvNone)
      else do z <- assert_positive_integer nv; Ok (SLin, NvInt z)
  end.
(** 210-241 [_process_args], string branch *)
Definition string_args (s : string) (nv : pyv) (wavelet : option (R -> R))
  : res (skind * option preset * Z * (R -> R)) :=
  do (k, p) <- split_scales s;
  match wavelet with
  | None => Err ValueError
  | Some g => do z <- assert_positive_integer (if is_none nv then PInt 32 else nv); Ok (k, p, z, g)
  end.
(** 196-261 with [get_params=True]: scales, type, number of scales, [nv] *)
Definition process_scales_any (sc : scales_val) (N : nat) (wavelet : option (R -> R)) (nv : pyv)
  (fds : list R -> res (option nat)) (downsample : Z) (use_padded_N : bool) (fuel : nat)
  : run (list R * skind * nat * nv_out) :=
  match sc with
  | VArr f64 l => Some (do (k, v) <- array_args f64 l nv; Ok (l, k, length l, v))
  | VVal (PStr s) =>
      match string_args s nv wavelet with
      | Err e => Some (Err e)
      | Ok (k, p, z, g) =>
          rbind (cwt_scalebounds g N p (BA None None None None None) use_padded_N fuel) (fun '(mn, mx) =>
          match mx with
          | None => Some (Err NotModelled)
          | Some mx =>
              let '(mn, mx) := make_scales_bounds N (Some mn) (Some mx) in
              Some (do l <- make_scales mn mx z k fds downsample; Ok (l, k, length l, NvInt z))
          end)
      end
  | VVal _ => Some (Err TypeError)
  end.
