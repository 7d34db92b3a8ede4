(** C78 for log-piecewise scales. *)
From Coq Require Import Reals Lra.
From Verif Require Import Py Round Cplx CplxProofs Padding PaddingProofs Freqs ShiftProofs Squeeze BinProofs SqueezeThms3
  Scales ScaleThms Resol Search SearchProofs Wavelets WaveletProofs SearchGmw ScaleBounds ScaleBoundsProofs ScaleBoundsThms
  ScaleBoundsThms2 ScaleBoundsThms3 ScalePiece.
Local Open Scope R_scope.

(** * C78: the ends of log-piecewise scales *)

(** the greatest scale within 1 + downsample voices of max_scale; the least by where the spacing changes; bounds in order *)
Theorem C78_piecewise_partial g N pr nv fds ds pad fuel l : pr <> Some Naive -> l <> [] ->
  process_scales_str g N SPiece pr nv fds ds pad fuel = Some (Ok l) ->
  exists wp mn mx, peak_of g fuel = Some (Ok (wp, Rabs (g wp))) /\
    cwt_scalebounds g N (split_preset SPiece pr) (BA None None None None None) pad fuel = Some (Ok (mn, Some mx)) /\
    0 <= mn * PI <= wp /\
    (0 < mn < mx -> exists gr, make_scales mn mx nv SLog fds ds = Ok gr /\
      mx / Rpower 2 ((1 + Rmax 1 (IZR ds)) / IZR nv) < last l 0 < mx /\
      (fds gr <> Ok (Some 0%nat) -> mn / Rpower 2 (1 / IZR nv) < nth 0 l 0 <= mn /\ nth 0 l 0 * PI <= wp) /\
      (fds gr = Ok (Some 0%nat) -> mn * Rpower 2 ((IZR ds - 2) / IZR nv) < nth 0 l 0 <= mn * Rpower 2 ((IZR ds - 1) / IZR nv))).
Proof. exact (named_piece g N pr nv fds ds pad fuel l). Qed.
Print Assumptions C78_piecewise_partial.

(** spacing changed at the first scale *)
Example C78_piecewise_case : exists l, make_scales 1 64 1 SPiece (fun _ => Ok (Some 0%nat)) 2 = Ok l /\ l = [2; 8; 32] /\ 1 * Rpower 2 ((2 - 2) / 1) < nth 0 l 0.
Proof. exact piece_zero. Qed.
