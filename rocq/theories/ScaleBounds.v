(** utils/cwt_utils.py: the scale bounds, [find_min_scale], [find_max_scale],
    [find_max_scale_alt], [cwt_scalebounds], and the string branch of [process_scales].
    The wavelet is its real-valued function [g] of one real; the searches look at [|g|].
    [fuel] bounds the rounds of the searches, [None] meaning "still running" (Search.v).
    Plots and warnings are not modelled. *)
From Coq Require Import Reals Lra.
From Verif Require Import Py Round Cplx Padding Freqs Squeeze Scales Resol Search SearchProofs.
Local Open Scope R_scope.

(** outcome of a computation that may still be running *)
Definition run (A : Type) : Type := option (res A).
Definition rbind {A B} (r : run A) (k : A -> run B) : run B :=
  match r with Some (Ok a) => k a | Some (Err e) => Some (Err e) | None => None end.
Definition absf (g : R -> R) : R -> R := fun w => Rabs (g w).
(** [find_maximum(wavelet.fn)]; defaults algos.py:625-626 *)
Definition peak_of (g : R -> R) (fuel : nat) : run (R * R) := find_maximum (absf g) default_args (-1) fuel.
(** [find_first_occurrence(wavelet.fn, value, step_start=a, step_limit=b)]; defaults 665-666 *)
Definition first_of (g : R -> R) (value a b : R) (fuel : nat) : run (R * R) :=
  find_first_occurrence (absf g) value (SA (1 / 1000) 10000 a b) fuel.

(** cwt_utils.py:412-432 [find_min_scale] *)
Definition find_min_scale (g : R -> R) (cutoff : R) (fuel : nat) : run R :=
  rbind (peak_of g fuel) (fun '(w_peak, peak) =>
  let '(start, limit) := if Rlt_dec 0 cutoff then (w_peak, 10 * w_peak) else (0, w_peak) in
  rbind (first_of g (Rabs cutoff * peak) start limit fuel) (fun '(w_cutoff, _) =>
  Some (Ok (w_cutoff / PI)))).

(** [np.where(p)[0][-1]] and [np.where(p)[0][0]] over indices below [n]; [None]: IndexError *)
Fixpoint last_where (p : nat -> bool) (n : nat) : option nat :=
  match n with O => None | S k => if p k then Some k else last_where p k end.
Fixpoint first_where (p : nat -> bool) (n i : nat) : option nat :=
  match n with O => None | S n => if p i then Some i else first_where p n (S i) end.
(** [arr[k]] for an integer [k] *)
Definition py_index (n : nat) (k : Z) : res nat :=
  let k' := if (k <? 0)%Z then (k + Z.of_nat n)%Z else k in
  if (k' <? 0)%Z || (Z.of_nat n <=? k')%Z then Err IndexError else Ok (Z.to_nat k').

(** 434-457 [find_max_scale]; [ct]: outcome of [center_frequency(wavelet, kind='peak-ct', N=N)];
    the answer [None] is numpy's nan or inf (a division by [xi[0] = 0]) *)
Definition find_max_scale (g : R -> R) (ct : res R) (N : nat) (bin_loc : Z) (bin_amp : R) : res (option R) :=
  do wc_ct <- ct;
  if (N =? 0)%nat then Err ZeroDivisionError else
  let scalec := 4 / PI * wc_ct in
  let psih := firstn (N / 2 + 1) (map g (map (Rmult scalec) (xifn 1 N))) in
  let xi := xifn scalec N in
  let midx := argmax psih in
  match last_where (fun i => Rltb' (nth i psih 0) (lmax psih * bin_amp)) midx with
  | None => Err IndexError
  | Some i =>
      do j <- py_index N bin_loc;
      Ok (obind (npdiv (nth i xi 0) (nth j xi 0)) (fun r => Some (scalec * r)))
  end.

(** 630-695 [find_max_scale_alt].  660: [np.arange(w_cutoff, w_peak, step=1/N)] *)
Definition w_ltp (w_cutoff : R) (N : nat) (i : nat) : R := w_cutoff + INR i * (1 / INR N).
Definition n_ltp (w_cutoff w_peak : R) (N : nat) : nat := Z.to_nat (Rceil ((w_peak - w_cutoff) / (1 / INR N))).
(** 665-666 *)
Definition div_size (w_cutoff w_peak : R) (N i : nat) : R := (w_peak - w_ltp w_cutoff N i) * 2.
Definition n_divs (w_cutoff w_peak : R) (N i : nat) : R := w_ltp w_cutoff N i / div_size w_cutoff w_peak N i.
Definition mod1 (x : R) : R := x - IZR (Int_part x).
(** 671; [div_size] and [n_divs] have one entry less than [w_ltp], their [diff] two less *)
Definition drop_idx (w_cutoff w_peak : R) (N : nat) : option nat :=
  let q := n_divs w_cutoff w_peak N in
  first_where (fun i => Rltb' (mod1 (q (S i)) - mod1 (q i)) (- (8 / 10)))
              (n_ltp w_cutoff w_peak N - 2) 0.
(** 659-685 *)
Definition alt_scale (w_cutoff w_peak : R) (N : nat) : res R :=
  if (N =? 0)%nat then Err ZeroDivisionError else
  match drop_idx w_cutoff w_peak N with
  | None => Err PlainException
  | Some i => Ok (div_size w_cutoff w_peak N (i + 1) / (PI / (INR N / 2)))
  end.
Definition find_max_scale_alt (g : R -> R) (N : nat) (min_cutoff max_cutoff : R) (fuel : nat) : run R :=
  if Rle_dec max_cutoff 0 then Some (Err ValueError)
  else if Rle_dec min_cutoff 0 then Some (Err ValueError)
  else if Rle_dec max_cutoff min_cutoff then Some (Err ValueError)
  else
  rbind (peak_of g fuel) (fun '(w_peak, peak) =>
  rbind (first_of g (min_cutoff * peak) 0 w_peak fuel) (fun '(w_cutoff, _) =>
  Some (alt_scale w_cutoff w_peak N))).

(** 66-188 [cwt_scalebounds] *)
Inductive preset := Maximal | Minimal | Naive | PresetOther.
Record bargs := BA { ba_min : option R; ba_max : option R; ba_cutoff : option R;
                     ba_loc : option Z; ba_amp : option R }.
(** Python's [x or d] *)
Definition or_z (o : option Z) (d : option Z) : option Z :=
  match o with Some 0%Z => d | Some z => Some z | None => d end.
Definition or_r (o : option R) (d : option R) : option R :=
  match o with Some r => if Req_EM_T r 0 then d else Some r | None => d end.
(** 127-160 [_process_args] *)
Definition process_bargs (p : option preset) (a : bargs) : res bargs :=
  do c <- match p with
          | Some PresetOther => Err ValueError
          | Some Naive => Ok (None, None, ba_cutoff a)
          | Some Maximal => Ok (None, None, Some (- (5 / 10)))
          | Some Minimal => Ok (Some (6 / 10), Some (8 / 10), Some (- (5 / 10)))
          | None =>
              do mn <- match ba_min a with
                       | None => Ok (6 / 10)
                       | Some m => if Rle_dec m 0 then Err ValueError else Ok m
                       end;
              do mx <- match ba_max a with
                       | None => Ok (8 / 10)
                       | Some m => if Rlt_dec m mn then Err ValueError else Ok m
                       end;
              Ok (Some mn, Some mx, ba_cutoff a)
          end;
  let '(mn, mx, cut) := c in
  let maximal := match p with Some Maximal => true | _ => false end in
  Ok (BA mn mx
         match cut with Some _ => cut | None => Some (- (5 / 10)) end
         (or_z (ba_loc a) (if maximal then Some 2%Z else None))
         (or_r (ba_amp a) (if maximal then Some 1 else None))).
Definition or0 (o : option R) : R := match o with Some r => r | None => 0 end.
(** 172-188.  [min_cutoff] etc. are set whenever they are used, so [or0] and [1] below are idle
    ([ScaleBoundsProofs.bargs_set]) *)
Definition cwt_scalebounds (g : R -> R) (N : nat) (p : option preset) (a : bargs) (use_padded_N : bool)
    (fuel : nat) : run (R * option R) :=
  match process_bargs p a with
  | Err e => Some (Err e)
  | Ok b =>
      match p with
      | Some Naive => Some (Ok (1, Some (INR N)))
      | _ =>
          let M := if use_padded_N then Z.to_nat (fst (fst (p2up (Z.of_nat N)))) else N in
          rbind (find_min_scale g (or0 (ba_cutoff b)) fuel) (fun min_scale =>
          rbind match p with
                | Some Maximal =>
                    rbind (peak_of g fuel) (fun '(ct, _) =>
                    Some (find_max_scale g (Ok ct) M
                            match ba_loc b with Some z => z | None => 0%Z end (or0 (ba_amp b))))
                | _ => rbind (find_max_scale_alt g M (or0 (ba_min b)) (or0 (ba_max b)) fuel)
                         (fun s => Some (Ok (Some s)))
                end (fun max_scale => Some (Ok (min_scale, max_scale))))
      end
  end.

(** 196-261 [process_scales] with a string, as the pair (kind, preset) it is split into at 212-216;
    [nv]: the number of voices, a positive integer (default 32).  A [max_scale] of [0] counts
    as missing in [make_scales] (351-352) and becomes [N]. *)
Definition split_preset (st : skind) (after_colon : option preset) : option preset :=
  match after_colon, st with
  | Some p, _ => Some p
  | None, SPiece => Some Maximal
  | None, _ => None
  end.
Definition process_scales_str (g : R -> R) (N : nat) (st : skind) (after_colon : option preset) (nv : Z)
    (fds : list R -> res (option nat)) (downsample : Z) (use_padded_N : bool) (fuel : nat) : run (list R) :=
  if (nv <=? 0)%Z then Some (Err ValueError) else
  rbind (cwt_scalebounds g N (split_preset st after_colon) (BA None None None None None) use_padded_N fuel)
    (fun '(mn, mx) =>
      match mx with
      | None => Some (Err NotModelled)
      | Some mx =>
          let '(mn, mx) := make_scales_bounds N (Some mn) (Some mx) in
          Some (make_scales mn mx nv st fds downsample)
      end).
