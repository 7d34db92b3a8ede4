(** Model of ssqueezepy/utils/stft_utils.py: [buffer], [_buffer], [_buffer_par],
    [_buffer_gpu]. *)
From Verif Require Import Py Parallel.
Local Open Scope Z_scope.

(** scipy.fft / numpy.fft [ifftshift]: roll by [-(n//2)]; [fftshift]: roll by [n//2]. *)
Definition ifftshift {A} (l : list A) : list A :=
  skipn (length l / 2) l ++ firstn (length l / 2) l.
Definition fftshift {A} (l : list A) : list A :=
  skipn (length l - length l / 2) l ++ firstn (length l - length l / 2) l.

(** stft_utils.py:40-43: hop length, number of segments, split points. *)
Record bparams := BP { hop : Z; n_segs : Z; s20 : Z; s21 : Z }.

Definition buffer_params (xlen seg_len n_overlap : Z) : res bparams :=
  let hop := seg_len - n_overlap in
  if hop =? 0 then Err ZeroDivisionError
  else
    let n_segs := (xlen - seg_len) / hop + 1 in
    let s20 := (seg_len + 1) / 2 in                      (* int(np.ceil(seg_len/2)) *)
    let s21 := if seg_len mod 2 =? 1 then s20 - 1 else s20 in
    Ok (BP hop n_segs s20 s21).

Section Buf.
Variable A : Type.
Variable zero : A.

(** element [k] of [x]; reads are proved in bounds *)
Definition rd (x : list A) (k : Z) : A := nth (Z.to_nat k) x zero.

(** [out[r0:r0+n, i] = x[k0:k0+n]]: one store per row. *)
Definition store_rows (x : list A) (i : nat) (r0 k0 n : Z) : list (mop (nat * nat) A) :=
  map (fun r => MStore (Z.to_nat (r0 + Z.of_nat r), i) (fun _ => rd x (k0 + Z.of_nat r)))
      (seq 0 (Z.to_nat n)).

(** Body of the loop over segments, stft_utils.py:71-82 (= 87-98). *)
Definition buffer_body (x : list A) (seg_len : Z) (p : bparams) (modulated : bool)
  (i : nat) : list (mop (nat * nat) A) :=
  let start0 := hop p * Z.of_nat i in
  if modulated then
    let end0 := start0 + s21 p in
    let start1 := end0 in
    store_rows x i 0 start1 (s20 p) ++ store_rows x i (s20 p) start0 (s21 p)
  else store_rows x i 0 start0 seg_len.

Definition buffer_progs (x : list A) (seg_len : Z) (p : bparams) (modulated : bool)
  (i : nat) : list (mop (nat * nat) A) :=
  if Z.of_nat i <? n_segs p then buffer_body x seg_len p modulated i else [].

(** CUDA kernel, stft_utils.py:102-127: thread [i] walks j = start..start+seg_len-1. *)
Definition buffer_gpu_progs (x : list A) (seg_len : Z) (p : bparams) (modulated : bool)
  (i : nat) : list (mop (nat * nat) A) :=
  if Z.of_nat i >=? n_segs p then []                     (* lines 111-112 *)
  else
    let start := hop p * Z.of_nat i in
    map (fun d =>
           let j := start + Z.of_nat d in
           MStore (Z.to_nat (j - start), i)
             (fun _ => if modulated then
                         if j <? start + s20 p then rd x (j + s21 p) else rd x (j - s20 p)
                       else rd x j))
        (seq 0 (Z.to_nat seg_len)).

(** A slice shorter than the destination makes numpy/numba raise ValueError. *)
Definition column_fits (x : list A) (seg_len : Z) (p : bparams) (i : nat) : bool :=
  hop p * Z.of_nat i + seg_len <=? Z.of_nat (length x).

(** [buffer] (lines 20-66, 1-D input), running the loop iterations in the order given by
    the trace; [_buffer] is the serial trace. *)
Definition run_buffer (x : list A) (seg_len n_overlap : Z)
  (tr : bparams -> list (event (nat * nat) A)) : res (mat A) :=
  do p <- buffer_params (Z.of_nat (length x)) seg_len n_overlap;
  if n_segs p <? 0 then Err ValueError                   (* np.zeros of negative size *)
  else if forallb (column_fits x seg_len p) (seq 0 (Z.to_nat (n_segs p)))
  then Ok (Mat (Z.to_nat seg_len) (Z.to_nat (n_segs p))
               (fun r c => fst (exec cell2_dec (tr p) (fun _ => zero, fun _ => zero)) (r, c)))
  else Err ValueError.

Definition buffer (x : list A) (seg_len n_overlap : Z) (modulated : bool) : res (mat A) :=
  run_buffer x seg_len n_overlap
    (fun p => serial (Z.to_nat (n_segs p)) (buffer_progs x seg_len p modulated)).

(** 2-D input, lines 62-65: item by item. *)
Fixpoint buffer_batch (xs : list (list A)) (seg_len n_overlap : Z) (modulated : bool)
  : res (list (mat A)) :=
  match xs with
  | [] => Ok []
  | x :: xs' =>
      do m <- buffer x seg_len n_overlap modulated;
      do ms <- buffer_batch xs' seg_len n_overlap modulated;
      Ok (m :: ms)
  end.
End Buf.
Arguments rd {A} zero x k.
Arguments buffer {A} zero x seg_len n_overlap modulated.
Arguments run_buffer {A} zero x seg_len n_overlap tr.
Arguments buffer_progs {A} zero x seg_len p modulated i.
Arguments buffer_gpu_progs {A} zero x seg_len p modulated i.
Arguments buffer_body {A} zero x seg_len p modulated i.
Arguments store_rows {A} zero x i r0 k0 n.
Arguments column_fits {A} x seg_len p i.
