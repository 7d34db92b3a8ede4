(** utils/fft_utils.py: the [FFT] class with [pyfftw] installed and CPU inputs.  Exact
    arithmetic; FFTW plans are taken to compute the transform they are asked for, wisdom files
    and planning time are not modelled. *)
From Coq Require Import Reals Lra.
From Verif Require Import Py Cplx.
Local Open Scope R_scope.

Inductive dtype := F32 | F64 | C64 | C128 | OtherDtype.
(** [a_shape] has one or two entries; a 1-D array is row 0 of [a_data] *)
Record arr := Arr { a_shape : list nat; a_dtype : dtype; a_data : nat -> nat -> C }.
Definition is_cplx (d : dtype) : bool := match d with C64 | C128 => true | _ => false end.

(** [x.shape[axis]]; [None]: IndexError *)
Definition axis_len (x : arr) (axis : Z) : option nat :=
  match a_shape x with
  | [n] => if (axis =? 0)%Z || (axis =? -1)%Z then Some n else None
  | [r; c] => if (axis =? 0)%Z then Some r else if (axis =? 1)%Z || (axis =? -1)%Z then Some c else None
  | _ => None
  end.
(** apply [f] along [axis], giving length [m] there *)
Definition along (x : arr) (axis : Z) (m : nat) (d : dtype) (f : (nat -> C) -> nat -> C) : arr :=
  match a_shape x with
  | [_] => Arr [m] d (fun _ j => f (a_data x 0%nat) j)
  | [r; c] =>
      if (axis =? 0)%Z then Arr [m; c] d (fun i j => f (fun k => a_data x k j) i)
      else Arr [r; m] d (fun i j => f (a_data x i) j)
  | s => Arr s d (a_data x)
  end.

(** one call; [f_pat] is the patience actually used (argument or default) *)
Record fcall := FC { f_inv : bool; f_real : bool; f_axis : Z; f_n : option Z; f_pat : Z; f_x : arr }.

(** the four transforms as [scipy.fft] or a plan made for the call compute them: 244-288, with
    the output shape of 290-306 and the dtypes of 267-271.  [n] of [irfft] not matching the
    input is an FFTW error (scipy would crop or pad; not modelled). *)
Definition transform (inv real : bool) (axis : Z) (n : option Z) (x : arr) : res arr :=
  if real && negb inv && is_cplx (a_dtype x) then Err TypeError else
  match axis_len x axis with
  | None => Err IndexError
  | Some len =>
      let dbl := match a_dtype x with F64 | C128 => true | _ => false end in
      let cdt := if dbl then C128 else C64 in
      let rdt := if dbl then F64 else F32 in
      match inv, real with
      | false, false => Ok (along x axis len cdt (dft len))
      | true, false => Ok (along x axis len cdt (idft len))
      | false, true => Ok (along x axis (rfft_len len) cdt (fun v k => rfft len (fun m => Re (v m)) k))
      | true, true =>
          let nf := match n with Some k => Z.to_nat k | None => (2 * (len - 1))%nat end in
          if (rfft_len nf =? len)%nat then Ok (along x axis nf rdt (fun v m => RtoC (irfft nf v m)))
          else Err ValueError
      end
  end.

(** 325-347 [_validate_input], [_validate_patience] (int patience) *)
Definition validate (c : fcall) : res unit :=
  match a_dtype (f_x c) with
  | OtherDtype => Err TypeError
  | d =>
      if f_real c && negb (f_inv c) && is_cplx d then Err TypeError
      else if negb ((f_axis c =? 0)%Z || (f_axis c =? 1)%Z || (f_axis c =? -1)%Z) then Err ValueError
      else if negb ((f_pat c =? 0)%Z || (f_pat c =? 1)%Z || (f_pat c =? 2)%Z) then Err ValueError
      else Ok tt
  end.

(** 232: the key under which a plan is kept *)
Definition fkey : Type := (list nat * dtype * Z * bool * option Z)%type.
Definition key_of (c : fcall) : fkey :=
  (a_shape (f_x c), a_dtype (f_x c), f_axis c, f_real c, f_n c).
Definition fkey_dec (a b : fkey) : {a = b} + {a <> b}.
Proof. repeat decide equality. Defined.

(** a plan: its direction and where its output buffer is *)
Record plan := Plan { p_inv : bool; p_out : nat }.
(** every array ever returned, by address; the plans kept *)
Record fstate := FS { heap : list arr; history : list (fkey * plan) }.
Fixpoint lookup (k : fkey) (h : list (fkey * plan)) : option plan :=
  match h with
  | [] => None
  | (k', p) :: h => if fkey_dec k k' then Some p else lookup k h
  end.
Definition write (h : list arr) (a : nat) (v : arr) : list arr := firstn a h ++ v :: skipn (S a) h.

(** 156-210, 225-252: one call of [fft], [rfft], [ifft] or [irfft].  Returns the address of the
    result.  [patience == 0] goes to scipy: a new array.  A kept plan is run as it is, without
    looking at the direction or validating, and its own output buffer is returned. *)
Definition fft_call (cache : bool) (c : fcall) (s : fstate) : res nat * fstate :=
  let new v s := (Ok (length (heap s)), FS (heap s ++ [v]) (history s)) in
  if (f_pat c =? 0)%Z then
    match transform (f_inv c) (f_real c) (f_axis c) (f_n c) (f_x c) with
    | Ok v => new v s
    | Err e => (Err e, s)
    end
  else
    match (if cache then lookup (key_of c) (history s) else None) with
    | Some p =>
        match transform (p_inv p) (f_real c) (f_axis c) (f_n c) (f_x c) with
        | Ok v => (Ok (p_out p), FS (write (heap s) (p_out p) v) (history s))
        | Err e => (Err e, s)
        end
    | None =>
        match validate c with
        | Err e => (Err e, s)
        | Ok _ =>
            match transform (f_inv c) (f_real c) (f_axis c) (f_n c) (f_x c) with
            | Err e => (Err e, s)
            | Ok v =>
                let p := Plan (f_inv c) (length (heap s)) in
                (Ok (p_out p), FS (heap s ++ [v]) (if cache then (key_of c, p) :: history s else history s))
            end
        end
    end.
Definition start : fstate := FS [] [].
(** addresses returned by a sequence of calls, and the state after it *)
Fixpoint fft_run (cache : bool) (cs : list fcall) (s : fstate) : list (res nat) * fstate :=
  match cs with
  | [] => ([], s)
  | c :: cs => let '(r, s1) := fft_call cache c s in
               let '(rs, s2) := fft_run cache cs s1 in (r :: rs, s2)
  end.
(** what the caller sees at an address *)
Definition view (s : fstate) (r : res nat) : res (option arr) :=
  match r with Ok a => Ok (nth_error (heap s) a) | Err e => Err e end.
