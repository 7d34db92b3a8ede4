(** The first sample of [packed_poly]; dtypes among a wavelet function's options. *)
From Coq Require Import String Reals Lra.
From Verif Require Import Py Round Squeeze Scales Search Chirp Config ConfigProofs Signals SignalsThms SignalsThms2 PolySignals WaveletInit WaveletInitThms Tighten10.
Local Open Scope string_scope.

(** * C106: packed_poly *)

(** all three components start at their crest, whatever [N] *)
Theorem C106_packed_start s N k : (1 <= or_N s N)%Z -> exists x t, packed_poly s N k = Ok (x, t) /\ (nth 0 t 0 = 0)%R /\ (nth 0 x 0 = 7 / 2)%R.
Proof. exact (packed_poly_start s N k). Qed.
Print Assumptions C106_packed_start.

(** * C96: a wavelet has the dtype asked for *)

(** [np.float32] or [np.float64], the types, as the option dtype give no wavelet *)
Theorem C96_type_option_partial typestr checks name o n s out : In s dtypes -> dget "dtype" o = Some (PObj n) ->
  typestr n = Some ("<class 'numpy." ++ s ++ "'>") -> make_fn typestr checks name o <> Ok out.
Proof. exact (type_option typestr checks name o n s out). Qed.
Print Assumptions C96_type_option_partial.

(** NumPy's or torch's dtype objects are honoured there by every wavelet but bump *)
Theorem C96_dtype_option_partial typestr checks name o n s : In s dtypes -> dget "dtype" o = Some (PObj n) ->
  typestr n = Some ("torch." ++ s) \/ typestr n = Some s -> name <> "bump" ->
  (forall k, In k (keys o) -> In k (parameters name)) -> checks name o = Ok tt -> make_fn typestr checks name o = Ok s.
Proof. exact (dtype_option typestr checks name o n s). Qed.
Print Assumptions C96_dtype_option_partial.

(** packed_poly(512) starts at 7/2; torch.float32 and np.float32 for morlet *)
Example C96_option_case : (exists x t, packed_poly (TS 512 default_tkw) None (TK None None None) = Ok (x, t) /\ nth 0 x 0 = 7 / 2)%R /\
  make_fn (fun _ => Some "torch.float32") (fun _ _ => Ok tt) "morlet" [("dtype", PObj 0)] = Ok "float32" /\
  make_fn (fun _ => Some "<class 'numpy.float32'>") (fun _ _ => Ok tt) "morlet" [("dtype", PObj 0)] = Err TypeError.
Proof. exact option_case. Qed.
