(** Which objects are wavelets; what titles say. *)
From Coq Require Import Ascii String Reals Lra.
From Verif Require Import Py Config Round Cplx Squeeze Scales Search MakeSignals Chirp Signals Title TitleThms.
From Verif Require Import WaveletInit ByName ByNameThms.
Local Open Scope R_scope.
Local Open Scope string_scope.

(** * C123: a test signal's title names the parameters it was made with *)

(** [shows d k r]: the title has [k=r] *)
Theorem C123_given_partial signal N f d k r : shown signal N f = Ok d -> k <> "N" -> k <> "SNR" -> k <> "snr" ->
  shows f k r -> shows d k r.
Proof. exact (given_shown signal N f d k r). Qed.
Print Assumptions C123_given_partial.

Theorem C123_N_partial signal N f d : shown signal N f = Ok d -> shows d "N" (IZR N).
Proof. exact (N_shown signal N f d). Qed.
Print Assumptions C123_N_partial.

(** missing: odd numbers of samples *)
Theorem C123_fmax_partial signal N f d fn s n fmin k x t : shown signal N f = Ok d -> is_chirp signal = true ->
  dget "fmax" f = Some PNone -> generate fn s n fmin None k = Ok (x, t) -> N = Z.of_nat (length x) ->
  Z.even N = true ->
  exists r, shows d "fmax" r /\ generate fn s (Some N) fmin (Some r) k = Ok (x, t).
Proof. exact (fmax_shown signal N f d fn s n fmin k x t). Qed.
Print Assumptions C123_fmax_partial.

(** three samples: made with fmax = 1, titled fmax=1.5 *)
Theorem C123_fmax_refuted : exists d x t r y u,
  shown "lchirp" 3 [("fmin", PFloat 0); ("fmax", PNone)] = Ok d /\
  generate lchirp_fn ts3 (Some 3%Z) 0 None (TK None None None) = Ok (x, t) /\ shows d "fmax" r /\
  generate lchirp_fn ts3 (Some 3%Z) 0 (Some r) (TK None None None) = Ok (y, u) /\
  nth 2 x 0 = -1 /\ nth 2 y 0 = 0.
Proof. exact fmax_odd. Qed.
Print Assumptions C123_fmax_refuted.

Example C123_case : exists d x t, shown "#echirp" 4 [("fmin", PFloat 1); ("fmax", PNone)] = Ok d /\ is_chirp "#echirp" = true /\
  generate lchirp_fn (TS 4 default_tkw) None 1 None (TK None None None) = Ok (x, t) /\ length x = 4%nat /\ shows d "fmax" (4 / 2).
Proof. do 3 eexists. split; [reflexivity|]. split; [reflexivity|]. split; [reflexivity|]. split; reflexivity. Qed.

(** * C124: a [Wavelet] object is used as it is *)

Theorem C124_own_partial ts ck G o d : c_module (o_class o) = "ssqueezepy.wavelets" -> c_qual (o_class o) = "Wavelet" ->
  init_if_not_isinstance ts ck G o d = Ok (Itself o).
Proof. exact (own_class ts ck G o d). Qed.
Print Assumptions C124_own_partial.

(** everything else is passed to [Wavelet(..)]; missing: instances of derived classes *)
Theorem C124_other_partial ts ck G o d : class_name (o_class o) <> "ssqueezepy.wavelets.Wavelet" ->
  init_if_not_isinstance ts ck G o d = (do w <- init ts ck G (o_spec o) d; Ok (Made w)).
Proof. exact (other_class ts ck G o d). Qed.
Print Assumptions C124_other_partial.

(** which are refused *)
Theorem C124_derived_refuted ts ck G : exists c, derives c wavelet_class /\
  forall d, match d with Some d => exists s, process_dtype d = Ok s | None => True end ->
  init_if_not_isinstance ts ck G (Obj c SBad) d = Err TypeError.
Proof. exact (derived_refused ts ck G). Qed.
Print Assumptions C124_derived_refuted.

Example C124_case ts ck G : init_if_not_isinstance ts ck G (Obj wavelet_class SBad) None = Ok (Itself (Obj wavelet_class SBad)) /\
  class_name (Cls "builtins" "str" []) = "builtins.str".
Proof. split; reflexivity. Qed.
