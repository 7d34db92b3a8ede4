(** Sharper forms, fifth round. *)
From Coq Require Import Ascii String Reals Lra List.
Import ListNotations.
From Verif Require Import Py Buffer Cplx Squeeze Freqs Resol Config IniProofs ConfigThms ResolProofs WindowRes WindowResThms WindowResThms2 Tighten5.
Local Open Scope string_scope.

(** * C41: what a value in configs.ini stands for *)

(** the words None, True, False; numbers; everything else as a string *)
Theorem C41_value pyfloat c lines rest caller module fn k s :
  distinct c -> lays (items_of c) lines -> lacks "."%char fn = true ->
  dget k (entries c module fn) = Some s -> bare s ->
  exists v, gdefaults pyfloat (join_nl (lines ++ "#### END" :: rest)) caller (Some (module ++ "." ++ fn)) false (Some false) false [(k, PNone)] = Ok (OutOne v) /\
    stands_for pyfloat s v.
Proof. exact (default_value pyfloat c lines rest caller module fn k s). Qed.
Print Assumptions C41_value.

(** quotes of either kind around a value change nothing *)
Theorem C41_quotes pyfloat s : bare s ->
  process_value pyfloat (String DQ (s ++ String DQ "")) = process_value pyfloat s /\
  process_value pyfloat (String SQ (s ++ String SQ "")) = process_value pyfloat s.
Proof. exact (quoted_value pyfloat s). Qed.
Print Assumptions C41_quotes.

Example C41_value_case pyfloat : pyfloat "13.4" = Some (134 / 10)%R -> pyfloat "float32" = None ->
  stands_for pyfloat "13.4" (PFloat (134 / 10)) /\ process_value pyfloat "'float32'" = PStr "float32" /\ process_value pyfloat "False" = PBool false.
Proof. exact (value_case pyfloat). Qed.

(** * C90: both areas in one call *)

Local Open Scope R_scope.

(** time first, then frequency: the same numbers as asked one by one *)
Theorem C90_both_partial x : x <> [] -> exists a b, window_area x true true = Ok (AreaTW a b) /\
  window_area x true false = Ok (AreaT a) /\ window_area x false true = Ok (AreaW b) /\ a = Rsum (length x) (tweight x).
Proof. exact (both_areas x). Qed.
Print Assumptions C90_both_partial.

Example C90_both_case : exists b, window_area [1; 1; 1] true true = Ok (AreaTW 2 b) /\ 0 <= b <= 6 * PI.
Proof. exact both_case. Qed.
