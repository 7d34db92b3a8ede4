(** wavelets.py:978-984 [isinstance_by_name] and 402-408 [_init_if_not_isinstance]. *)
From Coq Require Import Ascii String Reals.
From Verif Require Import Py Config WaveletInit.
Local Open Scope string_scope.

(** a class: [__module__], [__qualname__], and the classes it derives from *)
Inductive pyclass := Cls (module qual : string) (bases : list pyclass).
Definition c_module (c : pyclass) : string := match c with Cls m _ _ => m end.
Definition c_qual (c : pyclass) : string := match c with Cls _ q _ => q end.
(** 981-983 [_class_name]; every class has both attributes *)
Definition class_name (c : pyclass) : string := lstrip (is_c ".") (c_module c ++ "." ++ c_qual c).
(** 984, given the class of the object *)
Definition isinstance_by_name (cls ref : pyclass) : bool := String.eqb (class_name cls) (class_name ref).
Definition wavelet_class : pyclass := Cls "ssqueezepy.wavelets" "Wavelet" [].

(** what [cwt], [ssq_cwt] etc. are given as [wavelet]: an object, with its class and as
    [Wavelet.__init__] sees it *)
Record obj := Obj { o_class : pyclass; o_spec : wspec }.
(** the object itself is used, or a [Wavelet] made from it *)
Inductive used := Itself (o : obj) | Made (w : wavelet).
Section Init.
Variable typestr : nat -> option string.
Variable checks : string -> dict pyv -> res unit.
Variable G : config.
Definition init_if_not_isinstance (o : obj) (dtype : option dtype_arg) : res used :=
  if isinstance_by_name (o_class o) wavelet_class then Ok (Itself o)
  else do w <- init typestr checks G (o_spec o) dtype; Ok (Made w).
End Init.
