(** Sharper forms, fourth round. *)
From Coq Require Import Ascii String Reals Lra.
From Verif Require Import Py Squeeze Config IniProofs MakeSignals Tighten4.
Local Open Scope R_scope.
Local Open Scope string_scope.

(** * C87: what the generating methods are handed, and which names are taken *)

(** carrier: the request's parameters without [snr]; modulator: its own, and the carrier's time keywords *)
Theorem C87_arguments_partial g gen s N name f a st xc x t f' st' : NoDup (keys f) -> NoDup (keys a) ->
  make_one g gen s N (name, f, a) st = Ok (xc, x, t, f', st') ->
  exists fname aname fn afn kf kw x0 am tm, split_name name = Ok (fname, aname) /\
    find_method gen (lstrip (is_c "#") (under fname)) = Ok fn /\ find_method gen (under aname) = Ok afn /\
    fn N kf = Ok (x0, t) /\ afn (Some (Z.of_nat (length x0))) kw = Ok (am, tm) /\ length xc = length x0 /\
    (forall k, dget k kf = if String.eqb k "snr" then None else dget k f) /\
    (forall k, dget k kw = match dget k a with Some v => Some v | None => if existsb (String.eqb k) ["tmin"; "tmax"; "endpoint"] then dget k f else None end).
Proof. exact (arguments g gen s N name f a st xc x t f' st'). Qed.
Print Assumptions C87_arguments_partial.

(** in a call that succeeds every bare name is supported, in both halves *)
Theorem C87_names_partial g gen s rs N st out n : make_signals g gen s rs N st = Ok out -> In (RName n) rs ->
  (lacks ":" n = true -> known s (lstrip (is_c "#") n)) /\
  forall f a, n = f ++ String ":" a -> lacks ":" f = true -> lacks ":" a = true -> known s (lstrip (is_c "#") f) /\ known s a.
Proof. exact (names_known g gen s rs N st out n). Qed.
Print Assumptions C87_names_partial.

(** an unknown one raises [ValueError] *)
Theorem C87_unknown_partial g gen s N st f a : lacks ":" f = true -> lacks ":" a = true ->
  (~ known s (lstrip (is_c "#") f) -> make_signals g gen s [RName f] N st = Err ValueError) /\
  (~ known s (lstrip (is_c "#") f) \/ ~ known s a -> make_signals g gen s [RName (f ++ String ":" a)] N st = Err ValueError).
Proof. exact (names_unknown g gen s N st f a). Qed.
Print Assumptions C87_unknown_partial.

(** methods that take no [snr] and want [tmin]; an unsupported modulator *)
Example C87_arguments_case g st : exists x t, make_one g strict_gen (init None None [] []) None ("cosine:am-gauss", [("snr", PNone); ("tmin", PFloat 0)], []) st = Ok (x, x, t, [("tmin", PFloat 0)], st) /\ x = [1 * 3; 2 * 5] /\
  make_signals g strict_gen (init None None [] ["cosine"]) [RName "cosine:am-gauss"] None st = Err ValueError.
Proof. exact (arguments_case g st). Qed.
