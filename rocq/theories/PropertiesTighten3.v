(** Sharper forms, third round. *)
From Coq Require Import Reals Lra String.
From Verif Require Import Py Validate Tighten3.
Local Open Scope R_scope.

(** * C109: what an accepted call prints and hands on, and when the error is a [TypeError] *)

(** the two messages, each exactly when it applies; the order handed on is the one given *)
Theorem C109_messages_partial sq mr wv dt od gw gpu tr k m : check_ssqueezing_args sq mr wv dt od gw gpu tr = Ok (k, m) ->
  (In NOTE_maprange m <-> tr = PStr "stft" /\ (mr = PStr "peak" \/ mr = PStr "energy")) /\
  (In WARN_difforder m <-> od <> PNone /\ dt <> PStr "numeric") /\ (length m <= 2)%nat /\
  (od <> PNone \/ dt <> PStr "numeric" -> k = od).
Proof. exact (messages sq mr wv dt od gw gpu tr k m). Qed.
Print Assumptions C109_messages_partial.

(** [TypeError] for a value of a wrong type; every other rejection is a [ValueError] *)
Theorem C109_wrong_kind_partial sq mr wv dt od gw gpu tr e : check_ssqueezing_args sq mr wv dt od gw gpu tr = Err e ->
  (e = TypeError <-> (tr = PStr "cwt" \/ tr = PStr "stft") /\
    ((forall s, sq <> PStr s) /\ sq <> PFunc \/
     ((sq = PFunc \/ sq = PStr "sum" \/ sq = PStr "lebesgue" \/ sq = PStr "abs") /\ mr <> PNone /\ (forall s, mr <> PStr s) /\ forall l, mr <> PTuple l /\ mr <> PList l))).
Proof. exact (wrong_kind sq mr wv dt od gw gpu tr e). Qed.
Print Assumptions C109_wrong_kind_partial.

(** both messages at once; the two kinds of error *)
Example C109_messages_case : check_ssqueezing_args (PStr "sum") (PStr "peak") false (PStr "trig") (PInt 2) false false (PStr "stft") = Ok (PInt 2, [NOTE_maprange; WARN_difforder]) /\
  check_ssqueezing_args PFunc (PInt 3) true (PStr "trig") PNone false false (PStr "cwt") = Err TypeError /\
  check_ssqueezing_args PFunc (PStr "max") true (PStr "trig") PNone false false (PStr "cwt") = Err ValueError.
Proof. exact messages_case. Qed.
