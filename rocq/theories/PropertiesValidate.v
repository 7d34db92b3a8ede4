(** Checks of the arguments of the synchrosqueezing functions. *)
From Coq Require Import Reals Lra Lia List Bool String.
Import ListNotations.
From Verif Require Import Py Round Parallel Cplx Padding Buffer Freqs Squeeze Scales Ssqueeze Cwt SsqCwt Validate ValidateThms.
Local Open Scope R_scope.

(** * C109: bad arguments are refused up front, good ones are usable *)

(** the accepted calls are the documented ones, no more and no fewer; missing: being usable afterwards (refuted below) *)
Theorem C109_accepted_partial sq mr wv dt od gw gpu tr :
  (exists r, check_ssqueezing_args sq mr wv dt od gw gpu tr = Ok r) <->
  ((tr = PStr "cwt" \/ tr = PStr "stft") /\ good_squeezing sq /\
   good_maprange mr wv (is_str tr "cwt") /\ good_difftype dt gw gpu /\ good_difforder dt od).
Proof. exact (accepted sq mr wv dt od gw gpu tr). Qed.
Print Assumptions C109_accepted_partial.

(** any other call raises ValueError or TypeError before anything is computed *)
Theorem C109_refused_partial sq mr wv dt od gw gpu tr e :
  check_ssqueezing_args sq mr wv dt od gw gpu tr = Err e -> e = ValueError \/ e = TypeError.
Proof. exact (refused sq mr wv dt od gw gpu tr e). Qed.
Print Assumptions C109_refused_partial.

(** with difftype 'numeric' the order handed on is 1, 2 or 4 *)
Theorem C109_order_partial sq mr wv od gw gpu tr k m :
  check_ssqueezing_args sq mr wv (PStr "numeric") od gw gpu tr = Ok (k, m) ->
  (od = PNone /\ k = PInt 4) \/
  (k = od /\ (number k = Some 1 \/ number k = Some 2 \/ number k = Some 4)).
Proof. exact (order_given sq mr wv od gw gpu tr k m). Qed.
Print Assumptions C109_order_partial.

(** [ssq_cwt] of SsqCwt.v runs this check *)
Theorem C109_same_check_partial q sq mr wv :
  check_squeezing sq = Ok tt -> check_maprange mr wv true = Ok [] ->
  match check_ssqueezing_args sq mr wv (diff_value (q_diff q)) (order_value (q_difforder q))
          (q_get_w q) false (PStr "cwt") with
  | Ok (k, _) => exists z, check_diff q = Ok z /\ (q_diff q = DNumeric -> k = PInt z)
  | Err e => check_diff q = Err e
  end.
Proof. exact (check_diff_agrees q sq mr wv). Qed.
Print Assumptions C109_same_check_partial.

(** an accepted string or pair gives the frequency range of the model *)
Theorem C109_usable_partial sq mr wv dt od gw gpu tr r ce T N sc :
  check_ssqueezing_args sq mr wv dt od gw gpu tr = Ok r -> sc <> [] ->
  (exists s, mr = PStr s) \/ (exists a b, mr = PTuple [a; b]) ->
  exists m, typed_maprange ce mr = Some m /\
            freqrange mr ce T N sc = Ok (ssq_freqrange m T N sc).
Proof. exact (accepted_range sq mr wv dt od gw gpu tr r ce T N sc). Qed.
Print Assumptions C109_usable_partial.

(** a list is accepted, and then no branch handles it *)
Theorem C109_list_refuted : exists mr r, check_ssqueezing_args (PStr "sum") mr true (PStr "trig") PNone false false (PStr "cwt") = Ok r /\
  mr = PList [PInt 1; PInt 10] /\
  forall ce T N sc, freqrange mr ce T N sc = Err UnboundLocalError.
Proof. exists (PList [PInt 1; PInt 10]). eexists. repeat split. Qed.
Print Assumptions C109_list_refuted.

(** so are [None] and a tuple of any length *)
Theorem C109_none_refuted : exists mr r, check_ssqueezing_args (PStr "sum") mr true (PStr "trig") PNone false false (PStr "cwt") = Ok r /\
  forall ce T N sc, freqrange mr ce T N sc = Err UnboundLocalError.
Proof. exists PNone. eexists. repeat split. Qed.
Print Assumptions C109_none_refuted.
Theorem C109_length_refuted : exists mr r, check_ssqueezing_args (PStr "sum") mr true (PStr "trig") PNone false false (PStr "cwt") = Ok r /\
  forall ce T N sc, freqrange mr ce T N sc = Err ValueError.
Proof. exists (PTuple [PInt 1; PInt 10; PInt 20]). eexists. repeat split. Qed.
Print Assumptions C109_length_refuted.

(** [ssq_freqs] given as a string is not checked at all: any unknown name means linear frequencies, and one that begins with "log" still selects the logarithmic search, which sends a coefficient at a listed frequency to another row *)
Theorem C109_scheme_refuted f64 dt : exists v g,
  string_freqs "log2" 1 5 dt 5 true = (v, true) /\ v = [1; 2; 3; 4; 5] /\
  get_grid f64 true v = Ok g /\ nth 3 v 0 = 4 /\ bin_onfly 4 g 4 = 2%Z.
Proof. exact (misspelt_case f64 dt). Qed.
Print Assumptions C109_scheme_refuted.

Example C109_case : check_ssqueezing_args (PStr "abs") (PTuple [PFloat (1 / 2); PInt 10]) false (PStr "numeric") PNone true false (PStr "stft") = Ok (PInt 4, []) /\
  check_ssqueezing_args (PStr "mean") (PStr "peak") true PNone PNone false false (PStr "cwt") = Err ValueError /\
  check_ssqueezing_args (PStr "sum") (PStr "peak") false PNone PNone false false (PStr "cwt") = Err ValueError /\
  check_ssqueezing_args (PInt 3) (PStr "peak") true PNone PNone false false (PStr "cwt") = Err TypeError.
Proof. repeat split. Qed.
