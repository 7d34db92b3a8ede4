(** ssqueezing.py [_check_ssqueezing_args] and the places that use the checked values: the
    arguments of [ssqueeze], [ssq_cwt] and [ssq_stft] as Python values of any type. *)
From Coq Require Import Reals Lra String.
From Verif Require Import Py Round Parallel Cplx Padding Buffer Freqs Squeeze Scales Ssqueeze Cwt SsqCwt.
Local Open Scope R_scope.

(** Python values as far as the checks tell them apart.  [PObj] is an instance of any other
    type, one that equals no string and no number. *)
Inductive pyv :=
| PNone | PInt (z : Z) | PBool (b : bool) | PFloat (r : R) | PStr (s : string)
| PTuple (l : list pyv) | PList (l : list pyv) | PFunc | PObj.

Definition is_none (v : pyv) : bool := match v with PNone => true | _ => false end.

(** [isinstance(m, (float, int))]; a bool is an int *)
Definition number (v : pyv) : option R :=
  match v with
  | PInt z => Some (IZR z)
  | PBool b => Some (if b then 1 else 0)
  | PFloat r => Some r
  | _ => None
  end.
Definition is_number (v : pyv) : bool := match number v with Some _ => true | None => false end.

(** [v == s] for a string *)
Definition is_str (v : pyv) (s : string) : bool :=
  match v with PStr t => String.eqb t s | _ => false end.
(** [v in ss] for strings; common.py:302-305 [assert_is_one_of] raises when it is false *)
Definition one_of (v : pyv) (ss : list string) : bool := existsb (is_str v) ss.
(** [v == z] for an integer literal *)
Definition is_int (v : pyv) (z : Z) : bool :=
  match number v with Some r => if Req_EM_T r (IZR z) then true else false | None => false end.

Inductive message := NOTE_maprange | WARN_difforder.

(** ssqueezing.py:320-324 *)
Definition check_squeezing (squeezing : pyv) : res unit :=
  match squeezing with
  | PFunc => Ok tt
  | PStr _ => if one_of squeezing ["sum"; "lebesgue"; "abs"]%string then Ok tt else Err ValueError
  | _ => Err TypeError
  end.

(** ssqueezing.py:327-342; the message printed, if any *)
Definition check_maprange (maprange : pyv) (wavelet_given cwt : bool) : res (list message) :=
  match maprange with
  | PNone => Ok []
  | PTuple l | PList l => if forallb is_number l then Ok [] else Err ValueError
  | PStr s =>
      if one_of maprange ["maximal"; "peak"; "energy"]%string then
        if String.eqb s "maximal" then Ok []
        else if negb cwt then Ok [NOTE_maprange]
        else if negb wavelet_given then Err ValueError else Ok []
      else Err ValueError
  | _ => Err TypeError
  end.

(** ssqueezing.py:345-356; [get_w]: its truth value *)
Definition check_difftype (difftype : pyv) (get_w gpu : bool) : res unit :=
  if is_none difftype then Ok tt
  else if negb (one_of difftype ["trig"; "phase"; "numeric"]%string) then Err ValueError
  else if is_str difftype "trig" then Ok tt
  else if gpu then Err ValueError
  else if negb get_w then Err ValueError else Ok tt.

(** ssqueezing.py:359-368: the value returned, and the message printed *)
Definition check_difforder (difftype difforder : pyv) : res (pyv * list message) :=
  if negb (is_none difforder) then
    if negb (is_str difftype "numeric") then Ok (difforder, [WARN_difforder])
    else if is_int difforder 1 || is_int difforder 2 || is_int difforder 4 then Ok (difforder, [])
    else Err ValueError
  else if is_str difftype "numeric" then Ok (PInt 4, [])
  else Ok (difforder, []).

(** ssqueezing.py:314-368 [_check_ssqueezing_args] *)
Definition check_ssqueezing_args (squeezing maprange : pyv) (wavelet_given : bool)
  (difftype difforder : pyv) (get_w gpu : bool) (transform : pyv) : res (pyv * list message) :=
  if negb (one_of transform ["cwt"; "stft"]%string) then Err ValueError
  else
    do _ <- check_squeezing squeezing;
    do m1 <- check_maprange maprange wavelet_given (is_str transform "cwt");
    do _ <- check_difftype difftype get_w gpu;
    do r <- check_difforder difftype difforder;
    let '(k, m2) := r in Ok (k, m1 ++ m2)%list.

(** ssqueezing.py:228-244 [_ssq_freqrange] for any value; [center] is
    [_get_center_frequency] by kind and scale.  A tuple of checked elements. *)
Definition freqrange (maprange : pyv) (center : string -> R -> R) (dt : R) (N : nat)
  (scales : list R) : res (R * R) :=
  match maprange with
  | PTuple [a; b] =>
      match number a, number b with
      | Some fm, Some fM => Ok (fm, fM)
      | _, _ => Err TypeError
      end
  | PTuple _ => Err ValueError             (* fm, fM = maprange *)
  | _ =>
      if is_str maprange "maximal" then Ok (1 / (dt * INR N), 1 / (2 * dt))
      else if one_of maprange ["peak"; "energy"]%string then
        match maprange with
        | PStr s => match scales with
                    | [] => Err IndexError
                    | _ => Ok (center s (last scales 0), center s (nth 0 scales 0))
                    end
        | _ => Err UnboundLocalError
        end
      else Err UnboundLocalError            (* return fm, fM *)
  end.

(** the typed [maprange] of Ssqueeze.v a value stands for *)
Definition typed_maprange (center : string -> R -> R) (v : pyv) : option maprange :=
  match v with
  | PTuple [a; b] => match number a, number b with
                     | Some fm, Some fM => Some (MRTuple fm fM)
                     | _, _ => None
                     end
  | PStr s => if String.eqb s "maximal" then Some MRMaximal
              else if (String.eqb s "peak" || String.eqb s "energy")%bool
                   then Some (MRCenter (center s)) else None
  | _ => None
  end.

(** a string given as [ssq_freqs]: ssqueezing.py:174-189, 254-290 choose the formula by
    equality and 136 chooses the search by prefix; returns the frequencies (for the formulas
    without a transition) and [ssq_logscale] *)
Definition string_freqs (s : string) (fm fM dt : R) (na : nat) (cwt : bool) : list R * bool :=
  ((if String.eqb s "log" then log_freqs fm fM na
    else if cwt then linspace fm fM na
    else map (fun f => f / dt) (linspace 0 (1 / 2) na)),
   String.prefix "log" s).
