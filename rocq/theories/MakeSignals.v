(** _test_signals.py: [TestSignals._process_input] and [make_signals].  The generating methods are
    a parameter (they are modelled in Signals.v); so is NumPy's generator of normal noise. *)
From Coq Require Import Ascii String Reals Lra.
From Verif Require Import Py Squeeze Config.
Local Open Scope R_scope.
Local Open Scope string_scope.
Notation "x ++ y" := (String.append x y) : string_scope.

(** ** names *)
(** [p in s] *)
Fixpoint contains (p s : string) : bool :=
  match after p s with
  | Some _ => true
  | None => match s with EmptyString => false | String _ s' => contains p s' end
  end.
Definition starts (p s : string) : bool := match after p s with Some _ => true | None => false end.
(** [s.replace('-', '_')] *)
Fixpoint under (s : string) : string :=
  match s with
  | EmptyString => ""
  | String a s' => String (if Ascii.eqb a "-" then "_"%char else a) (under s')
  end.
(** [fname, aname = name.split(':')] *)
Definition split2 (name : string) : res (string * string) :=
  match split_on ":" name with [f; a] => Ok (f, a) | _ => Err ValueError end.
(** [name.split(':') if ':' in name else (name, '')] *)
Definition split_name (name : string) : res (string * string) :=
  match split_on ":" name with [f] => Ok (f, "") | [f; a] => Ok (f, a) | _ => Err ValueError end.

(** ** [TestSignals] as far as used here: [self.snr], [self.seed], [self.default_args], [SUPPORTED] *)
Inductive dflt := D1 (d : dict pyv) | D2 (f a : dict pyv).
Record mself := MS { m_snr : option R; m_seed : option Z; m_defaults : dict dflt; m_supported : list string }.
(** lines 138, 142: [snr or DEFAULT_SNR], [seed or DEFAULT_SEED], both defaults being [None] *)
Definition init (snr : option R) (seed : option Z) (d : dict dflt) (sup : list string) : mself :=
  MS (match snr with Some r => if Req_EM_T r 0 then None else Some r | None => None end)
     (match seed with Some 0%Z => None | s => s end) d sup.

(** an element of [signals]: a name, or a name with one or two dicts *)
Inductive request := RName (name : string) | RFull (name : string) (f a : dict pyv).

(** 690-706: only bare names are checked *)
Definition check_request (s : mself) (r : request) : res unit :=
  match r with
  | RName name =>
      do (f, a) <- split_name name;
      let f := lstrip (is_c "#") f in
      if forallb (fun n => String.eqb n "" || existsb (String.eqb n) (m_supported s)) [f; a] then Ok tt else Err ValueError
  | RFull _ _ _ => Ok tt
  end.

(** [for k, v in defaults.items(): d[k] = d.get(k, v)] *)
Fixpoint merge (d defaults : dict pyv) : dict pyv :=
  match defaults with
  | [] => d
  | (k, v) :: rest => merge (dset k (match dget k d with Some u => u | None => v end) d) rest
  end.
(** [self.default_args.get(name, {})] where a dict is needed; a tuple raises *)
Definition dict_default (s : mself) (name : string) : res (dict pyv) :=
  match dget name (m_defaults s) with
  | None => Ok []
  | Some (D1 d) => Ok d
  | Some (D2 _ _) => Err AttributeError
  end.
(** 729-776, one element: the name under which the signal is stored, [fparams], [aparams] *)
Definition process_one (s : mself) (r : request) : res (string * dict pyv * dict pyv) :=
  let '(name, f, a) := match r with RName n => (n, [], []) | RFull n f a => (n, f, a) end in
  match name with
  | EmptyString => Err IndexError
  | String c rest =>
      let rev := Ascii.eqb c "#" in
      let name := if rev then rest else name in
      let put name := if rev then "#" ++ name else name in
      if contains "am-" name then
        do (name, fd, ad, fname, aname) <-
          (if starts "am-" name then
             let aname := rstrip (is_c ":") name in
             do fd <- dict_default s "cosine"; do ad <- dict_default s aname;
             Ok ("cosine:" ++ aname, fd, ad, "cosine", aname)
           else
             do (fname, aname) <- split2 name;
             do (fd, ad) <- match dget name (m_defaults s) with
                            | Some (D2 x y) => Ok (x, y)
                            | Some (D1 (p :: d)) => Ok (p :: d, [])
                            | _ => do fd <- dict_default s fname; Ok (fd, [])
                            end;
             Ok (name, fd, ad, fname, aname));
        do ad <- match ad with [] => dict_default s aname | _ => Ok ad end;
        Ok (put name, merge f fd, merge a ad)
      else
        do fd <- dict_default s name;
        Ok (put name, merge f fd, a)
  end.
(** 666-782 [_process_input] *)
Fixpoint map_res {A B} (g : A -> res B) (l : list A) : res (list B) :=
  match l with [] => Ok [] | x :: l => do y <- g x; do ys <- map_res g l; Ok (y :: ys) end.
Definition process_input (s : mself) (rs : list request) : res (list (string * dict pyv * dict pyv)) :=
  do _ <- map_res (check_request s) rs; map_res (process_one s) rs.

(** ** [make_signals] *)
(** a method: [N], keyword arguments; the signal and its time vector ([None] for a missing carrier) *)
Definition method := option Z -> dict pyv -> res (list R * option (list R)).
(** NumPy's generator of normal deviates: state, [randn(n)], [seed(k)] *)
Record rng := RNG { r_st : Type; randn : r_st -> nat -> list R * r_st; reseed : Z -> r_st }.

(** [lambda *args, **kw: (np.ones(args[0]), None)] *)
Definition ones : method := fun N _ =>
  match N with
  | None => Err TypeError
  | Some n => if (n <? 0)%Z then Err ValueError else Ok (repeat 1 (Z.to_nat n), None)
  end.
Definition find_method (gen : string -> option method) (name : string) : res method :=
  if String.eqb name "" then Ok ones else match gen name with Some m => Ok m | None => Err AttributeError end.

(** 552-556: keys [tmin], [tmax], [endpoint] of either *)
Definition time_key (k : string) : bool := String.eqb k "tmin" || String.eqb k "tmax" || String.eqb k "endpoint".
Definition time_keys (f a : dict pyv) : dict pyv :=
  fold_left (fun d '(k, v) => if time_key k then dset k v d else d) (app f a) [].
(** [**aparams, **tkw]: a repeated keyword raises *)
Definition join (a t : dict pyv) : res (dict pyv) :=
  if existsb (fun k => has k a) (keys t) then Err TypeError else Ok (app a t).

(** [d.pop(k, default)] *)
Fixpoint dpop (k : string) (d : dict pyv) : dict pyv :=
  match d with [] => [] | (k', v) :: d => if String.eqb k k' then d else (k', v) :: dpop k d end.

Definition var (x : list R) : R := mean (map (fun u => (u - mean x) ^ 2) x).
Definition log10 (y : R) : R := ln y / ln 10.
(** [x *= a] *)
Fixpoint vmul (x a : list R) : list R :=
  match x, a with u :: x, v :: a => (u * v) :: vmul x a | _, _ => [] end.
Fixpoint vplus (x y : list R) : list R :=
  match x, y with u :: x, v :: y => (u + v) :: vplus x y | _, _ => [] end.

(** 573-578: the noise, and the SNR it turned out to have (not finite: [PObj 0]) *)
Definition noise_of (x e : list R) (snr : R) : list R :=
  map (Rmult (sqrt (var x / Rpower 10 (snr / 10)))) e.
Definition measured (x noise : list R) : pyv :=
  if Req_EM_T (var noise) 0 then PObj 0
  else if Req_EM_T (var x) 0 then PObj 0
  else PFloat (10 * log10 (var x / var noise)).

(** 563-582, one element: clean signal, signal, times, updated [fparams], generator state *)
Definition make_one (g : rng) (gen : string -> option method) (s : mself) (N : option Z)
  (p : string * dict pyv * dict pyv) (st : r_st g)
  : res (list R * list R * option (list R) * dict pyv * r_st g) :=
  let '(name, f, a) := p in
  do (fname, aname) <- split_name name;
  let fname := lstrip (is_c "#") (under fname) in
  do fn <- find_method gen fname;
  do afn <- find_method gen (under aname);
  let tk := time_keys f a in
  let snr := match dget "snr" f with
             | Some v => v
             | None => match m_snr s with Some r => PFloat r | None => PNone end
             end in
  let f := dpop "snr" f in
  do (x, t) <- fn N f;
  do kw <- join a tk;
  do (am, _) <- afn (Some (Z.of_nat (length x))) kw;
  if negb (length am =? length x)%nat then Err (if (length am =? 1)%nat then NotModelled else ValueError)
  else
    let x := vmul x am in
    let x := if starts "#" name then vplus x (List.rev x) else x in
    match snr with
    | PNone => Ok (x, x, t, f, st)
    | PFloat r =>
        if Req_EM_T r 0 then Ok (x, x, t, f, st)
        else
          let st := match m_seed s with Some k => reseed g k | None => st end in
          let '(e, st) := randn g st (length x) in
          let noise := noise_of x e r in
          Ok (x, vplus x noise, t, dset "snr" (measured x noise) f, st)
    | _ => Err NotModelled
    end.

(** 559-588: the dict [{name: (x, t, (fparams, aparams))}], and the parameter dicts of each
    element as the caller has them afterwards *)
Definition entry := (list R * option (list R) * dict pyv * dict pyv)%type.
Fixpoint make_all (g : rng) (gen : string -> option method) (s : mself) (N : option Z)
  (ps : list (string * dict pyv * dict pyv)) (data : dict entry) (st : r_st g)
  : res (dict entry * list (dict pyv * dict pyv) * r_st g) :=
  match ps with
  | [] => Ok (data, [], st)
  | (name, f, a) :: ps =>
      do (_, x, t, f', st) <- make_one g gen s N (name, f, a) st;
      do (data, dicts, st) <- make_all g gen s N ps (dset name (x, t, f', a) data) st;
      Ok (data, (f', a) :: dicts, st)
  end.
Definition make_signals (g : rng) (gen : string -> option method) (s : mself) (rs : list request) (N : option Z) (st : r_st g)
  : res (dict entry * list (dict pyv * dict pyv) * r_st g) :=
  do ps <- process_input s rs; make_all g gen s N ps [] st.
(** 587-590, [get_params=False]: a single signal is returned by itself *)
Inductive signals_out := One (x : list R) | Many (l : list (list R)).
Definition plain (data : dict entry) : signals_out :=
  match map (fun '(_, (x, _, _, _)) => x) data with [x] => One x | l => Many l end.
