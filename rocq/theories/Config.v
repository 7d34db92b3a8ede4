(** ssqueezepy/configs.py: parsing of configs.ini, [gdefaults], [IS_PARALLEL], and the
    functions that choose between a threaded and a single-threaded kernel. *)
From Coq Require Import Ascii String Reals.
From Verif Require Import Py.
Local Open Scope string_scope.

(** ** Python's [str] methods used here *)
(** [s.split(c)] for a one-character separator *)
Fixpoint split_on (c : ascii) (s : string) : list string :=
  match s with
  | EmptyString => [""]
  | String a s' =>
      if Ascii.eqb a c then "" :: split_on c s'
      else match split_on c s' with
           | [] => [String a ""]
           | h :: t => String a h :: t
           end
  end.
(** [s.lstrip(chars)], [s.rstrip(chars)], [s.strip(chars)]; [p] is membership in [chars] *)
Fixpoint lstrip (p : ascii -> bool) (s : string) : string :=
  match s with
  | EmptyString => ""
  | String a s' => if p a then lstrip p s' else s
  end.
Fixpoint rstrip (p : ascii -> bool) (s : string) : string :=
  match s with
  | EmptyString => ""
  | String a s' => match rstrip p s' with
                   | EmptyString => if p a then "" else String a ""
                   | r => String a r
                   end
  end.
Definition strip (p : ascii -> bool) (s : string) : string := rstrip p (lstrip p s).
Definition is_c (c a : ascii) : bool := Ascii.eqb a c.
Definition SP : ascii := " "%char.
Definition NL : ascii := ascii_of_nat 10.
Definition DQ : ascii := ascii_of_nat 34.
Definition SQ : ascii := ascii_of_nat 39.
Definition EQ : ascii := "="%char.
(** [s.startswith(p)] and [s[len(p):]] *)
Fixpoint after (p s : string) : option string :=
  match p, s with
  | EmptyString, _ => Some s
  | String a p', String b s' => if Ascii.eqb a b then after p' s' else None
  | _, _ => None
  end.
(** [l[:l.index(x)]] *)
Fixpoint upto (x : string) (l : list string) : res (list string) :=
  match l with
  | [] => Err ValueError
  | y :: l' => if String.eqb y x then Ok [] else do r <- upto x l' ; Ok (y :: r)
  end.

(** ** Values and insertion-ordered dictionaries *)
Inductive pyv :=
| PNone | PBool (b : bool) | PFloat (x : R) | PStr (s : string)
| PObj (n : nat).                       (* any other object *)
Definition is_none (v : pyv) : bool := match v with PNone => true | _ => false end.
Section Dict.
Variable A : Type.
Definition dict := list (string * A).
Fixpoint dget (k : string) (d : dict) : option A :=
  match d with
  | [] => None
  | (k', v) :: d' => if String.eqb k k' then Some v else dget k d'
  end.
(** [d[k] = v]: in place, or appended *)
Fixpoint dset (k : string) (v : A) (d : dict) : dict :=
  match d with
  | [] => [(k, v)]
  | (k', v') :: d' => if String.eqb k k' then (k', v) :: d' else (k', v') :: dset k v d'
  end.
Definition keys (d : dict) : list string := map fst d.
Definition has (k : string) (d : dict) : bool := match dget k d with Some _ => true | None => false end.
End Dict.
Arguments dget {A}. Arguments dset {A}. Arguments keys {A}. Arguments has {A}.

(** ** [_get_gdefaults], configs.py:85-124 *)
Definition config := dict (dict (dict pyv)).
Section Parse.
(** Python's [float(s)]; simplified: the strings it reads as infinities or NaN are left out *)
Variable pyfloat : string -> option R.
(** configs.py:87-105 *)
Definition process_value (s : string) : pyv :=
  let s := strip (is_c SQ) (strip (is_c DQ) s) in
  if String.eqb s "None" then PNone
  else if String.eqb s "True" then PBool true
  else if String.eqb s "False" then PBool false
  else match pyfloat s with Some x => PFloat x | None => PStr s end.
(** configs.py:112-123, one line; the state is [GDEFAULTS, module, obj] *)
Definition parse_line (st : config * string * string) (line : string) : res (config * string * string) :=
  let '(G, module, obj) := st in
  match after "## " line with
  | Some m => Ok (dset m [] G, m, obj)
  | None =>
      match after "# " line with
      | Some o => match dget module G with
                  | None => Err KeyError
                  | Some M => Ok (dset module (dset o [] M) G, module, o)
                  end
      | None =>
          match map (strip (is_c SP)) (split_on EQ line) with
          | [key; value] =>
              match dget module G with
              | None => Err KeyError
              | Some M => match dget obj M with
                          | None => Err KeyError
                          | Some D => Ok (dset module (dset obj (dset key (process_value value) D) M) G, module, obj)
                          end
              end
          | _ => Err ValueError               (* not two values to unpack *)
          end
      end
  end.
Fixpoint parse_lines (st : config * string * string) (lines : list string) : res (config * string * string) :=
  match lines with
  | [] => Ok st
  | l :: ls => do st' <- parse_line st l ; parse_lines st' ls
  end.
(** configs.py:107-110 *)
Definition clean_lines (txt : string) : res (list string) :=
  do ls <- upto "#### END" (split_on NL txt) ;
  Ok (map (strip (is_c SP)) (filter (fun l => negb (String.eqb l "")) ls)).
Definition get_gdefaults (txt : string) : res config :=
  do ls <- clean_lines txt ;
  do st <- parse_lines ([], "", "") ls ;
  Ok (fst (fst st)).
End Parse.

(** ** [gdefaults], configs.py:27-82 *)
(** configs.py:53-59: [DEFAULTS], when module and object are found *)
Definition defaults_of (G : config) (module obj : string) : option (dict pyv) :=
  match dget module G with None => None | Some M => dget obj M end.
(** configs.py:60-62 *)
Definition fill (D kw : dict pyv) : dict pyv :=
  map (fun '(k, v) => (k, if is_none v then match dget k D with Some d => d | None => v end else v)) kw.
(** configs.py:64-67 *)
Definition add_missing (D kw : dict pyv) : dict pyv :=
  fold_left (fun kw '(k, v) => if has k kw then kw else dset k v kw) D kw.
(** configs.py:68-77 *)
Definition reorder (D kw : dict pyv) : dict pyv :=
  let ordered := fold_left (fun o '(k, v) => if has k kw then dset k v o else o) D [] in
  fold_left (fun o '(k, v) => dset k v o) kw ordered.
Definition gd_dict (G : config) (module obj : string) (get_all default_order : bool) (kw : dict pyv) : dict pyv :=
  match defaults_of G module obj with
  | None => kw
  | Some D =>
      let kw := fill D kw in
      let kw := if get_all then add_missing D kw else kw in
      if default_order then reorder D kw else kw
  end.
(** configs.py:31-32, 79-82 *)
Inductive gd_out := OutDict (d : dict pyv) | OutValues (l : list pyv) | OutOne (v : pyv).
Definition gd_return (as_dict : option bool) (get_all : bool) (kw : dict pyv) : gd_out :=
  if match as_dict with Some b => b | None => get_all end then OutDict kw
  else match kw with [(_, v)] => OutOne v | _ => OutValues (map snd kw) end.
(** configs.py:38-41: ['.'.join(mos[:-1]), mos[-1]] of the split name *)
Definition split_name (s : string) : string * string :=
  let mos := split_on "."%char s in
  (String.concat "." (removelast mos), last mos "").
(** configs.py:34-37: the caller's file and function; ['.py'] is a set of characters *)
Definition from_caller (file fn : string) : string * string :=
  (rstrip (fun a => is_c "."%char a || is_c "p"%char a || is_c "y"%char a) (last (split_on "/"%char file) ""), fn).
(** [name]: [module_and_obj]; [caller]: file and function on the stack; [ini]: the text of
    configs.ini *)
Definition gdefaults (pyfloat : string -> option R) (ini : string) (caller : string * string) (name : option string)
  (get_all : bool) (as_dict : option bool) (default_order : bool) (kw : dict pyv) : res gd_out :=
  let '(module, obj) := match name with Some s => split_name s | None => from_caller (fst caller) (snd caller) end in
  do G <- get_gdefaults pyfloat ini ;
  Ok (gd_return as_dict get_all (gd_dict G module obj get_all default_order kw)).

(** ** [IS_PARALLEL], configs.py:127-139; [env]: the variable SSQ_PARALLEL *)
(** [v == 0] *)
Definition eq_zero (v : pyv) : bool :=
  match v with PBool b => negb b | PFloat x => if Req_EM_T x 0 then true else false | _ => false end.
Definition is_parallel (pyfloat : string -> option R) (ini : string) (env : option string) : res bool :=
  if String.eqb (match env with Some s => s | None => "1" end) "0" then Ok false
  else
    do out <- gdefaults pyfloat ini ("configs.py", "IS_PARALLEL") (Some "configs.IS_PARALLEL") false None false [("parallel", PNone)] ;
    match out with
    | OutOne v => Ok (negb (eq_zero v))
    | _ => Err NotModelled                       (* one keyword: always a single value *)
    end.

(** ** Which kernel runs *)
Inductive kernel := Serial | Threads | Gpu.
Definition pick (b : bool) : kernel := if b then Threads else Serial.
(** [parallel or (parallel is None and IS_PARALLEL())]; [None]: not given *)
Definition or_default (parallel : option bool) (isp : res bool) : res bool :=
  match parallel with Some b => Ok b | None => isp end.
(** [parallel or IS_PARALLEL()] *)
Definition or_global (parallel : option bool) (isp : res bool) : res bool :=
  match parallel with Some true => Ok true | _ => isp end.
Section Choice.
Variable isp : res bool.                         (* what [IS_PARALLEL()] returns or raises *)
(** algos.py:22-29 *)
Definition indexed_sum_kernel (parallel : option bool) : res kernel :=
  do b <- or_default parallel isp ; Ok (pick b).
(** algos.py:48, 117-118: used by ssqueeze_fast (126-150) and indexed_sum_onfly (153-169) *)
Definition ssq_kernel (gpu : bool) (parallel : option bool) : res kernel :=
  do b <- or_global parallel isp ; Ok (if gpu then Gpu else pick b).
(** algos.py:498-504 *)
Definition replace_under_abs_kernel (gpu : bool) (parallel : option bool) : res kernel :=
  if gpu then Ok Gpu else do b <- or_default parallel isp ; Ok (pick b).
(** algos.py:593-601 *)
Definition zero_denormals_kernel (parallel : option bool) : res kernel :=
  do b <- or_default parallel isp ; Ok (pick b).
(** algos.py:706-718, 784-794 *)
Definition phase_cpu_kernel (parallel : option bool) : res kernel :=
  do b <- or_global parallel isp ; Ok (pick b).
(** _ssq_cwt.py:478-509; the kernel of the only loop, which for 'phase' is [replace_under_abs]
    called without [parallel] *)
Inductive phase_diff := DTrig | DPhase | DOther.
Definition phase_cwt_kernel (d : phase_diff) (gpu : bool) (parallel : option bool) : res kernel :=
  match d with
  | DTrig => if gpu then Ok Gpu else phase_cpu_kernel parallel
  | _ => if gpu then Err ValueError
         else if match parallel with Some true => true | _ => false end then Err ValueError
         else match d with
              | DPhase => replace_under_abs_kernel false None
              | _ => Err ValueError
              end
  end.
(** _ssq_stft.py:240-246 *)
Definition phase_stft_kernel (gpu : bool) (parallel : option bool) : res kernel :=
  if gpu then Ok Gpu else phase_cpu_kernel parallel.
(** stft_utils.py:46-66 *)
Definition buffer_kernel (gpu : bool) (parallel : option bool) : res kernel :=
  if gpu then Ok Gpu else phase_cpu_kernel parallel.
End Choice.
(** algos.py:301-317: [None] for [smart] and [parallel] selects the smart search; the result is
    whether that search runs, and else the kernel of [find_closest_lin / _log] *)
Definition find_closest_kernel (smart parallel : option bool) : option kernel :=
  let truthy (o : option bool) := match o with Some true => true | _ => false end in
  let smart := match smart, parallel with None, None => Some true | _, _ => smart end in
  if truthy smart then None else Some (pick (truthy parallel)).

(** configs.ini of the pinned commit (cut after the two lines that follow the end mark) *)
Definition join_nl (l : list string) : string := String.concat (String NL "") l.
Definition pinned_lines : list string :=
  ["## configs"; "# IS_PARALLEL"; "parallel=1"; "";
   "## wavelets"; "# morlet"; "mu=13.4"; "dtype=float32"; "";
   "# bump"; "mu=5"; "s=1"; "om=0"; "dtype=float32"; "";
   "# cmhat"; "mu=1"; "s=1"; "dtype=float32"; "";
   "# hhhat"; "mu=5"; "dtype=float32"; "";
   "## _gmw"; "# gmw"; "gamma=3"; "beta=60"; "norm=bandpass"; "order=0"; "centered_scale=False"; "dtype=float32"; "";
   "## _stft"; "# stft"; "dtype=float32"; "";
   "## utils.cwt_utils"; "# make_scales"; "downsample=4"; "";
   "## visuals"; "# _maybe_title"; "fontsize=16"; "weight=bold"; "loc=left"; ""; ""; ""].
Definition pinned_rest : list string :=
  ["#### do not edit above line ####"; "#### edits below this line have no effect ####"; ""].
Definition pinned_ini : string := join_nl (pinned_lines ++ "#### END" :: pinned_rest).
