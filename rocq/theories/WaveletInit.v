(** wavelets.py: construction of a [Wavelet]: [__init__], [_process_dtype],
    [_validate_and_set_wavelet], [_init_if_not_isinstance], [_process_params_dtype]; and
    _cwt.py [cwt_higher_order._process_wavelet].  CPU only (no SSQ_GPU).  Warnings are left out. *)
From Coq Require Import Ascii String Reals.
From Verif Require Import Py Config.
Local Open Scope string_scope.

(** wavelets.py:46 [DTYPES], 43 [SUPPORTED] *)
Definition dtypes : list string := ["float32"; "float64"].
Definition supported : list string := ["gmw"; "morlet"; "bump"; "cmhat"; "hhhat"].
(** utils/common.py:302-305 [assert_is_one_of]: membership *)
Definition one_of (s : string) (l : list string) : bool := existsb (String.eqb s) l.

(** a [dtype] argument: a string; an object that is a type, [np.dtype] or [torch.dtype], given by
    its [str]; anything else *)
Inductive dtype_arg := DStr (s : string) | DType (str : string) | DAny.
(** [str] of [np.float64] and of [np.dtype('float64')] *)
Definition np_type (s : string) : dtype_arg := DType ("<class 'numpy." ++ s ++ "'>").
Definition np_dtype (s : string) : dtype_arg := DType s.
(** [s.split('.')[-1]] *)
Definition after_dot (s : string) : string := last (split_on "."%char s) "".
(** wavelets.py:388-399 [_process_dtype] with [as_str=True]; only strings are checked against
    [DTYPES] *)
Definition process_dtype (d : dtype_arg) : res string :=
  match d with
  | DStr s => if one_of s dtypes then Ok (after_dot s) else Err ValueError
  | DType s => Ok (after_dot s)
  | DAny => Err TypeError
  end.

(** [s.lower()]; ASCII letters *)
Definition lower_c (a : ascii) : ascii :=
  let n := nat_of_ascii a in if (65 <=? n)%nat && (n <=? 90)%nat then ascii_of_nat (n + 32) else a.
Fixpoint lower (s : string) : string :=
  match s with EmptyString => "" | String a s' => String (lower_c a) (lower s') end.

Definition is_str (s : string) (v : option pyv) : bool := match v with Some (PStr t) => String.eqb t s | _ => false end.
(** wavelets.py:411-420 [process_dtype]; [norm] missing is 'bandpass' *)
Definition energy (opts : dict pyv) : bool := is_str "energy" (dget "norm" opts).
Definition set_dtype (d : option string) (opts : dict pyv) : option string * dict pyv :=
  if energy opts then (Some "float64", dset "dtype" (PStr "float64") opts)
  else match d with
       | Some s => (d, dset "dtype" (PStr s) opts)
       | None => (None, opts)
       end.

(** keyword parameters of the wavelet functions, wavelets.py:498, 533, 566, 589, _gmw.py:23 *)
Definition parameters (name : string) : list string :=
  if String.eqb name "gmw" then ["gamma"; "beta"; "norm"; "order"; "centered_scale"; "dtype"]
  else if String.eqb name "morlet" then ["mu"; "dtype"]
  else if String.eqb name "bump" then ["mu"; "s"; "om"; "dtype"]
  else if String.eqb name "cmhat" then ["mu"; "s"; "dtype"]
  else ["mu"; "dtype"].

Section Init.
(** [str] of an object in a dictionary that is a type or an [np.dtype], else [None] *)
Variable typestr : nat -> option string.
(** what else the wavelet function checks, e.g. _gmw.py:748-773 *)
Variable checks : string -> dict pyv -> res unit.
(** the parsed configs.ini *)
Variable G : config.

(** wavelets.py:486-495 [_process_params_dtype]: the parameters' dtype.  [dtype=None] (only if
    configs.ini has no dtype) takes that of the first parameter: not modelled.  A name NumPy does
    not know makes [astype] raise; other known names are not modelled. *)
Definition params_dtype (v : option pyv) : res string :=
  match v with
  | Some (PStr s) => process_dtype (DStr s)
  | Some (PObj n) =>
      match typestr n with
      | None => Err TypeError
      | Some s => if one_of (after_dot s) dtypes then Ok (after_dot s)
                  else if one_of (after_dot s) ["float32'>"; "float64'>"] then Err TypeError
                  else Err NotModelled
      end
  | Some PNone | None => Err NotModelled
  | Some _ => Err TypeError
  end.
(** wavelets.py:537-543 [bump]: the complex dtype; no [_process_dtype].  ['float' in dtype] of an
    object that is no string raises. *)
Definition bump_dtype (v : option pyv) : res string :=
  match v with
  | Some (PStr s) =>
      if one_of s ["float32"; "complex64"] then Ok "float32"
      else if one_of s ["float64"; "complex128"] then Ok "float64"
      else if one_of s ["float32'>"; "float64'>"] then Err ValueError     (* [int("64'>")] *)
      else Err NotModelled
  | Some PNone | None => Err NotModelled
  | Some _ => Err TypeError
  end.
(** [gmw( **opts)] etc. followed by [set_dtype_from_out] (wavelets.py:422-429): the dtype of what the
    function returns, for [bump] the real dtype of that width.  Simplified: the returned array has
    the dtype of the parameters, for which the source casts them (wavelets.py:514-516). *)
Definition make_fn (name : string) (opts : dict pyv) : res string :=
  if negb (forallb (fun k => one_of k (parameters name)) (keys opts)) then Err TypeError
  else
    do _ <- checks name opts ;
    if String.eqb name "bump" then bump_dtype (dget "dtype" opts) else params_dtype (dget "dtype" opts).

(** ** the [wavelet] argument *)
(** first entry of a tuple: a string, or an object (hashable or not) *)
Inductive first := FName (s : string) | FObj (hashable : bool).
Inductive wspec :=
| SFun (out : res string)            (* a function; [str] of the dtype it returns on float32 [[1.]] *)
| SName (s : string)
| STuple (f : first) (opts : dict pyv)
| SBad.                              (* any other object or tuple *)
Inductive wfn := User | Builtin (name : string).
Record wavelet := W { w_fn : wfn; w_config : dict pyv; w_dtype : string }.

(** keyword names [gdefaults] has itself: given twice, it raises *)
Definition reserved : list string := ["module_and_obj"; "get_all"; "as_dict"; "default_order"].
(** wavelets.py:452-454: the options with the defaults of configs.ini *)
Definition with_defaults (name : string) (opts : dict pyv) : res (dict pyv) :=
  if existsb (fun k => one_of k reserved) (keys opts) then Err TypeError
  else Ok (gd_dict G (if String.eqb name "gmw" then "_gmw" else "wavelets") name true true opts).
(** wavelets.py:456-470 *)
Definition finish (name : string) (d : option string) (opts : dict pyv) : res wavelet :=
  let '(d, opts) := set_dtype d opts in
  if negb (one_of name supported) then Err ValueError
  else
    do out <- make_fn name opts ;
    Ok (W (Builtin name) opts (match d with Some s => s | None => out end)).
(** wavelets.py:410-470, 422-429.  A complex128 (64) output counts as float64 (32); other dtypes are
    taken as they are *)
Definition real_of (out : string) : string :=
  if String.eqb out "complex64" then "float32" else if String.eqb out "complex128" then "float64" else after_dot out.
Definition validate (s : wspec) (d : option string) : res wavelet :=
  match s with
  | SFun out => do o <- out ; Ok (W User [] (real_of o))
  | SName n => do opts <- with_defaults (lower n) [] ; finish (lower n) d opts
  | STuple (FName n) opts => do opts <- with_defaults (lower n) opts ; finish (lower n) d opts
  | STuple (FObj true) _ => Err ValueError
  | STuple (FObj false) _ => Err TypeError
  | SBad => Err TypeError
  end.
(** wavelets.py:54-59 [__init__]; [N] is left out *)
Definition init (s : wspec) (d : option dtype_arg) : res wavelet :=
  match d with
  | None => validate s None
  | Some d => do ds <- process_dtype d ; validate s (Some ds)
  end.
(** the caller's dictionary after the call: [gdefaults] works on a copy, but without a name
    [process_dtype] writes to the caller's (wavelets.py:411-420) *)
Definition opts_after (s : wspec) (d : option dtype_arg) : dict pyv :=
  match s with
  | STuple (FName _) opts => opts
  | STuple (FObj _) opts =>
      match d with
      | None => snd (set_dtype None opts)
      | Some d => match process_dtype d with
                  | Ok ds => snd (set_dtype (Some ds) opts)
                  | Err _ => opts
                  end
      end
  | _ => []
  end.

(** ** [cwt_higher_order._process_wavelet], _cwt.py:551-560 *)
(** [d.pop(k)] *)
Definition dpop (k : string) (d : dict pyv) : res (dict pyv) :=
  if has k d then Ok (filter (fun kv => negb (String.eqb k (fst kv))) d) else Err KeyError.
(** [name_gmw]: whether the name of a user's function starts with 'gmw' (any case) *)
Definition is_gmw (name_gmw : bool) (w : wavelet) : bool :=
  match w_fn w with User => name_gmw | Builtin n => String.eqb n "gmw" end.
Fixpoint map_res {A B} (f : A -> res B) (l : list A) : res (list B) :=
  match l with
  | [] => Ok []
  | x :: l => do y <- f x ; do ys <- map_res f l ; Ok (y :: ys)
  end.
(** [order]: the requested orders as objects *)
Definition order_wavelets (name_gmw : bool) (w : wavelet) (order : list pyv) : res (list wavelet) :=
  if negb (is_gmw name_gmw w) then Err ValueError
  else
    do rest <- dpop "order" (w_config w) ;
    map_res (fun k => init (STuple (FName "gmw") (("order", k) :: rest)) None) order.
End Init.
