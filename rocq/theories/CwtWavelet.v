(** _cwt.py [_process_gmw_wavelet] and the choice of the wavelet in [cwt] and
    [cwt_higher_order]: which normalisation of the GMW a call uses, and what it leaves in the
    caller's dictionary.  CPU only. *)
From Coq Require Import Ascii String Reals.
From Verif Require Import Py Config WaveletInit.
Local Open Scope string_scope.

(** [s.lower()[:3] == 'gmw'] *)
Definition starts_gmw (s : string) : bool := String.eqb (substring 0 3 (lower s)) "gmw".

(** _cwt.py:499 *)
Definition norm_of (l1_norm : bool) : string := if l1_norm then "bandpass" else "energy".

(** _cwt.py:506: [wavopts['norm'] = wavopts.get('norm', norm)], in the caller's dictionary *)
Definition put_norm (l1_norm : bool) (opts : dict pyv) : dict pyv :=
  dset "norm" (match dget "norm" opts with Some v => v | None => PStr (norm_of l1_norm) end) opts.

(** _cwt.py:497-514 for anything but an instance.  A tuple whose first entry is no string has no
    [lower]; a tuple of another length is not modelled apart from other bad objects, which
    [Wavelet] refuses. *)
Definition process_gmw (s : wspec) (l1_norm : bool) : res wspec :=
  match s with
  | SName n => Ok (if starts_gmw n then STuple (FName "gmw") [("norm", PStr (norm_of l1_norm))] else s)
  | STuple (FName n) opts => Ok (if starts_gmw n then STuple (FName n) (put_norm l1_norm opts) else s)
  | STuple (FObj _) _ => Err AttributeError
  | SFun _ | SBad => Ok s
  end.
(** the caller's dictionary afterwards (the later call of [Wavelet] leaves it alone, C97) *)
Definition caller_after (s : wspec) (l1_norm : bool) : wspec :=
  match s with
  | STuple (FName n) opts => if starts_gmw n then STuple (FName n) (put_norm l1_norm opts) else s
  | _ => s
  end.

(** [k == 0], _gmw.py:126 *)
Definition order0 (opts : dict pyv) : bool :=
  match dget "order" opts with
  | Some (PFloat x) => if Req_EM_T x 0 then true else false
  | Some (PBool b) => negb b
  | _ => false
  end.
(** wavelets.py:967-976 [_fn_to_name] of the function _gmw.py:126-131 chooses: [gmw_l1],
    [gmw_l2], [gmw_l1_k] or [gmw_l2_k] *)
Definition gmw_name (opts : dict pyv) : string :=
  (if is_str "bandpass" (dget "norm" opts) then "GMW L1" else "GMW L2") ++
  (if order0 opts then "" else " K").

Section Args.
Variable typestr : nat -> option string.
Variable checks : string -> dict pyv -> res unit.
Variable G : config.

Inductive warg := AInst (w : wavelet) | ASpec (s : wspec).

(** _cwt.py:509-513; [user]: the name of a user's function *)
Definition check_instance (user : string) (w : wavelet) (l1_norm : bool) : res unit :=
  let name := match w_fn w with
              | User => user
              | Builtin n => if String.eqb n "gmw" then gmw_name (w_config w) else n
              end in
  if String.eqb name "GMW L2" && l1_norm then Err ValueError
  else if String.eqb name "GMW L1" && negb l1_norm then Err ValueError
  else Ok tt.

(** the wavelet [cwt] transforms with, [order=0]: _cwt.py:245-246 *)
Definition cwt_wavelet (user : string) (a : warg) (l1_norm : bool) : res wavelet :=
  match a with
  | AInst w => do _ <- check_instance user w l1_norm; Ok w
  | ASpec s => do s' <- process_gmw s l1_norm; init typestr checks G s' None
  end.

(** [cwt] with [order > 0] or a tuple: _cwt.py:233-239, 551-592.  [l1_norm] only reaches the
    call for each order. *)
Definition cwt_wavelets (user : string) (name_gmw : bool) (a : warg) (order : list pyv)
  (l1_norm : bool) : res (list wavelet) :=
  do w <- match a with AInst w => Ok w | ASpec s => init typestr checks G s None end;
  do ws <- order_wavelets typestr checks G name_gmw w order;
  map_res (fun w => cwt_wavelet user (AInst w) l1_norm) ws.
End Args.
