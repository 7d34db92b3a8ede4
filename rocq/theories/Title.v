(** _test_signals.py:593-616 [TestSignals._title] and 617-624 [_process_varname_alias]: the
    parameters a title shows.  Numbers are reals (an integer float is printed as the integer, 604-606);
    the SNR's rounding to one decimal, the joining into text and the wrapping are left out. *)
From Coq Require Import Ascii String Reals.
From Verif Require Import Py Config MakeSignals.
Local Open Scope R_scope.
Local Open Scope string_scope.

(** 617-624.  One pass over the copy; a key occurs once. *)
Definition is_chirp (signal : string) : bool :=
  existsb (fun s => contains s signal) ["lchirp"; "echirp"; "hchirp"].
Definition process_varname_alias (signal : string) (N : Z) (fparams : dict pyv) : dict pyv :=
  match dget "fmax" fparams with
  | Some PNone => if is_chirp signal then dset "fmax" (PFloat (IZR N / 2)) fparams else fparams
  | _ => fparams
  end.
(** Python's truth of a value *)
Definition truth (v : pyv) : bool :=
  match v with
  | PNone => false
  | PBool b => b
  | PFloat r => if Req_EM_T r 0 then false else true
  | PStr s => negb (String.eqb s "")
  | PObj _ => true
  end.
(** 595-606: what is shown, in order; [dict(N=N, **fparams)] with another [N] raises *)
Definition shown (signal : string) (N : Z) (fparams : dict pyv) : res (dict pyv) :=
  let f := process_varname_alias signal N fparams in
  let snr := dget "snr" f in
  let f := dpop "snr" f in
  let head := ("N", PFloat (IZR N)) ::
              match snr with Some v => if truth v then [("SNR", v)] else [] | None => [] end in
  if existsb (fun k => has k f) (keys head) then Err TypeError else Ok (head ++ f)%list.
