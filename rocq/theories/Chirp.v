(** _test_signals.py: phase and instantaneous angular frequency of the chirps, as functions of
    time.  Real arithmetic; [**] with a real exponent is [Rpower] (positive bases only). *)
From Coq Require Import Reals Lra.
From Verif Require Import Py.
Local Open Scope R_scope.

(** phase, angular frequency *)
Definition chirp := ((R -> R) * (R -> R))%type.

(** _test_signals.py:199-208 [_lchirp_fn] *)
Definition lchirp (tmin tmax fmin fmax : R) : chirp :=
  let a := (fmin - fmax) / (tmin - tmax) in
  let b := (fmin * tmax - fmax * tmin) / (tmax - tmin) in
  (fun t => (a / 2 * (t ^ 2 - tmin ^ 2) + b * (t - tmin)) * (2 * PI),
   fun t => (a * t + b) * (2 * PI)).

(** 219-228 [_echirp_fn]: [1/tmax] raises for [tmax == 0] *)
Definition echirp (tmin tmax fmin fmax : R) : res chirp :=
  let a := Rpower (Rpower fmin tmax / Rpower fmax tmin) (1 / (tmax - tmin)) in
  if Req_EM_T tmax 0 then Err ZeroDivisionError
  else
    let b := Rpower fmax (1 / tmax) * Rpower (1 / a) (1 / tmax) in
    Ok (fun t => a / ln b * (Rpower b t - Rpower b tmin) * (2 * PI),
        fun t => a * Rpower b t * (2 * PI)).

(** 241-251 [_echirp_pc_fn] *)
Definition echirp_pc (tmin tmax fmin fmax : R) : chirp :=
  let A := (fmax - fmin) / (exp tmax - exp tmin) in
  let B := (fmin * exp tmax - fmax * exp tmin) / (exp tmax - exp tmin) in
  (fun t => (A * (exp t - exp tmin) + B * (t - tmin)) * (2 * PI),
   fun t => (A * exp t + B) * (2 * PI)).

(** 266-282 [_hchirp_fn] *)
Definition hchirp (tmin tmax fmin fmax : R) : chirp :=
  let a := fmin in let b := fmax in let c := tmin in let d := tmax in
  let AN := 2 * sqrt (a ^ 3 * b ^ 3 * (c - d) ^ 4) + a ^ 2 * b * (c - d) ^ 2 + a * b ^ 2 * (c - d) ^ 2 in
  let AD := (a - b) ^ 2 in
  let BN := sqrt (a ^ 3 * b ^ 3 * (c - d) ^ 4) + a ^ 2 * b * c * (c - d) + a * b ^ 2 * d * (d - c) in
  let BD := a * b * (a - b) * (c - d) in
  let A := AN / AD in
  let B := BN / BD in
  (fun t => A * (1 / (B - t) + 1 / (tmin - B)) * (2 * PI),
   fun t => A / (B - t) ^ 2 * (2 * PI)).
