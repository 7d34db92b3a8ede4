(** The two fixed polynomial test signals of _test_signals.py. *)
From Coq Require Import Reals Lra ZifyBool ZifyNat.
From Verif Require Import Py Round Squeeze Scales Search Chirp Signals.
Local Open Scope R_scope.

(** [t**p] on an array, [p > 0]: [Rpower 0 p] is not 0 *)
Definition frac_pow (t p : R) : R := if Req_EM_T t 0 then 0 else Rpower t p.

(** _test_signals.py:426-446 [packed_poly]; the keywords are accepted and not read *)
Definition packed_poly_at (N : Z) (t : R) : R :=
  let adj := IZR N / 512 in
  let k1 := 10 * adj in let k2 := 24 / 10 * adj in let k3 := 48 / 10 * adj in
  let x1 := (1 + 3 / 10 * cos t) * cos (2 * PI * (k1 * t - 3 / 10 * adj * sin t - 18 / 10 * adj * frac_pow t (15 / 10))) in
  let x2 := (1 + 2 / 10 * cos (2 * t)) * exp (- t / 15) *
            cos (2 * PI * (k2 * t + 5 / 10 * adj * frac_pow t (12 / 10) + 3 / 10 * sin t)) in
  let x3 := cos (2 * PI * (k3 * t + 2 / 10 * adj * frac_pow t (13 / 10))) in
  x1 + x2 + x3.
Definition packed_poly (s : tself) (N : option Z) (k : tkws) : res (list R * list R) :=
  let N := or_N s N in
  do t <- times 0 10 N true;
  Ok (map (packed_poly_at N) t, t).

(** [np.polyval], [np.polyint] (constant 0), highest power first *)
Definition polyval (p : list R) (t : R) : R := fold_left (fun y c => y * t + c) p 0.
Definition polyint (p : list R) : list R :=
  (tab (length p) (fun i => nth i p 0 / INR (length p - i)) ++ [0])%list.
(** [scipy.signal.sweep_poly(t, p)], from its documentation: the cosine of 2 pi times the integral of [p] *)
Definition sweep_poly (p : list R) (t : R) : R := cos (2 * PI * polyval (polyint p) t).
(** _test_signals.py:448-462 [poly_cubic] *)
Definition poly_cubic_at (N : Z) (t : R) : R :=
  let scaled := map (fun c => c * (IZR N / 256)) in
  let x1 := sweep_poly (scaled [25 / 1000; - 36 / 100; 125 / 100; 2]) t in
  let x3 := sweep_poly (scaled [1 / 100; - 25 / 100; 15 / 10; 4]) t in
  let x2 := sin (2 * PI * (5 / 10 * IZR N / 256) * t) in
  x1 + x2 + x3.
Definition poly_cubic (s : tself) (N : option Z) (k : tkws) : res (list R * list R) :=
  let N := or_N s N in
  do t <- times 0 10 N true;
  Ok (map (poly_cubic_at N) t, t).
