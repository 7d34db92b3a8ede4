(** Complex numbers as pairs of reals, finite sums, discrete Fourier transforms.
    The transforms are numpy/scipy's [fft], [ifft], [rfft], [irfft] by their documented
    formulas, in exact real arithmetic. *)
From Coq Require Export Reals Lra.
From Verif Require Import Py.
Local Open Scope R_scope.

Definition C : Type := (R * R)%type.
Definition Re (z : C) : R := fst z.
Definition Im (z : C) : R := snd z.
Definition RtoC (x : R) : C := (x, 0).
Definition C0 : C := (0, 0).
Definition C1 : C := (1, 0).
Definition Ci : C := (0, 1).
Definition Cadd (a b : C) : C := (fst a + fst b, snd a + snd b).
Definition Copp (a : C) : C := (- fst a, - snd a).
Definition Csub (a b : C) : C := Cadd a (Copp b).
Definition Cmul (a b : C) : C :=
  (fst a * fst b - snd a * snd b, fst a * snd b + snd a * fst b).
Definition Cconj (a : C) : C := (fst a, - snd a).
Definition Cnorm2 (a : C) : R := fst a * fst a + snd a * snd a.
Definition Cabs (a : C) : R := sqrt (Cnorm2 a).
Definition Cinv (a : C) : C := (fst a / Cnorm2 a, - snd a / Cnorm2 a).
Definition Cdiv (a b : C) : C := Cmul a (Cinv b).
Definition cis (t : R) : C := (cos t, sin t).

Declare Scope C_scope.
Delimit Scope C_scope with C.
Bind Scope C_scope with C.
Infix "+" := Cadd : C_scope.
Infix "-" := Csub : C_scope.
Infix "*" := Cmul : C_scope.
Infix "/" := Cdiv : C_scope.
Notation "- x" := (Copp x) : C_scope.

(** finite sums: [f 0 + f 1 + ... + f (n-1)] *)
Fixpoint Rsum (n : nat) (f : nat -> R) : R :=
  match n with O => 0 | S n' => Rsum n' f + f n' end.
Fixpoint Csum (n : nat) (f : nat -> C) : C :=
  match n with O => C0 | S n' => Cadd (Csum n' f) (f n') end.

(** [exp(2j*pi*k/n)] *)
Definition tw (n : nat) (k : Z) : C := cis (2 * PI * IZR k / INR n).

(** [fft], [ifft] of a length-[n] array *)
Definition dft (n : nat) (x : nat -> C) (k : nat) : C :=
  Csum n (fun m => Cmul (x m) (tw n (- (Z.of_nat k * Z.of_nat m)))).
Definition idft (n : nat) (X : nat -> C) (m : nat) : C :=
  Cmul (RtoC (/ INR n)) (Csum n (fun k => Cmul (X k) (tw n (Z.of_nat k * Z.of_nat m)))).

(** [rfft]: bins 0..n/2 of the transform of a real array *)
Definition rfft_len (n : nat) : nat := (n / 2 + 1)%nat.
Definition rfft (n : nat) (x : nat -> R) (k : nat) : C := dft n (fun m => RtoC (x m)) k.

(** [irfft(X, n=n)]: the Hermitian extension of bins 0..n/2; the imaginary parts of the
    zero and (even [n]) Nyquist bins are ignored, as pocketfft/numpy do. *)
Definition hermit (n : nat) (X : nat -> C) (k : nat) : C :=
  if (k =? 0)%nat then RtoC (Re (X 0%nat))
  else if (2 * k =? n)%nat then RtoC (Re (X k))
  else if (2 * k <? n)%nat then X k
  else Cconj (X (n - k)%nat).
Definition irfft (n : nat) (X : nat -> C) (m : nat) : R := Re (idft n (hermit n X) m).
