(** algos.py [nCk] and _gmw.py [_moments_to_cumulants].  Exact arithmetic: [nCk] divides two
    exact integers; the rounding of the quotient is not modelled. *)
From Coq Require Import Reals Lra.
From Verif Require Import Py Cplx.
Local Open Scope R_scope.

(** [reduce(mul, l, 1)] *)
Definition prodZ (l : list Z) : Z := fold_left Z.mul l 1%Z.
(** [range(a, b)] and [range(a, b, -1)] *)
Definition range_up (a b : Z) : list Z := map (fun i => a + Z.of_nat i)%Z (seq 0 (Z.to_nat (b - a))).
Definition range_down (a b : Z) : list Z := map (fun i => a - Z.of_nat i)%Z (seq 0 (Z.to_nat (a - b))).

(** algos.py:13-19 [nCk] *)
Definition nCk (n k : Z) : R :=
  let r := Z.min k (n - k) in
  IZR (prodZ (range_down n (n - r))) / IZR (prodZ (range_up 1 (r + 1))).

(** _gmw.py:738-744, the body of the outer loop: [cumulants[n]] from the earlier ones *)
Definition cumulant_next (moments cumulants : list R) (n : nat) : R :=
  let m i := nth i moments 0 in
  let coeff := fold_left (fun c k =>
    c + nCk (Z.of_nat n - 1) (Z.of_nat k - 1) * nth k cumulants 0 * (m (n - k)%nat / m 0%nat))
    (seq 1 (n - 1)) 0 in
  m n / m 0%nat - coeff.
(** _gmw.py:721-745 [_moments_to_cumulants]: [cumulants] built entry by entry; an empty list
    is an IndexError.  [ln] of a negative zeroth moment (nan) is not modelled. *)
Fixpoint cumulants_upto (moments : list R) (n : nat) : list R :=
  match n with
  | O => [ln (nth 0 moments 0)]
  | S n' => let c := cumulants_upto moments n' in c ++ [cumulant_next moments c n]
  end.
Definition moments_to_cumulants (moments : list R) : res (list R) :=
  match moments with
  | [] => Err IndexError
  | _ => Ok (cumulants_upto moments (length moments - 1))
  end.
