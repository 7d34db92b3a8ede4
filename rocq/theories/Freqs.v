(** Model of the frequency layout helpers, ssqueezepy/wavelets.py. *)
From Verif Require Import Py Buffer Cplx.
Local Open Scope R_scope.

(** wavelets.py:474-484 [_xifn]: integer bin index of entry [i], then times [h]. *)
Definition xi_bin (N : nat) (i : nat) : Z :=
  if (i <? N / 2 + 1)%nat then Z.of_nat i else (Z.of_nat i - Z.of_nat N)%Z.
Definition xifn (scale : R) (N : nat) : list R :=
  let h := scale * (2 * PI) / INR N in
  tab N (fun i => IZR (xi_bin N i) * h).

(** wavelets.py:932-947 [afftshift]; the two loops write disjoint index ranges. *)
Definition afftshift {A} (d : A) (xh : list A) : list A :=
  let N := length xh in
  if (N mod 2 =? 0)%nat then
    tab N (fun i => if (i <? N / 2 + 1)%nat then nth (i + N / 2 - 1) xh d
                    else nth (i - N / 2 - 1) xh d)
  else fftshift xh.

(** wavelets.py:950-964 [aifftshift]: scatter loops, modelled as successive writes. *)
Definition lset {A} (l : list A) (k : nat) (v : A) : list A :=
  firstn k l ++ match skipn k l with [] => [] | _ :: t => v :: t end.
Definition aifftshift {A} (zero : A) (xh : list A) : list A :=
  let N := length xh in
  if (N mod 2 =? 0)%nat then
    let xhs0 := repeat zero N in
    let xhs1 := fold_left (fun l i => lset l (i + N / 2 - 1) (nth i xh zero))
                          (seq 0 (N / 2 + 1)) xhs0 in
    fold_left (fun l i => lset l (i - N / 2 - 1) (nth i xh zero))
              (seq (N / 2 + 1) (N - (N / 2 + 1))) xhs1
  else ifftshift xh.
