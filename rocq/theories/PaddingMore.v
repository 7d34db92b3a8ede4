(** 'symmetric' padding much longer than the signal. *)
From Coq Require Import ZArith List Lia.
From Verif Require Import Py Padding.
Import ListNotations.
Local Open Scope Z_scope.

Lemma padsignal_sym_long_ext_refuted :
  exists (x : list Z) xp n_up n1 n2, x <> [] /\
    padsignal 0 x PSymmetric (Some 11) = Ok (xp, n_up, n1, n2) /\ 0 < n1 /\ n1 < Z.of_nat (length xp) /\
    nth (Z.to_nat (n1 - 1)) xp 0 <> nth (Z.to_nat n1) xp 0.
Proof.
  exists [1; 2; 3], [3; 2; 1; 1; 2; 3; 3; 2; 1], 11, 4, 4.
  vm_compute. repeat split; congruence.
Qed.
