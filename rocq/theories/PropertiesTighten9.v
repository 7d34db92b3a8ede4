(** Which grids of plots draw everything. *)
From Coq Require Import List.
Import ListNotations.
From Verif Require Import Py Visuals VisualsThms Tighten9.

(** * C137: plots draws every pair *)

(** ncols (or nrows) given: the pairs of the whole rows are drawn, or those of one row if there is none *)
Theorem C137_given_partial (A B : Type) (X : list A) (Y : list B) c : (1 <= c)%nat -> (2 <= Nat.max c (length X / c * c))%nat ->
  plots X (Some Y) None (Some c) = Ok (firstn (Nat.max c (length X / c * c)) (both X Y)) /\
  plots X (Some Y) (Some c) None = Ok (firstn (Nat.max c (length X / c * c)) (both X Y)).
Proof. exact (plots_given A B  X  Y  c). Qed.
Print Assumptions C137_given_partial.

(** so every pair is drawn exactly if the pairs fill whole rows, or do not fill one *)
Theorem C137_exactly_partial (A B : Type) (X : list A) (Y : list B) c : length Y = length X -> (1 <= c)%nat -> (2 <= Nat.max c (length X / c * c))%nat ->
  (plots X (Some Y) None (Some c) = Ok (both X Y) <-> length X mod c = 0 \/ length X < c)%nat.
Proof. exact (plots_all_iff A B  X  Y  c). Qed.
Print Assumptions C137_exactly_partial.

(** six pairs in rows of three; of five pairs in two columns four are drawn *)
Example C137_given_case : plots [1; 2; 3; 4; 5; 6]%nat (Some [10; 20; 30; 40; 50; 60]%nat) None (Some 3%nat) =
  Ok [(1, Some 10); (2, Some 20); (3, Some 30); (4, Some 40); (5, Some 50); (6, Some 60)]%nat /\
  plots [1; 2; 3; 4; 5]%nat (Some [10; 20; 30; 40; 50]%nat) (Some 2%nat) None = Ok [(1, Some 10); (2, Some 20); (3, Some 30); (4, Some 40)]%nat.
Proof. exact plots_given_case. Qed.
