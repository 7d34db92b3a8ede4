(** visuals.py [plots]: which grids draw everything. *)
From Coq Require Import List Lia ZifyBool ZifyNat.
Import ListNotations.
From Verif Require Import Py Visuals VisualsThms.
Ltac Zify.zify_post_hook ::= Z.div_mod_to_equations.

Definition both {A B} (X : list A) (Y : list B) : list (A * option B) := map (fun p => (fst p, Some (snd p))) (combine X Y).
Lemma both_some {A B} (X : list A) (Y : list B) : combine X (map Some Y) = both X Y.
Proof. unfold both. revert Y. induction X as [|a X IH]; intros [|b Y]; cbn [combine map]; [reflexivity..|]. rewrite IH. reflexivity. Qed.
(** [ncols] given, [nrows] not; the same with the two exchanged *)
Theorem plots_given (A B : Type) (X : list A) (Y : list B) c : (1 <= c)%nat -> (2 <= Nat.max c (length X / c * c))%nat ->
  plots X (Some Y) None (Some c) = Ok (firstn (Nat.max c (length X / c * c)) (both X Y)) /\
  plots X (Some Y) (Some c) None = Ok (firstn (Nat.max c (length X / c * c)) (both X Y)).
Proof.
  intros Hc H. set (k := (length X / c)%nat) in *. assert (E : (Nat.max k 1 * c = Nat.max c (k * c))%nat) by (destruct k; lia).
  unfold plots, grid_dims. fold k. rewrite (proj2 (Nat.eqb_neq c 0)) by lia. cbn [bind].
  rewrite (proj2 (Nat.eqb_neq (Nat.max k 1) 0)) by lia. rewrite (proj2 (Nat.eqb_neq c 0)) by lia. cbn [orb].
  rewrite (Nat.mul_comm c (Nat.max k 1)), E. rewrite (proj2 (Nat.eqb_neq _ 1)) by lia. rewrite both_some. split; reflexivity.
Qed.
(** everything is drawn exactly if the items fill whole rows, or do not fill one *)
Theorem plots_all_iff (A B : Type) (X : list A) (Y : list B) c : length Y = length X -> (1 <= c)%nat -> (2 <= Nat.max c (length X / c * c))%nat ->
  (plots X (Some Y) None (Some c) = Ok (both X Y) <-> length X mod c = 0 \/ length X < c)%nat.
Proof.
  intros HL Hc H. rewrite (proj1 (plots_given A B X Y c Hc H)).
  assert (Hb : length (both X Y) = length X) by (unfold both; rewrite map_length, combine_length; lia).
  pose proof (Nat.div_mod (length X) c ltac:(lia)) as D. pose proof (Nat.mod_upper_bound (length X) c ltac:(lia)) as M.
  rewrite (Nat.mul_comm c) in D. set (k := (length X / c)%nat) in *. set (m := (length X mod c)%nat) in *. clearbody k m. assert (Hk : (k = 0 \/ c <= k * c)%nat) by (destruct k; [left; reflexivity|right; cbn; lia]). set (p := (k * c)%nat) in *.
  assert (Hz : (k = 0 -> p = 0)%nat) by (intros ->; reflexivity). clearbody p. split.
  - intros E. injection E as E. apply (f_equal (@length _)) in E. rewrite firstn_length, Hb in E.
    destruct (Nat.eq_dec m 0) as [|Hm]; [left; assumption|right]. lia.
  - intros H'. f_equal. apply firstn_all2. rewrite Hb. lia.
Qed.
Lemma plots_given_case : plots [1; 2; 3; 4; 5; 6]%nat (Some [10; 20; 30; 40; 50; 60]%nat) None (Some 3%nat) =
  Ok [(1, Some 10); (2, Some 20); (3, Some 30); (4, Some 40); (5, Some 50); (6, Some 60)]%nat /\
  plots [1; 2; 3; 4; 5]%nat (Some [10; 20; 30; 40; 50]%nat) (Some 2%nat) None = Ok [(1, Some 10); (2, Some 20); (3, Some 30); (4, Some 40)]%nat.
Proof.
  split; [refine (eq_trans (proj1 (plots_given _ _ _ _ 3 _ _)) _)|refine (eq_trans (proj2 (plots_given _ _ _ _ 2 _ _)) _)]; try reflexivity; cbn; lia.
Qed.
