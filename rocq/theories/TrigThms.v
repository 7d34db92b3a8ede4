(** [trigdiff] of an array that is already padded. *)
From Coq Require Import Reals Lra Lia ZifyBool ZifyNat.
From Verif Require Import Py Cplx CplxProofs Padding PaddingProofs Freqs Squeeze Cwt CwtProofs CwtThms CwtThms2.
Local Open Scope R_scope.

(** padding first and passing [rpadded=True] and [N] is passing [padtype] and [N] *)
Theorem trigdiff_rpadded A A' k p fs : pad_mat p A = Ok (A', k) ->
  trigdiff A' fs None (Some true) (Some (Z.of_nat (ncols A))) None =
  trigdiff A fs (Some p) None (Some (Z.of_nat (ncols A))) None.
Proof.
  intros E. unfold trigdiff. rewrite E. cbn [bind orb]. unfold pad_mat in E.
  destruct (ncols A =? 0)%nat; [discriminate E|]. destruct (pad_mat_rows _ _) as [rows|]; [|discriminate E]. cbn [bind] in E.
  destruct (p2up (Z.of_nat (ncols A))) as [[u n1] n2]. injection E as _ <-. reflexivity.
Qed.
