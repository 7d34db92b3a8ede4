(** Components of a noisy signal by [issq_stft]. *)
From Coq Require Import Reals Lra Lia List ZifyBool ZifyNat.
Import ListNotations.
From Verif Require Import Py Round Padding Parallel Cplx CplxProofs Buffer Freqs Stft StftProofs WindowProofs Separate SsqRoundTrip
  Squeeze SqueezeProofs SqueezeThms SqueezeThms2 SqueezeThms3 Scales Ssqueeze SsqueezeProofs SsqThms CwtTone IssqProofs StftTone StftToneThms StftToneWitness StftMap StftChord StftChordThms
  StftStable2 CwtThms StftRidge NoiseRidge NoiseRidgeWit NoiseSsq NoiseSsqWit NoiseComp.
Local Open Scope R_scope.
Ltac Zify.zify_post_hook ::= Z.div_mod_to_equations.

Lemma Re_Csum N (f : nat -> C) : Re (Csum N f) = Rsum N (fun q => Re (f q)).
Proof. induction N as [|N IH]; [reflexivity|]. cbn [Csum Rsum]. rewrite <- IH. reflexivity. Qed.

(** each band's component and the residual, when every set of rows of [Tx] holds, up to [E], the [v r] whose rows are in it *)
Lemma comp_near Tx w n M N (row : nat -> nat) (v : nat -> nat -> C) E wa nf wl f32 cc cw :
  nrows Tx = (n / 2 + 1)%nat -> ncols Tx = N -> (1 <= N)%nat -> (2 <= n)%nat -> length w = n -> nth (n / 2) w 0 <> 0 -> (0 < M)%nat ->
  (forall r, (r < M)%nat -> (row r <= n / 2)%nat) -> (forall r r', (r < M)%nat -> (r' < M)%nat -> r <> r' -> row r <> row r') ->
  (forall (Q : nat -> bool) h, (h < N)%nat ->
     Cabs (Csub (Csum (n / 2 + 1) (fun q => if Q q then el Tx q h else C0)) (Csum M (fun r => if Q (row r) then v r h else C0))) <= E) ->
  or_default nf (2 * Z.of_nat (n / 2))%Z = Z.of_nat n -> get_window wa (or_default wl (Z.of_nat n)) (Z.of_nat n) = Ok w ->
  nrows cc = N -> ncols cc = M -> nrows cw = N -> ncols cw = M ->
  (forall j r, (j < N)%nat -> (r < M)%nat -> (0 <= el cc j r)%Z /\ (Z.abs (el cc j r - Z.of_nat (row r)) <= el cw j r)%Z) ->
  (forall j r r', (j < N)%nat -> (r < M)%nat -> (r' < M)%nat -> r' <> r -> (el cw j r < Z.abs (el cc j r - Z.of_nat (row r')))%Z) ->
  exists xs, issq_stft Tx wa (Some (cc, cw)) nf wl 1 true f32 = Ok (Many xs) /\ length xs = S M /\
    forall j, (j < N)%nat ->
      (forall r, (r < M)%nat -> Rabs (nth j (nth r xs []) 0 - 2 / nth (n / 2) w 0 * Re (v r j)) <= 2 / Rabs (nth (n / 2) w 0) * E) /\
      Rabs (nth j (nth M xs []) 0) <= 2 / Rabs (nth (n / 2) w 0) * E.
Proof.
  intros RT HC HN Hn Hlw Hg' HM Hrow Hinj HQ Hnf' Hw' Hc1 Hc2 Hw1 Hw2 Hband Hother.
  destruct (invert_components Tx cc cw) as [ys|] eqn:EI.
  2:{ exfalso. unfold invert_components in EI. rewrite Hc2, Hc1, Hw1, Hw2, HC, !Nat.ltb_irrefl, !Nat.eqb_refl in EI. destruct (Nat.eqb_spec M 0); [lia|]. cbn [orb negb] in EI. discriminate. }
  exists (map (map (fun y => y * (2 / nth (length w / 2) w 0))) ys). split.
  { unfold issq_stft. cbn [negb Z.eqb Pos.eqb]. rewrite RT. replace ((Z.of_nat (n / 2 + 1) - 1) * 2)%Z with (2 * Z.of_nat (n / 2))%Z by lia. rewrite Hnf'.
    rewrite Hw'. cbn [bind]. unfold check_NOLA. destruct (Z.leb_spec 1 0); [lia|]. destruct (Z.gtb_spec 1 (Z.of_nat (length w))); [lia|].
    rewrite Bool.andb_false_r. cbn [bind invert]. rewrite EI. reflexivity. }
  assert (Hyl : length ys = S M /\ forall r, (r < S M)%nat -> length (nth r ys []) = N).
  { unfold invert_components in EI. rewrite Hc2, Hc1, Hw1, Hw2, HC, !Nat.ltb_irrefl, !Nat.eqb_refl in EI. destruct (Nat.eqb_spec M 0); [lia|]. cbn [orb negb] in EI.
    apply (f_equal (fun r => match r with Ok l => l | _ => [] end)) in EI. rewrite <- EI. split.
    - rewrite app_length, map_length, seq_length. cbn [length]. lia.
    - intros r Hr. destruct (Nat.eq_dec r M) as [ ->|Hne].
      + rewrite app_nth2 by (rewrite map_length, seq_length; lia). rewrite map_length, seq_length, Nat.sub_diag. cbn [nth]. apply tab_length.
      + rewrite app_nth1 by (rewrite map_length, seq_length; lia).
        match goal with |- context [map ?F (seq 0 M)] => rewrite (nth_indep _ [] (F 0%nat)) by (rewrite map_length, seq_length; lia); rewrite (map_nth F) end. apply tab_length. }
  destruct Hyl as [Ly Lyr]. split; [rewrite map_length; exact Ly|].
  assert (Sc : forall r j, (r < S M)%nat -> (j < N)%nat -> nth j (nth r (map (map (fun y => y * (2 / nth (length w / 2) w 0))) ys) []) 0 = lrow ys r j * (2 / nth (n / 2) w 0)).
  { intros r j Hr Hj. rewrite Hlw. set (fm := fun y => y * (2 / nth (n / 2) w 0)). rewrite (nth_indep _ [] (map fm [])) by (rewrite map_length; lia). rewrite (map_nth (map fm)).
    rewrite (nth_indep _ 0 (fm 0)) by (rewrite map_length, Lyr by exact Hr; exact Hj). rewrite map_nth. reflexivity. }
  assert (Hpre : forall j r, (j < ncols Tx)%nat -> (r < ncols cc)%nat -> (-1 <= el cc j r)%Z /\ (0 <= el cw j r)%Z).
  { intros j r Hj Hr. destruct (Hband j r ltac:(lia) ltac:(lia)). lia. }
  set (g := nth (n / 2) w 0) in *.
  assert (Hga : 0 < Rabs g) by (apply Rabs_pos_lt; exact Hg').
  (* a real sum over rows, scaled *)
  assert (Sel : forall (Q : nat -> bool) j (z : C), (j < N)%nat -> Csum M (fun r => if Q (row r) then v r j else C0) = z ->
     Rabs (Rsum (n / 2 + 1) (fun q => if Q q then Re (el Tx q j) else 0) * (2 / g) - 2 / g * Re z) <= 2 / Rabs g * E).
  { intros Q j z Hj <-. specialize (HQ Q j Hj).
    replace (Rsum (n / 2 + 1) (fun q => if Q q then Re (el Tx q j) else 0)) with (Re (Csum (n / 2 + 1) (fun q => if Q q then el Tx q j else C0)))
      by (rewrite Re_Csum; apply Rsum_ext; intros q _; destruct (Q q); reflexivity).
    set (z1 := Csum (n / 2 + 1) _) in *. set (z2 := Csum M _) in *.
    replace (Re z1 * (2 / g) - 2 / g * Re z2) with (2 / g * Re (Csub z1 z2)) by (unfold Re, Csub, Copp, Cadd; cbn [fst]; ring).
    rewrite Rabs_mult. unfold Rdiv at 1. rewrite Rabs_mult, Rabs_inv, (Rabs_right 2) by lra. fold (2 / Rabs g).
    apply Rmult_le_compat_l; [apply Rlt_le, Rdiv_lt_0_compat; lra|]. eapply Rle_trans; [apply Re_le_Cabs|exact HQ]. }
  intros j Hj. split.
  - intros r Hr. rewrite Sc by lia.
    set (Q := fun q => (el cc j r - el cw j r <=? Z.of_nat q)%Z && (Z.of_nat q <=? el cc j r + el cw j r)%Z).
    rewrite (component_is_band Tx cc cw ys EI Hpre r j Q).
    + rewrite RT. apply Sel; [exact Hj|]. rewrite (Csum_single M _ r Hr).
      * destruct (Hband j r Hj Hr) as [B1 B2]. assert (Eb : Q (row r) = true) by (unfold Q; lia). rewrite Eb. reflexivity.
      * intros r' Hr' Hne. specialize (Hother j r r' Hj Hr Hr' Hne). assert (Eb : Q (row r') = false) by (unfold Q; lia). rewrite Eb. reflexivity.
    + lia.
    + lia.
    + intros q Hq. destruct (Hband j r Hj Hr). unfold Q, covers. lia.
  - rewrite Sc by lia. replace M with (ncols cc) at 1.
    set (Q := fun q => existsb (fun r => (el cc j r - el cw j r <=? Z.of_nat q)%Z && (Z.of_nat q <=? el cc j r + el cw j r)%Z) (seq 0 M)).
    rewrite (residual_is_rest Tx cc cw ys EI Hpre j Q).
    + rewrite RT. replace (Rsum (n / 2 + 1) (fun q => if Q q then 0 else Re (el Tx q j)) * (2 / g)) with
        (Rsum (n / 2 + 1) (fun q => if negb (Q q) then Re (el Tx q j) else 0) * (2 / g) - 2 / g * Re C0)
        by (unfold Re at 2; cbn [C0 fst]; rewrite Rmult_0_r, Rminus_0_r; f_equal; apply Rsum_ext; intros q _; destruct (Q q); reflexivity).
      apply (Sel (fun q => negb (Q q))); [exact Hj|]. apply Csum_0. intros r Hr.
      assert (Et : Q (row r) = true).
      { unfold Q. apply existsb_exists. exists r. split; [apply in_seq; lia|]. destruct (Hband j r Hj Hr). lia. }
      rewrite Et. reflexivity.
    + lia.
    + intros q Hq. unfold Q. rewrite existsb_exists. split.
      * intros (r & Ir & Er). apply in_seq in Ir. exists r. split; [lia|]. destruct (Hband j r Hj ltac:(lia)). unfold covers. lia.
      * intros (r & Hr & Hcv). exists r. split; [apply in_seq; lia|]. unfold covers in Hcv. lia.
Qed.
