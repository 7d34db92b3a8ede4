(** Witnesses for StftHop.v. *)
From Coq Require Import Reals Lra ZifyBool ZifyNat.
From Verif Require Import Py Round Parallel Cplx CplxProofs Padding PaddingProofs Buffer BufferProofs Freqs Stft StftProofs Squeeze SqueezeProofs
  Scales Ssqueeze StftTone StftMap StftMap2 StftMap3 StftToneWitness StftMapWit StftMapCase StftHop.
Import Stft.
Local Open Scope R_scope.
Ltac Zify.zify_post_hook ::= Z.div_mod_to_equations.

(** the default [n_fft] depends on [hop_len] *)
Definition ah : stft_args := SA 1 (WArray [1; 1]) None None 1 true PReflect false.
Lemma hop_default : exists S dS S' dS', stft [1; 2; 3; 4; 5; 6; 7; 8] ah = Ok (S, dS) /\ stft [1; 2; 3; 4; 5; 6; 7; 8] (hopped ah 2) = Ok (S', dS') /\
  nrows S = 5%nat /\ nrows S' = 3%nat.
Proof.
  assert (U1 : usable [1; 2; 3; 4; 5; 6; 7; 8] ah 8 [0; 0; 0; 1; 1; 0; 0; 0]).
  { unfold usable. cbn [ah a_hop a_window a_f32 a_padtype]. split; [discriminate|]. split; [lia|]. split; [lia|]. split; [reflexivity|]. split; [reflexivity|].
    split; [reflexivity|]. split; [discriminate|]. left. discriminate. }
  assert (U2 : usable [1; 2; 3; 4; 5; 6; 7; 8] (hopped ah 2) 4 [0; 1; 1; 0]).
  { unfold usable. cbn [hopped ah a_hop a_window a_f32 a_padtype]. split; [discriminate|]. split; [lia|]. split; [lia|]. split; [reflexivity|]. split; [reflexivity|].
    split; [reflexivity|]. split; [discriminate|]. left. discriminate. }
  destruct (stft_cells _ _ _ _ U1) as (_ & S & dS & _ & _ & _ & E & R1 & _).
  destruct (stft_cells _ _ _ _ U2) as (_ & S' & dS' & _ & _ & _ & E' & R1' & _).
  exists S, dS, S', dS'. repeat split; assumption.
Qed.

(** every second column, of the Hann transform of eight samples *)
Lemma hop_case : exists S dS S' dS', stft [1; 2; 3; 4; 5; 6; 7; 8] (SA 1 (WArray (hann 4)) (Some 4%Z) None 1 true PReflect false) = Ok (S, dS) /\
  stft [1; 2; 3; 4; 5; 6; 7; 8] (SA 1 (WArray (hann 4)) (Some 4%Z) None 2 true PReflect false) = Ok (S', dS') /\
  ncols S = 8%nat /\ ncols S' = 4%nat /\ forall k j, (j < 4)%nat -> el S' k j = el S k (2 * j)%nat.
Proof.
  pose proof (hann_usable [1; 2; 3; 4; 5; 6; 7; 8] 4 1 false true PReflect 1 ltac:(cbn; lia) ltac:(lia) ltac:(lia) ltac:(discriminate) (or_introl eq_refl)) as U.
  destruct (stft_hop _ _ _ _ 2 U eq_refl ltac:(lia) ltac:(discriminate)) as (S & dS & S' & dS' & E & E' & _ & HC & V).
  assert (H8 : ncols S = 8%nat).
  { destruct (stft_cells _ _ _ _ U) as (_ & X & dX & _ & _ & _ & E1 & _ & _ & _ & C & _). rewrite E in E1. injection E1 as <- <-. cbn in C. lia. }
  exists S, dS, S', dS'. split; [exact E|]. split; [exact E'|]. split; [exact H8|]. assert (H4 : ncols S' = 4%nat) by (rewrite H8 in HC; cbn in HC; lia).
  split; [exact H4|]. intros k j Hj. apply V. lia.
Qed.

(** three samples, a window of two, transforms of 2 and 6 bins *)
Lemma refined_case : exists S dS S' dS', stft [1; 2; 3] aw2 = Ok (S, dS) /\ stft [1; 2; 3] (refined aw2 2 2 3) = Ok (S', dS') /\
  usable [1; 2; 3] aw2 2 [1; 1] /\ win_of aw2 2 2 /\ nrows S = 2%nat /\ nrows S' = 4%nat /\
  forall k h, (h < 3)%nat -> el S' (3 * k)%nat h = el S k h.
Proof.
  assert (HW : win_of aw2 2 2) by (split; [lia|split; reflexivity]).
  destruct (stft_refined [1; 2; 3] aw2 2 [1; 1] 2 3 aw2_usable HW ltac:(discriminate) ltac:(lia) (or_introl eq_refl)) as (S & dS & S' & dS' & E & E' & _ & HR & V).
  destruct (stft_cells _ _ _ _ aw2_usable) as (_ & X & dX & _ & _ & _ & E1 & R1 & _ & _ & C & _). rewrite E in E1. injection E1 as <- <-. cbn in C, R1.
  exists S, dS, S', dS'. split; [exact E|]. split; [exact E'|]. split; [exact aw2_usable|]. split; [exact HW|]. split; [exact R1|]. split; [exact HR|].
  intros k h Hh. rewrite V by lia. cbn [aw2 a_modulated]. ring.
Qed.

(** a window of one sample in a transform of two: the column is one sample late *)
Definition aw1 : stft_args := SA 1 (WArray [1]) (Some 1%Z) None 1 true PZero false.
Lemma odd_window : exists S dS S' dS', stft [1; 2; 4] aw1 = Ok (S, dS) /\ stft [1; 2; 4] (refined aw1 1 1 2) = Ok (S', dS') /\
  usable [1; 2; 4] aw1 1 [1] /\ win_of aw1 1 1 /\
  (forall h, (h < 3)%nat -> el S 0%nat h = RtoC (nth h [1; 2; 4] 0)) /\ (forall h, (h < 3)%nat -> el S' 0%nat h = RtoC (nth h [0; 1; 2] 0)).
Proof.
  assert (U : usable [1; 2; 4] aw1 1 [1]).
  { unfold usable. cbn [aw1 a_hop a_window a_f32 a_padtype]. split; [discriminate|]. split; [lia|]. split; [lia|]. split; [reflexivity|]. split; [reflexivity|].
    split; [reflexivity|]. split; [discriminate|]. left. discriminate. }
  assert (HW : win_of aw1 1 1) by (split; [lia|split; reflexivity]).
  assert (U' : usable [1; 2; 4] (refined aw1 1 1 2) 2 [1; 0]).
  { unfold usable. cbn [refined aw1 a_hop a_window a_f32 a_padtype]. split; [discriminate|]. split; [lia|]. split; [lia|]. split; [reflexivity|]. split; [reflexivity|].
    split; [reflexivity|]. split; [discriminate|]. left. discriminate. }
  destruct (stft_cells _ _ _ _ U) as (xp & S & dS & P & _ & _ & E & R1 & _ & _ & C & _ & V).
  destruct (stft_cells _ _ _ _ U') as (xp' & S' & dS' & P' & _ & _ & E' & R1' & _ & _ & C' & _ & V').
  exists S, dS, S', dS'. split; [exact E|]. split; [exact E'|]. split; [exact U|]. split; [exact HW|].
  destruct P as (? & ? & P). cbn in P. injection P as <- _ _. destruct P' as (? & ? & P'). cbn in P'. injection P' as <- _ _.
  cbn in C, C'. split; intros h Hh.
  - destruct (V 0%nat h ltac:(lia)) as (-> & _). unfold cell. cbn [Csum aw1 a_hop]. rewrite Z.mul_0_l. change (- 0)%Z with 0%Z. rewrite tw_0 by lia.
    change (Z.to_nat 1) with 1%nat. change (Z.to_nat (1 * 1)) with 1%nat. destruct h as [|[|[|h]]]; try lia; cbn [Nat.mul Nat.add nth]; apply C_eq; unfold Cadd, Cmul, RtoC, C0, C1; cbn [fst snd]; ring.
  - destruct (V' 0%nat h ltac:(lia)) as (-> & _). unfold cell. cbn [Csum refined aw1 a_hop]. rewrite !Z.mul_0_l. change (- 0)%Z with 0%Z. rewrite tw_0 by lia.
    change (Z.to_nat 1) with 1%nat. change (Z.to_nat (1 * 1)) with 1%nat. destruct h as [|[|[|h]]]; try lia; cbn [Nat.mul Nat.add nth]; apply C_eq; unfold Cadd, Cmul, RtoC, C0, C1; cbn [fst snd]; ring.
Qed.
