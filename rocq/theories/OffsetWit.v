(** Hann windows: an offset shows in the two lowest rows of [stft]; a case. *)
From Coq Require Import Reals Lra Lia List ZifyBool ZifyNat.
Import ListNotations.
From Verif Require Import Py Round Padding PaddingProofs Parallel Cplx CplxProofs Buffer Freqs Stft StftProofs Squeeze Scales Ssqueeze CwtThms StftTone StftMap StftChord StftToneWitness StftChordThms Offset.
Import Stft.
Local Open Scope R_scope.
Ltac Zify.zify_post_hook ::= Z.div_mod_to_equations.

Theorem hann_offset c x a n : usable x a n (hann n) -> a_modulated a = true -> (4 <= n)%nat -> Nat.even n = true -> exists X dX Y dY,
  stft x a = Ok (X, dX) /\ stft (raised c x) a = Ok (Y, dY) /\ nrows Y = nrows X /\ ncols Y = ncols X /\
  forall h, (h < ncols X)%nat -> sees x a n h ->
    el Y 0 h = Cadd (el X 0 h) (RtoC (c * INR n / 2)) /\ el dY 0 h = el dX 0 h /\
    el Y 1 h = Cadd (el X 1 h) (RtoC (c * INR n / 4)) /\ el dY 1 h = Cadd (el dX 1 h) (0, PI / 2 * c * a_fs a) /\
    forall k, (2 <= k <= n / 2)%nat -> el Y k h = el X k h /\ el dY k h = el dX k h.
Proof.
  intros U Hm Hn He. destruct (stft_offset c x a n (hann n) U Hm) as (X & dX & Y & dY & E1 & E2 & R1 & C1 & _ & _ & V).
  destruct (stft_offset_rows c x a n (hann n) 1 U Hm (hann_narrow n Hn)) as (X' & dX' & Y' & dY' & E1' & E2' & _ & _ & V').
  rewrite E1 in E1'. rewrite E2 in E2'. injection E1' as <- <-. injection E2' as <- <-.
  assert (HI : 0 < INR n) by (apply lt_0_INR; lia). assert (Hl : length (hann n) = n) by apply hann_length. destruct (hann_side n Hn He) as [S1 _].
  exists X, dX, Y, dY. split; [exact E1|]. split; [exact E2|]. split; [exact R1|]. split; [exact C1|]. intros h Hh Hs.
  destruct (V 0%nat h Hh Hs) as [V0 D0]. destruct (V 1%nat h Hh Hs) as [V1 D1]. change (Z.of_nat 0) with 0%Z in *. change (Z.of_nat 1) with 1%Z in *.
  rewrite hann_mid in V0 by exact Hn. rewrite S1 in V1. rewrite wspec_diff in D0, D1 by lia. rewrite hann_mid in D0 by exact Hn. rewrite S1 in D1.
  split; [rewrite V0; apply C_eq; unfold Cadd, Cmul, RtoC; cbn [fst snd]; field|]. split; [rewrite D0; apply C_eq; unfold Cadd, Cmul, RtoC; cbn [fst snd]; field; lra|].
  split; [rewrite V1; apply C_eq; unfold Cadd, Cmul, RtoC; cbn [fst snd]; field|]. split; [rewrite D1; apply C_eq; unfold Cadd, Cmul, RtoC; cbn [fst snd]; field; lra|].
  intros k Hk. apply V'; [lia|exact Hh|exact Hs].
Qed.

(** 20 samples, one of them 1, raised by 3; reflect padding, [n_fft] 8, hop 2 *)
Definition blip : list R := tab 20 (fun i => if (i =? 7)%nat then 1 else 0).
Lemma offset_case : let a := SA 1 (WArray (hann 8)) (Some 8%Z) None 2 true PReflect false in exists X dX Y dY,
  stft blip a = Ok (X, dX) /\ stft (raised 3 blip) a = Ok (Y, dY) /\ ncols X = 10%nat /\
  forall h, (h < 10)%nat -> el Y 0 h = Cadd (el X 0 h) (RtoC 12) /\ forall k, (2 <= k <= 4)%nat -> el Y k h = el X k h.
Proof.
  intros a. assert (Hl : length blip = 20%nat) by apply tab_length.
  assert (U : usable blip a 8 (hann 8)).
  { unfold usable. rewrite Hl. cbn [a_hop a_window a_f32 a_padtype a]. split; [intros E; rewrite E in Hl; discriminate|]. split; [lia|]. split; [lia|]. split; [reflexivity|].
    split; [apply (hann_window 8)|]. split; [apply hann_length|]. split; [discriminate|left; discriminate]. }
  destruct (hann_offset 3 blip a 8 U eq_refl ltac:(lia) eq_refl) as (X & dX & Y & dY & E1 & E2 & _ & _ & V).
  destruct (stft_cells blip a 8 (hann 8) U) as (xp & X' & dX' & _ & _ & _ & E3 & _ & _ & _ & C3 & _). rewrite E1 in E3. injection E3 as <- <-.
  rewrite Hl in C3. cbn [a_hop a] in C3. assert (C4 : ncols X = 10%nat) by (cbn in C3; lia).
  exists X, dX, Y, dY. split; [exact E1|]. split; [exact E2|]. split; [exact C4|]. intros h Hh.
  destruct (V h ltac:(lia)) as (V0 & _ & _ & _ & V2); [left; discriminate|]. split.
  - rewrite V0. f_equal. unfold RtoC. f_equal. rewrite INR_IZR_INZ. cbn. lra.
  - intros k Hk. apply V2. change (8 / 2)%nat with 4%nat. exact Hk.
Qed.
