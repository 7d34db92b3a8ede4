(** An offset and [ssq_stft]: a case. *)
From Coq Require Import Reals Lra Lia List ZifyBool ZifyNat.
Import ListNotations.
From Verif Require Import Py Round Parallel Cplx CplxProofs Padding PaddingProofs Buffer BufferProofs Freqs Stft StftProofs Squeeze SqueezeProofs BinProofs SqueezeThms SqueezeThms2 SqueezeThms3 Scales Ssqueeze SsqueezeProofs FreqRange Cwt CwtProofs CwtThms StftTone StftMap StftMap2 StftChord StftToneWitness StftChordThms
  StftRidge NoiseRidge NoiseRidgeWit NoiseSsq NoiseSsqWit NoiseCompWit Offset OffsetSsq.
Import Stft.
Local Open Scope R_scope.
Ltac Zify.zify_post_hook ::= Z.div_mod_to_equations.

Lemma ssq_offset_case ord gw : valid_order ord -> let a := SA 1 (WArray (hann 24)) (Some 24%Z) None 1 true PWrap false in
  let s := SS None SqSum (Some (1 / 100)) false gw true in exists Tx X Ty Y f,
  ssq_stft ord shaken a (Some 24) None s = Ok (Tx, X, f, make_Sfs 13 24) /\ ssq_stft ord (raised 3 shaken) a (Some 24) None s = Ok (Ty, Y, f, make_Sfs 13 24) /\ ncols Tx = 48%nat /\
  forall h, (h < 48)%nat -> (forall k, (2 <= k < nrows X)%nat -> el Y k h = el X k h) /\
    Rsum (nrows Tx) (fun q => Cabs (Csub (el Ty q h) (el Tx q h))) <= Cabs (el X 0 h) + Cabs (el Y 0 h) + (Cabs (el X 1 h) + Cabs (el Y 1 h)).
Proof.
  intros Ho a s. assert (Hl : length shaken = 48%nat) by apply tab_length.
  destruct (hann_noisy_whole ord 2 duo_A duo_phi duo_m 24 (1 / 64) shaken (Some 24) None s 24 (1 / 100) false false 1) as (Tx & X & f & z & ET & _).
  { apply shaken_noisy, Ho. }
  change (24 / 2 + 1)%nat with 13%nat in ET. change (Z.of_nat 24) with 24%Z in ET. fold a in ET.
  assert (U : usable shaken a 24 (hann 24)).
  { unfold usable. rewrite Hl. cbn [a_hop a_window a_f32 a_padtype a]. split; [intros E; rewrite E in Hl; discriminate|]. split; [lia|]. split; [lia|]. split; [reflexivity|].
    split; [apply (hann_window 24)|]. split; [apply hann_length|]. split; [discriminate|left; discriminate]. }
  assert (Er : process_fs_and_t (Some 24) None (length shaken) = Ok 24) by (unfold process_fs_and_t; destruct (Rle_dec 24 0); [lra|reflexivity]).
  destruct (ssq_offset ord 3 shaken a (Some 24) None s 24 24 (hann 24) 1 Tx X f (make_Sfs 13 24) Ho eq_refl U eq_refl (hann_narrow 24 ltac:(lia)) ltac:(lia) ET Er) as (Ty & Y & EY & R1 & C1 & V).
  destruct (ssq_stft_parts _ _ _ _ _ _ _ _ _ _ ET) as (rate0 & dX & Er0 & _ & EX & _). rewrite Er in Er0. injection Er0 as <-.
  destruct (stft_offset_rows 3 shaken (rated a 24) 24 (hann 24) 1 U eq_refl (hann_narrow 24 ltac:(lia))) as (X1 & dX1 & Y1 & dY1 & EX1 & EY1 & R2 & C2 & _). rewrite EX in EX1. injection EX1 as <- <-.
  destruct (rows_agree ord shaken (raised 3 shaken) a (Some 24) None s 24 Tx X dX Y1 dY1 f (make_Sfs 13 24) Ho eq_refl (map_length _ _) ET Er EX EY1 R2 C2) as (_ & _ & _ & _ & _ & C3 & _).
  destruct (stft_cells shaken (rated a 24) 24 (hann 24) U) as (xp & X2 & dX2 & _ & _ & _ & E3 & _ & _ & _ & C4 & _). rewrite EX in E3. injection E3 as <- <-.
  rewrite Hl in C4. cbn [a_hop a rated] in C4. assert (C5 : ncols Tx = 48%nat) by (cbn in C4; lia).
  exists Tx, X, Ty, Y, f. split; [exact ET|]. split; [exact EY|]. split; [exact C5|]. intros h Hh. destruct (V h ltac:(lia)) as [V1 V2]; [left; discriminate|].
  split; [intros k Hk; apply V1; lia|]. eapply Rle_trans; [exact V2|]. cbn [s_freqs s]. cbn [Rsum Nat.add].
  replace (first_gap (make_Sfs 13 24)) with 1; [rewrite Rabs_R1; lra|].
  unfold first_gap, make_Sfs. cbn. field_simplify; lra.
Qed.
