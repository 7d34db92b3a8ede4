(** A tone in row 2 of 8 whose samples change sign alternately lands in row 6. *)
From Coq Require Import Reals Lra ZifyBool ZifyNat.
From Verif Require Import Py Round Parallel Cplx CplxProofs Padding PaddingProofs Buffer BufferProofs Freqs Stft StftProofs Squeeze SqueezeProofs BinProofs
  SqueezeThms SqueezeThms2 SqueezeThms3 Scales Ssqueeze SsqueezeProofs FreqRange Cwt CwtProofs CwtThms Transport RateThms SymmThms SymmInst StftTone StftToneThms StftToneWitness
  CwtTone StftMap StftMap2 StftMap3 StftMapWit StftMapCase StftFlip StftFlip2.
Import Stft.
Local Open Scope R_scope.
Ltac Zify.zify_post_hook ::= Z.div_mod_to_equations.

Definition x32 : list R := bin_tone 1 0 2 16 32.
Definition x32' : list R := tab 32 (fun j => sg (Z.of_nat j) * nth j x32 0).
Definition a16 : stft_args := SA 1 (WArray (hann 16)) (Some 16%Z) None 1 true PReflect false.
Lemma x32_alternate : alternate x32 x32'.
Proof. split; [unfold x32', x32, bin_tone; rewrite !tab_length; reflexivity|]. intros j Hj. unfold x32 in Hj. unfold bin_tone in Hj. rewrite tab_length in Hj. unfold x32'. rewrite nth_tab by exact Hj. reflexivity. Qed.
Lemma x32_length : length x32 = 32%nat. Proof. apply tab_length. Qed.
Lemma x32_usable : usable x32 a16 16 (hann 16).
Proof. apply (hann_usable x32 16); try discriminate; auto; [rewrite x32_length|..]; lia. Qed.

Lemma x32_clear g Sx dSx h : 0 < g -> stft x32 (rated a16 2) = Ok (Sx, dSx) -> (8 <= h <= 24)%nat -> clear_column 2 16 g Sx dSx h.
Proof.
  intros Hg E Hh.
  destruct (tone_stft x32 (rated a16 2) 16 (hann 16) 1 0 2 1) as (Sy & dSy & Ey & Ry & _ & _ & Cy & Hy); try reflexivity; try lia; try discriminate;
    try (left; discriminate); try (apply hann_narrow; lia); try (rewrite x32_length; lia).
  rewrite E in Ey. injection Ey as <- <-. rewrite x32_length in *. cbn [rated a_hop a16 a_fs] in Cy, Hy.
  intros i Hi Hgi. change (16 / 2)%nat with 8%nat in Hi. destruct (Hy h i) as (_ & Hd); [lia|unfold interior; change (16 / 2)%nat with 8%nat; change (Z.to_nat 1) with 1%nat; lia|lia|].
  set (z := el Sx i h) in *. assert (Hz : 0 < Cabs z) by lra.
  assert (ER : phase_ratio z (el dSx i h) = (INR i - 2) / 8).
  { rewrite Hd, phase_ratio_factor by (intros Hz0; rewrite Hz0, Cabs_0 in Hz; lra). replace (INR 2) with 2 by (simpl; lra). replace (INR 16) with 16 by (simpl; lra). field. apply PI_neq0. }
  rewrite ER. replace (INR 16) with 16 by (simpl; lra). unfold in_band. rewrite ER. split; [lra|]. intros m Hm.
  assert (H2 : INR m + 1 / 2 = 2) by lra. destruct m as [|[|[|m]]]; [simpl in H2; lra..|]. rewrite !S_INR in H2. pose proof (pos_INR m). lra.
Qed.

Theorem flip_case ord gw : valid_order ord -> exists Tx' Sx' f,
  ssq_stft ord x32' a16 (Some 2) None (s8 gw) = Ok (Tx', Sx', f, make_Sfs 9 2) /\ nth 6 f 0 = 3 / 4 /\
  forall h q, (8 <= h <= 24)%nat -> (q <= 8)%nat -> el Tx' (8 - q)%nat h = if (q =? 2)%nat then Cmul (RtoC (sg (Z.of_nat h))) (Cconj (cis (PI * INR h / 4))) else C0.
Proof.
  intros Ho.
  destruct (hann_tone ord (Some 2) None (s8 gw) 2 32 16 1 0 2 (1 / 100) 1 false 1 Ho) as (Tx & Sx & f & E & R1 & N1 & H);
    try reflexivity; try exact (rate2 _); try lia; try discriminate.
  { cbn [INR]. unfold EPS64. lra. }
  { rewrite Rabs_R1. cbn [INR]. lra. }
  cbn [s8 s_flip] in N1, H. change (16 / 2 + 1)%nat with 9%nat in *. change (16 / 2)%nat with 8%nat in *.
  destruct (ssq_stft_flip ord x32 x32' a16 16 (hann 16) (Some 2) None (s8 gw) 2 Tx Sx f (make_Sfs 9 2) Ho eq_refl eq_refl x32_usable ltac:(lia) eq_refl ltac:(lia) x32_alternate (rate2 _))
    as (Tx' & Sx' & dSx & E1 & E2 & T1 & T2 & T3 & V); [cbn [INR]; unfold EPS64; lra|exact E|].
  destruct (run_dims ord x32 a16 16 (hann 16) _ (s8 gw) _ _ _ _ Ho eq_refl x32_usable eq_refl E) as [_ D2]. rewrite x32_length in D2.
  exists Tx', Sx', f. split; [exact E2|]. split.
  { destruct (ssq_stft_parts _ _ _ _ _ _ _ _ _ _ E) as (r0 & d0 & F1 & F2 & F3 & F4 & F5 & F6). rewrite F6. cbn [s8 s_freqs s_flip the_freqs flip_freqs the_opts o_flip].
    change (nth 6 (make_Sfs (16 / 2 + 1) 2) 0 = 3 / 4). rewrite make_Sfs_even by (reflexivity || (cbn; lia)). simpl. lra. }
  intros h q Hh Hq. change (16 / 2)%nat with 8%nat in V.
  assert (Hi : interior 16 32 (Z.to_nat 1) h) by (unfold interior; change (16 / 2)%nat with 8%nat; change (Z.to_nat 1) with 1%nat; lia).
  rewrite (V h ltac:(lia)); [|left; rewrite x32_length; exact Hi|apply (x32_clear (the_gamma a16 (s8 gw)) Sx dSx h); [unfold the_gamma; cbn; lra|exact E1|exact Hh]|exact Hq].
  rewrite H by (lia || exact Hi). destruct (q =? 2)%nat.
  - unfold bin_phase. change (Z.to_nat 1 * h)%nat with (1 * h)%nat. rewrite Nat.mul_1_l. replace (2 * PI * INR 2 * INR h / INR 16 + 0) with (PI * INR h / 4) by (cbn [INR]; field).
    unfold col_sign. change (Z.to_nat (a_hop a16)) with 1%nat.
    match goal with |- Cmul (RtoC (sg ?u)) _ = _ => replace (sg u) with (sg (Z.of_nat h)) end.
    + apply C_eq; unfold Cmul, Cconj, RtoC, cis; cbn [fst snd]; field.
    + f_equal. cbn [a16 a_modulated]. lia.
  - apply C_eq; unfold C0, Cmul, Cconj, RtoC; cbn [fst snd]; ring.
Qed.
