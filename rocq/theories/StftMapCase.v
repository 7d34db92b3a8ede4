(** Concrete runs for the symmetries and the energy of [stft] and [ssq_stft]. *)
From Coq Require Import Reals Lra ZifyBool ZifyNat.
From Verif Require Import Py Round Parallel Cplx CplxProofs Padding PaddingProofs Buffer BufferProofs Freqs Stft StftProofs Squeeze SqueezeProofs BinProofs
  SqueezeThms SqueezeThms2 SqueezeThms3 Scales Ssqueeze SsqueezeProofs FreqRange Cwt CwtProofs CwtThms Transport RateThms SymmThms SymmInst StftTone StftToneThms StftToneWitness
  CwtTone StftMap StftEnergy StftMap2 StftMap3 StftMirror StftMapWit.
Import Stft.
Local Open Scope R_scope.
Ltac Zify.zify_post_hook ::= Z.div_mod_to_equations.

(** the tone of [hann_case] *)
Definition x16 : list R := bin_tone 1 0 2 8 16.
Definition a8 : stft_args := SA 1 (WArray (hann 8)) (Some 8%Z) None 1 true PReflect false.
Definition s8 (gw : bool) : ssq_stft_opts := SS None SqSum (Some (1 / 100)) false gw true.
Lemma x16_length : length x16 = 16%nat. Proof. apply tab_length. Qed.
Lemma x16_usable : usable x16 a8 8 (hann 8).
Proof. apply (hann_usable x16 8); try discriminate; auto; [rewrite x16_length|..]; lia. Qed.
Lemma rate2 N : process_fs_and_t (Some 2) None N = Ok 2.
Proof. unfold process_fs_and_t. destruct (Rle_dec 2 0); [lra|reflexivity]. Qed.
Lemma run_dims ord x a n w fs s Tx Sx f Sfs : valid_order ord -> s_sq s = SqSum -> usable x a n w -> a_hop a = 1%Z ->
  ssq_stft ord x a fs None s = Ok (Tx, Sx, f, Sfs) -> nrows Tx = (n / 2 + 1)%nat /\ ncols Tx = length x.
Proof.
  intros Ho Hsq Hu Hh E. pose proof Hu as (Hx0 & _). destruct (ssq_stft_parts _ _ _ _ _ _ _ _ _ _ E) as (rt & dS & _ & _ & F3 & _ & F5 & _).
  destruct (one_cells _ _ _ _ _ _ _ _ _ Ho F5) as (T1 & T2 & _).
  destruct (stft_cells x (rated a rt) n w (usable_rated _ _ _ _ _ Hu)) as (xp & X & dX & _ & _ & _ & E1 & R1 & _ & _ & C1 & _).
  rewrite F3 in E1. injection E1 as <- <-. cbn [rated a_hop] in C1. rewrite Hh, Z.div_1_r in C1. rewrite Hsq in *. cbn [squeeze_input] in T1, T2.
  split; [congruence|]. rewrite T2. destruct x; [congruence|cbn [length] in *; lia].
Qed.
Lemma scale_case ord gw : valid_order ord -> exists Tx Sx f,
  ssq_stft ord (map (Rmult (-3)) x16) a8 (Some 2) None (loosened (-3) a8 (s8 gw)) = Ok (Tx, Sx, f, make_Sfs 5 2) /\
  forall h, (4 <= h <= 12)%nat -> el Tx 2%nat h = Cmul (RtoC (-3)) (cis (PI * INR h / 2)).
Proof.
  intros Ho. destruct (hann_case ord gw Ho) as (Tx & Sx & f & E & _ & H).
  destruct (run_dims ord x16 a8 8 (hann 8) _ (s8 gw) _ _ _ _ Ho eq_refl x16_usable eq_refl E) as [D1 D2]. rewrite x16_length in D2. change (8 / 2 + 1)%nat with 5%nat in D1.
  destruct (ssq_stft_scale ord x16 a8 8 (hann 8) (Some 2) None (s8 gw) (-3) Tx Sx f _ Ho ltac:(left; split; [reflexivity|lra]) x16_usable E) as (Tx' & Sx' & E' & _ & _ & H').
  exists Tx', Sx', f. split; [exact E'|]. intros h Hh. rewrite (proj1 (H' 2%nat h ltac:(lia) ltac:(lia))), H by lia. reflexivity.
Qed.
Lemma rate_case ord gw : valid_order ord -> exists Tx Sx f,
  ssq_stft ord x16 a8 (Some (3 * 2)) None (s8 gw) = Ok (Tx, Sx, f, map (Rmult 3) (make_Sfs 5 2)) /\ nth 2 f 0 = 3 / 2 /\
  forall h, (4 <= h <= 12)%nat -> el Tx 2%nat h = Cmul (RtoC 3) (cis (PI * INR h / 2)).
Proof.
  intros Ho. destruct (hann_case ord gw Ho) as (Tx & Sx & f & E & Hf & H).
  destruct (run_dims ord x16 a8 8 (hann 8) _ (s8 gw) _ _ _ _ Ho eq_refl x16_usable eq_refl E) as [D1 D2]. rewrite x16_length in D2. change (8 / 2 + 1)%nat with 5%nat in D1.
  assert (Hs : nth 1 (make_Sfs 5 2) 0 - nth 0 (make_Sfs 5 2) 0 = 1 / 4) by (cbn; lra).
  destruct (ssq_stft_rate ord x16 a8 8 (hann 8) 2 (s8 gw) 3 Tx Sx f _ Ho ltac:(discriminate) x16_usable eq_refl eq_refl ltac:(lra)
    ltac:(rewrite Hs; unfold EPS64; lra) ltac:(rewrite Hs; unfold EPS64; lra) E) as (Tx' & Sx' & E' & _ & _ & H').
  exists Tx', Sx', (map (Rmult 3) f). split; [exact E'|]. split; [rewrite nth_scale, Hf; lra|].
  intros h Hh. rewrite (proj1 (H' 2%nat h ltac:(lia) ltac:(lia))), H by lia. reflexivity.
Qed.
Lemma skip_case ord gw : valid_order ord -> exists Tx Sx f,
  ssq_stft ord (skipn 3 x16) a8 (Some 2) None (s8 gw) = Ok (Tx, Sx, f, make_Sfs 5 2) /\
  forall h, (4 <= h <= 9)%nat -> el Tx 2%nat h = cis (PI * INR (h + 3) / 2).
Proof.
  intros Ho. destruct (hann_case ord gw Ho) as (Tx & Sx & f & E & _ & H).
  destruct (run_dims ord x16 a8 8 (hann 8) _ (s8 gw) _ _ _ _ Ho eq_refl x16_usable eq_refl E) as [D1 D2]. rewrite x16_length in D2. change (8 / 2 + 1)%nat with 5%nat in D1.
  assert (Hu : usable (skipn (Z.to_nat (a_hop a8) * 3) x16) a8 8 (hann 8)).
  { apply (hann_usable _ 8); try discriminate; auto; [rewrite skipn_length, x16_length; change (Z.to_nat (a_hop a8)) with 1%nat|..]; lia. }
  destruct (ssq_stft_skip ord x16 a8 8 (hann 8) (Some 2) (s8 gw) 3 2 Tx Sx f _ Ho ltac:(discriminate) x16_usable Hu (rate2 _) E) as (Tx' & Sx' & E' & _ & H').
  destruct (run_dims ord _ a8 8 (hann 8) _ (s8 gw) _ _ _ _ Ho eq_refl Hu eq_refl E') as [_ D3]. rewrite skipn_length, x16_length in D3.
  exists Tx', Sx', f. split; [exact E'|]. intros h Hh. cbn [a8 a_hop] in *. change (Z.to_nat 1) with 1%nat in *. change (8 / 2)%nat with 4%nat in *. rewrite x16_length in H'.
  rewrite (proj1 (H' h ltac:(lia) ltac:(lia) ltac:(lia) ltac:(lia) 2%nat ltac:(lia))), H by lia. reflexivity.
Qed.
Lemma rev_case ord gw : valid_order ord -> exists Tx Sx f,
  ssq_stft ord (rev x16) a8 (Some 2) None (s8 gw) = Ok (Tx, Sx, f, make_Sfs 5 2) /\
  forall h, (4 <= h <= 11)%nat -> el Tx 2%nat (15 - h)%nat = cis (- (PI * INR h / 2)).
Proof.
  intros Ho. destruct (hann_case ord gw Ho) as (Tx & Sx & f & E & _ & H).
  destruct (run_dims ord x16 a8 8 (hann 8) _ (s8 gw) _ _ _ _ Ho eq_refl x16_usable eq_refl E) as [D1 D2]. rewrite x16_length in D2. change (8 / 2 + 1)%nat with 5%nat in D1.
  destruct (hann_even 8) as [He H0].
  destruct (ssq_stft_rev ord x16 a8 8 (hann 8) (Some 2) (s8 gw) 2 Tx Sx f _ Ho (or_introl eq_refl) x16_usable He (H0 ltac:(lia)) eq_refl eq_refl (rate2 _) E)
    as (Tx' & Sx' & E' & _ & _ & H').
  exists Tx', Sx', f. split; [exact E'|]. intros h Hh. rewrite x16_length in H'. change (8 / 2)%nat with 4%nat in H'.
  replace (15 - h)%nat with (16 - 1 - h)%nat by lia.
  rewrite (proj1 (H' h ltac:(lia) ltac:(lia) 2%nat ltac:(lia))), H by lia. cbn [Nat.eqb]. unfold cis, Cconj. cbn [fst snd]. rewrite cos_neg, sin_neg. reflexivity.
Qed.

(** ** Energy *)
Definition aw2 : stft_args := SA 1 (WArray [1; 1]) (Some 2%Z) None 1 true PZero false.
Lemma aw2_usable : usable [1; 2; 3] aw2 2 [1; 1].
Proof.
  unfold usable. cbn [aw2 a_hop a_window a_f32 a_padtype]. split; [discriminate|]. split; [lia|]. split; [lia|]. split; [reflexivity|]. split; [reflexivity|].
  split; [reflexivity|]. split; [discriminate|]. left. discriminate.
Qed.
Lemma energy_case : exists Sx dSx, stft [1; 2; 3] aw2 = Ok (Sx, dSx) /\ energy 2 Sx = 38 /\ sumsq [1; 2; 3] = 14 /\
  2 * 1 * 14 <= energy 2 Sx <= 2 * 2 * 14.
Proof.
  destruct (stft_energy_zero _ _ _ _ aw2_usable eq_refl) as (Sx & dSx & E & H). exists Sx, dSx. split; [exact E|].
  assert (Hc : ncols Sx = 3%nat).
  { destruct (stft_cells _ _ _ _ aw2_usable) as (xp & X & dX & _ & _ & _ & E1 & R1 & _ & _ & C1 & _). rewrite E in E1. injection E1 as <- <-. cbn in C1. lia. }
  assert (HE : energy 2 Sx = 38).
  { rewrite H, Hc. cbn [length]. unfold wsum. cbn [aw2 a_hop]. change (Z.to_nat 1) with 1%nat. cbn. lra. }
  rewrite HE. split; [reflexivity|]. split; [unfold sumsq; cbn; lra|lra].
Qed.
