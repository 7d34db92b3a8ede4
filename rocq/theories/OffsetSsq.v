(** Two runs of [ssq_stft] whose transforms agree in some rows; offsets. *)
From Coq Require Import Reals Lra Lia List ZifyBool ZifyNat.
Import ListNotations.
From Verif Require Import Py Round Parallel Cplx CplxProofs Padding PaddingProofs Buffer BufferProofs Freqs Stft StftProofs Squeeze SqueezeProofs BinProofs
  SqueezeThms SqueezeThms2 SqueezeThms3 Scales Ssqueeze SsqueezeProofs FreqRange Cwt CwtProofs CwtThms Separate Transport RateThms SymmThms StftTone StftMap StftMap2 StftToneWitness NoiseSsq Offset.
Import Stft.
Local Open Scope R_scope.
Ltac Zify.zify_post_hook ::= Z.div_mod_to_equations.

Lemma once_at n (z : Z) r : 0 <= r -> Rsum n (fun q => if (z =? Z.of_nat q)%Z then r else 0) <= r.
Proof.
  intros Hr. destruct (Z_le_dec 0 z) as [H0|H0]; [destruct (Z_lt_dec z (Z.of_nat n)) as [H1|H1]|].
  - rewrite (Rsum_single n _ (Z.to_nat z)); [|lia|intros q Hq Hne; destruct (Z.eqb_spec z (Z.of_nat q)); [lia|reflexivity]].
    destruct (_ =? _)%Z; lra.
  - rewrite Rsum_0; [exact Hr|]. intros q Hq. destruct (Z.eqb_spec z (Z.of_nat q)); [lia|reflexivity].
  - rewrite Rsum_0; [exact Hr|]. intros q Hq. destruct (Z.eqb_spec z (Z.of_nat q)); [lia|reflexivity].
Qed.
Lemma Rsum_swap' n m (f : nat -> nat -> R) : Rsum n (fun q => Rsum m (f q)) = Rsum m (fun i => Rsum n (fun q => f q i)).
Proof. apply Rsum_swap. Qed.

Lemma Csum_minus n f g : Csum n (fun i => Csub (f i) (g i)) = Csub (Csum n f) (Csum n g).
Proof. induction n as [|n IH]; cbn [Csum]; [apply C_eq; cbn; ring|]. rewrite IH. apply C_eq; unfold Csub, Cadd, Copp; cbn [fst snd]; ring. Qed.
(** where one coefficient goes *)
Definition goes (o : ssq_opts) (n : nat) (bin : R -> Z) (fv : fval) (c : R) (q : nat) (z : C) : C :=
  match fv with
  | Inf => C0
  | Fin r => if (flip_row (o_flip o) (Z.of_nat n - 1) (bin r) =? Z.of_nat q)%Z then Cmul z (RtoC c) else C0
  end.
Lemma goes_total o n bin fv c z : Rsum n (fun q => Cabs (goes o n bin fv c q z)) <= Rabs c * Cabs z.
Proof.
  unfold goes. destruct fv as [r|].
  - rewrite (Rsum_ext n _ (fun q => if (flip_row (o_flip o) (Z.of_nat n - 1) (bin r) =? Z.of_nat q)%Z then Rabs c * Cabs z else 0)).
    + apply once_at. apply Rmult_le_pos; [apply Rabs_pos|apply Cabs_nonneg].
    + intros q Hq. destruct (_ =? _)%Z; [rewrite Cabs_mul, Cabs_RtoC; ring|apply Cabs_0].
  - rewrite Rsum_0; [apply Rmult_le_pos; [apply Rabs_pos|apply Cabs_nonneg]|]. intros; apply Cabs_0.
Qed.

Definition first_gap (v : list R) : R := nth 1 v 0 - nth 0 v 0.

Theorem rows_agree ord x y a fs t s rate Tx X dX Y dY f Sfs : valid_order ord -> s_sq s = SqSum -> length y = length x ->
  ssq_stft ord x a fs t s = Ok (Tx, X, f, Sfs) -> process_fs_and_t fs t (length x) = Ok rate ->
  stft x (rated a rate) = Ok (X, dX) -> stft y (rated a rate) = Ok (Y, dY) -> nrows Y = nrows X -> ncols Y = ncols X ->
  exists Ty, ssq_stft ord y a fs t s = Ok (Ty, Y, f, Sfs) /\ nrows Ty = nrows Tx /\ ncols Ty = ncols Tx /\ nrows Tx = nrows X /\ ncols Tx = ncols X /\
  forall h (same : nat -> bool), (h < ncols Tx)%nat -> (forall k, (k < nrows X)%nat -> same k = true -> el Y k h = el X k h /\ el dY k h = el dX k h) ->
    Rsum (nrows Tx) (fun q => Cabs (Csub (el Ty q h) (el Tx q h))) <=
    Rabs (first_gap (match s_freqs s with Some v => v | None => Sfs end)) * Rsum (nrows X) (fun k => if same k then 0 else Cabs (el X k h) + Cabs (el Y k h)).
Proof.
  intros Ho Hsq Hl E Er EX EY HR HC. destruct (ssq_stft_parts _ _ _ _ _ _ _ _ _ _ E) as (rate0 & dX0 & Er0 & Ec & EX0 & ES & E1 & Ef).
  rewrite Er in Er0. injection Er0 as <-. rewrite EX in EX0. injection EX0 as <-. cbv zeta in E1. rewrite Hsq in E1. cbn [squeeze_input] in E1.
  set (g := the_gamma a s) in *. change (match s_freqs s with Some v => v | None => Sfs end) with (the_freqs s Sfs). set (v := the_freqs s Sfs) in *. set (o := the_opts s v g Sfs) in *.
  destruct (one_cells _ _ _ _ _ _ _ _ _ Ho E1) as (A1 & A2 & cst & ca & gr & Q1 & Q2 & Q3 & V). cbv zeta in V.
  rewrite <- Hl in Er. pose proof (ssq_stft_unfold ord y a fs t s rate Y dY Er Ec EY) as Un. cbv zeta in Un. rewrite HR, <- ES in Un. rewrite Hsq in Un. cbn [squeeze_input] in Un.
  fold g in Un. fold v in Un. fold o in Un.
  assert (exists Ty, ssqueeze_one ord o None v false Y (the_w s Sfs g Y dY) (the_d s dY) = Ok Ty) as (Ty & E2).
  { unfold ssqueeze_one. rewrite Q1. cbn [bind]. unfold the_w, the_d. destruct (s_get_w s).
    - unfold indexed_sum_onfly. rewrite HR, Q2. cbn [bind]. rewrite Q3. cbn [bind]. eexists. reflexivity.
    - unfold o at 1. cbn [the_opts o_gamma]. unfold ssqueeze_fast. rewrite HR, Q2. cbn [bind]. rewrite Q3. cbn [bind]. unfold o at 1. cbn [the_opts o_Sfs]. eexists. reflexivity. }
  rewrite E2 in Un. cbn [bind] in Un. fold o in Ef. rewrite <- Ef in Un.
  exists Ty. split; [exact Un|]. destruct (one_cells _ _ _ _ _ _ _ _ _ Ho E2) as (B1 & B2 & cst' & ca' & gr' & Q1' & Q2' & Q3' & V'). cbv zeta in V'.
  rewrite Q1 in Q1'. injection Q1' as <-. rewrite HR, Q2 in Q2'. injection Q2' as <-. rewrite Q3 in Q3'. injection Q3' as <-.
  split; [congruence|]. split; [congruence|]. split; [exact A1|]. split; [exact A2|]. intros h same Hh Hsame. rewrite A1. rewrite A2 in Hh.
  assert (Hca : forall i, (i < nrows X)%nat -> nth i ca 0 = first_gap v).
  { intros i Hi. unfold ssq_const in Q1. unfold o in Q1. cbn [the_opts o_tr] in Q1. unfold first_gap. clearbody v. destruct v as [|v0 [|v1 l]]; try discriminate. injection Q1 as <-.
    unfold const_arr in Q2. destruct (nrows X =? 1)%nat; [discriminate|]. injection Q2 as <-. cbn [nth]. apply nth_repeat_in, Hi. }
  set (N := nrows X) in *. set (G := Rabs (first_gap v)).
  set (bin := if s_get_w s then bin_onfly (Z.of_nat N - 1) gr else bin_fast (Z.of_nat N - 1) gr).
  set (fx := fun i => freq_at o X (the_w s Sfs g X dX) (the_d s dX) i h). set (fy := fun i => freq_at o Y (the_w s Sfs g Y dY) (the_d s dY) i h).
  set (c := first_gap v) in *.
  assert (VX : forall q, (q < N)%nat -> el Tx q h = Csum N (fun i => goes o N bin (fx i) c q (el X i h))).
  { intros q Hq. rewrite V by assumption. apply Csum_ext. intros i Hi. unfold goes, fx. rewrite (Hca i Hi). unfold bin, the_w. destruct (s_get_w s); reflexivity. }
  assert (VY : forall q, (q < N)%nat -> el Ty q h = Csum N (fun i => goes o N bin (fy i) c q (el Y i h))).
  { intros q Hq. rewrite V' by lia. rewrite HR. apply Csum_ext. intros i Hi. unfold goes, fy. rewrite (Hca i Hi). unfold bin, the_w. destruct (s_get_w s); reflexivity. }
  rewrite <- Rsum_scal.
  apply Rle_trans with (Rsum N (fun q => Rsum N (fun i => Cabs (Csub (goes o N bin (fy i) c q (el Y i h)) (goes o N bin (fx i) c q (el X i h)))))).
  { apply Rsum_le. intros q Hq. rewrite VX, VY by exact Hq.
    rewrite <- Csum_minus. apply Cabs_Csum. }
  rewrite Rsum_swap'. apply Rsum_le. intros i Hi. destruct (same i) eqn:Es.
  - destruct (Hsame i Hi Es) as [S1 S2]. assert (Ef2 : fy i = fx i).
    { unfold fy, fx, freq_at, the_w, the_d. destruct (s_get_w s).
      - cbn [phase_stft el]. rewrite S1, S2. reflexivity.
      - unfold o. cbn [the_opts o_gamma o_Sfs]. rewrite S1, S2. reflexivity. }
    rewrite Ef2, S1, Rmult_0_r, Rsum_0; [lra|]. intros q Hq. set (z := goes _ _ _ _ _ _ _). replace (Csub z z) with C0 by (apply C_eq; unfold Csub, Copp, Cadd, C0; cbn; ring). apply Cabs_0.
  - apply Rle_trans with (Rsum N (fun q => Cabs (goes o N bin (fy i) c q (el Y i h)) + Cabs (goes o N bin (fx i) c q (el X i h)))).
    + apply Rsum_le. intros q Hq. apply abs_sub.
    + rewrite Rsum_plus. pose proof (goes_total o N bin (fy i) c (el Y i h)). pose proof (goes_total o N bin (fx i) c (el X i h)). unfold G. lra.
Qed.

Theorem ssq_offset ord c x a fs t s rate n w b Tx X f Sfs : valid_order ord -> s_sq s = SqSum -> usable x a n w -> a_modulated a = true -> narrow n w b -> (2 * b < n)%nat ->
  ssq_stft ord x a fs t s = Ok (Tx, X, f, Sfs) -> process_fs_and_t fs t (length x) = Ok rate ->
  exists Ty Y, ssq_stft ord (raised c x) a fs t s = Ok (Ty, Y, f, Sfs) /\ nrows Ty = nrows Tx /\ ncols Ty = ncols Tx /\
  forall h, (h < ncols Tx)%nat -> sees x a n h ->
    (forall k, (b < k < nrows X)%nat -> el Y k h = el X k h) /\
    Rsum (nrows Tx) (fun q => Cabs (Csub (el Ty q h) (el Tx q h))) <=
    Rabs (first_gap (match s_freqs s with Some v => v | None => Sfs end)) * Rsum (b + 1) (fun k => Cabs (el X k h) + Cabs (el Y k h)).
Proof.
  intros Ho Hsq U Hm Hb Hbn E Er. assert (U' : usable x (rated a rate) n w) by exact U.
  destruct (ssq_stft_parts _ _ _ _ _ _ _ _ _ _ E) as (rate0 & dX0 & Er0 & _ & EX0 & _). rewrite Er in Er0. injection Er0 as <-.
  destruct (stft_cells x (rated a rate) n w U') as (xp & X1 & dX1 & _ & _ & _ & E1 & R1 & _). rewrite EX0 in E1. injection E1 as <- <-.
  destruct (stft_offset_rows c x (rated a rate) n w b U' Hm Hb) as (X' & dX & Y & dY & EX & EY & RY & CY & V). rewrite EX0 in EX. injection EX as <- <-.
  destruct (rows_agree ord x (raised c x) a fs t s rate Tx X dX0 Y dY f Sfs Ho Hsq) as (Ty & ET & T1 & T2 & T3 & T4 & VT); try assumption; [apply map_length|].
  exists Ty, Y. split; [exact ET|]. split; [exact T1|]. split; [exact T2|]. intros h Hh Hs. rewrite T4 in Hh.
  assert (Hrow : forall k, (b < k < nrows X)%nat -> el Y k h = el X k h /\ el dY k h = el dX0 k h) by (intros k Hk; apply V; [lia|exact Hh|exact Hs]).
  split; [intros k Hk; apply Hrow, Hk|].
  eapply Rle_trans; [apply (VT h (fun k => (b <? k)%nat)); [congruence|]; intros k Hk Hkb; apply Hrow; lia|].
  apply Rmult_le_compat_l; [apply Rabs_pos|]. right.
  replace (nrows X) with (b + 1 + (nrows X - (b + 1)))%nat by lia. rewrite Rsum_app.
  rewrite (Rsum_0 (nrows X - (b + 1))) by (intros k Hk; destruct (Nat.ltb_spec b (b + 1 + k)); [reflexivity|lia]). rewrite Rplus_0_r.
  apply Rsum_ext. intros k Hk. destruct (Nat.ltb_spec b k); [lia|reflexivity].
Qed.
