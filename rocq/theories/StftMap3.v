(** [ssq_stft] of a scaled signal, of equal frames, of mirrored frames, at another sampling rate. *)
From Coq Require Import Reals Lra ZifyBool ZifyNat.
From Verif Require Import Py Round Parallel Cplx CplxProofs Padding PaddingProofs Buffer BufferProofs Freqs Stft StftProofs Squeeze SqueezeProofs BinProofs
  SqueezeThms SqueezeThms2 SqueezeThms3 Scales Ssqueeze SsqueezeProofs FreqRange Cwt CwtProofs CwtThms Transport RateThms SymmThms SymmInst StftTone StftMap StftMap2.
Import Stft.
Local Open Scope R_scope.
Ltac Zify.zify_post_hook ::= Z.div_mod_to_equations.

Lemma usable_rated x a n w r : usable x a n w -> usable x (rated a r) n w.
Proof. intros H. apply (usable_kind x a); [repeat split|exact H]. Qed.
Lemma two_freqs ord x a fs t s Tx Sx f Sfs : valid_order ord -> ssq_stft ord x a fs t s = Ok (Tx, Sx, f, Sfs) ->
  exists v0 v1 l, the_freqs s Sfs = v0 :: v1 :: l.
Proof.
  intros Ho E. destruct (ssq_stft_parts _ _ _ _ _ _ _ _ _ _ E) as (rate & dSx & _ & _ & _ & _ & F5 & _).
  destruct (one_cells _ _ _ _ _ _ _ _ _ Ho F5) as (_ & _ & cst & ca & gr & B1 & _).
  unfold ssq_const in B1. cbn [the_opts o_tr] in B1. destruct (the_freqs s Sfs) as [|v0 [|v1 l]]; try discriminate. exists v0, v1, l. reflexivity.
Qed.
Lemma one_grids ord x a fs t s Tx Sx f Sfs : valid_order ord -> ssq_stft ord x a fs t s = Ok (Tx, Sx, f, Sfs) -> grids (s_f64v s) 1 (the_freqs s Sfs).
Proof.
  intros Ho E. split; [lra|]. destruct (two_freqs _ _ _ _ _ _ _ _ _ _ Ho E) as (v0 & v1 & l & Ev). exists v0, v1, l. split; [exact Ev|left; reflexivity].
Qed.
Lemma map_one l : map (Rmult 1) l = l.
Proof. rewrite <- (map_id l) at 2. apply map_ext. intros r. ring. Qed.

Lemma sphase_scaled al Sf z d : al <> 0 -> phase_stft_pt (1 * Sf) (scaled al z) (scaled al d) = 1 * phase_stft_pt Sf z d.
Proof.
  intros Ha. unfold phase_stft_pt. rewrite !Rmult_1_l. f_equal. f_equal. unfold phase_ratio, scaled. destruct z as [a b], d as [c e]. cbn [Cmul RtoC Re Im fst snd].
  destruct (Req_dec (a * a + b * b) 0) as [E|E].
  - assert (a = 0) by nra. assert (b = 0) by nra. subst. unfold Rdiv. ring.
  - pose proof PI_RGT_0. field. repeat split; try lra. intros K. apply E.
    assert (al * al * (a * a + b * b) = 0) by lra. apply Rmult_integral in H0. destruct H0; [exfalso; nra|assumption].
Qed.
Lemma scaled_abs al z : Cabs (scaled al z) = Rabs al * Cabs z.
Proof. unfold scaled. rewrite Cabs_mul, Cabs_RtoC. reflexivity. Qed.
Lemma RtoC_mul a b : RtoC (a * b) = Cmul (RtoC a) (RtoC b).
Proof. apply C_eq; unfold Cmul, RtoC; cbn [fst snd]; ring. Qed.

(** ** Scaling *)
Definition loosened (al : R) (a : stft_args) (s : ssq_stft_opts) : ssq_stft_opts :=
  SS (s_freqs s) (s_sq s) (Some (Rabs al * the_gamma a s)) (s_flip s) (s_get_w s) (s_f64v s).
Theorem ssq_stft_scale ord x a n w fs t s al Tx Sx f Sfs : valid_order ord -> s_sq s = SqSum /\ al <> 0 \/ s_sq s = SqAbs /\ 0 < al -> usable x a n w ->
  ssq_stft ord x a fs t s = Ok (Tx, Sx, f, Sfs) ->
  exists Tx' Sx', ssq_stft ord (map (Rmult al) x) a fs t (loosened al a s) = Ok (Tx', Sx', f, Sfs) /\
    nrows Tx' = nrows Tx /\ ncols Tx' = ncols Tx /\
    forall q h, (q < nrows Tx)%nat -> (h < ncols Tx)%nat ->
      el Tx' q h = Cmul (RtoC al) (el Tx q h) /\ el Sx' q h = Cmul (RtoC al) (el Sx q h).
Proof.
  intros Ho Hsq Hu E. assert (Ha : al <> 0) by (destruct Hsq as [[_ H]|[_ H]]; lra).
  destruct (ssq_stft_parts _ _ _ _ _ _ _ _ _ _ E) as (rate & dSx & F1 & F2 & F3 & F4 & F5 & F6).
  destruct (stft_linear x x (rated a rate) n w al 0 (usable_rated _ _ _ _ _ Hu) eq_refl) as (X & dX & Y & dY & Z & dZ & E1 & E2 & E3 & L1 & L2).
  rewrite E1 in E2. injection E2 as <- <-. rewrite F3 in E1. injection E1 as <- <-. rewrite lin_scale in E3.
  destruct L1 as (_ & R1 & _ & C1 & V1). destruct L2 as (_ & R2 & _ & C2 & V2).
  destruct (one_cells _ _ _ _ _ _ _ _ _ Ho F5) as (T1 & T2 & _).
  assert (Hsh : nrows (squeeze_input (s_sq s) (nrows Sx) Sx) = nrows Sx /\ ncols (squeeze_input (s_sq s) (nrows Sx) Sx) = ncols Sx)
    by (destruct Hsq as [[-> _]|[-> _]]; cbn; auto). destruct Hsh as [Hs1 Hs2].
  assert (Hpsi : real_linear (scaled al)) by apply real_linear_scal.
  destruct (ssq_stft_follow ord x a fs t s Tx Sx f Sfs rate dSx (map (Rmult al) x) a fs t (loosened al a s) rate Z dZ
    (scaled al) (scaled al) (scaled al) 1 (Rabs al) Ho E F1 F3) as (Tx' & ET & N1 & N2 & N3); try reflexivity; try assumption.
  - rewrite map_length. exact F1.
  - ring.
  - rewrite map_one. unfold the_freqs. cbn [loosened s_freqs]. rewrite F4, R1. reflexivity.
  - eapply one_grids; eassumption.
  - apply Rabs_pos_lt, Ha.
  - intros z. apply scaled_abs.
  - intros z. apply scaled_abs.
  - intros Sf z d. apply sphase_scaled, Ha.
  - unfold scompatible. destruct Hsq as [[-> _]|[-> Hp]]; [reflexivity|]. split.
    + intros z. rewrite scaled_abs, RtoC_mul, Rabs_right by lra. reflexivity.
    + intros Sf z d. rewrite scaled_abs, RtoC_mul, Rabs_right by lra. apply sphase_scaled, Ha.
  - exists Tx', Z. rewrite ET, !map_one. split; [reflexivity|]. split; [congruence|]. split; [congruence|].
    assert (V1' : forall k h, (h < ncols Sx)%nat -> el Z k h = scaled al (el Sx k h))
      by (intros k h Hh; rewrite V1 by exact Hh; unfold scaled; apply C_eq; unfold Cadd, Cmul, RtoC; cbn [fst snd]; ring).
    assert (Kc : ncols dSx = ncols Sx).
    { destruct (stft_cells x (rated a rate) n w (usable_rated _ _ _ _ _ Hu)) as (xp & X & dX & _ & _ & _ & E1 & _ & _ & K1 & _).
      rewrite E1 in F3. injection F3 as <- <-. exact K1. }
    assert (V2' : forall k h, (h < ncols Sx)%nat -> el dZ k h = scaled al (el dSx k h))
      by (intros k h Hh; rewrite V2 by congruence; unfold scaled; apply C_eq; unfold Cadd, Cmul, RtoC; cbn [fst snd]; ring).
    intros q h Hq Hh. rewrite T1, Hs1 in Hq. rewrite T2, Hs2 in Hh. split; [|apply V1', Hh].
    assert (Hz : (h < ncols Z)%nat) by congruence.
    rewrite (N3 h h Hh Hz (fun i _ => conj (V1' i h Hh) (V2' i h Hh)) q Hq). unfold scaled. apply C_eq; unfold Cmul, RtoC; cbn [fst snd]; ring.
Qed.

(** ** Equal frames *)
Theorem ssq_stft_local ord x x' a n w fs t t' s rate Tx Sx f Sfs : valid_order ord -> (forall g, s_sq s <> SqFun g) -> usable x a n w -> usable x' a n w ->
  process_fs_and_t fs t (length x) = Ok rate -> process_fs_and_t fs t' (length x') = Ok rate ->
  ssq_stft ord x a fs t s = Ok (Tx, Sx, f, Sfs) ->
  exists Tx' Sx', ssq_stft ord x' a fs t' s = Ok (Tx', Sx', f, Sfs) /\ nrows Tx' = nrows Tx /\
    forall h h', (h < ncols Tx)%nat -> (h' < ncols Tx')%nat -> same_frame n (Z.to_nat (a_hop a)) x x' h h' ->
    forall q, (q < nrows Tx)%nat -> el Tx' q h' = el Tx q h /\ el Sx' q h' = el Sx q h.
Proof.
  intros Ho Hsq Hu Hu' Er Er' E.
  destruct (ssq_stft_parts _ _ _ _ _ _ _ _ _ _ E) as (rate0 & dSx & F1 & F2 & F3 & F4 & F5 & F6). rewrite Er in F1. injection F1 as <-.
  destruct (stft_cells x (rated a rate) n w (usable_rated _ _ _ _ _ Hu)) as (xp & X & dX & _ & _ & _ & E1 & R1 & _).
  rewrite F3 in E1. injection E1 as <- <-.
  destruct (stft_cells x' (rated a rate) n w (usable_rated _ _ _ _ _ Hu')) as (yp & Y & dY & _ & _ & _ & E2 & R2 & _).
  destruct (one_cells _ _ _ _ _ _ _ _ _ Ho F5) as (T1 & T2 & _).
  assert (Hsh : nrows (squeeze_input (s_sq s) (nrows Sx) Sx) = nrows Sx /\ ncols (squeeze_input (s_sq s) (nrows Sx) Sx) = ncols Sx)
    by (destruct (s_sq s) as [| | |g] eqn:Es; cbn; auto; destruct (Hsq g eq_refl)). destruct Hsh as [Hs1 Hs2].
  destruct (ssq_stft_follow ord x a fs t s Tx Sx f Sfs rate dSx x' a fs t' s rate Y dY
    (fun z => z) (fun z => z) (fun z => z) 1 1 Ho E Er F3) as (Tx' & ET & N1 & N2 & N3); try reflexivity; try assumption; try lra.
  - congruence.
  - rewrite map_one. unfold the_freqs. rewrite F4, R2, R1. reflexivity.
  - eapply one_grids; eassumption.
  - repeat split; intros; reflexivity.
  - intros z. ring.
  - intros z. ring.
  - intros Sf z d. rewrite !Rmult_1_l. reflexivity.
  - unfold scompatible. destruct (s_sq s) as [| | |g] eqn:Es; [reflexivity|..|destruct (Hsq g eq_refl)].
    + repeat split. intros Sf r d. rewrite !Rmult_1_l. reflexivity.
    + repeat split. intros Sf z d. rewrite !Rmult_1_l. reflexivity.
  - exists Tx', Y. rewrite ET, !map_one. split; [reflexivity|]. split; [congruence|]. intros h h' Hh Hh' Hs q Hq.
    rewrite T1, Hs1 in Hq. rewrite T2, Hs2 in Hh. rewrite N2 in Hh'.
    pose proof (stft_local x x' (rated a rate) n w Sx dSx Y dY (usable_rated _ _ _ _ _ Hu) (usable_rated _ _ _ _ _ Hu') F3 E2 h h' Hh Hh' Hs) as HL.
    split; [|apply HL]. rewrite (N3 h h') by (try assumption; intros i Hi; apply HL). apply C_eq; unfold Cmul, RtoC; cbn [fst snd]; ring.
Qed.

(** ** Sampling rate *)
Lemma sphase_rate c Sf z d : 0 < c -> phase_stft_pt (c * Sf) z (scaled c d) = c * phase_stft_pt Sf z d.
Proof.
  intros Hc. unfold phase_stft_pt. rewrite <- (Rabs_pos_eq c) at 3 by lra. rewrite <- Rabs_mult. f_equal.
  unfold phase_ratio, scaled, Re, Im, RtoC, Cmul, Rdiv. cbn [fst snd]. ring.
Qed.
Theorem ssq_stft_rate ord x a n w r s c Tx Sx f Sfs : valid_order ord -> (forall g, s_sq s <> SqFun g) -> usable x a n w -> a_modulated a = true -> s_freqs s = None ->
  0 < c -> EPS64 <= nth 1 Sfs 0 - nth 0 Sfs 0 -> EPS64 <= c * (nth 1 Sfs 0 - nth 0 Sfs 0) ->
  ssq_stft ord x a (Some r) None s = Ok (Tx, Sx, f, Sfs) ->
  exists Tx' Sx', ssq_stft ord x a (Some (c * r)) None s = Ok (Tx', Sx', map (Rmult c) f, map (Rmult c) Sfs) /\
    nrows Tx' = nrows Tx /\ ncols Tx' = ncols Tx /\
    forall q h, (q < nrows Tx)%nat -> (h < ncols Tx)%nat -> el Tx' q h = Cmul (RtoC c) (el Tx q h) /\ el Sx' q h = el Sx q h.
Proof.
  intros Ho Hsq Hu Hm Hfr Hc He1 He2 E.
  destruct (ssq_stft_parts _ _ _ _ _ _ _ _ _ _ E) as (rate & dSx & F1 & F2 & F3 & F4 & F5 & F6).
  assert (Hr : rate = r /\ 0 < r).
  { unfold process_fs_and_t in F1. destruct (Rle_dec r 0); [discriminate|]. injection F1 as <-. split; [reflexivity|lra]. }
  destruct Hr as [-> Hr].
  destruct (stft_rate x (rated a r) n w c (usable_rated _ _ _ _ _ Hu) Hm) as (X & dX & Y & dY & E1 & E2 & R1 & C1 & V1).
  rewrite F3 in E1. injection E1 as <- <-. cbn [rated a_fs] in E2.
  destruct (one_cells _ _ _ _ _ _ _ _ _ Ho F5) as (T1 & T2 & _).
  assert (Hsh : nrows (squeeze_input (s_sq s) (nrows Sx) Sx) = nrows Sx /\ ncols (squeeze_input (s_sq s) (nrows Sx) Sx) = ncols Sx)
    by (destruct (s_sq s) as [| | |g] eqn:Es; cbn; auto; destruct (Hsq g eq_refl)). destruct Hsh as [Hs1 Hs2].
  destruct (ssq_stft_follow ord x a (Some r) None s Tx Sx f Sfs r dSx x a (Some (c * r)) None s (c * r) Y dY
    (fun z => z) (scaled c) (fun z => z) c 1 Ho E F1 F3) as (Tx' & ET & N1 & N2 & N3); try reflexivity; try assumption; try lra.
  - unfold process_fs_and_t. destruct (Rle_dec (c * r) 0) as [H|]; [nra|reflexivity].
  - unfold the_freqs. rewrite Hfr, F4, R1. unfold make_Sfs. rewrite <- linspace_scale. f_equal; [ring|unfold Rdiv; ring].
  - split; [exact Hc|]. destruct (two_freqs _ _ _ _ _ _ _ _ _ _ Ho E) as (v0 & v1 & l & Ev). exists v0, v1, l. split; [exact Ev|]. right.
    unfold the_freqs in Ev. rewrite Hfr in Ev. rewrite Ev in He1, He2. cbn [nth] in He1, He2. split; assumption.
  - repeat split; intros; reflexivity.
  - intros z. ring.
  - intros z. ring.
  - intros Sf z d. apply sphase_rate, Hc.
  - unfold scompatible. destruct (s_sq s) as [| | |g] eqn:Es; [reflexivity|..|destruct (Hsq g eq_refl)].
    + split; [reflexivity|]. split; [reflexivity|]. intros Sf z d. apply sphase_rate, Hc.
    + split; [reflexivity|]. intros Sf z d. apply sphase_rate, Hc.
  - exists Tx', Y. split; [exact ET|]. split; [congruence|]. split; [congruence|]. intros q h Hq Hh. rewrite T1, Hs1 in Hq. rewrite T2, Hs2 in Hh.
    split; [|apply V1, Hh]. apply N3; try congruence. intros i Hi. apply V1, Hh.
Qed.
(** unmodulated, the derivative does not see the rate *)
Theorem stft_rate_unmod x a n w r : usable x a n w -> a_modulated a = false -> stft x (rated a r) = stft x a.
Proof.
  intros Hu Hm. unfold stft, rated. cbn [a_fs a_window a_n_fft a_win_len a_hop a_modulated a_padtype a_f32]. rewrite Hm. reflexivity.
Qed.
