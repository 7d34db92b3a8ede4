(** How [ssq_stft] follows (C129-C131). *)
From Coq Require Import Reals Lra ZifyBool ZifyNat.
From Verif Require Import Py Round Parallel Cplx CplxProofs Padding PaddingProofs Buffer BufferProofs Freqs Stft StftProofs Squeeze SqueezeProofs BinProofs
  SqueezeThms SqueezeThms2 SqueezeThms3 Scales Ssqueeze SsqueezeProofs FreqRange Cwt CwtProofs CwtThms Transport RateThms SymmThms StftTone StftMap.
Import Stft.
Local Open Scope R_scope.

(** _ssq_stft.py: the frequencies given, checked *)
Definition freqs_check (s : ssq_stft_opts) : res unit :=
  match s_freqs s with
  | Some v => do k <- infer_scaletype (s_f64v s) v; match k with KLinear => Ok tt | _ => Err ValueError end
  | None => Ok tt
  end.
Definition the_gamma (a : stft_args) (s : ssq_stft_opts) : R :=
  match s_gamma s with Some g => g | None => 10 * (if a_f32 a then EPS32 else EPS64) end.
Definition the_freqs (s : ssq_stft_opts) (Sfs : list R) : list R := match s_freqs s with Some v => v | None => Sfs end.
Definition the_opts (s : ssq_stft_opts) (v : list R) (g : R) (Sfs : list R) : ssq_opts :=
  SO TStft (FArray v) None true (s_f64v s) 1 (s_sq s) MRMaximal (Some g) (s_flip s) (Some Sfs).
Definition the_w (s : ssq_stft_opts) (Sfs : list R) (g : R) (Sx dSx : mat C) : option (mat fval) :=
  if s_get_w s then Some (phase_stft Sfs g Sx dSx) else None.
Definition the_d (s : ssq_stft_opts) (dSx : mat C) : option (mat C) := if s_get_w s then None else Some dSx.

Lemma phase_nonneg Sfs g Sx dSx : has_negative (phase_stft Sfs g Sx dSx) = false.
Proof.
  apply has_negative_false. intros i j r. cbn [phase_stft el]. destruct (Rlt_dec _ _); [discriminate|]. intros E. injection E as <-. apply Rabs_pos.
Qed.
Lemma ssq_stft_unfold ord x a fs t s rate Sx dSx : process_fs_and_t fs t (length x) = Ok rate -> freqs_check s = Ok tt ->
  stft x (rated a rate) = Ok (Sx, dSx) ->
  let Sfs := make_Sfs (nrows Sx) rate in let g := the_gamma a s in let v := the_freqs s Sfs in
  ssq_stft ord x a fs t s =
  bind (ssqueeze_one ord (the_opts s v g Sfs) None v false (squeeze_input (s_sq s) (nrows Sx) Sx) (the_w s Sfs g Sx dSx) (the_d s dSx))
    (fun T => Ok (T, Sx, flip_freqs (the_opts s v g Sfs) v, Sfs)).
Proof.
  intros E1 E2 E3 Sfs g v. unfold ssq_stft. rewrite E1. cbn [bind]. unfold freqs_check in E2. rewrite E2. cbn [bind].
  fold (rated a rate). rewrite E3. cbn [bind]. unfold ssqueeze. cbn [o_gamma].
  change (match s_gamma s with Some g => g | None => 10 * (if a_f32 a then EPS32 else EPS64) end) with (the_gamma a s). fold g. fold Sfs.
  fold (the_w s Sfs g Sx dSx) (the_d s dSx).
  match goal with |- bind (if ?b then _ else _) _ = _ => assert (Eb : b = false) end.
  { unfold the_w, the_d. destruct (s_get_w s); [apply phase_nonneg|reflexivity]. }
  rewrite Eb. cbn [ssq_freqs_of o_tr o_freqs bind]. fold (the_freqs s Sfs). fold v. fold (the_opts s v g Sfs).
  change (o_sq (the_opts s v g Sfs)) with (s_sq s). destruct (ssqueeze_one _ _ _ _ _ _ _ _); reflexivity.
Qed.
Lemma ssq_stft_parts ord x a fs t s Tx Sx f Sfs : ssq_stft ord x a fs t s = Ok (Tx, Sx, f, Sfs) -> exists rate dSx,
  process_fs_and_t fs t (length x) = Ok rate /\ freqs_check s = Ok tt /\ stft x (rated a rate) = Ok (Sx, dSx) /\ Sfs = make_Sfs (nrows Sx) rate /\
  let g := the_gamma a s in let v := the_freqs s Sfs in
  ssqueeze_one ord (the_opts s v g Sfs) None v false (squeeze_input (s_sq s) (nrows Sx) Sx) (the_w s Sfs g Sx dSx) (the_d s dSx) = Ok Tx /\
  f = flip_freqs (the_opts s v g Sfs) v.
Proof.
  intros E. pose proof E as E0. unfold ssq_stft in E0. destruct (process_fs_and_t fs t (length x)) as [rate|] eqn:E1; [|discriminate]. cbn [bind] in E0.
  change (match s_freqs s with Some v => do k <- infer_scaletype (s_f64v s) v; match k with KLinear => Ok tt | _ => Err ValueError end | None => Ok tt end) with (freqs_check s) in E0.
  destruct (freqs_check s) as [[]|] eqn:E2; [|discriminate]. cbn [bind] in E0. fold (rated a rate) in E0.
  destruct (stft x (rated a rate)) as [[Sx0 dSx]|] eqn:E3; [|discriminate]. clear E0.
  pose proof (ssq_stft_unfold ord x a fs t s rate Sx0 dSx E1 E2 E3) as U. cbv zeta in U. rewrite U in E.
  destruct (ssqueeze_one _ _ _ _ _ _ _ _) as [T|] eqn:E4; [|discriminate]. cbn [bind] in E. injection E as <- <- <- <-.
  exists rate, dSx. repeat split; auto.
Qed.

Lemma nth_repeat_in {A} (r d : A) n i : (i < n)%nat -> nth i (repeat r n) d = r.
Proof. revert i; induction n as [|n IH]; intros [|i] H; cbn; try lia; [reflexivity|apply IH; lia]. Qed.
(** two squeezings, column [j] of one against column [j'] of the other *)
Lemma one_follow ord o o' v v' V V' w w' d d' T psi kap g g' : valid_order ord ->
  o_tr o = TStft -> o_tr o' = TStft -> o_flip o' = o_flip o -> real_linear psi ->
  ssqueeze_one ord o None v false V w d = Ok T -> get_grid (o_f64v o) false v = Ok g -> get_grid (o_f64v o') false v' = Ok g' ->
  nrows V' = nrows V -> (exists v0 v1 l v0' v1' l', v = v0 :: v1 :: l /\ v' = v0' :: v1' :: l' /\ v1' - v0' = kap * (v1 - v0)) ->
  (w = None <-> w' = None) -> (w' = None -> d' <> None /\ o_gamma o' <> None) ->
  exists T', ssqueeze_one ord o' None v' false V' w' d' = Ok T' /\ nrows T' = nrows V /\ ncols T' = ncols V' /\
    forall j j', (j < ncols V)%nat -> (j' < ncols V')%nat -> (forall i, (i < nrows V)%nat -> el V' i j' = psi (el V i j)) ->
      (forall i, (i < nrows V)%nat -> let omax := (Z.of_nat (nrows V) - 1)%Z in
         same_bin (bin_of w omax g) (bin_of w omax g') (freq_at o V w d i j) (freq_at o' V' w' d' i j')) ->
      forall q, (q < nrows V)%nat -> el T' q j' = Cmul (RtoC kap) (psi (el T q j)).
Proof.
  intros Ho Ht Ht' Hf Hpsi E Eg Eg' Hr (v0 & v1 & l & v0' & v1' & l' & Ev & Ev' & Hk) Hw Hd.
  destruct (one_cells _ _ _ _ _ _ _ _ _ Ho E) as (A1 & A2 & cst & ca & g0 & B1 & B2 & B3 & B4).
  rewrite Eg in B3. injection B3 as <-.
  assert (Ec : cst = CScalar (v1 - v0)) by (unfold ssq_const in B1; rewrite Ht, Ev in B1; injection B1 as <-; reflexivity). subst cst.
  assert (Ec' : ssq_const o' None v' = Ok (CScalar (v1' - v0'))) by (unfold ssq_const; rewrite Ht', Ev'; reflexivity).
  unfold const_arr in B2. destruct (nrows V =? 1)%nat eqn:E1; [discriminate|]. injection B2 as <-.
  assert (Ea' : const_arr (nrows V') (CScalar (v1' - v0')) = Ok (repeat (v1' - v0') (nrows V))) by (unfold const_arr; rewrite Hr, E1; reflexivity).
  assert (exists T', ssqueeze_one ord o' None v' false V' w' d' = Ok T') as (T' & E').
  { unfold ssqueeze_one. rewrite Ec'. cbn [bind]. destruct w' as [w'|].
    - unfold indexed_sum_onfly. rewrite Ea', Eg'. cbn [bind]. eexists. reflexivity.
    - destruct (Hd eq_refl) as [H1 H2]. destruct d' as [d'|]; [|congruence]. destruct (o_gamma o') as [gm|]; [|congruence].
      unfold ssqueeze_fast. rewrite Ea', Eg'. cbn [bind]. destruct (o_Sfs o'); eexists; reflexivity. }
  exists T'. split; [exact E'|].
  destruct (one_cells _ _ _ _ _ _ _ _ _ Ho E') as (A1' & A2' & cst' & ca' & g0' & B1' & B2' & B3' & B4').
  rewrite Eg' in B3'. injection B3' as <-. rewrite Ec' in B1'. injection B1' as <-. rewrite Ea' in B2'. injection B2' as <-.
  split; [congruence|]. split; [exact A2'|]. intros j j' Hj Hj' HW Hb q Hq.
  cbv zeta in B4, B4'. rewrite B4' by congruence. rewrite B4 by assumption. rewrite (real_linear_sum psi) by exact Hpsi. rewrite Hr, <- Csum_scal.
  apply Csum_ext. intros i Hi. specialize (Hb i Hi). cbv zeta in Hb.
  assert (Ew : (match w' with Some _ => bin_onfly (Z.of_nat (nrows V) - 1) g' | None => bin_fast (Z.of_nat (nrows V) - 1) g' end)
             = bin_of w (Z.of_nat (nrows V) - 1) g').
  { destruct w, w'; try reflexivity; destruct Hw as [Hw1 Hw2]; (discriminate (Hw1 eq_refl) || discriminate (Hw2 eq_refl)). }
  assert (Ew0 : (match w with Some _ => bin_onfly (Z.of_nat (nrows V) - 1) g | None => bin_fast (Z.of_nat (nrows V) - 1) g end)
             = bin_of w (Z.of_nat (nrows V) - 1) g) by (destruct w; reflexivity).
  rewrite Ew, Ew0. destruct Hpsi as (P0 & _ & P2).
  unfold same_bin in Hb. destruct (freq_at o V w d i j) as [r|], (freq_at o' V' w' d' i j') as [r'|]; try contradiction.
  2:{ rewrite P0. apply C_eq; cbn; ring. }
  rewrite Hb, Hf. destruct (_ =? _)%Z; [|rewrite P0; apply C_eq; cbn; ring].
  rewrite HW by exact Hi. rewrite !nth_repeat_in by exact Hi. rewrite P2, Hk. apply C_eq; unfold Cmul, RtoC; cbn [fst snd]; ring.
Qed.

(** the map [phi] of [Sx] and [chi] of [dSx], seen by the squeezed array *)
Definition scompatible (sq : squeezing) (kap al : R) (phi chi psi : C -> C) : Prop :=
  match sq with
  | SqSum => forall z, psi z = phi z
  | SqAbs => (forall z, psi (RtoC (Cabs z)) = RtoC (Cabs (phi z))) /\
             (forall Sf z d, phase_stft_pt (kap * Sf) (RtoC (Cabs (phi z))) (chi d) = kap * phase_stft_pt Sf (RtoC (Cabs z)) d)
  | SqLebesgue => (forall z, psi z = z) /\ al = 1 /\
             (forall Sf r d, phase_stft_pt (kap * Sf) (RtoC r) (chi d) = kap * phase_stft_pt Sf (RtoC r) d)
  | SqFun _ => False
  end.
Definition grids (f64 : bool) (kap : R) (v : list R) : Prop :=
  0 < kap /\ exists v0 v1 l, v = v0 :: v1 :: l /\ (kap = 1 \/ EPS64 <= v1 - v0 /\ EPS64 <= kap * (v1 - v0)).

Theorem ssq_stft_follow ord x a fs t s Tx Sx f Sfs rate dSx x' a' fs' t' s' rate' Sx' dSx' phi chi psi kap al : valid_order ord ->
  ssq_stft ord x a fs t s = Ok (Tx, Sx, f, Sfs) ->
  process_fs_and_t fs t (length x) = Ok rate -> stft x (rated a rate) = Ok (Sx, dSx) ->
  process_fs_and_t fs' t' (length x') = Ok rate' -> freqs_check s' = Ok tt -> stft x' (rated a' rate') = Ok (Sx', dSx') ->
  nrows Sx' = nrows Sx -> rate' = kap * rate -> the_freqs s' (make_Sfs (nrows Sx') rate') = map (Rmult kap) (the_freqs s Sfs) ->
  grids (s_f64v s) kap (the_freqs s Sfs) -> s_f64v s' = s_f64v s -> s_sq s' = s_sq s -> s_flip s' = s_flip s -> s_get_w s' = s_get_w s ->
  0 < al -> the_gamma a' s' = al * the_gamma a s ->
  real_linear psi -> (forall z, Cabs (psi z) = al * Cabs z) -> (forall z, Cabs (phi z) = al * Cabs z) ->
  (forall Sf z d, phase_stft_pt (kap * Sf) (phi z) (chi d) = kap * phase_stft_pt Sf z d) -> scompatible (s_sq s) kap al phi chi psi ->
  exists Tx', ssq_stft ord x' a' fs' t' s' = Ok (Tx', Sx', map (Rmult kap) f, map (Rmult kap) Sfs) /\
    nrows Tx' = nrows Sx /\ ncols Tx' = ncols Sx' /\
    forall j j', (j < ncols Sx)%nat -> (j' < ncols Sx')%nat ->
      (forall i, (i < nrows Sx)%nat -> el Sx' i j' = phi (el Sx i j) /\ el dSx' i j' = chi (el dSx i j)) ->
      forall q, (q < nrows Sx)%nat -> el Tx' q j' = Cmul (RtoC kap) (psi (el Tx q j)).
Proof.
  intros Ho E Er ES Er' Ec' ES' Hn Hrate Hv (Hk & v0 & v1 & l & Ev & Hres) Hf64 Hsq Hfl Hgw Hal Hgam Hpsi Hpa Hfa Hph Hcomp.
  destruct (ssq_stft_parts _ _ _ _ _ _ _ _ _ _ E) as (rate0 & dSx0 & F1 & F2 & F3 & F4 & F5 & F6).
  rewrite Er in F1. injection F1 as <-. rewrite ES in F3. injection F3 as <-.
  pose proof (ssq_stft_unfold ord x' a' fs' t' s' rate' Sx' dSx' Er' Ec' ES') as U. cbv zeta in U.
  assert (ESfs : make_Sfs (nrows Sx') rate' = map (Rmult kap) Sfs).
  { rewrite F4, Hn, Hrate. unfold make_Sfs. rewrite <- linspace_scale. f_equal; [ring|unfold Rdiv; ring]. }
  rewrite Hv, ESfs in U. set (v := the_freqs s Sfs) in *. set (g := the_gamma a s) in *. rewrite Hgam, Hsq in U.
  set (o := the_opts s v g Sfs) in *. set (o' := the_opts s' (map (Rmult kap) v) (al * g) (map (Rmult kap) Sfs)) in *.
  set (V := squeeze_input (s_sq s) (nrows Sx) Sx) in *. set (V' := squeeze_input (s_sq s) (nrows Sx') Sx') in *.
  assert (HVs : forall S, nrows (squeeze_input (s_sq s) (nrows S) S) = nrows S /\ ncols (squeeze_input (s_sq s) (nrows S) S) = ncols S).
  { intros S. destruct (s_sq s); cbn; try (split; reflexivity). contradiction Hcomp. }
  destruct (HVs Sx) as [V1 V2]. destruct (HVs Sx') as [V3 V4]. fold V in V1, V2. fold V' in V3, V4. clear HVs.
  destruct (one_cells _ _ _ _ _ _ _ _ _ Ho F5) as (_ & _ & cst & ca & gr & _ & _ & Eg & _).
  assert (Egr : gr = GLin v0 (ensure_nonzero_nonnegative (v1 - v0))) by (unfold get_grid in Eg; rewrite Ev in Eg; injection Eg as <-; reflexivity).
  set (gr' := GLin (kap * v0) (ensure_nonzero_nonnegative (kap * v1 - kap * v0))).
  assert (Eg' : get_grid (o_f64v o') false (map (Rmult kap) v) = Ok gr') by (unfold get_grid; rewrite Ev; reflexivity).
  assert (Egs : gr' = scale_grid kap gr).
  { rewrite Egr. unfold gr'. cbn [scale_grid]. f_equal. destruct Hres as [ ->|[R1 R2]]; [rewrite !Rmult_1_l; reflexivity|].
    unfold ensure_nonzero_nonnegative. destruct (Rlt_dec (kap * v1 - kap * v0) EPS64), (Rlt_dec (v1 - v0) EPS64); try lra. }
  assert (Hw : the_w s Sfs g Sx dSx = None <-> the_w s' (map (Rmult kap) Sfs) (al * g) Sx' dSx' = None).
  { unfold the_w. rewrite Hgw. destruct (s_get_w s); split; try discriminate; reflexivity. }
  destruct (one_follow ord o o' v (map (Rmult kap) v) V V' (the_w s Sfs g Sx dSx) (the_w s' (map (Rmult kap) Sfs) (al * g) Sx' dSx')
    (the_d s dSx) (the_d s' dSx') Tx psi kap gr gr' Ho eq_refl eq_refl Hfl Hpsi F5 Eg Eg' ltac:(congruence)) as (Tx' & ET & N1 & N2 & N3).
  - rewrite Ev. cbn [map]. exists v0, v1, l, (kap * v0), (kap * v1), (map (Rmult kap) l). repeat split. ring.
  - exact Hw.
  - intros E0. unfold the_w, the_d in *. rewrite Hgw in *. destruct (s_get_w s); [discriminate|]. split; discriminate.
  - exists Tx'. rewrite ET in U. cbn [bind] in U. rewrite U. split; [|split; [congruence|split; [congruence|]]].
    + repeat f_equal. rewrite F6. unfold flip_freqs. cbn [o o' the_opts o_tr o_flip]. rewrite Hfl. destruct (s_flip s); [symmetry; apply map_rev|reflexivity].
    + intros j j' Hj Hj' Hcol q Hq. apply N3; try congruence.
      * intros i Hi. rewrite V1 in Hi. destruct (Hcol i Hi) as [H1 _]. unfold V, V', squeeze_input. destruct (s_sq s) eqn:Es; cbn [scompatible el nrows] in *; [|..|contradiction].
        -- rewrite Hcomp. exact H1.
        -- destruct Hcomp as [-> _]. rewrite Hn. reflexivity.
        -- destruct Hcomp as [-> _]. rewrite H1. reflexivity.
      * intros i Hi omax. rewrite V1 in Hi. destruct (Hcol i Hi) as [H1 H2]. rewrite Egs.
        assert (ES1 : nth i (map (Rmult kap) Sfs) 0 = kap * nth i Sfs 0) by apply nth_scale.
        unfold freq_at, the_w, the_d. cbn [o o' the_opts o_gamma o_Sfs]. rewrite Hgw. destruct (s_get_w s).
        -- cbn [phase_stft el]. rewrite H1, H2, Hfa, ES1, Hph.
           destruct (Rlt_dec (al * Cabs (el Sx i j)) (al * g)), (Rlt_dec (Cabs (el Sx i j)) g); cbn [same_bin]; try exact I; try nra.
           apply (bin_of_scale (Some (phase_stft Sfs g Sx dSx))), Hk.
        -- rewrite H2, ES1. unfold V, V', squeeze_input. destruct (s_sq s) eqn:Es; cbn [scompatible el nrows] in *; [|..|contradiction].
           ++ rewrite H1, Hfa. destruct (Rlt_dec g (Cabs (el Sx i j))), (Rlt_dec (al * g) (al * Cabs (el Sx i j))); cbn [same_bin]; try exact I; try nra.
              rewrite Hph. apply (bin_of_scale None), Hk.
           ++ destruct Hcomp as (_ & Ha1 & Hc3). rewrite Ha1, Rmult_1_l, Hn. destruct (Rlt_dec g (Cabs (RtoC (1 / INR (nrows Sx))))); cbn [same_bin]; [|exact I].
              rewrite Hc3. apply (bin_of_scale None), Hk.
           ++ destruct Hcomp as (_ & Hc3). rewrite H1.
              assert (CA : forall z, Cabs (RtoC (Cabs z)) = Cabs z) by (intros z; rewrite Cabs_RtoC; apply Rabs_right, Rle_ge, Cabs_nonneg).
              rewrite Hc3, !CA, Hfa. destruct (Rlt_dec g (Cabs (el Sx i j))), (Rlt_dec (al * g) (al * Cabs (el Sx i j))); cbn [same_bin]; try exact I; try nra.
              apply (bin_of_scale None), Hk.
Qed.
