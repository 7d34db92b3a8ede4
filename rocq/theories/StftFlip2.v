(** The same for the frequencies found and for [ssq_stft]. *)
From Coq Require Import Reals Lra ZifyBool ZifyNat.
From Verif Require Import Py Round Parallel Cplx CplxProofs Padding PaddingProofs Buffer BufferProofs Freqs Stft StftProofs Squeeze SqueezeProofs BinProofs
  SqueezeThms SqueezeThms2 SqueezeThms3 Scales Ssqueeze SsqueezeProofs FreqRange Cwt CwtProofs CwtThms Transport RateThms SymmThms StftTone StftMap StftMap2 StftMap3 SymmInst StftFlip.
Import Stft.
Local Open Scope R_scope.
Ltac Zify.zify_post_hook ::= Z.div_mod_to_equations.

Lemma col_sign_sq a n h : col_sign a n h * col_sign a n h = 1.
Proof. apply sg_sq. Qed.
Lemma Cabs_flip s z : s * s = 1 -> Cabs (Cmul (RtoC s) (Cconj z)) = Cabs z.
Proof.
  intros H. rewrite Cabs_mul, Cabs_RtoC, Cabs_conj. replace (Rabs s) with 1; [ring|].
  destruct (Rle_dec 0 s); [rewrite Rabs_right by lra; nra|rewrite Rabs_left by lra; nra].
Qed.
Lemma ratio_flip s z d : s * s = 1 -> phase_ratio (Cmul (RtoC s) (Cconj z)) (Cmul (RtoC s) (Cconj d)) = - phase_ratio z d.
Proof.
  intros H. unfold phase_ratio. unfold Cmul, RtoC, Cconj, Re, Im. cbn [fst snd].
  destruct z as [zr zi], d as [dr di]. cbn [fst snd].
  replace ((s * zr - 0 * - zi) * (s * zr - 0 * - zi) + (s * - zi + 0 * zr) * (s * - zi + 0 * zr)) with ((s * s) * (zr * zr + zi * zi)) by ring.
  replace ((s * - di + 0 * dr) * (s * zr - 0 * - zi) - (s * dr - 0 * - di) * (s * - zi + 0 * zr)) with ((s * s) * - (di * zr - dr * zi)) by ring.
  rewrite H, !Rmult_1_l. unfold Rdiv. ring.
Qed.

(** the frequency of row [i] before its modulus is taken lies between 0 and half the rate *)
Definition in_band (rate Sf : R) (z d : C) : Prop := 0 <= Sf - phase_ratio z d <= rate / 2.
Lemma pt_flip rate Sf z d s : s * s = 1 -> in_band rate Sf z d ->
  phase_stft_pt (rate / 2 - Sf) (Cmul (RtoC s) (Cconj z)) (Cmul (RtoC s) (Cconj d)) = rate / 2 - phase_stft_pt Sf z d.
Proof.
  intros H (B1 & B2). unfold phase_stft_pt. rewrite ratio_flip by exact H. rewrite (Rabs_right (Sf - _)) by lra. rewrite Rabs_right by lra. ring.
Qed.
Lemma Sfs_mirror n rate k : (2 <= n)%nat -> Nat.even n = true -> (k <= n / 2)%nat ->
  nth (n / 2 - k) (make_Sfs (n / 2 + 1) rate) 0 = rate / 2 - nth k (make_Sfs (n / 2 + 1) rate) 0.
Proof.
  intros Hn He Hk. rewrite !make_Sfs_even by (assumption || lia). rewrite minus_INR by exact Hk.
  apply Nat.even_spec in He. destruct He as (p & ->). replace (2 * p / 2)%nat with p in * by lia. rewrite mult_INR. cbn [INR]. field. apply not_0_INR. lia.
Qed.

(** ** the frequencies found *)
Theorem phase_flip x x' a n w rate g : usable x a n w -> (2 <= n)%nat -> Nat.even n = true -> alternate x x' ->
  exists Sx dSx Sx' dSx', stft x (rated a rate) = Ok (Sx, dSx) /\ stft x' (rated a rate) = Ok (Sx', dSx') /\
  let Sfs := make_Sfs (n / 2 + 1) rate in
  forall k h, (k <= n / 2)%nat -> (h < ncols Sx)%nat -> frame_ok a n x h -> in_band rate (nth k Sfs 0) (el Sx k h) (el dSx k h) ->
    el (phase_stft Sfs g Sx' dSx') (n / 2 - k)%nat h = match el (phase_stft Sfs g Sx dSx) k h with Fin r => Fin (rate / 2 - r) | Inf => Inf end.
Proof.
  intros Hx Hn He Ha. destruct (stft_flip x x' (rated a rate) n w (usable_rated _ _ _ _ _ Hx) He Ha) as (Sx & dSx & Sx' & dSx' & E1 & E2 & R1 & R2 & K & V).
  exists Sx, dSx, Sx', dSx'. split; [exact E1|]. split; [exact E2|]. intros Sfs k h Hk Hh Hf Hb. destruct (V k h Hk Hh Hf) as (V1 & V2).
  cbn [phase_stft el]. rewrite V1, V2, Cabs_flip by apply col_sign_sq. destruct (Rlt_dec (Cabs (el Sx k h)) g); [reflexivity|].
  unfold Sfs in *. rewrite Sfs_mirror by assumption. rewrite pt_flip by (apply col_sign_sq || assumption). reflexivity.
Qed.

(** ** bins of mirrored frequencies *)
Lemma mirror_bin f64 v d p g r : (1 <= p)%nat -> (Z.of_nat p < 2 ^ 62)%Z -> length v = (p + 1)%nat -> EPS64 <= d -> (forall k, (k < length v)%nat -> nth k v 0 = INR k * d) ->
  get_grid f64 false v = Ok g -> 0 <= r <= INR p * d -> (forall m : nat, r <> (INR m + 1 / 2) * d) ->
  bin_onfly (Z.of_nat p) g (INR p * d - r) = (Z.of_nat p - bin_onfly (Z.of_nat p) g r)%Z /\ (0 <= bin_onfly (Z.of_nat p) g r <= Z.of_nat p)%Z /\
  bin_fast (Z.of_nat p) g (INR p * d - r) = bin_onfly (Z.of_nat p) g (INR p * d - r) /\ bin_fast (Z.of_nat p) g r = bin_onfly (Z.of_nat p) g r.
Proof.
  intros Hp Hp2 HL Hd Hv Eg Hr Ht. pose proof EPS64_pos as He.
  destruct (nearest_lin f64 v d (Z.of_nat p) ltac:(lia) Hd) as (g' & Eg' & H); [intros k Hk; rewrite !Hv by lia; simpl; ring|lia|].
  rewrite Eg in Eg'. injection Eg' as <-.
  assert (E1 : nth 1 v 0 - nth 0 v 0 = d) by (rewrite !Hv by lia; simpl; ring).
  assert (RC : forall s, s <= INR p * d -> reach_lin v s).
  { intros s Hs. unfold reach_lin. rewrite E1, Rmax_left by exact Hd. rewrite (Hv 0%nat) by lia. simpl (INR 0). rewrite Rmult_0_l, Rminus_0_r.
    apply Rle_trans with (INR p * d); [exact Hs|]. apply Rmult_le_compat_r; [lra|]. rewrite INR_IZR_INZ. apply IZR_le. lia. }
  destruct (H r (RC r (proj2 Hr))) as (A1 & A2 & A3 & A4). destruct (H (INR p * d - r) (RC (INR p * d - r) ltac:(lra))) as (B1 & B2 & B3 & B4).
  set (b := bin_onfly (Z.of_nat p) g r) in *. set (b' := bin_onfly (Z.of_nat p) g (INR p * d - r)) in *.
  split; [|split; [lia|split; assumption]].
  set (k := Z.to_nat b) in *. set (k' := Z.to_nat b') in *. set (m := (p - k')%nat).
  assert (Em : INR p * d - r - nth k' v 0 = - (r - nth m v 0)) by (rewrite !Hv by lia; unfold m; rewrite minus_INR by lia; ring).
  assert (Q1 : Rabs (r - nth k v 0) <= Rabs (r - nth m v 0)) by (apply A4; lia).
  assert (Q2 : forall q, (q <= p)%nat -> Rabs (r - nth m v 0) <= Rabs (r - nth q v 0)).
  { intros q Hq. rewrite <- (Rabs_Ropp (r - nth m v 0)), <- Em. eapply Rle_trans; [apply (B4 (p - q)%nat); lia|]. right. rewrite <- Rabs_Ropp. f_equal.
    rewrite !Hv by lia. rewrite minus_INR by lia. ring. }
  assert (Q3 : Rabs (r - nth m v 0) = Rabs (r - nth k v 0)) by (apply Rle_antisym; [apply Q2; lia|exact Q1]).
  assert (Ek : k = m); [|lia].
  destruct (Nat.eq_dec k m) as [|Hne]; [assumption|exfalso]. rewrite !Hv in Q3 by lia.
  assert (S : r = INR (k + m) / 2 * d).
  { rewrite plus_INR. unfold Rabs in Q3. destruct (Rcase_abs (r - INR m * d)), (Rcase_abs (r - INR k * d)); try lra.
    - assert (INR m = INR k) by (apply Rmult_eq_reg_r with d; lra). apply INR_eq in H0. lia.
    - assert (INR m = INR k) by (apply Rmult_eq_reg_r with d; lra). apply INR_eq in H0. lia. }
  destruct (Nat.even (k + m)) eqn:Ev.
  - apply Nat.even_spec in Ev. destruct Ev as (c & Ec). specialize (Q2 c ltac:(lia)). rewrite !Hv in Q2 by lia.
    assert (Z0 : r - INR c * d = 0) by (rewrite S, Ec, mult_INR; simpl (INR 2); field). rewrite Z0, Rabs_R0 in Q2.
    assert (Zm : r - INR m * d = 0) by (destruct (Req_dec (r - INR m * d) 0) as [|K]; [assumption|apply Rabs_pos_lt in K; lra]).
    assert (INR m = INR c) by (apply Rmult_eq_reg_r with d; lra). apply INR_eq in H0. lia.
  - assert (O : Nat.odd (k + m) = true) by (rewrite <- Nat.negb_even, Ev; reflexivity). apply Nat.odd_spec in O. destruct O as (c & Ec).
    apply (Ht c). rewrite S, Ec, plus_INR, mult_INR. simpl (INR 2). simpl (INR 1). field.
Qed.

(** column [h]: every frequency found is in band and not midway between two rows *)
Definition clear_column (rate : R) (n : nat) (g : R) (Sx dSx : mat C) (h : nat) : Prop :=
  forall i, (i <= n / 2)%nat -> g <= Cabs (el Sx i h) ->
    let Sf := INR i * (rate / INR n) in
    in_band rate Sf (el Sx i h) (el dSx i h) /\ forall m : nat, Sf - phase_ratio (el Sx i h) (el dSx i h) <> (INR m + 1 / 2) * (rate / INR n).

Theorem ssq_stft_flip ord x x' a n w fs t s rate Tx Sx f Sfs : valid_order ord -> s_sq s = SqSum -> s_freqs s = None -> usable x a n w ->
  (2 <= n)%nat -> Nat.even n = true -> (Z.of_nat n < 2 ^ 62)%Z -> alternate x x' ->
  process_fs_and_t fs t (length x) = Ok rate -> EPS64 <= rate / INR n -> ssq_stft ord x a fs t s = Ok (Tx, Sx, f, Sfs) ->
  exists Tx' Sx' dSx, stft x (rated a rate) = Ok (Sx, dSx) /\ ssq_stft ord x' a fs t s = Ok (Tx', Sx', f, Sfs) /\ nrows Tx = (n / 2 + 1)%nat /\ nrows Tx' = nrows Tx /\ ncols Tx' = ncols Tx /\
    forall h, (h < ncols Tx)%nat -> frame_ok a n x h -> clear_column rate n (the_gamma a s) Sx dSx h ->
    forall q, (q <= n / 2)%nat -> el Tx' (n / 2 - q)%nat h = Cmul (RtoC (col_sign a n h)) (Cconj (el Tx q h)).
Proof.
  intros Ho Hsq Hfr Hx Hn He Hbig Ha Er Hd E.
  destruct (ssq_stft_parts _ _ _ _ _ _ _ _ _ _ E) as (rate0 & dSx & F1 & F2 & F3 & F4 & F5 & F6). rewrite Er in F1. injection F1 as <-.
  destruct (stft_flip x x' (rated a rate) n w (usable_rated _ _ _ _ _ Hx) He Ha) as (X & dX & Sx' & dSx' & E1 & E2 & R1 & R2 & K & V).
  rewrite F3 in E1. injection E1 as <- <-.
  assert (Er' : process_fs_and_t fs t (length x') = Ok rate) by (rewrite (proj1 Ha); exact Er).
  pose proof (ssq_stft_unfold ord x' a fs t s rate Sx' dSx' Er' F2 E2) as U. cbv zeta in U. rewrite R2, <- F4 in U. cbv zeta in F5.
  set (g := the_gamma a s) in *. set (v := the_freqs s Sfs) in *. set (o := the_opts s v g Sfs) in *. rewrite Hsq in *. cbn [squeeze_input] in *.
  assert (Ev : v = Sfs) by (unfold v, the_freqs; rewrite Hfr; reflexivity).
  apply Nat.even_spec in He. destruct He as (p & Hp). assert (Ep : (n / 2 = p)%nat) by lia. rewrite Ep in *.
  assert (ESf : forall k, (k <= p)%nat -> nth k Sfs 0 = INR k * (rate / INR n)).
  { intros k Hk. rewrite F4, R1, <- Ep. apply make_Sfs_even; [exact Hn|apply Nat.even_spec; exists p; exact Hp|lia]. }
  assert (LSf : length Sfs = (p + 1)%nat) by (rewrite F4, R1; apply linspace_length).
  destruct (one_cells _ _ _ _ _ _ _ _ _ Ho F5) as (A1 & A2 & cst & ca & gr & Q1 & Q2 & Q3 & VX).
  assert (ET : exists T, ssqueeze_one ord o None v false Sx' (the_w s Sfs g Sx' dSx') (the_d s dSx') = Ok T).
  { clear VX. unfold ssqueeze_one. rewrite Q1. cbn [bind]. unfold the_w, the_d. destruct (s_get_w s).
    - unfold indexed_sum_onfly. rewrite R2, Q2, Q3. cbn [bind]. eexists; reflexivity.
    - change (o_gamma o) with (Some g). change (o_Sfs o) with (Some Sfs). unfold ssqueeze_fast. rewrite R2, Q2, Q3. cbn [bind]. eexists; reflexivity. }
  destruct ET as (Tx' & ET). rewrite ET in U. cbn [bind] in U.
  destruct (one_cells _ _ _ _ _ _ _ _ _ Ho ET) as (B1 & B2 & cst' & ca' & gr' & Q1' & Q2' & Q3' & VY).
  rewrite Q1 in Q1'. injection Q1' as <-. rewrite R2, Q2 in Q2'. injection Q2' as <-. rewrite Q3 in Q3'. injection Q3' as <-.
  exists Tx', Sx', dSx. split; [exact F3|]. split; [rewrite U, F6; reflexivity|]. split; [congruence|]. split; [congruence|]. split; [congruence|].
  intros h Hh Hf Hc q Hq. rewrite A2 in Hh. cbv zeta in VX, VY.
  assert (Hca : forall i, (i <= p)%nat -> nth i ca 0 = nth 0 ca 0).
  { unfold ssq_const in Q1. cbn [o the_opts o_tr] in Q1. destruct v as [|v0 [|v1 vr]]; try discriminate. injection Q1 as <-.
    unfold const_arr in Q2. destruct (nrows Sx =? 1)%nat; [discriminate|]. injection Q2 as <-. intros i Hi. rewrite !nth_repeat_in by lia. reflexivity. }
  rewrite VX, VY by (rewrite ?R1, ?R2; lia || (rewrite ?K; lia)). rewrite R2, R1.
  rewrite Csum_conj, <- Csum_scal, Csum_rev. apply Csum_ext. intros i Hi. replace (p + 1 - 1 - i)%nat with (p - i)%nat by lia.
  replace (Z.of_nat (p + 1) - 1)%Z with (Z.of_nat p) by lia.
  destruct (V i h ltac:(lia) Hh) as (V1 & V2); [exact Hf|]. change (col_sign (rated a rate) n h) with (col_sign a n h) in V1, V2.
  assert (Hband : g <= Cabs (el Sx i h) -> in_band rate (nth i Sfs 0) (el Sx i h) (el dSx i h) /\ forall m : nat, phase_stft_pt (nth i Sfs 0) (el Sx i h) (el dSx i h) <> (INR m + 1 / 2) * (rate / INR n)).
  { intros Hg. destruct (Hc i ltac:(lia) Hg) as (C1' & C2'). rewrite <- ESf in C1', C2' by lia. split; [exact C1'|]. intros m. unfold phase_stft_pt. rewrite Rabs_right by (destruct C1'; lra). apply C2'. }
  assert (Hmir : nth (p - i) Sfs 0 = rate / 2 - nth i Sfs 0).
  { rewrite !ESf by lia. rewrite minus_INR by lia. rewrite Hp, mult_INR. simpl (INR 2). field. apply not_0_INR. lia. }
  assert (Hpd : INR p * (rate / INR n) = rate / 2) by (rewrite Hp, mult_INR; simpl (INR 2); field; apply not_0_INR; lia).
  assert (Hbin : forall r, 0 <= r <= rate / 2 -> (forall m : nat, r <> (INR m + 1 / 2) * (rate / INR n)) ->
     bin_onfly (Z.of_nat p) gr (rate / 2 - r) = (Z.of_nat p - bin_onfly (Z.of_nat p) gr r)%Z /\ (0 <= bin_onfly (Z.of_nat p) gr r <= Z.of_nat p)%Z /\
     bin_fast (Z.of_nat p) gr (rate / 2 - r) = bin_onfly (Z.of_nat p) gr (rate / 2 - r) /\ bin_fast (Z.of_nat p) gr r = bin_onfly (Z.of_nat p) gr r).
  { intros r Hr Ht. rewrite <- Hpd. apply (mirror_bin (s_f64v s) v (rate / INR n) p gr r); try assumption; try lia.
    - rewrite Ev. exact LSf.
    - rewrite Ev. intros k Hk. apply ESf. lia.
    - rewrite Hpd. exact Hr. }
  assert (Hfin : forall r, 0 <= r <= rate / 2 -> (forall m : nat, r <> (INR m + 1 / 2) * (rate / INR n)) -> forall b b',
     b = bin_onfly (Z.of_nat p) gr r -> b' = bin_onfly (Z.of_nat p) gr (rate / 2 - r) ->
     (if (flip_row (o_flip o) (Z.of_nat p) b' =? Z.of_nat (p - q))%Z then Cmul (el Sx' (p - i)%nat h) (RtoC (nth (p - i) ca 0)) else C0) =
     Cmul (RtoC (col_sign a n h)) (Cconj (if (flip_row (o_flip o) (Z.of_nat p) b =? Z.of_nat q)%Z then Cmul (el Sx i h) (RtoC (nth i ca 0)) else C0))).
  { intros r Hr Ht b b' -> ->. destruct (Hbin r Hr Ht) as (M1 & M2 & _). rewrite M1, V1, (Hca (p - i)%nat), (Hca i) by lia.
    set (b := bin_onfly (Z.of_nat p) gr r) in *. unfold flip_row.
    destruct (o_flip o).
    - destruct (Z.eqb_spec (Z.of_nat p - (Z.of_nat p - b)) (Z.of_nat (p - q))), (Z.eqb_spec (Z.of_nat p - b) (Z.of_nat q)); try lia;
        apply C_eq; unfold C0, Cmul, Cconj, RtoC; cbn [fst snd]; ring.
    - destruct (Z.eqb_spec (Z.of_nat p - b) (Z.of_nat (p - q))), (Z.eqb_spec b (Z.of_nat q)); try lia;
        apply C_eq; unfold C0, Cmul, Cconj, RtoC; cbn [fst snd]; ring. }
  assert (Z0 : C0 = Cmul (RtoC (col_sign a n h)) (Cconj C0)) by (apply C_eq; unfold C0, Cmul, Cconj, RtoC; cbn [fst snd]; ring).
  assert (HP : 0 <= phase_stft_pt (nth i Sfs 0) (el Sx i h) (el dSx i h)) by apply Rabs_pos.
  unfold the_w, the_d. destruct (s_get_w s).
  - cbn [freq_at phase_stft el]. rewrite V1, V2, Cabs_flip by apply col_sign_sq. destruct (Rlt_dec (Cabs (el Sx i h)) g) as [|Hg]; [exact Z0|].
    destruct (Hband ltac:(lra)) as (I1 & I2). rewrite Hmir, pt_flip by (apply col_sign_sq || assumption). rewrite <- V1.
    apply (Hfin (phase_stft_pt (nth i Sfs 0) (el Sx i h) (el dSx i h))); try reflexivity; [|exact I2].
    split; [exact HP|]. unfold phase_stft_pt. destruct I1. rewrite Rabs_right; lra.
  - cbn [freq_at o the_opts o_gamma o_Sfs]. fold o. rewrite V1, V2, Cabs_flip by apply col_sign_sq. destruct (Rlt_dec g (Cabs (el Sx i h))) as [Hg|]; [|exact Z0].
    destruct (Hband ltac:(lra)) as (I1 & I2). rewrite Hmir, pt_flip by (apply col_sign_sq || assumption). rewrite <- V1.
    assert (HR : 0 <= phase_stft_pt (nth i Sfs 0) (el Sx i h) (el dSx i h) <= rate / 2) by (split; [exact HP|]; unfold phase_stft_pt; destruct I1; rewrite Rabs_right; lra).
    destruct (Hbin _ HR I2) as (_ & _ & M3 & M4).
    apply (Hfin (phase_stft_pt (nth i Sfs 0) (el Sx i h) (el dSx i h))); assumption.
Qed.
