(** What [issq_stft] returns for [ssq_stft]'s transform when some coefficients are below [gamma]
    (C14), and when the signal changes (C152). *)
From Coq Require Import Reals Lra Lia List ZifyBool ZifyNat.
Import ListNotations.
From Verif Require Import Py Round Parallel Cplx CplxProofs Padding PaddingProofs Buffer BufferProofs Freqs Stft StftProofs Squeeze SqueezeProofs BinProofs
  SqueezeThms SqueezeThms2 SqueezeThms3 Scales Ssqueeze SsqueezeProofs IssqProofs.
Import Stft.
Local Open Scope R_scope.
Ltac Zify.zify_post_hook ::= Z.div_mod_to_equations.

(** which coefficients are squeezed: with [get_w] those that equal [gamma] too *)
Definition spass (s : ssq_stft_opts) (g m : R) : Prop := if s_get_w s then g <= m else g < m.
Definition spass_dec (s : ssq_stft_opts) (g m : R) : {spass s g m} + {~ spass s g m}.
Proof. unfold spass. destruct (s_get_w s); [apply Rle_dec|apply Rlt_dec]. Defined.
Definition skept (s : ssq_stft_opts) (g : R) (z : C) : C := if spass_dec s g (Cabs z) then z else C0.

Section Kept.
Variables (ord : order) (x : list R) (a : stft_args) (fs : option R) (t : option (list R))
  (s : ssq_stft_opts) (rate : R) (n : Z) (w : list R) (nf wl : option Z) (f32 : bool) (g : R).
Let N := Z.of_nat (length x).
Let a' := SA rate (a_window a) (a_n_fft a) (a_win_len a) (a_hop a) (a_modulated a) (a_padtype a) (a_f32 a).
Hypothesis Hord : valid_order ord.
Hypothesis Hx : x <> [].
Hypothesis Hfs : process_fs_and_t fs t (length x) = Ok rate.
Hypothesis Hn : (3 <= n < 2 ^ 62)%Z.
Hypothesis Hhop : a_hop a = 1%Z.
Hypothesis Hmod : a_modulated a = true.
Hypothesis Hnfft : stft_n_fft a N = Ok n.
Hypothesis Hw : get_window (a_window a) (stft_win_len a n) n = Ok w.
Hypothesis Hwl : Z.of_nat (length w) = n.
Hypothesis Hpad : pad_usable (a_padtype a) N n.
Hypothesis Hnf : or_default nf ((Z.of_nat (rfft_len (Z.to_nat n)) - 1) * 2) = n.
Hypothesis Hw' : get_window (a_window a) (or_default wl n) n = Ok w.
Hypothesis Hg : nth (Z.to_nat (n / 2)) w 0 <> 0.
Hypothesis Hf : s_freqs s = None.
Hypothesis Hsq : s_sq s = SqSum.
Hypothesis Hgamma : g = match s_gamma s with
               | Some g => g
               | None => 10 * (if a_f32 a then EPS32 else EPS64)
               end.
Let Sfs := make_Sfs (rfft_len (Z.to_nat n)) rate.
Hypothesis Hcells : forall Sx dSx k j, stft x a' = Ok (Sx, dSx) -> (k < nrows Sx)%nat -> (j < ncols Sx)%nat ->
  spass s g (Cabs (el Sx k j)) ->
  phase_stft_pt (nth k Sfs 0) (el Sx k j) (el dSx k j) <= IZR (2 ^ 62) * Rmax (nth 1 Sfs 0) EPS64.
(** a zero coefficient is not taken for a large one *)
Hypothesis Hg0 : 0 <= g.
Hypothesis Hgw : s_get_w s = true -> 0 < g.

Lemma Sfs_nth_k k : (k < rfft_len (Z.to_nat n))%nat -> nth k Sfs 0 = INR k * (rate / 2 / INR (Z.to_nat n / 2)).
Proof.
  intros Hk. unfold Sfs, make_Sfs, linspace. rewrite nth_tab by exact Hk.
  unfold rfft_len in *. destruct (Nat.eqb_spec (Z.to_nat n / 2 + 1) 1); [lia|].
  replace (Z.to_nat n / 2 + 1 - 1)%nat with (Z.to_nat n / 2)%nat by lia.
  field. apply not_0_INR. lia.
Qed.

Theorem issq_kept : exists Tx Sx dSx f y,
  stft x a' = Ok (Sx, dSx) /\
  ssq_stft ord x a fs t s = Ok (Tx, Sx, f, Sfs) /\
  issq_stft Tx (a_window a) None nf wl 1 true f32 = Ok (One y) /\
  length y = length x /\ nrows Sx = (Z.to_nat n / 2 + 1)%nat /\ ncols Sx = length x /\
  forall j, (j < length x)%nat ->
    let p := (Z.to_nat n / 2)%nat in
    nth j y 0 = 2 / nth (Z.to_nat (n / 2)) w 0 * (rate / (2 * INR p)) * Rsum (p + 1) (fun k => Re (skept s g (el Sx k j))) /\
    2 * Rsum (p + 1) (fun k => Re (el Sx k j)) =
      IZR n * (nth j x 0 * nth (Z.to_nat (n / 2)) w 0) + Re (el Sx 0%nat j) + (if Z.even n then Re (el Sx p j) else 0).
Proof.
  destruct (stft_spec x a' n w Hx ltac:(lia) ltac:(cbn; lia) Hnfft Hw Hwl ltac:(cbn; lia) Hpad)
    as (xp & n_up & n2 & Sx & dSx & _ & HL & Hxp & ES & HrS & HcS & _ & _ & _ & HSel & _).
  cbn [a_hop a'] in HcS. rewrite Hhop in HcS.
  assert (HN1 : (1 <= length x)%nat) by (destruct x; [congruence|cbn; lia]).
  assert (HcS' : ncols Sx = length x) by lia. clear HcS.
  set (m := Z.to_nat n) in *. set (p := (m / 2)%nat).
  assert (Hm : (3 <= m)%nat) by (unfold m; lia).
  assert (Hp1 : (1 <= p)%nat) by (unfold p; lia).
  assert (Hrows : rfft_len m = (p + 1)%nat) by reflexivity.
  (* the squeezed transform *)
  set (c := nth 1 Sfs 0 - nth 0 Sfs 0).
  assert (Hc : c = rate / (2 * INR p)).
  { unfold c. rewrite !Sfs_nth_k by (fold m; lia). fold m p. cbn [INR]. field. apply not_0_INR. lia. }
  assert (Hsl : length Sfs = rfft_len m) by apply linspace_length.
  assert (Hconst : exists r, Sfs = nth 0 Sfs 0 :: nth 1 Sfs 0 :: r).
  { apply list_two. lia. }
  set (o := SO TStft (FArray Sfs) None true (s_f64v s) 1 (s_sq s) MRMaximal (Some g) (s_flip s) (Some Sfs)).
  assert (Ec : ssq_const o None Sfs = Ok (CScalar c)).
  { unfold ssq_const, o. cbn [o_tr]. unfold c. destruct Hconst as [r Er]. rewrite Er. reflexivity. }
  assert (Ea : const_arr (nrows Sx) (CScalar c) = Ok (repeat c (nrows Sx))) by (apply const_arr_scalar; lia).
  assert (Hfg : freq_grid (s_f64v s) Sfs false (reach_lin Sfs)) by (constructor; lia).
  assert (H00 : nth 0 Sfs 0 = 0) by (rewrite Sfs_nth_k by (fold m; lia); cbn; ring).
  assert (Hreach : forall k j, (k < nrows Sx)%nat -> (j < ncols Sx)%nat -> spass s g (Cabs (el Sx k j)) -> reach_lin Sfs (phase_stft_pt (nth k Sfs 0) (el Sx k j) (el dSx k j))).
  { intros k j Hk Hj Hgt. pose proof (Hcells Sx dSx k j ES Hk Hj Hgt) as E.
    unfold reach_lin. rewrite H00, !Rminus_0_r. exact E. }
  set (wo := if s_get_w s then Some (phase_stft Sfs g Sx dSx) else None).
  set (dd := if s_get_w s then None else Some dSx).
  assert (Hcol : forall j, (j < ncols Sx)%nat -> exists Tx,
     ssqueeze_one ord o None Sfs false Sx wo dd = Ok Tx /\ nrows Tx = nrows Sx /\ ncols Tx = ncols Sx /\
     Csum (nrows Sx) (fun k => el Tx k j) = Csum (nrows Sx) (fun i => Cmul (skept s g (el Sx i j)) (RtoC c))).
  { intros j Hj. unfold ssqueeze_one. rewrite Ec. cbn [bind].
    assert (Hrep : forall i, (i < nrows Sx)%nat -> nth i (repeat c (nrows Sx)) 0 = c).
    { intros i Hi. rewrite (nth_indep _ 0 c) by (rewrite repeat_length; exact Hi). apply nth_repeat. }
    assert (Hmm : (0 < Z.of_nat (nrows Sx) < 2 ^ 62)%Z) by (rewrite HrS, Hrows; unfold p, m; lia).
    unfold wo, dd. destruct (s_get_w s) eqn:Egw.
    - destruct (onfly_column_sum_zeros ord (s_f64v s) Sx (phase_stft Sfs g Sx dSx) Sfs (CScalar c) false (s_flip s)
        (repeat c (nrows Sx)) (reach_lin Sfs) (nrows Sx) j Hord Ea Hfg Hmm ltac:(discriminate) Hj) as (Tx & ET & Hs).
      { intros i r Hi. cbn [phase_stft el]. destruct (Rlt_dec (Cabs (el Sx i j)) g) as [|Hge]; [discriminate|].
        intros E. injection E as <-. apply Hreach; auto. unfold spass. rewrite Egw. lra. }
      exists Tx. assert (Hsh : nrows Tx = nrows Sx /\ ncols Tx = ncols Sx).
      { unfold indexed_sum_onfly in ET. destruct (const_arr _ _); [|discriminate].
        destruct (get_grid _ _ _); [|discriminate]. cbn [bind] in ET. injection ET as <-. split; reflexivity. }
      split; [exact ET|]. split; [tauto|]. split; [tauto|]. rewrite Hs. apply Csum_ext. intros i Hi.
      rewrite Hrep by exact Hi. cbn [phase_stft el]. unfold skept.
      destruct (Rlt_dec (Cabs (el Sx i j)) g) as [Hlt|], (spass_dec s g (Cabs (el Sx i j))) as [P|P]; unfold spass in P; rewrite Egw in P; try lra; try reflexivity.
      apply C_eq; cbn; ring.
    - cbn [o_gamma o].
      destruct (fast_column_sum_zeros ord (s_f64v s) Sx dSx Sfs (CScalar c) false (s_flip s) g (Some Sfs)
        (repeat c (nrows Sx)) (reach_lin Sfs) (nrows Sx) j Hord Ea Hfg (or_intror eq_refl) Hmm ltac:(discriminate) Hj) as (Tx & ET & Hs).
      { intros i Hi Hlt. apply Hreach; auto. unfold spass. rewrite Egw. exact Hlt. }
      exists Tx. assert (Hsh : nrows Tx = nrows Sx /\ ncols Tx = ncols Sx).
      { unfold ssqueeze_fast in ET. destruct (const_arr _ _); [|discriminate].
        destruct (get_grid _ _ _); [|discriminate]. cbn [bind] in ET. injection ET as <-. split; reflexivity. }
      split; [exact ET|]. split; [tauto|]. split; [tauto|]. rewrite Hs. apply Csum_ext. intros i Hi.
      rewrite Hrep by exact Hi. unfold skept.
      destruct (Rlt_dec g (Cabs (el Sx i j))) as [|Hge], (spass_dec s g (Cabs (el Sx i j))) as [P|P]; unfold spass in P; rewrite Egw in P; try lra; try reflexivity.
      apply C_eq; cbn; ring. }
  destruct (Hcol 0%nat ltac:(lia)) as (Tx & ET & HrT & HcT & _).
  assert (Hcol' : forall j, (j < ncols Sx)%nat ->
     Rsum (nrows Tx) (fun k => Re (el Tx k j)) = Rsum (p + 1) (fun k => Re (skept s g (el Sx k j))) * c).
  { intros j Hj. destruct (Hcol j Hj) as (Tx' & ET' & _ & _ & Hs). rewrite ET in ET'. injection ET' as <-.
    rewrite HrT, <- Re_Csum, Hs, Re_Csum, HrS, Hrows. rewrite <- Rsum_scal_r. apply Rsum_ext. intros i _.
    unfold Re, Cmul, RtoC. cbn [fst snd]. ring. }
  exists Tx, Sx, dSx, (flip_freqs o Sfs).
  exists (map (fun y => y * (2 / nth (length w / 2) w 0)) (real_colsum Tx)).
  split; [exact ES|]. split.
  { unfold ssq_stft. rewrite Hfs. cbn [bind]. rewrite Hf. cbn [bind]. fold a'. rewrite ES. cbn [bind].
    rewrite HrS. cbv zeta. change (a_f32 a') with (a_f32 a). rewrite <- Hgamma. fold Sfs. fold o. fold wo. fold dd.
    unfold ssqueeze.
    fold (args_bad o wo dd). assert (Ebad : args_bad o wo dd = false).
    { unfold wo, dd. destruct (s_get_w s); [|reflexivity]. exact (phase_not_negative o g Sx dSx). }
    rewrite Ebad.
    assert (Evs : ssq_freqs_of o (ncols Sx) = Ok (None, Sfs, false)) by reflexivity.
    assert (Esq : squeeze_input (o_sq o) (nrows Sx) Sx = Sx) by (cbn [o o_sq]; rewrite Hsq; reflexivity).
    rewrite Evs. cbn [bind]. rewrite Esq, ET. reflexivity. }
  split.
  { unfold issq_stft. cbn [negb Z.eqb Pos.eqb]. rewrite HrT, HrS, Hnf, Hw'. cbn [bind].
    unfold check_NOLA. destruct (Z.leb_spec 1 0); [lia|]. destruct (Z.gtb_spec 1 (Z.of_nat (length w))); [lia|].
    rewrite Bool.andb_false_r. reflexivity. }
  split.
  { rewrite map_length. unfold real_colsum. rewrite tab_length. lia. }
  split; [rewrite HrS; exact Hrows|]. split; [exact HcS'|].
  intros j Hj q. replace q with p by reflexivity.
  split.
  { rewrite (nth_indep _ 0 (0 * (2 / nth (length w / 2) w 0))) by (rewrite map_length; unfold real_colsum; rewrite tab_length; lia).
  rewrite (map_nth (fun y => y * (2 / nth (length w / 2) w 0))).
  unfold real_colsum. rewrite nth_tab by lia. rewrite Hcol' by lia.
  replace (length w / 2)%nat with p by (unfold p, m; lia).
    replace (Z.to_nat (n / 2)) with p in * by (unfold p, m; lia). rewrite Hc. ring. }
  replace (Z.to_nat (n / 2)) with p in * by (unfold p, m; lia).
  (* the unsqueezed spectrum *)
  assert (HSel' : forall k h, (h < ncols Sx)%nat -> (k < nrows Sx)%nat ->
    el Sx k h = Csum m (fun u => Cmul (RtoC (nth (Z.to_nat 1 * h + u) xp 0 * nth u w 0))
       (tw m (- (Z.of_nat k * (Z.of_nat u - n / 2)))))).
  { intros k h Hh _. rewrite (HSel k h Hh). unfold stft_val. cbn [a_hop a']. rewrite Hhop. fold m.
    unfold phase_ref. cbn [a_modulated a']. rewrite Hmod. reflexivity. }
  assert (E0 : irfft m (spec_col Sx j) 0 = nth j x 0 * nth p w 0).
  { rewrite (irfft_ext m ltac:(lia) _ _ 0 (fun k Hk => shift_spectrum xp Sx w n 1%Z 1%Z true true ltac:(lia) ltac:(lia) HrS HSel' j k ltac:(lia) Hk)).
    cbv zeta. fold m. rewrite irfft_rfft by lia. cbn [Nat.add]. rewrite Nat.mod_small by lia. fold p.
    change (Z.to_nat 1) with 1%nat. rewrite <- (Hxp j Hj). do 2 f_equal. lia. }
  rewrite irfft_0 in E0 by lia. rewrite hermit_sum in E0 by lia. fold p in E0.
  assert (Es : forall k, (k < p + 1)%nat -> spec_col Sx j k = el Sx k j).
  { intros k Hk. unfold spec_col. rewrite HrS, Hrows. destruct (Nat.ltb_spec k (p + 1)); [reflexivity|lia]. }
  rewrite (Rsum_ext (p + 1) _ (fun k => Re (el Sx k j))) in E0 by (intros k Hk; rewrite Es by exact Hk; reflexivity).
  rewrite !Es in E0 by lia.
  assert (Eev : Nat.even m = Z.even n).
  { unfold m. rewrite <- (Z2Nat.id n) at 2 by lia. generalize (Z.to_nat n). intros q'. clear.
    destruct (Nat.even q') eqn:E.
    - apply Nat.even_spec in E. destruct E as [r ->]. symmetry. apply Z.even_spec. exists (Z.of_nat r). lia.
    - symmetry. destruct (Z.even (Z.of_nat q')) eqn:E2; [|reflexivity]. apply Z.even_spec in E2. destruct E2 as [r E2].
      assert (E3 : Nat.even q' = true) by (apply Nat.even_spec; exists (Z.to_nat r); lia). congruence. }
  rewrite Eev in E0.
  assert (HmR : INR m = IZR n) by (unfold m; rewrite INR_IZR_INZ; f_equal; lia).
  assert (Hm0 : INR m <> 0) by (apply not_0_INR; lia).
  assert (Hp0 : INR p <> 0) by (apply not_0_INR; lia).
  rewrite HmR in *.
  set (Sg := Rsum (p + 1) (fun k => Re (el Sx k j))) in *.
  set (ny := if Z.even n then Re (el Sx p j) else 0) in *.
  rewrite <- E0. field. exact Hm0.
Qed.
End Kept.
