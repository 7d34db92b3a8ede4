(** C78 for log-piecewise scales: the greatest scale, and a change of spacing at the first scale. *)
From Coq Require Import Reals Lra ZifyBool ZifyNat.
From Verif Require Import Py Round Cplx CplxProofs Padding PaddingProofs Freqs ShiftProofs Squeeze BinProofs SqueezeThms3
  Scales ScaleThms Resol Search SearchProofs Wavelets WaveletProofs SearchGmw ScaleBounds ScaleBoundsProofs ScaleBoundsThms
  ScaleBoundsThms2 ScaleBoundsThms3.
Local Open Scope R_scope.
Ltac Zify.zify_post_hook ::= Z.div_mod_to_equations.

(** the last entry of [firstn i s ++ s[i+d-1::d]] is one of the last [d] of [s] *)
Lemma piece_last (s : list R) i d : (1 <= d)%nat ->
  let l := firstn i s ++ every d (skipn (i + d - 1) s) 0 in
  l <> [] -> exists k, last l 0 = nth k s 0 /\ (k < length s)%nat /\ (length s <= k + d)%nat.
Proof.
  intros Hd l Hl. destruct (Nat.lt_ge_cases (i + d - 1) (length s)) as [H|H].
  - assert (HL : (length (every d (skipn (i + d - 1) s) 0) = (length s - (i + d - 1) + d - 1) / d)%nat) by (rewrite every_length, skipn_length by exact Hd; f_equal; lia).
    set (c := length (every d (skipn (i + d - 1) s) 0)) in *.
    assert (Hc : (1 <= c)%nat) by (rewrite HL; apply Nat.div_le_lower_bound; lia).
    assert (Hne : every d (skipn (i + d - 1) s) 0 <> []) by (intros E; unfold c in Hc; rewrite E in Hc; cbn in Hc; lia).
    assert (El : last l 0 = nth (c - 1) (every d (skipn (i + d - 1) s) 0) 0).
    { unfold l. rewrite <- nth_last_R by (intros E; apply app_eq_nil in E; tauto). rewrite app_length. fold c.
      rewrite app_nth2 by lia. f_equal. lia. }
    destruct (every_nth d (skipn (i + d - 1) s) 0 0 (c - 1) Hd ltac:(fold c; lia)) as (E & Hb). rewrite skipn_length in Hb.
    exists (i + d - 1 + (c - 1) * d)%nat. rewrite El, E, nth_skipn_add. split; [f_equal; lia|].
    pose proof (Nat.div_mod (length s - (i + d - 1) + d - 1) d ltac:(lia)) as D. rewrite <- HL in D.
    pose proof (Nat.mod_upper_bound (length s - (i + d - 1) + d - 1) d ltac:(lia)). nia.
  - assert (E : l = firstn i s) by (unfold l; rewrite skipn_all2 by lia; cbn [every]; apply app_nil_r).
    rewrite E in *. rewrite <- nth_last_R by exact Hl. assert (HL : length (firstn i s) <> 0%nat) by (intros Q; apply length_zero_iff_nil in Q; contradiction).
    rewrite firstn_length in *. exists (Nat.min i (length s) - 1)%nat. rewrite nth_firstn_lt by lia. split; [reflexivity|]. lia.
Qed.

Theorem piece_reach mn mx nv fds ds l : 0 < mn < mx -> (1 <= nv)%Z -> make_scales mn mx nv SPiece fds ds = Ok l -> l <> [] ->
  exists g, make_scales mn mx nv SLog fds ds = Ok g /\
  mx / Rpower 2 ((1 + Rmax 1 (IZR ds)) / IZR nv) < last l 0 < mx /\
  (fds g <> Ok (Some 0%nat) -> mn / Rpower 2 (1 / IZR nv) < nth 0 l 0 <= mn) /\
  (fds g = Ok (Some 0%nat) -> mn * Rpower 2 ((IZR ds - 2) / IZR nv) < nth 0 l 0 <= mn * Rpower 2 ((IZR ds - 1) / IZR nv)).
Proof.
  intros H Hnv V Hl. destruct (log_scales mn mx nv H Hnv fds ds) as (s & Es & Hne & Hg & A & B). exists s. split; [exact Es|].
  unfold make_scales in V, Es. set (sc := pow2_arange _ _ nv) in *. injection Es as Es. rewrite <- Es in *. clear s Es.
  assert (Hv : 1 <= IZR nv) by (apply IZR_le, Hnv). assert (Hi : 0 < / IZR nv) by (apply Rinv_0_lt_compat; lra).
  assert (H0 : 0 < nth 0 sc 0).
  { destruct A as [A _]. eapply Rlt_trans; [|exact A]. apply Rdiv_lt_0_compat; [lra|apply pow2_pos]. }
  assert (Hlen : (1 <= length sc)%nat) by (destruct sc; [congruence|cbn; lia]).
  assert (Last : forall k d, (k < length sc)%nat -> (length sc <= k + d)%nat -> 
    mx / Rpower 2 ((1 + INR d) / IZR nv) < nth k sc 0 < mx).
  { intros k d Hk Hd. rewrite <- nth_last_R in B by exact Hne. rewrite (Hg (length sc - 1)%nat ltac:(lia)) in B. rewrite (Hg k Hk).
    assert (Hk1 : INR k <= INR (length sc - 1)) by (apply le_INR; lia).
    assert (Hk2 : INR (length sc - 1) <= INR k + INR d - 1).
    { rewrite <- plus_INR. replace 1 with (INR 1) by reflexivity. rewrite <- minus_INR by lia. apply le_INR. lia. }
    set (n1 := INR (length sc - 1)) in *. split.
    - apply Rmult_lt_reg_r with (Rpower 2 ((1 + INR d) / IZR nv)); [apply pow2_pos|].
      unfold Rdiv at 1. rewrite Rmult_assoc, Rinv_l by (apply Rgt_not_eq, pow2_pos). rewrite Rmult_1_r, Rmult_assoc, <- Rpower_plus.
      destruct B as [B _]. apply (Rmult_lt_compat_r (Rpower 2 (2 / IZR nv))) in B; [|apply pow2_pos].
      unfold Rdiv at 1 in B. rewrite Rmult_assoc, Rinv_l in B by (apply Rgt_not_eq, pow2_pos). rewrite Rmult_1_r, Rmult_assoc, <- Rpower_plus in B.
      eapply Rlt_le_trans; [exact B|]. apply Rmult_le_compat_l; [lra|]. apply pow2_le. unfold Rdiv. rewrite <- !Rmult_plus_distr_r. apply Rmult_le_compat_r; lra.
    - destruct B as [_ B]. eapply Rle_lt_trans; [|exact B]. apply Rmult_le_compat_l; [lra|]. apply pow2_le. apply Rmult_le_compat_r; lra. }
  assert (Mono : forall a b, a <= b -> forall y, mx / Rpower 2 ((1 + a) / IZR nv) < y -> mx / Rpower 2 ((1 + b) / IZR nv) < y).
  { intros a b Hab y Hy. eapply Rle_lt_trans; [|exact Hy]. apply Rmult_le_compat_l; [lra|]. apply Rinv_le_contravar; [apply pow2_pos|].
    apply pow2_le, Rmult_le_compat_r; lra. }
  assert (Whole : l = sc -> mx / Rpower 2 ((1 + Rmax 1 (IZR ds)) / IZR nv) < last l 0 < mx).
  { intros ->. rewrite <- nth_last_R by exact Hne. destruct (Last (length sc - 1)%nat 1%nat ltac:(lia) ltac:(lia)) as (L1 & L2). split; [|exact L2].
    apply (Mono 1); [apply Rmax_l|exact L1]. }
  destruct (fds sc) as [[i|]|] eqn:Ef; cbn [bind] in V; [| |discriminate].
  - destruct (Z.eqb_spec ds 0); [discriminate|]. destruct (Z.ltb_spec ds 0); [discriminate|]. injection V as V.
    assert (Hd : IZR ds = INR (Z.to_nat ds)) by (rewrite INR_IZR_INZ; f_equal; lia).
    assert (Ep : pyslice_from sc (Z.of_nat i + ds - 1) = skipn (i + Z.to_nat ds - 1) sc).
    { unfold pyslice_from, pyslice, norm_bound.
      destruct (Z.ltb_spec (Z.of_nat i + ds - 1) 0); [lia|]. destruct (Z.ltb_spec (Z.of_nat (length sc)) 0); [lia|].
      destruct (Nat.le_gt_cases (length sc) (i + Z.to_nat ds - 1)) as [Hc|Hc].
      - rewrite (skipn_all2 (n := (i + Z.to_nat ds - 1)%nat)) by lia. rewrite skipn_all2 by lia. apply firstn_nil.
      - rewrite firstn_all2 by (rewrite skipn_length; lia). f_equal. lia. }
    rewrite Ep in V. split; [|split].
    + destruct (piece_last sc i (Z.to_nat ds) ltac:(lia)) as (k & E & K1 & K2); [rewrite V; exact Hl|]. rewrite V in E. rewrite E.
      destruct (Last k (Z.to_nat ds) K1 K2) as (L1 & L2). split; [|exact L2]. apply (Mono (INR (Z.to_nat ds))); [rewrite Hd; apply Rmax_r|exact L1].
    + intros K. destruct i as [|i]; [exfalso; apply K; first [reflexivity | exact Ef]|]. rewrite <- V. destruct sc as [|y sc']; [congruence|]. exact A.
    + intros K. injection K as ->. cbn [firstn app] in V.
      assert (Hc : (0 < length (every (Z.to_nat ds) (skipn (0 + Z.to_nat ds - 1) sc) 0))%nat).
      { rewrite V. destruct l; [congruence|cbn; lia]. }
      destruct (every_nth (Z.to_nat ds) (skipn (0 + Z.to_nat ds - 1) sc) 0 0 0 ltac:(lia) Hc) as (E & Hb). rewrite skipn_length in Hb.
      rewrite V in E. rewrite E, nth_skipn_add, Hg by lia.
      replace (INR (0 + Z.to_nat ds - 1 + (0 + 0 * Z.to_nat ds))) with (IZR ds - 1).
      2:{ rewrite Hd. replace (0 + Z.to_nat ds - 1 + (0 + 0 * Z.to_nat ds))%nat with (Z.to_nat ds - 1)%nat by lia. rewrite minus_INR by lia. reflexivity. }
      pose proof (pow2_pos ((IZR ds - 1) / IZR nv)) as Hp. split; [|apply Rmult_le_compat_r; lra].
      replace ((IZR ds - 2) / IZR nv) with ((IZR ds - 1) / IZR nv + - (1 / IZR nv)) by (field; lra). rewrite Rpower_plus, Rpower_Ropp.
      destruct A as (A & _). apply (Rmult_lt_compat_r (Rpower 2 ((IZR ds - 1) / IZR nv))) in A; [|exact Hp].
      eapply Rle_lt_trans; [|exact A]. right. unfold Rdiv. ring.
  - injection V as V. symmetry in V. split; [apply Whole; exact V|]. rewrite V. split; [intros _; exact A|].
    discriminate.
Qed.

Theorem named_piece g N pr nv fds ds pad fuel l : pr <> Some Naive -> l <> [] ->
  process_scales_str g N SPiece pr nv fds ds pad fuel = Some (Ok l) ->
  exists wp mn mx, peak_of g fuel = Some (Ok (wp, Rabs (g wp))) /\
    cwt_scalebounds g N (split_preset SPiece pr) (BA None None None None None) pad fuel = Some (Ok (mn, Some mx)) /\
    0 <= mn * PI <= wp /\
    (0 < mn < mx -> exists gr, make_scales mn mx nv SLog fds ds = Ok gr /\
      mx / Rpower 2 ((1 + Rmax 1 (IZR ds)) / IZR nv) < last l 0 < mx /\
      (fds gr <> Ok (Some 0%nat) -> mn / Rpower 2 (1 / IZR nv) < nth 0 l 0 <= mn /\ nth 0 l 0 * PI <= wp) /\
      (fds gr = Ok (Some 0%nat) -> mn * Rpower 2 ((IZR ds - 2) / IZR nv) < nth 0 l 0 <= mn * Rpower 2 ((IZR ds - 1) / IZR nv))).
Proof.
  intros Hp Hl E. destruct (named_reach_nyquist g N SPiece pr nv fds ds pad fuel l Hp E) as (wp & mn & mx & Ep & Eb & M & _).
  exists wp, mn, mx. split; [exact Ep|]. split; [exact Eb|]. split; [exact M|]. intros H.
  unfold process_scales_str in E. destruct (Z.leb_spec nv 0) as [|Hnv]; [discriminate|]. rewrite Eb in E. cbn [rbind] in E.
  unfold make_scales_bounds, or_real in E. destruct (Req_EM_T mn 0); [lra|]. destruct (Req_EM_T mx 0); [lra|]. injection E as E.
  destruct (piece_reach mn mx nv fds ds l H ltac:(lia) E Hl) as (gr & Eg & A & B & D). exists gr. split; [exact Eg|]. split; [exact A|]. split; [|exact D].
  intros Hf. split; [apply B, Hf|]. specialize (B Hf). pose proof PI_RGT_0. apply Rle_trans with (mn * PI); [apply Rmult_le_compat_r; lra|lra].
Qed.

(** spacing changed at the first scale, every other one kept *)
Lemma piece_zero : exists l, make_scales 1 64 1 SPiece (fun _ => Ok (Some 0%nat)) 2 = Ok l /\ l = [2; 8; 32] /\ 1 * Rpower 2 ((2 - 2) / 1) < nth 0 l 0.
Proof.
  pose proof (make6 (fun _ => Ok (Some 0%nat)) 2) as E. unfold make_scales in *. injection E as E. rewrite E.
  exists [2; 8; 32]. split; [reflexivity|]. split; [reflexivity|]. cbn [nth]. replace ((2 - 2) / 1) with 0 by field. rewrite Rpower_O by lra. lra.
Qed.
