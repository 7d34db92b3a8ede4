(** A quarter-rate tone through [cwt] and back by two integrals. *)
From Coq Require Import Reals Lra ZifyBool ZifyNat.
From Verif Require Import Py Round Cplx CplxProofs Padding PaddingProofs Buffer BufferProofs Freqs Squeeze Scales IssqProofs Cwt CwtProofs CwtThms CwtThms2 CwtTone
  SsqCwt SsqCwtProofs SsqCwtInv CwtWitness CwtWitness2 SymmThms SymmInst RoundTrip Circular CircThms Icwt2.
Local Open Scope R_scope.

Definition band_wave : wfun := WF (fun w => if Rlt_dec (12 / 10) w then if Rlt_dec w (21 / 10) then C1 else C0 else C0) false NotGmw.
Lemma band_real : real_valued band_wave.
Proof. intros w. cbn. destruct (Rlt_dec (12 / 10) w), (Rlt_dec w (21 / 10)); reflexivity. Qed.
Definition q4 : list R := [2; 0; -2; 0].

Lemma band_out w : w <= 12 / 10 \/ 21 / 10 <= w -> wf band_wave w = C0.
Proof. intros H. cbn. destruct (Rlt_dec (12 / 10) w), (Rlt_dec w (21 / 10)); try reflexivity. lra. Qed.
Lemma band_in w : 12 / 10 < w < 21 / 10 -> wf band_wave w = C1.
Proof. intros H. cbn. destruct (Rlt_dec (12 / 10) w), (Rlt_dec w (21 / 10)); try reflexivity; lra. Qed.
Lemma psih_wf0 f s n nh k : wf f (s * nth k (xifn 1 n) 0) = C0 -> psih_val f s n nh k = C0.
Proof. intros H. unfold psih_val. rewrite H. destruct (_ && _); [apply C_eq; cbn; ring|reflexivity]. Qed.
Lemma PI_34 : 3 < PI <= 4.
Proof. pose proof PI2_3_2. pose proof PI_4. lra. Qed.
Lemma rt2_14 : 14 / 10 < rt2.
Proof. pose proof rt2_sq. pose proof rt2_bounds. nra. Qed.

Lemma band4 s k nh : s = 1 \/ s = rt2 \/ s = 2 -> (k < 4)%nat -> (s = 1 -> k <> 1%nat) -> psih_val band_wave s 4 nh k = C0.
Proof.
  intros Hs Hk H1. apply psih_wf0, band_out. pose proof PI_34. pose proof rt2_14. pose proof rt2_bounds.
  assert (P : 3 * (14 / 10) < PI * rt2) by (apply Rmult_le_0_lt_compat; lra).
  destruct k as [|[|[|[|k]]]]; [| | | |lia].
  - rewrite xi_low by (cbn; lia). cbn. lra.
  - rewrite xi_low by (cbn; lia). cbn [INR]. right. destruct Hs as [ ->|[ ->| ->]]; [exfalso; apply (H1 eq_refl); reflexivity|..]; nra.
  - rewrite xi_low by (cbn; lia). cbn [INR]. right. destruct Hs as [ ->|[ ->| ->]]; nra.
  - pose proof (xi_high 4 1 ltac:(lia) ltac:(lia)) as X. cbn [Nat.sub INR] in X. rewrite X. left. destruct Hs as [ ->|[ ->| ->]]; nra.
Qed.
Lemma band8 k nh : (k < 8)%nat -> k <> 2%nat -> psih_val band_wave 1 8 nh k = C0.
Proof.
  intros Hk H2. apply psih_wf0, band_out. pose proof PI_34. destruct k as [|[|[|[|[|[|[|[|k]]]]]]]]; try lia; try congruence.
  1-4: rewrite xi_low by (cbn; lia); cbn [INR]; lra.
  - pose proof (xi_high 8 3 ltac:(lia) ltac:(lia)) as X. cbn [Nat.sub INR] in X. rewrite X. lra.
  - pose proof (xi_high 8 2 ltac:(lia) ltac:(lia)) as X. cbn [Nat.sub INR] in X. rewrite X. lra.
  - pose proof (xi_high 8 1 ltac:(lia) ltac:(lia)) as X. cbn [Nat.sub INR] in X. rewrite X. lra.
Qed.
Lemma band_peak n k : (n = 4 /\ k = 1 \/ n = 8 /\ k = 2)%nat -> forall nh, psih_val band_wave 1 n nh k = C1.
Proof.
  intros H nh. assert (E : psih_val band_wave 1 n nh k = wf band_wave (1 * nth k (xifn 1 n) 0)).
  { unfold psih_val. destruct H as [(-> & ->)|(-> & ->)]; cbn [Nat.modulo Nat.div Nat.divmod fst snd Nat.eqb Nat.sub]; rewrite Bool.andb_false_r; reflexivity. }
  rewrite E. apply band_in. pose proof PI_34.
  destruct H as [(-> & ->)|(-> & ->)]; rewrite xi_low by (cbn; lia); cbn [INR]; lra.
Qed.
Lemma tw48 z : tw 4 z = tw 8 (2 * z).
Proof. unfold tw. f_equal. rewrite mult_IZR. simpl. field. Qed.

Definition row_q (i : nat) (j : nat) : C := if (i =? 0)%nat then nth j [(1, 0); (0, 1); (-1, 0); (0, -1)] C0 else C0.
Lemma q4_rows i j : (i < 3)%nat -> (j < 4)%nat -> row_val band_wave (nth i [1; rt2; 2] 0) q4 j = row_q i j.
Proof.
  intros Hi Hj. unfold row_val. change (length q4) with 4%nat. set (s := nth i [1; rt2; 2] 0).
  assert (Hs : s = 1 \/ s = rt2 \/ s = 2) by (unfold s; destruct i as [|[|[|i]]]; cbn; auto; lia).
  unfold idft. rewrite (Csum_single 4 _ 1 ltac:(lia)).
  2:{ intros k Hk Hne. rewrite band4 by auto. apply C_eq; cbn; ring. }
  assert (X : sig_dft q4 1 = (4, 0)).
  { unfold sig_dft, dft. change (length q4) with 4%nat. cbn [Csum]. rewrite !tw48. tw8s. apply C_eq; cbn; ring. }
  rewrite X. unfold row_q. destruct i as [|i]; cbn [Nat.eqb].
  - subst s. cbn [nth]. rewrite band_peak by (left; lia).
    destruct j as [|[|[|[|j]]]]; [..|lia]; rewrite tw48; tw8s; apply C_eq; cbn; field.
  - rewrite band4; [apply C_eq; cbn; ring|exact Hs|lia|]. intros E. exfalso. subst s. pose proof rt2_bounds. destruct i as [|[|i]]; cbn in E; [lra|lra|lia].
Qed.
Lemma q4_cwt : exists W s', cwt false false band_wave (arg0 [1; rt2; 2] false true) q4 st0 = (Ok (W, [1; rt2; 2], None), s') /\
  nrows W = 3%nat /\ ncols W = 4%nat /\ forall i j, (i < 3)%nat -> (j < 4)%nat -> el W i j = row_q i j.
Proof.
  destruct (run0 false false band_wave [1; rt2; 2] false true q4 (KLog 2) eq_refl (scales122 true) ltac:(discriminate)) as (s' & E). cbv iota in E.
  match type of E with _ = (Ok (?w, _, _), _) => set (W := w) in E end. exists W, s'. split; [exact E|].
  destruct (circular_cwt false false band_wave (arg0 [1; rt2; 2] false true) q4 st0 W [1; rt2; 2] None s' 2 band_real (or_introl eq_refl) eq_refl eq_refl (or_introl eq_refl) E) as (N & Cc & HW).
  split; [exact N|]. split; [exact Cc|]. intros i j Hi Hj. rewrite HW by exact Hj. apply q4_rows; assumption.
Qed.
Definition pad8q (i j : nat) : C := if (i =? 0)%nat then pad8 j else C0.
Lemma q4_reflect W : nrows W = 3%nat -> ncols W = 4%nat -> (forall i j, (i < 3)%nat -> (j < 4)%nat -> el W i j = row_q i j) ->
  exists V, pad_mat PReflect W = Ok (V, 2%Z) /\ nrows V = 3%nat /\ ncols V = 8%nat /\ forall i j, (i < 3)%nat -> (j < 8)%nat -> el V i j = pad8q i j.
Proof.
  intros HN HC HW. unfold pad_mat. rewrite HN, HC. cbn [Nat.eqb].
  assert (E : tab 3 (fun i => tab 4 (el W i)) = tab 3 (fun i => tab 4 (row_q i))).
  { apply tab_ext. intros i Hi. apply tab_ext. intros j Hj. apply HW; assumption. }
  rewrite E. unfold tab. cbn [seq map pad_mat_rows row_q Nat.eqb nth]. rewrite !pad4. cbn [bind].
  change (p2up (Z.of_nat 4)) with (8, 2, 2)%Z. eexists. split; [reflexivity|]. split; [reflexivity|]. split; [reflexivity|].
  intros i j Hi Hj. cbn [el]. destruct i as [|[|[|i]]]; [| | |lia]; (destruct j as [|[|[|[|[|[|[|[|j]]]]]]]]; [reflexivity..|lia]).
Qed.
Lemma q4_pad_int W : nrows W = 3%nat -> ncols W = 4%nat -> (forall i j, (i < 3)%nat -> (j < 4)%nat -> el W i j = row_q i j) ->
  exists y, icwt_2int band_wave W [1; rt2; 2] true true 4 PReflect false = Ok y /\ length y = 4%nat /\ nth 0 y 0 = 1 / 2.
Proof.
  intros HN HC HW. destruct (q4_reflect W HN HC HW) as (V & E & NV & CV & HV). unfold icwt_2int. rewrite E. cbn [bind]. rewrite CV, NV.
  eexists. split; [reflexivity|].
  match goal with |- length (pyslice ?l _ _) = _ /\ _ => assert (L : length l = 8%nat) by apply tab_length end.
  split; [rewrite pyslice_length by (rewrite ?L; lia); reflexivity|].
  rewrite pyslice_nth by (rewrite ?L; lia). change (Z.to_nat 2 + 0)%nat with 2%nat. rewrite nth_tab by lia. change (Nat.min (length [1; rt2; 2]) 3) with 3%nat.
  assert (T : forall i, (i < 3)%nat -> nth 2 (ifftshift (tab 8 (idft 8 (fun k => Cmul (dft 8 (el V i) k)
     (Cmul (el (wavelet_call band_wave [nth i [1; rt2; 2] 0] 8 true) 0 k) (RtoC (if Nat.even k then 1 else -1))))))) C0 =
     idft 8 (fun k => Cmul (psih_val band_wave (nth i [1; rt2; 2] 0) 8 true k) (dft 8 (pad8q i) k)) 2).
  { intros i Hi. rewrite <- (unshift 4) by lia. change (2 * 4)%nat with 8%nat. f_equal. f_equal. apply tab_ext. intros q Hq. apply idft_ext. intros k Hk.
    rewrite wavelet_call_el by exact band_real. cbn [nth]. rewrite (dft_ext 8 (el V i) (pad8q i)) by (intros; apply HV; lia). apply C_eq; cbn [Cmul fst snd]; ring. }
  cbn [Rsum]. rewrite !T by lia. cbn [icwt_norm].
  assert (Z : forall i, (0 < i)%nat -> forall g, idft 8 (fun k => Cmul (g k) (dft 8 (pad8q i) k)) 2 = C0).
  { intros i Hi g. rewrite (idft_ext 8 _ (fun k => Cmul C0 C0)).
    - rewrite idft_scal. apply C_eq; cbn; ring.
    - intros k Hk. rewrite (dft_ext 8 (pad8q i) (fun _ => Cmul C0 C0)) by (intros; unfold pad8q; destruct i; [lia|]; cbn [Nat.eqb]; apply C_eq; cbn; ring).
      unfold dft. rewrite Csum_0; [apply C_eq; cbn; ring|]. intros; apply C_eq; cbn; ring. }
  rewrite (Z 1%nat), (Z 2%nat) by lia. cbn [nth].
  unfold idft. rewrite (Csum_single 8 _ 2 ltac:(lia)).
  2:{ intros k Hk Hne. rewrite band8 by assumption. apply C_eq; cbn; ring. }
  rewrite band_peak by (right; lia). unfold dft. cbn [Csum]. tw8s. unfold pad8q. cbn [Nat.eqb]. unfold pad8. cbn [nth]. unfold Re. cbn. field.
Qed.
Lemma q4_wrap_int W : nrows W = 3%nat -> ncols W = 4%nat -> (forall i j, (i < 3)%nat -> (j < 4)%nat -> el W i j = row_q i j) ->
  exists y, icwt_2int band_wave W [1; rt2; 2] true true 4 PWrap false = Ok y /\ length y = 4%nat /\ nth 0 y 0 = 1.
Proof.
  intros HN HC HW. pose proof (two_int_wrap band_wave W [1; rt2; 2] true true 2 band_real HC ltac:(rewrite HN; reflexivity)) as E. rewrite HC, HN in E.
  eexists. split; [exact E|]. split; [apply tab_length|]. rewrite nth_tab by lia. cbn [Rsum icwt_norm].
  assert (Z : forall i, (i < 3)%nat -> Re (idft 4 (fun k => Cmul (psih_val band_wave (nth i [1; rt2; 2] 0) 4 true k) (dft 4 (el W i) k)) 0) = if (i =? 0)%nat then 1 else 0).
  { intros i Hi. unfold idft. rewrite (Csum_single 4 _ 1 ltac:(lia)).
    2:{ intros k Hk Hne. rewrite band4; [apply C_eq; cbn; ring| |exact Hk|auto]. destruct i as [|[|[|i]]]; cbn; auto; lia. }
    rewrite (dft_ext 4 (el W i) (row_q i)) by (intros; apply HW; lia). unfold dft. cbn [Csum]. rewrite !tw48. tw8s.
    destruct i as [|i]; unfold row_q; cbn [Nat.eqb nth].
    - rewrite band_peak by (left; lia). unfold Re. cbn. field.
    - unfold Re. cbn. field. }
  rewrite !Z by lia. cbn [Nat.eqb]. field.
Qed.
(** the same transform; [icwt]'s default padding halves the tone *)
Theorem two_int_reflect : exists W s' y y', cwt false false band_wave (arg0 [1; rt2; 2] false true) q4 st0 = (Ok (W, [1; rt2; 2], None), s') /\
  icwt band_wave 1 W [1; rt2; 2] true None false true None 0 PWrap false = Ok y /\
  icwt band_wave 1 W [1; rt2; 2] true None false true None 0 PReflect false = Ok y' /\ nth 0 y' 0 = / 2 * nth 0 y 0 /\ 0 < nth 0 y 0.
Proof.
  destruct q4_cwt as (W & s' & E & HN & HC & HW). exists W, s'.
  destruct (q4_pad_int W HN HC HW) as (yr & Er & Lr & Vr). destruct (q4_wrap_int W HN HC HW) as (yw & Ew & Lw & Vw).
  do 2 eexists. split; [exact E|].
  rewrite !(icwt_two_log band_wave 1 W [1; rt2; 2] true 2) by (try reflexivity; try (apply scales122); rewrite HN; reflexivity).
  rewrite HC. change (Z.of_nat 4) with 4%Z. rewrite Er, Ew. cbn [bind]. split; [reflexivity|]. split; [reflexivity|].
  set (F := fun y : R => y * (2 / 1 * (ln 2 / 2)) + 0). assert (HF : forall l, length l = 4%nat -> nth 0 (map F l) 0 = F (nth 0 l 0)) by (intros [|a l] H; [discriminate|reflexivity]).
  rewrite !HF by assumption. rewrite Vr, Vw. unfold F. pose proof ln2_pos. split; lra.
Qed.
Theorem two_filter_case : exists W s', cwt false false band_wave (arg0 [1; rt2; 2] false true) q4 st0 = (Ok (W, [1; rt2; 2], None), s') /\
  icwt band_wave 1 W [1; rt2; 2] true None false true None 0 PWrap false =
  Ok (tab 4 (fun j => filtered (two_gain band_wave [1; rt2; 2] 2 1 4) q4 j + 0)).
Proof.
  destruct q4_cwt as (W & s' & E & _). exists W, s'. split; [exact E|].
  apply (icwt_two_cwt false false band_wave (arg0 [1; rt2; 2] false true) q4 st0 W [1; rt2; 2] None s' true 2 1 0 2); auto using band_real.
  - left. reflexivity.
  - apply scales122.
Qed.
