(** [morsewave] against [compute_gmw]. *)
From Coq Require Import Reals Lra Lia Psatz Arith.
From Verif Require Import Py Cplx CplxProofs Freqs ShiftProofs Pointwise Comb CombProofs Wavelets WaveletProofs
  Integral IntegralProofs GmwOrders LaguerreProofs GmwOrdersProofs GmwThms GmwThms2.
Local Open Scope R_scope.

Lemma laguerre_lagp G x k c : laguerre G x k c = lagp G k c x.
Proof.
  unfold laguerre. rewrite (fold_Rsum (fun m => sgn1 m *
    exp (gammaln G (INR k + c + 1) - gammaln G (c + INR m + 1) - gammaln G (INR (k - m) + 1)) * x ^ m / G (INR m + 1))).
  unfold lagp. rewrite Nat.add_1_r. apply Rsum_ext. intros m _. unfold lag_const. simpl plus. unfold Rdiv. ring.
Qed.

Lemma gmw_ok G gamma beta norm k centered f32 : 0 < gamma -> 0 < beta ->
  (norm = Bandpass \/ norm = Energy /\ f32 = false) ->
  exists f, gmw G gamma beta norm (OInt (Z.of_nat k)) centered f32 = Ok f.
Proof.
  intros Hg Hb Hn. apply gmw_accepts. split; [exact Hg|]. split; [exact Hb|]. split; [exact Hn|].
  left. exists (Z.of_nat k). split; [reflexivity|lia].
Qed.

(** entry [i] of order [k] of [morsewave] is entry [i] of [compute_gmw] at scale [fo / f] *)
Lemma morsewave1_compute G N f gamma beta norm k : is_Gamma G -> (1 <= N)%nat -> 0 < f -> 0 < gamma -> 0 < beta ->
  norm <> OtherNorm ->
  exists X, morsewave1 G N f gamma beta norm k = Ok X /\
    compute_gmw G N (morsefreq gamma beta / f) gamma beta norm (OInt (Z.of_nat k)) false true false = Ok X.
Proof.
  intros H HN Hf Hg Hb Hn. set (fo := morsefreq gamma beta).
  pose proof (morsefreq_pos gamma beta Hg Hb) as Pfo. fold fo in Pfo.
  assert (Ps : 0 < fo / f) by now apply Rdiv_lt_0_compat.
  assert (Hn' : norm = Bandpass \/ norm = Energy /\ false = false) by (destruct norm; auto; now elim Hn).
  destruct (gmw_ok G gamma beta norm k false false Hg Hb Hn') as [fn Efn].
  destruct (gmw_spec _ _ _ _ _ _ _ _ H Efn) as (_ & _ & _ & [B1 B2]).
  assert (Ec : exists coeff, family_coeff G (f / fo) gamma beta norm k = Ok coeff /\
    coeff = match norm with Energy => sqrt (fo / f) | _ => 1 end * k_coeff G gamma beta k norm).
  { destruct norm; [| |now elim Hn].
    - eexists. split; [reflexivity|]. destruct (Req_EM_T beta 0); [lra|]. unfold k_coeff. ring.
    - simpl. eexists. split; [reflexivity|]. rewrite plus_INR. simpl (INR 1).
      replace (1 / (f / fo)) with (fo / f) by (field; lra).
      replace (INR k + 1 + (2 * beta + 1) / gamma - 1) with (INR k + (2 * beta + 1) / gamma) by ring. reflexivity. }
  destruct Ec as [coeff [Ec Eco]].
  set (X := tab N (fun i => coeff * psizero gamma beta fo norm i (2 * PI * (INR i / INR N) / (f / fo)) *
    (if (i <? N / 2 + 1)%nat then laguerre G (2 * rpow (2 * PI * (INR i / INR N) / (f / fo)) gamma) k
       ((2 * beta + 1) / gamma - 1) else 0))).
  exists (X, center_ifft N X). split.
  { unfold morsewave1. fold fo. destruct (Req_EM_T fo 0); [lra|]. rewrite Ec. reflexivity. }
  unfold compute_gmw. rewrite check_beta0_ok by (auto; lra). cbn [bind].
  destruct (Rle_dec (fo / f) 0); [lra|]. rewrite Efn. cbn [bind].
  assert (EX : match norm with
      | Energy => map (fun v => v * sqrt (fo / f))
          (tab N (fun i => if (i <? N / 2 + 1)%nat then fn (nth i (xifn (fo / f) N) 0) else 0))
      | _ => tab N (fun i => if (i <? N / 2 + 1)%nat then fn (nth i (xifn (fo / f) N) 0) else 0) end = X).
  { assert (EI : forall i, (i < N)%nat ->
      match norm with Energy => sqrt (fo / f) | _ => 1 end *
        (if (i <? N / 2 + 1)%nat then fn (nth i (xifn (fo / f) N) 0) else 0) = nth i X 0).
    { intros i Hi. unfold X. rewrite nth_tab by exact Hi.
      destruct (i <? N / 2 + 1)%nat eqn:Ei; [|ring].
      rewrite nth_xifn by exact Hi. unfold xi_bin. rewrite Ei. rewrite <- INR_IZR_INZ.
      assert (PN : 0 < INR N) by (apply lt_0_INR; lia).
      replace (2 * PI * (INR i / INR N) / (f / fo)) with (INR i * (fo / f * (2 * PI) / INR N)) by (field; lra).
      set (w := INR i * (fo / f * (2 * PI) / INR N)).
      assert (Hw : i = 0%nat /\ w = 0 \/ 0 < w).
      { destruct i as [|i]; [left; split; [reflexivity|unfold w; simpl; ring]|right].
        unfold w. pose proof PI_RGT_0. apply Rmult_lt_0_compat; [apply lt_0_INR; lia|].
        apply Rdiv_lt_0_compat; [|exact PN]. apply Rmult_lt_0_compat; lra. }
      unfold psizero. destruct (Req_EM_T beta 0); [lra|].
      destruct Hw as [[-> Hw]|Hw].
      - rewrite Hw. rewrite B2 by lra. destruct (Req_EM_T 0 0); [|lra]. ring.
      - destruct (Req_EM_T w 0); [lra|]. rewrite (B1 w Hw).
        rewrite laguerre_lagp, !rpow_pos by (auto; exact Pfo). unfold gmw_shape. rewrite Eco.
        destruct norm; [| |now elim Hn].
        + unfold gmw_amp. fold fo. rewrite rpow_pos by exact Pfo.
          replace (- beta * ln fo + Rpower fo gamma + beta * ln w - Rpower w gamma)
            with ((- beta * ln fo + Rpower fo gamma) + (beta * ln w - Rpower w gamma)) by ring.
          rewrite (exp_plus (- beta * ln fo + Rpower fo gamma) (beta * ln w - Rpower w gamma)), exp_split. ring.
        + unfold gmw_amp. rewrite exp_split. ring. }
    apply nth_ext with (d := 0) (d' := 0).
    - unfold X. destruct norm; rewrite ?map_length, !tab_length; reflexivity.
    - assert (LN : forall i, lt i (length match norm with
        | Energy => map (fun v => v * sqrt (fo / f))
            (tab N (fun i => if (i <? N / 2 + 1)%nat then fn (nth i (xifn (fo / f) N) 0) else 0))
        | _ => tab N (fun i => if (i <? N / 2 + 1)%nat then fn (nth i (xifn (fo / f) N) 0) else 0) end) -> (i < N)%nat).
      { intros i. destruct norm; rewrite ?map_length, tab_length; auto. }
      intros i Hi. apply LN in Hi. rewrite <- (EI i Hi). destruct norm; [| |now elim Hn].
      + rewrite nth_tab by exact Hi. ring.
      + rewrite (nth_indep _ 0 (0 * sqrt (fo / f))) by (rewrite map_length, tab_length; exact Hi).
        rewrite (map_nth (fun v => v * sqrt (fo / f))), nth_tab by exact Hi. ring. }
  fold fo.
  destruct norm; [| |now elim Hn]; rewrite EX; reflexivity.
Qed.

Lemma rmapM_length {A B} (f : A -> res B) l r : rmapM f l = Ok r -> length r = length l.
Proof.
  revert r. induction l as [|a l IH]; intros r E; simpl in E.
  - apply Ok_inj in E. now subst.
  - destruct (f a); [|discriminate]. simpl in E. destruct (rmapM f l) eqn:El; [|discriminate].
    simpl in E. apply Ok_inj in E. subst r. simpl. f_equal. now apply IH.
Qed.
Lemma rmapM_nth {A B} (f : A -> res B) l r d d' i : rmapM f l = Ok r -> (i < length l)%nat ->
  f (nth i l d) = Ok (nth i r d').
Proof.
  revert r i. induction l as [|a l IH]; intros r i E Hi; simpl in E, Hi; [lia|].
  destruct (f a) eqn:Ea; [|discriminate]. simpl in E. destruct (rmapM f l) eqn:El; [|discriminate].
  simpl in E. apply Ok_inj in E. subst r. destruct i as [|i]; [exact Ea|]. simpl. apply IH; auto. lia.
Qed.
Lemma rmapM_total {A B} (f : A -> res B) l : (forall x, In x l -> exists y, f x = Ok y) -> exists r, rmapM f l = Ok r.
Proof.
  induction l as [|a l IH]; intros H; [now exists []|].
  destruct (H a (or_introl eq_refl)) as [y Ey]. destruct IH as [r Er]; [intros x Hx; apply H; now right|].
  exists (y :: r). simpl. now rewrite Ey, Er.
Qed.

Lemma morsewave_compute G N freqs gamma beta K norm : is_Gamma G -> (1 <= N)%nat -> 0 < gamma -> 0 < beta ->
  norm <> OtherNorm -> (forall f, In f freqs -> 0 < f) ->
  exists R0, morsewave G N freqs gamma beta K norm = Ok R0 /\ length R0 = length freqs /\
    forall n k, (n < length freqs)%nat -> (k < K)%nat ->
      length (nth n R0 []) = K /\
      compute_gmw G N (morsefreq gamma beta / nth n freqs 0) gamma beta norm (OInt (Z.of_nat k)) false true false
      = Ok (nth k (nth n R0 []) ([], [])).
Proof.
  intros H HN Hg Hb Hn Hf. unfold morsewave. rewrite check_beta0_ok by (auto; lra). cbn [bind].
  assert (One : forall f, 0 < f -> exists r, morsewave_freq G N gamma beta K norm f = Ok r /\ length r = K /\
    forall k, (k < K)%nat ->
      compute_gmw G N (morsefreq gamma beta / f) gamma beta norm (OInt (Z.of_nat k)) false true false
      = Ok (nth k r ([], []))).
  { intros f Pf. unfold morsewave_freq. rewrite Rabs_right by lra.
    destruct (rmapM_total (morsewave1 G N f gamma beta norm) (seq 0 K)) as [r Er].
    { intros k _. destruct (morsewave1_compute G N f gamma beta norm k) as [X [E _]]; auto. now exists X. }
    exists r. rewrite Er. cbn [bind]. destruct (Rlt_dec f 0); [lra|]. split; [reflexivity|].
    split; [rewrite (rmapM_length _ _ _ Er); apply seq_length|]. intros k Hk.
    destruct (morsewave1_compute G N f gamma beta norm k) as [X [E1 E2]]; auto.
    rewrite E2. rewrite <- E1.
    pose proof (rmapM_nth _ _ _ 0%nat ([], []) k Er ltac:(rewrite seq_length; exact Hk)) as Q.
    rewrite seq_nth in Q by exact Hk. simpl in Q. exact Q. }
  destruct (rmapM_total (morsewave_freq G N gamma beta K norm) freqs) as [R0 ER].
  { intros f Hin. destruct (One f (Hf f Hin)) as [r [E _]]. now exists r. }
  exists R0. split; [exact ER|]. split; [exact (rmapM_length _ _ _ ER)|]. intros n k Hnl Hk.
  destruct (One (nth n freqs 0)) as [r [E [L C]]]; [apply Hf, nth_In; exact Hnl|].
  pose proof (rmapM_nth _ _ _ 0 [] n ER Hnl) as Q. rewrite E in Q. apply Ok_inj in Q. rewrite <- Q. split; [exact L|].
  now apply C.
Qed.

(** a negative frequency raises *)
Lemma morsewave_negative G N f gamma beta K norm : is_Gamma G -> (2 <= N)%nat -> 0 < gamma -> 0 < beta ->
  norm <> OtherNorm -> f < 0 -> morsewave G N [f] gamma beta K norm = Err ValueError.
Proof.
  intros H HN Hg Hb Hn Hf. unfold morsewave. rewrite check_beta0_ok by (auto; lra). cbn [bind]. simpl.
  unfold morsewave_freq.
  destruct (rmapM_total (morsewave1 G N (Rabs f) gamma beta norm) (seq 0 K)) as [r Er].
  { intros k _. destruct (morsewave1_compute G N (Rabs f) gamma beta norm k) as [X [E _]]; auto; [lia| |now exists X].
    apply Rabs_pos_lt. lra. }
  rewrite Er. cbn [bind]. destruct (Rlt_dec f 0); [|lra].
  unfold fits. destruct (Nat.eqb_spec N 1); [lia|]. destruct (Nat.eqb_spec N 1); [lia|]. reflexivity.
Qed.

(** [beta = 0], documented as supported, divides by zero *)
Lemma morsefreq_zero gamma : morsefreq gamma 0 = 0.
Proof.
  unfold morsefreq, rpow. destruct (Req_EM_T (0 / gamma) 0) as [|N]; [reflexivity|].
  elim N. unfold Rdiv. ring.
Qed.
Lemma morsewave_beta0 G N f gamma K norm : 0 < gamma -> (1 <= K)%nat -> norm <> OtherNorm ->
  morsewave G N [f] gamma 0 K norm = Err ZeroDivisionError.
Proof.
  intros Hg HK Hn. unfold morsewave. rewrite check_beta0_ok by (auto; lra). cbn [bind]. simpl.
  unfold morsewave_freq. destruct K as [|K]; [lia|]. simpl. unfold morsewave1. rewrite morsefreq_zero.
  destruct (Req_EM_T 0 0); [reflexivity|lra].
Qed.

(** ** Statements assembled for the properties file *)
Lemma gmw_order0 G gamma beta norm centered f32 f : is_Gamma G ->
  gmw G gamma beta norm (OInt 0) centered f32 = Ok f ->
  exists g, match norm with Bandpass => gmw_l1_k G gamma beta 0 centered | _ => gmw_l2_k G gamma beta 0 centered end = Ok g /\
    forall w, g w = f w.
Proof.
  intros H E. destruct (gmw_spec G gamma beta norm 0 centered f32 f H E) as (Hg & Hb & Hn & _).
  unfold gmw in E. rewrite check_beta0_ok in E by (auto; lra). simpl in E.
  rewrite gmw_l1_ok, gmw_l2_ok in E by auto. unfold gmw_l1_k, gmw_l2_k. rewrite check_gmw_ok by auto. cbn [bind].
  destruct norm; [| |now elim Hn]; destruct f32; try discriminate; apply Ok_inj in E; subst f;
    (eexists; split; [reflexivity|]); intros w; cbv beta;
    first [now apply order0_l1 | now apply order0_l2].
Qed.

Lemma gmw_negative G gamma beta norm k centered f32 f w : is_Gamma G ->
  gmw G gamma beta norm (OInt k) centered f32 = Ok f -> w <= 0 -> f w = 0.
Proof.
  intros H E Hw. destruct (Z_nonneg_order _ _ _ _ _ _ _ _ E) as [n ->].
  destruct (gmw_spec _ _ _ _ _ _ _ _ H E) as (_ & _ & _ & [_ B]). now apply B.
Qed.

(** the moments and cumulants, all at once *)
Lemma morsemom_spec G gamma beta f p : is_Gamma G -> 0 < gamma -> 0 < beta -> gmw_l1 gamma beta false = Ok f ->
  exists (m e : nat -> R) K L Mp Np Kp Lp,
    (forall q, impint (fun w => / (2 * PI) * (w ^ q * f w)) (m q)) /\
    (forall q, impint (fun w => / (2 * PI) * (w ^ q * (f w) ^ 2)) (e q)) /\
    moments_to_cumulants (map m (seq 0 (p + 1))) = Ok K /\
    moments_to_cumulants (map e (seq 0 (p + 1))) = Ok L /\
    morsemom G p gamma beta = Ok (Mp, Np, Kp, Lp) /\
    Mp = m p /\ Np = e p /\ Kp = nth p K 0 /\ Lp = nth p L 0.
Proof.
  intros H Hg Hb Hf.
  destruct (morsemom_ok G gamma beta f H Hg Hb Hf p) as (K & L & EK & EL & E).
  exists (mom G gamma beta), (emom G gamma beta), K, L. do 4 eexists.
  split; [intros q; apply (mom_ok G gamma beta f H Hg Hb Hf q)|].
  split; [intros q; apply (emom_ok G gamma beta f H Hg Hb Hf q)|].
  split; [exact EK|]. split; [exact EL|]. split; [exact E|]. auto.
Qed.

Lemma morsefreq_spec G gamma beta f : is_Gamma G -> 0 < gamma -> 0 < beta -> gmw_l1 gamma beta false = Ok f ->
  exists wm we wi cwi m0 m1 e0 e1, morsefreq_all G gamma beta = Ok (wm, we, wi, cwi) /\
    f wm = 2 /\ (forall w, w <> wm -> f w < 2) /\
    impint f m0 /\ impint (fun w => w * f w) m1 /\
    impint (fun w => (f w) ^ 2) e0 /\ impint (fun w => w * (f w) ^ 2) e1 /\
    0 < m0 /\ 0 < e0 /\ wi = m1 / m0 /\ we = e1 / e0.
Proof.
  intros H Hg Hb Hf.
  destruct (morsefreq_all_ok G gamma beta f H Hg Hb Hf) as (k2 & k3 & K2 & K3 & _ & _ & _ & _ & E).
  pose proof PI_RGT_0 as Ppi.
  pose proof (mom_pos G gamma beta f H Hg Hb Hf 0) as P0. pose proof (emom_pos G gamma beta f H Hg Hb Hf 0) as Q0.
  destruct (gmw_l1_peaks gamma beta f Hg Hb Hf) as (Pk & Pl & _). rewrite <- (morsefreq_val gamma beta Hg Hb) in Pk, Pl.
  do 4 eexists. exists (2 * PI * mom G gamma beta 0), (2 * PI * mom G gamma beta 1),
    (2 * PI * emom G gamma beta 0), (2 * PI * emom G gamma beta 1).
  split; [exact E|]. split; [exact Pk|]. split; [exact Pl|].
  assert (Im : forall q, impint (fun w => w ^ q * f w) (2 * PI * mom G gamma beta q)).
  { intros q. pose proof (impint_scal _ (2 * PI) _ (proj2 (mom_ok G gamma beta f H Hg Hb Hf q))) as I.
    eapply impint_ext; [|exact I]. intros w _. cbv beta. field. lra. }
  assert (Ie : forall q, impint (fun w => w ^ q * f w ^ 2) (2 * PI * emom G gamma beta q)).
  { intros q. pose proof (impint_scal _ (2 * PI) _ (proj2 (emom_ok G gamma beta f H Hg Hb Hf q))) as I.
    eapply impint_ext; [|exact I]. intros w _. cbv beta. field. lra. }
  split; [eapply impint_ext; [|exact (Im 0%nat)]; intros w _; cbv beta; simpl; ring|].
  split; [eapply impint_ext; [|exact (Im 1%nat)]; intros w _; cbv beta; simpl; ring|].
  split; [eapply impint_ext; [|exact (Ie 0%nat)]; intros w _; cbv beta; simpl; ring|].
  split; [eapply impint_ext; [|exact (Ie 1%nat)]; intros w _; cbv beta; simpl; ring|].
  split; [apply Rmult_lt_0_compat; lra|]. split; [apply Rmult_lt_0_compat; lra|].
  split; field; lra.
Qed.

(** what the cumulants of order 2 and 3 are, and that the power in [cwi] has a positive base *)
Lemma cum2 m0 m1 m2 : m0 <> 0 -> exists K, moments_to_cumulants [m0; m1; m2] = Ok K /\
  nth 2 K 0 = m2 / m0 - (m1 / m0) ^ 2.
Proof.
  intros N. eexists. split; [reflexivity|]. unfold cumulants_upto, cumulant_next. simpl length.
  cbn [Nat.sub seq fold_left app nth]. unfold nCk, prodZ, range_up, range_down. simpl. field. exact N.
Qed.
Lemma cum3 m0 m1 m2 m3 : m0 <> 0 -> exists K, moments_to_cumulants [m0; m1; m2; m3] = Ok K /\
  nth 3 K 0 = m3 / m0 - 3 * (m1 / m0) * (m2 / m0) + 2 * (m1 / m0) ^ 3.
Proof.
  intros N. eexists. split; [reflexivity|]. unfold cumulants_upto, cumulant_next. simpl length.
  cbn [Nat.sub seq fold_left app nth]. unfold nCk, prodZ, range_up, range_down. simpl. field. exact N.
Qed.
Lemma morsefreq_curvature G gamma beta f : is_Gamma G -> 0 < gamma -> 0 < beta -> gmw_l1 gamma beta false = Ok f ->
  exists wm we wi cwi m0 v t, morsefreq_all G gamma beta = Ok (wm, we, wi, cwi) /\
    impint f m0 /\ impint (fun w => (w - wi) ^ 2 * (f w / m0)) v /\
    impint (fun w => (w - wi) ^ 3 * (f w / m0)) t /\ 0 < v /\ cwi = - (t / Rpower v (3 / 2)).
Proof.
  intros H Hg Hb Hf.
  destruct (morsefreq_all_ok G gamma beta f H Hg Hb Hf) as (k2 & k3 & K2 & K3 & EK2 & E2 & EK3 & E3 & E).
  pose proof PI_RGT_0 as Ppi.
  pose proof (mom_pos G gamma beta f H Hg Hb Hf 0) as P0.
  pose proof (variance_pos G gamma beta f H Hg Hb Hf) as Pv.
  set (m := mom G gamma beta) in *.
  assert (Im : forall q, impint (fun w => w ^ q * f w) (2 * PI * m q)).
  { intros q. pose proof (impint_scal _ (2 * PI) _ (proj2 (mom_ok G gamma beta f H Hg Hb Hf q))) as I.
    eapply impint_ext; [|exact I]. intros w _. cbv beta. field. lra. }
  destruct (cum2 (m 0%nat) (m 1%nat) (m 2%nat)) as [K2' [Q2 V2]]; [lra|].
  destruct (cum3 (m 0%nat) (m 1%nat) (m 2%nat) (m 3%nat)) as [K3' [Q3 V3]]; [lra|].
  simpl in EK2, EK3. change (moments_to_cumulants [m 0%nat; m 1%nat; m 2%nat] = Ok K2) in EK2.
  change (moments_to_cumulants [m 0%nat; m 1%nat; m 2%nat; m 3%nat] = Ok K3) in EK3.
  rewrite Q2 in EK2. apply Ok_inj in EK2. subst K2'. rewrite Q3 in EK3. apply Ok_inj in EK3. subst K3'.
  do 4 eexists. exists (2 * PI * m 0%nat), k2, k3. split; [exact E|].
  set (u := m 1%nat / m 0%nat) in *.
  split; [eapply impint_ext; [|exact (Im 0%nat)]; intros w _; cbv beta; simpl; ring|].
  assert (E2' : k2 = / (2 * PI * m 0%nat) * (2 * PI * m 2%nat + (-2 * u) * (2 * PI * m 1%nat) + (u * u) * (2 * PI * m 0%nat))).
  { rewrite <- E2, V2. unfold u. field. lra. }
  assert (E3' : k3 = / (2 * PI * m 0%nat) * (2 * PI * m 3%nat + (-3 * u) * (2 * PI * m 2%nat) + (3 * (u * u)) * (2 * PI * m 1%nat)
                 + (- (u * u * u)) * (2 * PI * m 0%nat))).
  { rewrite <- E3, V3. unfold u. field. lra. }
  split.
  { rewrite E2'.
    pose proof (impint_lin _ _ (u * u) _ _ (impint_lin _ _ (-2 * u) _ _ (Im 2%nat) (Im 1%nat)) (Im 0%nat)) as I.
    apply (impint_scal _ (/ (2 * PI * m 0%nat))) in I. eapply impint_ext; [|exact I].
    intros w _. cbv beta. simpl. field. lra. }
  split.
  { rewrite E3'.
    pose proof (impint_lin _ _ (- (u * u * u)) _ _ (impint_lin _ _ (3 * (u * u)) _ _ (impint_lin _ _ (-3 * u) _ _ (Im 3%nat) (Im 2%nat)) (Im 1%nat)) (Im 0%nat)) as I.
    apply (impint_scal _ (/ (2 * PI * m 0%nat))) in I. eapply impint_ext; [|exact I].
    intros w _. cbv beta. simpl. field. lra. }
  split; [|reflexivity]. rewrite <- E2, V2. exact Pv.
Qed.

Lemma order1_not_two G gamma beta f32 f : is_Gamma G ->
  gmw G gamma beta Bandpass (OInt 1) false f32 = Ok f -> gamma * (2 * beta + 1) <> 1 ->
  f (morsefreq gamma beta) <> 2.
Proof.
  intros H E N. rewrite (gmw_order1_at_peak G gamma beta f32 f H E). intros Q.
  change 1%Z with (Z.of_nat 1) in E. destruct (gmw_spec _ _ _ _ _ _ _ _ H E) as (Hg & Hb & _).
  assert (P : 0 < gamma * (2 * beta + 1)) by (apply Rmult_lt_0_compat; lra).
  pose proof (sqrt_lt_R0 _ P) as Ps.
  assert (sqrt (gamma * (2 * beta + 1)) = 1).
  { apply (f_equal (fun x => x * sqrt (gamma * (2 * beta + 1)))) in Q.
    unfold Rdiv in Q. rewrite Rmult_assoc, Rinv_l in Q; lra. }
  apply N. rewrite <- (sqrt_sqrt (gamma * (2 * beta + 1))) by lra. rewrite H0. ring.
Qed.
Lemma order1_default : exists G f, is_Gamma G /\ gmw G 3 60 Bandpass (OInt 1) false false = Ok f /\
  f (morsefreq 3 60) <> 2.
Proof.
  destruct (gmw_ok EulerGamma 3 60 Bandpass 1 false false) as [f E]; [lra|lra|now left|].
  exists EulerGamma, f. split; [exact EulerGamma_is_Gamma|]. split; [exact E|].
  apply (order1_not_two EulerGamma 3 60 false f EulerGamma_is_Gamma E). lra.
Qed.
Lemma gmw_order0_peak G gamma beta f32 f : is_Gamma G ->
  gmw G gamma beta Bandpass (OInt 0) false f32 = Ok f ->
  f (morsefreq gamma beta) = 2 /\ forall w, w <> morsefreq gamma beta -> f w < 2.
Proof.
  intros H E. destruct (gmw_spec G gamma beta Bandpass 0 false f32 f H E) as (Hg & Hb & _).
  unfold gmw in E. rewrite check_beta0_ok in E by (try discriminate; lra). simpl in E.
  assert (E' : gmw_l1 gamma beta false = Ok f) by (destruct f32; exact E).
  destruct (gmw_l1_peaks gamma beta f Hg Hb E') as (P & L & _).
  rewrite <- (morsefreq_val gamma beta Hg Hb) in P, L. now split.
Qed.
Lemma float_order_default : exists G gamma beta order, check_order order = Ok tt /\ 0 < gamma /\ 0 < beta /\
  gmw G gamma beta Bandpass order false false = Err TypeError.
Proof.
  exists EulerGamma, 3, 60, (OFloat 1).
  destruct (gmw_float_order EulerGamma 3 60 Bandpass 1 false false) as [A B]; [lra|lra|now left|lia|].
  repeat split; try lra; assumption.
Qed.
Lemma morsewave_negative_default : exists G N f, is_Gamma G /\ morsewave G N [f] 3 60 1 Bandpass = Err ValueError.
Proof.
  exists EulerGamma, 4%nat, (-1). split; [exact EulerGamma_is_Gamma|].
  apply morsewave_negative; try lra; try lia; [exact EulerGamma_is_Gamma|discriminate].
Qed.
Lemma morsewave_beta0_default : exists G N f, morsewave G N [f] 3 0 1 Bandpass = Err ZeroDivisionError.
Proof. exists EulerGamma, 4%nat, 1. apply morsewave_beta0; [lra|lia|discriminate]. Qed.
