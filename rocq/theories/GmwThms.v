(** Theorems about GMW orders, moments and [morsewave]. *)
From Coq Require Import Reals Lra Lia Psatz Arith.
From Verif Require Import Py Cplx CplxProofs Freqs ShiftProofs Pointwise Comb CombProofs Wavelets WaveletProofs
  Integral IntegralProofs GmwOrders LaguerreProofs GmwOrdersProofs.
Local Open Scope R_scope.

Lemma Ok_inj A (a b : A) : Ok a = Ok b -> a = b.
Proof. now intros [=]. Qed.
Lemma check_gmw_ok gamma beta : 0 < gamma -> 0 < beta -> check_gmw_args gamma beta = Ok tt.
Proof.
  intros. unfold check_gmw_args. destruct (Rle_dec gamma 0); [lra|]. destruct (Rle_dec beta 0); [lra|]. reflexivity.
Qed.
Lemma check_gmw_bad gamma beta : ~ (0 < gamma /\ 0 < beta) -> check_gmw_args gamma beta = Err ValueError.
Proof.
  intros H. unfold check_gmw_args. destruct (Rle_dec gamma 0); [reflexivity|].
  destruct (Rle_dec beta 0); [reflexivity|]. exfalso. apply H. lra.
Qed.
Lemma check_beta0_ok gamma beta norm : 0 < gamma -> 0 <= beta -> norm <> OtherNorm ->
  check_beta0_args gamma beta norm = Ok tt.
Proof.
  intros Hg Hb Hn. unfold check_beta0_args. destruct (Rle_dec gamma 0); [lra|].
  destruct (Rlt_dec beta 0); [lra|]. now destruct norm.
Qed.

(** ** What [gmw] returns *)
Definition gmw_built (G : R -> R) (gamma beta : R) (norm : gnorm) (k : nat) (centered : bool) (f : R -> R) : Prop :=
  let at_ w := if centered then w * morsefreq gamma beta else w in
  (forall w, 0 < w -> f w = gmw_amp G gamma beta k norm * gmw_shape G gamma beta k (at_ w)) /\
  (forall w, w <= 0 -> f w = 0).

Lemma l1k_nonpos gamma beta wc kc w : w <= 0 -> gmw_l1_k_entry gamma beta wc kc w = 0.
Proof.
  intros H. unfold gmw_l1_k_entry. destruct (Rle_dec 0 w).
  - replace w with 0 by lra. rewrite Rmult_0_l. destruct (Req_EM_T 0 0); [ring|lra].
  - rewrite Rgeb_neg by lra. simpl b2R. ring.
Qed.
Lemma l2k_nonpos gamma beta kc w : w <= 0 -> gmw_l2_k_entry gamma beta kc w = 0.
Proof.
  intros H. unfold gmw_l2_k_entry. destruct (Rle_dec 0 w).
  - replace w with 0 by lra. rewrite Rmult_0_l. destruct (Req_EM_T 0 0); [ring|lra].
  - rewrite Rgeb_neg by lra. simpl b2R. ring.
Qed.
Lemma at_pos gamma beta (centered : bool) w : 0 < gamma -> 0 < beta -> 0 < w ->
  0 < (if centered then w * morsefreq gamma beta else w).
Proof.
  intros Hg Hb Hw. destruct centered; [|exact Hw]. apply Rmult_lt_0_compat; [exact Hw|].
  now apply morsefreq_pos.
Qed.
Lemma at_nonpos gamma beta (centered : bool) w : 0 < gamma -> 0 < beta -> w <= 0 ->
  (if centered then w * morsefreq gamma beta else w) <= 0.
Proof.
  intros Hg Hb Hw. destruct centered; [|exact Hw]. pose proof (morsefreq_pos gamma beta Hg Hb). nra.
Qed.

Lemma gmw_spec G gamma beta norm (k : nat) centered f32 f : is_Gamma G ->
  gmw G gamma beta norm (OInt (Z.of_nat k)) centered f32 = Ok f ->
  0 < gamma /\ 0 < beta /\ norm <> OtherNorm /\ gmw_built G gamma beta norm k centered f.
Proof.
  intros H E. unfold gmw in E. unfold check_beta0_args in E.
  destruct (Rle_dec gamma 0) as [|Hg]; [discriminate|]. destruct (Rlt_dec beta 0); [discriminate|].
  assert (Hb : 0 < beta \/ ~ (0 < gamma /\ 0 < beta)) by (destruct (Rlt_dec 0 beta); [left|right]; lra).
  apply Rnot_le_lt in Hg.
  assert (Bad : ~ (0 < gamma /\ 0 < beta) -> forall c, gmw_l1 gamma beta c = Err ValueError /\
     gmw_l2 G gamma beta c = Err ValueError /\ (forall k, gmw_l1_k G gamma beta k c = Err ValueError /\
     gmw_l2_k G gamma beta k c = Err ValueError)).
  { intros N c. unfold gmw_l1, gmw_l2, gmw_l1_k, gmw_l2_k. rewrite (check_gmw_bad _ _ N). repeat split. }
  simpl in E. destruct (Z.of_nat k <? 0)%Z eqn:Ek; [apply Z.ltb_lt in Ek; lia|]. simpl in E.
  destruct Hb as [Hb|Hb].
  2:{ exfalso. destruct (Bad Hb centered) as [B1 [B2 B3]].
      destruct k as [|k].
      - simpl in E. destruct norm, f32; simpl in E; try discriminate; rewrite ?B1, ?B2 in E; discriminate.
      - destruct (B3 (Z.to_nat (Z.of_nat (S k)))) as [B4 B5].
        destruct norm, f32; simpl in E; try discriminate; simpl in B4, B5; rewrite ?B4, ?B5 in E; discriminate. }
  split; [exact Hg|]. split; [exact Hb|].
  destruct k as [|k].
  - simpl in E. rewrite gmw_l1_ok, gmw_l2_ok in E by auto.
    destruct norm; [| |destruct f32; discriminate].
    + assert (E' : Ok (fun w => gmw_l1_entry gamma beta (morsefreq gamma beta)
         (if centered then w * morsefreq gamma beta else w)) = Ok f) by (destruct f32; exact E).
      apply Ok_inj in E'. subst f. split; [discriminate|]. split; intros w Hw.
      * rewrite <- (order0_l1 G) by auto. apply gmw_l1_k_pos. now apply at_pos.
      * apply gmw_l1_nonpos; auto. now apply at_nonpos.
    + destruct f32; [discriminate|]. apply Ok_inj in E. subst f. split; [discriminate|]. split; intros w Hw.
      * rewrite <- (order0_l2 G) by auto. apply gmw_l2_k_pos. now apply at_pos.
      * rewrite <- (order0_l2 G) by auto. apply l2k_nonpos. now apply at_nonpos.
  - change (Z.of_nat (S k)) with (Z.pos (Pos.of_succ_nat k)) in E.
    assert (Ek2 : Z.to_nat (Z.pos (Pos.of_succ_nat k)) = S k) by (simpl; lia).
    rewrite Ek2 in E. unfold gmw_l1_k, gmw_l2_k in E. rewrite check_gmw_ok in E by auto.
    destruct norm; [| |destruct f32; discriminate].
    + assert (E' : Ok (fun w => gmw_l1_k_entry gamma beta (morsefreq gamma beta)
         (gmw_k_constants G gamma beta (S k) Bandpass) (if centered then w * morsefreq gamma beta else w)) = Ok f)
        by (destruct f32; exact E).
      apply Ok_inj in E'. subst f. split; [discriminate|]. split; intros w Hw.
      * apply gmw_l1_k_pos. now apply at_pos.
      * apply l1k_nonpos. now apply at_nonpos.
    + destruct f32; [discriminate|]. apply Ok_inj in E. subst f. split; [discriminate|]. split; intros w Hw.
      * apply gmw_l2_k_pos. now apply at_pos.
      * apply l2k_nonpos. now apply at_nonpos.
Qed.

Lemma Z_nonneg_order G gamma beta norm k centered f32 f :
  gmw G gamma beta norm (OInt k) centered f32 = Ok f -> exists n, k = Z.of_nat n.
Proof.
  intros E. unfold gmw in E. destruct (check_beta0_args gamma beta norm); [|discriminate].
  simpl in E. destruct (k <? 0)%Z eqn:Ek; [discriminate|]. apply Z.ltb_ge in Ek.
  exists (Z.to_nat k). lia.
Qed.

(** ** Inner products of the functions returned *)
Lemma gmw_inner G gamma beta norm j k centered fj fk s : is_Gamma G -> 0 < gamma -> 0 < beta -> 0 < s ->
  gmw_built G gamma beta norm j centered fj -> gmw_built G gamma beta norm k centered fk ->
  impint (fun w => fj (s * w) * fk (s * w))
    (gmw_amp G gamma beta j norm * gmw_amp G gamma beta k norm *
     (lag_form G ((2 * beta + 1) / gamma) j k / (gamma * Rpower 2 ((2 * beta + 1) / gamma))) /
     (s * (if centered then morsefreq gamma beta else 1))).
Proof.
  intros H Hg Hb Hs [Bj _] [Bk _].
  set (u := s * (if centered then morsefreq gamma beta else 1)).
  assert (Hu : 0 < u).
  { unfold u. destruct centered; [|lra]. apply Rmult_lt_0_compat; [exact Hs|now apply morsefreq_pos]. }
  pose proof (shape_inner G gamma beta j k H Hg Hb) as I.
  apply (impint_scal _ (gmw_amp G gamma beta j norm * gmw_amp G gamma beta k norm)) in I.
  apply (impint_stretch _ _ u Hu) in I.
  - eapply impint_ext; [|exact I]. intros w Hw. cbv beta.
    assert (Hsw : 0 < s * w) by now apply Rmult_lt_0_compat.
    rewrite (Bj _ Hsw), (Bk _ Hsw).
    replace (if centered then s * w * morsefreq gamma beta else s * w) with (u * w)
      by (unfold u; destruct centered; ring). ring.
  - intros x Hx. apply (continuity_pt_mult (fun _ => gmw_amp G gamma beta j norm * gmw_amp G gamma beta k norm)).
    + apply continuity_pt_const. now intros ? ?.
    + apply (continuity_pt_mult (gmw_shape G gamma beta j)); now apply shape_cont.
Qed.

Lemma gmw_energy_orthonormal G gamma beta j k centered f32 fj fk s : is_Gamma G -> 0 < s ->
  gmw G gamma beta Energy (OInt j) centered f32 = Ok fj ->
  gmw G gamma beta Energy (OInt k) centered f32 = Ok fk ->
  let c := s * (if centered then morsefreq gamma beta else 1) in
  impint (fun w => / (2 * PI) * ((sqrt c * fj (s * w)) * (sqrt c * fk (s * w)))) (if Z.eq_dec j k then 1 else 0).
Proof.
  intros H Hs Ej Ek c.
  destruct (Z_nonneg_order _ _ _ _ _ _ _ _ Ej) as [nj ->]. destruct (Z_nonneg_order _ _ _ _ _ _ _ _ Ek) as [nk ->].
  destruct (gmw_spec _ _ _ _ _ _ _ _ H Ej) as (Hg & Hb & _ & Bj).
  destruct (gmw_spec _ _ _ _ _ _ _ _ H Ek) as (_ & _ & _ & Bk).
  pose proof (gmw_inner _ _ _ _ _ _ _ _ _ s H Hg Hb Hs Bj Bk) as I. fold c in I.
  assert (Hc : 0 < c).
  { unfold c. destruct centered; [|lra]. apply Rmult_lt_0_compat; [exact Hs|now apply morsefreq_pos]. }
  set (r := (2 * beta + 1) / gamma) in *.
  assert (Hr : 0 < r) by (apply Rdiv_lt_0_compat; lra).
  apply (impint_scal _ (/ (2 * PI) * c)) in I. pose proof PI_RGT_0 as Hpi.
  match type of I with impint _ ?v => assert (E : v = if Z.eq_dec (Z.of_nat nj) (Z.of_nat nk) then 1 else 0) end.
  { destruct (Z.eq_dec (Z.of_nat nj) (Z.of_nat nk)) as [Q|Q].
    - apply Nat2Z.inj in Q. subst nj. rewrite lag_form_eq by auto. unfold gmw_amp.
      destruct (k_coeff_sq G gamma beta nk H Hg Hb) as [_ E]. fold r in E. rewrite E.
      assert (0 < G (r + INR nk)) by (apply Gamma_pos; auto; pose proof (pos_INR nk); lra).
      pose proof (INR_fact_lt_0 nk). pose proof (Rpower_pos 2 r). field. repeat split; lra.
    - rewrite lag_form_neq by (auto; congruence). unfold Rdiv. ring. }
  rewrite E in I. eapply impint_ext; [|exact I]. intros w _. cbv beta.
  rewrite <- (sqrt_sqrt c) at 1 by lra. ring.
Qed.

Lemma gmw_bandpass_orthogonal G gamma beta j k centered f32 fj fk : is_Gamma G -> j <> k ->
  gmw G gamma beta Bandpass (OInt j) centered f32 = Ok fj ->
  gmw G gamma beta Bandpass (OInt k) centered f32 = Ok fk ->
  impint (fun w => fj w * fk w) 0.
Proof.
  intros H N Ej Ek.
  destruct (Z_nonneg_order _ _ _ _ _ _ _ _ Ej) as [nj ->]. destruct (Z_nonneg_order _ _ _ _ _ _ _ _ Ek) as [nk ->].
  destruct (gmw_spec _ _ _ _ _ _ _ _ H Ej) as (Hg & Hb & _ & Bj).
  destruct (gmw_spec _ _ _ _ _ _ _ _ H Ek) as (_ & _ & _ & Bk).
  pose proof (gmw_inner _ _ _ _ _ _ _ _ _ 1 H Hg Hb ltac:(lra) Bj Bk) as I.
  set (r := (2 * beta + 1) / gamma) in *.
  assert (Hr : 0 < r) by (apply Rdiv_lt_0_compat; lra).
  rewrite lag_form_neq in I by (auto; congruence).
  unfold Rdiv in I. rewrite !Rmult_0_l, Rmult_0_r, Rmult_0_l in I.
  eapply impint_ext; [|exact I]. intros w _. cbv beta. now rewrite !Rmult_1_l.
Qed.
Lemma gmw_bandpass_equal_energy G gamma beta centered f32 : is_Gamma G -> 0 < gamma -> 0 < beta ->
  exists e, 0 < e /\ forall k fk, gmw G gamma beta Bandpass (OInt k) centered f32 = Ok fk ->
    impint (fun w => fk w * fk w) e.
Proof.
  intros H Hg Hb. set (r := (2 * beta + 1) / gamma).
  assert (Hr : 0 < r) by (apply Rdiv_lt_0_compat; lra).
  set (a := 2 * exp (- beta * ln (morsefreq gamma beta) + rpow (morsefreq gamma beta) gamma)).
  set (c := 1 * (if centered then morsefreq gamma beta else 1)).
  assert (Hc : 0 < c).
  { unfold c. destruct centered; [|lra]. apply Rmult_lt_0_compat; [lra|now apply morsefreq_pos]. }
  assert (Pa : 0 < a) by (unfold a; pose proof (exp_pos (- beta * ln (morsefreq gamma beta) + rpow (morsefreq gamma beta) gamma)); lra).
  pose proof (Rpower_pos 2 r) as P2. pose proof (Gamma_pos G r H Hr) as PG.
  exists (a * a * (G r / (gamma * Rpower 2 r)) / c). split.
  { apply Rdiv_lt_0_compat; [|exact Hc]. apply Rmult_lt_0_compat; [now apply Rmult_lt_0_compat|].
    apply Rdiv_lt_0_compat; [exact PG|now apply Rmult_lt_0_compat]. }
  intros k fk Ek. destruct (Z_nonneg_order _ _ _ _ _ _ _ _ Ek) as [nk ->].
  destruct (gmw_spec _ _ _ _ _ _ _ _ H Ek) as (_ & _ & _ & Bk).
  pose proof (gmw_inner _ _ _ _ _ _ _ _ _ 1 H Hg Hb ltac:(lra) Bk Bk) as I. fold r c in I.
  rewrite lag_form_eq in I by auto. unfold gmw_amp in I.
  match type of I with impint _ ?v => assert (E : v = a * a * (G r / (gamma * Rpower 2 r)) / c) end.
  { destruct (k_coeff_sq G gamma beta nk H Hg Hb) as [E _]. fold r in E.
    set (kc := k_coeff G gamma beta nk Bandpass) in *.
    assert (P : 0 < G (r + INR nk)) by (apply Gamma_pos; auto; pose proof (pos_INR nk); lra).
    pose proof (INR_fact_lt_0 nk) as Pf.
    transitivity ((kc * kc) * (a * a * (G (r + INR nk) / INR (fact nk) / (gamma * Rpower 2 r)) / c)).
    - unfold a. field. repeat split; lra.
    - rewrite E. field. repeat split; lra. }
  rewrite E in I. eapply impint_ext; [|exact I]. intros w _. cbv beta. now rewrite !Rmult_1_l.
Qed.

(** ** Order 1 at the peak of order 0 *)
Lemma gmw_order1_at_peak G gamma beta f32 f : is_Gamma G ->
  gmw G gamma beta Bandpass (OInt 1) false f32 = Ok f ->
  f (morsefreq gamma beta) = 2 / sqrt (gamma * (2 * beta + 1)).
Proof.
  intros H E. change 1%Z with (Z.of_nat 1) in E.
  destruct (gmw_spec _ _ _ _ _ _ _ _ H E) as (Hg & Hb & _ & [B _]).
  pose proof (morsefreq_pos gamma beta Hg Hb) as Pw. rewrite (B _ Pw).
  set (wc := morsefreq gamma beta) in *. set (r := (2 * beta + 1) / gamma).
  assert (Hr : 0 < r) by (apply Rdiv_lt_0_compat; lra).
  unfold gmw_amp, gmw_shape. fold wc. rewrite rpow_pos by exact Pw. fold r.
  rewrite (wc_gamma gamma beta Hg Hb : Rpower wc gamma = beta / gamma).
  assert (Lp : lagp G 1 (r - 1) (2 * (beta / gamma)) = / gamma).
  { unfold lagp. simpl. rewrite !lag_const_eq by (auto; lia). simpl.
    unfold sgn1. simpl. rewrite Rplus_0_r.
    rewrite (Gamma_succ G r H Hr). pose proof (Gamma_pos G r H Hr) as P.
    unfold r. field. fold r. repeat split; try lra. }
  rewrite Lp.
  assert (Ek : k_coeff G gamma beta 1 Bandpass = / sqrt r).
  { unfold k_coeff, gammaln. fold r. simpl INR. rewrite (Rplus_comm 1 r), (Gamma_succ G r H Hr).
    replace (1 + 1) with (INR 1 + 1) by reflexivity. rewrite (Gamma_fact G 1 H). simpl. rewrite ln_1.
    pose proof (Gamma_pos G r H Hr) as P. rewrite ln_mult by assumption.
    replace (ln (G r) + 0 - (ln r + ln (G r))) with (- ln r) by ring.
    rewrite exp_Ropp, exp_ln by exact Hr. apply sqrt_inv. }
  rewrite Ek.
  assert (Ex : exp (- beta * ln wc + beta / gamma) * (Rpower wc beta * exp (- (beta / gamma))) = 1).
  { unfold Rpower. rewrite <- !exp_plus. rewrite <- exp_0. f_equal. ring. }
  transitivity (2 * / sqrt r * / gamma * (exp (- beta * ln wc + beta / gamma) * (Rpower wc beta * exp (- (beta / gamma)))));
    [ring|]. rewrite Ex.
  assert (Es : sqrt (gamma * (2 * beta + 1)) = gamma * sqrt r).
  { replace (gamma * (2 * beta + 1)) with (gamma * gamma * r) by (unfold r; field; lra).
    rewrite sqrt_mult by nra. rewrite sqrt_square by lra. reflexivity. }
  rewrite Es. field. split; [|lra]. pose proof (sqrt_lt_R0 r Hr). lra.
Qed.

(** ** Which arguments [gmw] accepts *)
Lemma Reqb_true a b : Reqb a b = true <-> a = b.
Proof. unfold Reqb. destruct (Req_EM_T a b); split; intros; auto; discriminate. Qed.
Lemma gmw_accepts G gamma beta norm order centered f32 :
  (exists f, gmw G gamma beta norm order centered f32 = Ok f) <->
  (0 < gamma /\ 0 < beta /\ (norm = Bandpass \/ norm = Energy /\ f32 = false) /\
   ((exists k, order = OInt k /\ (0 <= k)%Z) \/ order = OFloat 0)).
Proof.
  split.
  - intros [f E]. unfold gmw, check_beta0_args in E.
    destruct (Rle_dec gamma 0) as [|Hg]; [discriminate|]. destruct (Rlt_dec beta 0); [discriminate|].
    apply Rnot_le_lt in Hg. split; [exact Hg|].
    assert (Hb : 0 < beta).
    { destruct (Rlt_dec 0 beta) as [?|N]; [assumption|]. exfalso.
      assert (B : check_gmw_args gamma beta = Err ValueError) by (apply check_gmw_bad; lra).
      unfold gmw_l1, gmw_l2, gmw_l1_k, gmw_l2_k in E. rewrite B in E.
      destruct norm; simpl in E; try discriminate; destruct (check_order order); simpl in E; try discriminate;
      destruct f32; simpl in E; try discriminate; destruct order as [[|p|p]|z|]; simpl in E; try discriminate;
      destruct (Reqb z 0); discriminate. }
    split; [exact Hb|]. rewrite check_gmw_ok in E by assumption.
    split.
    + destruct norm; [now left| |discriminate]. right. split; [reflexivity|].
      destruct f32; [|reflexivity]. simpl in E. destruct (check_order order); discriminate.
    + destruct order as [k|z|].
      * left. exists k. split; [reflexivity|].
        destruct (k <? 0)%Z eqn:Ek; [|now apply Z.ltb_ge].
        exfalso. unfold check_order in E. rewrite Ek in E. destruct norm; discriminate.
      * right. f_equal. destruct (Reqb z 0) eqn:Ez; [now apply Reqb_true|].
        exfalso. destruct norm; simpl in E; try discriminate;
        destruct (negb (Reqb z (IZR (Int_part z)))); try discriminate;
        destruct (Rlt_dec z 0); simpl in E; try discriminate; destruct f32; discriminate.
      * exfalso. destruct norm; discriminate.
  - intros (Hg & Hb & Hn & Ho). unfold gmw.
    rewrite check_beta0_ok by (try lra; destruct Hn as [->|[-> _]]; discriminate). simpl.
    assert (C : check_order order = Ok tt).
    { destruct Ho as [[k [-> Hk]]| ->]; simpl.
      - destruct (k <? 0)%Z eqn:Q; [apply Z.ltb_lt in Q; lia|reflexivity].
      - replace (Int_part 0) with 0%Z.
        + replace (Reqb 0 0) with true by (symmetry; now apply Reqb_true). simpl.
          destruct (Rlt_dec 0 0); [lra|reflexivity].
        + symmetry. unfold Int_part. rewrite <- (tech_up 0 1); [reflexivity|simpl; lra|simpl; lra]. }
    rewrite C. simpl. unfold gmw_l1, gmw_l2, gmw_l1_k, gmw_l2_k. rewrite check_gmw_ok by auto. simpl.
    destruct Ho as [[k [-> Hk]]| ->].
    + destruct k as [|p|p]; [| |lia]; destruct Hn as [->|[-> ->]]; try (destruct f32); eexists; reflexivity.
    + replace (Reqb 0 0) with true by (symmetry; now apply Reqb_true).
      destruct Hn as [->|[-> ->]]; try (destruct f32); eexists; reflexivity.
Qed.
Lemma gmw_float_order G gamma beta norm k centered f32 : 0 < gamma -> 0 < beta ->
  (norm = Bandpass \/ norm = Energy /\ f32 = false) -> (0 < k)%Z ->
  check_order (OFloat (IZR k)) = Ok tt /\
  gmw G gamma beta norm (OFloat (IZR k)) centered f32 = Err TypeError.
Proof.
  intros Hg Hb Hn Hk.
  assert (C : check_order (OFloat (IZR k)) = Ok tt).
  { simpl. replace (Int_part (IZR k)) with k.
    - replace (Reqb (IZR k) (IZR k)) with true by (symmetry; now apply Reqb_true). simpl.
      destruct (Rlt_dec (IZR k) 0) as [L|]; [|reflexivity]. apply lt_IZR in L. lia.
    - unfold Int_part. rewrite <- (tech_up (IZR k) (k + 1)); [lia| |]; rewrite plus_IZR; lra. }
  split; [exact C|]. unfold gmw.
  rewrite check_beta0_ok by (try lra; destruct Hn as [->|[-> _]]; discriminate). rewrite C.
  assert (Z0 : Reqb (IZR k) 0 = false).
  { destruct (Reqb (IZR k) 0) eqn:Q; [|reflexivity]. apply Reqb_true in Q. apply eq_IZR in Q. lia. }
  rewrite Z0, check_gmw_ok by auto. destruct Hn as [->|[-> ->]]; try (destruct f32); reflexivity.
Qed.
