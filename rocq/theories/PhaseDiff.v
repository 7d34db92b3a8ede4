(** difftype 'phase' on rows of constant frequency. *)
From Coq Require Import Reals Lra Psatz.
From Coq Require Import ZifyBool ZifyNat.
From Verif Require Import Py Round Parallel Cplx CplxProofs Padding Buffer Freqs Squeeze Scales Ssqueeze Cwt CwtProofs CwtThms
  SsqCwt CwtTone ToneThms.
Local Open Scope R_scope.

(** ** [np.angle] *)
Lemma sqrt_1_sq a b : 0 < a -> sqrt (1 + (b / a) ^ 2) = Cabs (a, b) / a.
Proof.
  intros Ha. replace (1 + (b / a) ^ 2) with ((a * a + b * b) / (a * a)) by (field; lra).
  rewrite sqrt_div_alt by nra. rewrite sqrt_square by lra. reflexivity.
Qed.
Lemma atan_polar a b : 0 < a -> a = Cabs (a, b) * cos (atan (b / a)) /\ b = Cabs (a, b) * sin (atan (b / a)).
Proof.
  intros Ha. rewrite cos_atan, sin_atan. unfold Rsqr.
  replace (1 + b / a * (b / a)) with (1 + (b / a) ^ 2) by ring. rewrite sqrt_1_sq by exact Ha.
  assert (0 < Cabs (a, b)) by (apply Cabs_pos; intros E; injection E as E _; lra).
  split; field; lra.
Qed.
Lemma angle_spec z : z <> C0 -> - PI < angle z <= PI /\ z = Cmul (RtoC (Cabs z)) (cis (angle z)).
Proof.
  intros Hz. destruct z as [a b]. unfold angle, Re, Im. cbn [fst snd].
  pose proof PI_RGT_0 as Hpi. pose proof (atan_bound (b / a)) as Hb.
  destruct (Rlt_dec 0 a) as [Ha|Ha].
  - split; [lra|]. destruct (atan_polar a b Ha) as (E1 & E2). apply C_eq; simpl; [rewrite E1 at 1|rewrite E2 at 1]; ring.
  - destruct (Rlt_dec a 0) as [Ha'|Ha'].
    + destruct (atan_polar (- a) (- b) ltac:(lra)) as (E1 & E2).
      replace (- b / - a) with (b / a) in * by (field; lra).
      replace (Cabs (- a, - b)) with (Cabs (a, b)) in * by (unfold Cabs, Cnorm2; cbn; f_equal; ring).
      assert (Hs : forall s, s = PI \/ s = - PI -> cis (atan (b / a) + s) = (- cos (atan (b / a)), - sin (atan (b / a)))).
      { intros s [-> | ->]; unfold cis; f_equal; rewrite ?cos_plus, ?sin_plus, ?cos_neg, ?sin_neg, cos_PI, sin_PI; ring. }
      destruct (Rle_dec 0 b) as [Hb0|Hb0].
      * assert (Hn : b / a <= 0) by (unfold Rdiv; assert (/ a < 0) by (apply Rinv_lt_0_compat; lra); nra).
        assert (atan (b / a) <= 0) by (rewrite <- atan_0; destruct Hn as [Hn | ->]; [left; apply atan_increasing; exact Hn|lra]).
        split; [lra|]. rewrite Hs by auto. apply C_eq; simpl; nra.
      * assert (Hn : 0 < b / a) by (unfold Rdiv; assert (/ a < 0) by (apply Rinv_lt_0_compat; lra); nra).
        assert (0 < atan (b / a)) by (rewrite <- atan_0; apply atan_increasing; exact Hn).
        split; [lra|]. unfold Rminus. rewrite Hs by auto. apply C_eq; simpl; nra.
    + assert (a = 0) as -> by lra.
      assert (Hab : Cabs (0, b) = Rabs b).
      { unfold Cabs, Cnorm2. cbn. rewrite <- sqrt_Rsqr_abs. unfold Rsqr. f_equal. ring. }
      rewrite Hab. destruct (Rlt_dec 0 b) as [Hb0|Hb0].
      * split; [lra|]. unfold cis. rewrite cos_PI2, sin_PI2, Rabs_right by lra. apply C_eq; simpl; ring.
      * destruct (Rlt_dec b 0) as [Hb1|Hb1].
        -- split; [lra|]. unfold cis. replace (- PI / 2) with (- (PI / 2)) by field.
           rewrite cos_neg, sin_neg, cos_PI2, sin_PI2, Rabs_left by lra. apply C_eq; simpl; ring.
        -- exfalso. apply Hz. assert (b = 0) as -> by lra. reflexivity.
Qed.

(** ** [np.unwrap] *)
(** one step of [0 < al < pi] *)
Lemma cis_step p p' al : - PI < p <= PI -> - PI < p' <= PI -> 0 < al < PI ->
  cis p' = Cmul (cis p) (cis al) -> p' - p = al \/ p' - p = al - 2 * PI.
Proof.
  intros Hp Hp' Hal E. pose proof PI_RGT_0.
  rewrite <- cis_add in E. unfold cis in E. injection E as Ec Es.
  assert (S0 : sin (p' - (p + al)) = 0) by (rewrite sin_minus, Ec, Es; ring).
  assert (C1' : cos (p' - (p + al)) = 1).
  { rewrite cos_minus, Ec, Es. pose proof (sin2_cos2 (p + al)) as T. unfold Rsqr in T. lra. }
  apply sin_eq_0_0 in S0. destruct S0 as (m & Em). rewrite Em in C1'.
  assert (Hm : (-3 < m < 2)%Z).
  { split; apply lt_IZR; nra. }
  assert (m = -2 \/ m = -1 \/ m = 0 \/ m = 1)%Z as [-> | [-> | [-> | ->]]] by lia.
  - right. cbn in Em. lra.
  - exfalso. replace (-1 * PI) with (- PI) in C1' by ring. rewrite cos_neg, cos_PI in C1'. lra.
  - left. lra.
  - exfalso. replace (1 * PI) with PI in C1' by ring. rewrite cos_PI in C1'. lra.
Qed.
Lemma Int_part_unique x z : IZR z <= x < IZR z + 1 -> Int_part x = z.
Proof.
  intros H. destruct (base_Int_part x) as (B1 & B2).
  assert (IZR (Int_part x) < IZR z + 1) by lra. assert (IZR z < IZR (Int_part x) + 1) by lra.
  rewrite <- plus_IZR in *. apply lt_IZR in H0, H1. lia.
Qed.
Lemma correct_step dd al : 0 < al < PI -> dd = al \/ dd = al - 2 * PI -> dd + unwrap_correct dd = al.
Proof.
  intros Hal [-> | ->]; pose proof PI_RGT_0; unfold unwrap_correct.
  - destruct (Rlt_dec (Rabs al) PI) as [|N]; [ring|]. exfalso. apply N. rewrite Rabs_right; lra.
  - destruct (Rlt_dec (Rabs (al - 2 * PI)) PI) as [L|N].
    + exfalso. rewrite Rabs_left in L by lra. lra.
    + assert (Em : Rmod (al - 2 * PI + PI) (2 * PI) - PI = al).
      { unfold Rmod. rewrite (Int_part_unique _ (-1)).
        - ring.
        - split.
          + apply Rmult_le_reg_r with (2 * PI); [lra|]. unfold Rdiv. rewrite Rmult_assoc, Rinv_l by lra. lra.
          + apply Rmult_lt_reg_r with (2 * PI); [lra|]. unfold Rdiv. rewrite Rmult_assoc, Rinv_l by lra. lra. }
      rewrite Em. destruct (Req_EM_T al (- PI)) as [E|]; [lra|]. ring.
Qed.
Lemma unwrap_linear p al n : 0 < al < PI ->
  (forall j, (j < n)%nat -> p (S j) - p j = al \/ p (S j) - p j = al - 2 * PI) ->
  forall j, (j <= n)%nat -> unwrap p j = p 0%nat + INR j * al.
Proof.
  intros Hal H. induction j as [|j IH]; intros Hj.
  - unfold unwrap. cbn [Rsum INR]. ring.
  - assert (E : unwrap p (S j) = unwrap p j + (p (S j) - p j + unwrap_correct (p (S j) - p j))).
    { unfold unwrap. cbn [Rsum]. ring. }
    rewrite E, IH by lia. rewrite (correct_step _ al Hal (H j ltac:(lia))). rewrite S_INR. ring.
Qed.

(** ** A row turning by [al] per sample *)
Theorem phase_phase_row gamma W w i al (z0 : C) : phase_phase gamma W = Ok w -> 0 < al < PI ->
  (forall j, (j < ncols W)%nat -> el W i j = Cmul z0 (cis (INR j * al))) ->
  0 < gamma -> gamma <= Cabs z0 -> forall j, (j < ncols W)%nat ->
  el w i j = Fin (if (S j =? ncols W)%nat then INR (ncols W - 1) * al / (2 * PI) else al / (2 * PI)).
Proof.
  intros Hw Hal HW Hg Hz j Hj. unfold phase_phase in Hw. destruct (Nat.eqb_spec (ncols W) 0); [lia|].
  injection Hw as <-. cbn [el]. pose proof PI_RGT_0.
  assert (Hz0 : z0 <> C0) by (intros E; rewrite E, Cabs_0 in Hz; lra).
  assert (Hab : forall m, (m < ncols W)%nat -> Cabs (el W i m) = Cabs z0).
  { intros m Hm. rewrite HW by exact Hm. rewrite Cabs_mul, Cabs_cis. ring. }
  assert (Hnz : forall m, (m < ncols W)%nat -> el W i m <> C0).
  { intros m Hm E. pose proof (Hab m Hm) as A. rewrite E, Cabs_0 in A. lra. }
  rewrite Hab by exact Hj. destruct (Rlt_dec _ _); [lra|]. f_equal.
  assert (Hstep : forall m, (m < ncols W - 1)%nat ->
    angle (el W i (S m)) - angle (el W i m) = al \/ angle (el W i (S m)) - angle (el W i m) = al - 2 * PI).
  { intros m Hm. destruct (angle_spec _ (Hnz m ltac:(lia))) as (A1 & A2). destruct (angle_spec _ (Hnz (S m) ltac:(lia))) as (B1 & B2).
    apply cis_step; try assumption. rewrite Hab in A2, B2 by lia.
    assert (E : el W i (S m) = Cmul (el W i m) (cis al)).
    { rewrite !HW by lia. rewrite S_INR. replace ((INR m + 1) * al) with (INR m * al + al) by ring. rewrite cis_add. ring. }
    assert (0 < Cabs z0) by (apply Cabs_pos; exact Hz0).
    assert (E' : forall u v, Cmul (RtoC (Cabs z0)) u = Cmul (RtoC (Cabs z0)) v -> u = v).
    { intros [u1 u2] [v1 v2] Q. unfold Cmul, RtoC in Q. cbn in Q. injection Q as Q1 Q2. f_equal; nra. }
    apply E'. rewrite <- B2, E. rewrite A2 at 1. ring. }
  unfold phase_phase_pt. pose proof (unwrap_linear (fun j => angle (el W i j)) al (ncols W - 1) Hal Hstep) as U.
  assert (HP : 0 < / (2 * PI)) by (apply Rinv_0_lt_compat; lra).
  destruct (Nat.eqb_spec (S j) (ncols W)) as [E|E].
  - rewrite !U by lia. cbn [INR].
    replace (angle (el W i 0) + INR (ncols W - 1) * al - (angle (el W i 0) + 0 * al)) with (INR (ncols W - 1) * al) by ring.
    apply Rabs_right. apply Rle_ge. unfold Rdiv. pose proof (pos_INR (ncols W - 1)). apply Rmult_le_pos; [|lra]. apply Rmult_le_pos; lra.
  - rewrite !U by lia. rewrite S_INR.
    replace (angle (el W i 0) + (INR j + 1) * al - (angle (el W i 0) + INR j * al)) with al by ring.
    apply Rabs_right. apply Rle_ge. unfold Rdiv. apply Rmult_le_pos; lra.
Qed.

(** ** A tone *)
Theorem phase_tone py inst f a s A phi k n W sc dW s' gamma w i j :
  (0 < k)%nat -> (2 * k < n)%nat -> a_pad a = None -> a_l1 a = true -> uncached inst a s -> real_valued f ->
  cwt py inst f a (tone A phi k n) s = (Ok (W, sc, dW), s') -> one_sided f sc k n -> (i < length sc)%nat -> (j < n)%nat ->
  phase_phase gamma W = Ok w -> 0 < gamma -> gamma <= Cabs (el W i j) ->
  el w i j = Fin (if (S j =? n)%nat then INR (n - 1) * (INR k / INR n) else INR k / INR n).
Proof.
  intros Hk H2k Hp Hl Hu Hr H Hos Hi Hj Hw Hg Hab. pose proof PI_RGT_0.
  destruct (SsqCwtProofs.cwt_ncols _ _ _ _ _ _ _ _ _ _ H) as (Hn1 & Hn2). rewrite Hp, andb_false_r, tone_length in Hn2.
  assert (Hn : ncols W = n) by (cbn in Hn2; lia).
  assert (HW : forall j, el W i j = Cmul (RtoC (A / 2 * response f (nth i sc 0) k n)) (analytic phi k n j))
    by (intros; eapply cwt_tone; eassumption).
  set (c := A / 2 * response f (nth i sc 0) k n) in *.
  assert (0 < INR n) by (apply lt_0_INR; lia). assert (0 < INR k) by (apply lt_0_INR; lia).
  assert (Hlt : INR (2 * k) < INR n) by (apply lt_INR; lia). rewrite mult_INR in Hlt. change (INR 2) with 2 in Hlt.
  set (al := 2 * PI * (INR k / INR n)).
  assert (Hkn : 0 < INR k / INR n < / 2).
  { split; [apply Rmult_lt_0_compat; [assumption|apply Rinv_0_lt_compat; assumption]|].
    apply Rmult_lt_reg_r with (INR n); [assumption|]. unfold Rdiv. rewrite Rmult_assoc, Rinv_l by lra. lra. }
  rewrite HW, Cabs_tone in Hab.
  rewrite (phase_phase_row gamma W w i al (Cmul (RtoC c) (cis phi)) Hw).
  - rewrite Hn. f_equal. unfold al. destruct (S j =? n)%nat; field; lra.
  - unfold al. nra.
  - intros m Hm. rewrite HW. unfold analytic. rewrite cis_add.
    replace (2 * PI * INR k * INR m / INR n) with (INR m * al) by (unfold al; field; lra). ring.
  - exact Hg.
  - rewrite Cabs_mul, Cabs_RtoC, Cabs_cis. lra.
  - lia.
Qed.
