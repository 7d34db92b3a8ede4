From Coq Require Import ZifyBool ZifyNat.
From Verif Require Import Py Cplx.
Local Open Scope R_scope.

Lemma C_eq (a b : C) : fst a = fst b -> snd a = snd b -> a = b.
Proof. destruct a, b; simpl; congruence. Qed.

Ltac cring := apply C_eq; cbn; ring.

Lemma C_ring : ring_theory C0 C1 Cadd Cmul Csub Copp eq.
Proof. constructor; intros; cring. Qed.
Add Ring C_ring_inst : C_ring.

Lemma RtoC_add a b : RtoC (a + b) = Cadd (RtoC a) (RtoC b). Proof. cring. Qed.
Lemma RtoC_mul a b : RtoC (a * b) = Cmul (RtoC a) (RtoC b). Proof. cring. Qed.
Lemma RtoC_inj a b : RtoC a = RtoC b -> a = b. Proof. unfold RtoC; congruence. Qed.
Lemma Re_RtoC a : Re (RtoC a) = a. Proof. reflexivity. Qed.
Lemma Re_add a b : Re (Cadd a b) = Re a + Re b. Proof. reflexivity. Qed.
Lemma Cconj_add a b : Cconj (Cadd a b) = Cadd (Cconj a) (Cconj b). Proof. cring. Qed.
Lemma Cconj_mul a b : Cconj (Cmul a b) = Cmul (Cconj a) (Cconj b). Proof. cring. Qed.
Lemma Cconj_invol a : Cconj (Cconj a) = a. Proof. cring. Qed.
Lemma Cconj_RtoC a : Cconj (RtoC a) = RtoC a. Proof. cring. Qed.
Lemma Re_conj a : Re (Cconj a) = Re a. Proof. reflexivity. Qed.

Lemma Cnorm2_nonneg a : 0 <= Cnorm2 a.
Proof. unfold Cnorm2. nra. Qed.
Lemma Cnorm2_0 a : Cnorm2 a = 0 -> a = C0.
Proof. unfold Cnorm2. intros H. apply C_eq; cbn; nra. Qed.
Lemma Cnorm2_pos a : a <> C0 -> 0 < Cnorm2 a.
Proof.
  intros H. destruct (Cnorm2_nonneg a) as [|E]; auto.
  symmetry in E. apply Cnorm2_0 in E. contradiction.
Qed.
Lemma Cnorm2_mul a b : Cnorm2 (Cmul a b) = Cnorm2 a * Cnorm2 b.
Proof. unfold Cnorm2; cbn; ring. Qed.
Lemma Cabs_nonneg a : 0 <= Cabs a.
Proof. apply sqrt_pos. Qed.
Lemma Cabs_sqr a : Cabs a * Cabs a = Cnorm2 a.
Proof. apply sqrt_sqrt, Cnorm2_nonneg. Qed.
Lemma Cabs_0 : Cabs C0 = 0.
Proof. unfold Cabs. replace (Cnorm2 C0) with 0 by (unfold Cnorm2, C0; cbn; ring). apply sqrt_0. Qed.
Lemma Cabs_pos a : a <> C0 -> 0 < Cabs a.
Proof. intros H. apply sqrt_lt_R0, Cnorm2_pos, H. Qed.
Lemma Cabs_mul a b : Cabs (Cmul a b) = Cabs a * Cabs b.
Proof. unfold Cabs. rewrite Cnorm2_mul, sqrt_mult by apply Cnorm2_nonneg. reflexivity. Qed.
Lemma Cabs_RtoC a : Cabs (RtoC a) = Rabs a.
Proof. unfold Cabs, Cnorm2, RtoC; cbn. rewrite Rmult_0_l, Rplus_0_r. apply sqrt_Rsqr_abs. Qed.

Lemma Cinv_r a : a <> C0 -> Cmul a (Cinv a) = C1.
Proof.
  intros H. pose proof (Cnorm2_pos a H). unfold Cinv. apply C_eq; cbn.
  - unfold Cnorm2 in *. field. lra.
  - field. lra.
Qed.
Lemma Cmul_reg_l a b c : a <> C0 -> Cmul a b = Cmul a c -> b = c.
Proof.
  intros Ha H. assert (Cmul (Cinv a) (Cmul a b) = Cmul (Cinv a) (Cmul a c)) as H2 by congruence.
  replace (Cmul (Cinv a) (Cmul a b)) with (Cmul (Cmul a (Cinv a)) b) in H2 by ring.
  replace (Cmul (Cinv a) (Cmul a c)) with (Cmul (Cmul a (Cinv a)) c) in H2 by ring.
  rewrite Cinv_r in H2 by auto.
  replace (Cmul C1 b) with b in H2 by ring. replace (Cmul C1 c) with c in H2 by ring. exact H2.
Qed.
Lemma Cdiv_mul a b : b <> C0 -> Cdiv (Cmul a b) b = a.
Proof.
  intros H. unfold Cdiv. replace (Cmul (Cmul a b) (Cinv b)) with (Cmul a (Cmul b (Cinv b))) by ring.
  rewrite Cinv_r by auto. ring.
Qed.
Lemma Cmul_integral a b : Cmul a b = C0 -> a = C0 \/ b = C0.
Proof.
  intros H. assert (Hn : Cnorm2 a * Cnorm2 b = 0)
    by (rewrite <- Cnorm2_mul, H; unfold Cnorm2, C0; cbn; ring).
  apply Rmult_integral in Hn. destruct Hn as [Hn|Hn]; apply Cnorm2_0 in Hn; auto.
Qed.

(** ** sums *)
Lemma Rsum_ext n f g : (forall i, (i < n)%nat -> f i = g i) -> Rsum n f = Rsum n g.
Proof.
  induction n as [|n IH]; intros H; simpl; auto.
  rewrite IH, H by auto. reflexivity.
Qed.
Lemma Rsum_0 n f : (forall i, (i < n)%nat -> f i = 0) -> Rsum n f = 0.
Proof. induction n; intros H; simpl; auto. rewrite IHn, H by auto. ring. Qed.
Lemma Rsum_plus n f g : Rsum n (fun i => f i + g i) = Rsum n f + Rsum n g.
Proof. induction n; simpl; [ring|rewrite IHn; ring]. Qed.
Lemma Rsum_scal n c f : Rsum n (fun i => c * f i) = c * Rsum n f.
Proof. induction n; simpl; [ring|rewrite IHn; ring]. Qed.
Lemma Rsum_swap n m f :
  Rsum n (fun i => Rsum m (fun j => f i j)) = Rsum m (fun j => Rsum n (fun i => f i j)).
Proof.
  induction n; simpl.
  - symmetry. apply Rsum_0. auto.
  - rewrite IHn, <- Rsum_plus. reflexivity.
Qed.
Lemma Rsum_app n m f : Rsum (n + m) f = Rsum n f + Rsum m (fun i => f (n + i)%nat).
Proof.
  induction m; [rewrite Nat.add_0_r; simpl; ring|].
  rewrite Nat.add_succ_r. simpl. rewrite IHm. ring.
Qed.
Lemma Rsum_first n f : Rsum (S n) f = f 0%nat + Rsum n (fun i => f (S i)).
Proof. change (S n) with (1 + n)%nat. rewrite Rsum_app. simpl. ring. Qed.
Lemma Rsum_nonneg n f : (forall i, (i < n)%nat -> 0 <= f i) -> 0 <= Rsum n f.
Proof.
  induction n; intros H; simpl; [lra|].
  specialize (IHn ltac:(auto)). specialize (H n ltac:(auto)). lra.
Qed.
Lemma Rsum_le n f g : (forall i, (i < n)%nat -> f i <= g i) -> Rsum n f <= Rsum n g.
Proof.
  induction n; intros H; simpl; [lra|].
  specialize (IHn ltac:(auto)). specialize (H n ltac:(auto)). lra.
Qed.
Lemma Rsum_single n f k : (k < n)%nat -> (forall i, (i < n)%nat -> i <> k -> f i = 0) ->
  Rsum n f = f k.
Proof.
  induction n; intros Hk H; [lia|]. simpl.
  destruct (Nat.eq_dec k n) as [->|Hne].
  - rewrite Rsum_0; [ring|]. intros i Hi. apply H; lia.
  - rewrite IHn, (H n) by (try lia; intros; apply H; lia). ring.
Qed.
Lemma Rsum_const n c : Rsum n (fun _ => c) = INR n * c.
Proof. induction n; [simpl; ring|]. rewrite S_INR. simpl Rsum. rewrite IHn. ring. Qed.
Lemma Rsum_pos_term n f k : (k < n)%nat -> (forall i, (i < n)%nat -> 0 <= f i) ->
  f k <= Rsum n f.
Proof.
  induction n; intros Hk H; [lia|]. simpl.
  destruct (Nat.eq_dec k n) as [->|Hne].
  - pose proof (Rsum_nonneg n f ltac:(auto)). lra.
  - specialize (IHn ltac:(lia) ltac:(auto)). specialize (H n ltac:(lia)). lra.
Qed.
Lemma Rsum_rev n f : Rsum n f = Rsum n (fun i => f (n - 1 - i)%nat).
Proof.
  induction n; [reflexivity|].
  rewrite (Rsum_first n (fun i => f (S n - 1 - i)%nat)).
  change (Rsum (S n) f) with (Rsum n f + f n). rewrite IHn.
  replace (S n - 1 - 0)%nat with n by lia.
  rewrite Rplus_comm. f_equal. apply Rsum_ext. intros i Hi. f_equal. lia.
Qed.

Lemma Csum_ext n f g : (forall i, (i < n)%nat -> f i = g i) -> Csum n f = Csum n g.
Proof.
  induction n as [|n IH]; intros H; simpl; auto.
  rewrite IH, H by auto. reflexivity.
Qed.
Lemma Csum_0 n f : (forall i, (i < n)%nat -> f i = C0) -> Csum n f = C0.
Proof. induction n; intros H; simpl; auto. rewrite IHn, H by auto. ring. Qed.
Lemma Csum_plus n f g : Csum n (fun i => Cadd (f i) (g i)) = Cadd (Csum n f) (Csum n g).
Proof. induction n; simpl; [ring|rewrite IHn; ring]. Qed.
Lemma Csum_scal n c f : Csum n (fun i => Cmul c (f i)) = Cmul c (Csum n f).
Proof. induction n; simpl; [ring|rewrite IHn; ring]. Qed.
Lemma Csum_scal_r n c f : Csum n (fun i => Cmul (f i) c) = Cmul (Csum n f) c.
Proof. induction n; simpl; [ring|rewrite IHn; ring]. Qed.
Lemma Csum_swap n m f :
  Csum n (fun i => Csum m (fun j => f i j)) = Csum m (fun j => Csum n (fun i => f i j)).
Proof.
  induction n; simpl.
  - symmetry. apply Csum_0. auto.
  - rewrite IHn, <- Csum_plus. reflexivity.
Qed.
Lemma Csum_app n m f : Csum (n + m) f = Cadd (Csum n f) (Csum m (fun i => f (n + i)%nat)).
Proof.
  induction m; [rewrite Nat.add_0_r; simpl; ring|].
  rewrite Nat.add_succ_r. simpl. rewrite IHm. ring.
Qed.
Lemma Csum_first n f : Csum (S n) f = Cadd (f 0%nat) (Csum n (fun i => f (S i))).
Proof. change (S n) with (1 + n)%nat. rewrite Csum_app. simpl. ring. Qed.
Lemma Csum_single n f k : (k < n)%nat -> (forall i, (i < n)%nat -> i <> k -> f i = C0) ->
  Csum n f = f k.
Proof.
  induction n; intros Hk H; [lia|]. simpl.
  destruct (Nat.eq_dec k n) as [->|Hne].
  - rewrite Csum_0; [ring|]. intros i Hi. apply H; lia.
  - rewrite IHn, (H n) by (try lia; intros; apply H; lia). ring.
Qed.
Lemma Re_Csum n f : Re (Csum n f) = Rsum n (fun i => Re (f i)).
Proof. induction n; cbn [Csum Rsum]; [reflexivity|]. rewrite Re_add, IHn. reflexivity. Qed.
Lemma Im_Csum n f : Im (Csum n f) = Rsum n (fun i => Im (f i)).
Proof. induction n; cbn [Csum Rsum]; [reflexivity|]. rewrite <- IHn. reflexivity. Qed.
Lemma Csum_RtoC n f : Csum n (fun i => RtoC (f i)) = RtoC (Rsum n f).
Proof. induction n; cbn [Csum Rsum]; [reflexivity|]. rewrite IHn, <- RtoC_add. reflexivity. Qed.
Lemma Csum_conj n f : Cconj (Csum n f) = Csum n (fun i => Cconj (f i)).
Proof. induction n; cbn [Csum]; [cring|]. rewrite Cconj_add, IHn. reflexivity. Qed.
Lemma Csum_rev n f : Csum n f = Csum n (fun i => f (n - 1 - i)%nat).
Proof.
  induction n; [reflexivity|].
  rewrite (Csum_first n (fun i => f (S n - 1 - i)%nat)).
  change (Csum (S n) f) with (Cadd (Csum n f) (f n)). rewrite IHn.
  replace (S n - 1 - 0)%nat with n by lia.
  replace (Cadd (Csum n (fun i => f (n - 1 - i)%nat)) (f n))
    with (Cadd (f n) (Csum n (fun i => f (n - 1 - i)%nat))) by ring.
  f_equal. apply Csum_ext. intros i Hi. f_equal. lia.
Qed.

(** rotating the summation index *)
Lemma Csum_rot n s f : (s <= n)%nat ->
  Csum n (fun i => f ((i + s) mod n)%nat) = Csum n f.
Proof.
  intros Hs. destruct n as [|n]; [reflexivity|]. set (m := S n) in *.
  assert (E1 : Csum m (fun i => f ((i + s) mod m)%nat) =
    Cadd (Csum (m - s) (fun i => f (s + i)%nat)) (Csum s f)).
  { replace m with ((m - s) + s)%nat at 1 by lia. rewrite Csum_app. f_equal.
    - apply Csum_ext. intros i Hi. f_equal. rewrite Nat.mod_small; lia.
    - apply Csum_ext. intros i Hi. f_equal.
      replace (m - s + i + s)%nat with (i + 1 * m)%nat by lia.
      rewrite Nat.mod_add by lia. apply Nat.mod_small; lia. }
  rewrite E1. replace m with (s + (m - s))%nat at 2 by lia. rewrite Csum_app. ring.
Qed.

(** ** roots of unity *)
Lemma cis_add a b : cis (a + b) = Cmul (cis a) (cis b).
Proof. unfold cis. rewrite cos_plus, sin_plus. apply C_eq; cbn; ring. Qed.
Lemma cis_0 : cis 0 = C1.
Proof. unfold cis. rewrite cos_0, sin_0. reflexivity. Qed.
Lemma cis_neg a : cis (- a) = Cconj (cis a).
Proof. unfold cis. rewrite cos_neg, sin_neg. reflexivity. Qed.
Lemma Cnorm2_cis a : Cnorm2 (cis a) = 1.
Proof. unfold Cnorm2, cis; cbn. pose proof (sin2_cos2 a). unfold Rsqr in *. lra. Qed.
Lemma cis_neq0 a : cis a <> C0.
Proof. intros H. pose proof (Cnorm2_cis a). rewrite H in H0. unfold Cnorm2, C0 in H0; cbn in H0. lra. Qed.
Lemma Cabs_cis a : Cabs (cis a) = 1.
Proof. unfold Cabs. rewrite Cnorm2_cis. apply sqrt_1. Qed.

Lemma cis_2PI : cis (2 * PI) = C1.
Proof. unfold cis. rewrite cos_2PI, sin_2PI. reflexivity. Qed.
Lemma cis_2PI_nat k : cis (2 * PI * INR k) = C1.
Proof.
  induction k as [|k IH]; [simpl; rewrite Rmult_0_r; apply cis_0|].
  rewrite S_INR. replace (2 * PI * (INR k + 1)) with (2 * PI * INR k + 2 * PI) by ring.
  rewrite cis_add, IH, cis_2PI. ring.
Qed.
Lemma cis_2PI_Z k : cis (2 * PI * IZR k) = C1.
Proof.
  destruct (Z_le_gt_dec 0 k) as [H|H].
  - rewrite <- (Z2Nat.id k) by lia. rewrite <- INR_IZR_INZ. apply cis_2PI_nat.
  - replace (2 * PI * IZR k) with (- (2 * PI * INR (Z.to_nat (- k)))).
    + rewrite cis_neg, cis_2PI_nat. cring.
    + rewrite INR_IZR_INZ, Z2Nat.id by lia. rewrite opp_IZR. ring.
Qed.

Section Tw.
Variable n : nat.
Hypothesis Hn : (1 <= n)%nat.
Lemma nR_pos : 0 < INR n. Proof. apply lt_0_INR. lia. Qed.
Lemma tw_add a b : tw n (a + b) = Cmul (tw n a) (tw n b).
Proof.
  unfold tw. rewrite <- cis_add. f_equal. rewrite plus_IZR. pose proof nR_pos. field. lra.
Qed.
Lemma tw_0 : tw n 0 = C1.
Proof. unfold tw. replace (2 * PI * 0 / INR n) with 0; [apply cis_0|]. pose proof nR_pos. field. lra. Qed.
Lemma tw_mul_n k : tw n (Z.of_nat n * k) = C1.
Proof.
  unfold tw. rewrite mult_IZR, <- INR_IZR_INZ.
  replace (2 * PI * (INR n * IZR k) / INR n) with (2 * PI * IZR k).
  - apply cis_2PI_Z.
  - pose proof nR_pos. field. lra.
Qed.
Lemma tw_shift a k : tw n (a + Z.of_nat n * k) = tw n a.
Proof. rewrite tw_add, tw_mul_n. ring. Qed.
Lemma tw_mod a : tw n (a mod Z.of_nat n) = tw n a.
Proof.
  rewrite (Z.div_mod a (Z.of_nat n)) at 2 by lia. rewrite Z.add_comm, tw_shift. reflexivity.
Qed.
Lemma tw_opp a : tw n (- a) = Cconj (tw n a).
Proof.
  unfold tw. rewrite <- cis_neg. f_equal. rewrite opp_IZR. pose proof nR_pos. field. lra.
Qed.
Lemma tw_neq0 a : tw n a <> C0. Proof. apply cis_neq0. Qed.
Lemma tw_inv a : Cmul (tw n a) (tw n (- a)) = C1.
Proof. rewrite <- tw_add. replace (a + - a)%Z with 0%Z by lia. apply tw_0. Qed.

Lemma tw_neq1 d : (0 < d < Z.of_nat n)%Z -> tw n d <> C1.
Proof.
  intros Hd H. unfold tw, cis, C1 in H. injection H as Hc _.
  pose proof nR_pos as Hp. pose proof PI_RGT_0 as HPI.
  assert (Hd1 : 0 < IZR d) by (apply IZR_lt; lia).
  assert (Hd2 : IZR d < INR n) by (rewrite INR_IZR_INZ; apply IZR_lt; lia).
  replace (2 * PI * IZR d / INR n) with (2 * (PI * IZR d / INR n)) in Hc by (field; lra).
  rewrite cos_2a_sin in Hc.
  assert (Hs : 0 < sin (PI * IZR d / INR n)).
  { apply sin_gt_0.
    - apply Rdiv_lt_0_compat; [apply Rmult_lt_0_compat; lra|lra].
    - apply (Rmult_lt_reg_r (INR n)); [lra|].
      replace (PI * IZR d / INR n * INR n) with (PI * IZR d) by (field; lra).
      apply Rmult_lt_compat_l; lra. }
  set (s := sin _) in *. assert (s * s = 0) by lra. nra.
Qed.

Lemma geom d k : Cmul (Csub (tw n d) C1) (Csum k (fun j => tw n (d * Z.of_nat j))) =
  Csub (tw n (d * Z.of_nat k)) C1.
Proof.
  induction k as [|k IH].
  - simpl. rewrite Z.mul_0_r, tw_0. ring.
  - simpl Csum. replace (d * Z.of_nat (S k))%Z with (d + d * Z.of_nat k)%Z by lia.
    rewrite tw_add.
    replace (Cmul (Csub (tw n d) C1) (Cadd (Csum k (fun j => tw n (d * Z.of_nat j))) (tw n (d * Z.of_nat k))))
      with (Cadd (Cmul (Csub (tw n d) C1) (Csum k (fun j => tw n (d * Z.of_nat j))))
                 (Cmul (Csub (tw n d) C1) (tw n (d * Z.of_nat k)))) by ring.
    rewrite IH. ring.
Qed.

Lemma roots_sum d :
  Csum n (fun j => tw n (d * Z.of_nat j)) =
  if (d mod Z.of_nat n =? 0)%Z then RtoC (INR n) else C0.
Proof.
  destruct (Z.eqb_spec (d mod Z.of_nat n) 0) as [E|E].
  - rewrite (Csum_ext n _ (fun _ => RtoC 1)).
    + rewrite Csum_RtoC, Rsum_const. f_equal. ring.
    + intros j _. rewrite <- tw_mod, Z.mul_mod, E, Z.mul_0_l, Z.mod_0_l, tw_0 by lia. reflexivity.
  - pose proof (geom d n) as G.
    replace (d * Z.of_nat n)%Z with (Z.of_nat n * d)%Z in G by lia. rewrite tw_mul_n in G.
    replace (Csub C1 C1) with C0 in G by ring.
    apply Cmul_integral in G. destruct G as [G|G]; [|exact G]. exfalso.
    apply (tw_neq1 (d mod Z.of_nat n)).
    + pose proof (Z.mod_pos_bound d (Z.of_nat n) ltac:(lia)). lia.
    + rewrite tw_mod. replace (tw n d) with (Cadd (Csub (tw n d) C1) C1) by ring.
      rewrite G. ring.
Qed.

Lemma roots_delta a b : (a < n)%nat -> (b < n)%nat ->
  Csum n (fun j => tw n ((Z.of_nat a - Z.of_nat b) * Z.of_nat j)) =
  if (a =? b)%nat then RtoC (INR n) else C0.
Proof.
  intros Ha Hb. rewrite roots_sum.
  destruct (Nat.eqb_spec a b) as [->|Hne].
  - replace (Z.of_nat b - Z.of_nat b)%Z with 0%Z by lia. rewrite Z.mod_0_l by lia. reflexivity.
  - destruct (Z.eqb_spec ((Z.of_nat a - Z.of_nat b) mod Z.of_nat n) 0) as [E|]; [|reflexivity].
    exfalso. apply Z.mod_divide in E; [|lia]. destruct E as [q Hq].
    assert (q = 0%Z) by nia. nia.
Qed.

(** ** Fourier inversion, both ways *)
Theorem idft_dft x m : (m < n)%nat -> idft n (dft n x) m = x m.
Proof.
  intros Hm. unfold idft, dft.
  rewrite (Csum_ext n _ (fun k => Csum n (fun j =>
     Cmul (x j) (tw n ((Z.of_nat m - Z.of_nat j) * Z.of_nat k))))).
  2:{ intros k _. rewrite <- Csum_scal_r. apply Csum_ext. intros j _.
      replace ((Z.of_nat m - Z.of_nat j) * Z.of_nat k)%Z
        with (- (Z.of_nat k * Z.of_nat j) + Z.of_nat k * Z.of_nat m)%Z by lia.
      rewrite tw_add. ring. }
  rewrite Csum_swap.
  rewrite (Csum_ext n _ (fun j => Cmul (x j) (if (m =? j)%nat then RtoC (INR n) else C0))).
  2:{ intros j Hj. rewrite Csum_scal, roots_delta by auto. reflexivity. }
  rewrite (Csum_single n _ m); auto.
  - rewrite Nat.eqb_refl. pose proof nR_pos.
    replace (Cmul (RtoC (/ INR n)) (Cmul (x m) (RtoC (INR n))))
      with (Cmul (x m) (Cmul (RtoC (/ INR n)) (RtoC (INR n)))) by ring.
    rewrite <- RtoC_mul. replace (/ INR n * INR n) with 1 by (field; lra).
    change (RtoC 1) with C1. ring.
  - intros i Hi Hne. destruct (Nat.eqb_spec m i); [congruence|]. ring.
Qed.

Theorem dft_idft X k : (k < n)%nat -> dft n (idft n X) k = X k.
Proof.
  intros Hk. unfold dft, idft.
  rewrite (Csum_ext n _ (fun m => Cmul (RtoC (/ INR n)) (Csum n (fun j =>
     Cmul (X j) (tw n ((Z.of_nat j - Z.of_nat k) * Z.of_nat m)))))).
  2:{ intros m _.
      replace (Cmul (Cmul (RtoC (/ INR n)) (Csum n (fun k0 => Cmul (X k0) (tw n (Z.of_nat k0 * Z.of_nat m)))))
                    (tw n (- (Z.of_nat k * Z.of_nat m))))
        with (Cmul (RtoC (/ INR n)) (Cmul (Csum n (fun k0 => Cmul (X k0) (tw n (Z.of_nat k0 * Z.of_nat m))))
                    (tw n (- (Z.of_nat k * Z.of_nat m))))) by ring.
      f_equal. rewrite <- Csum_scal_r. apply Csum_ext. intros j _.
      replace ((Z.of_nat j - Z.of_nat k) * Z.of_nat m)%Z
        with (Z.of_nat j * Z.of_nat m + - (Z.of_nat k * Z.of_nat m))%Z by lia.
      rewrite tw_add. ring. }
  rewrite Csum_scal, Csum_swap.
  rewrite (Csum_ext n _ (fun j => Cmul (X j) (if (j =? k)%nat then RtoC (INR n) else C0))).
  2:{ intros j Hj. rewrite Csum_scal, roots_delta by auto. reflexivity. }
  rewrite (Csum_single n _ k); auto.
  - rewrite Nat.eqb_refl. pose proof nR_pos.
    replace (Cmul (RtoC (/ INR n)) (Cmul (X k) (RtoC (INR n))))
      with (Cmul (X k) (Cmul (RtoC (/ INR n)) (RtoC (INR n)))) by ring.
    rewrite <- RtoC_mul. replace (/ INR n * INR n) with 1 by (field; lra).
    change (RtoC 1) with C1. ring.
  - intros i Hi Hne. destruct (Nat.eqb_spec i k); [congruence|]. ring.
Qed.

(** real input: Hermitian symmetry, and the half spectrum determines the signal *)
Lemma dft_real_sym x k : (k <= n)%nat ->
  dft n (fun m => RtoC (x m)) (n - k) = Cconj (dft n (fun m => RtoC (x m)) k).
Proof.
  intros Hk. unfold dft. rewrite Csum_conj. apply Csum_ext. intros m _.
  rewrite Cconj_mul, Cconj_RtoC, <- tw_opp. f_equal.
  replace (- (Z.of_nat (n - k) * Z.of_nat m))%Z
    with (- - (Z.of_nat k * Z.of_nat m) + Z.of_nat n * - Z.of_nat m)%Z by nia.
  apply tw_shift.
Qed.

Lemma dft_real_0 x : Im (dft n (fun m => RtoC (x m)) 0) = 0.
Proof.
  assert (H : dft n (fun m => RtoC (x m)) 0 = Cconj (dft n (fun m => RtoC (x m)) 0)).
  { rewrite <- dft_real_sym by lia. rewrite Nat.sub_0_r. unfold dft. apply Csum_ext.
    intros m _. f_equal. rewrite Z.mul_0_l. 
    replace (- (Z.of_nat n * Z.of_nat m))%Z with (0 + Z.of_nat n * - Z.of_nat m)%Z by nia.
    rewrite tw_shift. reflexivity. }
  apply (f_equal snd) in H. unfold Im. cbn in H. lra.
Qed.

Lemma dft_real_nyq x k : (2 * k = n)%nat -> Im (dft n (fun m => RtoC (x m)) k) = 0.
Proof.
  intros Hk. assert (H := dft_real_sym x k ltac:(lia)). replace (n - k)%nat with k in H by lia.
  apply (f_equal snd) in H. unfold Im. cbn in H. lra.
Qed.

Lemma hermit_rfft x k : (k < n)%nat ->
  hermit n (rfft n x) k = dft n (fun m => RtoC (x m)) k.
Proof.
  intros Hk. unfold hermit, rfft.
  destruct (Nat.eqb_spec k 0) as [->|H0].
  - apply C_eq; [reflexivity|]. cbn [RtoC snd]. symmetry. apply dft_real_0.
  - destruct (Nat.eqb_spec (2 * k) n) as [E|E].
    + apply C_eq; [reflexivity|]. cbn [RtoC snd]. symmetry. apply dft_real_nyq, E.
    + destruct (Nat.ltb_spec (2 * k) n); [reflexivity|].
      rewrite <- dft_real_sym by lia. f_equal. lia.
Qed.

Lemma idft_ext X Y m : (forall k, (k < n)%nat -> X k = Y k) -> idft n X m = idft n Y m.
Proof. intros H. unfold idft. f_equal. apply Csum_ext. intros k Hk. rewrite H by auto. reflexivity. Qed.
Lemma dft_ext x y k : (forall m, (m < n)%nat -> x m = y m) -> dft n x k = dft n y k.
Proof. intros H. unfold dft. apply Csum_ext. intros m Hm. rewrite H by auto. reflexivity. Qed.

Theorem irfft_rfft x m : (m < n)%nat -> irfft n (rfft n x) m = x m.
Proof.
  intros Hm. unfold irfft. rewrite (idft_ext _ (dft n (fun m => RtoC (x m)))).
  - rewrite idft_dft by auto. reflexivity.
  - intros k Hk. apply hermit_rfft, Hk.
Qed.

(** [irfft] only reads the [rfft_len n] bins it is given *)
Lemma irfft_ext X Y m : (forall k, (k < rfft_len n)%nat -> X k = Y k) ->
  irfft n X m = irfft n Y m.
Proof.
  intros H. unfold irfft. f_equal. apply idft_ext. intros k Hk. unfold hermit, rfft_len in *.
  assert (Hd : (n / 2 * 2 <= n < n / 2 * 2 + 2)%nat).
  { pose proof (Nat.div_mod n 2 ltac:(lia)). pose proof (Nat.mod_upper_bound n 2 ltac:(lia)). lia. }
  destruct (Nat.eqb_spec k 0) as [->|Hk0]; [rewrite H by lia; reflexivity|].
  destruct (Nat.eqb_spec (2 * k) n) as [E|E]; [rewrite H by lia; reflexivity|].
  destruct (Nat.ltb_spec (2 * k) n); rewrite H by lia; reflexivity.
Qed.

(** circular shift theorem: delaying by [s] multiplies bin [k] by exp(-2 pi i k s/n) *)
Lemma dft_shift x s k : (s <= n)%nat ->
  dft n (fun m => x ((m + s) mod n)%nat) k = Cmul (tw n (Z.of_nat k * Z.of_nat s)) (dft n x k).
Proof.
  intros Hs. unfold dft. rewrite <- Csum_scal.
  rewrite <- (Csum_rot n s (fun m => Cmul (tw n (Z.of_nat k * Z.of_nat s))
     (Cmul (x m) (tw n (- (Z.of_nat k * Z.of_nat m)))))) by auto.
  apply Csum_ext. intros m Hm.
  assert (E : tw n (- (Z.of_nat k * Z.of_nat ((m + s) mod n))) =
              tw n (- (Z.of_nat k * Z.of_nat (m + s)))).
  { rewrite Nat2Z.inj_mod. rewrite <- tw_mod, <- (tw_mod (- (Z.of_nat k * Z.of_nat (m + s)))).
    f_equal. rewrite <- !Z.mul_opp_l. rewrite Z.mul_mod_idemp_r by lia. reflexivity. }
  rewrite E.
  replace (Cmul (tw n (Z.of_nat k * Z.of_nat s))
     (Cmul (x ((m + s) mod n)%nat) (tw n (- (Z.of_nat k * Z.of_nat (m + s))))))
    with (Cmul (x ((m + s) mod n)%nat) (Cmul (tw n (Z.of_nat k * Z.of_nat s))
            (tw n (- (Z.of_nat k * Z.of_nat (m + s)))))) by ring.
  rewrite <- tw_add. do 2 f_equal. lia.
Qed.

(** linearity *)
Lemma dft_add x y k : dft n (fun m => Cadd (x m) (y m)) k = Cadd (dft n x k) (dft n y k).
Proof. unfold dft. rewrite <- Csum_plus. apply Csum_ext. intros; ring. Qed.
Lemma dft_scal c x k : dft n (fun m => Cmul c (x m)) k = Cmul c (dft n x k).
Proof. unfold dft. rewrite <- Csum_scal. apply Csum_ext. intros; ring. Qed.
Lemma idft_add x y k : idft n (fun m => Cadd (x m) (y m)) k = Cadd (idft n x k) (idft n y k).
Proof.
  unfold idft. rewrite (Csum_ext n _ (fun j => Cadd (Cmul (x j) (tw n (Z.of_nat j * Z.of_nat k)))
    (Cmul (y j) (tw n (Z.of_nat j * Z.of_nat k))))) by (intros; ring).
  rewrite Csum_plus. ring.
Qed.
Lemma idft_scal c x k : idft n (fun m => Cmul c (x m)) k = Cmul c (idft n x k).
Proof.
  unfold idft. rewrite (Csum_ext n _ (fun j => Cmul c (Cmul (x j) (tw n (Z.of_nat j * Z.of_nat k)))))
    by (intros; ring).
  rewrite Csum_scal. ring.
Qed.

(** Parseval *)
Lemma Cnorm2_C z : RtoC (Cnorm2 z) = Cmul z (Cconj z).
Proof. apply C_eq; unfold Cnorm2; cbn; ring. Qed.

Theorem parseval x :
  Rsum n (fun k => Cnorm2 (dft n x k)) = INR n * Rsum n (fun m => Cnorm2 (x m)).
Proof.
  apply RtoC_inj. rewrite RtoC_mul, <- !Csum_RtoC.
  rewrite (Csum_ext n (fun k => RtoC (Cnorm2 (dft n x k))) (fun k => Csum n (fun m =>
    Cmul (Cconj (x m)) (Cmul (dft n x k) (tw n (Z.of_nat k * Z.of_nat m)))))).
  2:{ intros k _. rewrite Cnorm2_C. unfold dft at 2. rewrite Csum_conj, <- Csum_scal.
      apply Csum_ext. intros m _. rewrite Cconj_mul, <- tw_opp, Z.opp_involutive. ring. }
  rewrite Csum_swap, <- Csum_scal. apply Csum_ext. intros m Hm.
  rewrite Csum_scal.
  assert (E : Csum n (fun k => Cmul (dft n x k) (tw n (Z.of_nat k * Z.of_nat m))) =
              Cmul (RtoC (INR n)) (x m)).
  { pose proof (idft_dft x m Hm) as HI. rewrite <- HI. unfold idft. pose proof nR_pos.
    rewrite (C_eq (Cmul (RtoC (INR n)) _) (Cmul (Cmul (RtoC (INR n)) (RtoC (/ INR n)))
      (Csum n (fun k => Cmul (dft n x k) (tw n (Z.of_nat k * Z.of_nat m)))))).
    - rewrite <- RtoC_mul. replace (INR n * / INR n) with 1 by (field; lra).
      change (RtoC 1) with C1. ring.
    - cbn. ring.
    - cbn. ring. }
  rewrite E, Cnorm2_C. ring.
Qed.

(** circular convolution theorem *)
Theorem conv_theorem x y m : (m < n)%nat ->
  idft n (fun k => Cmul (dft n x k) (dft n y k)) m =
  Csum n (fun j => Cmul (x j) (y ((m + (n - j)) mod n)%nat)).
Proof.
  intros Hm.
  assert (E : forall k, (k < n)%nat -> Cmul (dft n x k) (dft n y k) =
    dft n (fun m => Csum n (fun j => Cmul (x j) (y ((m + (n - j)) mod n)%nat))) k).
  { intros k Hk. unfold dft at 3.
    rewrite (Csum_ext n _ (fun m0 => Csum n (fun j => Cmul (x j) (Cmul (y ((m0 + (n - j)) mod n)%nat)
      (tw n (- (Z.of_nat k * Z.of_nat m0))))))).
    2:{ intros i _. rewrite <- Csum_scal_r. apply Csum_ext. intros; ring. }
    rewrite Csum_swap.
    unfold dft at 1. rewrite <- Csum_scal_r. apply Csum_ext. intros j Hj.
    rewrite Csum_scal. change (Csum n (fun i => Cmul (y ((i + (n - j)) mod n)%nat)
      (tw n (- (Z.of_nat k * Z.of_nat i))))) with (dft n (fun i => y ((i + (n - j)) mod n)%nat) k).
    rewrite dft_shift by lia.
    replace (tw n (Z.of_nat k * Z.of_nat (n - j))) with (tw n (- (Z.of_nat k * Z.of_nat j))).
    - ring.
    - replace (Z.of_nat k * Z.of_nat (n - j))%Z
        with (- (Z.of_nat k * Z.of_nat j) + Z.of_nat n * Z.of_nat k)%Z by nia.
      rewrite tw_shift. reflexivity. }
  rewrite (idft_ext _ _ m E). apply idft_dft, Hm.
Qed.
End Tw.

(** the imaginary part of the inverse of a Hermitian spectrum is zero *)
Lemma idft_herm_real n X m : (1 <= n)%nat ->
  (forall k, (1 <= k < n)%nat -> X (n - k)%nat = Cconj (X k)) -> Im (X 0%nat) = 0 ->
  Im (idft n X m) = 0.
Proof.
  intros Hn HX H0.
  assert (E : Csum n (fun k => Cmul (X k) (tw n (Z.of_nat k * Z.of_nat m))) =
              Cconj (Csum n (fun k => Cmul (X k) (tw n (Z.of_nat k * Z.of_nat m))))).
  { rewrite Csum_conj. destruct n as [|n']; [reflexivity|]. rewrite !Csum_first. f_equal.
    - rewrite Z.mul_0_l, Cconj_mul, <- tw_opp by lia. f_equal.
      apply C_eq; [reflexivity|]. cbn. unfold Im in H0. lra.
    - rewrite Csum_rev. apply Csum_ext. intros i Hi.
      rewrite Cconj_mul, <- tw_opp by lia. f_equal.
      + rewrite <- HX by lia. f_equal. lia.
      + replace (Z.of_nat (S (n' - 1 - i)) * Z.of_nat m)%Z
          with (- (Z.of_nat (S i) * Z.of_nat m) + Z.of_nat (S n') * Z.of_nat m)%Z by nia.
        apply tw_shift. lia. }
  unfold idft. set (S := Csum _ _) in *. apply (f_equal snd) in E. cbn [Cconj snd] in E.
  assert (E0 : snd S = 0) by lra.
  unfold Im, Cmul, RtoC. cbn [fst snd]. rewrite E0. ring.
Qed.

