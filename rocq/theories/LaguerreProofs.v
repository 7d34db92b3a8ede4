(** Orthogonality of the Laguerre constants, as a statement about finite sums. *)
From Coq Require Import Reals Lra Lia Psatz Arith.
From Verif Require Import Py Cplx CplxProofs Integral IntegralProofs GmwOrders.
Local Open Scope R_scope.

(** rising factorial *)
Fixpoint rf (x : R) (n : nat) : R := match n with O => 1 | S n' => x * rf (x + 1) n' end.
Lemma rf_last n : forall x, rf x (S n) = rf x n * (x + INR n).
Proof.
  induction n as [|n IH]; intro x.
  - simpl. ring.
  - change (x * rf (x + 1) (S n) = x * rf (x + 1) n * (x + INR (S n))).
    rewrite IH, S_INR. ring.
Qed.
Lemma rf_diff x n : rf x (S n) - rf (x + 1) (S n) = - INR (S n) * rf (x + 1) n.
Proof. rewrite (rf_last n (x + 1)). simpl rf at 1. rewrite S_INR. ring. Qed.

Lemma Gamma_rf G n : is_Gamma G -> forall x, 0 < x -> G (x + INR n) = rf x n * G x.
Proof.
  intros H. induction n as [|n IH]; intros x Hx.
  - simpl. rewrite Rplus_0_r. ring.
  - rewrite S_INR. replace (x + (INR n + 1)) with ((x + 1) + INR n) by ring.
    rewrite IH by lra. rewrite (Gamma_succ G x H Hx). simpl. ring.
Qed.

(** binomials by Pascal's rule *)
Fixpoint bin (j m : nat) : R :=
  match j, m with
  | O, O => 1 | O, S _ => 0
  | S j', O => 1
  | S j', S m' => bin j' m' + bin j' (S m')
  end.
Lemma bin_0 j : bin j 0 = 1. Proof. destruct j; reflexivity. Qed.
Lemma bin_out j : forall m, (j < m)%nat -> bin j m = 0.
Proof.
  induction j as [|j IH]; intros [|m] H; try lia; [reflexivity|].
  simpl. rewrite !IH by lia. ring.
Qed.
Lemma bin_fact j : forall m, (m <= j)%nat -> bin j m * (INR (fact m) * INR (fact (j - m))) = INR (fact j).
Proof.
  induction j as [|j IH]; intros [|m] H; try lia.
  - simpl. ring.
  - rewrite bin_0, Nat.sub_0_r. simpl (fact 0). simpl (INR 1). ring.
  - change (bin (S j) (S m)) with (bin j m + bin j (S m)).
    replace (S j - S m)%nat with (j - m)%nat by lia.
    assert (E1 := IH m ltac:(lia)).
    rewrite (fact_simpl m), (fact_simpl j), !mult_INR, !S_INR.
    destruct (Nat.eq_dec m j) as [->|N].
    + rewrite (bin_out j (S j)) by lia. rewrite Nat.sub_diag in *. simpl (fact 0) in *. simpl (INR 1) in *.
      rewrite Rplus_0_r.
      transitivity ((INR j + 1) * (bin j j * (INR (fact j) * 1))); [ring|]. rewrite E1. ring.
    + assert (E2 := IH (S m) ltac:(lia)).
      replace (j - m)%nat with (S (j - S m)) in * by lia.
      rewrite (fact_simpl (j - S m)), mult_INR in *. rewrite (fact_simpl m), mult_INR in E2.
      rewrite !S_INR in *.
      assert (Q : INR m + 1 + (INR (j - S m) + 1) = INR j + 1).
      { rewrite minus_INR by lia. rewrite S_INR. ring. }
      set (fm := INR (fact m)) in *. set (fd := INR (fact (j - S m))) in *. set (d := INR (j - S m)) in *.
      set (fj := INR (fact j)) in *.
      transitivity ((INR m + 1) * (bin j m * (fm * ((d + 1) * fd))) +
                    (d + 1) * (bin j (S m) * ((INR m + 1) * fm * fd))); [ring|].
      rewrite E1, E2. rewrite <- Q. ring.
Qed.

Lemma sgn1_S m : sgn1 (S m) = - sgn1 m.
Proof. unfold sgn1. rewrite Nat.even_succ, <- Nat.negb_even. destruct (Nat.even m); simpl; ring. Qed.
Lemma sgn1_sq m : sgn1 m * sgn1 m = 1.
Proof. unfold sgn1. destruct (Nat.even m); ring. Qed.

(** alternating differences *)
Definition alt (j : nat) (f : R -> R) (x : R) : R :=
  Rsum (S j) (fun m => sgn1 m * bin j m * f (x + INR m)).
Lemma alt_S j f x : alt (S j) f x = alt j (fun y => f y - f (y + 1)) x.
Proof.
  unfold alt.
  assert (A : Rsum (S (S j)) (fun m => sgn1 m * bin (S j) m * f (x + INR m)) =
    Rsum (S (S j)) (fun m => sgn1 m * bin j m * f (x + INR m)) -
    Rsum (S j) (fun m => sgn1 m * bin j m * f (x + INR m + 1))).
  { rewrite Rsum_first. rewrite (Rsum_first (S j) (fun m => sgn1 m * bin j m * f (x + INR m))).
    rewrite !bin_0.
    match goal with |- ?a + ?s = ?a + ?t - ?u => enough (s = t - u) by lra end.
    replace (Rsum (S j) (fun m => sgn1 m * bin j m * f (x + INR m + 1)))
      with (- Rsum (S j) (fun m => (-1) * (sgn1 m * bin j m * f (x + INR m + 1))))
      by (rewrite Rsum_scal; ring).
    unfold Rminus. rewrite Ropp_involutive, <- Rsum_plus. apply Rsum_ext. intros m Hm.
    change (bin (S j) (S m)) with (bin j m + bin j (S m)).
    rewrite sgn1_S, S_INR. replace (x + (INR m + 1)) with (x + INR m + 1) by ring. ring. }
  rewrite A. clear A.
  change (Rsum (S (S j)) (fun m => sgn1 m * bin j m * f (x + INR m)))
    with (Rsum (S j) (fun m => sgn1 m * bin j m * f (x + INR m)) + sgn1 (S j) * bin j (S j) * f (x + INR (S j))).
  rewrite (bin_out j (S j)) by lia.
  replace (Rsum (S j) (fun m => sgn1 m * bin j m * f (x + INR m + 1)))
    with (- Rsum (S j) (fun m => (-1) * (sgn1 m * bin j m * f (x + INR m + 1))))
    by (rewrite Rsum_scal; ring).
  match goal with |- ?a + ?z - - ?b = ?c => assert (E : a + b = c) end.
  { rewrite <- Rsum_plus. apply Rsum_ext. intros m _. ring. }
  lra.
Qed.
Lemma alt_ext j f g x : (forall y, f y = g y) -> alt j f x = alt j g x.
Proof. intros H. unfold alt. apply Rsum_ext. intros m _. now rewrite H. Qed.
Lemma alt_scal_shift j c f x : alt j (fun y => c * f (y + 1)) x = c * alt j f (x + 1).
Proof.
  unfold alt. rewrite <- Rsum_scal. apply Rsum_ext. intros m _.
  replace (x + 1 + INR m) with (x + INR m + 1) by ring. ring.
Qed.
Lemma alt_rf_step j n x : alt (S j) (fun y => rf y (S n)) x = - INR (S n) * alt j (fun y => rf y n) (x + 1).
Proof.
  rewrite alt_S. rewrite (alt_ext j _ (fun y => - INR (S n) * rf (y + 1) n)) by (intro y; apply rf_diff).
  apply (alt_scal_shift j (- INR (S n)) (fun y => rf y n)).
Qed.
Lemma alt_const j x : alt (S j) (fun y => rf y 0) x = 0.
Proof.
  rewrite alt_S. unfold alt. apply Rsum_0. intros m _. simpl. ring.
Qed.
Lemma alt_rf_low j : forall n x, (n < j)%nat -> alt j (fun y => rf y n) x = 0.
Proof.
  induction j as [|j IH]; intros n x H; [lia|]. destruct n as [|n]; [apply alt_const|].
  rewrite alt_rf_step, IH by lia. ring.
Qed.
Lemma alt_rf_eq j : forall x, alt j (fun y => rf y j) x = sgn1 j * INR (fact j).
Proof.
  induction j as [|j IH]; intro x.
  - unfold alt, sgn1. simpl. ring.
  - rewrite alt_rf_step, IH, sgn1_S, fact_simpl, mult_INR. ring.
Qed.

(** the Laguerre constants *)
Lemma lag_const_eq G k r m : is_Gamma G -> 0 < r -> (m <= k)%nat ->
  lag_const G k (r - 1) m = sgn1 m * (G (r + INR k) / (G (r + INR m) * (INR (fact (k - m)) * INR (fact m)))).
Proof.
  intros H Hr Hm. unfold lag_const, gammaln.
  replace (INR k + (r - 1) + 1) with (r + INR k) by ring.
  replace (r - 1 + INR m + 1) with (r + INR m) by ring.
  rewrite !(Gamma_fact G _ H).
  assert (P1 : 0 < G (r + INR k)) by (apply Gamma_pos; auto; pose proof (pos_INR k); lra).
  assert (P2 : 0 < G (r + INR m)) by (apply Gamma_pos; auto; pose proof (pos_INR m); lra).
  pose proof (INR_fact_lt_0 (k - m)) as P3. pose proof (INR_fact_lt_0 m) as P4.
  unfold Rminus. rewrite !exp_plus, !exp_Ropp, !exp_ln by assumption. field. lra.
Qed.

(** summing one polynomial against the moments *)
Lemma lag_moment G j n r : is_Gamma G -> 0 < r ->
  Rsum (S j) (fun m => lag_const G j (r - 1) m * G (r + INR (m + n))) =
  G (r + INR j) / INR (fact j) * alt j (fun y => rf y n) r.
Proof.
  intros H Hr. unfold alt. rewrite <- Rsum_scal. apply Rsum_ext. intros m Hm.
  rewrite lag_const_eq by (auto; lia).
  rewrite plus_INR, <- Rplus_assoc.
  assert (Pm : 0 < r + INR m) by (pose proof (pos_INR m); lra).
  rewrite (Gamma_rf G n H (r + INR m) Pm).
  pose proof (Gamma_pos G (r + INR m) H Pm) as P2.
  pose proof (INR_fact_lt_0 (j - m)) as P3. pose proof (INR_fact_lt_0 m) as P4.
  rewrite <- (bin_fact j m) by lia.
  assert (P5 : 0 < bin j m).
  { pose proof (INR_fact_lt_0 j) as P6. rewrite <- (bin_fact j m) in P6 by lia.
    assert (0 < INR (fact m) * INR (fact (j - m))) by (apply Rmult_lt_0_compat; lra). nra. }
  field. lra.
Qed.

(** the bilinear form given by the moments [G (r + n)] *)
Definition lag_form G r j k : R :=
  Rsum (S k) (fun n => lag_const G k (r - 1) n *
    Rsum (S j) (fun m => lag_const G j (r - 1) m * G (r + INR (m + n)))).
Lemma lag_form_sym G r j k : lag_form G r j k = lag_form G r k j.
Proof.
  unfold lag_form.
  rewrite (Rsum_ext (S k) _ (fun n => Rsum (S j) (fun m =>
    lag_const G k (r - 1) n * (lag_const G j (r - 1) m * G (r + INR (m + n))))))
    by (intros n _; now rewrite Rsum_scal).
  rewrite Rsum_swap. apply Rsum_ext. intros m _. rewrite <- Rsum_scal. apply Rsum_ext. intros n _.
  rewrite (Nat.add_comm n m). ring.
Qed.
Lemma lag_form_lt G r j k : is_Gamma G -> 0 < r -> (k < j)%nat -> lag_form G r j k = 0.
Proof.
  intros H Hr L. unfold lag_form. apply Rsum_0. intros n Hn.
  rewrite lag_moment, alt_rf_low by (auto; lia). ring.
Qed.
Lemma lag_form_eq G r k : is_Gamma G -> 0 < r -> lag_form G r k k = G (r + INR k) / INR (fact k).
Proof.
  intros H Hr. unfold lag_form.
  rewrite (Rsum_single (S k) _ k) by
    (try lia; intros n Hn N; rewrite lag_moment, alt_rf_low by (auto; lia); ring).
  rewrite lag_moment by auto.
  rewrite alt_rf_eq, lag_const_eq by (auto; lia).
  rewrite Nat.sub_diag. change (fact 0) with 1%nat. simpl (INR 1).
  assert (0 < G (r + INR k)) by (apply Gamma_pos; auto; pose proof (pos_INR k); lra).
  pose proof (INR_fact_lt_0 k). 
  transitivity (sgn1 k * sgn1 k * (G (r + INR k) / INR (fact k))); [field; lra|].
  rewrite sgn1_sq. ring.
Qed.
Lemma lag_form_neq G r j k : is_Gamma G -> 0 < r -> j <> k -> lag_form G r j k = 0.
Proof.
  intros H Hr N. destruct (Nat.lt_ge_cases k j) as [L|L]; [now apply lag_form_lt|].
  rewrite lag_form_sym. apply lag_form_lt; auto. lia.
Qed.
