(** [packed_poly] and [poly_cubic]: bands, sampling. *)
From Coq Require Import Reals Lra Lia ZifyBool ZifyNat.
From Verif Require Import Py Round Squeeze Scales Search Chirp Signals SignalsThms PolySignals.
Local Open Scope R_scope.

(** ** Specification: instantaneous frequencies, in Hz *)
Definition pp_f1 (N : Z) (t : R) : R := IZR N / 512 * (10 - 3 / 10 * cos t - 27 / 10 * sqrt t).
Definition pp_f2 (N : Z) (t : R) : R := IZR N / 512 * (24 / 10 + 6 / 10 * Rpower t (2 / 10)) + 3 / 10 * cos t.
Definition pp_f3 (N : Z) (t : R) : R := IZR N / 512 * (48 / 10 + 26 / 100 * Rpower t (3 / 10)).
Definition pc_f1 (N : Z) (t : R) : R := IZR N / 256 * (25 / 1000 * t ^ 3 - 36 / 100 * t ^ 2 + 125 / 100 * t + 2).
Definition pc_f2 (N : Z) (t : R) : R := IZR N / 512.
Definition pc_f3 (N : Z) (t : R) : R := IZR N / 256 * (1 / 100 * t ^ 3 - 25 / 100 * t ^ 2 + 15 / 10 * t + 4).

(** [x] is the sum of three components, amplitude [a], frequency [f] (the derivative of the phase in cycles) *)
Definition fm_sum (a1 a2 a3 f1 f2 f3 : R -> R) (x t : list R) : Prop :=
  exists p1 p2 p3 : R -> R,
    (forall u, 0 < u -> derivable_pt_lim p1 u (f1 u) /\ derivable_pt_lim p2 u (f2 u) /\ derivable_pt_lim p3 u (f3 u)) /\
    length x = length t /\
    forall j, (j < length t)%nat -> let u := nth j t 0 in
      nth j x 0 = a1 u * cos (2 * PI * p1 u) + a2 u * cos (2 * PI * p2 u) + a3 u * cos (2 * PI * p3 u).
(** [n] samples from 0 to 10 *)
Definition ten_seconds (n : Z) (t : list R) : Prop :=
  Z.of_nat (length t) = n /\ forall j, (j < length t)%nat -> nth j t 0 = INR j * (10 / (IZR n - 1)).

Lemma times_ten n : (2 <= n)%Z -> exists t, times 0 10 n true = Ok t /\ ten_seconds n t.
Proof.
  intros Hn. unfold times. destruct (Z.ltb_spec n 0); [lia|]. eexists. split; [reflexivity|]. unfold ten_seconds, linspace. rewrite tab_length.
  split; [lia|]. intros j Hj. rewrite nth_tab by exact Hj. destruct (Nat.eqb_spec (Z.to_nat n) 1); [lia|].
  replace (INR (Z.to_nat n - 1)) with (IZR n - 1); [lra|]. rewrite minus_INR by lia. rewrite INR_IZR_INZ, Z2Nat.id by lia. cbn. lra.
Qed.

Lemma d_frac p u : 0 < u -> derivable_pt_lim (fun t => frac_pow t p) u (p * Rpower u (p - 1)).
Proof.
  intros Hu. pose proof (derivable_pt_lim_power u p Hu) as D. intros e He. destruct (D e He) as (d & Hd).
  assert (Hm : 0 < Rmin d u) by (apply Rmin_pos; [apply cond_pos|exact Hu]).
  exists (mkposreal _ Hm). intros h Hh Hlt. cbn in Hlt.
  assert (Rabs h < d) by (eapply Rlt_le_trans; [exact Hlt|apply Rmin_l]). assert (Rabs h < u) by (eapply Rlt_le_trans; [exact Hlt|apply Rmin_r]).
  specialize (Hd h Hh H). unfold frac_pow. destruct (Req_EM_T (u + h) 0) as [E|]; [|destruct (Req_EM_T u 0); [lra|exact Hd]].
  exfalso. replace h with (- u) in H0 by lra. rewrite Rabs_Ropp, Rabs_right in H0; lra.
Qed.
Lemma nth_map0 (f : R -> R) l j : (j < length l)%nat -> nth j (map f l) 0 = f (nth j l 0).
Proof. intros Hj. rewrite (nth_indep _ 0 (f 0)) by (rewrite map_length; exact Hj). apply map_nth. Qed.

Lemma d_lin c u : derivable_pt_lim (fun t => c * t) u c.
Proof. pose proof (derivable_pt_lim_scal id c u 1 (derivable_pt_lim_id u)) as D. rewrite Rmult_1_r in D. exact D. Qed.

Theorem packed_poly_fm s N k : (2 <= or_N s N)%Z -> exists x t, packed_poly s N k = Ok (x, t) /\ ten_seconds (or_N s N) t /\
  fm_sum (fun t => 1 + 3 / 10 * cos t) (fun t => (1 + 2 / 10 * cos (2 * t)) * exp (- t / 15)) (fun _ => 1)
         (pp_f1 (or_N s N)) (pp_f2 (or_N s N)) (pp_f3 (or_N s N)) x t.
Proof.
  intros Hn. set (n := or_N s N) in *. destruct (times_ten n Hn) as (t & Et & Ht). exists (map (packed_poly_at n) t), t.
  split; [unfold packed_poly; fold n; rewrite Et; reflexivity|]. split; [exact Ht|].
  set (adj := IZR n / 512).
  exists (fun t => 10 * adj * t - 3 / 10 * adj * sin t - 18 / 10 * adj * frac_pow t (15 / 10)),
         (fun t => 24 / 10 * adj * t + 5 / 10 * adj * frac_pow t (12 / 10) + 3 / 10 * sin t),
         (fun t => 48 / 10 * adj * t + 2 / 10 * adj * frac_pow t (13 / 10)).
  split; [|split].
  - intros u Hu.
    pose proof (d_frac (15 / 10) u Hu) as D1. pose proof (d_frac (12 / 10) u Hu) as D2. pose proof (d_frac (13 / 10) u Hu) as D3.
    pose proof (derivable_pt_lim_sin u) as Ds. split; [|split].
    + pose proof (derivable_pt_lim_minus _ _ u _ _ (derivable_pt_lim_minus _ _ u _ _ (d_lin (10 * adj) u) (derivable_pt_lim_scal sin (3 / 10 * adj) u _ Ds))
                   (derivable_pt_lim_scal _ (18 / 10 * adj) u _ D1)) as D.
      replace (pp_f1 n u) with (10 * adj - 3 / 10 * adj * cos u - 18 / 10 * adj * (15 / 10 * Rpower u (15 / 10 - 1))); [exact D|].
      unfold pp_f1. fold adj. replace (15 / 10 - 1) with (/ 2) by lra. rewrite Rpower_sqrt by exact Hu. field.
    + pose proof (derivable_pt_lim_plus _ _ u _ _ (derivable_pt_lim_plus _ _ u _ _ (d_lin (24 / 10 * adj) u) (derivable_pt_lim_scal _ (5 / 10 * adj) u _ D2))
                   (derivable_pt_lim_scal sin (3 / 10) u _ Ds)) as D.
      replace (pp_f2 n u) with (24 / 10 * adj + 5 / 10 * adj * (12 / 10 * Rpower u (12 / 10 - 1)) + 3 / 10 * cos u); [exact D|].
      unfold pp_f2. fold adj. replace (12 / 10 - 1) with (2 / 10) by lra. field.
    + pose proof (derivable_pt_lim_plus _ _ u _ _ (d_lin (48 / 10 * adj) u) (derivable_pt_lim_scal _ (2 / 10 * adj) u _ D3)) as D.
      replace (pp_f3 n u) with (48 / 10 * adj + 2 / 10 * adj * (13 / 10 * Rpower u (13 / 10 - 1))); [exact D|].
      unfold pp_f3. fold adj. replace (13 / 10 - 1) with (3 / 10) by lra. field.
  - apply map_length.
  - intros j Hj u. rewrite nth_map0 by exact Hj. fold u. unfold packed_poly_at. fold adj. rewrite Rmult_1_l. reflexivity.
Qed.

Lemma rp_le u p : 0 < u <= 10 -> 0 <= p <= 1 -> 0 < Rpower u p <= 10.
Proof.
  intros Hu Hp. split; [apply exp_pos|]. eapply Rle_trans with (Rpower 10 p).
  - apply Rle_Rpower_l; lra.
  - rewrite <- (Rpower_1 10) at 2 by lra. apply Rle_Rpower; lra.
Qed.
Lemma rp_fifth u : 0 < u <= 10 -> 0 < Rpower u (2 / 10) <= 2.
Proof.
  intros Hu. split; [apply exp_pos|]. apply Rle_trans with (Rpower (Rpower 2 5) (2 / 10)).
  - apply Rle_Rpower_l; [lra|]. replace 5 with (INR 5) by (cbn; lra). rewrite Rpower_pow by lra. lra.
  - rewrite Rpower_mult. replace (5 * (2 / 10)) with 1 by lra. rewrite Rpower_1; lra.
Qed.
Lemma rp_third u : 0 < u <= 10 -> 0 < Rpower u (3 / 10) <= 2.
Proof.
  intros Hu. split; [apply exp_pos|]. apply (Rle_trans _ (Rpower (Rpower 2 (10 / 3)) (3 / 10))).
  - apply Rle_Rpower_l; [lra|]. split; [lra|]. apply Rle_trans with (Rpower (Rpower 10 3) (1 / 3)).
    { rewrite Rpower_mult. replace (3 * (1 / 3)) with 1 by lra. rewrite Rpower_1; lra. }
    replace (10 / 3) with (10 * (1 / 3)) by lra. rewrite <- Rpower_mult. apply Rle_Rpower_l; [lra|].
    replace 3 with (INR 3) by (cbn; lra). rewrite Rpower_pow by lra. replace (Rpower 2 10) with (2 ^ 10) by (rewrite <- Rpower_pow by lra; f_equal; cbn; lra). lra.
  - rewrite Rpower_mult. replace (10 / 3 * (3 / 10)) with 1 by lra. rewrite Rpower_1; lra.
Qed.
Lemma sqrt_ten u : 0 < u <= 10 -> 0 < sqrt u <= 32 / 10.
Proof.
  intros Hu. split; [apply sqrt_lt_R0; lra|]. rewrite <- (sqrt_square (32 / 10)) by lra. apply sqrt_le_1_alt. lra.
Qed.

(** below half the sampling rate [(N - 1) / 10] *)
Theorem packed_poly_sampled n u : (9 <= n)%Z -> 0 < u <= 10 ->
  0 < pp_f1 n u < (IZR n - 1) / 20 /\ Rabs (pp_f2 n u) < (IZR n - 1) / 20 /\ 0 < pp_f3 n u < (IZR n - 1) / 20.
Proof.
  intros Hn Hu. assert (9 <= IZR n) by (apply IZR_le, Hn). unfold pp_f1, pp_f2, pp_f3. pose proof (COS_bound u).
  pose proof (rp_fifth u Hu). pose proof (rp_third u Hu). pose proof (sqrt_ten u Hu).
  split; [|split].
  - split; [apply Rmult_lt_0_compat; lra|].
    assert (IZR n / 512 * (10 - 3 / 10 * cos u - 27 / 10 * sqrt u) <= IZR n / 512 * (103 / 10)) by (apply Rmult_le_compat_l; lra). lra.
  - apply Rabs_def1.
    + assert (IZR n / 512 * (24 / 10 + 6 / 10 * Rpower u (2 / 10)) <= IZR n / 512 * (36 / 10)) by (apply Rmult_le_compat_l; lra). lra.
    + assert (0 <= IZR n / 512 * (24 / 10 + 6 / 10 * Rpower u (2 / 10))) by (apply Rmult_le_pos; lra). lra.
  - split; [apply Rmult_lt_0_compat; lra|].
    assert (IZR n / 512 * (48 / 10 + 26 / 100 * Rpower u (3 / 10)) <= IZR n / 512 * (54 / 10)) by (apply Rmult_le_compat_l; lra). lra.
Qed.

(** the second band stays below the third; the first falls through both *)
Theorem packed_poly_order n : (129 <= n)%Z ->
  (forall u, 0 < u <= 10 -> 0 < pp_f2 n u < pp_f3 n u) /\ pp_f3 n 1 < pp_f1 n 1 /\ pp_f1 n 10 < pp_f2 n 10.
Proof.
  intros Hn. assert (129 <= IZR n) by (apply IZR_le, Hn). unfold pp_f1, pp_f2, pp_f3. split; [|split].
  - intros u Hu. pose proof (COS_bound u). pose proof (rp_fifth u Hu). pose proof (rp_third u Hu). split.
    + assert (IZR n / 512 * (24 / 10) <= IZR n / 512 * (24 / 10 + 6 / 10 * Rpower u (2 / 10))) by (apply Rmult_le_compat_l; lra). lra.
    + assert (IZR n / 512 * (24 / 10 + 6 / 10 * Rpower u (2 / 10)) <= IZR n / 512 * (36 / 10)) by (apply Rmult_le_compat_l; lra).
      assert (IZR n / 512 * (48 / 10) <= IZR n / 512 * (48 / 10 + 26 / 100 * Rpower u (3 / 10))) by (apply Rmult_le_compat_l; lra). lra.
  - apply Rmult_lt_compat_l; [lra|]. rewrite sqrt_1. replace (Rpower 1 (3 / 10)) with 1 by (unfold Rpower; rewrite ln_1, Rmult_0_r, exp_0; reflexivity).
    pose proof (COS_bound 1). lra.
  - pose proof (COS_bound 10). assert (31 / 10 <= sqrt 10) by (rewrite <- (sqrt_square (31 / 10)) by lra; apply sqrt_le_1_alt; lra).
    assert (15 / 10 <= Rpower 10 (2 / 10)).
    { apply Rle_trans with (Rpower (Rpower (15 / 10) 5) (2 / 10)).
      - rewrite Rpower_mult. replace (5 * (2 / 10)) with 1 by lra. rewrite Rpower_1; lra.
      - apply Rle_Rpower_l; [lra|]. split; [apply exp_pos|]. replace 5 with (INR 5) by (cbn; lra). rewrite Rpower_pow by lra. lra. }
    assert (IZR n / 512 * (10 - 3 / 10 * cos 10 - 27 / 10 * sqrt 10) <= IZR n / 512 * (193 / 100)) by (apply Rmult_le_compat_l; lra).
    assert (IZR n / 512 * (33 / 10) <= IZR n / 512 * (24 / 10 + 6 / 10 * Rpower 10 (2 / 10))) by (apply Rmult_le_compat_l; lra). lra.
Qed.

(** the first and third band keep their place relative to the sampling as [N] varies; the second does not *)
Theorem packed_poly_scales n m u : (0 < n)%Z -> (0 < m)%Z ->
  pp_f1 n u / IZR n = pp_f1 m u / IZR m /\ pp_f3 n u / IZR n = pp_f3 m u / IZR m /\
  pp_f2 n u / IZR n - pp_f2 m u / IZR m = 3 / 10 * cos u * (/ IZR n - / IZR m).
Proof.
  intros Hn Hm. assert (IZR n <> 0) by (apply not_0_IZR; lia). assert (IZR m <> 0) by (apply not_0_IZR; lia).
  unfold pp_f1, pp_f2, pp_f3. split; [|split]; field; auto.
Qed.
(** with 64 samples the second band starts above the third; with 32 it has negative frequencies *)
Theorem packed_poly_small : pp_f3 64 (1 / 32) < pp_f2 64 (1 / 32) /\ pp_f2 32 PI < 0.
Proof.
  split.
  - unfold pp_f2, pp_f3.
    assert (E : Rpower (1 / 32) (2 / 10) = 1 / 2).
    { replace (1 / 32) with (Rpower (1 / 2) 5) by (replace 5 with (INR 5) by (cbn; lra); rewrite Rpower_pow by lra; lra).
      rewrite Rpower_mult. replace (5 * (2 / 10)) with 1 by lra. apply Rpower_1. lra. }
    assert (L : Rpower (1 / 32) (3 / 10) <= 1 / 2).
    { rewrite <- E. unfold Rpower. assert (ln (1 / 32) < 0) by (rewrite <- ln_1; apply ln_increasing; lra).
      destruct (Req_dec (3 / 10 * ln (1 / 32)) (2 / 10 * ln (1 / 32))); [lra|]. left. apply exp_increasing. lra. }
    assert (Hc : 1 - 1 / 32 <= cos (1 / 32)).
    { replace (1 / 32) with (2 * (1 / 64)) at 2 by lra. rewrite cos_2a_sin. pose proof (sin_lt_x (1 / 64) ltac:(lra)).
      assert (0 <= sin (1 / 64)) by (apply sin_ge_0; pose proof PI_RGT_0; pose proof PI2_1; lra). nra. }
    rewrite E. pose proof (exp_pos (3 / 10 * ln (1 / 32))). lra.
  - unfold pp_f2. rewrite cos_PI. pose proof PI_RGT_0. pose proof PI_4. pose proof (rp_fifth PI ltac:(lra)). lra.
Qed.

(** ** [poly_cubic] *)
Lemma polyint_derivative c3 c2 c1 c0 u :
  derivable_pt_lim (polyval (polyint [c3; c2; c1; c0])) u (c3 * u ^ 3 + c2 * u ^ 2 + c1 * u + c0).
Proof.
  assert (E : forall t, polyval (polyint [c3; c2; c1; c0]) t = c3 / 4 * t ^ 4 + c2 / 3 * t ^ 3 + c1 / 2 * t ^ 2 + c0 * t).
  { intros t. cbn. field. }
  intros e He.
  assert (D : derivable_pt_lim (fun t => c3 / 4 * t ^ 4 + c2 / 3 * t ^ 3 + c1 / 2 * t ^ 2 + c0 * t) u
    (c3 / 4 * (INR 4 * u ^ 3) + c2 / 3 * (INR 3 * u ^ 2) + c1 / 2 * (INR 2 * u ^ 1) + c0)).
  { pose proof (derivable_pt_lim_scal _ (c3 / 4) u _ (derivable_pt_lim_pow u 4)) as D4.
    pose proof (derivable_pt_lim_scal _ (c2 / 3) u _ (derivable_pt_lim_pow u 3)) as D3.
    pose proof (derivable_pt_lim_scal _ (c1 / 2) u _ (derivable_pt_lim_pow u 2)) as D2.
    exact (derivable_pt_lim_plus _ _ u _ _ (derivable_pt_lim_plus _ _ u _ _ (derivable_pt_lim_plus _ _ u _ _ D4 D3) D2) (d_lin c0 u)). }
  destruct (D e He) as (d & Hd). exists d. intros h Hh Hl. specialize (Hd h Hh Hl). rewrite !E.
  replace (c3 * u ^ 3 + c2 * u ^ 2 + c1 * u + c0) with (c3 / 4 * (INR 4 * u ^ 3) + c2 / 3 * (INR 3 * u ^ 2) + c1 / 2 * (INR 2 * u ^ 1) + c0) by (cbn; field).
  exact Hd.
Qed.

Theorem poly_cubic_fm s N k : (2 <= or_N s N)%Z -> exists x t, poly_cubic s N k = Ok (x, t) /\ ten_seconds (or_N s N) t /\
  fm_sum (fun _ => 1) (fun _ => 1) (fun _ => 1) (pc_f1 (or_N s N)) (pc_f2 (or_N s N)) (pc_f3 (or_N s N)) x t.
Proof.
  intros Hn. set (n := or_N s N) in *. destruct (times_ten n Hn) as (t & Et & Ht). exists (map (poly_cubic_at n) t), t.
  split; [unfold poly_cubic; fold n; rewrite Et; reflexivity|]. split; [exact Ht|].
  set (c := IZR n / 256).
  exists (polyval (polyint [25 / 1000 * c; - 36 / 100 * c; 125 / 100 * c; 2 * c])), (fun t => IZR n / 512 * t + - (1 / 4)),
         (polyval (polyint [1 / 100 * c; - 25 / 100 * c; 15 / 10 * c; 4 * c])).
  split; [|split].
  - intros u Hu. split; [|split].
    + replace (pc_f1 n u) with (25 / 1000 * c * u ^ 3 + - 36 / 100 * c * u ^ 2 + 125 / 100 * c * u + 2 * c) by (unfold pc_f1; fold c; field).
      apply polyint_derivative.
    + pose proof (derivable_pt_lim_plus _ _ u _ _ (d_lin (IZR n / 512) u) (derivable_pt_lim_const (- (1 / 4)) u)) as D.
      rewrite Rplus_0_r in D. exact D.
    + replace (pc_f3 n u) with (1 / 100 * c * u ^ 3 + - 25 / 100 * c * u ^ 2 + 15 / 10 * c * u + 4 * c) by (unfold pc_f3; fold c; field).
      apply polyint_derivative.
  - apply map_length.
  - intros j Hj u. rewrite nth_map0 by exact Hj. fold u. unfold poly_cubic_at, sweep_poly. cbn [map]. fold c. rewrite !Rmult_1_l.
    f_equal. f_equal. replace (2 * PI * (IZR n / 512 * u + - (1 / 4))) with (- (PI / 2 - 2 * PI * (5 / 10 * IZR n / 256) * u)) by field.
    rewrite cos_neg, cos_shift. reflexivity.
Qed.

(** the tone lies below the first sweep, which lies below the other; all below half the sampling rate *)
Theorem poly_cubic_bands n u : (3 <= n)%Z -> 0 <= u <= 10 ->
  0 < pc_f2 n u < pc_f1 n u /\ pc_f1 n u < pc_f3 n u < (IZR n - 1) / 20.
Proof.
  intros Hn Hu. assert (3 <= IZR n) by (apply IZR_le, Hn). unfold pc_f1, pc_f2, pc_f3. set (c := IZR n / 256).
  assert (A1 : 1 / 2 < 25 / 1000 * u ^ 3 - 36 / 100 * u ^ 2 + 125 / 100 * u + 2).
  { assert (0 <= u * (u - 72 / 10) ^ 2) by (apply Rmult_le_pos; [lra|apply pow2_ge_0]). nra. }
  assert (A2 : 25 / 1000 * u ^ 3 - 36 / 100 * u ^ 2 + 125 / 100 * u + 2 < 1 / 100 * u ^ 3 - 25 / 100 * u ^ 2 + 15 / 10 * u + 4).
  { assert (0 <= u ^ 2 * (10 - u)) by (apply Rmult_le_pos; [apply pow2_ge_0|lra]). assert (0 <= u * (10 - u)) by (apply Rmult_le_pos; lra). nra. }
  assert (A3 : 1 / 100 * u ^ 3 - 25 / 100 * u ^ 2 + 15 / 10 * u + 4 <= 85 / 10).
  { assert (0 <= (u - 5) ^ 2 * (15 - u)) by (apply Rmult_le_pos; [apply pow2_ge_0|lra]). nra. }
  assert (Hc : 0 < c) by (unfold c; lra).
  split; [split; [lra|]|split].
  - replace (IZR n / 512) with (c * (1 / 2)) by (unfold c; field). apply Rmult_lt_compat_l; assumption.
  - apply Rmult_lt_compat_l; assumption.
  - apply Rle_lt_trans with (c * (85 / 10)); [apply Rmult_le_compat_l; lra|]. unfold c. lra.
Qed.

(** every band keeps its place relative to the sampling as [N] varies *)
Theorem poly_cubic_scales n m u : (0 < n)%Z -> (0 < m)%Z -> pc_f1 n u / IZR n = pc_f1 m u / IZR m /\
  pc_f2 n u / IZR n = pc_f2 m u / IZR m /\ pc_f3 n u / IZR n = pc_f3 m u / IZR m.
Proof.
  intros Hn Hm. assert (IZR n <> 0) by (apply not_0_IZR; lia). assert (IZR m <> 0) by (apply not_0_IZR; lia).
  unfold pc_f1, pc_f2, pc_f3. split; [|split]; field; auto.
Qed.
