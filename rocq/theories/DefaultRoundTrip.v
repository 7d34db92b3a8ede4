(** The default wavelet: its [adm_ssq], and the round trip in numbers. *)
From Coq Require Import Reals Lra Lia ZifyBool ZifyNat.
From Verif Require Import Py Cplx CplxProofs Padding Freqs Squeeze Scales ScaleThms Wavelets WaveletProofs GmwThms2 Integral IntegralProofs
  Resol Admiss AdmissThms AdmissThms2 AdmissThms3 AdmissAcc PrimProofs Cwt CwtProofs CwtThms RoundTrip GainBound GainBound2 RoundTripGain RoundTripGain2 GmwRoundTrip.
Local Open Scope R_scope.

(** ** [g w / w] has one peak as well *)
Section Over.
Variables (gamma beta : R) (g : R -> R).
Hypothesis (Hg : 0 < gamma) (Hb : 1 < beta) (Ef : gmw_l1 gamma beta false = Ok g).
Lemma d_over w : 0 < w -> derivable_pt_lim (fun w => g w / w) w (g w / (w * w) * (beta - 1 - gamma * Rpower w gamma)).
Proof.
  intros Hw. pose proof (d_g gamma beta g Hg ltac:(lra) Ef w Hw) as D.
  replace (g w / (w * w) * _) with ((g w * (beta - gamma * Rpower w gamma) / w * w - 1 * g w) / Rsqr w) by (unfold Rsqr; field; lra).
  apply (derivable_pt_lim_div g id); [exact D|apply derivable_pt_lim_id|unfold id; lra].
Qed.
Lemma over_unimodal : let c := Rpower ((beta - 1) / gamma) (1 / gamma) in unimodal (fun w => g w / w) c (2 / c).
Proof.
  intros c. assert (Hc : 0 < c) by apply exp_pos.
  assert (Hr : 0 < (beta - 1) / gamma) by (apply Rdiv_lt_0_compat; lra).
  assert (Ec : Rpower c gamma = (beta - 1) / gamma) by (apply root_pow; assumption).
  destruct (gmw_unimodal gamma beta g Hg ltac:(lra) Ef) as (B & _).
  assert (Pg : forall w, 0 < w -> 0 < g w) by (apply (gmw_l1_peaks gamma beta g Hg ltac:(lra) Ef)).
  assert (K : forall w, 0 < w -> 0 < g w / (w * w)) by (intros w Hw; apply Rdiv_lt_0_compat; [apply Pg, Hw|nra]).
  assert (U : forall u v, 0 < u -> u <= v -> v <= c -> g u / u <= g v / v).
  { intros u v Hu Huv Hv. apply (grow (fun w => g w / w) (fun w => g w / (w * w) * (beta - 1 - gamma * Rpower w gamma)) u v Huv).
    - intros t Ht. apply d_over. lra.
    - intros t Ht. apply Rmult_le_pos; [left; apply K; lra|]. pose proof (pow_mono gamma Hg t c ltac:(lra) ltac:(lra)) as M. rewrite Ec in M.
      assert (gamma * Rpower t gamma <= gamma * ((beta - 1) / gamma)) by (apply Rmult_le_compat_l; lra).
      replace (gamma * ((beta - 1) / gamma)) with (beta - 1) in H by (field; lra). lra. }
  assert (D : forall u v, 0 < u -> c <= u -> u <= v -> g v / v <= g u / u).
  { intros u v Hu Hc' Huv. enough (- (g u / u) <= - (g v / v)) by lra.
    apply (grow (fun w => - (g w / w)) (fun w => - (g w / (w * w) * (beta - 1 - gamma * Rpower w gamma))) u v Huv).
    - intros t Ht. apply (derivable_pt_lim_opp (fun w => g w / w)). apply d_over. lra.
    - intros t Ht. rewrite Ropp_mult_distr_r. apply Rmult_le_pos; [left; apply K; lra|]. pose proof (pow_mono gamma Hg c t ltac:(lra) ltac:(lra)) as M. rewrite Ec in M.
      assert (gamma * ((beta - 1) / gamma) <= gamma * Rpower t gamma) by (apply Rmult_le_compat_l; lra).
      replace (gamma * ((beta - 1) / gamma)) with (beta - 1) in H by (field; lra). lra. }
  split; [|split; assumption].
  intros w Hw. split; [left; apply Rdiv_lt_0_compat; [apply Pg|]; exact Hw|]. apply Rle_trans with (g c / c).
  - destruct (Rle_dec w c); [apply U; lra|apply D; lra].
  - apply Rmult_le_compat_r; [left; apply Rinv_0_lt_compat, Hc|apply B, Hc].
Qed.
End Over.

(** ** Numbers *)
Lemma exp_quad x : 0 <= x -> 1 + x + x * x / 2 <= exp x.
Proof.
  intros Hx. pose proof (grow (fun t => exp t - (1 + t + t * t / 2)) (fun t => exp t - (0 + 1 + (1 * t + t * 1) / 2)) 0 x Hx) as G. cbv beta in G.
  rewrite exp_0 in G. enough (1 - (1 + 0 + 0 * 0 / 2) <= exp x - (1 + x + x * x / 2)) by lra. apply G.
  - intros t Ht. apply (derivable_pt_lim_minus exp (fun t => 1 + t + t * t / 2)); [apply derivable_pt_lim_exp|].
    apply (derivable_pt_lim_plus (fun t => 1 + t) (fun t => t * t / 2)).
    + apply (derivable_pt_lim_plus (fct_cte 1) id); [apply derivable_pt_lim_const|apply derivable_pt_lim_id].
    + replace ((1 * t + t * 1) / 2) with (/ 2 * (1 * t + t * 1)) by field.
      apply (derivable_pt_lim_ext (fun t => / 2 * (t * t))); [intros; field|].
      apply (derivable_pt_lim_scal (fun t => t * t)). apply (derivable_pt_lim_mult id id); apply derivable_pt_lim_id.
  - intros t Ht. pose proof (exp_ineq1_le t). lra.
Qed.
Lemma exp_mult n x : exp (INR n * x) = exp x ^ n.
Proof. induction n as [|n IH]; [cbn; rewrite Rmult_0_l; apply exp_0|]. rewrite S_INR, Rmult_plus_distr_r, Rmult_1_l, exp_plus, IH. cbn [pow]. ring. Qed.
Lemma e_low : 27165 / 10000 <= exp 1.
Proof.
  pose proof (exp_quad (/ 16) ltac:(lra)) as X. replace 1 with (INR 16 * / 16) by (cbn; field). rewrite exp_mult. set (y := exp (/ 16)) in *.
  assert (H1 : 1064453 / 1000000 <= y) by lra.
  assert (H2 : 113306 / 100000 <= y ^ 2) by (replace (y ^ 2) with (y * y) by ring; nra).
  assert (H4 : 128382 / 100000 <= y ^ 4) by (replace (y ^ 4) with (y ^ 2 * y ^ 2) by ring; nra).
  assert (H8 : 164819 / 100000 <= y ^ 8) by (replace (y ^ 8) with (y ^ 4 * y ^ 4) by ring; nra).
  replace (y ^ 16) with (y ^ 8 * y ^ 8) by ring. nra.
Qed.
Lemma e_high : exp 1 <= 274 / 100.
Proof.
  pose proof (exp_ineq1_le (- / 64)) as X. assert (Y : exp (/ 64) <= 64 / 63).
  { replace (/ 64) with (- - / 64) by ring. rewrite exp_Ropp. apply (Rmult_le_reg_l (exp (- / 64))); [apply exp_pos|]. rewrite Rinv_r by (pose proof (exp_pos (- / 64)); lra). lra. }
  replace 1 with (INR 64 * / 64) by (rewrite INR_IZR_INZ; cbn; field). rewrite exp_mult. pose proof (exp_pos (/ 64)) as Py. set (y := exp (/ 64)) in *.
  assert (H1 : 0 < y <= 1015874 / 1000000) by lra.
  assert (H2 : 0 < y ^ 2 <= 1031999 / 1000000) by (replace (y ^ 2) with (y * y) by ring; nra).
  assert (H4 : 0 < y ^ 4 <= 1065022 / 1000000) by (replace (y ^ 4) with (y ^ 2 * y ^ 2) by ring; nra).
  assert (H8 : 0 < y ^ 8 <= 1134272 / 1000000) by (replace (y ^ 8) with (y ^ 4 * y ^ 4) by ring; nra).
  assert (H16 : 0 < y ^ 16 <= 1286574 / 1000000) by (replace (y ^ 16) with (y ^ 8 * y ^ 8) by ring; nra).
  assert (H32 : 0 < y ^ 32 <= 1655273 / 1000000) by (replace (y ^ 32) with (y ^ 16 * y ^ 16) by ring; nra).
  replace (y ^ 64) with (y ^ 32 * y ^ 32) by ring. nra.
Qed.
Lemma ln2_high : ln 2 <= 7 / 10.
Proof.
  apply Rnot_lt_le. intros N. apply exp_increasing in N. rewrite exp_ln in N by lra.
  pose proof (exp_quad (7 / 40) ltac:(lra)) as X. replace (7 / 10) with (INR 4 * (7 / 40)) in N by (cbn; field). rewrite exp_mult in N.
  set (y := exp (7 / 40)) in *. assert (H2 : 14168 / 10000 <= y ^ 2) by (replace (y ^ 2) with (y * y) by ring; nra).
  replace (y ^ 4) with (y ^ 2 * y ^ 2) in N by ring. nra.
Qed.
Lemma pow_e n : exp (INR n) = exp 1 ^ n.
Proof. rewrite <- exp_mult. f_equal. ring. Qed.

(** ** The default wavelet *)
Lemma default_gmw : gmw_l1 3 60 false = Ok gmw60.
Proof. rewrite gmw_l1_ok by lra. reflexivity. Qed.
Lemma Rpower_3 x : 0 < x -> Rpower x 3 = x ^ 3.
Proof. intros Hx. replace 3 with (INR 3) by (cbn; ring). rewrite Rpower_pow by exact Hx. reflexivity. Qed.
Lemma Rpower_20 x : 0 < x -> Rpower x 20 = x ^ 20.
Proof. intros Hx. replace 20 with (INR 20) by (rewrite INR_IZR_INZ; reflexivity). now rewrite Rpower_pow by exact Hx. Qed.
Lemma fact19 : INR (fact 19) = 121645100408832000.
Proof.
  assert (H : forall n, INR (fact (S n)) = IZR (Z.of_nat (S n)) * INR (fact n))
    by (intros n; change (fact (S n)) with (S n * fact n)%nat; rewrite mult_INR, <- INR_IZR_INZ; ring).
  do 19 (rewrite H). change (INR (fact 0)) with 1. cbn [Z.of_nat Pos.of_succ_nat Pos.succ]. ring.
Qed.
Lemma e20 : exp 20 = exp 1 ^ 20.
Proof. rewrite <- pow_e. f_equal. rewrite INR_IZR_INZ. reflexivity. Qed.
Lemma e_powers : let e := exp 1 in 147 <= e ^ 5 <= 155 /\ 54 <= e ^ 4 <= 5637 / 100 /\ 21880 <= e ^ 10 <= 23860 /\ 478700000 <= e ^ 20.
Proof.
  intros e. pose proof e_low as L. pose proof e_high as H. fold e in L, H.
  assert (H2 : 73793 / 10000 <= e ^ 2 <= 75076 / 10000) by (replace (e ^ 2) with (e * e) by ring; split; nra).
  assert (H4 : 54454 / 1000 <= e ^ 4 <= 5637 / 100) by (replace (e ^ 4) with (e ^ 2 * e ^ 2) by ring; split; nra).
  assert (H5 : 147924 / 1000 <= e ^ 5 <= 15446 / 100) by (replace (e ^ 5) with (e ^ 4 * e) by ring; split; nra).
  assert (H10 : 21881 <= e ^ 10 <= 23858) by (replace (e ^ 10) with (e ^ 5 * e ^ 5) by ring; split; nra).
  assert (H20 : 478700000 <= e ^ 20) by (replace (e ^ 20) with (e ^ 10 * e ^ 10) by ring; nra).
  repeat split; lra.
Qed.

Definition fact_19 : R := 121645100408832000.
(** the exact constant, (2/3) (e/20)^20 19! = 0.3752 *)
Lemma default_integral : impint (fun w => gmw60 w / w) (2 / 3 * (exp 20 / 20 ^ 20) * fact_19).
Proof.
  pose proof (impint_moment EulerGamma 59 1 3 EulerGamma_is_Gamma ltac:(lra) ltac:(lra) ltac:(lra)) as I.
  replace ((59 + 1) / 3) with (INR 19 + 1) in I by (rewrite INR_IZR_INZ; cbn; lra). rewrite (Gamma_fact EulerGamma 19 EulerGamma_is_Gamma) in I. rewrite fact19 in I. change 121645100408832000 with fact_19 in I. set (F := fact_19) in *. clearbody F.
  replace (Rpower 1 (INR 19 + 1)) with 1 in I by (unfold Rpower; now rewrite ln_1, Rmult_0_r, exp_0).
  apply (impint_scal _ (2 * (exp 20 / 20 ^ 20))) in I.
  replace (2 / 3 * (exp 20 / 20 ^ 20) * F) with (2 * (exp 20 / 20 ^ 20) * (F / (3 * 1))) by (field; lra).
  apply (impint_ext (fun x => 2 * (exp 20 / 20 ^ 20) * (Rpower x 59 * exp (- (1 * Rpower x 3))))); [|exact I].
  intros w Hw. rewrite (gmw_at 3 60 gmw60 ltac:(lra) ltac:(lra) default_gmw w Hw). replace (60 / 3) with 20 by lra.
  rewrite Rmult_1_l. set (u := Rpower w 3). assert (Hu : 0 < u) by apply exp_pos.
  rewrite (Rpower_20 (u / 20)) by lra. unfold Rminus. rewrite exp_plus. unfold Rdiv at 3. rewrite Rpow_mult_distr.
  replace (u ^ 20) with (Rpower w 59 * w).
  - rewrite pow_inv. field. lra.
  - rewrite <- (Rpower_20 u Hu). unfold u. rewrite Rpower_mult. replace (3 * 20) with (59 + 1) by ring. now rewrite Rpower_plus, Rpower_1 by exact Hw.
Qed.
Lemma default_const_low : 37 / 100 <= 2 / 3 * (exp 20 / 20 ^ 20) * fact_19.
Proof.
  unfold fact_19. rewrite e20. destruct e_powers as (_ & _ & _ & E). apply Rle_trans with (2 / 3 * (478700000 / 20 ^ 20) * 121645100408832000); [lra|].
  unfold Rdiv. apply Rmult_le_compat_r; [lra|]. apply Rmult_le_compat_l; [lra|]. apply Rmult_le_compat_r; [|exact E].
  left. apply Rinv_0_lt_compat. lra.
Qed.

Lemma gmw60_low w : 0 < w -> w <= 11 / 100 -> gmw60 w <= 1 / 10 ^ 6.
Proof.
  intros Hw Hl. rewrite gmw60_val by exact Hw. set (x := w ^ 3 / 20).
  assert (Hx : 0 < x <= 1 / 10000).
  { unfold x. assert (0 < w ^ 3) by (apply pow_lt, Hw). pose proof (pow_incr w (11 / 100) 3 ltac:(lra)). lra. }
  apply Rle_trans with (2 * exp (20 * (ln x + 1))).
  - apply Rmult_le_compat_l; [lra|]. left. apply exp_increasing. lra.
  - replace 20 with (INR 20) by (rewrite INR_IZR_INZ; reflexivity). rewrite exp_mult, exp_plus, exp_ln by lra.
    pose proof e_high. pose proof (exp_pos 1). assert (Hxe : 0 <= x * exp 1 <= 1 / 1000) by nra.
    apply Rle_trans with (2 * (1 / 1000) ^ 20); [apply Rmult_le_compat_l; [lra|apply pow_incr, Hxe]|]. lra.
Qed.

Theorem default_adm_ssq : exists v, adm_ssq gmw60 = Ok v /\
  Rabs (2 / 3 * (exp 20 / 20 ^ 20) * fact_19 - v) <= 1 / 400 /\ 3675 / 10000 <= v.
Proof.
  pose proof default_gmw as E0. pose proof (gmw_f_pos 3 60 false gmw60 ltac:(lra) ltac:(lra) E0) as Hp.
  assert (Hi : forall w, 0 < w -> 0 < / w) by (intros; now apply Rinv_0_lt_compat).
  assert (H10 : forall w, 10 <= w -> 0 < / w <= 1 / 10).
  { intros w Hw. split; [apply Hi; lra|]. apply (Rmult_le_reg_l w); [lra|]. rewrite Rinv_r by lra. lra. }
  destruct (integrate_decay (fun w => gmw60 w / w) false 1%Z 20 (Z.to_nat 1306) (Z.to_nat 5000)) as (v & E & _).
  - cbn. tauto.
  - intros w Hw. specialize (Hp w Hw). specialize (Hi w Hw). left. now apply Rmult_lt_0_compat.
  - lia.
  - lia.
  - assert (HjE : rgrid 20 (npts 1) (Z.to_nat 1306) = 27 / 10 + 93 / 100000).
    { rewrite rgrid20. rewrite INR_IZR_INZ. replace (Z.of_nat (S (Z.to_nat 1306))) with 1307%Z by lia. lra. }
    rewrite HjE. pose proof gmw60_near. lra.
  - intros i Hir. assert (Hfar : 10 <= rgrid 20 (npts 1) i).
    { rewrite rgrid20. assert (5000 <= INR (S i)) by (rewrite INR_IZR_INZ; apply IZR_le; lia). lra. }
    pose proof (gmw60_far _ Hfar). pose proof (H10 _ Hfar). pose proof (Hp (rgrid 20 (npts 1) i) ltac:(lra)). unfold Rdiv. nra.
  - exists v. split; [unfold adm_ssq; rewrite E; reflexivity|].
    pose proof (over_unimodal 3 60 gmw60 ltac:(lra) ltac:(lra) E0) as U. cbv zeta in U. set (c := Rpower ((60 - 1) / 3) (1 / 3)) in *.
    assert (Hc0 : 0 < c) by apply exp_pos.
    assert (Hc : 269 / 100 <= c).
    { apply Rnot_lt_le. intros N. assert (Rpower c 3 = (60 - 1) / 3) as Q by (apply root_pow; lra). rewrite Rpower_3 in Q by exact Hc0.
      pose proof (pow_incr c (269 / 100) 3 ltac:(lra)). lra. }
    destruct (gmw_primitive 3 60 gmw60 ltac:(lra) ltac:(lra) E0) as (P & P1 & P2).
    destruct (integrate_accuracy (fun w => gmw60 w / w) P c (2 / c) U P1 v 160 E ltac:(lra)) as (_ & A). specialize (A ltac:(lra)).
    set (C := 2 / 3 * (exp 20 / 20 ^ 20) * fact_19).
    assert (L15 : 0 < 1 / 10 ^ 15 <= 11 / 100) by lra.
    pose proof (band_integral 3 60 gmw60 ltac:(lra) ltac:(lra) E0 P C (1 / 10 ^ 15) 160 P1 P2 default_integral ltac:(lra)) as BI.
    rewrite !Rpower_3 in BI by lra. specialize (BI ltac:(lra) ltac:(lra)).
    pose proof (gmw60_low (1 / 10 ^ 15) ltac:(lra) ltac:(lra)) as G1. pose proof (gmw60_far 160 ltac:(lra)) as G2. pose proof (gmw60_low (11 / 100) ltac:(lra) ltac:(lra)) as G3.
    assert (HM : 2 / c <= 75 / 100) by (apply (Rmult_le_reg_r c); [exact Hc0|]; unfold Rdiv; rewrite Rmult_assoc, Rinv_l by lra; lra).
    apply abs_le_inv in A. unfold tiny in *. pose proof default_const_low as CL. fold C in CL.
    assert (D : - (1 / 400) <= C - v <= 1 / 400) by (split; lra). split; [apply Rabs_le; lra|lra].
Qed.

Lemma default_variation : gmw_variation 3 60 <= 67.
Proof.
  unfold gmw_variation, gmw_lobe. replace (60 / 3) with 20 by lra.
  assert (Es : sqrt (20 + 1 / 4) = 9 / 2) by (apply sqrt_lem_1; lra). rewrite Es.
  replace (20 + 1 / 2 - 9 / 2) with 16 by lra. replace (20 + 1 / 2 + 9 / 2) with 25 by lra.
  rewrite !Rpower_20 by lra. replace (20 - 16) with (INR 4) by (cbn; lra). rewrite pow_e.
  replace (20 - 25) with (- INR 5) by (cbn; lra). rewrite exp_Ropp, pow_e, Rabs_Ropp, !Rabs_right by (cbn; lra).
  destruct e_powers as ((E5 & _) & (_ & E4) & _). set (e := exp 1) in *.
  assert (I5 : 0 < / e ^ 5 <= / 147) by (split; [apply Rinv_0_lt_compat; lra|apply Rinv_le_contravar; lra]).
  cbn [INR]. replace (1 + 1 + 1 + 1) with 4 by ring. replace (4 + 1) with 5 by ring.
  assert (A1 : (16 / 20) ^ 20 <= 11530 / 1000000) by lra. assert (A2 : 0 < (16 / 20) ^ 20) by (apply pow_lt; lra).
  assert (A3 : (25 / 20) ^ 20 <= 8674 / 100) by lra. assert (A4 : 0 < (25 / 20) ^ 20) by (apply pow_lt; lra).
  set (p := (16 / 20) ^ 20) in *. set (r := (25 / 20) ^ 20) in *. set (i := / e ^ 5) in *. set (f := e ^ 4) in *.
  assert (0 < f) by (apply pow_lt, exp_pos). assert (p * f <= 11530 / 1000000 * (5637 / 100)) by (apply Rmult_le_compat; lra).
  assert (r * i <= 8674 / 100 * / 147) by (apply Rmult_le_compat; lra). nra.
Qed.
Lemma default_delta : 0 < 2 * Rpower (exp (1 / 2) / 2) (60 / 3) <= 46 / 1000.
Proof.
  replace (60 / 3) with 20 by lra. pose proof (exp_pos (1 / 2)). rewrite Rpower_20 by lra. unfold Rdiv at 1 3. rewrite Rpow_mult_distr.
  replace (exp (1 / 2) ^ 20) with (exp 1 ^ 10).
  - destruct e_powers as (_ & _ & (E1 & E2) & _). rewrite pow_inv. lra.
  - replace 20%nat with (2 * 10)%nat by reflexivity. rewrite pow_mult. f_equal. cbn [pow]. rewrite Rmult_1_r, <- exp_plus. f_equal. lra.
Qed.

(** [cwt] then [icwt] with the default wavelet, [nv] at least 32 (the default), its own [adm_ssq]: a signal whose spectrum
    lies inside the scales comes back within 3% (root mean square) *)
Theorem default_round_trip py inst a x st W sc dW st' xp n1 (f64 : bool) mn mx nv fds ds Css xl xm pt rp :
  0 < mn < mx -> (32 <= nv)%Z -> make_scales mn mx nv SLog fds ds = Ok sc -> (3 <= length sc)%nat ->
  uncached inst a st -> a_l1 a = true -> a_rpadded a = false ->
  cwt py inst (gmw_wave gmw60) a x st = (Ok (W, sc, dW), st') -> pad_input (a_pad a) x = Ok (xp, n1) ->
  adm_ssq gmw60 = Ok Css ->
  (forall k, (0 < k < length xp)%nat -> dft (length xp) (fun m => RtoC (nth m xp 0)) k = C0 \/
     (nth 0 sc 0 * bin_xi (length xp) k) ^ 3 <= 10 /\ 40 <= (nth (length sc - 1) sc 0 * bin_xi (length xp) k) ^ 3) ->
  exists y, icwt (gmw_wave gmw60) Css W sc f64 None true true xl xm pt rp = Ok y /\ length y = length x /\
    Rsum (length x) (fun j => (nth j y 0 - nth j x 0 - (xm - avg xp)) ^ 2) <=
    (3 / 100) ^ 2 * Rsum (length xp) (fun i => (nth i xp 0 - avg xp) ^ 2).
Proof.
  intros Hm Hnv Es Hl Hu Hl1 Hrp E Hp HC HH. destruct default_adm_ssq as (v & Ev & Hv & Lv). rewrite Ev in HC. injection HC as <-.
  destruct (gmw_band_round_trip 3 60 gmw60 ltac:(lra) ltac:(lra) default_gmw py inst a x st W sc dW st' xp n1 f64 mn mx nv fds ds _ v xl xm pt rp (1 / 400)
    Hm ltac:(lia) Es Hl Hu Hl1 Hrp E Hp default_integral ltac:(lra) Hv) as (y & Ey & Ly & By).
  - intros k Hk. destruct (HH k Hk) as [Z0|(B1 & B2)]; [left; exact Z0|right].
    pose proof (bin_xi_pos (length xp) k Hk) as Hx. pose proof (library_voices mn mx nv fds ds sc Hm ltac:(lia) Es) as Hv'. pose proof Hv' as (Hv0 & Hv1 & _).
    assert (0 < nth (length sc - 1) sc 0) by (rewrite (voices_nth sc nv (length sc - 1) Hv') by lia; apply Rmult_lt_0_compat; [exact Hv1|apply exp_pos]).
    rewrite !Rpower_3 by (apply Rmult_lt_0_compat; assumption). lra.
  - exists y. split; [exact Ey|]. split; [exact Ly|]. eapply Rle_trans; [exact By|].
    apply Rmult_le_compat_r; [apply Rsum_nonneg; intros; apply pow2_ge_0|].
    pose proof default_variation as T. destruct default_delta as (D0 & D1). set (delta := 2 * Rpower _ _) in *. set (V := gmw_variation 3 60) in *.
    assert (HV : 0 <= V).
    { destruct (gmw_log_variation 3 60 gmw60 ltac:(lra) ltac:(lra) default_gmw) as (W0 & _ & W1). specialize (W1 1 1 ltac:(lra) ltac:(lra)). fold V in W1. lra. }
    set (d := ln 2 / IZR nv). assert (Hnv' : 32 <= IZR nv) by (apply IZR_le; lia).
    assert (Hd : 0 < d <= 22 / 1000).
    { unfold d. pose proof ln2_high. assert (0 < ln 2) by (rewrite <- ln_1; apply ln_increasing; lra). split; [apply Rdiv_lt_0_compat; lra|].
      apply (Rmult_le_reg_r (IZR nv)); [lra|]. unfold Rdiv. rewrite Rmult_assoc, Rinv_l by lra. lra. }
    assert (Q1 : d ^ 2 <= (22 / 1000) ^ 2) by (apply pow_incr; lra).
    assert (Q2 : d ^ 2 / 8 * V <= (22 / 1000) ^ 2 / 8 * 67) by (apply Rmult_le_compat; [pose proof (pow2_ge_0 d); lra|exact HV|lra|exact T]).
    assert (Q3 : d * delta <= 22 / 1000 * (46 / 1000)) by (apply Rmult_le_compat; lra).
    assert (0 <= d ^ 2 / 8 * V) by (apply Rmult_le_pos; [pose proof (pow2_ge_0 d); lra|exact HV]). assert (0 <= d * delta) by (apply Rmult_le_pos; lra).
    apply pow_incr. split.
    + unfold Rdiv at 1. apply Rmult_le_pos; [lra|left; apply Rinv_0_lt_compat; lra].
    + apply (Rmult_le_reg_r v); [lra|]. unfold Rdiv at 1. rewrite Rmult_assoc, Rinv_l by lra. lra.
Qed.
