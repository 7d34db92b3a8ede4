(** The admissibility constants of the built-in wavelets. *)
From Coq Require Import Reals Lra Lia Sorted ZifyBool ZifyNat.
From Verif Require Import Py Cplx CplxProofs Squeeze Resol ResolProofs Wavelets WaveletProofs Admiss AdmissThms AdmissThms2.
Local Open Scope R_scope.

Lemma right_pos_at fn L N n i : 1 / 10 < L -> (n <= N)%nat -> (forall w, 0 < w -> 0 <= fn w) -> (S i < n)%nat -> 0 < fn (rgrid L N i) -> 0 < right_part fn L N n.
Proof.
  intros HL Hn Hf Hi Hp. apply Rmult_lt_0_compat; [apply rstep_pos; [exact HL|lia]|].
  eapply Rlt_le_trans; [|apply (Rsum_pos_term _ (fun i => (fn (rgrid L N i) + fn (rgrid L N (S i))) / 2) i)].
  - pose proof (rgrid_range L N (S i) HL ltac:(lia)). pose proof (Hf (rgrid L N (S i)) ltac:(lra)). lra.
  - lia.
  - intros j Hj. pose proof (rgrid_range L N j HL ltac:(lia)). pose proof (rgrid_range L N (S j) HL ltac:(lia)).
    pose proof (Hf (rgrid L N j) ltac:(lra)). pose proof (Hf (rgrid L N (S j)) ltac:(lra)). lra.
Qed.
(** negligible at some sample of the first nine tenths of a range, less than an earlier sample from
    there on: converges *)
Theorem integrate_decay fn nowarn m L j k : In (m, L) attempts -> (forall w, 0 < w -> 0 <= fn w) ->
  (1000 * m < 10000 * m - Z.of_nat k)%Z -> (j < k)%nat -> 1 / 10 ^ 5 < fn (rgrid L (npts m) j) ->
  (forall i, (k <= i < npts m)%nat -> fn (rgrid L (npts m) i) < tiny) ->
  exists v, integrate_analytic fn nowarn = Ok (v, false) /\ 0 <= v.
Proof.
  intros Hin Hf Hk Hjk Hj Hz. destruct (attempt_range m L Hin) as [Hm HL].
  assert (Hr : forall i, (i < npts m)%nat -> 0 <= fn (rgrid L (npts m) i)).
  { intros i Hi. apply Hf. pose proof (rgrid_range L (npts m) i ltac:(lra) Hi). lra. }
  assert (HjN : (j < npts m)%nat) by (unfold npts; lia).
  assert (exists v, integrate_analytic fn nowarn = Ok (v, false)) as [v E].
  { destruct (integrate_spec fn nowarn) as [(? & ? & ? & _ & _ & _ & _ & E')|[Hn _]]; [eauto|]. exfalso.
    destruct (Hn m L Hin) as (n & (p & Hp & HnN & Hmax & _ & Ha & _) & C). apply C. split.
    - pose proof (Hmax j HjN) as Hmj.
      assert (Hpk : (p < k)%nat).
      { destruct (Nat.lt_ge_cases p k) as [|G]; [assumption|]. pose proof (Hz p ltac:(lia)). unfold tiny in *. lra. }
      assert (n <= k)%nat; [|lia]. destruct (Nat.le_gt_cases n k) as [|G]; [assumption|]. exfalso.
      specialize (Ha k ltac:(lia) G). rewrite Rabs_pos_eq in Ha by (apply Hr; lia). pose proof (Hz k ltac:(lia)). lra.
    - eapply Rlt_le_trans; [exact Hj|]. eapply Rle_trans; [apply Rle_abs|].
      apply (Rsum_pos_term _ (fun i => Rabs (fn (rgrid L (npts m) i))) j HjN). intros. apply Rabs_pos. }
  exists v. split; [exact E|]. now apply (integrate_nonneg fn nowarn v false).
Qed.

(** ** GMW and Morlet: positive whenever returned *)
Lemma gmw_f_pos gamma beta centered f : 0 < gamma -> 0 < beta -> gmw_l1 gamma beta centered = Ok f -> forall w, 0 < w -> 0 < f w.
Proof.
  intros Hg Hb E w Hw. rewrite gmw_l1_ok in E by assumption. injection E as <-.
  pose proof (morsefreq_pos gamma beta Hg Hb). apply gmw_l1_positive; auto. destruct centered; [now apply Rmult_lt_0_compat|exact Hw].
Qed.
Theorem adm_gmw gamma beta centered f v : 0 < gamma -> 0 < beta -> gmw_l1 gamma beta centered = Ok f -> adm_ssq f = Ok v \/ adm_cwt f = Ok v -> 0 < v.
Proof.
  intros Hg Hb E [Ev|Ev]; pose proof (gmw_f_pos gamma beta centered f Hg Hb E) as Hp.
  - now apply (adm_ssq_sign f v Ev).
  - apply (adm_cwt_sign f v Ev). intros w Hw. specialize (Hp w Hw). lra.
Qed.
Theorem adm_morlet mu v : 0 < mu -> adm_ssq (morlet mu) = Ok v \/ adm_cwt (morlet mu) = Ok v -> 0 < v.
Proof.
  intros Hm [Ev|Ev].
  - apply (adm_ssq_sign _ v Ev). intros w Hw. now apply (morlet_sign mu w Hm).
  - apply (adm_cwt_sign _ v Ev). intros w Hw. pose proof (proj1 (morlet_sign mu w Hm) Hw). lra.
Qed.

(** ** the default wavelet, gamma = 3, beta = 60 *)
Definition gmw60 : R -> R := gmw_l1_entry 3 60 (morsefreq 3 60).
Lemma gmw60_val w : 0 < w -> gmw60 w = 2 * exp (20 * (ln (w ^ 3 / 20) - w ^ 3 / 20 + 1)).
Proof.
  intros Hw. unfold gmw60. rewrite gmw_l1_pos by lra. rewrite exponent by lra. do 2 f_equal.
  pose proof (morsefreq_pos 3 60 ltac:(lra) ltac:(lra)) as Hp. pose proof (wc_gamma 3 60 ltac:(lra) ltac:(lra)) as Hc.
  assert (Hd : Rpower (w / morsefreq 3 60) 3 = w ^ 3 / 20).
  { assert (Hx : Rpower w 3 = Rpower (w / morsefreq 3 60) 3 * Rpower (morsefreq 3 60) 3).
    { rewrite Rpower_mult_distr by (auto; now apply Rdiv_lt_0_compat). f_equal. field. lra. }
    rewrite Hc in Hx. assert (Hy : Rpower w 3 = w ^ 3) by (replace 3 with (INR 3) by (cbn; ring); rewrite Rpower_pow by exact Hw; reflexivity). rewrite Hy in Hx. lra. }
  rewrite Hd. field.
Qed.
Lemma ln_le_half u : 0 < u -> ln u <= u / 2.
Proof.
  intros Hu. destruct (Rle_dec (ln u) (u / 2)) as [|N]; [assumption|]. exfalso.
  pose proof (exp_ineq1_le (u / 2 - 1)). assert (u / 2 < ln u) by lra. apply exp_increasing in H0. rewrite exp_ln in H0 by exact Hu.
  assert (exp (u / 2) = exp 1 * exp (u / 2 - 1)) by (rewrite <- exp_plus; f_equal; ring).
  pose proof (exp_ineq1 1 ltac:(lra)). pose proof (exp_pos (u / 2 - 1)). nra.
Qed.
Lemma gmw60_far w : 10 <= w -> gmw60 w < tiny.
Proof.
  intros Hw. rewrite gmw60_val by lra. assert (H3 : 1000 <= w ^ 3) by (pose proof (pow_incr 10 w 3 ltac:(lra)); lra).
  pose proof (ln_le_half (w ^ 3 / 20) ltac:(lra)).
  assert (Hexp : exp (20 * (ln (w ^ 3 / 20) - w ^ 3 / 20 + 1)) <= exp (- 60)).
  { destruct (Req_dec (20 * (ln (w ^ 3 / 20) - w ^ 3 / 20 + 1)) (-60)) as [->|N]; [lra|]. left. apply exp_increasing. lra. }
  assert (H60 : exp (-60) * 2 ^ 60 <= 1).
  { replace (-60) with (- (60)) by ring. rewrite exp_Ropp. assert (2 ^ 60 <= exp 60).
    { replace 60 with (INR 60) by (rewrite INR_IZR_INZ; reflexivity).
      assert (E : forall n, exp (INR n) = exp 1 ^ n) by (intros n; induction n as [|n IH]; [apply exp_0|rewrite S_INR, exp_plus, IH; cbn [pow]; ring]).
      rewrite E. apply pow_incr. pose proof (exp_ineq1 1 ltac:(lra)). lra. }
    pose proof (exp_pos 60). apply (Rmult_le_reg_l (exp 60)); [assumption|]. rewrite <- Rmult_assoc, Rinv_r by lra. lra. }
  unfold tiny. pose proof (exp_pos (-60)). replace (2 ^ 60) with 1152921504606846976 in H60 by (cbn; ring). lra.
Qed.
Lemma gmw60_near : 1 < gmw60 (27 / 10 + 93 / 100000).
Proof.
  rewrite gmw60_val by lra. set (u := (27 / 10 + 93 / 100000) ^ 3 / 20). assert (Hu : 985 / 1000 < u < 986 / 1000) by (unfold u; split; lra).
  assert (Hl : 1 - / u <= ln u).
  { assert (ln (/ u) <= / u - 1).
    { assert (0 < / u) by (apply Rinv_0_lt_compat; lra). pose proof (exp_ineq1_le (ln (/ u))). rewrite exp_ln in H0 by assumption. lra. }
    rewrite ln_Rinv in H by lra. lra. }
  assert (Hi : / u < 1016 / 1000) by (apply (Rmult_lt_reg_l u); [lra|]; rewrite Rinv_r by lra; lra).
  assert (He : - (1 / 10) <= 20 * (ln u - u + 1)) by lra.
  pose proof (exp_ineq1_le (20 * (ln u - u + 1))). lra.
Qed.
Lemma rgrid20 i : rgrid 20 (npts 1) i = 1 / 10 + INR (S i) * (199 / 100000).
Proof.
  assert (EN : INR (npts 1) = 10000) by (unfold npts; rewrite INR_IZR_INZ, Z2Nat.id by lia; reflexivity).
  unfold rgrid, rstep. rewrite EN. field.
Qed.
Theorem adm_default : gmw_l1 3 60 false = Ok gmw60 /\
  (exists v, adm_ssq gmw60 = Ok v /\ 0 < v) /\ (exists v, adm_cwt gmw60 = Ok v /\ 0 < v).
Proof.
  assert (E0 : gmw_l1 3 60 false = Ok gmw60) by (rewrite gmw_l1_ok by lra; reflexivity).
  split; [exact E0|]. pose proof (gmw_f_pos 3 60 false gmw60 ltac:(lra) ltac:(lra) E0) as Hp.
  assert (HjE : rgrid 20 (npts 1) (Z.to_nat 1306) = 27 / 10 + 93 / 100000).
  { rewrite rgrid20. rewrite INR_IZR_INZ. replace (Z.of_nat (S (Z.to_nat 1306))) with 1307%Z by lia. lra. }
  assert (Hi : forall w, 0 < w -> 0 < / w) by (intros; now apply Rinv_0_lt_compat).
  assert (Hfar : forall i, (Z.to_nat 5000 <= i < npts 1)%nat -> 10 <= rgrid 20 (npts 1) i).
  { intros i Hi'. rewrite rgrid20. assert (5000 <= INR (S i)) by (rewrite INR_IZR_INZ; apply IZR_le; lia). lra. }
  assert (H10 : forall w, 10 <= w -> 0 < / w <= 1 / 10).
  { intros w Hw. split; [apply Hi; lra|]. apply (Rmult_le_reg_l w); [lra|]. rewrite Rinv_r by lra. lra. }
  split.
  - destruct (integrate_decay (fun w => gmw60 w / w) false 1%Z 20 (Z.to_nat 1306) (Z.to_nat 5000)) as (v & E & _).
    + cbn. tauto.
    + intros w Hw. specialize (Hp w Hw). specialize (Hi w Hw). left. now apply Rmult_lt_0_compat.
    + lia.
    + lia.
    + rewrite HjE. pose proof gmw60_near. lra.
    + intros i Hir. specialize (Hfar i Hir). pose proof (gmw60_far _ Hfar). pose proof (H10 _ Hfar). pose proof (Hp (rgrid 20 (npts 1) i) ltac:(lra)).
      unfold Rdiv. nra.
    + exists v. assert (Ev : adm_ssq gmw60 = Ok v) by (unfold adm_ssq; rewrite E; reflexivity). split; [exact Ev|]. now apply (adm_gmw 3 60 false gmw60 v ltac:(lra) ltac:(lra) E0 (or_introl Ev)).
  - destruct (integrate_decay (fun w => gmw60 w * gmw60 w / w) false 1%Z 20 (Z.to_nat 1306) (Z.to_nat 5000)) as (v & E & _).
    + cbn. tauto.
    + intros w Hw. specialize (Hp w Hw). specialize (Hi w Hw). left. apply Rmult_lt_0_compat; [now apply Rmult_lt_0_compat|assumption].
    + lia.
    + lia.
    + rewrite HjE. pose proof gmw60_near. nra.
    + intros i Hir. specialize (Hfar i Hir). pose proof (gmw60_far _ Hfar) as G. pose proof (H10 _ Hfar). pose proof (Hp (rgrid 20 (npts 1) i) ltac:(lra)).
      assert (gmw60 (rgrid 20 (npts 1) i) * gmw60 (rgrid 20 (npts 1) i) <= tiny * 1) by (apply Rmult_le_compat; unfold tiny in *; lra).
      unfold Rdiv. assert (0 < tiny) by (unfold tiny; lra). nra.
    + exists v. assert (Ev : adm_cwt gmw60 = Ok v) by (unfold adm_cwt; rewrite E; reflexivity). split; [exact Ev|]. now apply (adm_gmw 3 60 false gmw60 v ltac:(lra) ltac:(lra) E0 (or_intror Ev)).
Qed.
