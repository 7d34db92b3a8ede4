(** [ssq_cwt] of a tone in noise of bounded energy, continued: the rows of [Tx]. *)
From Coq Require Import Reals Lra Lia List ZifyBool ZifyNat.
Import ListNotations.
From Verif Require SsqRoundTrip AdmissAcc IssqProofs OffsetSsq.
From Verif Require Import Py Round Parallel Cplx CplxProofs Padding PaddingProofs Buffer Freqs Squeeze
  SqueezeProofs SqueezeThms Scales Ssqueeze SsqueezeProofs Cwt CwtProofs CwtThms CwtThms2 CwtTone
  SsqCwt SsqCwtProofs SsqCwtInv Admiss AdmissThms2
  SsqThms ToneThms Separate ExperimentalThms Reassign ChordSqueeze NoiseRidge NoiseSsq CwtNoise.
Local Open Scope R_scope.
Ltac Zify.zify_post_hook ::= Z.div_mod_to_equations.

(** the tone dominates this row: its phase transform stays within a quarter of a row's spacing of the tone's frequency *)
Definition clear (nu d c : R) (k n : nat) : bool :=
  if Rlt_dec nu c then if Rle_dec (nu * (1 + 4 * INR n / (INR k * d))) c then true else false else false.

Lemma phase_le W D B g : 0 < g -> g <= Cabs W -> Cabs D <= B -> phase_cwt_pt W D <= B / (2 * PI * g).
Proof.
  intros Hg HW HD. assert (HW0 : W <> C0) by (intros ->; rewrite Cabs_0 in HW; lra). pose proof (phase_dev W D 0 HW0) as P. pose proof PI_RGT_0.
  replace (Csub D (Cmul (0, 2 * PI * 0) W)) with D in P by (apply C_eq; unfold Csub, Copp, Cadd, Cmul; cbn [fst snd]; ring).
  unfold phase_cwt_pt. rewrite Rminus_0_r in P. set (z := Rabs (phase_ratio W D)) in *. assert (0 <= z) by apply Rabs_pos.
  assert (Q : z * g <= B / (2 * PI)).
  { apply Rle_trans with (z * Cabs W); [apply Rmult_le_compat_l; lra|]. eapply Rle_trans; [exact P|]. unfold Rdiv. apply Rmult_le_compat_r; [left; apply Rinv_0_lt_compat; lra|exact HD]. }
  assert (B / (2 * PI * g) = B / (2 * PI) * / g) as -> by (field; split; lra). replace z with (z * g * / g) by (field; lra). apply Rmult_le_compat_r; [left; apply Rinv_0_lt_compat; lra|exact Q].
Qed.
Lemma log2_le u v : 0 <= u -> 1 + u <= v -> log2 u <= log2 v.
Proof.
  intros Hu Hv. unfold log2. pose proof ln2_pos. unfold Rdiv. apply Rmult_le_compat_r; [left; apply Rinv_0_lt_compat; lra|].
  destruct (Req_dec u 0) as [->|Hne]; [|left; apply ln_increasing; lra].
  replace (ln 0) with 0 by (unfold ln; destruct (Rlt_dec 0 0) as [K|]; [exfalso; exact (Rlt_irrefl _ K)|reflexivity]). rewrite <- ln_1. destruct (Req_dec v 1) as [->|]; [lra|left; apply ln_increasing; lra].
Qed.

Section Noise.
Variables (ord : order) (py : bool) (f : wfun) (fam : nat -> wfun) (q : ssq_args) (y : list R) (A phi : R) (k n : nat) (s : cstate) (out : ssq_out) (s' : cstate) (fs : R) (nv : Z) (d P : R) (rho : nat).
Let sc := r_scales out.
Let nu := P * dist2 y (tone A phi k n).
Let c (i : nat) := size f A (nth i sc 0) k n.
Let g0 := ssq_gamma q.
Let kap := ln 2 / IZR nv.
Let V (i j : nat) := Cmul (RtoC (A / 2 * response f (nth i sc 0) k n)) (analytic phi k n j).
Definition noisy_run : Prop :=
  log_run ord py f fam q y s out s' fs nv d /\ q_pad q = None /\ (s_cache s = None \/ use_cache true (q_vec q) (q_cache q) = false) /\
  real_valued f /\ 0 <= P /\ (forall w, Cabs (wf f w) <= P) /\
  length y = n /\ (0 < k)%nat /\ (2 * k < n)%nat /\ one_sided f (r_scales out) k n /\
  0 < ssq_gamma q /\ d <= 1 /\ in_reach out d (1 + fs * (P * norm2 y) / (2 * ssq_gamma q)) /\
  nearest_row out (tone_freq fs k n) rho.
Hypothesis H : noisy_run.

Lemma noisy_rows : 0 < kap /\ 0 <= nu /\ nrows (r_Tx out) = length sc /\ ncols (r_Tx out) = n /\ exists row : nat -> nat -> nat,
  (forall m j, (m < length sc)%nat -> (j < n)%nat -> el (r_Tx out) m j = Csum (length sc) (fun i =>
     if passes_dec q (Cabs (el (r_Wx out) i j)) then if (row i j =? m)%nat then Cmul (el (r_Wx out) i j) (RtoC kap) else C0 else C0)) /\
  forall i j, (i < length sc)%nat -> (j < n)%nat ->
    Cabs (Csub (el (r_Wx out) i j) (V i j)) <= nu /\
    (passes q (Cabs (el (r_Wx out) i j)) -> clear nu d (c i) k n = true -> (row i j < length sc)%nat /\ (rho <= row i j + 1 <= rho + 2)%nat).
Proof.
  destruct H as (R & Hpad & Hu & Hr & HP & Hf & HL & Hk & H2 & H1 & Hg & Hd1 & Hreach & Hrho). pose proof R as (_ & _ & _ & Hfs & Hkl & kind & kk & v & _ & _ & _ & Hde & _).
  destruct (reassigned _ _ _ _ _ _ _ _ _ _ _ _ R) as (H0 & R1 & C1' & F1 & Hgeo & (f64s & pat & E) & HR). fold sc in R1, F1, Hgeo, E, HR, H1, Hkl. rewrite HL in C1', HR.
  apply process_log_pos in Hkl. assert (Hd0 : 0 < d) by (unfold EPS64 in Hde; lra).
  split; [unfold kap; apply Rdiv_lt_0_compat; [apply ln2_pos|apply IZR_lt; exact Hkl]|].
  assert (Hn0 : 0 <= nu) by (unfold nu; apply Rmult_le_pos; [exact HP|apply sqrt_pos]). split; [exact Hn0|]. split; [exact R1|]. split; [exact C1'|].
  set (a := inner q fs (ScArr sc) f64s true false pat) in *.
  assert (Hrate : process_fs_and_t (a_fs a) (a_t a) n = Ok fs) by (apply rate_self, H0).
  pose proof (cwt_tone_noise py true f a y A phi k n s (r_Wx out) sc (r_dWx out) s' fs P Hr Hu Hpad eq_refl Hk H2 HL H1 E Hrate H0 HP Hf) as T. cbv zeta in T. fold nu in T.
  pose proof (cwt_cells py true f a y s (r_Wx out) sc (r_dWx out) s' fs P Hr Hu Hpad eq_refl E ltac:(rewrite HL; exact Hrate) H0 HP Hf) as B. rewrite HL in B.
  assert (Hge : forall m, passes q m -> g0 <= m) by (intros m; unfold passes, g0; destruct (q_get_w q); lra). pose proof PI_RGT_0 as HPI.
  destruct HR as (row & Hnear & HT).
  { intros i j Hi Hj Hpa. destruct (B i j Hi Hj) as (_ & BD). pose proof (phase_le _ _ _ g0 Hg (Hge _ Hpa) BD) as Ph. unfold in_reach in *. eapply Rle_trans; [|exact Hreach].
    apply Rplus_le_compat_r. apply log2_le; [apply Rabs_pos|]. apply Rplus_le_compat_l. eapply Rle_trans; [exact Ph|]. right. fold g0. field. unfold g0. lra. }
  exists row. split; [exact HT|]. intros i j Hi Hj. destruct (T i j Hi Hj) as (T1 & T2). split; [exact T1|]. intros Hpa Hc.
  unfold clear in Hc. destruct (Rlt_dec nu (c i)) as [Hlt|]; [|discriminate]. destruct (Rle_dec _ (c i)) as [Hle|]; [|discriminate]. specialize (T2 Hlt).
  set (F := tone_freq fs k n) in *. assert (HnR : 0 < INR n) by (apply lt_0_INR; lia). assert (HkR : 0 < INR k) by (apply lt_0_INR; lia).
  assert (F0 : 0 < F) by (unfold F, tone_freq; apply Rdiv_lt_0_compat; [apply Rmult_lt_0_compat; assumption|exact HnR]).
  assert (Hom : Rabs (phase_cwt_pt (el (r_Wx out) i j) (el (r_dWx out) i j) - F) <= F * (d / 4)).
  { eapply Rle_trans; [exact T2|]. fold (c i). apply (Rmult_le_reg_r (c i - nu)); [lra|]. unfold Rdiv at 1. rewrite Rmult_assoc, Rinv_l, Rmult_1_r by lra.
    apply Rle_trans with (F * (d / 4) * (nu * (4 * INR n / (INR k * d)))).
    - right. unfold F, tone_freq. field. lra.
    - apply Rmult_le_compat_l; [apply Rmult_le_pos; lra|]. lra. }
  destruct (log2_close _ _ d F0 (conj Hd0 Hd1) Hom) as (Hp & Hlog). pose proof (Hnear i j Hi Hj Hpa Hp) as N1.
  pose proof (rows_close out d _ _ _ _ Hd0 Hgeo N1 Hrho Hlog). rewrite Rabs_minus_sym in Hlog. pose proof (rows_close out d _ _ _ _ Hd0 Hgeo Hrho N1 Hlog). split; [apply N1|lia].
Qed.

Lemma passing_le i j : Cabs (Csub (el (r_Wx out) i j) (V i j)) <= nu -> Cabs (el (r_Wx out) i j) <= c i + nu.
Proof.
  intros B. apply Cabs_near in B. assert (Cabs (V i j) = c i) by (unfold V, c, size; apply abs_analytic). lra.
Qed.
(** rows more than one away from the tone's: only what the noise dominates *)
Theorem noise_far j : (j < n)%nat ->
  Rsum (length sc) (fun m => if within 1 m rho then 0 else Cabs (el (r_Tx out) m j)) <=
  kap * Rsum (length sc) (fun i => if clear nu d (c i) k n then 0 else c i + nu).
Proof.
  intros Hj. destruct noisy_rows as (Hk & Hn & R1 & C1' & row & HT & Hc).
  set (b := fun m => negb (within 1 m rho)). set (u := fun i => if passes_dec q (Cabs (el (r_Wx out) i j)) then Cabs (el (r_Wx out) i j) * kap else 0).
  apply Rle_trans with (Rsum (length sc) (fun m => Rsum (length sc) (fun i => if b m then if (row i j =? m)%nat then u i else 0 else 0))).
  - apply Rsum_le. intros m Hm. unfold b. destruct (within 1 m rho); cbn [negb]; [right; symmetry; apply Rsum_0; reflexivity|]. rewrite HT by assumption. eapply Rle_trans; [apply Cabs_Csum|].
    right. apply Rsum_ext. intros i Hi. unfold u. destruct (passes_dec q _); destruct (row i j =? m)%nat; try (rewrite Cabs_0; reflexivity). rewrite Cabs_mul, Cabs_RtoC, (Rabs_right kap) by lra. reflexivity.
  - rewrite Rsum_swap, <- Rsum_scal. apply Rsum_le. intros i Hi. destruct (Hc i j Hi Hj) as (Hw & Hrow). pose proof (passing_le i j Hw) as Hle. pose proof (Cabs_nonneg (el (r_Wx out) i j)) as Hw0.
    assert (U : 0 <= u i <= (c i + nu) * kap). { unfold u. destruct (passes_dec q _); split; try lra; try apply Rmult_le_pos; try lra; apply Rmult_le_compat_r; lra. }
    destruct (le_lt_dec (length sc) (row i j)) as [Hout|Hin].
    + rewrite (Rsum_0 (length sc)) by (intros m Hm; destruct (b m); [|reflexivity]; destruct (Nat.eqb_spec (row i j) m); [lia|reflexivity]). destruct (clear _ _ _ _ _); lra.
    + rewrite (sum_pick (length sc) b (row i j) (u i) Hin). destruct (clear nu d (c i) k n) eqn:Ec; [|destruct (b (row i j)); lra].
      unfold u. destruct (passes_dec q _) as [Hpa|]; [|destruct (b _); lra]. specialize (Hrow Hpa eq_refl).
      assert (b (row i j) = false) as -> by (unfold b, within; lia). lra.
Qed.
(** any set of rows with the tone's three: all of the tone but what the threshold and the noise take *)
Theorem noise_near (b : nat -> bool) j : (forall m, within 1 m rho = true -> b m = true) -> (j < n)%nat ->
  Cabs (Csub (Csum (length sc) (fun m => if b m then el (r_Tx out) m j else C0)) (Cmul (RtoC (A / 2 * full_gain f sc nv k n)) (analytic phi k n j))) <=
  kap * Rsum (length sc) (fun i => if clear nu d (c i) k n then ssq_gamma q + nu else c i + nu).
Proof.
  intros Hb Hj. destruct noisy_rows as (Hk & Hn & R1 & C1' & row & HT & Hc).
  set (w := fun i => if passes_dec q (Cabs (el (r_Wx out) i j)) then el (r_Wx out) i j else C0).
  set (near := fun i => if (row i j <? length sc)%nat then b (row i j) else false).
  assert (E1 : Csum (length sc) (fun m => if b m then el (r_Tx out) m j else C0) = Csum (length sc) (fun i => if near i then Cmul (w i) (RtoC kap) else C0)).
  { rewrite (Csum_ext (length sc) _ (fun m => Csum (length sc) (fun i => if b m then if (row i j =? m)%nat then Cmul (w i) (RtoC kap) else C0 else C0))).
    2:{ intros m Hm. destruct (b m); [|symmetry; apply Csum_0; reflexivity]. rewrite HT by assumption. apply Csum_ext. intros i _. unfold w.
        destruct (passes_dec q _); destruct (row i j =? m)%nat; try reflexivity. apply C_eq; cbn; ring. }
    rewrite Csum_swap. apply Csum_ext. intros i Hi. unfold near. destruct (Nat.ltb_spec (row i j) (length sc)) as [Hin|Hout].
    - rewrite (Csum_single (length sc) _ (row i j) Hin); [rewrite Nat.eqb_refl; reflexivity|]. intros m _ Hm. destruct (Nat.eqb_spec (row i j) m); [congruence|]. destruct (b m); reflexivity.
    - apply Csum_0. intros m Hm. destruct (Nat.eqb_spec (row i j) m); [lia|]. destruct (b m); reflexivity. }
  assert (E2 : Cmul (RtoC (A / 2 * full_gain f sc nv k n)) (analytic phi k n j) = Csum (length sc) (fun i => Cmul (V i j) (RtoC kap))).
  { unfold full_gain. fold kap. rewrite (Csum_ext (length sc) _ (fun i => Cmul (RtoC (A / 2 * (response f (nth i sc 0) k n * kap))) (analytic phi k n j))).
    2:{ intros i _. unfold V. apply C_eq; unfold Cmul, RtoC; cbn [fst snd]; ring. }
    rewrite (Csum_RtoC_scal (length sc) (fun i => response f (nth i sc 0) k n * kap) (A / 2) (analytic phi k n j)). reflexivity. }
  rewrite E1, E2. rewrite <- OffsetSsq.Csum_minus. eapply Rle_trans; [apply Cabs_Csum|]. rewrite <- Rsum_scal. apply Rsum_le. intros i Hi. destruct (Hc i j Hi Hj) as (Hw & Hrow).
  assert (HV : Cabs (V i j) = c i) by (unfold V, c, size; apply abs_analytic). assert (HV0 : 0 <= c i) by (rewrite <- HV; apply Cabs_nonneg). pose proof (Cabs_near _ _ _ Hw) as (N1 & N2).
  assert (Hgam : 0 < ssq_gamma q) by apply H.
  set (z := if near i then w i else C0). replace (Csub (if near i then Cmul (w i) (RtoC kap) else C0) (Cmul (V i j) (RtoC kap))) with (Cmul (Csub z (V i j)) (RtoC kap)).
  2:{ unfold z. destruct (near i); apply C_eq; unfold Csub, Copp, Cadd, Cmul, RtoC, C0; cbn [fst snd]; ring. }
  rewrite Cabs_mul, Cabs_RtoC, (Rabs_right kap), (Rmult_comm kap) by lra. apply Rmult_le_compat_r; [lra|].
  assert (Z0 : Cabs (Csub C0 (V i j)) = c i). { rewrite <- HV. replace (Csub C0 (V i j)) with (Cmul (RtoC (-1)) (V i j)) by (apply C_eq; unfold Csub, Copp, Cadd, Cmul, RtoC, C0; cbn [fst snd]; ring). rewrite Cabs_mul, Cabs_RtoC, Rabs_left by lra. lra. }
  destruct (clear nu d (c i) k n) eqn:Ec.
  - unfold z, w. destruct (passes_dec q _) as [Hpa|Hnp].
    + assert (near i = true) as ->; [|lra]. specialize (Hrow Hpa eq_refl). unfold near. destruct (Nat.ltb_spec (row i j) (length sc)); [|lia]. apply Hb. unfold within. lia.
    + assert (Cabs (el (r_Wx out) i j) <= ssq_gamma q) by (unfold passes in Hnp; destruct (q_get_w q); lra). destruct (near i); rewrite Z0; lra.
  - unfold z, w. destruct (near i); [destruct (passes_dec q _)|]; rewrite ?Z0; lra.
Qed.
End Noise.
(** both, for any run *)
Theorem noisy_tone ord py f fam q y A phi k n s out s' fs nv d P rho : noisy_run ord py f fam q y k n s out s' fs nv d P rho ->
  let sc := r_scales out in let nu := P * dist2 y (tone A phi k n) in let c := fun i => size f A (nth i sc 0) k n in
  nrows (r_Tx out) = length sc /\ ncols (r_Tx out) = n /\
  forall j, (j < n)%nat ->
    Rsum (length sc) (fun m => if within 1 m rho then 0 else Cabs (el (r_Tx out) m j)) <=
      ln 2 / IZR nv * Rsum (length sc) (fun i => if clear nu d (c i) k n then 0 else c i + nu) /\
    forall b : nat -> bool, (forall m, within 1 m rho = true -> b m = true) ->
    Cabs (Csub (Csum (length sc) (fun m => if b m then el (r_Tx out) m j else C0)) (Cmul (RtoC (A / 2 * full_gain f sc nv k n)) (analytic phi k n j))) <=
      ln 2 / IZR nv * Rsum (length sc) (fun i => if clear nu d (c i) k n then ssq_gamma q + nu else c i + nu).
Proof.
  intros H sc nu c. destruct (noisy_rows ord py f fam q y A phi k n s out s' fs nv d P rho H) as (_ & _ & R1 & C1' & _). split; [exact R1|]. split; [exact C1'|].
  intros j Hj. split; [apply (noise_far ord py f fam q y A phi k n s out s' fs nv d P rho H j Hj)|intros b Hb; apply (noise_near ord py f fam q y A phi k n s out s' fs nv d P rho H b j Hb Hj)].
Qed.
