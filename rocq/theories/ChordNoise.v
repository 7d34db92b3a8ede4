(** [ssq_cwt] of a chord in noise, with any wavelet: rows one tone dominates meet at that tone's frequency. *)
From Coq Require Import Reals Lra Lia List ZifyBool ZifyNat.
Import ListNotations.
From Verif Require SsqRoundTrip AdmissAcc IssqProofs OffsetSsq.
From Verif Require Import Py Round Parallel Cplx CplxProofs Padding PaddingProofs Buffer Freqs Squeeze
  SqueezeProofs SqueezeThms Scales Ssqueeze SsqueezeProofs Cwt CwtProofs CwtThms CwtThms2 CwtTone
  SsqCwt SsqCwtProofs SsqCwtInv Admiss AdmissThms2
  SsqThms ToneThms Separate ExperimentalThms OctaveSep ChordSep Reassign ChordSqueeze NoiseRidge NoiseSsq CwtNoise CwtNoiseSsq.
Local Open Scope R_scope.
Ltac Zify.zify_post_hook ::= Z.div_mod_to_equations.

(** sizes of the tones in a row, what disturbs tone [r] there, and whether [r] dominates the row *)
Definition sizes (f : wfun) (A : nat -> R) (k : nat -> nat) (n : nat) (s : R) (r : nat) : R := size f (A r) s (k r) n.
Definition rest (M : nat) (nu : R) (c : nat -> R) (r : nat) : R := nu + others M r c.
Definition owns (M : nat) (nu d : R) (k : nat -> nat) (n : nat) (c : nat -> R) (r : nat) : bool := clear (rest M nu c r) d (c r) (k r) n.
Definition owned (M : nat) (nu d : R) (k : nat -> nat) (n : nat) (c : nat -> R) : bool := existsb (owns M nu d k n c) (seq 0 M).

Definition chord_noise_run (ord : order) (py : bool) (f : wfun) (fam : nat -> wfun) (q : ssq_args) (y : list R) (M : nat) (k : nat -> nat) (n : nat) (s : cstate) (out : ssq_out)
  (s' : cstate) (fs : R) (nv : Z) (d P : R) (rho : nat -> nat) : Prop :=
  log_run ord py f fam q y s out s' fs nv d /\ q_pad q = None /\ (s_cache s = None \/ use_cache true (q_vec q) (q_cache q) = false) /\
  real_valued f /\ 0 <= P /\ (forall w, Cabs (wf f w) <= P) /\
  length y = n /\ (0 < n)%nat /\ (forall r, (r < M)%nat -> (0 < k r)%nat /\ (2 * k r < n)%nat) /\ (forall r, (r < M)%nat -> one_sided f (r_scales out) (k r) n) /\
  0 < ssq_gamma q /\ d <= 1 /\ in_reach out d (1 + fs * (P * norm2 y) / (2 * ssq_gamma q)) /\
  forall r, (r < M)%nat -> nearest_row out (tone_freq fs (k r) n) (rho r).

Lemma tone_freq_half fs k n : 0 < fs -> (0 < k)%nat -> (2 * k < n)%nat -> 0 < tone_freq fs k n <= fs / 2.
Proof.
  intros H0 Hk H2. assert (HnR : 0 < INR n) by (apply lt_0_INR; lia). assert (0 < INR k) by (apply lt_0_INR; lia). unfold tone_freq. split.
  - apply Rdiv_lt_0_compat; [apply Rmult_lt_0_compat; assumption|exact HnR].
  - apply (Rmult_le_reg_r (INR n)); [exact HnR|]. unfold Rdiv at 1. rewrite Rmult_assoc, Rinv_l by lra. apply lt_INR in H2. rewrite mult_INR in H2. replace (INR 2) with 2 in H2 by reflexivity. nra.
Qed.
Lemma abs_others M r (c : nat -> C) : (r < M)%nat -> Cabs (Csub (Csum M c) (c r)) <= others M r (fun p => Cabs (c p)).
Proof.
  intros Hr. rewrite (Csum_others M r c Hr). set (o := Csum M _). replace (Csub (Cadd (c r) o) (c r)) with o by (apply C_eq; unfold Csub, Copp, Cadd; cbn [fst snd]; ring).
  unfold o, others. eapply Rle_trans; [apply Cabs_Csum|]. right. apply Rsum_ext. intros p _. destruct (p =? r)%nat; [apply Cabs_0|reflexivity].
Qed.

Section Noise.
Variables (ord : order) (py : bool) (f : wfun) (fam : nat -> wfun) (q : ssq_args) (y : list R) (M : nat) (A phi : nat -> R) (k : nat -> nat) (n : nat) (s : cstate) (out : ssq_out) (s' : cstate)
  (fs : R) (nv : Z) (d P : R) (rho : nat -> nat).
Let sc := r_scales out.
Let nu := P * dist2 y (chord M A phi k n).
Let c (i : nat) := sizes f A k n (nth i sc 0).
Let kap := ln 2 / IZR nv.
Let V (i j r : nat) := part f A phi k n (nth i sc 0) j r.
Hypothesis H : chord_noise_run ord py f fam q y M k n s out s' fs nv d P rho.

Let V_abs i j r : Cabs (V i j r) = c i r.
Proof. unfold V, part, c, sizes, size. apply abs_analytic. Qed.
Let c_nonneg i r : 0 <= c i r.
Proof. apply Rabs_pos. Qed.

Lemma chord_noise_rows : 0 < kap /\ 0 <= nu /\ nrows (r_Tx out) = length sc /\ ncols (r_Tx out) = n /\ exists row : nat -> nat -> nat,
  (forall m j, (m < length sc)%nat -> (j < n)%nat -> el (r_Tx out) m j = Csum (length sc) (fun i =>
     if passes_dec q (Cabs (el (r_Wx out) i j)) then if (row i j =? m)%nat then Cmul (el (r_Wx out) i j) (RtoC kap) else C0 else C0)) /\
  forall i j, (i < length sc)%nat -> (j < n)%nat ->
    Cabs (el (r_Wx out) i j) <= Rsum M (c i) + nu /\
    forall r, (r < M)%nat -> Cabs (Csub (el (r_Wx out) i j) (V i j r)) <= rest M nu (c i) r /\
    (passes q (Cabs (el (r_Wx out) i j)) -> owns M nu d k n (c i) r = true -> (row i j < length sc)%nat /\ within 1 (row i j) (rho r) = true).
Proof.
  destruct H as (R & Hpad & Hu & Hr & HP & Hf & HL & Hn & Hk & H1 & Hg & Hd1 & Hreach & Hrho). pose proof R as (_ & _ & _ & Hfs & Hkl & kind & kk & v & _ & _ & _ & Hde & _).
  destruct (reassigned _ _ _ _ _ _ _ _ _ _ _ _ R) as (H0 & R1 & C1' & F1 & Hgeo & (f64s & pat & E) & HR). fold sc in R1, F1, Hgeo, E, HR, H1, Hkl. rewrite HL in C1', HR.
  apply process_log_pos in Hkl. assert (Hd0 : 0 < d) by (unfold EPS64 in Hde; lra).
  split; [unfold kap; apply Rdiv_lt_0_compat; [apply ln2_pos|apply IZR_lt; exact Hkl]|].
  assert (Hn0 : 0 <= nu) by (unfold nu; apply Rmult_le_pos; [exact HP|apply sqrt_pos]). split; [exact Hn0|]. split; [exact R1|]. split; [exact C1'|].
  set (a := inner q fs (ScArr sc) f64s true false pat) in *.
  assert (Hrate : process_fs_and_t (a_fs a) (a_t a) n = Ok fs) by (apply rate_self, H0).
  destruct (cwt_near py true f a y (chord M A phi k n) s (r_Wx out) sc (r_dWx out) s' fs P Hr Hu Hpad eq_refl ltac:(rewrite chord_length; lia) E ltac:(rewrite HL; exact Hrate) H0 HP Hf) as (Vx & Gx & EV & T).
  rewrite HL in T. fold nu in T.
  pose proof (cwt_cells py true f a y s (r_Wx out) sc (r_dWx out) s' fs P Hr Hu Hpad eq_refl E ltac:(rewrite HL; exact Hrate) H0 HP Hf) as B. rewrite HL in B.
  assert (Hge : forall m, passes q m -> ssq_gamma q <= m) by (intros m; unfold passes; destruct (q_get_w q); lra). pose proof PI_RGT_0 as HPI.
  destruct HR as (row & Hnear & HT).
  { intros i j Hi Hj Hpa. destruct (B i j Hi Hj) as (_ & BD). pose proof (phase_le _ _ _ _ Hg (Hge _ Hpa) BD) as Ph. unfold in_reach in *. eapply Rle_trans; [|exact Hreach].
    apply Rplus_le_compat_r. apply log2_le; [apply Rabs_pos|]. apply Rplus_le_compat_l. eapply Rle_trans; [exact Ph|]. right. field. lra. }
  exists row. split; [exact HT|]. intros i j Hi Hj. destruct (T i j Hi Hj) as (T1 & T2).
  destruct (chord_cells M A phi k n Hk py true f a s Vx sc Gx s' fs i j Hu Hpad eq_refl Hr ltac:(intros r Hr'; apply H1; assumption) Hn EV Hrate) as (EW & ED).
  change (el Vx i j = Csum M (V i j)) in EW. rewrite EW in T1. rewrite ED in T2.
  assert (Hsum : Cabs (Csum M (V i j)) <= Rsum M (c i)) by (eapply Rle_trans; [apply Cabs_Csum|right; apply Rsum_ext; intros; apply V_abs]).
  split; [pose proof (Cabs_near _ _ _ T1); lra|]. intros r Hr'.
  assert (Ho : others M r (fun p => Cabs (V i j p)) = others M r (c i)) by (unfold others; apply Rsum_ext; intros p _; rewrite V_abs; reflexivity).
  pose proof (abs_others M r (V i j) Hr') as O1. rewrite Ho in O1.
  assert (T3 : Cabs (Csub (el (r_Wx out) i j) (V i j r)) <= rest M nu (c i) r).
  { unfold rest. replace (Csub (el (r_Wx out) i j) (V i j r)) with (Cadd (Csub (el (r_Wx out) i j) (Csum M (V i j))) (Csub (Csum M (V i j)) (V i j r)))
      by (apply C_eq; unfold Csub, Copp, Cadd; cbn [fst snd]; ring). eapply Rle_trans; [apply Cabs_triangle|]. lra. }
  split; [exact T3|]. intros Hpa Hc. set (F := fun p => tone_freq fs (k p) n).
  assert (T4 : Cabs (Csub (el (r_dWx out) i j) (Cmul (0, 2 * PI * F r) (V i j r))) <= PI * fs * rest M nu (c i) r).
  { set (dV := fun p => Cmul (0, 2 * PI * F p) (V i j p)). change (Csum M (fun r0 => Cmul (0, 2 * PI * (INR (k r0) * fs / INR n)) (part f A phi k n (nth i sc 0) j r0))) with (Csum M dV) in T2.
    pose proof (abs_others M r dV Hr') as O2. change (Cmul (0, 2 * PI * F r) (V i j r)) with (dV r).
    replace (Csub (el (r_dWx out) i j) (dV r)) with (Cadd (Csub (el (r_dWx out) i j) (Csum M dV)) (Csub (Csum M dV) (dV r))) by (apply C_eq; unfold Csub, Copp, Cadd; cbn [fst snd]; ring).
    assert (O3 : others M r (fun p => Cabs (dV p)) <= PI * fs * others M r (c i)).
    { rewrite <- others_scal. apply others_weak. intros p Hp _. unfold dV. rewrite Cabs_mul, V_abs, Cabs_im. destruct (Hk p Hp) as (K1 & K2). pose proof (tone_freq_half fs (k p) n H0 K1 K2) as B2.
      fold (F p) in B2. rewrite Rabs_right by nra. apply Rmult_le_compat_r; [apply c_nonneg|]. nra. }
    eapply Rle_trans; [apply Cabs_triangle|]. unfold rest. rewrite Rmult_plus_distr_l. lra. }
  unfold owns, clear in Hc. destruct (Rlt_dec _ (c i r)) as [Hlt|]; [|discriminate]. destruct (Rle_dec _ (c i r)) as [Hle|]; [|discriminate].
  set (e := rest M nu (c i) r) in *. destruct (Hk r Hr') as (K1 & K2). pose proof (tone_freq_half fs (k r) n H0 K1 K2) as (F0 & F2). fold (F r) in F0, F2.
  assert (He : 0 <= e). { pose proof (Cabs_nonneg (Csub (el (r_Wx out) i j) (V i j r))). lra. }
  destruct (phase_noise (V i j r) (el (r_Wx out) i j) (el (r_dWx out) i j) (F r) e (PI * fs * e) T3 T4 ltac:(rewrite V_abs; exact Hlt)) as (_ & Ph). rewrite V_abs, (Rabs_right (F r)) in Ph by lra.
  assert (HnR : 0 < INR n) by (apply lt_0_INR; lia). assert (HkR : 0 < INR (k r)) by (apply lt_0_INR; lia).
  assert (Hom : Rabs (phase_cwt_pt (el (r_Wx out) i j) (el (r_dWx out) i j) - F r) <= F r * (d / 4)).
  { apply Rle_trans with (Rabs (phase_ratio (el (r_Wx out) i j) (el (r_dWx out) i j) - F r)).
    { unfold phase_cwt_pt. rewrite <- (Rabs_right (F r)) at 1 by lra. apply Rabs_triang_inv2. }
    eapply Rle_trans; [exact Ph|]. apply (Rmult_le_reg_r (2 * PI * (c i r - e))); [apply Rmult_lt_0_compat; lra|]. unfold Rdiv at 1. rewrite Rmult_assoc, Rinv_l, Rmult_1_r by (apply Rgt_not_eq; apply Rmult_lt_0_compat; lra).
    apply Rle_trans with (2 * PI * fs * e).
    - assert (2 * PI * F r * e <= 2 * PI * (fs / 2) * e) by (apply Rmult_le_compat_r; [exact He|apply Rmult_le_compat_l; lra]). lra.
    - apply Rle_trans with (F r * (d / 4) * (2 * PI * (e * (4 * INR n / (INR (k r) * d))))).
      + right. unfold F, tone_freq. field. lra.
      + apply Rmult_le_compat_l; [apply Rmult_le_pos; lra|]. apply Rmult_le_compat_l; lra. }
  destruct (log2_close _ _ d F0 (conj Hd0 Hd1) Hom) as (Hp & Hlog). pose proof (Hnear i j Hi Hj Hpa Hp) as N1. pose proof (Hrho r Hr') as N2. fold (F r) in N2.
  pose proof (rows_close out d _ _ _ _ Hd0 Hgeo N1 N2 Hlog). rewrite Rabs_minus_sym in Hlog. pose proof (rows_close out d _ _ _ _ Hd0 Hgeo N2 N1 Hlog).
  split; [apply N1|]. unfold within. lia.
Qed.

(** rows away from all tones: only what no tone dominates *)
Theorem chord_noise_far j : (j < n)%nat ->
  Rsum (length sc) (fun m => if existsb (fun r => within 1 m (rho r)) (seq 0 M) then 0 else Cabs (el (r_Tx out) m j)) <=
  kap * Rsum (length sc) (fun i => if owned M nu d k n (c i) then 0 else Rsum M (c i) + nu).
Proof.
  intros Hj. destruct chord_noise_rows as (Hk & Hn & R1 & C1' & row & HT & Hc).
  set (b := fun m => negb (existsb (fun r => within 1 m (rho r)) (seq 0 M))). set (u := fun i => if passes_dec q (Cabs (el (r_Wx out) i j)) then Cabs (el (r_Wx out) i j) * kap else 0).
  apply Rle_trans with (Rsum (length sc) (fun m => Rsum (length sc) (fun i => if b m then if (row i j =? m)%nat then u i else 0 else 0))).
  - apply Rsum_le. intros m Hm. unfold b. destruct (existsb _ _); cbn [negb]; [right; symmetry; apply Rsum_0; reflexivity|]. rewrite HT by assumption. eapply Rle_trans; [apply Cabs_Csum|].
    right. apply Rsum_ext. intros i Hi. unfold u. destruct (passes_dec q _); destruct (row i j =? m)%nat; try (rewrite Cabs_0; reflexivity). rewrite Cabs_mul, Cabs_RtoC, (Rabs_right kap) by lra. reflexivity.
  - rewrite Rsum_swap, <- Rsum_scal. apply Rsum_le. intros i Hi. destruct (Hc i j Hi Hj) as (Hle & Hrow). pose proof (Cabs_nonneg (el (r_Wx out) i j)) as Hw0.
    assert (U : 0 <= u i <= (Rsum M (c i) + nu) * kap). { unfold u. destruct (passes_dec q _); split; try lra; try apply Rmult_le_pos; try lra; apply Rmult_le_compat_r; lra. }
    destruct (le_lt_dec (length sc) (row i j)) as [Hout|Hin].
    + rewrite (Rsum_0 (length sc)) by (intros m Hm; destruct (b m); [|reflexivity]; destruct (Nat.eqb_spec (row i j) m); [lia|reflexivity]). destruct (owned _ _ _ _ _ _); lra.
    + rewrite (sum_pick (length sc) b (row i j) (u i) Hin). destruct (owned M nu d k n (c i)) eqn:Ec; [|destruct (b (row i j)); lra].
      unfold u. destruct (passes_dec q _) as [Hpa|]; [|destruct (b _); lra]. apply existsb_exists in Ec. destruct Ec as (r & Ir & Er). apply in_seq in Ir.
      destruct (Hrow r ltac:(lia)) as (_ & Hr2). destruct (Hr2 Hpa Er) as (_ & Hw).
      assert (b (row i j) = false) as ->; [|lra]. unfold b. apply Bool.negb_false_iff. apply existsb_exists. exists r. split; [apply in_seq; lia|exact Hw].
Qed.
(** a set of rows with tone [r]'s three and no other tone's: tone [r], but for the threshold, the noise and rows [r] does not dominate *)
Theorem chord_noise_near r (b : nat -> bool) j : (r < M)%nat -> (forall m, within 1 m (rho r) = true -> b m = true) ->
  (forall p m, (p < M)%nat -> p <> r -> within 1 m (rho p) = true -> b m = false) -> (j < n)%nat ->
  Cabs (Csub (Csum (length sc) (fun m => if b m then el (r_Tx out) m j else C0)) (Cmul (RtoC (A r / 2 * full_gain f sc nv (k r) n)) (analytic (phi r) (k r) n j))) <=
  kap * Rsum (length sc) (fun i => if owns M nu d k n (c i) r then ssq_gamma q + rest M nu (c i) r else if owned M nu d k n (c i) then c i r else c i r + rest M nu (c i) r).
Proof.
  intros Hr Hb Hb' Hj. destruct chord_noise_rows as (Hk & Hn & R1 & C1' & row & HT & Hc).
  set (w := fun i => if passes_dec q (Cabs (el (r_Wx out) i j)) then el (r_Wx out) i j else C0).
  set (near := fun i => if (row i j <? length sc)%nat then b (row i j) else false).
  assert (E1 : Csum (length sc) (fun m => if b m then el (r_Tx out) m j else C0) = Csum (length sc) (fun i => if near i then Cmul (w i) (RtoC kap) else C0)).
  { rewrite (Csum_ext (length sc) _ (fun m => Csum (length sc) (fun i => if b m then if (row i j =? m)%nat then Cmul (w i) (RtoC kap) else C0 else C0))).
    2:{ intros m Hm. destruct (b m); [|symmetry; apply Csum_0; reflexivity]. rewrite HT by assumption. apply Csum_ext. intros i _. unfold w.
        destruct (passes_dec q _); destruct (row i j =? m)%nat; try reflexivity. apply C_eq; cbn; ring. }
    rewrite Csum_swap. apply Csum_ext. intros i Hi. unfold near. destruct (Nat.ltb_spec (row i j) (length sc)) as [Hin|Hout].
    - rewrite (Csum_single (length sc) _ (row i j) Hin); [rewrite Nat.eqb_refl; reflexivity|]. intros m _ Hm. destruct (Nat.eqb_spec (row i j) m); [congruence|]. destruct (b m); reflexivity.
    - apply Csum_0. intros m Hm. destruct (Nat.eqb_spec (row i j) m); [lia|]. destruct (b m); reflexivity. }
  assert (E2 : Cmul (RtoC (A r / 2 * full_gain f sc nv (k r) n)) (analytic (phi r) (k r) n j) = Csum (length sc) (fun i => Cmul (V i j r) (RtoC kap))).
  { unfold full_gain. fold kap. rewrite (Csum_ext (length sc) _ (fun i => Cmul (RtoC (A r / 2 * (response f (nth i sc 0) (k r) n * kap))) (analytic (phi r) (k r) n j))).
    2:{ intros i _. unfold V, part. apply C_eq; unfold Cmul, RtoC; cbn [fst snd]; ring. }
    rewrite (Csum_RtoC_scal (length sc) (fun i => response f (nth i sc 0) (k r) n * kap) (A r / 2) (analytic (phi r) (k r) n j)). reflexivity. }
  rewrite E1, E2. rewrite <- OffsetSsq.Csum_minus. eapply Rle_trans; [apply Cabs_Csum|]. rewrite <- Rsum_scal. apply Rsum_le. intros i Hi. destruct (Hc i j Hi Hj) as (_ & Hrow). destruct (Hrow r Hr) as (Hw & Hr2).
  pose proof (V_abs i j r) as HV. pose proof (c_nonneg i r) as HV0. pose proof (Cabs_near _ _ _ Hw) as (N1 & N2). assert (Hgam : 0 < ssq_gamma q) by apply H.
  set (e := rest M nu (c i) r) in *. assert (He : 0 <= e) by (pose proof (Cabs_nonneg (Csub (el (r_Wx out) i j) (V i j r))); lra).
  set (z := if near i then w i else C0). replace (Csub (if near i then Cmul (w i) (RtoC kap) else C0) (Cmul (V i j r) (RtoC kap))) with (Cmul (Csub z (V i j r)) (RtoC kap)).
  2:{ unfold z. destruct (near i); apply C_eq; unfold Csub, Copp, Cadd, Cmul, RtoC, C0; cbn [fst snd]; ring. }
  rewrite Cabs_mul, Cabs_RtoC, (Rabs_right kap), (Rmult_comm kap) by lra. apply Rmult_le_compat_r; [lra|].
  assert (Z0 : Cabs (Csub C0 (V i j r)) = c i r). { rewrite <- HV. replace (Csub C0 (V i j r)) with (Cmul (RtoC (-1)) (V i j r)) by (apply C_eq; unfold Csub, Copp, Cadd, Cmul, RtoC, C0; cbn [fst snd]; ring). rewrite Cabs_mul, Cabs_RtoC, Rabs_left by lra. lra. }
  destruct (owns M nu d k n (c i) r) eqn:Ec.
  - unfold z, w. destruct (passes_dec q _) as [Hpa|Hnp].
    + assert (near i = true) as ->; [|lra]. destruct (Hr2 Hpa eq_refl) as (L & Hin). unfold near. destruct (Nat.ltb_spec (row i j) (length sc)); [|lia]. apply Hb. exact Hin.
    + assert (Cabs (el (r_Wx out) i j) <= ssq_gamma q) by (unfold passes in Hnp; destruct (q_get_w q); lra). destruct (near i); rewrite Z0; lra.
  - destruct (owned M nu d k n (c i)) eqn:Eo.
    + apply existsb_exists in Eo. destruct Eo as (p & Ip & Ep). apply in_seq in Ip. assert (Hne : p <> r) by congruence.
      unfold z, w. destruct (passes_dec q _) as [Hpa|Hnp]; [|destruct (near i); rewrite Z0; lra].
      destruct (Hrow p ltac:(lia)) as (_ & Hp2). destruct (Hp2 Hpa Ep) as (L & Hin).
      assert (near i = false) as ->; [|rewrite Z0; lra]. unfold near. destruct (Nat.ltb_spec (row i j) (length sc)); [|lia]. apply (Hb' p); [lia|exact Hne|exact Hin].
    + unfold z, w. destruct (near i); [destruct (passes_dec q _)|]; rewrite ?Z0; lra.
Qed.
End Noise.

(** both, for any run *)
Definition chord_err (f : wfun) (sc : list R) (nv : Z) (M : nat) (nu d g : R) (A : nat -> R) (k : nat -> nat) (n r : nat) : R :=
  ln 2 / IZR nv * Rsum (length sc) (fun i => let c := sizes f A k n (nth i sc 0) in
    if owns M nu d k n c r then g + rest M nu c r else if owned M nu d k n c then c r else c r + rest M nu c r).
Definition chord_stray (f : wfun) (sc : list R) (nv : Z) (M : nat) (nu d : R) (A : nat -> R) (k : nat -> nat) (n : nat) : R :=
  ln 2 / IZR nv * Rsum (length sc) (fun i => let c := sizes f A k n (nth i sc 0) in if owned M nu d k n c then 0 else Rsum M c + nu).
Theorem noisy_chord ord py f fam q y M A phi k n s out s' fs nv d P rho : chord_noise_run ord py f fam q y M k n s out s' fs nv d P rho ->
  let sc := r_scales out in let nu := P * dist2 y (chord M A phi k n) in
  nrows (r_Tx out) = length sc /\ ncols (r_Tx out) = n /\
  forall j, (j < n)%nat ->
    Rsum (length sc) (fun m => if existsb (fun r => within 1 m (rho r)) (seq 0 M) then 0 else Cabs (el (r_Tx out) m j)) <= chord_stray f sc nv M nu d A k n /\
    forall r (b : nat -> bool), (r < M)%nat -> (forall m, within 1 m (rho r) = true -> b m = true) ->
    (forall p m, (p < M)%nat -> p <> r -> within 1 m (rho p) = true -> b m = false) ->
    Cabs (Csub (Csum (length sc) (fun m => if b m then el (r_Tx out) m j else C0)) (Cmul (RtoC (A r / 2 * full_gain f sc nv (k r) n)) (analytic (phi r) (k r) n j))) <=
      chord_err f sc nv M nu d (ssq_gamma q) A k n r.
Proof.
  intros H sc nu. destruct (chord_noise_rows ord py f fam q y M A phi k n s out s' fs nv d P rho H) as (_ & _ & R1 & C1' & _). split; [exact R1|]. split; [exact C1'|].
  intros j Hj. split; [apply (chord_noise_far ord py f fam q y M A phi k n s out s' fs nv d P rho H j Hj)|].
  intros r b Hr Hb Hb'. apply (chord_noise_near ord py f fam q y M A phi k n s out s' fs nv d P rho H r b j Hr Hb Hb' Hj).
Qed.
