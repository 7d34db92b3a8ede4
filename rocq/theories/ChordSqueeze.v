(** Sums of tones three octaves or more apart through [ssq_cwt]: each goes to its own rows. *)
From Coq Require Import Reals Lra Lia List.
Import ListNotations.
From Coq Require Import ZifyBool ZifyNat.
From Verif Require SsqRoundTrip AdmissAcc IssqProofs.
From Verif Require Import Py Round Parallel Cplx CplxProofs Padding PaddingProofs Buffer Freqs Squeeze
  SqueezeProofs SqueezeThms Scales Ssqueeze SsqueezeProofs Cwt CwtProofs CwtThms CwtThms2 CwtTone
  SsqCwt SsqCwtProofs SsqCwtInv
  Wavelets WaveletProofs Integral IntegralProofs Admiss AdmissThms AdmissThms2 AdmissThms3 RoundTripGain GmwRoundTrip DefaultRoundTrip
  SsqThms ToneThms Separate OctaveSep ChordSep Reassign.
Local Open Scope R_scope.

(** ** The transform of a chord *)
Definition part (f : wfun) (A phi : nat -> R) (k : nat -> nat) (n : nat) (s : R) (j r : nat) : C :=
  Cmul (RtoC (A r / 2 * response f s (k r) n)) (analytic (phi r) (k r) n j).
Lemma drow_tone f s fs A phi k n j : (0 < k)%nat -> (2 * k < n)%nat -> wf f (s * - (2 * PI * INR k / INR n)) = C0 ->
  drow_val f s fs (tone A phi k n) j = Cmul (0, 2 * PI * INR k / INR n * fs) (row_val f s (tone A phi k n) j).
Proof.
  intros Hk H2 Han. unfold drow_val, row_val. rewrite tone_length.
  assert (I := idft_single n (fun q => Cmul (psih_val f s n false q) (sig_dft (tone A phi k n) q)) (fun q => nth q (xifn 1 n) 0 * fs) k j).
  cbv beta in I. rewrite xi_low in I by lia. apply I. intros q Hq Hne. destruct (Nat.eq_dec q (n - k)) as [->|Hn].
  - unfold psih_val. rewrite xi_high by lia. rewrite Han. destruct (negb false && _ && _); apply C_eq; simpl; ring.
  - rewrite tone_dft by (auto; lia). apply C_eq; simpl; ring.
Qed.
Lemma row_chord f s M A phi k n j : (0 < n)%nat -> row_val f s (chord M A phi k n) j = Csum M (fun r => row_val f s (tone (A r) (phi r) (k r) n) j).
Proof.
  intros Hn. unfold row_val. rewrite chord_length. unfold idft.
  rewrite (Csum_ext M _ (fun r => Csum n (fun q => Cmul (RtoC (/ INR n)) (Cmul (Cmul (psih_val f s n false q) (sig_dft (tone (A r) (phi r) (k r) n) q)) (tw n (Z.of_nat q * Z.of_nat j)))))).
  - rewrite Csum_swap, <- Csum_scal. apply Csum_ext. intros q _. rewrite chord_dft, <- !Csum_scal, <- Csum_scal_r, <- Csum_scal. reflexivity.
  - intros r _. rewrite tone_length, Csum_scal. reflexivity.
Qed.
Lemma drow_chord f s fs M A phi k n j : (0 < n)%nat -> drow_val f s fs (chord M A phi k n) j = Csum M (fun r => drow_val f s fs (tone (A r) (phi r) (k r) n) j).
Proof.
  intros Hn. unfold drow_val. rewrite chord_length. unfold idft.
  rewrite (Csum_ext M _ (fun r => Csum n (fun q => Cmul (RtoC (/ INR n)) (Cmul (Cmul (Cmul (psih_val f s n false q) (sig_dft (tone (A r) (phi r) (k r) n) q)) (0, nth q (xifn 1 n) 0 * fs)) (tw n (Z.of_nat q * Z.of_nat j)))))).
  - rewrite Csum_swap, <- Csum_scal. apply Csum_ext. intros q _. rewrite chord_dft, <- !Csum_scal, <- !Csum_scal_r, <- Csum_scal. reflexivity.
  - intros r _. rewrite tone_length, Csum_scal. reflexivity.
Qed.

Section Run.
Variables (M : nat) (A phi : nat -> R) (k : nat -> nat) (n : nat).
Hypothesis Hk : forall r, (r < M)%nat -> (0 < k r)%nat /\ (2 * k r < n)%nat.
Let x := chord M A phi k n.
Let hz (fs : R) r := INR (k r) * fs / INR n.

Lemma chord_cells py inst f a st W sc dW st' fs i j : uncached inst a st -> a_pad a = None -> a_l1 a = true -> real_valued f ->
  (forall r, (r < M)%nat -> wf f (nth i sc 0 * - (2 * PI * INR (k r) / INR n)) = C0) -> (0 < n)%nat ->
  cwt py inst f a x st = (Ok (W, sc, Some dW), st') -> process_fs_and_t (a_fs a) (a_t a) n = Ok fs ->
  el W i j = Csum M (part f A phi k n (nth i sc 0) j) /\
  el dW i j = Csum M (fun r => Cmul (0, 2 * PI * hz fs r) (part f A phi k n (nth i sc 0) j r)).
Proof.
  intros Hu Hp Hl Hr Hos Hn E Hfs. destruct (cwt_rows _ _ _ _ _ _ _ _ _ _ Hr Hu E) as (fs' & xp & n1 & Hfs' & Hp' & _ & EW & ED).
  assert (Lx : length x = n) by apply chord_length. rewrite Lx, Hfs in Hfs'. injection Hfs' as <-.
  assert (xp = x /\ n1 = 0%Z) as (-> & ->).
  { rewrite Hp in Hp'. unfold pad_input in Hp'. destruct x eqn:Ex; [cbn in Lx; lia|]. injection Hp' as <- <-. auto. }
  rewrite EW, ED. unfold finish_cell. rewrite Hl, Hp, andb_false_r. cbn [plus]. unfold x. rewrite row_chord, drow_chord by exact Hn.
  split; apply Csum_ext; intros r Hr'; destruct (Hk r Hr').
  - apply row_tone; auto.
  - rewrite drow_tone by auto. rewrite row_tone by auto. unfold part, hz. f_equal. f_equal. assert (INR n <> 0) by (apply not_0_INR; lia). field. assumption.
Qed.
End Run.

(** ** One part dominating a sum of parts *)
Lemma Csum_others M r g : (r < M)%nat -> Csum M g = Cadd (g r) (Csum M (fun q => if (q =? r)%nat then C0 else g q)).
Proof.
  intros Hr. rewrite (Csum_ext M g (fun q => Cadd (if (q =? r)%nat then g q else C0) (if (q =? r)%nat then C0 else g q)))
    by (intros q _; destruct (q =? r)%nat; apply C_eq; cbn; ring).
  rewrite Csum_plus. f_equal. rewrite (Csum_single M _ r Hr); [rewrite Nat.eqb_refl; reflexivity|].
  intros q _ Hq. destruct (Nat.eqb_spec q r); [congruence|reflexivity].
Qed.
Lemma dominated_phase M (c : nat -> C) (h : nat -> R) r o F : (r < M)%nat -> others M r (fun q => Cabs (c q)) <= o -> o < Cabs (c r) ->
  (forall q, (q < M)%nat -> Rabs (h q - h r) <= F) -> 0 <= h r ->
  Cabs (Csub (Csum M c) (c r)) <= o /\
  Rabs (phase_cwt_pt (Csum M c) (Csum M (fun q => Cmul (0, 2 * PI * h q) (c q))) - h r) <= F * o / (Cabs (c r) - o).
Proof.
  intros Hr Ho Hd HF Hh.
  assert (B : Cabs (Csum M (fun q => if (q =? r)%nat then C0 else c q)) <= o).
  { eapply Rle_trans; [apply Cabs_Csum|]. eapply Rle_trans; [|exact Ho]. right. apply Rsum_ext. intros q _. destruct (q =? r)%nat; [apply Cabs_0|reflexivity]. }
  pose proof (Csum_others M r c Hr) as S. set (R' := Csum M (fun q => if (q =? r)%nat then C0 else c q)) in *.
  split; [rewrite S; replace (Csub (Cadd (c r) R') (c r)) with R' by (apply C_eq; cbn; ring); exact B|].
  assert (LW : Cabs (c r) - o <= Cabs (Csum M c)). { rewrite S. eapply Rle_trans; [|apply Cabs_sub_le]. lra. }
  assert (HW : Csum M c <> C0). { intros K. rewrite K, Cabs_0 in LW. lra. }
  pose proof (phase_dev (Csum M c) (Csum M (fun q => Cmul (0, 2 * PI * h q) (c q))) (h r) HW) as P.
  assert (HF0 : 0 <= F) by (pose proof (HF r Hr); pose proof (Rabs_pos (h r - h r)); lra). pose proof PI_RGT_0.
  assert (E : Cabs (Csub (Csum M (fun q => Cmul (0, 2 * PI * h q) (c q))) (Cmul (0, 2 * PI * h r) (Csum M c))) / (2 * PI) <= F * o).
  { rewrite <- Csum_scal, Csum_Csub. apply (Rmult_le_reg_r (2 * PI)); [lra|]. unfold Rdiv. rewrite Rmult_assoc, Rinv_l, Rmult_1_r by lra.
    eapply Rle_trans; [apply Cabs_Csum|]. apply Rle_trans with (2 * PI * F * others M r (fun q => Cabs (c q))); [|rewrite (Rmult_comm (F * o)), <- Rmult_assoc; apply Rmult_le_compat_l; [nra|exact Ho]].
    unfold others. rewrite <- Rsum_scal. apply Rsum_le. intros q Hq.
    replace (Csub (Cmul (0, 2 * PI * h q) (c q)) (Cmul (0, 2 * PI * h r) (c q))) with (Cmul (0, 2 * PI * (h q - h r)) (c q)) by (apply C_eq; cbn; ring).
    rewrite Cabs_mul, Cabs_im, Rabs_mult, (Rabs_right (2 * PI)) by lra. destruct (Nat.eqb_spec q r) as [->|].
    - replace (h r - h r) with 0 by ring. rewrite Rabs_R0. lra.
    - apply Rmult_le_compat_r; [apply Cabs_nonneg|]. apply Rmult_le_compat_l; [lra|]. apply HF, Hq. }
  set (W := Csum M c) in *. set (D := Csum M (fun q => Cmul _ _)) in *.
  apply Rle_trans with (Rabs (phase_ratio W D - h r)).
  { unfold phase_cwt_pt. rewrite <- (Rabs_right (h r)) at 1 by lra. apply Rabs_triang_inv2. }
  pose proof (Rabs_pos (phase_ratio W D - h r)) as P0. set (y := Rabs (phase_ratio W D - h r)) in *.
  apply (Rmult_le_reg_r (Cabs (c r) - o)); [lra|]. unfold Rdiv. rewrite Rmult_assoc, Rinv_l, Rmult_1_r by lra.
  apply Rle_trans with (y * Cabs W); [apply Rmult_le_compat_l; lra|]. lra.
Qed.

(** ** The default wavelet out of its band *)
Definition tiny25 : R := / 10 ^ 25.
Lemma exp_60 : exp (Ropp 60) <= tiny25.
Proof.
  rewrite exp_Ropp. unfold tiny25. apply Rinv_le_contravar; [lra|]. replace 60 with (INR 60) by (rewrite INR_IZR_INZ; reflexivity). rewrite pow_e.
  destruct e_powers as (_ & _ & _ & E). replace (exp 1 ^ 60) with ((exp 1 ^ 20) ^ 3) by (rewrite <- pow_mult; reflexivity).
  apply Rle_trans with (478700000 ^ 3); [lra|]. apply pow_incr. lra.
Qed.
Lemma gmw60_half w e : 0 < w -> 20 * ln (w ^ 3 / 20) - w ^ 3 + 20 <= - e -> gmw60 w <= 2 * exp (- e).
Proof.
  intros Hw H. rewrite gmw60_val by exact Hw. apply Rmult_le_compat_l; [lra|].
  set (L := ln (w ^ 3 / 20)) in *. destruct (Req_dec (20 * (L - w ^ 3 / 20 + 1)) (- e)) as [E|E]; [rewrite E; lra|]. left. apply exp_increasing. lra.
Qed.
Lemma gmw60_below w : 0 < w -> w ^ 3 <= 1 / 4 -> gmw60 w <= 2 * tiny25.
Proof.
  intros Hw Hu. apply Rle_trans with (2 * exp (Ropp 60)); [|pose proof exp_60; lra]. apply gmw60_half; [exact Hw|].
  assert (P : 0 < w ^ 3) by (apply pow_lt; exact Hw). set (u := w ^ 3) in *.
  assert (ln (u / 20) <= - (6 * ln 2)).
  { replace (- (6 * ln 2)) with (ln (/ 2 ^ 6)) by (rewrite ln_Rinv by lra; replace (2 ^ 6) with (2 * 2 * 2 * 2 * 2 * 2) by ring; rewrite !ln_mult by lra; ring).
    destruct (Req_dec (u / 20) (/ 2 ^ 6)) as [E|E]; [rewrite E; lra|]. left. apply ln_increasing; lra. }
  pose proof ln2_low. lra.
Qed.
Lemma gmw60_above w : 0 < w -> 128 <= w ^ 3 -> gmw60 w <= 2 * tiny25.
Proof.
  intros Hw Hu. apply Rle_trans with (2 * exp (Ropp 60)); [|pose proof exp_60; lra]. apply gmw60_half; [exact Hw|]. set (u := w ^ 3) in *.
  assert (E : ln (u / 20) = ln (u / 160) + 3 * ln 2).
  { rewrite <- ln_8, <- ln_mult by lra. f_equal. field. }
  rewrite E. pose proof (ln_le_sub1 (u / 160) ltac:(lra)). pose proof ln2_high. lra.
Qed.

(** at most one of two tones three octaves apart is in band *)
Lemma one_in_band w w' : 0 < w -> 8 * w <= w' -> 1 / 4 < w ^ 3 -> 128 <= w' ^ 3.
Proof. intros Hw H Hu. assert ((8 * w) ^ 3 <= w' ^ 3) by (apply pow_incr; lra). replace ((8 * w) ^ 3) with (512 * w ^ 3) in H0 by ring. lra. Qed.

(** ** Rows *)
Lemma rows_close (r : ssq_out) d a b p q : 0 < d ->
  (forall i, (S i < length (r_scales r))%nat -> log2 (nth i (r_freqs r) 0) = log2 (nth (S i) (r_freqs r) 0) + d) ->
  nearest_row r a p -> nearest_row r b q -> Rabs (log2 a - log2 b) < d -> (p <= q + 1)%nat.
Proof.
  intros Hd Hg (P1 & _ & P2) (Q1 & _ & Q2) Hab. destruct (le_lt_dec p (q + 1)) as [|Hlt]; [assumption|exfalso].
  assert (G : forall i, (i < length (r_scales r))%nat -> log2 (nth i (r_freqs r) 0) = log2 (nth 0 (r_freqs r) 0) - INR i * d).
  { induction i as [|i IH]; intros Hi; [cbn [INR]; ring|]. rewrite S_INR. pose proof (Hg i Hi). rewrite IH in H by lia. lra. }
  specialize (P2 (p - 1)%nat ltac:(lia)). specialize (Q2 (q + 1)%nat ltac:(lia)).
  rewrite (G p), (G (p - 1)%nat) in P2 by lia. rewrite (G q), (G (q + 1)%nat) in Q2 by lia.
  assert (Hlt2 : INR q + 1 + 1 <= INR p). { replace (INR q + 1 + 1) with (INR (q + 2)) by (rewrite plus_INR; cbn; ring). apply le_INR. lia. }
  rewrite minus_INR in P2 by lia. rewrite plus_INR in Q2. cbn [INR] in *.
  set (l0 := log2 (nth 0 (r_freqs r) 0)) in *. set (la := log2 a) in *. set (lb := log2 b) in *. apply Rabs_def2 in Hab.
  assert (la <= l0 - (INR p - / 2) * d).
  { apply Rnot_lt_le. intros K. rewrite (Rabs_right (la - (l0 - INR p * d))) in P2 by nra. unfold Rabs in P2. destruct (Rcase_abs _) in P2; nra. }
  assert (l0 - (INR q + / 2) * d <= lb).
  { apply Rnot_lt_le. intros K. rewrite (Rabs_left1 (lb - (l0 - INR q * d))) in Q2 by nra. unfold Rabs in Q2. destruct (Rcase_abs _) in Q2; nra. }
  nra.
Qed.

Lemma nearest_exists (r : ssq_out) F : (0 < length (r_scales r))%nat -> length (r_freqs r) = length (r_scales r) -> exists row, nearest_row r F row.
Proof.
  intros H0 H1. unfold nearest_row. set (L := length (r_scales r)) in *. set (g := fun i => Rabs (log2 F - log2 (nth i (r_freqs r) 0))).
  assert (X : forall m, (0 < m)%nat -> exists p, (p < m)%nat /\ forall i, (i < m)%nat -> g p <= g i).
  { induction m as [|m IH]; [lia|]. intros _. destruct m as [|m]; [exists 0%nat; split; [lia|]; intros i Hi; replace i with 0%nat by lia; lra|].
    destruct IH as (p & P1 & P2); [lia|]. destruct (Rle_dec (g p) (g (S m))).
    - exists p. split; [lia|]. intros i Hi. destruct (Nat.eq_dec i (S m)) as [->|]; [assumption|apply P2; lia].
    - exists (S m). split; [lia|]. intros i Hi. destruct (Nat.eq_dec i (S m)) as [->|]; [lra|]. pose proof (P2 i ltac:(lia)). lra. }
  destruct (X L H0) as (p & P1 & P2). exists p. auto.
Qed.
Lemma log2_close F om d : 0 < F -> 0 < d <= 1 -> Rabs (om - F) <= F * (d / 4) -> 0 < om /\ Rabs (log2 om - log2 F) < d.
Proof.
  intros HF Hd H. apply AdmissAcc.abs_le_inv in H. set (e := om / F - 1).
  assert (He : - (d / 4) <= e <= d / 4).
  { assert (e * F = om - F) by (unfold e; field; lra). split; apply (Rmult_le_reg_r F); try assumption; lra. }
  assert (Ho : om = F * (1 + e)) by (unfold e; field; lra). assert (0 < om) by (rewrite Ho; apply Rmult_lt_0_compat; lra). split; [assumption|].
  unfold log2. replace (ln om / ln 2 - ln F / ln 2) with ((ln om - ln F) / ln 2) by (field; pose proof ln2_pos; lra).
  rewrite Ho, ln_mult by lra. replace (ln F + ln (1 + e) - ln F) with (ln (1 + e)) by ring.
  pose proof (ln_le_sub1 (1 + e) ltac:(lra)) as U. pose proof (ln_le_sub1 (/ (1 + e)) ltac:(apply Rinv_0_lt_compat; lra)) as V. rewrite ln_Rinv in V by lra.
  pose proof ln2_low as L2. unfold Rdiv. rewrite Rabs_mult, (Rabs_right (/ ln 2)) by (apply Rle_ge; left; apply Rinv_0_lt_compat; lra).
  assert (B : Rabs (ln (1 + e)) <= d / 3).
  { apply Rabs_le. split; [|lra]. assert (/ (1 + e) - 1 <= d / 3); [|lra]. apply (Rmult_le_reg_r (1 + e)); [lra|]. rewrite Rmult_minus_distr_r, Rinv_l by lra. nra. }
  apply (Rmult_lt_reg_r (ln 2)); [lra|]. rewrite Rmult_assoc, Rinv_l, Rmult_1_r by lra. nra.
Qed.

(** ** Three octaves *)
Definition three_octaves (M : nat) (k : nat -> nat) : Prop :=
  forall r r', (r < M)%nat -> (r' < M)%nat -> r <> r' -> (8 * k r <= k r' \/ 8 * k r' <= k r)%nat.
(** total amplitude *)
Definition loud (M : nat) (A : nat -> R) : R := Rsum M (fun r => Rabs (A r)).
(** [ssq_cwt] of a chord with the default wavelet, unpadded; threshold [gamma] not vanishing beside the amplitudes (the default
    [10*EPS] with amplitudes up to 2000); frequencies not too low for the row spacing *)
Definition chord_run (ord : order) (py : bool) (fam : nat -> wfun) (q : ssq_args) (M : nat) (A phi : nat -> R) (k : nat -> nat) (n : nat)
  (s : cstate) (out : ssq_out) (s' : cstate) (fs : R) (nv : Z) (d : R) : Prop :=
  log_run ord py (gmw_wave gmw60) fam q (chord M A phi k n) s out s' fs nv d /\
  three_octaves M k /\ (forall r, (r < M)%nat -> (0 < k r)%nat /\ (2 * k r < n)%nat) /\ (0 < n)%nat /\
  q_pad q = None /\ (s_cache s = None \/ use_cache true (q_vec q) (q_cache q) = false) /\
  (forall i, (i < length (r_scales out))%nat -> 0 < nth i (r_scales out) 0) /\
  0 < ssq_gamma q /\ loud M A <= 10 ^ 18 * ssq_gamma q /\ 0 < d <= 1 /\
  forall r, (r < M)%nat -> 4 * fs <= 10 ^ 7 * d * tone_freq fs (k r) n /\
    log2 (tone_freq fs (k r) n) + d - log2 (nth (length (r_scales out) - 1) (r_freqs out) 0) <= IZR (2 ^ 62) * d.

(** the tone's nearest row, with room: within 2/5 of the spacing of the row's frequency *)
Definition centred (out : ssq_out) (fs d F : R) (row : nat) : Prop :=
  40 * fs <= 10 ^ 7 * d * F /\ Rabs (log2 F - log2 (nth row (r_freqs out) 0)) <= 2 / 5 * d.

Section Squeezed.
Variables (ord : order) (py : bool) (fam : nat -> wfun) (q : ssq_args) (M : nat) (A phi : nat -> R) (k : nat -> nat) (n : nat)
  (s : cstate) (out : ssq_out) (s' : cstate) (fs : R) (nv : Z) (d : R).
Hypothesis H : chord_run ord py fam q M A phi k n s out s' fs nv d.
Let f := gmw_wave gmw60.
Let sc := r_scales out.
Let g0 := ssq_gamma q.
Let o := loud M A * tiny25.
Let c (i j r : nat) : C := part f A phi k n (nth i sc 0) j r.
Let xi r := 2 * PI * INR (k r) / INR n.
Let inb (i r : nat) : Prop := 1 / 4 < (nth i sc 0 * xi r) ^ 3 < 128.
Let Hpos : forall i, (i < length sc)%nat -> 0 < nth i sc 0.
Proof. apply H. Qed.
Let Hk : forall r, (r < M)%nat -> (0 < k r)%nat /\ (2 * k r < n)%nat.
Proof. apply H. Qed.
Let Hn : 0 < INR n.
Proof. apply lt_0_INR, H. Qed.
Let xi_pos r : (r < M)%nat -> 0 < xi r.
Proof. intros Hr. unfold xi. pose proof PI_RGT_0. assert (0 < INR (k r)) by (apply lt_0_INR, Hk, Hr). apply Rdiv_lt_0_compat; [nra|exact Hn]. Qed.
Let o_small : 0 <= o <= g0 / 10 ^ 7.
Proof.
  destruct H as (_ & _ & _ & _ & _ & _ & _ & G0 & G1 & _). fold g0 in G0, G1. unfold o, tiny25. split.
  - apply Rmult_le_pos; [apply Rsum_nonneg; intros; apply Rabs_pos|lra].
  - assert (loud M A * / 10 ^ 25 <= 10 ^ 18 * g0 * / 10 ^ 25) by (apply Rmult_le_compat_r; lra). lra.
Qed.
Let g0_pos : 0 < g0.
Proof. apply H. Qed.
Lemma part_abs i j r : (i < length sc)%nat -> (r < M)%nat -> Cabs (c i j r) = Rabs (A r) / 2 * gmw60 (nth i sc 0 * xi r).
Proof.
  intros Hi Hr. unfold c, part. rewrite Cabs_tone. unfold response, f, gmw_wave, wf. fold (xi r). rewrite Rabs_mult. unfold Rdiv. rewrite Rabs_mult, (Rabs_right (/ 2)) by lra.
  cbn [Re RtoC fst]. rewrite (Rabs_right (gmw60 _)); [ring|]. apply Rle_ge. left. apply gmw60_pos. apply Rmult_lt_0_compat; [apply Hpos, Hi|apply xi_pos, Hr].
Qed.
Lemma part_out i j r : (i < length sc)%nat -> (r < M)%nat -> ~ inb i r -> Cabs (c i j r) <= Rabs (A r) * tiny25.
Proof.
  intros Hi Hr Hnb. rewrite part_abs by assumption. pose proof (xi_pos r Hr). pose proof (Hpos i Hi).
  assert (G : gmw60 (nth i sc 0 * xi r) <= 2 * tiny25).
  { unfold inb in Hnb. destruct (Rlt_dec (1 / 4) ((nth i sc 0 * xi r) ^ 3)).
    - apply gmw60_above; [apply Rmult_lt_0_compat; assumption|lra].
    - apply gmw60_below; [apply Rmult_lt_0_compat; assumption|lra]. }
  pose proof (Rabs_pos (A r)). nra.
Qed.
Lemma inb_unique i r r' : (i < length sc)%nat -> (r < M)%nat -> (r' < M)%nat -> inb i r -> inb i r' -> r = r'.
Proof.
  intros Hi Hr Hr' B B'. destruct (Nat.eq_dec r r') as [|Hne]; [assumption|exfalso]. destruct H as (_ & T & _).
  pose proof (Hpos i Hi) as P. pose proof (xi_pos r Hr). pose proof (xi_pos r' Hr'). unfold inb in *. pose proof PI_RGT_0.
  assert (X : forall a b, (8 * k a <= k b)%nat -> 8 * (nth i sc 0 * xi a) <= nth i sc 0 * xi b).
  { intros a b Hab. apply le_INR in Hab. rewrite mult_INR in Hab. replace (INR 8) with 8 in Hab by (rewrite INR_IZR_INZ; reflexivity).
    replace (8 * (nth i sc 0 * xi a)) with (nth i sc 0 * (2 * PI / INR n) * (8 * INR (k a))) by (unfold xi; field; lra).
    replace (nth i sc 0 * xi b) with (nth i sc 0 * (2 * PI / INR n) * INR (k b)) by (unfold xi; field; lra).
    apply Rmult_le_compat_l; [|exact Hab]. apply Rmult_le_pos; [lra|]. left. apply Rdiv_lt_0_compat; lra. }
  assert (0 < nth i sc 0 * xi r) by (apply Rmult_lt_0_compat; assumption). assert (0 < nth i sc 0 * xi r') by (apply Rmult_lt_0_compat; assumption).
  destruct (T r r' Hr Hr' Hne) as [T'|T']; apply X in T'; apply one_in_band in T'; lra.
Qed.
Lemma band_cases i : (i < length sc)%nat -> (exists r, (r < M)%nat /\ inb i r) \/ (forall r, (r < M)%nat -> ~ inb i r).
Proof.
  intros _. clear. induction M as [|m IH]; [right; lia|]. destruct IH as [(r & R1 & R2)|IH]; [left; exists r; split; [lia|exact R2]|].
  assert (D : inb i m \/ ~ inb i m).
  { unfold inb. destruct (Rlt_dec (1 / 4) ((nth i sc 0 * xi m) ^ 3)), (Rlt_dec ((nth i sc 0 * xi m) ^ 3) 128); [left; lra|right; lra..]. }
  destruct D; [left; exists m; split; [lia|assumption]|]. right. intros r Hr. destruct (Nat.eq_dec r m) as [->|]; [assumption|apply IH; lia].
Qed.
Lemma band_others i j r : (i < length sc)%nat -> (r < M)%nat -> inb i r -> others M r (fun p => Cabs (c i j p)) <= o.
Proof.
  intros Hi Hr B. apply Rle_trans with (Rsum M (fun p => Rabs (A p) * tiny25)); [|rewrite IssqProofs.Rsum_scal_r; right; reflexivity].
  unfold others. apply Rsum_le. intros p Hp. destruct (Nat.eqb_spec p r) as [->|Hne].
  - apply Rmult_le_pos; [apply Rabs_pos|]. unfold tiny25. lra.
  - apply part_out; try assumption. intros K. apply Hne. apply (inb_unique i); assumption.
Qed.
Lemma none_small i j : (i < length sc)%nat -> (forall r, (r < M)%nat -> ~ inb i r) -> Cabs (Csum M (c i j)) <= o.
Proof.
  intros Hi N. eapply Rle_trans; [apply Cabs_Csum|]. apply Rle_trans with (Rsum M (fun p => Rabs (A p) * tiny25)); [|rewrite IssqProofs.Rsum_scal_r; right; reflexivity].
  apply Rsum_le. intros p Hp. apply part_out; auto.
Qed.
Lemma out_small i j r : (i < length sc)%nat -> (r < M)%nat -> ~ inb i r -> Cabs (c i j r) <= o.
Proof.
  intros Hi Hr Nb. eapply Rle_trans; [apply part_out; assumption|]. unfold o. apply Rmult_le_compat_r; [unfold tiny25; lra|].
  unfold loud. apply (Rsum_pos_term M (fun r => Rabs (A r)) r Hr). intros; apply Rabs_pos.
Qed.
Lemma cells i j : (i < length sc)%nat -> (j < n)%nat ->
  el (r_Wx out) i j = Csum M (c i j) /\
  el (r_dWx out) i j = Csum M (fun r => Cmul (0, 2 * PI * tone_freq fs (k r) n) (c i j r)).
Proof.
  intros Hi Hj. destruct H as (R & T & K & N & Q1 & Q2 & P & G0 & G1 & D & B).
  destruct (reassigned _ _ _ _ _ _ _ _ _ _ _ _ R) as (Hfs & _ & _ & _ & _ & (f64s & pat & E) & _).
  destruct (gmw_spectrum 3 60 gmw60 ltac:(lra) ltac:(lra) default_gmw) as (_ & S0).
  apply (chord_cells M A phi k n K py true f _ s (r_Wx out) sc (r_dWx out) s' fs i j) with (7 := E); cbn [inner a_pad a_l1 a_fs a_t]; try assumption; try reflexivity.
  - exact default_real.
  - intros r Hr. unfold f. apply S0. fold (xi r). pose proof (xi_pos r Hr). pose proof (Hpos i Hi). nra.
  - apply rate_self, Hfs.
Qed.
Lemma passes_ge m : passes q m -> g0 <= m.
Proof. unfold passes, g0. destruct (q_get_w q); lra. Qed.
Lemma fails_le m : ~ passes q m -> m <= g0.
Proof. unfold passes, g0. destruct (q_get_w q); lra. Qed.
Lemma freq_gap r p : (r < M)%nat -> (p < M)%nat -> 0 < fs -> Rabs (tone_freq fs (k p) n - tone_freq fs (k r) n) <= fs / 2.
Proof.
  intros Hr Hp Hfs. assert (B : forall p, (p < M)%nat -> 0 <= tone_freq fs (k p) n <= fs / 2).
  { intros p' Hp'. destruct (Hk p' Hp') as (_ & K2). apply lt_INR in K2. rewrite mult_INR in K2. replace (INR 2) with 2 in K2 by reflexivity. pose proof (pos_INR (k p')).
    unfold tone_freq. split; [apply Rmult_le_pos; [nra|left; apply Rinv_0_lt_compat, Hn]|].
    apply (Rmult_le_reg_r (INR n)); [exact Hn|]. unfold Rdiv at 1. rewrite Rmult_assoc, Rinv_l by lra. nra. }
  pose proof (B r Hr). pose proof (B p Hp). apply Rabs_le. lra.
Qed.
Lemma owner_freq i j : (i < length sc)%nat -> (j < n)%nat -> passes q (Cabs (el (r_Wx out) i j)) ->
  exists r, (r < M)%nat /\ inb i r /\ Cabs (Csub (el (r_Wx out) i j) (c i j r)) <= o /\ 0 < tone_freq fs (k r) n /\
    Rabs (phase_cwt_pt (el (r_Wx out) i j) (el (r_dWx out) i j) - tone_freq fs (k r) n) <= fs / 10 ^ 7.
Proof.
  intros Hi Hj Hpa. apply passes_ge in Hpa. destruct (cells i j Hi Hj) as (EW & ED). rewrite EW in Hpa.
  destruct (band_cases i Hi) as [(r & Hr & B)|N]; [|exfalso; pose proof (none_small i j Hi N); lra].
  pose proof (band_others i j r Hi Hr B) as BO. exists r. split; [exact Hr|]. split; [exact B|].
  assert (Hfs : 0 < fs) by (destruct H as (R & _); destruct (reassigned _ _ _ _ _ _ _ _ _ _ _ _ R) as (X & _); exact X).
  assert (Lc : g0 - o <= Cabs (c i j r)).
  { rewrite (Csum_others M r (c i j) Hr) in Hpa. pose proof (Cabs_triangle (c i j r) (Csum M (fun p => if (p =? r)%nat then C0 else c i j p))).
    assert (Cabs (Csum M (fun p => if (p =? r)%nat then C0 else c i j p)) <= o); [|lra].
    eapply Rle_trans; [apply Cabs_Csum|]. eapply Rle_trans; [|exact BO]. right. apply Rsum_ext. intros p _. destruct (p =? r)%nat; [apply Cabs_0|reflexivity]. }
  assert (HF : 0 < tone_freq fs (k r) n). { unfold tone_freq. destruct (Hk r Hr). apply Rdiv_lt_0_compat; [apply Rmult_lt_0_compat; [apply lt_0_INR; lia|exact Hfs]|exact Hn]. }
  destruct (dominated_phase M (c i j) (fun p => tone_freq fs (k p) n) r o (fs / 2) Hr BO ltac:(lra) ltac:(intros p Hp; apply freq_gap; assumption) ltac:(lra)) as (D1 & D2).
  rewrite EW, ED. split; [exact D1|]. split; [exact HF|]. eapply Rle_trans; [exact D2|].
  apply (Rmult_le_reg_r (Cabs (c i j r) - o)); [lra|]. unfold Rdiv at 1. rewrite Rmult_assoc, Rinv_l, Rmult_1_r by lra.
  apply Rle_trans with (fs / 10 ^ 7 * (g0 - 2 * (g0 / 10 ^ 7))).
  - assert (fs / 2 * o <= fs / 2 * (g0 / 10 ^ 7)) by (apply Rmult_le_compat_l; lra). nra.
  - apply Rmult_le_compat_l; lra.
Qed.
Lemma owner i j : (i < length sc)%nat -> (j < n)%nat -> passes q (Cabs (el (r_Wx out) i j)) ->
  exists r, (r < M)%nat /\ inb i r /\ Cabs (Csub (el (r_Wx out) i j) (c i j r)) <= o /\
    0 < phase_cwt_pt (el (r_Wx out) i j) (el (r_dWx out) i j) /\
    Rabs (log2 (phase_cwt_pt (el (r_Wx out) i j) (el (r_dWx out) i j)) - log2 (tone_freq fs (k r) n)) < d.
Proof.
  intros Hi Hj Hpa. destruct (owner_freq i j Hi Hj Hpa) as (r & Hr & B & D1 & HF & D2). exists r. split; [exact Hr|]. split; [exact B|]. split; [exact D1|].
  destruct H as (_ & _ & _ & _ & _ & _ & _ & _ & _ & Hd & B0). destruct (B0 r Hr) as (B1 & _). apply log2_close; [exact HF|exact Hd|]. lra.
Qed.

Lemma sum_pick L (b : nat -> bool) p (v : R) : (p < L)%nat -> Rsum L (fun m => if b m then if (p =? m)%nat then v else 0 else 0) = if b p then v else 0.
Proof.
  intros Hp. rewrite (Rsum_single _ _ p Hp).
  - rewrite Nat.eqb_refl. reflexivity.
  - intros m _ Hm. destruct (Nat.eqb_spec p m); [congruence|]. destruct (b m); reflexivity.
Qed.
Let kap := ln 2 / IZR nv.
Let kap_pos : 0 < kap.
Proof.
  destruct H as ((_ & _ & _ & _ & P & _) & _). apply process_log_pos in P. unfold kap. apply Rdiv_lt_0_compat; [apply ln2_pos|apply IZR_lt; exact P].
Qed.
(** where each coefficient goes *)
Lemma chord_rows (rho : nat -> nat) : (forall r, (r < M)%nat -> nearest_row out (tone_freq fs (k r) n) (rho r)) ->
  nrows (r_Tx out) = length sc /\ ncols (r_Tx out) = n /\ exists row : nat -> nat -> nat,
  (forall m j, (m < length sc)%nat -> (j < n)%nat -> el (r_Tx out) m j = Csum (length sc) (fun i =>
     if passes_dec q (Cabs (el (r_Wx out) i j)) then if (row i j =? m)%nat then Cmul (el (r_Wx out) i j) (RtoC kap) else C0 else C0)) /\
  forall i j, (i < length sc)%nat -> (j < n)%nat -> passes q (Cabs (el (r_Wx out) i j)) ->
    (row i j < length sc)%nat /\ exists r, (r < M)%nat /\ inb i r /\ Cabs (Csub (el (r_Wx out) i j) (c i j r)) <= o /\
      (rho r <= row i j + 1 <= rho r + 2)%nat /\ (centred out fs d (tone_freq fs (k r) n) (rho r) -> row i j = rho r).
Proof.
  intros Hrho. pose proof H as (R & _ & _ & _ & _ & _ & _ & _ & _ & Hd & B0).
  destruct (reassigned _ _ _ _ _ _ _ _ _ _ _ _ R) as (Hfs & R1 & C1 & F1 & Hg & _ & HR). rewrite chord_length in C1, HR. fold sc in R1, F1, Hg, HR.
  destruct HR as (row & Hnear & HT).
  { intros i j Hi Hj Hpa. destruct (owner i j Hi Hj Hpa) as (r & Hr & _ & _ & _ & Hlog). destruct (B0 r Hr) as (_ & B2). unfold in_reach. fold sc in B2. fold sc.
    apply Rabs_def2 in Hlog. lra. }
  split; [exact R1|]. split; [exact C1|]. exists row. split; [exact HT|].
  intros i j Hi Hj Hpa. destruct (owner_freq i j Hi Hj Hpa) as (r & Hr & Hb & Ho & HF & Hom).
  destruct (B0 r Hr) as (B1 & _). destruct (log2_close _ _ d HF Hd (Rle_trans _ _ _ Hom (ltac:(lra) : fs / 10 ^ 7 <= tone_freq fs (k r) n * (d / 4)))) as (Hp & Hlog).
  pose proof (Hnear i j Hi Hj Hpa Hp) as N1. pose proof (Hrho r Hr) as N2.
  split; [apply N1|]. exists r. split; [exact Hr|]. split; [exact Hb|]. split; [exact Ho|]. split.
  - pose proof (rows_close out d _ _ _ _ ltac:(lra) Hg N1 N2 Hlog). rewrite Rabs_minus_sym in Hlog.
    pose proof (rows_close out d _ _ _ _ ltac:(lra) Hg N2 N1 Hlog). lia.
  - intros (C2 & C3). destruct (log2_close _ _ (d / 10) HF ltac:(lra) (Rle_trans _ _ _ Hom (ltac:(lra) : fs / 10 ^ 7 <= tone_freq fs (k r) n * (d / 10 / 4)))) as (_ & Hlog').
    destruct N1 as (P1 & _ & P2). destruct N2 as (Q1 & _). specialize (P2 (rho r) Q1). set (om := phase_cwt_pt _ _) in *. set (p := row i j) in *.
    assert (G : forall i, (i < length sc)%nat -> log2 (nth i (r_freqs out) 0) = log2 (nth 0 (r_freqs out) 0) - INR i * d).
    { induction i0 as [|i0 IH]; intros Hi0; [cbn [INR]; ring|]. rewrite S_INR. pose proof (Hg i0 Hi0) as X. rewrite IH in X by lia. lra. }
    rewrite (G (rho r)) in * by exact Q1. rewrite (G p) in P2 by exact P1. set (f0 := log2 (nth 0 (r_freqs out) 0)) in *.
    apply Rabs_def2 in Hlog'. apply AdmissAcc.abs_le_inv in C3.
    assert (Rabs (log2 om - (f0 - INR (rho r) * d)) < d / 2) by (apply Rabs_def1; lra).
    assert (X : Rabs (log2 om - (f0 - INR p * d)) < d / 2) by lra. apply Rabs_def2 in X.
    destruct (lt_eq_lt_dec p (rho r)) as [[K|K]|K]; [exfalso|exact K|exfalso]; apply le_INR in K; rewrite S_INR in K; nra.
Qed.
(** every coefficient of [Tx] away from the tones' rows is 0; rows of one tone sum to that tone's analytic signal *)
Lemma chord_squeezed (rho : nat -> nat) : (forall r, (r < M)%nat -> nearest_row out (tone_freq fs (k r) n) (rho r)) ->
  nrows (r_Tx out) = length sc /\ ncols (r_Tx out) = n /\
  (forall m j, (m < length sc)%nat -> (j < n)%nat -> (forall r, (r < M)%nat -> (m + 1 < rho r \/ rho r + 1 < m)%nat) -> el (r_Tx out) m j = C0) /\
  forall r (b : nat -> bool) j, (r < M)%nat -> (j < n)%nat ->
    (forall m, (rho r <= m + 1 <= rho r + 2)%nat -> b m = true) ->
    (forall r' m, (r' < M)%nat -> r' <> r -> (rho r' <= m + 1 <= rho r' + 2)%nat -> b m = false) ->
    Rabs (Rsum (length sc) (fun m => if b m then Re (el (r_Tx out) m j) else 0) -
      A r / 2 * full_gain f sc nv (k r) n * cos (2 * PI * INR (k r) * INR j / INR n + phi r)) <= 2 * g0 * (INR (length sc) * kap).
Proof.
  intros Hrho. destruct (chord_rows rho Hrho) as (R1 & C1 & row & HT & Hrow).
  split; [exact R1|]. split; [exact C1|]. split.
  - intros m j Hm Hj Hfar. rewrite HT by assumption. apply Csum_0. intros i Hi. destruct (passes_dec q _) as [Hpa|]; [|reflexivity].
    destruct (Nat.eqb_spec (row i j) m) as [<-|]; [|reflexivity]. exfalso. destruct (Hrow i j Hi Hj Hpa) as (_ & r & Hr & _ & _ & W & _). pose proof (Hfar r Hr). lia.
  - intros r b j Hr Hj Hin Hout.
    rewrite (Rsum_ext _ _ (fun m => Rsum (length sc) (fun i => if b m then if (row i j =? m)%nat then (if passes_dec q (Cabs (el (r_Wx out) i j)) then Re (el (r_Wx out) i j) * kap else 0) else 0 else 0))).
    2:{ intros m Hm. destruct (b m) eqn:Eb; [|symmetry; apply Rsum_0; reflexivity]. rewrite HT by assumption. rewrite Re_Csum. apply Rsum_ext. intros i Hi.
        destruct (passes_dec q _); destruct (_ =? _)%nat; try reflexivity. unfold kap, Cmul, RtoC, Re. cbn. ring. }
    rewrite Rsum_swap.
    rewrite (Rsum_ext _ _ (fun i => if passes_dec q (Cabs (el (r_Wx out) i j)) then (if b (row i j) then Re (el (r_Wx out) i j) * kap else 0) else 0)).
    2:{ intros i Hi. destruct (passes_dec q _) as [Hpa|].
        - apply (sum_pick (length sc) b (row i j)). apply (Hrow i j Hi Hj Hpa).
        - apply Rsum_0. intros m _. destruct (b m); [destruct (_ =? _)%nat|]; reflexivity. }
    replace (A r / 2 * full_gain f sc nv (k r) n * cos (2 * PI * INR (k r) * INR j / INR n + phi r)) with (Rsum (length sc) (fun i => Re (c i j r) * kap)).
    2:{ unfold full_gain. rewrite IssqProofs.Rsum_scal_r. fold kap. rewrite (Rsum_ext _ (fun i => Re (c i j r)) (fun i => A r / 2 * cos (2 * PI * INR (k r) * INR j / INR n + phi r) * response f (nth i sc 0) (k r) n))
          by (intros i _; unfold c, part; rewrite Re_analytic; ring).
        rewrite Rsum_scal, IssqProofs.Rsum_scal_r. ring. }
    rewrite <- SsqRoundTrip.Rsum_sub. eapply Rle_trans; [apply Rsum_abs|]. replace (2 * g0 * (INR (length sc) * kap)) with (Rsum (length sc) (fun _ => 2 * g0 * kap)) by (rewrite Rsum_const; ring).
    apply Rsum_le. intros i Hi. destruct (passes_dec q _) as [Hpa|Hnp].
    + destruct (Hrow i j Hi Hj Hpa) as (_ & r' & Hr' & Hb & Ho & W & _). destruct (Nat.eq_dec r' r) as [->|Hne].
      * rewrite (Hin _ W). rewrite <- Rmult_minus_distr_r, Rabs_mult, (Rabs_right kap) by lra. apply Rmult_le_compat_r; [lra|].
        replace (Re (el (r_Wx out) i j) - Re (c i j r)) with (Re (Csub (el (r_Wx out) i j) (c i j r))) by reflexivity. eapply Rle_trans; [apply SsqRoundTrip.Re_le_Cabs|]. lra.
      * rewrite (Hout r' _ Hr' Hne W). rewrite Rminus_0_l, Rabs_Ropp, Rabs_mult, (Rabs_right kap) by lra. apply Rmult_le_compat_r; [lra|].
        eapply Rle_trans; [apply SsqRoundTrip.Re_le_Cabs|]. assert (Cabs (c i j r) <= o); [|lra]. apply out_small; try assumption. intros K. apply Hne. apply (inb_unique i); assumption.
    + rewrite Rminus_0_l, Rabs_Ropp, Rabs_mult, (Rabs_right kap) by lra. apply Rmult_le_compat_r; [lra|]. eapply Rle_trans; [apply SsqRoundTrip.Re_le_Cabs|].
      apply fails_le in Hnp. destruct (cells i j Hi Hj) as (EW & _). rewrite EW in Hnp.
      assert (D : inb i r \/ ~ inb i r).
      { unfold inb. destruct (Rlt_dec (1 / 4) ((nth i sc 0 * xi r) ^ 3)), (Rlt_dec ((nth i sc 0 * xi r) ^ 3) 128); [left; lra|right; lra..]. }
      destruct D as [D|D]; [|pose proof (out_small i j r Hi Hr D); lra].
      pose proof (band_others i j r Hi Hr D) as BO. rewrite (Csum_others M r (c i j) Hr) in Hnp.
      pose proof (Cabs_sub_le (c i j r) (Csum M (fun p => if (p =? r)%nat then C0 else c i j p))) as T.
      assert (Cabs (Csum M (fun p => if (p =? r)%nat then C0 else c i j p)) <= o); [|lra].
      eapply Rle_trans; [apply Cabs_Csum|]. eapply Rle_trans; [|exact BO]. right. apply Rsum_ext. intros p _. destruct (p =? r)%nat; [apply Cabs_0|reflexivity].
Qed.

(** how strong a tone's rows are: the strongest holds its share of the tone (all of it when the tone is [centred]), none holds more *)
Definition full (r : nat) : R := Rabs (A r) / 2 * full_gain f sc nv (k r) n.
Let e := 2 * g0 * (INR (length sc) * kap).
Lemma argmax_band (b : nat -> bool) (g : nat -> R) L p : (p < L)%nat -> b p = true ->
  exists m, (m < L)%nat /\ b m = true /\ forall i, (i < L)%nat -> b i = true -> g i <= g m.
Proof.
  revert p. induction L as [|L IH]; [lia|]. intros p Hp Hb. destruct (Nat.eq_dec p L) as [->|Hne].
  - destruct (existsb b (seq 0 L)) eqn:Ex.
    + apply existsb_exists in Ex. destruct Ex as (p' & I1 & I2). apply in_seq in I1. destruct (IH p' ltac:(lia) I2) as (m & M1 & M2 & M3).
      destruct (Rle_dec (g m) (g L)).
      * exists L. split; [lia|]. split; [exact Hb|]. intros i Hi Bi. destruct (Nat.eq_dec i L) as [->|]; [lra|]. pose proof (M3 i ltac:(lia) Bi). lra.
      * exists m. split; [lia|]. split; [exact M2|]. intros i Hi Bi. destruct (Nat.eq_dec i L) as [->|]; [lra|]. apply M3; [lia|exact Bi].
    + exists L. split; [lia|]. split; [exact Hb|]. intros i Hi Bi. destruct (Nat.eq_dec i L) as [->|]; [lra|]. exfalso.
      assert (existsb b (seq 0 L) = true) by (apply existsb_exists; exists i; split; [apply in_seq; lia|exact Bi]). congruence.
  - destruct (IH p ltac:(lia) Hb) as (m & M1 & M2 & M3). destruct (b L) eqn:EL; [destruct (Rle_dec (g m) (g L))|].
    + exists L. split; [lia|]. split; [exact EL|]. intros i Hi Bi. destruct (Nat.eq_dec i L) as [->|]; [lra|]. pose proof (M3 i ltac:(lia) Bi). lra.
    + exists m. split; [lia|]. split; [exact M2|]. intros i Hi Bi. destruct (Nat.eq_dec i L) as [->|]; [lra|]. apply M3; [lia|exact Bi].
    + exists m. split; [lia|]. split; [exact M2|]. intros i Hi Bi. destruct (Nat.eq_dec i L) as [->|]; [congruence|]. apply M3; [lia|exact Bi].
Qed.
Definition within (w a b : nat) : bool := (a <=? b + w)%nat && (b <=? a + w)%nat.
Lemma count_within w a L : Rsum L (fun m => if within w m a then 1 else 0) <= INR (2 * w + 1).
Proof.
  assert (X : forall L, Rsum L (fun m => if within w m a then 1 else 0) <= INR (Nat.min L (a + w + 1) - Nat.min L (a - w))).
  { induction L0 as [|L0 IH]; [cbn; lra|]. cbn [Rsum]. unfold within at 2. destruct (Nat.leb_spec L0 (a + w)), (Nat.leb_spec a (L0 + w)); cbn [andb].
    - replace (Nat.min (S L0) (a + w + 1) - Nat.min (S L0) (a - w))%nat with (S (Nat.min L0 (a + w + 1) - Nat.min L0 (a - w))) by lia. rewrite S_INR. lra.
    - rewrite Rplus_0_r. eapply Rle_trans; [exact IH|]. apply le_INR. lia.
    - rewrite Rplus_0_r. eapply Rle_trans; [exact IH|]. apply le_INR. lia.
    - lia. }
  eapply Rle_trans; [apply X|]. apply le_INR. lia.
Qed.

Theorem chord_strength (rho : nat -> nat) w : (forall r, (r < M)%nat -> nearest_row out (tone_freq fs (k r) n) (rho r)) ->
  w = 1%nat \/ w = 0%nat /\ (forall r, (r < M)%nat -> centred out fs d (tone_freq fs (k r) n) (rho r)) ->
  (forall r r', (r < M)%nat -> (r' < M)%nat -> r <> r' -> (rho r + 2 * w < rho r' \/ rho r' + 2 * w < rho r)%nat) ->
  (forall m j, (m < length sc)%nat -> (j < n)%nat -> (forall r, (r < M)%nat -> within w m (rho r) = false) -> el (r_Tx out) m j = C0) /\
  forall r j, (r < M)%nat -> (j < n)%nat ->
    (forall m, (m < length sc)%nat -> within w m (rho r) = true -> Cabs (el (r_Tx out) m j) <= full r + e) /\
    exists m, (m < length sc)%nat /\ within w m (rho r) = true /\ full r - e <= INR (2 * w + 1) * Cabs (el (r_Tx out) m j) /\
      forall m', (m' < length sc)%nat -> within w m' (rho r) = true -> Cabs (el (r_Tx out) m' j) <= Cabs (el (r_Tx out) m j).
Proof.
  intros Hrho Hw Hsep. destruct (chord_rows rho Hrho) as (R1 & C1 & row & HT & Hrow0).
  assert (Hrow : forall i j, (i < length sc)%nat -> (j < n)%nat -> passes q (Cabs (el (r_Wx out) i j)) ->
    (row i j < length sc)%nat /\ exists r, (r < M)%nat /\ inb i r /\ Cabs (Csub (el (r_Wx out) i j) (c i j r)) <= o /\ within w (row i j) (rho r) = true).
  { intros i j Hi Hj Hpa. destruct (Hrow0 i j Hi Hj Hpa) as (W1 & r & Hr & B1 & B2 & B3 & B4). split; [exact W1|]. exists r. split; [exact Hr|]. split; [exact B1|].
    split; [exact B2|]. unfold within. destruct Hw as [->|(-> & Hw)]; [|rewrite (B4 (Hw r Hr))]; apply andb_true_intro; split; apply Nat.leb_le; lia. }
  clear Hrow0.
  assert (Hone : forall m r r', (r < M)%nat -> (r' < M)%nat -> within w m (rho r) = true -> within w m (rho r') = true -> r = r').
  { intros m r r' Hr Hr' B B'. destruct (Nat.eq_dec r r') as [|Hne]; [assumption|exfalso]. pose proof (Hsep r r' Hr Hr' Hne). unfold within in *. lia. }
  assert (Habs : forall r j, (r < M)%nat -> Rsum (length sc) (fun i => Cabs (c i j r) * kap) = full r).
  { intros r j Hr. unfold full, full_gain. rewrite !IssqProofs.Rsum_scal_r. fold kap. rewrite (Rsum_ext _ _ (fun i => Rabs (A r) / 2 * response f (nth i sc 0) (k r) n)).
    - rewrite Rsum_scal. ring.
    - intros i Hi. rewrite part_abs by assumption. reflexivity. }
  assert (Le : forall b : nat -> R, (forall i, (i < length sc)%nat -> b i <= 2 * g0 * kap) -> Rsum (length sc) b <= e).
  { intros b Hb. replace e with (Rsum (length sc) (fun _ => 2 * g0 * kap)) by (rewrite Rsum_const; unfold e; ring). apply Rsum_le. exact Hb. }
  assert (Hok : forall i j r, (i < length sc)%nat -> (j < n)%nat -> (r < M)%nat -> ~ inb i r -> Cabs (c i j r) <= 2 * g0).
  { intros i j r Hi Hj Hr Nb. pose proof (out_small i j r Hi Hr Nb). lra. }
  split.
  { intros m j Hm Hj Hfar. rewrite HT by assumption. apply Csum_0. intros i Hi. destruct (passes_dec q _) as [Hpa|]; [|reflexivity].
    destruct (Nat.eqb_spec (row i j) m) as [<-|]; [|reflexivity]. exfalso. destruct (Hrow i j Hi Hj Hpa) as (_ & r & Hr & _ & _ & W). rewrite Hfar in W by exact Hr. discriminate W. }
  intros r j Hr Hj. split.
  - intros m Hm Bm. rewrite HT by assumption. eapply Rle_trans; [apply Cabs_Csum|].
    apply Rle_trans with (Rsum (length sc) (fun i => Cabs (c i j r) * kap + 2 * g0 * kap)); [|rewrite Rsum_plus, Habs by exact Hr; apply Rplus_le_compat_l, Le; intros; lra].
    apply Rsum_le. intros i Hi. assert (P0 : 0 <= Cabs (c i j r) * kap + 2 * g0 * kap).
    { pose proof (Cabs_nonneg (c i j r)). apply Rplus_le_le_0_compat; apply Rmult_le_pos; lra. }
    destruct (passes_dec q _) as [Hpa|]; [|rewrite Cabs_0; exact P0]. destruct (Nat.eqb_spec (row i j) m) as [E|]; [|rewrite Cabs_0; exact P0].
    destruct (Hrow i j Hi Hj Hpa) as (_ & r' & Hr' & _ & Ho & W). rewrite E in W. rewrite (Hone m r' r Hr' Hr W Bm) in Ho.
    rewrite Cabs_mul, Cabs_RtoC, (Rabs_right kap), <- Rmult_plus_distr_r by lra. apply Rmult_le_compat_r; [lra|].
    pose proof (Cabs_triangle (Csub (el (r_Wx out) i j) (c i j r)) (c i j r)) as T. replace (Cadd (Csub (el (r_Wx out) i j) (c i j r)) (c i j r)) with (el (r_Wx out) i j) in T by (apply C_eq; cbn; ring). lra.
  - assert (Br : within w (rho r) (rho r) = true) by (unfold within; lia).
    destruct (argmax_band (fun m => within w m (rho r)) (fun m => Cabs (el (r_Tx out) m j)) (length sc) (rho r) (proj1 (Hrho r Hr)) Br) as (m & Hm & Bm & Hmax).
    exists m. split; [exact Hm|]. split; [exact Bm|]. split; [|exact Hmax].
    set (S := Csum (length sc) (fun m => if within w m (rho r) then el (r_Tx out) m j else C0)).
    assert (U : Cabs S <= INR (2 * w + 1) * Cabs (el (r_Tx out) m j)).
    { eapply Rle_trans; [apply Cabs_Csum|]. apply Rle_trans with (Rsum (length sc) (fun m' => (if within w m' (rho r) then 1 else 0) * Cabs (el (r_Tx out) m j))).
      - apply Rsum_le. intros m' Hm'. destruct (within w m' (rho r)) eqn:Ew; [rewrite Rmult_1_l; apply Hmax; assumption|rewrite Cabs_0; lra].
      - rewrite IssqProofs.Rsum_scal_r. apply Rmult_le_compat_r; [apply Cabs_nonneg|apply count_within]. }
    set (Z := Csum (length sc) (fun i => Cmul (c i j r) (RtoC kap))).
    assert (EZ : Cabs Z = full r).
    { assert (P : 0 <= full_gain f sc nv (k r) n).
      { unfold full_gain. apply Rsum_nonneg. intros i Hi. apply Rmult_le_pos; [|fold kap; lra]. unfold response, f, gmw_wave, wf. cbn [Re RtoC fst]. fold (xi r).
        left. apply gmw60_pos. apply Rmult_lt_0_compat; [apply Hpos, Hi|apply xi_pos, Hr]. }
      replace Z with (Cmul (RtoC (A r / 2 * full_gain f sc nv (k r) n)) (analytic (phi r) (k r) n j)).
      - rewrite Cabs_tone, Rabs_mult, (Rabs_right (full_gain _ _ _ _ _)) by lra. unfold full, Rdiv. rewrite Rabs_mult, (Rabs_right (/ 2)) by lra. reflexivity.
      - unfold Z. rewrite (Csum_ext _ _ (fun i => Cmul (RtoC (response f (nth i sc 0) (k r) n * kap)) (Cmul (RtoC (A r / 2)) (analytic (phi r) (k r) n j)))).
        + rewrite Csum_scal_r, Csum_RtoC. unfold full_gain. fold kap. apply C_eq; unfold Cmul, RtoC; cbn [fst snd]; ring.
        + intros i _. unfold c, part. apply C_eq; unfold Cmul, RtoC; cbn [fst snd]; ring. }
    assert (D : Cabs (Csub S Z) <= e).
    { assert (ES : S = Csum (length sc) (fun i => if passes_dec q (Cabs (el (r_Wx out) i j)) then
        if within w (row i j) (rho r) then Cmul (el (r_Wx out) i j) (RtoC kap) else C0 else C0)).
      { unfold S. rewrite (Csum_ext _ _ (fun m => Csum (length sc) (fun i => if within w m (rho r) then
          if passes_dec q (Cabs (el (r_Wx out) i j)) then if (row i j =? m)%nat then Cmul (el (r_Wx out) i j) (RtoC kap) else C0 else C0 else C0))).
        2:{ intros m' Hm'. destruct (within w m' (rho r)); [apply HT; assumption|symmetry; apply Csum_0; reflexivity]. }
        rewrite Csum_swap. apply Csum_ext. intros i Hi. destruct (passes_dec q _) as [Hpa|].
        - rewrite (Csum_single _ _ (row i j)); [rewrite Nat.eqb_refl; reflexivity|apply (Hrow i j Hi Hj Hpa)|].
          intros m' _ Hne. destruct (Nat.eqb_spec (row i j) m'); [congruence|]. destruct (within w m' (rho r)); reflexivity.
        - apply Csum_0. intros m' _. destruct (within w m' (rho r)); reflexivity. }
      rewrite ES. unfold Z. clear ES.
      match goal with |- Cabs (Csub (Csum _ ?a) (Csum _ ?b)) <= _ => replace (Csub (Csum (length sc) a) (Csum (length sc) b)) with (Csum (length sc) (fun i => Csub (a i) (b i))) end.
      2:{ transitivity (Cadd (Csum (length sc) (fun i => if passes_dec q (Cabs (el (r_Wx out) i j)) then
            if within w (row i j) (rho r) then Cmul (el (r_Wx out) i j) (RtoC kap) else C0 else C0)) (Csum (length sc) (fun i => Cmul (RtoC (-1)) (Cmul (c i j r) (RtoC kap))))).
          - rewrite <- Csum_plus. apply Csum_ext. intros i _. apply C_eq; unfold Csub, Copp, Cadd, Cmul, RtoC; cbn [fst snd]; ring.
          - rewrite Csum_scal. apply C_eq; unfold Csub, Copp, Cadd, Cmul, RtoC; cbn [fst snd]; ring. }
      eapply Rle_trans; [apply Cabs_Csum|]. apply Le. intros i Hi.
      assert (N : forall z, Cabs (Csub C0 (Cmul z (RtoC kap))) = Cabs z * kap).
      { intros z. replace (Csub C0 (Cmul z (RtoC kap))) with (Cmul z (RtoC (- kap))) by (apply C_eq; unfold Csub, Copp, C0, Cadd, Cmul, RtoC; cbn [fst snd]; ring).
        rewrite Cabs_mul, Cabs_RtoC, Rabs_Ropp, Rabs_right by lra. reflexivity. }
      destruct (passes_dec q _) as [Hpa|Hnp].
      - destruct (Hrow i j Hi Hj Hpa) as (_ & r' & Hr' & Hb & Ho & W). destruct (Nat.eq_dec r' r) as [->|Hne].
        + rewrite W. replace (Csub (Cmul (el (r_Wx out) i j) (RtoC kap)) (Cmul (c i j r) (RtoC kap))) with (Cmul (Csub (el (r_Wx out) i j) (c i j r)) (RtoC kap))
            by (apply C_eq; unfold Csub, Copp, Cadd, Cmul, RtoC; cbn [fst snd]; ring).
          rewrite Cabs_mul, Cabs_RtoC, (Rabs_right kap) by lra. apply Rmult_le_compat_r; lra.
        + destruct (within w (row i j) (rho r)) eqn:W2; [exfalso; apply Hne; apply (Hone _ _ _ Hr' Hr W W2)|]. rewrite N. apply Rmult_le_compat_r; [lra|].
          apply Hok; try assumption. intros K. apply Hne. apply (inb_unique i); assumption.
      - rewrite N. apply Rmult_le_compat_r; [lra|]. apply fails_le in Hnp. destruct (cells i j Hi Hj) as (EW & _). rewrite EW in Hnp.
        assert (D : inb i r \/ ~ inb i r).
        { unfold inb. destruct (Rlt_dec (1 / 4) ((nth i sc 0 * xi r) ^ 3)), (Rlt_dec ((nth i sc 0 * xi r) ^ 3) 128); [left; lra|right; lra..]. }
        destruct D as [D|D]; [|apply Hok; assumption].
        pose proof (band_others i j r Hi Hr D) as BO. rewrite (Csum_others M r (c i j) Hr) in Hnp.
        pose proof (Cabs_sub_le (c i j r) (Csum M (fun p => if (p =? r)%nat then C0 else c i j p))) as T.
        assert (Cabs (Csum M (fun p => if (p =? r)%nat then C0 else c i j p)) <= o); [|lra].
        eapply Rle_trans; [apply Cabs_Csum|]. eapply Rle_trans; [|exact BO]. right. apply Rsum_ext. intros p _. destruct (p =? r)%nat; [apply Cabs_0|reflexivity]. }
    pose proof (Cabs_triangle (Csub Z S) S) as T. replace (Cadd (Csub Z S) S) with Z in T by (apply C_eq; unfold Csub, Copp, Cadd; cbn [fst snd]; ring).
    rewrite EZ in T. replace (Cabs (Csub Z S)) with (Cabs (Csub S Z)) in T; [lra|].
    replace (Csub Z S) with (Cmul (RtoC (-1)) (Csub S Z)) by (apply C_eq; unfold Csub, Copp, Cadd, Cmul, RtoC; cbn [fst snd]; ring).
    rewrite Cabs_mul, Cabs_RtoC. replace (Rabs (-1)) with 1 by (rewrite Rabs_left by lra; ring). ring.
Qed.

(** [issq_cwt] with one band per tone, each covering its tone's rows (one either side of the nearest) and no other tone's *)
Theorem chord_components Css (rho : nat -> nat) cc cw : 0 < Css -> (0 < M)%nat ->
  (forall r, (r < M)%nat -> nearest_row out (tone_freq fs (k r) n) (rho r)) ->
  nrows cc = n -> ncols cc = M -> nrows cw = n -> ncols cw = M ->
  (forall j r, (j < n)%nat -> (r < M)%nat -> (0 <= el cc j r)%Z /\ (Z.abs (el cc j r - Z.of_nat (rho r)) + 1 <= el cw j r)%Z) ->
  (forall j r r', (j < n)%nat -> (r < M)%nat -> (r' < M)%nat -> r' <> r -> (el cw j r + 1 < Z.abs (el cc j r - Z.of_nat (rho r')))%Z) ->
  exists xs, issq_cwt Css (r_Tx out) (Some (cc, cw)) = Ok (Many xs) /\ length xs = S M /\ nth M xs [] = repeat 0 n /\
  forall r, (r < M)%nat -> length (nth r xs []) = n /\
    forall j, (j < n)%nat -> Rabs (nth j (nth r xs []) 0 - nth j (tone (A r * (full_gain f sc nv (k r) n / Css)) (phi r) (k r) n) 0)
      <= 4 * ssq_gamma q * (INR (length sc) * (ln 2 / IZR nv)) / Css.
Proof.
  intros HC HM Hrho Hc1 Hc2 Hw1 Hw2 Hband Hother. destruct (chord_squeezed rho Hrho) as (R1 & C1 & Hzero & Hsum).
  set (f' := fun l : list R => map (fun y => y * (2 / Css)) l).
  set (sum := fun g => tab (ncols (r_Tx out)) (fun m => Rsum (nrows (r_Tx out)) (fun i => Re (g i m)))).
  exists (map f' (map (fun r => sum (masked (nrows (r_Tx out)) cc cw (r_Tx out) r)) (seq 0 M) ++ [sum (remainder M (nrows (r_Tx out)) cc cw (r_Tx out))])).
  assert (Hf' : forall g j, (j < n)%nat -> nth j (f' (sum g)) 0 = Rsum (length sc) (fun i => Re (g i j)) * (2 / Css)).
  { intros g j Hj. unfold f', sum. rewrite C1, R1. set (h := fun y => y * (2 / Css)). rewrite (nth_indep _ 0 (h 0)) by (rewrite map_length, tab_length; exact Hj).
    rewrite map_nth, nth_tab by exact Hj. reflexivity. }
  assert (Lf : forall g, length (f' (sum g)) = n) by (intros g; unfold f', sum; rewrite map_length, tab_length; exact C1).
  split; [|split; [|split]].
  - unfold issq_cwt, invert, invert_components. rewrite Hc2, Hc1, Hw1, Hw2, C1, !Nat.ltb_irrefl, !Nat.eqb_refl.
    destruct (Nat.eqb_spec M 0); [lia|]. cbn [orb negb bind scale_out]. unfold sum, f'. rewrite C1. reflexivity.
  - rewrite map_length, app_length, map_length, seq_length. cbn [length]. lia.
  - rewrite map_app, app_nth2 by (rewrite !map_length, seq_length; lia). rewrite !map_length, seq_length, Nat.sub_diag. cbn [map nth].
    apply nth_ext with (d := 0) (d' := 0); [rewrite Lf, repeat_length; reflexivity|]. intros j Hj. rewrite Lf in Hj. rewrite nth_repeat, Hf' by exact Hj.
    rewrite Rsum_0; [ring|]. intros m Hm. rewrite R1.
    destruct (existsb (fun r => in_band (length sc) cc cw r j m) (seq 0 M)) eqn:Ex.
    + apply existsb_exists in Ex. destruct Ex as (r & Ir & Er). apply in_seq in Ir. rewrite (proj2 (remainder_el M _ cc cw (r_Tx out) m j) r ltac:(lia) Er). reflexivity.
    + assert (Hf : forall r, (r < M)%nat -> in_band (length sc) cc cw r j m = false).
      { intros r Hr. destruct (in_band (length sc) cc cw r j m) eqn:Ei; [|reflexivity]. exfalso.
        assert (existsb (fun r => in_band (length sc) cc cw r j m) (seq 0 M) = true) by (apply existsb_exists; exists r; split; [apply in_seq; lia|exact Ei]). congruence. }
      rewrite (proj1 (remainder_el M _ cc cw (r_Tx out) m j) Hf). rewrite Hzero; [reflexivity|exact Hm|exact Hj|].
      intros r Hr. destruct (Hband j r Hj Hr) as (P1 & P2). pose proof (in_band_spec (length sc) cc cw r j m Hm ltac:(lia) ltac:(lia)) as S.
      rewrite Hf in S by exact Hr. unfold covers in S.
      destruct (le_lt_dec (m + 1) (rho r - 1)); [left; lia|]. destruct (le_lt_dec (rho r + 2) m); [right; lia|]. exfalso.
      destruct S as (_ & S). discriminate S. lia.
  - intros r Hr.
    assert (En : nth r (map f' (map (fun r => sum (masked (nrows (r_Tx out)) cc cw (r_Tx out) r)) (seq 0 M) ++ [sum (remainder M (nrows (r_Tx out)) cc cw (r_Tx out))])) []
      = f' (sum (masked (nrows (r_Tx out)) cc cw (r_Tx out) r))).
    { rewrite map_app, app_nth1 by (rewrite !map_length, seq_length; exact Hr). rewrite map_map.
      rewrite (nth_indep _ [] (f' (sum (masked (nrows (r_Tx out)) cc cw (r_Tx out) 0)))) by (rewrite map_length, seq_length; exact Hr).
      rewrite (map_nth (fun r => f' (sum (masked (nrows (r_Tx out)) cc cw (r_Tx out) r)))), seq_nth by exact Hr. reflexivity. }
    rewrite En. split; [apply Lf|]. intros j Hj. rewrite Hf' by exact Hj. unfold tone. rewrite nth_tab by exact Hj.
    destruct (Hband j r Hj Hr) as (P1 & P2).
    specialize (Hsum r (fun m => (el cc j r - el cw j r <=? Z.of_nat m)%Z && (Z.of_nat m <=? el cc j r + el cw j r)%Z) j Hr Hj ltac:(intros; lia)).
    assert (X : forall r' m, (r' < M)%nat -> r' <> r -> (rho r' <= m + 1 <= rho r' + 2)%nat ->
       ((el cc j r - el cw j r <=? Z.of_nat m)%Z && (Z.of_nat m <=? el cc j r + el cw j r)%Z) = false).
    { intros r' m Hr' Hne Hm. pose proof (Hother j r r' Hj Hr Hr' Hne). lia. }
    specialize (Hsum X).
    rewrite (Rsum_ext _ _ (fun m => if (el cc j r - el cw j r <=? Z.of_nat m)%Z && (Z.of_nat m <=? el cc j r + el cw j r)%Z then Re (el (r_Tx out) m j) else 0)).
    2:{ intros m Hm. unfold masked. rewrite R1. pose proof (in_band_spec (length sc) cc cw r j m Hm ltac:(lia) ltac:(lia)) as S. unfold covers in S.
        destruct (in_band (length sc) cc cw r j m).
        - assert (E : (el cc j r - el cw j r <=? Z.of_nat m)%Z && (Z.of_nat m <=? el cc j r + el cw j r)%Z = true) by (apply proj1 in S; specialize (S eq_refl); lia). rewrite E. reflexivity.
        - assert (E : (el cc j r - el cw j r <=? Z.of_nat m)%Z && (Z.of_nat m <=? el cc j r + el cw j r)%Z = false).
          { apply not_true_is_false. intros K. apply proj2 in S. discriminate S. lia. }
          rewrite E. reflexivity. }
    set (T := Rsum _ _) in *. set (co := cos _) in *. set (G := full_gain _ _ _ _ _) in *.
    replace (T * (2 / Css) - A r * (G / Css) * co) with ((T - A r / 2 * G * co) * (2 / Css)) by (field; lra).
    rewrite Rabs_mult, (Rabs_right (2 / Css)) by (apply Rle_ge; left; apply Rdiv_lt_0_compat; lra).
    apply Rle_trans with (2 * g0 * (INR (length sc) * kap) * (2 / Css)).
    + apply Rmult_le_compat_r; [left; apply Rdiv_lt_0_compat; lra|exact Hsum].
    + right. unfold g0, kap. field. split; [|lra]. apply not_0_IZR. destruct H as ((_ & _ & _ & _ & P & _) & _). apply process_log_pos in P. lia.
Qed.
End Squeezed.
