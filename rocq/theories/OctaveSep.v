(** The default wavelet separates frequencies an octave apart. *)
From Coq Require Import Reals Lra Lia ZifyBool ZifyNat.
From Verif Require Import Py Round Cplx CplxProofs Padding PaddingProofs Buffer Freqs Squeeze Scales Cwt CwtProofs CwtThms CwtThms2 CwtTone
  Wavelets WaveletProofs Integral IntegralProofs Admiss AdmissThms AdmissThms2 AdmissThms3 RoundTripGain GmwRoundTrip DefaultRoundTrip ToneThms Separate.
Local Open Scope R_scope.

Lemma ln2_low : 68 / 100 <= ln 2.
Proof.
  apply Rnot_lt_le. intros N. apply exp_increasing in N. rewrite exp_ln in N by lra.
  pose proof (exp_ineq1_le (- (17 / 800))) as X.
  assert (Y : exp (17 / 800) <= 800 / 783).
  { replace (17 / 800) with (- - (17 / 800)) by ring. rewrite exp_Ropp. apply (Rmult_le_reg_l (exp (- (17 / 800)))); [apply exp_pos|].
    rewrite Rinv_r by (pose proof (exp_pos (- (17 / 800))); lra). lra. }
  replace (68 / 100) with (INR 32 * (17 / 800)) in N by (rewrite INR_IZR_INZ; cbn; field). rewrite exp_mult in N.
  pose proof (exp_pos (17 / 800)) as Py. set (y := exp (17 / 800)) in *.
  assert (H2 : 0 < y ^ 2 <= 10439 / 10000) by (replace (y ^ 2) with (y * y) by ring; nra).
  assert (H4 : 0 < y ^ 4 <= 10898 / 10000) by (replace (y ^ 4) with (y ^ 2 * y ^ 2) by ring; nra).
  assert (H8 : 0 < y ^ 8 <= 11877 / 10000) by (replace (y ^ 8) with (y ^ 4 * y ^ 4) by ring; nra).
  assert (H16 : 0 < y ^ 16 <= 14107 / 10000) by (replace (y ^ 16) with (y ^ 8 * y ^ 8) by ring; nra).
  replace (y ^ 32) with (y ^ 16 * y ^ 16) in N by ring. nra.
Qed.

(** ** The wavelet an octave or more away from a point of its band *)
Lemma ln_8 : ln 8 = 3 * ln 2.
Proof. replace 8 with (2 * 2 * 2) by lra. rewrite !ln_mult by lra. ring. Qed.
Lemma gmw60_pos w : 0 < w -> 0 < gmw60 w.
Proof. intros Hw. rewrite gmw60_val by exact Hw. pose proof (exp_pos (20 * (ln (w ^ 3 / 20) - w ^ 3 / 20 + 1))). lra. Qed.
Lemma gmw60_ratio w w' e : 0 < w -> 0 < w' -> 20 * ln (w' ^ 3 / w ^ 3) - (w' ^ 3 - w ^ 3) <= - e -> gmw60 w' <= exp (- e) * gmw60 w.
Proof.
  intros Hw Hw' H. rewrite !gmw60_val by assumption.
  assert (P : 0 < w ^ 3) by (apply pow_lt; exact Hw). assert (P' : 0 < w' ^ 3) by (apply pow_lt; exact Hw').
  replace (exp (- e) * (2 * exp (20 * (ln (w ^ 3 / 20) - w ^ 3 / 20 + 1)))) with (2 * (exp (- e) * exp (20 * (ln (w ^ 3 / 20) - w ^ 3 / 20 + 1)))) by ring.
  rewrite <- exp_plus. apply Rmult_le_compat_l; [lra|].
  assert (L : ln (w' ^ 3 / 20) = ln (w' ^ 3 / w ^ 3) + ln (w ^ 3 / 20)).
  { rewrite <- ln_mult by (apply Rdiv_lt_0_compat; lra). f_equal. field. lra. }
  rewrite L. set (a := ln (w' ^ 3 / w ^ 3)) in *. set (b := ln (w ^ 3 / 20)).
  destruct (Req_dec (20 * (a + b - w' ^ 3 / 20 + 1)) (- e + 20 * (b - w ^ 3 / 20 + 1))) as [E|E]; [rewrite E; lra|].
  left. apply exp_increasing. lra.
Qed.
Lemma cube_double w w' : 0 < w -> 2 * w <= w' -> 8 * w ^ 3 <= w' ^ 3.
Proof. intros Hw H. replace (8 * w ^ 3) with ((2 * w) ^ 3) by ring. apply pow_incr. lra. Qed.
Lemma gmw60_octave_up w w' : 0 < w -> 9 <= w ^ 3 -> 2 * w <= w' -> gmw60 w' <= / 1000000 * gmw60 w.
Proof.
  intros Hw Hu H. pose proof (cube_double w w' Hw H) as C. set (u := w ^ 3) in *. set (v := w' ^ 3) in *.
  apply Rle_trans with (exp (Ropp 21) * gmw60 w).
  - apply gmw60_ratio; [lra|lra|]. fold u v.
    assert (E : ln (v / u) = ln (v / (8 * u)) + 3 * ln 2).
    { rewrite <- ln_8, <- ln_mult by (try apply Rdiv_lt_0_compat; lra). f_equal. field. lra. }
    rewrite E. pose proof ln2_high. assert (Hq : 0 < v / (8 * u)) by (apply Rdiv_lt_0_compat; lra). pose proof (ln_le_sub1 _ Hq) as L.
    assert (20 * (v / (8 * u) - 1) <= v - 8 * u).
    { replace (20 * (v / (8 * u) - 1)) with ((v - 8 * u) * (20 / (8 * u))) by (field; lra). rewrite <- (Rmult_1_r (v - 8 * u)) at 2.
      apply Rmult_le_compat_l; [lra|]. apply (Rmult_le_reg_r (8 * u)); [lra|]. unfold Rdiv. rewrite Rmult_assoc, Rinv_l; lra. }
    lra.
  - apply Rmult_le_compat_r; [left; apply gmw60_pos; exact Hw|]. rewrite exp_Ropp. apply Rinv_le_contravar; [lra|].
    replace 21 with (INR 21) by (rewrite INR_IZR_INZ; reflexivity). rewrite pow_e. pose proof e_low.
    apply Rle_trans with (2 ^ 21); [lra|]. apply pow_incr. lra.
Qed.
Lemma gmw60_octave_down w w' : 0 < w' -> w ^ 3 <= 30 -> 2 * w' <= w -> gmw60 w' <= / 1000000 * gmw60 w.
Proof.
  intros Hw' Hu H. pose proof (cube_double w' w Hw' H) as C. assert (Hv : 0 < w' ^ 3) by (apply pow_lt; exact Hw').
  set (u := w ^ 3) in *. set (v := w' ^ 3) in *.
  apply Rle_trans with (exp (Ropp 14) * gmw60 w).
  - apply gmw60_ratio; [lra|lra|]. fold u v.
    assert (E : ln (v / u) = ln (8 * v / u) - 3 * ln 2).
    { rewrite <- ln_8. replace (8 * v / u) with (8 * (v / u)) by (field; lra). rewrite ln_mult by (try apply Rdiv_lt_0_compat; lra). ring. }
    rewrite E. pose proof ln2_low. assert (Hq : 0 < 8 * v / u) by (apply Rdiv_lt_0_compat; lra). pose proof (ln_le_sub1 _ Hq) as L.
    assert (20 * (8 * v / u - 1) <= v - u / 8).
    { replace (20 * (8 * v / u - 1)) with (- ((u / 8 - v) * (160 / u))) by (field; lra).
      assert (1 <= 160 / u). { apply (Rmult_le_reg_r u); [lra|]. unfold Rdiv. rewrite Rmult_assoc, Rinv_l; lra. }
      assert ((u / 8 - v) * 1 <= (u / 8 - v) * (160 / u)) by (apply Rmult_le_compat_l; lra). lra. }
    lra.
  - apply Rmult_le_compat_r; [left; apply gmw60_pos; lra|]. rewrite exp_Ropp. apply Rinv_le_contravar; [lra|].
    replace 14 with (INR 14) by (rewrite INR_IZR_INZ; reflexivity). rewrite pow_e.
    destruct e_powers as (_ & (E4 & _) & (E10 & _) & _). replace (exp 1 ^ 14) with (exp 1 ^ 10 * exp 1 ^ 4) by ring. nra.
Qed.

(** ** Any signal whose other frequencies are an octave away *)
(** what the other bins, up to the Nyquist one, hold relative to bin [m] *)
Definition rest (xp : list R) (m : nat) : R :=
  others (length xp / 2 + 1) m (fun q => if (q =? 0)%nat then 0 else Cabs (sig_dft xp q)) / Cabs (sig_dft xp m).
(** apart from the mean, the occupied frequencies are at most half or at least twice that of bin [m] *)
Definition octave_apart (xp : list R) (m : nat) : Prop :=
  forall q, (0 < q)%nat -> (2 * q <= length xp)%nat -> q <> m -> sig_dft xp q <> C0 -> (2 * q <= m \/ 2 * m <= q)%nat.

Lemma default_real : real_valued (gmw_wave gmw60).
Proof. intros w. reflexivity. Qed.
Lemma wav_mag_neg s n q : 0 < s -> (0 < n)%nat -> (n < 2 * q)%nat -> (q < n)%nat -> wav_mag (gmw_wave gmw60) s n q = 0.
Proof.
  intros Hs Hn Hq Hq'. destruct (gmw_spectrum 3 60 gmw60 ltac:(lra) ltac:(lra) default_gmw) as (_ & S). unfold wav_mag. rewrite S.
  - rewrite Cabs_0. ring.
  - unfold bin_freq. destruct (Nat.leb_spec q (n / 2)); [pose proof (Nat.mul_div_le n 2); lia|].
    pose proof PI_RGT_0. assert (0 < INR n) by (apply lt_0_INR; lia). assert (INR q < INR n) by (apply lt_INR; lia).
    assert (0 <= s * (2 * PI * (INR n - INR q) / INR n)).
    { apply Rmult_le_pos; [lra|]. apply Rmult_le_pos; [nra|]. left. apply Rinv_0_lt_compat. lra. }
    unfold Rdiv in *. nra.
Qed.
Lemma wav_mag_0 s n : 0 < s -> (0 < n)%nat -> wav_mag (gmw_wave gmw60) s n 0 = 0.
Proof.
  intros Hs Hn. destruct (gmw_spectrum 3 60 gmw60 ltac:(lra) ltac:(lra) default_gmw) as (_ & S). unfold wav_mag. rewrite S.
  - rewrite Cabs_0. ring.
  - unfold bin_freq. cbn [Nat.leb INR]. rewrite Rmult_0_r. unfold Rdiv. lra.
Qed.
Lemma bin_freq_low n q : (0 < n)%nat -> (2 * q <= n)%nat -> bin_freq q n = 2 * PI * INR q / INR n.
Proof. intros Hn Hq. unfold bin_freq. destruct (Nat.leb_spec q (n / 2)); [reflexivity|]. pose proof (Nat.div_mod n 2 ltac:(lia)). pose proof (Nat.mod_upper_bound n 2). lia. Qed.
Lemma wav_mag_pos s n q : 0 < s -> (0 < q)%nat -> (2 * q < n)%nat -> wav_mag (gmw_wave gmw60) s n q = gmw60 (s * (2 * PI * INR q / INR n)).
Proof.
  intros Hs Hq Hn. unfold wav_mag. destruct (Nat.eqb_spec (2 * q) n); [lia|]. rewrite bin_freq_low by lia. cbn [wf gmw_wave].
  rewrite Cabs_RtoC, Rabs_right, Rmult_1_l; [reflexivity|]. apply Rle_ge. left. apply gmw60_pos. pose proof PI_RGT_0.
  apply Rmult_lt_0_compat; [lra|]. apply Rdiv_lt_0_compat; [|apply lt_0_INR; lia]. assert (0 < INR q) by (apply lt_0_INR; lia). nra.
Qed.
Lemma wav_mag_le s n q : 0 < s -> (0 < q)%nat -> (2 * q <= n)%nat -> wav_mag (gmw_wave gmw60) s n q <= gmw60 (s * (2 * PI * INR q / INR n)).
Proof.
  intros Hs Hq Hn. assert (P : 0 < gmw60 (s * (2 * PI * INR q / INR n))).
  { apply gmw60_pos. pose proof PI_RGT_0. apply Rmult_lt_0_compat; [lra|]. apply Rdiv_lt_0_compat; [|apply lt_0_INR; lia]. assert (0 < INR q) by (apply lt_0_INR; lia). nra. }
  unfold wav_mag. rewrite bin_freq_low by lia. cbn [wf gmw_wave]. rewrite Cabs_RtoC, Rabs_right by lra. destruct (_ =? _)%nat; lra.
Qed.

Lemma others_weak n m g h : (forall q, (q < n)%nat -> q <> m -> g q <= h q) -> others n m g <= others n m h.
Proof. intros H. unfold others. apply Rsum_le. intros q Hq. destruct (Nat.eqb_spec q m); [lra|apply H; assumption]. Qed.
Lemma others_scal n m c g : others n m (fun q => c * g q) = c * others n m g.
Proof. unfold others. rewrite <- Rsum_scal. apply Rsum_ext. intros q _. destruct (q =? m)%nat; ring. Qed.

Theorem octave_phase py inst a x s W sc dW s' fs xp n1 i j m : uncached inst a s ->
  cwt py inst (gmw_wave gmw60) a x s = (Ok (W, sc, Some dW), s') -> process_fs_and_t (a_fs a) (a_t a) (length x) = Ok fs -> 0 < fs ->
  pad_input (a_pad a) x = Ok (xp, n1) -> (0 < m)%nat -> (2 * m < length xp)%nat -> sig_dft xp m <> C0 -> octave_apart xp m ->
  let w := nth i sc 0 * (2 * PI * INR m / INR (length xp)) in
  0 < nth i sc 0 -> 9 <= w ^ 3 <= 30 ->
  let eps := rest xp m / 1000000 in eps < 1 ->
  let lv := (if a_l1 a then 1 else sqrt (nth i sc 0)) * (gmw60 w * Cabs (sig_dft xp m) / INR (length xp)) in
  0 < lv /\ (1 - eps) * lv <= Cabs (el W i j) <= (1 + eps) * lv /\
  Rabs (phase_cwt_pt (el W i j) (el dW i j) - INR m * fs / INR (length xp)) <= fs / 2 * eps / (1 - eps).
Proof.
  intros Hu E Hfs Hf0 Hp Hm H2m HX Ho w Hs Hw eps He lv. set (n := length xp) in *. set (sci := nth i sc 0) in *. pose proof PI_RGT_0.
  assert (HnR : 0 < INR n) by (apply lt_0_INR; lia). assert (HmR : 0 < INR m) by (apply lt_0_INR; lia).
  assert (Hwp : 0 < w). { apply Rmult_lt_0_compat; [exact Hs|]. apply Rdiv_lt_0_compat; nra. }
  pose proof (Cabs_pos _ HX) as HA. pose proof (gmw60_pos w Hwp) as HG.
  assert (Hlv : level (gmw_wave gmw60) (a_l1 a) sci xp m = lv).
  { unfold level. fold n. rewrite wav_mag_pos by assumption. reflexivity. }
  assert (Hnm : 0 < (if a_l1 a then 1 else sqrt sci)) by (destruct (a_l1 a); [lra|apply sqrt_lt_R0; exact Hs]). set (nm := if a_l1 a then 1 else sqrt sci) in *.
  assert (Hp0 : 0 < lv). { unfold lv. apply Rmult_lt_0_compat; [exact Hnm|]. apply Rdiv_lt_0_compat; nra. }
  assert (Bz : bin_hz fs n m = INR m * fs / INR n).
  { unfold bin_hz. destruct (Nat.leb_spec m (n / 2)); [reflexivity|]. pose proof (Nat.div_mod n 2 ltac:(lia)). pose proof (Nat.mod_upper_bound n 2). lia. }
  (* negative frequencies and the mean do not contribute *)
  assert (Z : forall q, (q < n)%nat -> (n < 2 * q \/ q = 0)%nat -> level (gmw_wave gmw60) (a_l1 a) sci xp q = 0).
  { intros q Hq [Hn| ->]; unfold level; fold n; [rewrite wav_mag_neg by (assumption || lia)|rewrite wav_mag_0 by (assumption || lia)]; unfold Rdiv; ring. }
  assert (HO : others n m (level (gmw_wave gmw60) (a_l1 a) sci xp) <= eps * level (gmw_wave gmw60) (a_l1 a) sci xp m).
  { rewrite Hlv. apply Rle_trans with (others n m (fun q => nm * gmw60 w / INR n / 1000000 * (if (q =? 0)%nat then 0 else if (q <? n / 2 + 1)%nat then Cabs (sig_dft xp q) else 0))).
    - apply others_weak. intros q Hq Hqm. destruct (Nat.eqb_spec q 0) as [->|Hq0]; [rewrite Z by (auto; lia); lra|].
      pose proof (Nat.div_mod n 2 ltac:(lia)) as DM. pose proof (Nat.mod_upper_bound n 2 ltac:(lia)) as DU.
      destruct (Nat.ltb_spec q (n / 2 + 1)) as [Hh|Hh]; [|rewrite Z by (auto; lia); lra].
      unfold level. fold n nm. destruct (Req_dec (Cabs (sig_dft xp q)) 0) as [E0|E0]; [rewrite E0; unfold Rdiv; lra|].
      assert (Hne : sig_dft xp q <> C0) by (intros K; rewrite K, Cabs_0 in E0; auto).
      pose proof (Ho q ltac:(lia) ltac:(fold n; lia) Hqm Hne) as Hoct.
      assert (B : wav_mag (gmw_wave gmw60) sci n q <= / 1000000 * gmw60 w).
      { eapply Rle_trans; [apply wav_mag_le; (assumption || lia)|]. set (c := sci * (2 * PI / INR n)).
        assert (Hc : 0 < c) by (unfold c; apply Rmult_lt_0_compat; [lra|apply Rdiv_lt_0_compat; lra]).
        assert (Ew : w = c * INR m) by (unfold w, c; field; lra).
        replace (sci * (2 * PI * INR q / INR n)) with (c * INR q) by (unfold c; field; lra).
        destruct Hoct as [Hd|Hd].
        - apply gmw60_octave_down; [apply Rmult_lt_0_compat; [lra|apply lt_0_INR; lia]|lra|]. rewrite Ew.
          apply le_INR in Hd. rewrite mult_INR in Hd. cbn [INR] in Hd. nra.
        - apply gmw60_octave_up; [lra|lra|]. rewrite Ew. apply le_INR in Hd. rewrite mult_INR in Hd. cbn [INR] in Hd. nra. }
      pose proof (Cabs_nonneg (sig_dft xp q)) as Hc. set (c := Cabs (sig_dft xp q)) in *.
      replace (nm * gmw60 w / INR n / 1000000 * c) with (nm * (/ 1000000 * gmw60 w * c / INR n)) by (field; lra).
      apply Rmult_le_compat_l; [lra|]. apply Rmult_le_compat_r; [left; apply Rinv_0_lt_compat; lra|]. apply Rmult_le_compat_r; assumption.
    - rewrite others_scal. unfold eps, rest, lv. fold n.
      assert (Ex : others n m (fun q => if (q =? 0)%nat then 0 else if (q <? n / 2 + 1)%nat then Cabs (sig_dft xp q) else 0) =
        others (n / 2 + 1) m (fun q => if (q =? 0)%nat then 0 else Cabs (sig_dft xp q))).
      { unfold others. pose proof (Nat.div_mod n 2 ltac:(lia)) as DM. pose proof (Nat.mod_upper_bound n 2 ltac:(lia)) as DU.
        replace n with (n / 2 + 1 + (n - (n / 2 + 1)))%nat at 1 by lia. rewrite Rsum_app, (Rsum_0 (n - _)).
        - rewrite Rplus_0_r. apply Rsum_ext. intros q Hq. destruct (q =? m)%nat; [reflexivity|]. destruct (q =? 0)%nat; [reflexivity|].
          destruct (Nat.ltb_spec q (n / 2 + 1)); [reflexivity|lia].
        - intros q Hq. destruct (_ =? m)%nat; [reflexivity|]. destruct (_ =? 0)%nat; [reflexivity|].
          destruct (Nat.ltb_spec (n / 2 + 1 + q) (n / 2 + 1)); [lia|reflexivity]. }
      rewrite Ex. right. field. lra. }
  assert (D := dominant_bin _ _ _ _ _ _ _ _ _ _ _ _ _ i j m eps (fs / 2) default_real Hu E Hfs Hp ltac:(lia)). fold n sci in D. cbv zeta in D. rewrite Bz, Hlv in D.
  split; [exact Hp0|]. apply D; [|lra|exact (eq_ind _ (fun z => _ <= eps * z) HO _ Hlv)|exact He|].
  - apply Rmult_le_pos; [nra|left; apply Rinv_0_lt_compat; lra].
  - intros q Hq Hz. destruct (le_lt_dec (2 * q) n) as [Hn|Hn]; [|exfalso; apply Hz, Z; auto].
    rewrite <- Bz. unfold bin_hz. pose proof (Nat.div_mod n 2 ltac:(lia)) as DM. pose proof (Nat.mod_upper_bound n 2 ltac:(lia)) as DU.
    destruct (Nat.leb_spec q (n / 2)); [|lia]. destruct (Nat.leb_spec m (n / 2)); [|lia].
    replace (INR q * fs / INR n - INR m * fs / INR n) with ((INR q - INR m) * (fs / INR n)) by (field; lra).
    apply le_INR in Hn. rewrite mult_INR in Hn. cbn [INR] in Hn. assert (2 * INR m < INR n).
    { apply lt_INR in H2m. rewrite mult_INR in H2m. cbn [INR] in H2m. lra. }
    pose proof (pos_INR q). rewrite Rabs_mult, (Rabs_right (fs / INR n)) by (apply Rle_ge; left; apply Rdiv_lt_0_compat; lra).
    replace (fs / 2) with (INR n / 2 * (fs / INR n)) by (field; lra).
    apply Rmult_le_compat_r; [left; apply Rdiv_lt_0_compat; lra|]. apply Rabs_le. lra.
Qed.
