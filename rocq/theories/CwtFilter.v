(** Weighting the rows of [cwt] and inverting filters the signal. *)
From Coq Require Import Reals Lra ZifyBool ZifyNat.
From Verif Require Import Py Round Cplx CplxProofs Padding PaddingProofs Buffer Freqs Squeeze Scales IssqProofs Cwt CwtProofs CwtThms CwtThms2 CwtTone
  SsqCwt SsqCwtProofs SsqCwtInv RoundTrip.
Local Open Scope R_scope.

(** one real weight for each row *)
Definition weigh (m : nat -> R) (W : mat C) : mat C := Mat (nrows W) (ncols W) (fun i j => Cmul (RtoC (m i)) (el W i j)).
(** the wavelets at frequency [xi], weighted and summed over the scales *)
Definition wbank (f : wfun) (m : nat -> R) (sc : list R) (xi : R) : R := Rsum (length sc) (fun i => m i * Re (wf f (nth i sc 0 * xi))).
Definition wgain (f : wfun) (m : nat -> R) (sc : list R) (nv : Z) (Css : R) (n k : nat) : R :=
  (if (2 * k =? n)%nat then wbank f m sc (bin_xi n k) else wbank f m sc (bin_xi n k) + wbank f m sc (- bin_xi n k)) * (ln 2 / IZR nv / Css).

Lemma wbank_sum f m sc n (x : list R) j : real_valued f -> length x = n -> (0 < n)%nat ->
  Rsum (length sc) (fun i => m i * Re (row_val f (nth i sc 0) x j)) =
  Re (idft n (fun k => Cmul (RtoC (Rsum (length sc) (fun i => m i * Re (psih_val f (nth i sc 0) n false k)))) (sig_dft x k)) j).
Proof.
  intros Hr Hx Hn. subst n. unfold row_val. generalize (length sc) as L. induction L as [|L IH]; cbn [Rsum].
  - symmetry. rewrite (idft_ext _ _ (fun k => Cmul C0 (sig_dft x k))) by (intros; reflexivity). rewrite idft_scal. cbn. ring.
  - rewrite IH. replace (m L * Re (idft _ _ _)) with (Re (Cmul (RtoC (m L)) (idft (length x) (fun k => Cmul (psih_val f (nth L sc 0) (length x) false k) (sig_dft x k)) j))).
    2:{ unfold Re, Cmul, RtoC. cbn [fst snd]. set (z := idft (length x) _ j). change (m L * fst z - 0 * snd z = m L * fst z). ring. }
    rewrite <- idft_scal, <- Re_idft_add. f_equal. apply idft_ext. intros k Hk. rewrite (psih_real f (nth L sc 0) _ k Hr) at 1.
    apply C_eq; cbn; ring.
Qed.

Theorem icwt_weighted py inst f a x s W sc dW s' xp n1 f64 nv Css xl xm pt rp m : real_valued f -> uncached inst a s ->
  a_l1 a = true -> a_rpadded a = false ->
  cwt py inst f a x s = (Ok (W, sc, dW), s') -> process_scales_arr f64 sc = Ok (KLog nv) ->
  pad_input (a_pad a) x = Ok (xp, n1) ->
  icwt f Css (weigh m W) sc f64 None true true xl xm pt rp =
  Ok (tab (length x) (fun j => filtered (wgain f m sc nv Css (length xp)) xp (Z.to_nat n1 + j) + xm)).
Proof.
  intros Hr Hu Hl Hrp H Hsc Hpad.
  pose proof (cwt_gmw _ _ _ _ _ _ _ _ H) as Hg. rewrite Hl in Hg.
  destruct (cwt_rows _ _ _ _ _ _ _ _ _ _ Hr Hu H) as (fs & xp' & n1' & _ & Ep & Hn & HW & _). rewrite Hpad in Ep. injection Ep as <- <-.
  destruct (cwt_ncols _ _ _ _ _ _ _ _ _ _ H) as (_ & Hn2). rewrite Hrp in Hn2. cbn [andb] in Hn2.
  rewrite (icwt_log_mean f Css (weigh m W) sc f64 nv) by auto. f_equal. cbn [weigh nrows ncols el].
  assert (Hc : ncols W = length x) by lia. rewrite Hc. apply tab_ext. intros j Hj. f_equal.
  destruct (pad_window _ _ _ _ Hpad) as (W1 & W2 & _). assert (Hxp : (0 < length xp)%nat) by lia.
  rewrite Hn.
  rewrite (Rsum_ext _ _ (fun i => m i * Re (row_val f (nth i sc 0) xp (Z.to_nat n1 + j)))).
  2:{ intros i Hi. replace (Re (Cmul (RtoC (m i)) (el W i j))) with (m i * Re (el W i j)) by (unfold Re, Cmul, RtoC; cbn [fst snd]; ring). f_equal. rewrite HW. unfold finish_cell. rewrite Hl, Hrp. cbn [negb andb].
      destruct (a_pad a) as [p|]; [reflexivity|]. cbn in Hpad. destruct x; [discriminate|]. injection Hpad as <- <-. reflexivity. }
  rewrite (wbank_sum f m sc (length xp)) by auto. unfold filtered, sig_dft.
  set (P := fun k => Rsum (length sc) (fun i => m i * Re (psih_val f (nth i sc 0) (length xp) false k))).
  transitivity (2 * Re (idft (length xp) (fun k => Cmul (RtoC (P k)) (dft (length xp) (fun m => RtoC (nth m xp 0)) k)) (Z.to_nat n1 + j)) * (ln 2 / IZR nv / Css)).
  { unfold P, Rdiv. ring. }
  rewrite (Re_fold (length xp) P (fun m => nth m xp 0)) by exact Hxp.
  set (c := ln 2 / IZR nv / Css).
  rewrite <- (Rmult_comm c). replace (c * Re (idft _ _ _)) with
    (Re (Cmul (RtoC c) (idft (length xp) (fun k => Cmul (RtoC (P k + P ((length xp - k) mod length xp)))
      (dft (length xp) (fun m => RtoC (nth m xp 0)) k)) (Z.to_nat n1 + j)))) by (unfold Re, Cmul, RtoC; cbn [fst snd]; ring).
  rewrite <- idft_scal. f_equal. apply idft_ext. intros k Hk.
  assert (E : P k + P ((length xp - k) mod length xp)%nat =
     if (2 * k =? length xp)%nat then wbank f m sc (bin_xi (length xp) k) else wbank f m sc (bin_xi (length xp) k) + wbank f m sc (- bin_xi (length xp) k)).
  { unfold P. rewrite <- Rsum_plus. unfold wbank. destruct (2 * k =? length xp)%nat eqn:Ek.
    - apply Rsum_ext. intros i Hi. rewrite <- Rmult_plus_distr_l, psih_fold, Ek by exact Hk. reflexivity.
    - rewrite <- Rsum_plus. apply Rsum_ext. intros i Hi. rewrite <- !Rmult_plus_distr_l, psih_fold, Ek by exact Hk. reflexivity. }
  rewrite E. unfold wgain. fold c. apply C_eq; cbn [Cmul RtoC fst snd]; ring.
Qed.

(** ** What the gain is *)
(** rows [p .. p+L-1] kept: the gain of those scales alone *)
Lemma wbank_mask f sc p L xi : (p + L <= length sc)%nat -> wbank f (fun i => if ((p <=? i) && (i <? p + L))%nat then 1 else 0) sc xi = bank f (firstn L (skipn p sc)) xi.
Proof.
  intros H. unfold wbank, bank. rewrite firstn_length, skipn_length, Nat.min_l by lia. replace (length sc) with (p + (L + (length sc - p - L)))%nat by lia. rewrite !Rsum_app.
  rewrite (Rsum_0 p), (Rsum_0 (length sc - p - L)).
  - rewrite Rplus_0_l, Rplus_0_r. apply Rsum_ext. intros i Hi.
    destruct (Nat.leb_spec p (p + i)); [|lia]. destruct (Nat.ltb_spec (p + i) (p + L)); [|lia]. cbn [andb]. rewrite Rmult_1_l. do 3 f_equal.
    rewrite <- (firstn_skipn p sc) at 1. rewrite app_nth2; rewrite firstn_length, Nat.min_l by lia; [|lia]. replace (p + i - p)%nat with i by lia.
    rewrite <- (firstn_skipn L (skipn p sc)) at 1. rewrite app_nth1; [reflexivity|]. rewrite firstn_length, skipn_length. lia.
  - intros i Hi. destruct (Nat.ltb_spec (p + (L + i)) (p + L)); [lia|]. rewrite Bool.andb_false_r. ring.
  - intros i Hi. destruct (Nat.leb_spec p i); [lia|]. cbn [andb]. ring.
Qed.
Theorem wgain_mask f sc p L nv Css n k : (p + L <= length sc)%nat ->
  wgain f (fun i => if ((p <=? i) && (i <? p + L))%nat then 1 else 0) sc nv Css n k = rt_gain f (firstn L (skipn p sc)) nv Css n k.
Proof. intros H. unfold wgain, rt_gain. rewrite !wbank_mask by exact H. reflexivity. Qed.
(** a nonnegative wavelet: the gain lies between the least and the largest weight times the gain of the plain round trip *)
Theorem wgain_between f m sc nv Css n k lo hi : (forall w, 0 <= Re (wf f w)) -> (1 <= nv)%Z -> 0 < Css -> (forall i, (i < length sc)%nat -> lo <= m i <= hi) ->
  lo * rt_gain f sc nv Css n k <= wgain f m sc nv Css n k <= hi * rt_gain f sc nv Css n k.
Proof.
  intros Hf Hnv HC Hm. assert (B : forall xi, lo * bank f sc xi <= wbank f m sc xi <= hi * bank f sc xi).
  { intros xi. unfold bank, wbank. rewrite <- !Rsum_scal. split; apply Rsum_le; intros i Hi; apply Rmult_le_compat_r; try apply Hf; apply Hm, Hi. }
  unfold wgain, rt_gain. set (c := ln 2 / IZR nv / Css).
  assert (Hc : 0 <= c). { unfold c. apply IZR_le in Hnv. pose proof (ln_lt_2) as L2. left. repeat apply Rdiv_lt_0_compat; lra. }
  pose proof (B (bin_xi n k)). pose proof (B (- bin_xi n k)). destruct (2 * k =? n)%nat; nra.
Qed.

(** ** Keeping one part of a signal and dropping another *)
Lemma filtered_lin H u v j : length u = length v -> filtered H (lin 1 1 u v) j = filtered H u j + filtered H v j.
Proof.
  intros HL. unfold filtered. rewrite lin_length by exact HL. rewrite <- HL. rewrite <- Re_idft_add. f_equal. apply idft_ext. intros k Hk.
  pose proof (sig_dft_lin 1 1 u v k HL) as E. unfold sig_dft in E. rewrite lin_length, <- HL in E by exact HL. rewrite E. apply C_eq; cbn; ring.
Qed.
Lemma filter_drops H x eps : (0 < length x)%nat -> H 0%nat = 0 -> 0 <= eps ->
  (forall k, (0 < k < length x)%nat -> dft (length x) (fun m => RtoC (nth m x 0)) k = C0 \/ Rabs (H k) <= eps) ->
  Rsum (length x) (fun j => filtered H x j ^ 2) <= eps ^ 2 * Rsum (length x) (fun j => (nth j x 0 - avg x) ^ 2).
Proof.
  intros Hn H0 He HH. set (n := length x) in *.
  pose (H1 := fun k => if (k =? 0)%nat then 0 else H k + 1).
  eapply Rle_trans; [|apply (filter_error H1 x eps Hn eq_refl He)].
  - apply Req_le. apply Rsum_ext. intros j Hj. f_equal. fold n.
    pose (D := fun k => if (k =? 0)%nat then 0 else 1).
    assert (E1 : filtered H1 x j = filtered H x j + filtered D x j).
    { unfold filtered. fold n. rewrite <- Re_idft_add. f_equal. apply idft_ext. intros k Hk. unfold H1, D. destruct (Nat.eqb_spec k 0) as [->|]; [rewrite H0|]; apply C_eq; cbn; ring. }
    assert (E2 : filtered D x j = nth j x 0 - avg x).
    { pose proof (filter_error D x 0 Hn eq_refl (Rle_refl 0)) as F. fold n in F. rewrite pow_i, Rmult_0_l in F by lia.
      assert (F0 : Rsum n (fun j => (filtered D x j - (nth j x 0 - avg x)) ^ 2) <= 0).
      { apply F. intros k Hk. right. unfold D. destruct (Nat.eqb_spec k 0); [lia|]. rewrite Rminus_diag_eq, Rabs_R0 by reflexivity. lra. }
      assert (F1 : (filtered D x j - (nth j x 0 - avg x)) ^ 2 <= 0).
      { eapply Rle_trans; [|exact F0]. pose proof (Rsum_window n j 1 (fun j => (filtered D x j - (nth j x 0 - avg x)) ^ 2) ltac:(unfold n in *; lia) (fun i => pow2_ge_0 _)) as Hw. cbn [Rsum] in Hw. rewrite Nat.add_0_r in Hw. lra. }
      pose proof (pow2_ge_0 (filtered D x j - (nth j x 0 - avg x))). nra. }
    rewrite E1, E2. ring.
  - intros k Hk. destruct (HH k Hk) as [E|E]; [left; exact E|right]. unfold H1. destruct (Nat.eqb_spec k 0); [lia|]. replace (H k + 1 - 1) with (H k) by ring. exact E.
Qed.
Theorem filter_picks H u v eps : length u = length v -> (0 < length u)%nat -> H 0%nat = 0 -> 0 <= eps ->
  (forall k, (0 < k < length u)%nat -> dft (length u) (fun m => RtoC (nth m u 0)) k = C0 \/ Rabs (H k - 1) <= eps) ->
  (forall k, (0 < k < length u)%nat -> dft (length u) (fun m => RtoC (nth m v 0)) k = C0 \/ Rabs (H k) <= eps) ->
  Rsum (length u) (fun j => (filtered H (lin 1 1 u v) j - (nth j u 0 - avg u)) ^ 2) <=
  2 * eps ^ 2 * (Rsum (length u) (fun j => (nth j u 0 - avg u) ^ 2) + Rsum (length u) (fun j => (nth j v 0 - avg v) ^ 2)).
Proof.
  intros HL Hn H0 He HU HV. pose proof (filter_error H u eps Hn H0 He HU) as A.
  assert (B : Rsum (length v) (fun j => filtered H v j ^ 2) <= eps ^ 2 * Rsum (length v) (fun j => (nth j v 0 - avg v) ^ 2)) by (apply filter_drops; rewrite <- ?HL; assumption).
  rewrite <- HL in B.
  apply Rle_trans with (2 * (Rsum (length u) (fun j => (filtered H u j - (nth j u 0 - avg u)) ^ 2) + Rsum (length u) (fun j => filtered H v j ^ 2))); [|lra].
  rewrite <- Rsum_plus, <- Rsum_scal. apply Rsum_le. intros j Hj. rewrite filtered_lin by exact HL.
  set (p := filtered H u j - (nth j u 0 - avg u)). set (q := filtered H v j). replace (filtered H u j + q - (nth j u 0 - avg u)) with (p + q) by (unfold p; ring).
  pose proof (pow2_ge_0 (p - q)). nra.
Qed.

(** a signal made of two parts: rows weighted so that the gain is near 1 where the first has energy and near 0 where the second has *)
Theorem icwt_picks py inst f a u v s W sc dW s' up n1 f64 nv Css xl xm pt rp m eps : length u = length v -> real_valued f -> uncached inst a s ->
  a_l1 a = true -> a_rpadded a = false -> wf f 0 = C0 -> 0 <= eps ->
  cwt py inst f a (lin 1 1 u v) s = (Ok (W, sc, dW), s') -> process_scales_arr f64 sc = Ok (KLog nv) ->
  pad_input (a_pad a) u = Ok (up, n1) -> exists vp, pad_input (a_pad a) v = Ok (vp, n1) /\
  ((forall k, (0 < k < length up)%nat -> dft (length up) (fun m => RtoC (nth m up 0)) k = C0 \/ Rabs (wgain f m sc nv Css (length up) k - 1) <= eps) ->
   (forall k, (0 < k < length up)%nat -> dft (length up) (fun m => RtoC (nth m vp 0)) k = C0 \/ Rabs (wgain f m sc nv Css (length up) k) <= eps) ->
   exists y, icwt f Css (weigh m W) sc f64 None true true xl xm pt rp = Ok y /\ length y = length u /\
     Rsum (length u) (fun j => (nth j y 0 - nth j u 0 - (xm - avg up)) ^ 2) <=
     2 * eps ^ 2 * (Rsum (length up) (fun i => (nth i up 0 - avg up) ^ 2) + Rsum (length up) (fun i => (nth i vp 0 - avg vp) ^ 2))).
Proof.
  intros HL Hr Hu Hl Hrp Hf0 He H Hsc Hpad. destruct (pad_lin _ 1 1 u v up n1 HL Hpad) as (vp & Hv & Lv & Hz). exists vp. split; [exact Hv|]. intros HU HV.
  assert (Lp : length (lin 1 1 up vp) = length up) by (apply lin_length; lia).
  eexists. split; [eapply icwt_weighted; eassumption|]. rewrite Lp. split; [rewrite tab_length; apply lin_length, HL|].
  set (G := wgain f m sc nv Css (length up)) in *.
  assert (G0 : G 0%nat = 0).
  { unfold G, wgain, bin_xi. cbn [Nat.min]. replace (2 * PI * INR 0 / INR (length up)) with 0 by (cbn; unfold Rdiv; ring).
    assert (B0 : wbank f m sc 0 = 0).
    { unfold wbank. apply Rsum_0. intros i _. rewrite Rmult_0_r, Hf0. cbn. ring. }
    rewrite Ropp_0, B0. destruct (2 * 0 =? length up)%nat; ring. }
  destruct (pad_window _ _ _ _ Hpad) as (W1 & W2' & W3). assert (W2 : (0 < length up)%nat) by lia.
  apply Rle_trans with (2 := filter_picks G up vp eps ltac:(lia) W2 G0 He HU HV).
  rewrite (Rsum_ext (length u) _ (fun j => (filtered G (lin 1 1 up vp) (Z.to_nat n1 + j) - (nth (Z.to_nat n1 + j) up 0 - avg up)) ^ 2)).
  2:{ intros j Hj. rewrite nth_tab by (rewrite lin_length by exact HL; exact Hj). rewrite <- (W3 j Hj). f_equal. ring. }
  apply (Rsum_window (length up) (Z.to_nat n1) (length u) (fun i => (filtered G (lin 1 1 up vp) i - (nth i up 0 - avg up)) ^ 2)); [exact W1|].
  intros. apply pow2_ge_0.
Qed.
