(** The response of [icwt] after [cwt], to second order in the scale step. *)
From Coq Require Import Reals Lra Lia ZifyBool ZifyNat.
From Verif Require Import Py Cplx CplxProofs Padding Freqs Squeeze Scales Cwt CwtProofs CwtThms RoundTrip GainBound GainBound2 RoundTripGain.
Local Open Scope R_scope.

Theorem rt_gain_bound2 f g q V P T sc nv Css n k : spectrum f g -> log_variation g q V -> (forall a b, 0 < a -> a <= b -> V b - V a <= T) ->
  log_primitive g P -> voices sc nv -> (0 < length sc)%nat -> 0 < Css -> (0 < k < n)%nat ->
  let lo := nth 0 sc 0 * bin_xi n k in let hi := nth (length sc - 1) sc 0 * bin_xi n k in let d := ln 2 / IZR nv in
  Rabs (rt_gain f sc nv Css n k - (P hi - P lo + d / 2 * (g lo + g hi)) / Css) <= d ^ 2 / 8 * T / Css.
Proof.
  intros Hf Hg HT HP Hv HL HC Hk lo hi d. pose proof (bin_xi_pos n k Hk) as Hxi. set (xi := bin_xi n k) in *. pose proof Hv as (Hnv & H0 & _).
  assert (Pnv : 0 < IZR nv) by (apply IZR_lt; lia).
  assert (Hd : 0 < d) by (apply Rdiv_lt_0_compat; [rewrite <- ln_1; apply ln_increasing; lra|exact Pnv]).
  assert (Hsp : forall i, (i < length sc)%nat -> 0 < nth i sc 0).
  { intros i Hi. rewrite (voices_nth sc nv) by assumption. apply Rmult_lt_0_compat; [exact H0|apply exp_pos]. }
  set (u0 := nth 0 sc 0 * xi). assert (Hu0 : 0 < u0) by (apply Rmult_lt_0_compat; assumption).
  assert (Eu : forall i, (i < length sc)%nat -> nth i sc 0 * xi = u0 * exp (INR i * d)).
  { intros i Hi. unfold u0. rewrite (voices_nth sc nv i) by assumption. unfold d. ring. }
  destruct (length sc) as [|L] eqn:EL; [lia|].
  assert (EB : bank f sc xi = Rsum (S L) (fun i => g (u0 * exp (INR i * d)))).
  { unfold bank. rewrite EL. apply Rsum_ext. intros i Hi. rewrite Eu by exact Hi. destruct Hf as (F1 & _). rewrite F1; [reflexivity|].
    apply Rmult_lt_0_compat; [exact Hu0|apply exp_pos]. }
  assert (EG : rt_gain f sc nv Css n k = d * Rsum (S L) (fun i => g (u0 * exp (INR i * d))) / Css).
  { unfold rt_gain. fold xi d. rewrite (bank_neg f g sc (- xi) Hf) by (try lra; intros i Hi; apply Hsp; lia). rewrite EB.
    destruct (2 * k =? n)%nat; unfold Rdiv; ring. }
  pose proof (sum_vs_integral2 g q V P d u0 L Hg HP Hu0 Hd) as SV. cbv zeta beta in SV.
  assert (E0 : u0 * exp (INR 0 * d) = lo) by (rewrite <- Eu by lia; reflexivity).
  assert (E1 : u0 * exp (INR L * d) = hi) by (rewrite <- Eu by lia; unfold hi; do 2 f_equal; lia).
  rewrite E0, E1 in SV. rewrite EG. set (Sm := Rsum (S L) _) in *.
  replace (d * Sm / Css - (P hi - P lo + d / 2 * (g lo + g hi)) / Css) with ((d * Sm - d / 2 * (g lo + g hi) - (P hi - P lo)) * / Css) by (unfold Rdiv; ring).
  rewrite Rabs_mult, (Rabs_right (/ Css)) by (left; apply Rinv_0_lt_compat; exact HC).
  unfold Rdiv at 2. apply Rmult_le_compat_r; [left; apply Rinv_0_lt_compat; exact HC|].
  eapply Rle_trans; [exact SV|]. apply Rmult_le_compat_l; [nra|]. apply HT.
  - rewrite <- E0. apply Rmult_lt_0_compat; [exact Hu0|apply exp_pos].
  - rewrite <- E0, <- E1. apply Rmult_le_compat_l; [lra|]. assert (INR 0 * d <= INR L * d) as M by (apply Rmult_le_compat_r; [lra|apply le_INR; lia]).
    destruct M as [M|M]; [left; apply exp_increasing; exact M|rewrite M; lra].
Qed.

(** [tau]: what the scales leave out of the integral; [delta]: the wavelet at the two ends *)
Theorem icwt_cwt_close2 py inst f g q V P T a x s W sc dW s' xp n1 f64 nv Css xl xm pt rp tau delta : spectrum f g ->
  log_variation g q V -> (forall a b, 0 < a -> a <= b -> V b - V a <= T) -> (forall w, 0 < w -> 0 <= g w) ->
  log_primitive g P -> uncached inst a s -> a_l1 a = true -> a_rpadded a = false ->
  cwt py inst f a x s = (Ok (W, sc, dW), s') -> process_scales_arr f64 sc = Ok (KLog nv) -> voices sc nv ->
  pad_input (a_pad a) x = Ok (xp, n1) -> 0 < Css -> 0 <= tau -> 0 <= delta ->
  (forall k, (0 < k < length xp)%nat -> dft (length xp) (fun m => RtoC (nth m xp 0)) k = C0 \/
     let lo := nth 0 sc 0 * bin_xi (length xp) k in let hi := nth (length sc - 1) sc 0 * bin_xi (length xp) k in
     Rabs (P hi - P lo - Css) <= tau /\ g lo <= delta /\ g hi <= delta) ->
  let d := ln 2 / IZR nv in
  exists y, icwt f Css W sc f64 None true true xl xm pt rp = Ok y /\ length y = length x /\
    Rsum (length x) (fun j => (nth j y 0 - nth j x 0 - (xm - avg xp)) ^ 2) <=
    ((d ^ 2 / 8 * T + d * delta + tau) / Css) ^ 2 * Rsum (length xp) (fun i => (nth i xp 0 - avg xp) ^ 2).
Proof.
  intros Hf Hg HT Hp HP Hu Hl Hrp H Hsc Hv Hpad HC Ht Hdl HH d. pose proof Hf as (F1 & F0). pose proof Hv as (Hnv & H0 & _).
  assert (HL : (0 < length sc)%nat) by (pose proof (SsqCwtInv.process_log_len _ _ _ Hsc); lia).
  assert (0 < IZR nv) by (apply IZR_lt; lia). assert (0 < ln 2) by (rewrite <- ln_1; apply ln_increasing; lra).
  assert (Hd : 0 < d) by (apply Rdiv_lt_0_compat; assumption).
  assert (HT0 : 0 <= T) by (specialize (HT 1 1 ltac:(lra) ltac:(lra)); lra).
  apply (icwt_cwt_error py inst f a x s W sc dW s' xp n1 f64 nv Css xl xm pt rp); try assumption.
  - intros w. destruct (Rle_dec w 0); [rewrite F0 by assumption|rewrite F1 by lra]; reflexivity.
  - apply F0. lra.
  - unfold Rdiv at 1. apply Rmult_le_pos; [|left; apply Rinv_0_lt_compat; exact HC].
    assert (0 <= d ^ 2 / 8 * T) by (apply Rmult_le_pos; [nra|exact HT0]). assert (0 <= d * delta) by (apply Rmult_le_pos; lra). lra.
  - intros k Hk. destruct (HH k Hk) as [Z0|(B & B1 & B2)]; [left; exact Z0|right].
    pose proof (rt_gain_bound2 f g q V P T sc nv Css (length xp) k Hf Hg HT HP Hv HL HC Hk) as GB. cbv zeta in GB. fold d in GB.
    set (lo := nth 0 sc 0 * bin_xi (length xp) k) in *. set (hi := nth (length sc - 1) sc 0 * bin_xi (length xp) k) in *.
    assert (Plo : 0 < lo) by (apply Rmult_lt_0_compat; [exact H0|apply bin_xi_pos, Hk]).
    assert (Phi : 0 < hi).
    { unfold hi. rewrite (voices_nth sc nv) by (assumption || lia).
      apply Rmult_lt_0_compat; [apply Rmult_lt_0_compat; [exact H0|apply exp_pos]|apply bin_xi_pos, Hk]. }
    pose proof (Hp lo Plo). pose proof (Hp hi Phi).
    set (G := rt_gain _ _ _ _ _ _) in *. set (e := d / 2 * (g lo + g hi)) in *.
    assert (He : Rabs e <= d * delta) by (rewrite Rabs_right; unfold e; nra).
    replace (G - 1) with ((G - (P hi - P lo + e) / Css) + (e + (P hi - P lo - Css)) * / Css) by (field; lra).
    eapply Rle_trans; [apply Rabs_triang|]. rewrite Rabs_mult, (Rabs_right (/ Css)) by (left; apply Rinv_0_lt_compat; exact HC).
    replace ((d ^ 2 / 8 * T + d * delta + tau) / Css) with (d ^ 2 / 8 * T / Css + (d * delta + tau) * / Css) by (unfold Rdiv; ring).
    apply Rplus_le_compat; [exact GB|]. apply Rmult_le_compat_r; [left; apply Rinv_0_lt_compat; exact HC|].
    eapply Rle_trans; [apply Rabs_triang|]. lra.
Qed.

(** a function that rises, falls, then rises again *)
Lemma three_pieces q a b : 0 < a -> a <= b -> (forall x y, 0 < x -> x <= y -> y <= a -> q x <= q y) ->
  (forall x y, a <= x -> x <= y -> y <= b -> q y <= q x) -> (forall x y, b <= x -> x <= y -> q x <= q y) ->
  (forall x, 0 < x <= a -> 0 <= q x) -> (forall x, b <= x -> q x <= 0) ->
  exists V, (forall x y, 0 < x -> x <= y -> Rabs (q y - q x) <= V y - V x) /\
    (forall x y, 0 < x -> x <= y -> V y - V x <= 2 * (q a - q b)).
Proof.
  intros Ha Hab U1 D U2 P N.
  exists (fun w => if Rle_dec w a then q w else if Rle_dec w b then 2 * q a - q w else 2 * q a - 2 * q b + q w).
  split; intros x y Hx Hxy.
  - destruct (Rle_dec x a); destruct (Rle_dec y a); try lra.
    + rewrite Rabs_right; [lra|]. pose proof (U1 x y). lra.
    + pose proof (U1 x a Hx ltac:(lra) ltac:(lra)). destruct (Rle_dec y b).
      * pose proof (D a y ltac:(lra) ltac:(lra) ltac:(lra)). apply Rabs_le. lra.
      * pose proof (D a b ltac:(lra) ltac:(lra) ltac:(lra)). pose proof (U2 b y ltac:(lra) ltac:(lra)). apply Rabs_le. lra.
    + destruct (Rle_dec x b); destruct (Rle_dec y b); try lra.
      * pose proof (D x y ltac:(lra) ltac:(lra) ltac:(lra)). rewrite Rabs_left1; lra.
      * pose proof (D x b ltac:(lra) ltac:(lra) ltac:(lra)). pose proof (U2 b y ltac:(lra) ltac:(lra)). apply Rabs_le. lra.
      * pose proof (U2 x y ltac:(lra) ltac:(lra)). rewrite Rabs_right; lra.
  - pose proof (P a ltac:(lra)). pose proof (N b ltac:(lra)). pose proof (D a b ltac:(lra) ltac:(lra) ltac:(lra)).
    destruct (Rle_dec x a); destruct (Rle_dec y a); try lra.
    + pose proof (P x ltac:(lra)). pose proof (U1 y a ltac:(lra) ltac:(lra) ltac:(lra)).
      pose proof (P y ltac:(lra)). lra.
    + pose proof (P x ltac:(lra)). destruct (Rle_dec y b).
      * pose proof (D y b ltac:(lra) ltac:(lra) ltac:(lra)). lra.
      * pose proof (N y ltac:(lra)). lra.
    + destruct (Rle_dec x b); destruct (Rle_dec y b); try lra.
      * pose proof (D y b ltac:(lra) ltac:(lra) ltac:(lra)). pose proof (D a x ltac:(lra) ltac:(lra) ltac:(lra)). lra.
      * pose proof (N y ltac:(lra)). pose proof (D a x ltac:(lra) ltac:(lra) ltac:(lra)). lra.
      * pose proof (N y ltac:(lra)). pose proof (D a b ltac:(lra) ltac:(lra) ltac:(lra)). pose proof (U2 b x ltac:(lra) ltac:(lra)). lra.
Qed.
