(** How close the response of [icwt] after [cwt] is to 1. *)
From Coq Require Import Reals Lra ZifyBool ZifyNat.
From Verif Require Import Py Cplx CplxProofs Padding Freqs Squeeze Scales Cwt CwtProofs CwtThms RoundTrip GainBound.
Local Open Scope R_scope.

(** [nv] scales per octave, exactly *)
Definition voices (sc : list R) (nv : Z) : Prop :=
  (0 < nv)%Z /\ 0 < nth 0 sc 0 /\
  forall i, (S i < length sc)%nat -> nth (S i) sc 0 = nth i sc 0 * Rpower 2 (1 / IZR nv).
(** the wavelet's transform is [g] on positive frequencies, 0 elsewhere *)
Definition spectrum (f : wfun) (g : R -> R) : Prop :=
  (forall w, 0 < w -> wf f w = RtoC (g w)) /\ (forall w, w <= 0 -> wf f w = C0).

Lemma voices_nth sc nv i : voices sc nv -> (i < length sc)%nat -> nth i sc 0 = nth 0 sc 0 * exp (INR i * (ln 2 / IZR nv)).
Proof.
  intros (Hnv & H0 & Hs). assert (IZR nv <> 0) by (apply not_0_IZR; lia). induction i as [|i IH]; intros Hi.
  - replace (INR 0 * _) with 0 by (cbn; ring). rewrite exp_0. ring.
  - rewrite Hs, IH by lia. unfold Rpower. rewrite Rmult_assoc, <- exp_plus, S_INR. f_equal. f_equal. field. assumption.
Qed.

Lemma bin_xi_pos n k : (0 < k < n)%nat -> 0 < bin_xi n k.
Proof.
  intros Hk. unfold bin_xi. pose proof PI_RGT_0. assert (0 < INR n) by (apply lt_0_INR; lia).
  assert (0 < INR (Nat.min k (n - k))) by (apply lt_0_INR; lia).
  apply Rdiv_lt_0_compat; [|assumption]. nra.
Qed.

Lemma bank_neg f g sc xi : spectrum f g -> (forall i, (i < length sc)%nat -> 0 < nth i sc 0) -> xi <= 0 -> bank f sc xi = 0.
Proof.
  intros (_ & Z0) Hs Hx. unfold bank. apply Rsum_0. intros i Hi. rewrite Z0; [reflexivity|]. pose proof (Hs i Hi). nra.
Qed.

Theorem rt_gain_bound f g P c M sc nv Css n k : spectrum f g -> unimodal g c M -> log_primitive g P ->
  voices sc nv -> (0 < length sc)%nat -> 0 < Css -> (0 < k < n)%nat ->
  Rabs (rt_gain f sc nv Css n k - (P (nth (length sc - 1) sc 0 * bin_xi n k) - P (nth 0 sc 0 * bin_xi n k)) / Css)
    <= ln 2 / IZR nv * M / Css.
Proof.
  intros Hf Hg HP Hv HL HC Hk. pose proof (bin_xi_pos n k Hk) as Hxi. set (xi := bin_xi n k) in *. pose proof Hv as (Hnv & H0 & _).
  assert (Pnv : 0 < IZR nv) by (apply IZR_lt; lia). set (d := ln 2 / IZR nv).
  assert (Hd : 0 < d) by (apply Rdiv_lt_0_compat; [rewrite <- ln_1; apply ln_increasing; lra|exact Pnv]).
  assert (Hsp : forall i, (i < length sc)%nat -> 0 < nth i sc 0).
  { intros i Hi. rewrite (voices_nth sc nv) by assumption. apply Rmult_lt_0_compat; [exact H0|apply exp_pos]. }
  set (u := fun i => nth 0 sc 0 * exp (INR i * d) * xi).
  assert (Eu : forall i, (i < length sc)%nat -> nth i sc 0 * xi = u i).
  { intros i Hi. unfold u. rewrite (voices_nth sc nv i) by assumption. reflexivity. }
  assert (EB : bank f sc xi = Rsum (length sc) (fun i => g (u i))).
  { unfold bank. apply Rsum_ext. intros i Hi. rewrite Eu by exact Hi. destruct Hf as (F1 & _). rewrite F1; [reflexivity|].
    rewrite <- Eu by exact Hi. apply Rmult_lt_0_compat; [apply Hsp, Hi|exact Hxi]. }
  assert (EG : rt_gain f sc nv Css n k = d * Rsum (length sc) (fun i => g (u i)) / Css).
  { unfold rt_gain. fold xi d. rewrite (bank_neg f g sc (- xi) Hf Hsp) by lra. rewrite EB.
    destruct (2 * k =? n)%nat; unfold Rdiv; ring. }
  pose proof (sum_vs_integral g P c M d u Hg HP) as SV.
  assert (A1 : forall i, 0 < u i).
  { intros i. unfold u. apply Rmult_lt_0_compat; [|exact Hxi]. apply Rmult_lt_0_compat; [exact H0|apply exp_pos]. }
  assert (A2 : forall i, u (S i) = u i * exp d).
  { intros i. unfold u. rewrite S_INR, Rmult_plus_distr_r, exp_plus, Rmult_1_l. ring. }
  specialize (SV A1 Hd A2 (length sc) HL).
  rewrite EG, !Eu by lia. replace (d * Rsum (length sc) (fun i => g (u i)) / Css - (P (u (length sc - 1)%nat) - P (u 0%nat)) / Css)
    with ((d * Rsum (length sc) (fun i => g (u i)) - (P (u (length sc - 1)%nat) - P (u 0%nat))) * / Css) by (unfold Rdiv; ring).
  rewrite Rabs_mult, (Rabs_right (/ Css)) by (left; apply Rinv_0_lt_compat; exact HC).
  unfold Rdiv at 1. apply Rmult_le_compat_r; [left; apply Rinv_0_lt_compat; exact HC|exact SV].
Qed.

(** reconstruction of every signal: [tau] bounds what the scales leave out of the integral at the bins [xp] occupies *)
Theorem icwt_cwt_close py inst f g P c M a x s W sc dW s' xp n1 f64 nv Css xl xm pt rp tau : spectrum f g -> unimodal g c M ->
  log_primitive g P -> uncached inst a s -> a_l1 a = true -> a_rpadded a = false ->
  cwt py inst f a x s = (Ok (W, sc, dW), s') -> process_scales_arr f64 sc = Ok (KLog nv) -> voices sc nv ->
  pad_input (a_pad a) x = Ok (xp, n1) -> 0 < Css -> 0 <= tau ->
  (forall k, (0 < k < length xp)%nat -> dft (length xp) (fun m => RtoC (nth m xp 0)) k = C0 \/
     Rabs (P (nth (length sc - 1) sc 0 * bin_xi (length xp) k) - P (nth 0 sc 0 * bin_xi (length xp) k) - Css) <= tau) ->
  exists y, icwt f Css W sc f64 None true true xl xm pt rp = Ok y /\ length y = length x /\
    Rsum (length x) (fun j => (nth j y 0 - nth j x 0 - (xm - avg xp)) ^ 2) <=
    ((ln 2 / IZR nv * M + tau) / Css) ^ 2 * Rsum (length xp) (fun i => (nth i xp 0 - avg xp) ^ 2).
Proof.
  intros Hf Hg HP Hu Hl Hrp H Hsc Hv Hpad HC Ht HH. pose proof Hf as (F1 & F0). pose proof Hv as (Hnv & _).
  assert (HL : (0 < length sc)%nat) by (pose proof (SsqCwtInv.process_log_len _ _ _ Hsc); lia).
  apply (icwt_cwt_error py inst f a x s W sc dW s' xp n1 f64 nv Css xl xm pt rp); try assumption.
  - intros w. destruct (Rle_dec w 0); [rewrite F0 by assumption|rewrite F1 by lra]; reflexivity.
  - apply F0. lra.
  - assert (0 <= M) by (destruct Hg as (G0 & _); destruct (G0 1 ltac:(lra)); lra).
    assert (0 < IZR nv) by (apply IZR_lt; lia). assert (0 < ln 2) by (rewrite <- ln_1; apply ln_increasing; lra).
    assert (0 <= ln 2 / IZR nv) by (left; apply Rdiv_lt_0_compat; assumption).
    unfold Rdiv. apply Rmult_le_pos; [|left; apply Rinv_0_lt_compat; exact HC].
    assert (0 <= ln 2 / IZR nv * M) by (apply Rmult_le_pos; assumption). unfold Rdiv in *. lra.
  - intros k Hk. destruct (HH k Hk) as [Z0|B]; [left; exact Z0|right].
    pose proof (rt_gain_bound f g P c M sc nv Css (length xp) k Hf Hg HP Hv HL HC Hk) as GB.
    set (I := P _ - P _) in *. set (G := rt_gain _ _ _ _ _ _) in *.
    replace (G - 1) with ((G - I / Css) + (I - Css) * / Css) by (field; lra).
    eapply Rle_trans; [apply Rabs_triang|]. rewrite Rabs_mult, (Rabs_right (/ Css)) by (left; apply Rinv_0_lt_compat; exact HC).
    replace ((ln 2 / IZR nv * M + tau) / Css) with (ln 2 / IZR nv * M / Css + tau * / Css) by (unfold Rdiv; ring).
    apply Rplus_le_compat; [exact GB|]. apply Rmult_le_compat_r; [left; apply Rinv_0_lt_compat; exact HC|exact B].
Qed.
