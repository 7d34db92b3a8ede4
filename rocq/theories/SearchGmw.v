(** [find_maximum] and [scale_to_freq] applied to the GMW. *)
From Coq Require Import Reals Lra ZifyBool ZifyNat.
From Verif Require Import Py Round Cplx CplxProofs Squeeze Scales Cwt Wavelets WaveletProofs Search SearchProofs
  FreqScale FreqScaleProofs.
Local Open Scope R_scope.

Section Gmw.
Variables (gamma beta : R) (f : R -> R).
Hypotheses (Hg : 0 < gamma) (Hb : 0 < beta) (E : gmw_l1 gamma beta false = Ok f).
Let wp := Rpower (beta / gamma) (1 / gamma).
Lemma gmw_up x y : 0 <= x -> x < y -> y <= wp -> f x < f y.
Proof.
  intros H1 H2 H3. destruct (gmw_l1_unimodal gamma beta f Hg Hb E) as [U _].
  destruct (gmw_l1_peaks gamma beta f Hg Hb E) as (_ & _ & P & Z).
  destruct (Rle_lt_or_eq_dec 0 x H1) as [H|H]; [now apply U|]. rewrite (Z x) by lra. apply P. lra.
Qed.
Lemma gmw_nonneg x : 0 <= f x.
Proof.
  destruct (gmw_l1_peaks gamma beta f Hg Hb E) as (_ & _ & P & Z).
  destruct (Rlt_dec 0 x); [left; auto|]. right. symmetry. apply Z. lra.
Qed.
Theorem gmw_find_maximum : wp <= 980 -> exists fuel x,
  find_maximum (fun w => Rabs (f w)) default_args (-1) fuel = Some (Ok (x, Rabs (f x))) /\
  Rabs (x - wp) < 1 / 1000.
Proof.
  intros Hw. destruct (gmw_l1_unimodal gamma beta f Hg Hb E) as [_ D]. fold wp in D.
  assert (A : forall x, Rabs (f x) = f x) by (intros; apply Rabs_right; pose proof (gmw_nonneg x); lra).
  destruct (find_maximum_unimodal (fun w => Rabs (f w)) default_args (-1) wp) as (fuel & x & E1 & E2).
  - rewrite default_steps. lia.
  - rewrite default_increment. lia.
  - intros x y. rewrite !A. cbn [sa_start default_args]. apply gmw_up.
  - intros x y. rewrite !A. apply D.
  - cbn. left. apply exp_pos.
  - intros x _. rewrite A. pose proof (gmw_nonneg x). lra.
  - rewrite default_increment. cbn [sa_limit default_args]. lra.
  - exists fuel, x. split; [exact E1|]. rewrite default_steps, default_increment in E2. lra.
Qed.
Theorem gmw_scale_to_freq scales N fs b i : (2 <= length scales)%nat ->
  (2 <= N)%nat \/ (b = false /\ (1 <= N)%nat) -> (i < length scales)%nat -> 0 < fs -> 0 < nth i scales 0 ->
  let n := padded_len N b in
  wp <= nth i scales 0 * (2 * PI) * (INR (n / 2) / INR n) ->
  exists freqs, scale_to_freq (WF (fun w => RtoC (f w)) false GmwL1) scales N fs b = Ok freqs /\
    Rabs (nth i freqs 0 - fs * wp / (2 * PI * nth i scales 0)) < fs / INR n.
Proof.
  intros Hs HN Hi Hf Hsc n Hw.
  destruct (gmw_l1_unimodal gamma beta f Hg Hb E) as [_ D].
  destruct (gmw_l1_peaks gamma beta f Hg Hb E) as (_ & _ & P & Z).
  apply (scale_to_freq_unimodal (WF (fun w => RtoC (f w)) false GmwL1) scales N fs b Hs HN f wp); auto.
  apply gmw_up.
Qed.
End Gmw.
