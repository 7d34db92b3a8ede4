(** Sums of tones an octave or more apart, through [cwt] and [phase_cwt]. *)
From Coq Require Import Reals Lra Lia ZifyBool ZifyNat.
From Verif Require Import Py Round Cplx CplxProofs Padding PaddingProofs Buffer Freqs Squeeze Scales Cwt CwtProofs CwtThms CwtThms2 CwtTone
  Wavelets WaveletProofs Integral IntegralProofs Admiss AdmissThms AdmissThms2 AdmissThms3 RoundTripGain GmwRoundTrip DefaultRoundTrip ToneThms Separate OctaveSep.
Local Open Scope R_scope.

(** [M] cosines, the [r]-th of amplitude [A r], phase [phi r] and [k r] periods in [n] samples *)
Definition chord (M : nat) (A phi : nat -> R) (k : nat -> nat) (n : nat) : list R :=
  tab n (fun t => Rsum M (fun r => A r * cos (2 * PI * INR (k r) * INR t / INR n + phi r))).
Definition octaves (M : nat) (k : nat -> nat) : Prop :=
  forall r r', (r < M)%nat -> (r' < M)%nat -> r <> r' -> (2 * k r <= k r' \/ 2 * k r' <= k r)%nat.

Lemma chord_length M A phi k n : length (chord M A phi k n) = n.
Proof. apply tab_length. Qed.
Lemma chord_dft M A phi k n q : sig_dft (chord M A phi k n) q = Csum M (fun r => sig_dft (tone (A r) (phi r) (k r) n) q).
Proof.
  unfold sig_dft. rewrite chord_length. unfold dft.
  rewrite (Csum_ext M _ (fun r => Csum n (fun m => Cmul (RtoC (A r * cos (2 * PI * INR (k r) * INR m / INR n + phi r))) (tw n (- (Z.of_nat q * Z.of_nat m)))))).
  - rewrite Csum_swap. apply Csum_ext. intros m Hm. unfold chord. rewrite nth_tab by exact Hm. rewrite <- Csum_RtoC, Csum_scal_r. reflexivity.
  - intros r _. rewrite tone_length. apply Csum_ext. intros m Hm. unfold tone. rewrite nth_tab by exact Hm. reflexivity.
Qed.
(** bins up to the middle *)
Lemma tone_bin A phi k n q : (0 < k)%nat -> (2 * k < n)%nat -> (2 * q <= n)%nat ->
  Cabs (sig_dft (tone A phi k n) q) = if (q =? k)%nat then INR n / 2 * Rabs A else 0.
Proof.
  intros Hk H2 Hq. destruct (Nat.eqb_spec q k) as [->|Hne].
  - rewrite tone_dft_self by assumption. rewrite Cabs_mul, Cabs_cis, Cabs_RtoC, Rabs_mult, (Rabs_right (INR n)) by (apply Rle_ge, pos_INR).
    unfold Rdiv. rewrite Rabs_mult, (Rabs_right (/ 2)) by lra. ring.
  - rewrite tone_dft by (auto; lia). apply Cabs_0.
Qed.
Lemma tone_bin0 A phi k n q : (0 < k)%nat -> (2 * k < n)%nat -> (2 * q <= n)%nat -> q <> k -> sig_dft (tone A phi k n) q = C0.
Proof. intros. apply tone_dft; auto; lia. Qed.

Section Chord.
Variables (M : nat) (A phi : nat -> R) (k : nat -> nat) (n : nat).
Hypothesis Hk : forall r, (r < M)%nat -> (0 < k r)%nat /\ (2 * k r < n)%nat.
Hypothesis Ho : octaves M k.

Lemma chord_bin r : (r < M)%nat -> Cabs (sig_dft (chord M A phi k n) (k r)) = INR n / 2 * Rabs (A r).
Proof.
  intros Hr. rewrite chord_dft. destruct (Hk r Hr) as (K0 & K1). rewrite (Csum_single M _ r Hr).
  - rewrite tone_bin by lia. rewrite Nat.eqb_refl. reflexivity.
  - intros r' Hr' Hne. destruct (Hk r' Hr'). apply tone_bin0; try lia. specialize (Ho r r' Hr Hr' ltac:(auto)). lia.
Qed.
Lemma chord_apart r : (r < M)%nat -> octave_apart (chord M A phi k n) (k r).
Proof.
  intros Hr q Hq0 Hq Hne HX. rewrite chord_length in Hq.
  assert (X : exists r', (r' < M)%nat /\ k r' = q).
  { clear Ho. rewrite chord_dft in HX.
    assert (D : (exists r', (r' < M)%nat /\ k r' = q) \/ (forall r', (r' < M)%nat -> k r' <> q)).
    { clear - k. induction M as [|M' IH]; [right; lia|]. destruct (Nat.eq_dec (k M') q); [left; exists M'; split; [lia|assumption]|].
      destruct IH as [(r' & H1 & H2)|IH]; [left; exists r'; split; [lia|exact H2]|]. right. intros r' H1. destruct (Nat.eq_dec r' M'); [subst; assumption|apply IH; lia]. }
    destruct D as [D|D]; [exact D|]. exfalso. apply HX. apply Csum_0. intros r' Hr'. destruct (Hk r' Hr'). apply tone_bin0; try lia. intros K. apply (D r' Hr'). lia. }
  destruct X as (r' & Hr' & <-). destruct (Nat.eq_dec r' r) as [->|Hn]; [congruence|]. destruct (Ho r' r Hr' Hr Hn); lia.
Qed.
Lemma chord_rest r : (r < M)%nat -> A r <> 0 -> rest (chord M A phi k n) (k r) <= others M r (fun r' => Rabs (A r')) / Rabs (A r).
Proof.
  intros Hr HA. unfold rest. rewrite chord_bin by exact Hr. rewrite chord_length. destruct (Hk r Hr) as (K0 & K1).
  assert (Hn : 0 < INR n) by (apply lt_0_INR; lia). pose proof (Rabs_pos_lt _ HA) as HP.
  set (N := (n / 2 + 1)%nat).
  assert (B : others N (k r) (fun q => if (q =? 0)%nat then 0 else Cabs (sig_dft (chord M A phi k n) q)) <= INR n / 2 * others M r (fun r' => Rabs (A r'))).
  { apply Rle_trans with (Rsum N (fun q => Rsum M (fun r' => if (r' =? r)%nat then 0 else if (q =? k r')%nat then INR n / 2 * Rabs (A r') else 0))).
    - unfold others. apply Rsum_le. intros q Hq. assert (Hq2 : (2 * q <= n)%nat) by (unfold N in Hq; pose proof (Nat.mul_div_le n 2); lia).
      assert (P : 0 <= Rsum M (fun r' => if (r' =? r)%nat then 0 else if (q =? k r')%nat then INR n / 2 * Rabs (A r') else 0)).
      { apply Rsum_nonneg. intros r' _. destruct (r' =? r)%nat; [lra|]. destruct (q =? k r')%nat; [|lra]. apply Rmult_le_pos; [lra|apply Rabs_pos]. }
      destruct (Nat.eqb_spec q (k r)) as [|Hqk]; [exact P|]. destruct (q =? 0)%nat; [exact P|].
      rewrite chord_dft. eapply Rle_trans; [apply Cabs_Csum|]. apply Rsum_le. intros r' Hr'. destruct (Hk r' Hr').
      rewrite tone_bin by lia. destruct (Nat.eqb_spec r' r) as [->|]; [|lra]. destruct (Nat.eqb_spec q (k r)); [congruence|lra].
    - rewrite Rsum_swap. unfold others. rewrite <- Rsum_scal. apply Rsum_le. intros r' Hr'. destruct (Nat.eqb_spec r' r); [rewrite Rsum_0 by reflexivity; lra|].
      destruct (Hk r' Hr'). rewrite (Rsum_single N _ (k r')).
      + rewrite Nat.eqb_refl. lra.
      + unfold N. pose proof (Nat.div_mod n 2 ltac:(lia)). pose proof (Nat.mod_upper_bound n 2 ltac:(lia)). lia.
      + intros q _ Hne. destruct (Nat.eqb_spec q (k r')); [congruence|reflexivity]. }
  apply (Rmult_le_compat_r (/ (INR n / 2 * Rabs (A r)))) in B; [|left; apply Rinv_0_lt_compat; nra].
  eapply Rle_trans; [exact B|]. right. field. lra.
Qed.
End Chord.

(** the phase transform, in the band of tone [r], is near the tone's frequency *)
Theorem chord_phase py inst a M A phi k n s W sc dW s' fs i j r gamma : uncached inst a s -> a_pad a = None ->
  (forall r, (r < M)%nat -> (0 < k r)%nat /\ (2 * k r < n)%nat) -> octaves M k ->
  cwt py inst (gmw_wave gmw60) a (chord M A phi k n) s = (Ok (W, sc, Some dW), s') ->
  process_fs_and_t (a_fs a) (a_t a) n = Ok fs -> 0 < fs -> (r < M)%nat -> A r <> 0 ->
  let w := nth i sc 0 * (2 * PI * INR (k r) / INR n) in
  0 < nth i sc 0 -> 9 <= w ^ 3 <= 30 ->
  let eps := others M r (fun r' => Rabs (A r')) / Rabs (A r) / 1000000 in eps < 1 ->
  let lv := (if a_l1 a then 1 else sqrt (nth i sc 0)) * (gmw60 w * Rabs (A r) / 2) in
  (1 - eps) * lv <= Cabs (el W i j) <= (1 + eps) * lv /\
  (gamma <= (1 - eps) * lv -> exists om, el (phase_cwt gamma W dW) i j = Fin om /\
    Rabs (om - INR (k r) * fs / INR n) <= fs / 2 * eps / (1 - eps)).
Proof.
  intros Hu Hp Hk Ho E Hfs Hf0 Hr HA w Hs Hw eps He lv. destruct (Hk r Hr) as (K0 & K1).
  assert (HnR : 0 < INR n) by (apply lt_0_INR; lia). pose proof (Rabs_pos_lt _ HA) as HP.
  set (x := chord M A phi k n) in *. assert (Lx : length x = n) by apply chord_length.
  assert (Ep : pad_input (a_pad a) x = Ok (x, 0%Z)). { rewrite Hp. unfold pad_input. destruct x; [cbn in Lx; lia|reflexivity]. }
  pose proof (chord_bin M A phi k n Hk Ho r Hr) as Hb. fold x in Hb. pose proof (chord_rest M A phi k n Hk Ho r Hr HA) as Hrest. fold x in Hrest.
  assert (HX : sig_dft x (k r) <> C0). { intros K. rewrite K, Cabs_0 in Hb. nra. }
  assert (Hle : rest x (k r) / 1000000 <= eps) by (unfold eps; apply Rmult_le_compat_r; lra).
  assert (Hr0 : 0 <= rest x (k r)).
  { unfold rest. apply Rmult_le_pos; [|left; apply Rinv_0_lt_compat; apply Cabs_pos, HX]. unfold others. apply Rsum_nonneg. intros q _.
    destruct (q =? k r)%nat; [lra|]. destruct (q =? 0)%nat; [lra|apply Cabs_nonneg]. }
  assert (O := octave_phase py inst a x s W sc dW s' fs x 0%Z i j (k r) Hu E). rewrite Lx in O.
  specialize (O Hfs Hf0 Ep K0 K1 HX (chord_apart M A phi k n Hk Ho r Hr)). cbv zeta in O. fold w in O. specialize (O Hs Hw ltac:(lra)).
  rewrite Hb in O. replace (gmw60 w * (INR n / 2 * Rabs (A r)) / INR n) with (gmw60 w * Rabs (A r) / 2) in O by (field; lra). fold lv in O.
  set (e0 := rest x (k r) / 1000000) in *. destruct O as (P & (B1 & B2) & B3).
  split; [split; nra|]. intros Hg. unfold phase_cwt. cbn [el]. destruct (Rlt_dec (Cabs (el W i j)) gamma) as [L|L]; [exfalso; nra|].
  eexists. split; [reflexivity|]. eapply Rle_trans; [exact B3|]. unfold Rdiv.
  assert (0 <= e0) by (unfold e0; lra). apply Rmult_le_compat; [nra|left; apply Rinv_0_lt_compat; lra|nra|apply Rinv_le_contravar; lra].
Qed.
