(** The tones of a chord, found by [extract_ridges] and taken apart by [issq_cwt] along the ridges. *)
From Coq Require Import Reals Lra Lia List ZifyBool ZifyNat.
Import ListNotations.
From Verif Require Import Py Round Parallel Cplx CplxProofs Padding PaddingProofs Buffer Freqs Squeeze SqueezeProofs SqueezeThms Scales Ssqueeze
  Cwt CwtProofs CwtThms CwtThms2 CwtTone SsqCwt SsqCwtProofs SsqCwtInv Wavelets WaveletProofs Integral IntegralProofs Admiss AdmissThms AdmissThms2 AdmissThms3
  RoundTrip GainBound RoundTripGain RoundTripGain2 GmwRoundTrip DefaultRoundTrip ToneThms Separate OctaveSep ChordSep Reassign ChordSqueeze ChordRecover
  Ridge RidgeProofs RidgeOpt RidgeThms RidgeCurve RidgeBand.
Local Open Scope R_scope.

(** what the threshold may take from, or the other tones add to, an amplitude *)
Definition slack (q : ssq_args) (out : ssq_out) (nv : Z) : R := 11 * ssq_gamma q * (INR (length (r_scales out)) * (ln 2 / IZR nv)).

Lemma within_close w a b : within w a b = true <-> close_rows w a b.
Proof. unfold within, close_rows. lia. Qed.

Lemma full_bounds ord py fam q M A phi k n s out s' fs nv d Css r :
  chord_run ord py fam q M A phi k n s out s' fs nv d -> adm_ssq gmw60 = Ok Css -> (32 <= nv)%Z -> voices (r_scales out) nv ->
  (nth 0 (r_scales out) 0 * (2 * PI * INR (k r) / INR n)) ^ 3 <= 10 ->
  40 <= (nth (length (r_scales out) - 1) (r_scales out) 0 * (2 * PI * INR (k r) / INR n)) ^ 3 -> (r < M)%nat ->
  0 < Css /\ 2 * ssq_gamma q * (INR (length (r_scales out)) * (ln 2 / IZR nv)) <= Css / 2 * slack q out nv /\
  Css / 2 * (97 / 100 * Rabs (A r)) <= full A k n out nv r <= Css / 2 * (103 / 100 * Rabs (A r)).
Proof.
  intros H HC Hnv Hv L1 L2 Hr. pose proof H as (R & _ & Hk & Hn & _ & _ & Hpos & Hg & _). destruct (Hk r Hr) as (K1 & K2).
  assert (HC0 : 37 / 100 - 1 / 400 <= Css).
  { destruct default_adm_ssq as (v & Ev & E1 & E2). rewrite Ev in HC. injection HC as <-. pose proof default_const_low. apply AdmissAcc.abs_le_inv in E1. lra. }
  assert (HL : (0 < length (r_scales out))%nat) by (destruct R as (_ & _ & _ & _ & P & _); apply process_log_len in P; lia).
  assert (Eb : bin_xi n (k r) = 2 * PI * INR (k r) / INR n) by (unfold bin_xi; rewrite Nat.min_l by lia; reflexivity).
  destruct (default_gain (r_scales out) nv Css n (k r) Hv Hnv HL HC ltac:(lia)) as (_ & G); [rewrite Eb; exact L1|rewrite Eb; exact L2|].
  rewrite <- (full_gain_rt _ gmw60) in G; [|apply (gmw_spectrum 3 60 gmw60 ltac:(lra) ltac:(lra) default_gmw)|exact Hpos|exact K1|exact K2|lra|lia].
  split; [lra|]. split.
  - unfold slack. assert (0 <= INR (length (r_scales out)) * (ln 2 / IZR nv)).
    { apply Rmult_le_pos; [apply pos_INR|]. left. apply Rdiv_lt_0_compat; [apply ln2_pos|apply IZR_lt; lia]. }
    set (l := INR _ * _) in *. assert (0 <= ssq_gamma q * l) by (apply Rmult_le_pos; lra). nra.
  - unfold full. set (g := full_gain _ _ _ _ _) in *. apply AdmissAcc.abs_le_inv in G.
    assert (Hg' : g = g / Css * Css) by (field; lra). set (Q := g / Css) in *. rewrite Hg'. pose proof (Rabs_pos (A r)).
    assert (0 <= Rabs (A r) * Css) by (apply Rmult_le_pos; lra). nra.
Qed.

Theorem chord_ridges ord py fam q M A phi k n s out s' fs nv d Css rho w par f64 penalty bw o ratio :
  chord_run ord py fam q M A phi k n s out s' fs nv d -> adm_ssq gmw60 = Ok Css -> (32 <= nv)%Z -> voices (r_scales out) nv ->
  (forall r, (r < M)%nat -> (nth 0 (r_scales out) 0 * (2 * PI * INR (k r) / INR n)) ^ 3 <= 10 /\
     40 <= (nth (length (r_scales out) - 1) (r_scales out) 0 * (2 * PI * INR (k r) / INR n)) ^ 3) ->
  (forall r, (r < M)%nat -> nearest_row out (tone_freq fs (k r) n) (rho r)) ->
  w = 1%nat \/ w = 0%nat /\ (forall r, (r < M)%nat -> centred out fs d (tone_freq fs (k r) n) (rho r)) ->
  extract_ridges par f64 (r_Tx out) (r_scales out) penalty M bw true = Ok o -> sched_ok (length (r_scales out)) par -> 0 <= penalty ->
  (2 * Z.of_nat w < bw)%Z -> (forall r, (r < M)%nat -> (bw + Z.of_nat w <= Z.of_nat (rho r))%Z /\ (rho r + w < n)%nat) ->
  (forall r r', (r < r')%nat -> (r' < M)%nat -> (bw + 2 * Z.of_nat w < Z.abs (Z.of_nat (rho r') - Z.of_nat (rho r)))%Z) ->
  0 <= ratio <= 1 -> (forall r, (r < M)%nat -> 0 < 97 / 100 * Rabs (A r) - slack q out nv) ->
  (forall r r', (r < r')%nat -> (r' < M)%nat ->
     INR (2 * w + 1) * (103 / 100 * Rabs (A r') + slack q out nv) <= ratio * (97 / 100 * Rabs (A r) - slack q out nv)) ->
  2 * (penalty * (INR (2 * w) * (ln 2 / IZR nv)) ^ 2) + INR (n - 1) * eps_of f64 < ln ((1 + eps_of f64) / (ratio ^ 2 + eps_of f64)) ->
  forall r j, (r < M)%nat -> (j < n)%nat -> close_rows w (nth j (r_idx (nth r o ridge0)) 0%nat) (rho r).
Proof.
  intros H HC Hnv Hv Hb Hrho Hw Ho Hs Hpen Hbw Hin Hsep Hratio Hamp Hord Hgap r0 j0 Hr0 Hj0.
  assert (HL2 : 0 < ln 2 / IZR nv) by (apply Rdiv_lt_0_compat; [apply ln2_pos|apply IZR_lt; lia]).
  assert (Hsep' : forall r r', (r < M)%nat -> (r' < M)%nat -> r <> r' -> (rho r + 2 * w < rho r' \/ rho r' + 2 * w < rho r)%nat).
  { intros r r' Hr Hr' Hne. destruct (Nat.lt_ge_cases r r') as [K|K]; [pose proof (Hsep r r' K Hr')|pose proof (Hsep r' r ltac:(lia) Hr)]; lia. }
  destruct (chord_squeezed _ _ _ _ _ _ _ _ _ _ _ _ _ _ _ H rho Hrho) as (R1 & C1 & _).
  destruct (chord_strength _ _ _ _ _ _ _ _ _ _ _ _ _ _ _ H rho w Hrho Hw Hsep') as (Hzero & Hstr).
  set (sc := r_scales out) in *. set (L := length sc) in *. set (eta := slack q out nv) in *.
  assert (FB : forall r, (r < M)%nat -> 0 < Css /\ 2 * ssq_gamma q * (INR L * (ln 2 / IZR nv)) <= Css / 2 * eta /\
    Css / 2 * (97 / 100 * Rabs (A r)) <= full A k n out nv r <= Css / 2 * (103 / 100 * Rabs (A r))).
  { intros r Hr. destruct (Hb r Hr). apply (full_bounds ord py fam q M A phi k n s out s' fs nv d Css r); assumption. }
  set (wd := INR (2 * w + 1)) in *. assert (Hwd : 1 <= wd).
  { unfold wd. replace 1 with (INR 1) by reflexivity. apply le_INR. lia. }
  refine (proj1 (bands_found par f64 (r_Tx out) sc penalty M bw true o (fun r _ => rho r) w (ratio ^ 2) (penalty * (INR (2 * w) * (ln 2 / IZR nv)) ^ 2)
    Ho _ Hpen _ _ _ _ _ r0 j0 Hr0 _)).
  - rewrite R1. exact Hs.
  - split; [split; [apply pow2_ge_0|]; replace 1 with (1 ^ 2) by ring; apply pow_incr; exact Hratio|]. split; [exact Hbw|].
    intros r j Hr Hj. rewrite C1 in Hj. destruct (Hin r Hr) as (I1 & I2). split; [exact I1|]. split; [intros l Hl; apply Hsep; assumption|].
    destruct (Hstr r j Hr Hj) as (_ & m & Hm & Bm & Hlow & Hmax). rewrite R1. exists m. split; [exact Hm|]. split; [apply within_close; exact Bm|].
    destruct (FB r Hr) as (HC0 & He & Hf1 & Hf2). pose proof (Hamp r Hr) as Ha. set (a := 97 / 100 * Rabs (A r) - eta) in *.
    set (T := Cabs (el (r_Tx out) m j)) in *. assert (HT : Css / 2 * a <= wd * T).
    { eapply Rle_trans; [|exact Hlow]. unfold a. fold L in Hlow. fold L. lra. }
    assert (HT0 : 0 < T). { assert (0 < Css / 2 * a) by (apply Rmult_lt_0_compat; lra). apply (Rmult_lt_reg_l wd); lra. }
    split; [unfold energy; fold T; apply pow_lt; exact HT0|]. split.
    + intros f Hf Bf. unfold energy. fold T. apply pow_incr. split; [apply Cabs_nonneg|]. apply Hmax; [exact Hf|apply within_close; exact Bf].
    + intros f Hf Hfar. unfold energy. fold T. replace (ratio ^ 2 * T ^ 2) with ((ratio * T) ^ 2) by ring. apply pow_incr. split; [apply Cabs_nonneg|].
      assert (RT : 0 <= ratio * T) by (apply Rmult_le_pos; lra).
      destruct (existsb (fun r' => within w f (rho r')) (seq 0 M)) eqn:Ex.
      * apply existsb_exists in Ex. destruct Ex as (r' & Ir & Er). apply in_seq in Ir.
        assert (Hlt : (r < r')%nat). { destruct (Nat.lt_ge_cases r r') as [|K]; [assumption|]. exfalso. apply (Hfar r' K). apply within_close. exact Er. }
        destruct (Hstr r' j ltac:(lia) Hj) as (Hup & _). specialize (Hup f Hf Er). destruct (FB r' ltac:(lia)) as (_ & _ & _ & Hu).
        specialize (Hord r r' Hlt ltac:(lia)). fold a in Hord. set (b := 103 / 100 * Rabs (A r') + eta) in *.
        assert (U : Cabs (el (r_Tx out) f j) <= Css / 2 * b). { eapply Rle_trans; [exact Hup|]. unfold b. fold L. lra. }
        apply (Rmult_le_reg_l wd); [lra|]. apply Rle_trans with (Css / 2 * (wd * b)); [nra|]. apply Rle_trans with (ratio * (Css / 2 * a)); [nra|].
        replace (wd * (ratio * T)) with (ratio * (wd * T)) by ring. apply Rmult_le_compat_l; lra.
      * rewrite Hzero; [rewrite Cabs_0; exact RT|exact Hf|exact Hj|]. intros r' Hr'. destruct (within w f (rho r')) eqn:Ew; [|reflexivity]. exfalso.
        assert (existsb (fun r' => within w f (rho r')) (seq 0 M) = true) by (apply existsb_exists; exists r'; split; [apply in_seq; lia|exact Ew]). congruence.
  - intros r j f g Hr Hj Hf Hg Bf Bg. rewrite R1 in Hf, Hg. unfold jump. apply Rmult_le_compat_l; [exact Hpen|].
    assert (V : forall i, (i < L)%nat -> ln (nth i sc 0) = ln (nth 0 sc 0) + INR i * (ln 2 / IZR nv)).
    { intros i Hi. rewrite (voices_nth sc nv i Hv Hi), ln_mult, ln_exp; [reflexivity|apply Hv|apply exp_pos]. }
    rewrite (V f Hf), (V g Hg). replace (ln (nth 0 sc 0) + INR g * (ln 2 / IZR nv) - (ln (nth 0 sc 0) + INR f * (ln 2 / IZR nv))) with ((INR g - INR f) * (ln 2 / IZR nv)) by ring.
    rewrite !Rpow_mult_distr. apply Rmult_le_compat_r; [apply pow2_ge_0|]. rewrite <- (pow2_abs (INR g - INR f)). apply pow_incr. split; [apply Rabs_pos|].
    unfold close_rows in *. apply Rabs_le. split.
    + assert (INR f <= INR (g + 2 * w)) by (apply le_INR; lia). rewrite plus_INR in *. lra.
    + assert (INR g <= INR (f + 2 * w)) by (apply le_INR; lia). rewrite plus_INR in *. lra.
  - apply Rmult_le_pos; [exact Hpen|apply pow2_ge_0].
  - rewrite C1. exact Hgap.
  - intros r Hr. rewrite C1. apply Hin, Hr.
  - rewrite C1. exact Hj0.
Qed.

(** the ridges as [cc], a constant [cw]: each tone within 3% *)
Definition ridge_cc (n M : nat) (o : list (list nat * list R * list R)) : mat Z := Mat n M (fun j r => Z.of_nat (nth j (r_idx (nth r o ridge0)) 0%nat)).
Theorem chord_ridges_recovered ord py fam q M A phi k n s out s' fs nv d Css rho w par f64 penalty bw o ratio v :
  chord_run ord py fam q M A phi k n s out s' fs nv d -> adm_ssq gmw60 = Ok Css -> (32 <= nv)%Z -> voices (r_scales out) nv -> (0 < M)%nat ->
  (forall r, (r < M)%nat -> (nth 0 (r_scales out) 0 * (2 * PI * INR (k r) / INR n)) ^ 3 <= 10 /\
     40 <= (nth (length (r_scales out) - 1) (r_scales out) 0 * (2 * PI * INR (k r) / INR n)) ^ 3) ->
  (forall r, (r < M)%nat -> nearest_row out (tone_freq fs (k r) n) (rho r)) ->
  w = 1%nat \/ w = 0%nat /\ (forall r, (r < M)%nat -> centred out fs d (tone_freq fs (k r) n) (rho r)) ->
  extract_ridges par f64 (r_Tx out) (r_scales out) penalty M bw true = Ok o -> sched_ok (length (r_scales out)) par -> 0 <= penalty ->
  (2 * Z.of_nat w < bw)%Z -> (forall r, (r < M)%nat -> (bw + Z.of_nat w <= Z.of_nat (rho r))%Z /\ (rho r + w < n)%nat) ->
  (forall r r', (r < r')%nat -> (r' < M)%nat -> (bw + 2 * Z.of_nat w < Z.abs (Z.of_nat (rho r') - Z.of_nat (rho r)))%Z) ->
  0 <= ratio <= 1 -> (forall r, (r < M)%nat -> 0 < 97 / 100 * Rabs (A r) - slack q out nv) ->
  (forall r r', (r < r')%nat -> (r' < M)%nat ->
     INR (2 * w + 1) * (103 / 100 * Rabs (A r') + slack q out nv) <= ratio * (97 / 100 * Rabs (A r) - slack q out nv)) ->
  2 * (penalty * (INR (2 * w) * (ln 2 / IZR nv)) ^ 2) + INR (n - 1) * eps_of f64 < ln ((1 + eps_of f64) / (ratio ^ 2 + eps_of f64)) ->
  (Z.of_nat w + 1 <= v < bw)%Z ->
  exists xs, issq_cwt Css (r_Tx out) (Some (ridge_cc n M o, Mat n M (fun _ _ => v))) = Ok (Many xs) /\ length xs = S M /\ nth M xs [] = repeat 0 n /\
  forall r, (r < M)%nat -> length (nth r xs []) = n /\
    forall j, (j < n)%nat -> Rabs (nth j (nth r xs []) 0 - nth j (tone (A r) (phi r) (k r) n) 0) <= 3 / 100 * Rabs (A r) + slack q out nv.
Proof.
  intros H HC Hnv Hv HM Hb Hrho Hw Ho Hs Hpen Hbw Hin Hsep Hratio Hamp Hord Hgap Hcw.
  pose proof (chord_ridges ord py fam q M A phi k n s out s' fs nv d Css rho w par f64 penalty bw o ratio H HC Hnv Hv Hb Hrho Hw Ho Hs Hpen Hbw Hin Hsep Hratio Hamp Hord Hgap) as X.
  apply (chord_recovered ord py fam q M A phi k n s out s' fs nv d Css rho (ridge_cc n M o) (Mat n M (fun _ _ => v)) H HC Hnv Hv Hb HM Hrho); try reflexivity;
    cbn [el ridge_cc].
  - intros j r Hj Hr. specialize (X r j Hr Hj). unfold close_rows in X. lia.
  - intros j r r' Hj Hr Hr' Hne. specialize (X r j Hr Hj). unfold close_rows in X.
    destruct (Nat.lt_ge_cases r r') as [K|K]; [pose proof (Hsep r r' K Hr')|pose proof (Hsep r' r ltac:(lia) Hr)]; lia.
Qed.
