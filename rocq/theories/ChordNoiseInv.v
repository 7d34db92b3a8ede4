(** Taking the tones of a chord out of noise with [issq_cwt]. *)
From Coq Require Import Reals Lra Lia List ZifyBool ZifyNat.
Import ListNotations.
From Verif Require SsqRoundTrip.
From Verif Require Import Py Round Parallel Cplx CplxProofs Padding PaddingProofs Buffer Freqs Squeeze SqueezeProofs SqueezeThms Scales Ssqueeze SsqueezeProofs IssqProofs
  Cwt CwtProofs CwtThms CwtThms2 CwtTone SsqCwt SsqCwtProofs SsqCwtInv Admiss AdmissThms2 SsqThms ToneThms ChordSep Reassign ChordSqueeze NoiseSsq CwtNoise CwtNoiseSsq ChordNoise.
Local Open Scope R_scope.

Theorem noisy_components ord py f fam q y M A phi k n s out s' fs nv d P rho Css cc cw : chord_noise_run ord py f fam q y M k n s out s' fs nv d P rho -> 0 < Css -> (0 < M)%nat ->
  nrows cc = n -> ncols cc = M -> nrows cw = n -> ncols cw = M ->
  (forall j r, (j < n)%nat -> (r < M)%nat -> (0 <= el cc j r)%Z /\ (Z.abs (el cc j r - Z.of_nat (rho r)) + 1 <= el cw j r)%Z) ->
  (forall j r r', (j < n)%nat -> (r < M)%nat -> (r' < M)%nat -> r' <> r -> (el cw j r + 1 < Z.abs (el cc j r - Z.of_nat (rho r')))%Z) ->
  let sc := r_scales out in let nu := P * dist2 y (chord M A phi k n) in
  exists xs, issq_cwt Css (r_Tx out) (Some (cc, cw)) = Ok (Many xs) /\ length xs = S M /\
  (forall j, (j < n)%nat -> Rabs (nth j (nth M xs []) 0) <= 2 / Css * chord_stray f sc nv M nu d A k n) /\
  forall r, (r < M)%nat -> length (nth r xs []) = n /\
    forall j, (j < n)%nat -> Rabs (nth j (nth r xs []) 0 - nth j (tone (A r * (full_gain f sc nv (k r) n / Css)) (phi r) (k r) n) 0)
      <= 2 / Css * chord_err f sc nv M nu d (ssq_gamma q) A k n r.
Proof.
  intros H HC HM Hc1 Hc2 Hw1 Hw2 Hband Hother sc nu. destruct (noisy_chord ord py f fam q y M A phi k n s out s' fs nv d P rho H) as (R1 & C1' & T). fold sc nu in R1, T.
  set (f' := fun l : list R => map (fun y => y * (2 / Css)) l).
  set (sum := fun g => tab (ncols (r_Tx out)) (fun m => Rsum (nrows (r_Tx out)) (fun i => Re (g i m)))).
  exists (map f' (map (fun r => sum (masked (nrows (r_Tx out)) cc cw (r_Tx out) r)) (seq 0 M) ++ [sum (remainder M (nrows (r_Tx out)) cc cw (r_Tx out))])).
  assert (Hf' : forall g j, (j < n)%nat -> nth j (f' (sum g)) 0 = Rsum (length sc) (fun i => Re (g i j)) * (2 / Css)).
  { intros g j Hj. unfold f', sum. rewrite C1', R1. set (h := fun y => y * (2 / Css)). rewrite (nth_indep _ 0 (h 0)) by (rewrite map_length, tab_length; exact Hj).
    rewrite map_nth, nth_tab by exact Hj. reflexivity. }
  assert (Lf : forall g, length (f' (sum g)) = n) by (intros g; unfold f', sum; rewrite map_length, tab_length; exact C1').
  assert (HC2 : 0 < 2 / Css) by (apply Rdiv_lt_0_compat; lra).
  assert (Hin : forall r j m, (r < M)%nat -> (m < length sc)%nat -> (j < n)%nat -> in_band (length sc) cc cw r j m = (el cc j r - el cw j r <=? Z.of_nat m)%Z && (Z.of_nat m <=? el cc j r + el cw j r)%Z).
  { intros r j m Hr Hm Hj. destruct (Hband j r Hj Hr) as (P1 & P2). pose proof (in_band_spec (length sc) cc cw r j m Hm ltac:(lia) ltac:(lia)) as S. unfold covers in S.
    destruct (in_band (length sc) cc cw r j m); symmetry.
    - apply proj1 in S. specialize (S eq_refl). lia.
    - apply not_true_is_false. intros K. apply proj2 in S. discriminate S. lia. }
  split; [|split; [|split]].
  - unfold issq_cwt, invert, invert_components. rewrite Hc2, Hc1, Hw1, Hw2, C1', !Nat.ltb_irrefl, !Nat.eqb_refl.
    destruct (Nat.eqb_spec M 0); [lia|]. cbn [orb negb bind scale_out]. unfold sum, f'. rewrite C1'. reflexivity.
  - rewrite map_length, app_length, map_length, seq_length. cbn [length]. lia.
  - intros j Hj. rewrite map_app, app_nth2 by (rewrite !map_length, seq_length; lia). rewrite !map_length, seq_length, Nat.sub_diag. cbn [map nth]. rewrite Hf' by exact Hj.
    rewrite Rabs_mult, (Rabs_right (2 / Css)), Rmult_comm by lra. apply Rmult_le_compat_l; [lra|]. destruct (T j Hj) as (T1 & _). eapply Rle_trans; [apply Rsum_abs|]. eapply Rle_trans; [|exact T1].
    apply Rsum_le. intros m Hm. rewrite R1. destruct (existsb (fun r => in_band (length sc) cc cw r j m) (seq 0 M)) eqn:Ex.
    + apply existsb_exists in Ex. destruct Ex as (r & Ir & Er). apply in_seq in Ir. rewrite (proj2 (remainder_el M _ cc cw (r_Tx out) m j) r ltac:(lia) Er). cbn [Re fst C0]. rewrite Rabs_R0.
      destruct (existsb _ _); [lra|apply Cabs_nonneg].
    + assert (Hf : forall r, (r < M)%nat -> in_band (length sc) cc cw r j m = false).
      { intros r Hr. destruct (in_band (length sc) cc cw r j m) eqn:Ei; [|reflexivity]. exfalso.
        assert (existsb (fun r => in_band (length sc) cc cw r j m) (seq 0 M) = true) by (apply existsb_exists; exists r; split; [apply in_seq; lia|exact Ei]). congruence. }
      rewrite (proj1 (remainder_el M _ cc cw (r_Tx out) m j) Hf). destruct (existsb (fun r => within 1 m (rho r)) (seq 0 M)) eqn:Ew; [exfalso|apply SsqRoundTrip.Re_le_Cabs].
      apply existsb_exists in Ew. destruct Ew as (r & Ir & Er). apply in_seq in Ir. specialize (Hf r ltac:(lia)). rewrite Hin in Hf by (assumption || lia). destruct (Hband j r Hj ltac:(lia)). unfold within in Er. lia.
  - intros r Hr.
    assert (En : nth r (map f' (map (fun r => sum (masked (nrows (r_Tx out)) cc cw (r_Tx out) r)) (seq 0 M) ++ [sum (remainder M (nrows (r_Tx out)) cc cw (r_Tx out))])) []
      = f' (sum (masked (nrows (r_Tx out)) cc cw (r_Tx out) r))).
    { rewrite map_app, app_nth1 by (rewrite !map_length, seq_length; exact Hr). rewrite map_map.
      rewrite (nth_indep _ [] (f' (sum (masked (nrows (r_Tx out)) cc cw (r_Tx out) 0)))) by (rewrite map_length, seq_length; exact Hr).
      rewrite (map_nth (fun r => f' (sum (masked (nrows (r_Tx out)) cc cw (r_Tx out) r)))), seq_nth by exact Hr. reflexivity. }
    rewrite En. split; [apply Lf|]. intros j Hj. rewrite Hf' by exact Hj. destruct (Hband j r Hj Hr) as (P1 & P2).
    set (b := fun m => (el cc j r - el cw j r <=? Z.of_nat m)%Z && (Z.of_nat m <=? el cc j r + el cw j r)%Z).
    destruct (T j Hj) as (_ & T2). specialize (T2 r b Hr ltac:(intros m Hm; unfold within in Hm; unfold b; lia)).
    assert (X : forall p m, (p < M)%nat -> p <> r -> within 1 m (rho p) = true -> b m = false).
    { intros p m Hp Hne Hm. pose proof (Hother j r p Hj Hr Hp Hne). unfold within in Hm. unfold b. lia. }
    specialize (T2 X). set (Sm := Csum _ _) in T2. set (z := Cmul (RtoC _) _) in T2.
    assert (E : Rsum (length sc) (fun i => Re (masked (nrows (r_Tx out)) cc cw (r_Tx out) r i j)) = Re Sm).
    { unfold Sm. rewrite Re_Csum. apply Rsum_ext. intros m Hm. unfold masked. rewrite R1, Hin by assumption. fold (b m). destruct (b m); reflexivity. }
    rewrite E. unfold tone. rewrite nth_tab by exact Hj.
    replace (A r * (full_gain f sc nv (k r) n / Css) * cos (2 * PI * INR (k r) * INR j / INR n + phi r)) with (Re z * (2 / Css)) by (unfold z; rewrite Re_analytic; field; lra).
    rewrite <- Rmult_minus_distr_r, Rabs_mult, (Rabs_right (2 / Css)), Rmult_comm by lra. apply Rmult_le_compat_l; [lra|].
    replace (Re Sm - Re z) with (Re (Csub Sm z)) by reflexivity. eapply Rle_trans; [apply SsqRoundTrip.Re_le_Cabs|exact T2].
Qed.
