(** Hann windows: a sixteenth of the amplitude in noise does not move a ridge. *)
From Coq Require Import Reals Lra Lia List ZifyBool ZifyNat.
Import ListNotations.
From Verif Require Import Py Round Padding Parallel Cplx CplxProofs Buffer Freqs Stft StftProofs WindowProofs Separate
  Squeeze SqueezeProofs SqueezeThms SqueezeThms2 SqueezeThms3 Scales Ssqueeze SsqueezeProofs SsqThms CwtTone IssqProofs StftTone StftToneThms StftToneWitness StftMap StftChord StftChordThms
  StftStable2 Ridge RidgeProofs RidgeOpt RidgeThms RidgeCurve RidgeWitness RidgeBand StftRidge NoiseRidge.
Local Open Scope R_scope.
Ltac Zify.zify_post_hook ::= Z.div_mod_to_equations.

Lemma hann_total n : (4 <= n)%nat -> Rsum n (fun u => Rabs (nth u (hann n) 0)) = INR n / 2.
Proof.
  intros Hn. assert (E : wspec n (hann n) 0 = RtoC (Rsum n (fun u => nth u (hann n) 0))).
  { unfold wspec. rewrite <- Csum_RtoC. apply Csum_ext. intros u Hu. rewrite Z.mul_0_l. cbn [Z.opp]. rewrite tw_0 by lia. ring. }
  rewrite hann_mid in E by exact Hn. apply (f_equal fst) in E. cbn in E. rewrite E. apply Rsum_ext. intros u Hu. apply Rabs_right.
  unfold hann. rewrite nth_tab by exact Hu. pose proof (COS_bound (2 * PI * INR u / INR n)). lra.
Qed.
Lemma hann_side_ratio n : (4 <= n)%nat -> Nat.even n = true -> side_ratio n (hann n) (1 / 2).
Proof.
  intros Hn He d Hd Hdn. assert (0 < INR n) by (apply lt_0_INR; lia). destruct (hann_side n Hn He) as [S1 S2]. rewrite hann_mid, Cabs_RtoC, Rabs_right by (try lia; lra).
  assert (E : wspec n (hann n) d = C0 \/ d = 1%Z \/ d = (-1)%Z \/ d = (Z.of_nat n - 1)%Z \/ d = (1 - Z.of_nat n)%Z).
  { destruct (Z.eq_dec (Z.abs d) 1); [right; lia|]. destruct (Z.eq_dec (Z.abs d) (Z.of_nat n - 1)); [right; lia|]. left.
    apply (narrow_far [] (SA 1 (WArray (hann n)) None None 1 true PReflect false) n (hann n) 1 ltac:(lia) (hann_narrow n Hn)); lia. }
  assert (V : forall z, wspec n (hann n) z = RtoC (INR n / 4) -> Cabs (wspec n (hann n) z) <= 1 / 2 * (INR n / 2)) by (intros z ->; rewrite Cabs_RtoC, Rabs_right by lra; lra).
  destruct E as [ ->|[ ->|[ ->|[ ->| -> ]]]]; [rewrite Cabs_0; lra|apply V, S1|apply V, S2|apply V|apply V].
  - replace (Z.of_nat n - 1)%Z with (-1 + Z.of_nat n * 1)%Z by ring. rewrite wspec_period by lia. exact S2.
  - replace (1 - Z.of_nat n)%Z with (1 + Z.of_nat n * -1)%Z by ring. rewrite wspec_period by lia. exact S1.
Qed.
Lemma seven_room (f64 : bool) T : (Z.of_nat T <= (if f64 then 2 ^ 51 else 2 ^ 22))%Z ->
  INR T * eps_of f64 < ln ((1 + eps_of f64) / (((1 / 2 + 1 / 8) / (1 - 1 / 8)) ^ 2 + eps_of f64)).
Proof.
  intros HT. pose proof (eps_pos f64) as He.
  assert (He2 : eps_of f64 <= 1 / 1000) by (destruct f64; cbn [eps_of]; unfold EPS64, EPS32; lra).
  assert (H1 : INR T * eps_of f64 <= 1 / 2).
  { rewrite INR_IZR_INZ. apply IZR_le in HT. apply Rle_trans with (IZR (if f64 then 2 ^ 51 else 2 ^ 22) * eps_of f64).
    - apply Rmult_le_compat_r; lra.
    - destruct f64; cbn [eps_of]; unfold EPS64, EPS32; cbn; lra. }
  apply Rle_lt_trans with (1 / 2); [exact H1|]. apply exp_lt_inv.
  set (q := (1 + eps_of f64) / (((1 / 2 + 1 / 8) / (1 - 1 / 8)) ^ 2 + eps_of f64)).
  assert (Hq : 1.9 <= q).
  { unfold q. replace (((1 / 2 + 1 / 8) / (1 - 1 / 8)) ^ 2) with (25 / 49) by field. apply (Rmult_le_reg_r (25 / 49 + eps_of f64)); [lra|]. replace ((1 + eps_of f64) / (25 / 49 + eps_of f64) * (25 / 49 + eps_of f64)) with (1 + eps_of f64) by (field; lra). lra. }
  rewrite exp_ln by lra. apply Rlt_le_trans with 1.9; [|exact Hq].
  assert (E : exp (1 / 2) * exp (1 / 2) <= 3) by (rewrite <- exp_plus; replace (1 / 2 + 1 / 2) with 1 by field; apply exp_le_3).
  pose proof (exp_pos (1 / 2)). nra.
Qed.

Theorem hann_noisy M A phi m n e y a0 f32 Y dY par (f64 cwt : bool) scales penalty bw o : noisy_chord M A phi m n e y -> y <> [] -> (4 <= n)%nat -> Nat.even n = true -> (length y mod n = 0)%nat ->
  bins_apart M m n 1 -> stft y (SA a0 (WArray (hann n)) (Some (Z.of_nat n)) None 1 true PWrap f32) = Ok (Y, dY) ->
  extract_ridges par f64 Y scales penalty M bw cwt = Ok o -> sched_ok (n / 2 + 1) par -> 0 <= penalty -> (2 <= bw)%Z ->
  (forall r, (r < M)%nat -> (bw <= Z.of_nat (m r))%Z) ->
  (forall r r', (r < r')%nat -> (r' < M)%nat -> (bw < Z.abs (Z.of_nat (m r') - Z.of_nat (m r)))%Z) ->
  0 <= e -> (forall r, (r < M)%nat -> A r <> 0 /\ e <= Rabs (A r) / 16) -> (forall r r', (r < r')%nat -> (r' < M)%nat -> Rabs (A r') <= Rabs (A r) / 2) ->
  (Z.of_nat (length y) <= (if f64 then 2 ^ 51 else 2 ^ 22))%Z ->
  forall r j, (r < M)%nat -> (j < length y)%nat -> nth j (r_idx (nth r o ridge0)) 0%nat = m r /\
    nth j (r_freq (nth r o ridge0)) 0 = nth (m r) scales 0 /\
    (INR n / 2 * (Rabs (A r) / 2 - e)) ^ 2 <= nth j (r_energy (nth r o ridge0)) 0 <= (INR n / 2 * (Rabs (A r) / 2 + e)) ^ 2.
Proof.
  intros Hy Hy0 Hn He Hd Hap HY Ho Hs Hpen Hbw Hin Hsep He0 Hamp Hord HT r j Hr Hj. assert (HI : 0 < INR n) by (apply lt_0_INR; lia).
  assert (Hly : (1 <= length y)%nat) by (destruct y; [congruence|cbn; lia]).
  assert (Hny : (n <= length y)%nat) by (pose proof (Nat.div_mod (length y) n ltac:(lia)) as Q; rewrite Hd in Q; destruct (length y / n)%nat; nia).
  set (a := SA a0 (WArray (hann n)) (Some (Z.of_nat n)) None 1 true PWrap f32) in *.
  assert (U : usable y a n (hann n)).
  { apply (usable_len (bin_chord M A phi m n (length y))); [unfold bin_chord; rewrite tab_length; reflexivity|]. apply hann_usable; [exact Hly|exact Hn|discriminate]. }
  destruct (stft_cells y a n (hann n) U) as (yp & Y' & dY' & _ & _ & _ & EY & _ & _ & _ & CY & _). rewrite HY in EY. injection EY as <- <-.
  cbn [a_hop a] in CY. rewrite Z.div_1_r in CY.
  assert (HW : Cabs (wspec n (hann n) 0) = INR n / 2) by (rewrite hann_mid, Cabs_RtoC, Rabs_right by (try lia; lra); reflexivity).
  pose proof (noisy_ridges M A phi m y a n (hann n) 1 e Y dY par f64 cwt scales penalty bw o (1 / 2) (1 / 8) Hy U ltac:(lia) eq_refl (hann_narrow n Hn) Hap eq_refl Hd (hann_side_ratio n Hn He) HY Ho Hs Hpen ltac:(lia)) as X.
  rewrite HW, hann_total in X by exact Hn.
  destruct X with (r := r) (j := j) as (X1 & X2 & X3); try assumption; try lra; try lia.
  - intros q Hq. cbn [a_hop a]. rewrite Z.div_1_r. split; [apply Hin, Hq|]. destruct Hap as [Hm _]. destruct (Hm q Hq). lia.
  - intros q Hq. destruct (Hamp q Hq) as [A1 A2]. pose proof (Rabs_pos_lt _ A1). split; [apply Rmult_lt_0_compat; lra|].
    replace (1 / 8 * (Rabs (A q) / 2 * (INR n / 2))) with (Rabs (A q) / 16 * (INR n / 2)) by field. apply Rmult_le_compat_r; lra.
  - intros q q' H1 H2. specialize (Hord q q' H1 H2). lra.
  - apply seven_room. destruct f64; lia.
  - split; [exact X1|]. split; [exact X2|]. replace (INR n / 2 * (Rabs (A r) / 2 - e)) with (Rabs (A r) / 2 * (INR n / 2) - e * (INR n / 2)) by ring.
    replace (INR n / 2 * (Rabs (A r) / 2 + e)) with (Rabs (A r) / 2 * (INR n / 2) + e * (INR n / 2)) by ring. exact X3.
Qed.

(** 8 Hz and, half as loud, 4 Hz at 24 samples a second; every second sample is 1/32 too large *)
Definition off_duo : list R := tab 48 (fun i => nth i duo 0 + (if Nat.even i then 1 / 32 else 0)).
Lemma noisy_case par : (forall F, sched_ok F par) -> exists Y dY o,
  stft off_duo (SA 24 (WArray (hann 24)) (Some 24%Z) None 1 true PWrap false) = Ok (Y, dY) /\
  extract_ridges par true Y (make_Sfs 13 24) 20 2 2 false = Ok o /\
  forall j, (j < 48)%nat -> nth j (r_freq (nth 0 o ridge0)) 0 = 8 /\ nth j (r_freq (nth 1 o ridge0)) 0 = 4.
Proof.
  intros Hpar. assert (Hl : length off_duo = 48%nat) by apply tab_length. set (a := SA 24 (WArray (hann 24)) (Some 24%Z) None 1 true PWrap false).
  assert (U : usable off_duo a 24 (hann 24)).
  { apply (usable_len (bin_chord 2 duo_A duo_phi duo_m 24 48)); [rewrite Hl; unfold bin_chord; rewrite tab_length; reflexivity|]. apply (hann_usable 2 _ _ _ 48 24 PWrap false 24); [lia|lia|discriminate]. }
  destruct (stft_cells off_duo a 24 (hann 24) U) as (yp & Y & dY & _ & _ & _ & EY & RY & _ & _ & CY & _). rewrite Hl in CY. cbn [a_hop a] in CY. rewrite Z.div_1_r in CY.
  destruct (extract_ridges par true Y (make_Sfs 13 24) 20 2 2 false) as [o|] eqn:EO.
  2:{ exfalso. unfold extract_ridges in EO. rewrite RY in EO. assert (Hc : (ncols Y =? 0)%nat = false) by lia. rewrite Hc in EO.
      change (24 / 2 + 1)%nat with 13%nat in EO. assert (Hsf : (length (make_Sfs 13 24) =? 13)%nat = true) by (unfold make_Sfs, linspace; rewrite tab_length; reflexivity). rewrite Hsf in EO. cbn [negb orb andb Nat.eqb] in EO. discriminate. }
  exists Y, dY, o. split; [exact EY|]. split; [exact EO|]. intros j Hj.
  assert (X : forall r j, (r < 2)%nat -> (j < length off_duo)%nat -> nth j (r_idx (nth r o ridge0)) 0%nat = duo_m r /\
    nth j (r_freq (nth r o ridge0)) 0 = nth (duo_m r) (make_Sfs 13 24) 0 /\
    (INR 24 / 2 * (Rabs (duo_A r) / 2 - 1 / 32)) ^ 2 <= nth j (r_energy (nth r o ridge0)) 0 <= (INR 24 / 2 * (Rabs (duo_A r) / 2 + 1 / 32)) ^ 2).
  { apply (hann_noisy 2 duo_A duo_phi duo_m 24 (1 / 32) off_duo 24 false Y dY par true false (make_Sfs 13 24) 20 2 o); try assumption; try lra; try lia; try reflexivity.
    - intros i Hi. rewrite Hl in Hi. unfold off_duo. rewrite nth_tab by exact Hi. unfold duo, bin_chord. rewrite nth_tab by exact Hi.
      match goal with |- Rabs (?p + ?q - ?p') <= _ => replace (p + q - p') with q by ring end. destruct (Nat.even i); rewrite Rabs_right; lra.
    - intros E. rewrite E in Hl. discriminate.
    - split.
      + intros [|[|r]] Hr; cbn; lia.
      + intros [|[|r]] [|[|r']] Hr Hr' Hne; cbn; lia.
    - apply Hpar.
    - intros [|[|r]] Hr; cbn; lia.
    - intros [|[|r]] [|[|r']] H1 H2; cbn; lia.
    - intros [|[|r]] Hr; cbn [duo_A]; rewrite Rabs_right by lra; lra.
    - intros [|[|r]] [|[|r']] H1 H2; try lia; cbn [duo_A]; rewrite !Rabs_right by lra; lra. }
  destruct (X 0%nat j ltac:(lia) ltac:(lia)) as (_ & F0 & _). destruct (X 1%nat j ltac:(lia) ltac:(lia)) as (_ & F1 & _). rewrite F0, F1. cbn [duo_m].
  change 13%nat with (24 / 2 + 1)%nat. rewrite !make_Sfs_even by (try reflexivity; try lia; cbn; lia). rewrite !(INR_IZR_INZ _). cbn. lra.
Qed.
