(** Hann windows: a twentieth of the amplitude in noise sends no tone's coefficient to another row. *)
From Coq Require Import Reals Lra Lia List ZifyBool ZifyNat.
Import ListNotations.
From Verif Require Import Py Round Padding Parallel Cplx CplxProofs Buffer Freqs Stft StftProofs WindowProofs Separate SsqRoundTrip
  Squeeze SqueezeProofs SqueezeThms SqueezeThms2 SqueezeThms3 Scales Ssqueeze SsqueezeProofs SsqThms CwtTone IssqProofs StftTone StftToneThms StftToneWitness StftMap StftChord StftChordThms
  StftStable2 StftRidge NoiseRidge NoiseRidgeWit NoiseSsq.
Local Open Scope R_scope.
Ltac Zify.zify_post_hook ::= Z.div_mod_to_equations.

Lemma hann_slope n : (4 <= n)%nat -> Rsum n (fun u => Rabs (nth u (diff_window (hann n)) 0)) <= PI.
Proof.
  intros Hn. pose proof PI_RGT_0 as HP. assert (HI : 0 < INR n) by (apply lt_0_INR; lia). assert (Hl : length (hann n) = n) by apply hann_length.
  apply Rle_trans with (Rsum n (fun _ => PI / INR n)); [|rewrite Rsum_const; right; field; lra].
  apply Rsum_le. intros u Hu. unfold diff_window. rewrite Hl, nth_tab by exact Hu. eapply Rle_trans; [apply Re_le_Cabs|].
  unfold diff_window_c, idft. rewrite Hl. rewrite Cabs_mul, Cabs_RtoC, Rabs_right by (apply Rle_ge; left; apply Rinv_0_lt_compat, HI).
  unfold Rdiv. rewrite Rmult_comm. apply Rmult_le_compat_r; [left; apply Rinv_0_lt_compat, HI|]. eapply Rle_trans; [apply Cabs_Csum|].
  rewrite (Rsum_ext n _ (fun k => (if (k =? 1)%nat then PI / 2 else 0) + (if (k =? n - 1)%nat then PI / 2 else 0))).
  - rewrite Rsum_plus, (Rsum_single n _ 1%nat), (Rsum_single n _ (n - 1)%nat) by (try lia; intros i Hi Hne; destruct (Nat.eqb_spec i 1), (Nat.eqb_spec i (n - 1)); try lia; reflexivity).
    rewrite Nat.eqb_refl. cbn [Nat.eqb]. rewrite Nat.eqb_refl. right. field.
  - assert (X1 : xi_diff n 1 = 2 * PI / INR n).
    { rewrite xi_diff_val by lia. destruct (Nat.eqb_spec (2 * 1) n); [lia|]. unfold xi_bin. destruct (Nat.ltb_spec 1 (n / 2 + 1)); [|lia]. cbn [Z.of_nat Pos.of_succ_nat]. ring. }
    assert (XP : 0 < 2 * PI / INR n) by (apply Rdiv_lt_0_compat; lra).
    assert (Ci1 : Cabs Ci = 1) by (unfold Ci; rewrite Cabs_im; apply Rabs_R1).
    intros k Hk. rewrite !Cabs_mul, Cabs_tw, Rmult_1_r, Cabs_RtoC, Ci1, Rmult_1_r, hann_spec by lia.
    destruct (Nat.eqb_spec k 0) as [->|K0].
    { rewrite xi_diff_0, Rabs_R0 by lia. destruct (Nat.eqb_spec 0 1); [lia|]. destruct (Nat.eqb_spec 0 (n - 1)); [lia|]. ring. }
    destruct (Nat.eqb_spec k 1) as [->|K1]; [|destruct (Nat.eqb_spec k (n - 1)) as [->|K2]]; cbn [orb].
    + destruct (Nat.eqb_spec 1 (n - 1)); [lia|]. rewrite X1, Cabs_RtoC, Rabs_Ropp, !Rabs_right by lra. field. lra.
    + rewrite xi_diff_neg, X1, Cabs_RtoC, !Rabs_Ropp, !Rabs_right by (try lia; lra). field. lra.
    + rewrite Cabs_0. ring.
Qed.

Theorem hann_noisy_ssq ord M A phi m n e y fs t s rate g f32 a0 : valid_order ord -> noisy_chord M A phi m n e y -> y <> [] ->
  process_fs_and_t fs t (length y) = Ok rate -> EPS64 <= rate / INR n -> Nat.even n = true -> (4 <= n)%nat -> (Z.of_nat n < 2 ^ 62)%Z -> (length y mod n = 0)%nat ->
  bins_apart M m n 1 -> s_freqs s = None -> s_sq s = SqSum -> s_gamma s = Some g -> 0 <= e ->
  (forall r, (r < M)%nat -> e < Rabs (A r) / 20 /\ g < INR n / 8 * (Rabs (A r) - 4 * e)) ->
  exists Tx Sx f, ssq_stft ord y (SA a0 (WArray (hann n)) (Some (Z.of_nat n)) None 1 true PWrap f32) fs t s = Ok (Tx, Sx, f, make_Sfs (n / 2 + 1) rate) /\
  nrows Tx = (n / 2 + 1)%nat /\ ncols Tx = length y /\
  (forall r, (r < M)%nat -> nth (stft_row s n (m r)) f 0 = INR (m r) * rate / INR n) /\
  forall h, (h < length y)%nat ->
    (forall r, (r < M)%nat -> Cabs (Csub (el Tx (stft_row s n (m r)) h) (Cmul (RtoC (rate * A r / 2)) (bin_phase (phi r) (m r) n h))) <= rate * INR (n / 2 + 1) / 2 * e) /\
    (forall q, (q <= n / 2)%nat -> (forall r, (r < M)%nat -> q <> stft_row s n (m r)) -> Cabs (el Tx q h) <= rate * INR (n / 2 + 1) / 2 * e).
Proof.
  intros Ho Hy Hy0 Hfs Hd He Hn H62 Hmult Hap Hfr Hsq Hg He0 HA. pose proof PI_RGT_0 as HP. assert (HI : 0 < INR n) by (apply lt_0_INR; lia).
  assert (Hly : (1 <= length y)%nat) by (destruct y; [congruence|cbn; lia]). pose proof EPS64_pos as Heps.
  set (a := SA a0 (WArray (hann n)) (Some (Z.of_nat n)) None 1 true PWrap f32).
  assert (U : usable y a n (hann n)).
  { apply (usable_len (bin_chord M A phi m n (length y))); [unfold bin_chord; rewrite tab_length; reflexivity|]. apply hann_usable; [exact Hly|exact Hn|discriminate]. }
  assert (Hrate : rate = rate / INR n * INR n) by (field; lra). set (D := rate / INR n) in *. clearbody D.
  pose proof (hann_slope n Hn) as Hs1. assert (Hs0 : 0 <= Rsum n (fun u => Rabs (nth u (diff_window (hann n)) 0))) by (apply Rsum_nonneg; intros; apply Rabs_pos).
  destruct (noisy_ssq ord M A phi m y a fs t s rate n (hann n) 1 g e) as (Tx & Sx & f & ET & RT & CT & Ff & V); try assumption; try reflexivity; try lia.
  - rewrite Hrate. replace (D * INR n / INR n) with D by (field; lra). exact Hd.
  - apply hann_narrow, Hn.
  - rewrite Hg. reflexivity.
  - intros r d Hr Hdb Hz. destruct (HA r Hr) as [H1 H2]. unfold dominates. rewrite hann_total by exact Hn. cbv zeta.
    replace (rate / INR n) with D by (rewrite Hrate; field; lra).
    set (sl := Rsum n (fun u => Rabs (nth u (diff_window (hann n)) 0))) in *.
    assert (T1 : e * (rate * sl) <= e * (rate * PI)) by (apply Rmult_le_compat_l; [exact He0|]; apply Rmult_le_compat_l; [|exact Hs1]; rewrite Hrate; apply Rmult_le_pos; lra).
    assert (HDI : 0 < PI * D * INR n) by (apply Rmult_lt_0_compat; [apply Rmult_lt_0_compat|]; lra).
    assert (T2 : e * (rate * PI) = PI * D * INR n * e) by (rewrite Hrate; ring).
    assert (C : exists c0, Rabs (A r) / 2 * Cabs (wspec n (hann n) d) = INR n * c0 /\ Rabs (A r) / 8 <= c0 /\ e + Rabs (IZR d) * e < c0 - e / 2).
    { destruct (hann_side n Hn He) as [S1 S2]. assert (Hdd : d = 0%Z \/ d = 1%Z \/ d = (-1)%Z) by lia. destruct Hdd as [ ->|[ ->| -> ]].
      - exists (Rabs (A r) / 4). rewrite hann_mid, Cabs_RtoC, (Rabs_right (INR n / 2)) by (try lia; lra). rewrite Rabs_R0. split; [field|lra].
      - exists (Rabs (A r) / 8). rewrite S1, Cabs_RtoC, (Rabs_right (INR n / 4)) by lra. rewrite Rabs_R1. split; [field|lra].
      - exists (Rabs (A r) / 8). rewrite S2, Cabs_RtoC, (Rabs_right (INR n / 4)) by lra. rewrite (Rabs_left (-1)) by lra. split; [field|lra]. }
    destruct C as (c0 & -> & C1 & C2). assert (C3 : INR n * (Rabs (A r) / 8) <= INR n * c0) by (apply Rmult_le_compat_l; lra).
    assert (C4 : INR n * e < INR n * (Rabs (A r) / 20)) by (apply Rmult_lt_compat_l; lra).
    assert (HnA : 0 <= INR n * Rabs (A r)) by (apply Rmult_le_pos; [lra|apply Rabs_pos]).
    split; [split|]; [lra| |lra].
    eapply Rle_lt_trans; [apply Rplus_le_compat_r, T1|]. rewrite T2.
    replace (PI * D * INR n * e + 2 * PI * D * Rabs (IZR d) * (e * (INR n / 2))) with (PI * D * INR n * (e + Rabs (IZR d) * e)) by field.
    replace (PI * D * (INR n * c0 - e * (INR n / 2))) with (PI * D * INR n * (c0 - e / 2)) by field. apply Rmult_lt_compat_l; assumption.
  - cbn [a_hop a] in *. rewrite Z.div_1_r in CT. assert (CT' : ncols Tx = length y) by lia.
    exists Tx, Sx, f. split; [exact ET|]. split; [exact RT|]. split; [exact CT'|]. split; [exact Ff|]. intros h Hh. destruct (V h ltac:(lia)) as [V1 V2].
    rewrite hann_total in V1, V2 by exact Hn. rewrite hann_centre in V1 by assumption. change (Z.to_nat 1) with 1%nat in V1. rewrite Nat.mul_1_l in V1.
    replace (rate / INR n * INR (n / 2 + 1) * (e * (INR n / 2))) with (rate * INR (n / 2 + 1) / 2 * e) in V1, V2 by (field; lra).
    split; [|exact V2]. intros r Hr. specialize (V1 r Hr). replace (rate * 1 * (A r / 2)) with (rate * A r / 2) in V1 by field. exact V1.
Qed.

(** 8 Hz and, half as loud, 4 Hz at 24 samples a second; every second sample is 1/64 too large *)
Definition shaken : list R := tab 48 (fun i => nth i duo 0 + (if Nat.even i then 1 / 64 else 0)).
Lemma noisy_ssq_case ord gw : valid_order ord -> exists Tx Sx f,
  ssq_stft ord shaken (SA 1 (WArray (hann 24)) (Some 24%Z) None 1 true PWrap false) (Some 24) None (SS None SqSum (Some (1 / 100)) false gw true) = Ok (Tx, Sx, f, make_Sfs 13 24) /\
  nth 8 f 0 = 8 /\ nth 4 f 0 = 4 /\
  forall h, (h < 48)%nat -> 9 <= Cabs (el Tx 8 h) <= 15 /\ 3 <= Cabs (el Tx 4 h) <= 9 /\ forall q, (q <= 12)%nat -> q <> 8%nat -> q <> 4%nat -> Cabs (el Tx q h) <= 5 / 2.
Proof.
  intros Ho. assert (Hl : length shaken = 48%nat) by apply tab_length.
  destruct (hann_noisy_ssq ord 2 duo_A duo_phi duo_m 24 (1 / 64) shaken (Some 24) None (SS None SqSum (Some (1 / 100)) false gw true) 24 (1 / 100) false 1) as (Tx & Sx & f & ET & _ & _ & Ff & V); try assumption; try reflexivity; try lia; try lra.
  - intros i Hi. rewrite Hl in Hi. unfold shaken. rewrite nth_tab by exact Hi. unfold duo, bin_chord. rewrite nth_tab by exact Hi.
    match goal with |- Rabs (?p + ?q - ?p') <= _ => replace (p + q - p') with q by ring end. destruct (Nat.even i); rewrite Rabs_right; lra.
  - intros E. rewrite E in Hl. discriminate.
  - unfold process_fs_and_t. destruct (Rle_dec 24 0); [lra|reflexivity].
  - cbn [INR]. unfold EPS64. lra.
  - split.
    + intros [|[|r]] Hr; cbn; lia.
    + intros [|[|r]] [|[|r']] Hr Hr' Hne; cbn; lia.
  - intros [|[|r]] Hr; cbn [duo_A INR]; rewrite Rabs_right by lra; lra.
  - exists Tx, Sx, f. split; [exact ET|]. pose proof (Ff 0%nat ltac:(lia)) as F0. pose proof (Ff 1%nat ltac:(lia)) as F1. unfold stft_row in *. cbn [s_flip duo_m] in *.
    split; [rewrite F0; cbn [INR]; field|]. split; [rewrite F1; cbn [INR]; field|].
    intros h Hh. destruct (V h ltac:(rewrite Hl; exact Hh)) as [V1 V2]. change (24 / 2 + 1)%nat with 13%nat in *. change (24 / 2)%nat with 12%nat in *.
    assert (EB : 24 * INR 13 / 2 * (1 / 64) = 2.4375) by (rewrite INR_IZR_INZ; cbn; lra). rewrite EB in V1, V2.
    pose proof (V1 0%nat ltac:(lia)) as N0. pose proof (V1 1%nat ltac:(lia)) as N1. cbn [duo_m duo_A duo_phi] in N0, N1.
    apply Cabs_near in N0. apply Cabs_near in N1. rewrite Cabs_mul, bin_phase_abs, Cabs_RtoC, Rabs_right in N0, N1 by lra.
    split; [lra|]. split; [lra|]. intros q Hq H8 H4. apply Rle_trans with 2.4375; [|lra]. apply V2; [exact Hq|]. intros [|[|r]] Hr; cbn; lia.
Qed.
