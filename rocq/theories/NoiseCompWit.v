(** Hann windows: the components of a noisy signal by [issq_stft]. *)
From Coq Require Import Reals Lra Lia List ZifyBool ZifyNat.
Import ListNotations.
From Verif Require Import Py Round Padding Parallel Cplx CplxProofs Buffer Freqs Stft StftProofs WindowProofs Separate SsqRoundTrip
  Squeeze SqueezeProofs SqueezeThms SqueezeThms2 SqueezeThms3 Scales Ssqueeze SsqueezeProofs SsqThms CwtTone IssqProofs StftTone StftToneThms StftToneWitness StftMap StftChord StftChordThms
  StftStable2 StftRidge NoiseRidge NoiseRidgeWit NoiseSsq NoiseSsqWit CwtThms NoiseComp NoiseComp2.
Local Open Scope R_scope.
Ltac Zify.zify_post_hook ::= Z.div_mod_to_equations.

Theorem hann_noisy_band ord M A phi m n e y fs t s rate g f32 a0 : valid_order ord -> noisy_chord M A phi m n e y -> y <> [] ->
  process_fs_and_t fs t (length y) = Ok rate -> EPS64 <= rate / INR n -> Nat.even n = true -> (4 <= n)%nat -> (Z.of_nat n < 2 ^ 62)%Z -> (length y mod n = 0)%nat ->
  bins_apart M m n 1 -> s_freqs s = None -> s_sq s = SqSum -> s_gamma s = Some g -> 0 <= e ->
  (forall r, (r < M)%nat -> e < Rabs (A r) / 20 /\ g < INR n / 8 * (Rabs (A r) - 4 * e)) ->
  exists Tx Sx f, ssq_stft ord y (SA a0 (WArray (hann n)) (Some (Z.of_nat n)) None 1 true PWrap f32) fs t s = Ok (Tx, Sx, f, make_Sfs (n / 2 + 1) rate) /\
  nrows Tx = (n / 2 + 1)%nat /\ ncols Tx = length y /\
  (forall r, (r < M)%nat -> nth (stft_row s n (m r)) f 0 = INR (m r) * rate / INR n) /\
  forall (Q : nat -> bool) h, (h < length y)%nat ->
    Cabs (Csub (Csum (n / 2 + 1) (fun q => if Q q then el Tx q h else C0))
               (Csum M (fun r => if Q (stft_row s n (m r)) then Cmul (RtoC (rate * A r / 2)) (bin_phase (phi r) (m r) n h) else C0))) <= rate * INR (n / 2 + 1) / 2 * e.
Proof.
  intros Ho Hy Hy0 Hfs Hd He Hn H62 Hmult Hap Hfr Hsq Hg He0 HA. pose proof PI_RGT_0 as HP. assert (HI : 0 < INR n) by (apply lt_0_INR; lia).
  assert (Hly : (1 <= length y)%nat) by (destruct y; [congruence|cbn; lia]). pose proof EPS64_pos as Heps.
  set (a := SA a0 (WArray (hann n)) (Some (Z.of_nat n)) None 1 true PWrap f32).
  assert (U : usable y a n (hann n)).
  { apply (usable_len (bin_chord M A phi m n (length y))); [unfold bin_chord; rewrite tab_length; reflexivity|]. apply hann_usable; [exact Hly|exact Hn|discriminate]. }
  assert (Hrate : rate = rate / INR n * INR n) by (field; lra). set (D := rate / INR n) in *. clearbody D.
  pose proof (hann_slope n Hn) as Hs1. assert (Hs0 : 0 <= Rsum n (fun u => Rabs (nth u (diff_window (hann n)) 0))) by (apply Rsum_nonneg; intros; apply Rabs_pos).
  destruct (noisy_band ord M A phi m y a fs t s rate n (hann n) 1 g e) as (Tx & Sx & f & ET & RT & CT & Ff & V); try assumption; try reflexivity; try lia.
  - rewrite Hrate. replace (D * INR n / INR n) with D by (field; lra). exact Hd.
  - apply hann_narrow, Hn.
  - rewrite Hg. reflexivity.
  - intros r d Hr Hdb Hz. destruct (HA r Hr) as [H1 H2]. unfold dominates. rewrite hann_total by exact Hn. cbv zeta.
    replace (rate / INR n) with D by (rewrite Hrate; field; lra).
    set (sl := Rsum n (fun u => Rabs (nth u (diff_window (hann n)) 0))) in *.
    assert (T1 : e * (rate * sl) <= e * (rate * PI)) by (apply Rmult_le_compat_l; [exact He0|]; apply Rmult_le_compat_l; [|exact Hs1]; rewrite Hrate; apply Rmult_le_pos; lra).
    assert (HDI : 0 < PI * D * INR n) by (apply Rmult_lt_0_compat; [apply Rmult_lt_0_compat|]; lra).
    assert (T2 : e * (rate * PI) = PI * D * INR n * e) by (rewrite Hrate; ring).
    assert (C : exists c0, Rabs (A r) / 2 * Cabs (wspec n (hann n) d) = INR n * c0 /\ Rabs (A r) / 8 <= c0 /\ e + Rabs (IZR d) * e < c0 - e / 2).
    { destruct (hann_side n Hn He) as [S1 S2]. assert (Hdd : d = 0%Z \/ d = 1%Z \/ d = (-1)%Z) by lia. destruct Hdd as [ ->|[ ->| -> ]].
      - exists (Rabs (A r) / 4). rewrite hann_mid, Cabs_RtoC, (Rabs_right (INR n / 2)) by (try lia; lra). rewrite Rabs_R0. split; [field|lra].
      - exists (Rabs (A r) / 8). rewrite S1, Cabs_RtoC, (Rabs_right (INR n / 4)) by lra. rewrite Rabs_R1. split; [field|lra].
      - exists (Rabs (A r) / 8). rewrite S2, Cabs_RtoC, (Rabs_right (INR n / 4)) by lra. rewrite (Rabs_left (-1)) by lra. split; [field|lra]. }
    destruct C as (c0 & -> & C1 & C2). assert (C3 : INR n * (Rabs (A r) / 8) <= INR n * c0) by (apply Rmult_le_compat_l; lra).
    assert (C4 : INR n * e < INR n * (Rabs (A r) / 20)) by (apply Rmult_lt_compat_l; lra).
    assert (HnA : 0 <= INR n * Rabs (A r)) by (apply Rmult_le_pos; [lra|apply Rabs_pos]).
    split; [split|]; [lra| |lra].
    eapply Rle_lt_trans; [apply Rplus_le_compat_r, T1|]. rewrite T2.
    replace (PI * D * INR n * e + 2 * PI * D * Rabs (IZR d) * (e * (INR n / 2))) with (PI * D * INR n * (e + Rabs (IZR d) * e)) by field.
    replace (PI * D * (INR n * c0 - e * (INR n / 2))) with (PI * D * INR n * (c0 - e / 2)) by field. apply Rmult_lt_compat_l; assumption.
  - cbn [a_hop a] in *. rewrite Z.div_1_r in CT. assert (CT' : ncols Tx = length y) by lia.
    exists Tx, Sx, f. split; [exact ET|]. split; [exact RT|]. split; [exact CT'|]. split; [exact Ff|]. intros Q h Hh. specialize (V Q h ltac:(lia)).
    rewrite hann_total in V by exact Hn. rewrite hann_centre in V by assumption. change (Z.to_nat 1) with 1%nat in V. rewrite Nat.mul_1_l in V.
    replace (rate / INR n * INR (n / 2 + 1) * (e * (INR n / 2))) with (rate * INR (n / 2 + 1) / 2 * e) in V by (field; lra).
    erewrite (Csum_ext M); [exact V|]. intros r Hr. cbv beta. fold (stft_row s n (m r)). replace (rate * 1 * (A r / 2)) with (rate * A r / 2) by field. reflexivity.
Qed.

Definition hann_noisy ord M A phi m n e y fs t s rate g : Prop :=
  valid_order ord /\ noisy_chord M A phi m n e y /\ y <> [] /\
  process_fs_and_t fs t (length y) = Ok rate /\ EPS64 <= rate / INR n /\ Nat.even n = true /\ (4 <= n)%nat /\ (Z.of_nat n < 2 ^ 62)%Z /\ (length y mod n = 0)%nat /\
  bins_apart M m n 1 /\ s_freqs s = None /\ s_sq s = SqSum /\ s_gamma s = Some g /\ 0 <= e /\
  (forall r, (r < M)%nat -> e < Rabs (A r) / 20 /\ g < INR n / 8 * (Rabs (A r) - 4 * e)).

(** the components cover the row of their own tone and of no other *)
Definition own_rows M m n s N (cc cw : mat Z) : Prop :=
  nrows cc = N /\ ncols cc = M /\ nrows cw = N /\ ncols cw = M /\
  (forall j r, (j < N)%nat -> (r < M)%nat -> (0 <= el cc j r)%Z /\ (Z.abs (el cc j r - Z.of_nat (stft_row s n (m r))) <= el cw j r)%Z) /\
  (forall j r r', (j < N)%nat -> (r < M)%nat -> (r' < M)%nat -> r' <> r -> (el cw j r < Z.abs (el cc j r - Z.of_nat (stft_row s n (m r'))))%Z).

Theorem hann_noisy_parts ord M A phi m n e y fs t s rate g f32 f32' a0 cc cw : hann_noisy ord M A phi m n e y fs t s rate g -> (0 < M)%nat ->
  own_rows M m n s (length y) cc cw ->
  exists Tx Sx f xs, ssq_stft ord y (SA a0 (WArray (hann n)) (Some (Z.of_nat n)) None 1 true PWrap f32) fs t s = Ok (Tx, Sx, f, make_Sfs (n / 2 + 1) rate) /\
  issq_stft Tx (WArray (hann n)) (Some (cc, cw)) None None 1 true f32' = Ok (Many xs) /\ length xs = S M /\
  forall j, (j < length y)%nat ->
    (forall r, (r < M)%nat -> Rabs (nth j (nth r xs []) 0 - rate * (A r * cos (2 * PI * INR (m r) * INR j / INR n + phi r))) <= rate * INR (n / 2 + 1) * e) /\
    Rabs (nth j (nth M xs []) 0) <= rate * INR (n / 2 + 1) * e.
Proof.
  intros (Ho & Hy & Hy0 & Hfs & Hd & He & Hn & H62 & Hmult & Hap & Hfr & Hsq & Hg & He0 & HA) HM (C1 & C2 & C3 & C4 & C5 & C6).
  destruct (hann_noisy_band ord M A phi m n e y fs t s rate g f32 a0) as (Tx & Sx & f & ET & RT & CT & _ & V); try assumption.
  assert (Hly : (1 <= length y)%nat) by (destruct y; [congruence|cbn; lia]). assert (Hev : (2 * (n / 2) = n)%nat) by (apply Nat.even_spec in He; destruct He as [hh Ehh]; lia).
  destruct Hap as [Hm Hs].
  destruct (comp_near Tx (hann n) n M (length y) (fun r => stft_row s n (m r)) (fun r h => Cmul (RtoC (rate * A r / 2)) (bin_phase (phi r) (m r) n h)) (rate * INR (n / 2 + 1) / 2 * e)
    (WArray (hann n)) None None f32' cc cw) as (xs & EX & LX & VX); try assumption; try lia.
  - apply hann_length.
  - rewrite hann_centre by assumption. lra.
  - intros r Hr. destruct (Hm r Hr). unfold stft_row. destruct (s_flip s); lia.
  - intros r r' Hr Hr' Hne. destruct (Hm r Hr), (Hm r' Hr'). specialize (Hs r r' Hr Hr' Hne). unfold stft_row. destruct (s_flip s); lia.
  - cbn [or_default]. lia.
  - cbn [or_default]. apply hann_window.
  - exists Tx, Sx, f, xs. split; [exact ET|]. split; [exact EX|]. split; [exact LX|]. intros j Hj. destruct (VX j Hj) as [V1 V2].
    rewrite hann_centre in V1, V2 by assumption. rewrite Rabs_R1 in V1, V2.
    replace (2 / 1 * (rate * INR (n / 2 + 1) / 2 * e)) with (rate * INR (n / 2 + 1) * e) in V1, V2 by field. split; [|exact V2].
    intros r Hr. specialize (V1 r Hr).
    replace (2 / 1 * Re (Cmul (RtoC (rate * A r / 2)) (bin_phase (phi r) (m r) n j))) with (rate * (A r * cos (2 * PI * INR (m r) * INR j / INR n + phi r))) in V1
      by (unfold bin_phase, cis, Re, Cmul, RtoC; cbn [fst snd]; field). exact V1.
Qed.

Theorem hann_noisy_whole ord M A phi m n e y fs t s rate g f32 f32' a0 : hann_noisy ord M A phi m n e y fs t s rate g ->
  exists Tx Sx f z, ssq_stft ord y (SA a0 (WArray (hann n)) (Some (Z.of_nat n)) None 1 true PWrap f32) fs t s = Ok (Tx, Sx, f, make_Sfs (n / 2 + 1) rate) /\
  issq_stft Tx (WArray (hann n)) None None None 1 true f32' = Ok (One z) /\ length z = length y /\
  forall j, (j < length y)%nat -> Rabs (nth j z 0 - rate * nth j y 0) <= rate * INR (n / 2 + 2) * e.
Proof.
  intros (Ho & Hy & Hy0 & Hfs & Hd & He & Hn & H62 & Hmult & Hap & Hfr & Hsq & Hg & He0 & HA).
  destruct (hann_noisy_band ord M A phi m n e y fs t s rate g f32 a0) as (Tx & Sx & f & ET & RT & CT & _ & V); try assumption.
  assert (Hly : (1 <= length y)%nat) by (destruct y; [congruence|cbn; lia]). assert (Hev : (2 * (n / 2) = n)%nat) by (apply Nat.even_spec in He; destruct He as [hh Ehh]; lia).
  assert (Hlw : length (hann n) = n) by apply hann_length. assert (HI : 0 < INR n) by (apply lt_0_INR; lia). pose proof EPS64_pos as Heps.
  assert (Hrate : 0 < rate) by (replace rate with (rate / INR n * INR n) by (field; lra); apply Rmult_lt_0_compat; lra).
  exists Tx, Sx, f, (map (fun y => y * (2 / nth (length (hann n) / 2) (hann n) 0)) (real_colsum Tx)). split; [exact ET|]. split.
  { unfold issq_stft. cbn [negb Z.eqb Pos.eqb]. rewrite RT. cbn [or_default]. replace ((Z.of_nat (n / 2 + 1) - 1) * 2)%Z with (Z.of_nat n) by lia.
    rewrite hann_window. cbn [bind]. unfold check_NOLA. destruct (Z.leb_spec 1 0); [lia|]. destruct (Z.gtb_spec 1 (Z.of_nat (length (hann n)))); [lia|].
    rewrite Bool.andb_false_r. reflexivity. }
  split; [rewrite map_length; unfold real_colsum; rewrite tab_length; exact CT|].
  intros j Hj. rewrite (nth_indep _ 0 (0 * (2 / nth (length (hann n) / 2) (hann n) 0))) by (rewrite map_length; unfold real_colsum; rewrite tab_length; lia).
  rewrite (map_nth (fun y => y * (2 / nth (length (hann n) / 2) (hann n) 0))). unfold real_colsum. rewrite nth_tab by lia. rewrite RT, Hlw, hann_centre by assumption.
  specialize (V (fun _ => true) j Hj). cbv beta iota in V. specialize (Hy j Hj).
  set (z1 := Csum (n / 2 + 1) (fun q => el Tx q j)) in *. set (z2 := Csum M (fun r => Cmul (RtoC (rate * A r / 2)) (bin_phase (phi r) (m r) n j))) in *.
  replace (Rsum (n / 2 + 1) (fun i => Re (el Tx i j))) with (Re z1) by apply Re_Csum.
  set (c := Rsum M (fun r => A r * cos (2 * PI * INR (m r) * INR j / INR n + phi r))) in *.
  assert (E2 : 2 * Re z2 = rate * c).
  { unfold z2, c. rewrite Re_Csum, <- !Rsum_scal. apply Rsum_ext. intros r Hr. unfold bin_phase, cis, Re, Cmul, RtoC. cbn [fst snd]. field. }
  replace (Re z1 * (2 / 1) - rate * nth j y 0) with (2 * Re (Csub z1 z2) - rate * (nth j y 0 - c)) by (unfold Re, Csub, Copp, Cadd in *; cbn [fst] in *; lra).
  eapply Rle_trans; [unfold Rminus; apply Rabs_triang|]. rewrite Rabs_Ropp, !Rabs_mult, (Rabs_right 2), (Rabs_right rate) by lra.
  replace (n / 2 + 2)%nat with (S (n / 2 + 1)) by lia. rewrite S_INR.
  assert (T1 : Rabs (Re (Csub z1 z2)) <= rate * INR (n / 2 + 1) / 2 * e) by (eapply Rle_trans; [apply Re_le_Cabs|exact V]).
  assert (T2 : rate * Rabs (nth j y 0 - c) <= rate * e) by (apply Rmult_le_compat_l; lra).
  replace (rate * (INR (n / 2 + 1) + 1) * e) with (2 * (rate * INR (n / 2 + 1) / 2 * e) + rate * e) by field. apply Rplus_le_compat; [apply Rmult_le_compat_l; [lra|exact T1]|exact T2].
Qed.

(** 8 Hz and 4 Hz taken apart from 48 samples, every second of them 1/64 too large; the 8 Hz tone has amplitude 24 (times the rate) *)
Definition duo_c : mat Z := Mat 48 2 (fun _ r => if (r =? 0)%nat then 8%Z else 4%Z).
Definition duo_w : mat Z := Mat 48 2 (fun _ _ => 1%Z).
Lemma shaken_noisy ord gw : valid_order ord -> hann_noisy ord 2 duo_A duo_phi duo_m 24 (1 / 64) shaken (Some 24) None (SS None SqSum (Some (1 / 100)) false gw true) 24 (1 / 100).
Proof.
  intros Ho. assert (Hl : length shaken = 48%nat) by apply tab_length. unfold hann_noisy. rewrite Hl.
  split; [exact Ho|]. split.
  { intros i Hi. rewrite Hl in Hi. unfold shaken. rewrite nth_tab by exact Hi. unfold duo, bin_chord. rewrite nth_tab by exact Hi.
    match goal with |- Rabs (?p + ?q - ?p') <= _ => replace (p + q - p') with q by ring end. destruct (Nat.even i); rewrite Rabs_right; lra. }
  split. { intros E. rewrite E in Hl. discriminate. }
  split. { unfold process_fs_and_t. destruct (Rle_dec 24 0); [lra|reflexivity]. }
  split. { cbn [INR]. unfold EPS64. lra. }
  split; [reflexivity|]. split; [lia|]. split; [lia|]. split; [reflexivity|]. split.
  { split.
    + intros [|[|r]] Hr; cbn; lia.
    + intros [|[|r]] [|[|r']] Hr Hr' Hne; cbn; lia. }
  split; [reflexivity|]. split; [reflexivity|]. split; [reflexivity|]. split; [lra|].
  intros [|[|r]] Hr; [| |lia]; cbn [duo_A INR]; rewrite Rabs_right by lra; lra.
Qed.
Lemma noisy_parts_case ord gw : valid_order ord -> exists Tx Sx f xs,
  ssq_stft ord shaken (SA 1 (WArray (hann 24)) (Some 24%Z) None 1 true PWrap false) (Some 24) None (SS None SqSum (Some (1 / 100)) false gw true) = Ok (Tx, Sx, f, make_Sfs 13 24) /\
  issq_stft Tx (WArray (hann 24)) (Some (duo_c, duo_w)) None None 1 true false = Ok (Many xs) /\ length xs = 3%nat /\
  forall j, (j < 48)%nat -> Rabs (nth j (nth 0 xs []) 0 - 24 * (duo_A 0 * cos (2 * PI * 8 * INR j / 24 + duo_phi 0))) <= 5 /\
    Rabs (nth j (nth 1 xs []) 0 - 24 * (duo_A 1 * cos (2 * PI * 4 * INR j / 24 + duo_phi 1))) <= 5 /\ Rabs (nth j (nth 2 xs []) 0) <= 5.
Proof.
  intros Ho. assert (Hl : length shaken = 48%nat) by apply tab_length.
  destruct (hann_noisy_parts ord 2 duo_A duo_phi duo_m 24 (1 / 64) shaken (Some 24) None (SS None SqSum (Some (1 / 100)) false gw true) 24 (1 / 100) false false 1 duo_c duo_w) as (Tx & Sx & f & xs & ET & EX & LX & V).
  - apply shaken_noisy, Ho.
  - lia.
  - rewrite Hl. unfold own_rows. do 4 (split; [reflexivity|]). split.
    + intros j [|[|r]] Hj Hr; cbn; lia.
    + intros j [|[|r]] [|[|r']] Hj Hr Hr' Hne; cbn; lia.
  - exists Tx, Sx, f, xs. split; [exact ET|]. split; [exact EX|]. split; [exact LX|]. intros j Hj. destruct (V j ltac:(lia)) as [V1 V2].
    pose proof (V1 0%nat ltac:(lia)) as N0. pose proof (V1 1%nat ltac:(lia)) as N1. cbn [duo_m] in N0, N1.
    assert (E8 : INR 8 = 8) by (rewrite INR_IZR_INZ; reflexivity). assert (E4 : INR 4 = 4) by (rewrite INR_IZR_INZ; reflexivity). assert (E24 : INR 24 = 24) by (rewrite INR_IZR_INZ; reflexivity).
    rewrite E8, E24 in N0. rewrite E4, E24 in N1. change (24 / 2 + 1)%nat with 13%nat in *.
    assert (EB : 24 * INR 13 * (1 / 64) <= 5) by (rewrite INR_IZR_INZ; cbn; lra). split; [lra|]. split; lra.
Qed.
