(** The Hann window meets the hypotheses of [StftToneThms]; odd [n_fft] does not give the tone's
    frequency. *)
From Coq Require Import ZifyBool ZifyNat.
From Verif Require Import Py Round Padding Parallel Cplx CplxProofs Buffer Freqs Stft StftProofs WindowProofs
  Squeeze SqueezeProofs SqueezeThms SqueezeThms2 SqueezeThms3 Scales Ssqueeze SsqueezeProofs CwtTone IssqProofs
  StftTone StftToneThms.
Local Open Scope R_scope.
Ltac Zify.zify_post_hook ::= Z.div_mod_to_equations.

(** [scipy.signal.get_window('hann', n, fftbins=True)] *)
Definition hann (n : nat) : list R := tab n (fun u => 1 / 2 - 1 / 2 * cos (2 * PI * INR u / INR n)).

Section Hann.
Variables (n : nat) (Hn : (4 <= n)%nat).
Lemma root_sum d : Csum n (fun u => tw n (d * Z.of_nat u)) = if (d mod Z.of_nat n =? 0)%Z then RtoC (INR n) else C0.
Proof. apply roots_sum. lia. Qed.

Lemma hann_dft k : dft n (fun u => RtoC (nth u (hann n) 0)) k =
  Csub (Cmul (RtoC (1 / 2)) (Csum n (fun u => tw n (- Z.of_nat k * Z.of_nat u))))
       (Cmul (RtoC (1 / 4)) (Cadd (Csum n (fun u => tw n ((1 - Z.of_nat k) * Z.of_nat u)))
                                  (Csum n (fun u => tw n ((- 1 - Z.of_nat k) * Z.of_nat u))))).
Proof.
  rewrite <- Csum_plus, <- !Csum_scal.
  replace (Csub (Csum n (fun i => Cmul (RtoC (1 / 2)) (tw n (- Z.of_nat k * Z.of_nat i))))
    (Csum n (fun i => Cmul (RtoC (1 / 4)) (Cadd (tw n ((1 - Z.of_nat k) * Z.of_nat i)) (tw n ((-1 - Z.of_nat k) * Z.of_nat i))))))
    with (Cadd (Csum n (fun i => Cmul (RtoC (1 / 2)) (tw n (- Z.of_nat k * Z.of_nat i))))
    (Cmul (RtoC (-1)) (Csum n (fun i => Cmul (RtoC (1 / 4)) (Cadd (tw n ((1 - Z.of_nat k) * Z.of_nat i)) (tw n ((-1 - Z.of_nat k) * Z.of_nat i)))))))
    by (apply C_eq; unfold Csub, Cadd, Cmul, RtoC, Copp; cbn; ring).
  rewrite <- Csum_scal, <- Csum_plus. unfold dft. apply Csum_ext. intros u Hu. unfold hann. rewrite nth_tab by exact Hu.
  replace ((1 - Z.of_nat k) * Z.of_nat u)%Z with (Z.of_nat u + - (Z.of_nat k * Z.of_nat u))%Z by ring.
  replace ((- 1 - Z.of_nat k) * Z.of_nat u)%Z with (- Z.of_nat u + - (Z.of_nat k * Z.of_nat u))%Z by ring.
  replace (- Z.of_nat k * Z.of_nat u)%Z with (- (Z.of_nat k * Z.of_nat u))%Z by ring.
  rewrite !(tw_add n) by lia. rewrite (tw_opp n ltac:(lia) (Z.of_nat u)).
  set (T := tw n (- (Z.of_nat k * Z.of_nat u))).
  assert (E : cos (2 * PI * INR u / INR n) = Re (tw n (Z.of_nat u))).
  { unfold tw, cis, Re. cbn [fst]. rewrite <- INR_IZR_INZ. reflexivity. }
  rewrite E. destruct T as [T1 T2], (tw n (Z.of_nat u)) as [P Q].
  apply C_eq; unfold Re, Cadd, Cmul, RtoC, Cconj; cbn; field.
Qed.

Lemma hann_spec k : (k < n)%nat -> dft n (fun u => RtoC (nth u (hann n) 0)) k =
  if (k =? 0)%nat then RtoC (INR n / 2)
  else if ((k =? 1) || (k =? n - 1))%nat then RtoC (- (INR n / 4)) else C0.
Proof.
  intros Hk. rewrite hann_dft, !root_sum.
  destruct (Nat.eqb_spec k 0) as [E|E].
  - subst k. replace (- Z.of_nat 0 mod Z.of_nat n =? 0)%Z with true by (symmetry; apply Z.eqb_eq; reflexivity).
    replace ((1 - Z.of_nat 0) mod Z.of_nat n)%Z with 1%Z by (symmetry; apply Z.mod_small; lia).
    replace ((-1 - Z.of_nat 0) mod Z.of_nat n)%Z with (Z.of_nat n - 1)%Z by (apply (Z.mod_unique_pos _ _ (-1)); lia).
    destruct (Z.eqb_spec 1 0); [lia|]. destruct (Z.eqb_spec (Z.of_nat n - 1) 0); [lia|].
    apply C_eq; unfold Csub, Cadd, Cmul, RtoC, Copp; cbn; field.
  - replace (- Z.of_nat k mod Z.of_nat n)%Z with (Z.of_nat n - Z.of_nat k)%Z by (apply (Z.mod_unique_pos _ _ (-1)); lia).
    destruct (Z.eqb_spec (Z.of_nat n - Z.of_nat k) 0); [lia|].
    destruct (Nat.eqb_spec k 1) as [E1|E1], (Nat.eqb_spec k (n - 1)) as [E2|E2]; cbn [orb]; try lia.
    + subst k. change (1 - Z.of_nat 1)%Z with 0%Z. rewrite Z.mod_0_l by lia.
      replace ((-1 - Z.of_nat 1) mod Z.of_nat n)%Z with (Z.of_nat n - 2)%Z by (apply (Z.mod_unique_pos _ _ (-1)); lia).
      destruct (Z.eqb_spec 0 0); [|lia]. destruct (Z.eqb_spec (Z.of_nat n - 2) 0); [lia|].
      apply C_eq; unfold Csub, Cadd, Cmul, RtoC, Copp; cbn; field.
    + replace ((1 - Z.of_nat k) mod Z.of_nat n)%Z with 2%Z by (apply (Z.mod_unique_pos _ _ (-1)); lia).
      replace ((-1 - Z.of_nat k) mod Z.of_nat n)%Z with 0%Z by (apply (Z.mod_unique_pos _ _ (-1)); lia).
      destruct (Z.eqb_spec 2 0); [lia|]. destruct (Z.eqb_spec 0 0); [|lia].
      apply C_eq; unfold Csub, Cadd, Cmul, RtoC, Copp; cbn; field.
    + replace ((1 - Z.of_nat k) mod Z.of_nat n)%Z with (Z.of_nat n + 1 - Z.of_nat k)%Z by (apply (Z.mod_unique_pos _ _ (-1)); lia).
      replace ((-1 - Z.of_nat k) mod Z.of_nat n)%Z with (Z.of_nat n - 1 - Z.of_nat k)%Z by (apply (Z.mod_unique_pos _ _ (-1)); lia).
      destruct (Z.eqb_spec (Z.of_nat n + 1 - Z.of_nat k) 0); [lia|]. destruct (Z.eqb_spec (Z.of_nat n - 1 - Z.of_nat k) 0); [lia|].
      apply C_eq; unfold Csub, Cadd, Cmul, RtoC, Copp; cbn; ring.
Qed.

Lemma hann_narrow : narrow n (hann n) 1.
Proof.
  intros q Hq. rewrite wspec_dft, hann_spec by lia.
  destruct (Nat.eqb_spec q 0); [lia|]. destruct (Nat.eqb_spec q 1); [lia|]. destruct (Nat.eqb_spec q (n - 1)); [lia|].
  cbn [orb]. ring.
Qed.

Lemma hann_abs q : wspec n (hann n) q <> C0 -> INR n / 4 <= Cabs (wspec n (hann n) q).
Proof.
  rewrite <- (wspec_mod n ltac:(lia) (hann n) q). pose proof (Z.mod_pos_bound q (Z.of_nat n) ltac:(lia)).
  replace (q mod Z.of_nat n)%Z with (Z.of_nat (Z.to_nat (q mod Z.of_nat n))) by lia.
  set (k := Z.to_nat (q mod Z.of_nat n)). assert (Hk : (k < n)%nat) by (unfold k; lia). clearbody k.
  rewrite wspec_dft by lia. rewrite hann_spec, Cabs_mul by exact Hk. unfold tw at 2. rewrite Cabs_cis.
  assert (0 < INR n) by (apply lt_0_INR; lia).
  destruct (k =? 0)%nat; [|destruct ((k =? 1) || (k =? n - 1))%nat].
  - intros _. rewrite Cabs_RtoC, Rabs_right by lra. lra.
  - intros _. rewrite Cabs_RtoC, Rabs_Ropp, Rabs_right by lra. lra.
  - intros E. exfalso. apply E. ring.
Qed.

Lemma hann_centre : Nat.even n = true -> nth (n / 2) (hann n) 0 = 1.
Proof.
  intros He. unfold hann. rewrite nth_tab by lia.
  apply Nat.even_spec in He. destruct He as [p Ep]. replace (n / 2)%nat with p by lia.
  replace (2 * PI * INR p / INR n) with PI.
  - rewrite cos_PI. field.
  - rewrite Ep, mult_INR. cbn [INR]. field. apply not_0_INR. lia.
Qed.
End Hann.

Lemma hann_length n : length (hann n) = n. Proof. apply tab_length. Qed.

Lemma hann_window n : get_window (WArray (hann n)) (Z.of_nat n) (Z.of_nat n) = Ok (hann n).
Proof.
  unfold get_window. destruct (Z.gtb_spec (Z.of_nat n) (Z.of_nat n)); [lia|].
  replace ((Z.of_nat n - Z.of_nat n) / 2)%Z with 0%Z by lia. rewrite hann_length.
  destruct (Z.ltb_spec (Z.of_nat n) (Z.of_nat n + 0 + (Z.of_nat n - Z.of_nat n - 0))); [lia|reflexivity].
Qed.

(** ** With the Hann window *)
Lemma hann_run ord fs t s rate N n A phi m g hop f32 : valid_order ord -> (1 <= N)%nat ->
  process_fs_and_t fs t N = Ok rate -> EPS64 <= rate / INR n ->
  Nat.even n = true -> (Z.of_nat n < 2 ^ 62)%Z -> (1 <= hop)%Z -> (f32 = true -> (hop <= Z.of_nat n)%Z) ->
  (2 <= m)%nat -> (2 * m + 2 < n)%nat -> s_freqs s = None -> s_sq s = SqSum -> s_gamma s = Some g -> 0 < g ->
  forall a0, stft_tone_run ord (bin_tone A phi m n N) (SA a0 (WArray (hann n)) (Some (Z.of_nat n)) None hop true PReflect f32)
    fs t s rate n (hann n) A phi m 1 g.
Proof.
  intros Ho HN Hfs Hd He H62 Hh Hf Hm Hm2 Hfr Hsq Hg Hg0 a0. assert (Hl : length (bin_tone A phi m n N) = N) by apply tab_length.
  unfold stft_tone_run. rewrite Hl. cbn [a_hop a_modulated a_window a_f32 a_padtype].
  split; [exact Ho|]. split; [reflexivity|]. split; [intros E; rewrite E in Hl; cbn in Hl; lia|].
  split; [exact Hfs|]. split; [exact Hd|]. split; [exact He|]. split; [exact H62|]. split; [exact Hh|].
  split; [reflexivity|].
  split. { unfold stft_n_fft. cbn [a_n_fft]. destruct (Z.eqb_spec (Z.of_nat n) 0); [lia|reflexivity]. }
  split. { unfold stft_win_len. cbn [a_win_len a_window]. rewrite hann_length. apply hann_window. }
  split; [apply hann_length|]. split; [exact Hf|]. split; [left; discriminate|]. split; [apply hann_narrow; lia|].
  split; [lia|]. split; [lia|]. split; [exact Hfr|]. split; [exact Hsq|]. rewrite Hg. split; [reflexivity|].
  split; [lra|]. intros _. exact Hg0.
Qed.

Theorem hann_tone ord fs t s rate N n A phi m g hop f32 a0 : valid_order ord -> (1 <= N)%nat ->
  process_fs_and_t fs t N = Ok rate -> EPS64 <= rate / INR n ->
  Nat.even n = true -> (Z.of_nat n < 2 ^ 62)%Z -> (1 <= hop)%Z -> (f32 = true -> (hop <= Z.of_nat n)%Z) ->
  (2 <= m)%nat -> (2 * m + 2 < n)%nat -> s_freqs s = None -> s_sq s = SqSum -> s_gamma s = Some g ->
  0 < g < Rabs A * INR n / 8 ->
  exists Tx Sx f, ssq_stft ord (bin_tone A phi m n N)
      (SA a0 (WArray (hann n)) (Some (Z.of_nat n)) None hop true PReflect f32) fs t s = Ok (Tx, Sx, f, make_Sfs (n / 2 + 1) rate) /\
    nrows Tx = (n / 2 + 1)%nat /\
    let row := (if s_flip s then n / 2 - m else m)%nat in nth row f 0 = INR m * rate / INR n /\
    forall h q, (h < ncols Tx)%nat -> interior n N (Z.to_nat hop) h -> (q <= n / 2)%nat ->
      el Tx q h = if (q =? row)%nat
                  then Cmul (RtoC (rate * (A / 2))) (bin_phase phi m n (Z.to_nat hop * h)) else C0.
Proof.
  intros Ho HN Hfs Hd He H62 Hh Hf Hm Hm2 Hfr Hsq Hg Hg0.
  pose proof (hann_run ord fs t s rate N n A phi m g hop f32 Ho HN Hfs Hd He H62 Hh Hf Hm Hm2 Hfr Hsq Hg ltac:(lra) a0) as Hr.
  destruct (tone_ssq_full _ _ _ _ _ _ _ _ _ _ _ _ _ _ Hr) as (Tx & Sx & f & E & R1 & N1 & H).
  { intros q Hq. pose proof (hann_abs n ltac:(lia) q Hq) as Hq'.
    replace (Rabs (A / 2)) with (Rabs A / 2).
    - pose proof (Rabs_pos A). assert (Rabs A / 2 * (INR n / 4) <= Rabs A / 2 * Cabs (wspec n (hann n) q)) by (apply Rmult_le_compat_l; lra). lra.
    - unfold Rdiv. rewrite Rabs_mult, (Rabs_right (/ 2)) by lra. reflexivity. }
  exists Tx, Sx, f. split; [exact E|]. split; [exact R1|]. cbv zeta. split; [exact N1|].
  intros h q Hh' Hi Hq. rewrite (H h q Hh'); [|cbn [a_hop]; unfold bin_tone; rewrite tab_length; exact Hi|exact Hq].
  rewrite hann_centre by (try exact He; lia). cbn [a_hop]. rewrite Rmult_1_r. reflexivity.
Qed.

(** a tone in bin 2 of 8, sampled 16 times at 2 Hz, after 4 and up to 12 samples *)
Lemma hann_case ord gw : valid_order ord -> exists Tx Sx f,
  ssq_stft ord (bin_tone 1 0 2 8 16) (SA 1 (WArray (hann 8)) (Some 8%Z) None 1 true PReflect false)
    (Some 2) None (SS None SqSum (Some (1 / 100)) false gw true) = Ok (Tx, Sx, f, make_Sfs 5 2) /\
  nth 2 f 0 = 1 / 2 /\
  forall h q, (4 <= h <= 12)%nat -> (q <= 4)%nat -> (h < ncols Tx)%nat ->
    el Tx q h = if (q =? 2)%nat then cis (PI * INR h / 2) else C0.
Proof.
  intros Ho. assert (Hpos : process_fs_and_t (Some 2) None 16 = Ok 2).
  { unfold process_fs_and_t. destruct (Rle_dec 2 0); [lra|reflexivity]. }
  destruct (hann_tone ord (Some 2) None (SS None SqSum (Some (1 / 100)) false gw true) 2 16 8 1 0 2 (1 / 100) 1 false 1 Ho) as (Tx & Sx & f & E & R1 & N1 & H);
    try reflexivity; try exact Hpos; try lia; try discriminate.
  - cbn [INR]. unfold EPS64. lra.
  - rewrite Rabs_R1. cbn [INR]. lra.
  - exists Tx, Sx, f. split; [exact E|]. cbn [s_flip] in N1, H. split; [rewrite N1; cbn [INR]; lra|].
    intros h q Hh Hq Hc. rewrite H; [|exact Hc|unfold interior; change (8 / 2)%nat with 4%nat; change (Z.to_nat 1) with 1%nat; lia|exact Hq].
    destruct (q =? 2)%nat; [|reflexivity]. unfold bin_phase. change (Z.to_nat 1 * h)%nat with (1 * h)%nat. rewrite Nat.mul_1_l.
    replace (2 * PI * INR 2 * INR h / INR 8 + 0) with (PI * INR h / 2) by (cbn [INR]; field).
    apply C_eq; unfold Cmul, RtoC; cbn [fst snd]; field.
Qed.

(** ** Odd [n_fft] *)
Theorem tone_phase_odd x a n w A phi m b : (2 <= n)%nat -> x = bin_tone A phi m n (length x) -> (1 <= length x)%nat ->
  (1 <= a_hop a)%Z -> a_modulated a = true -> stft_n_fft a (Z.of_nat (length x)) = Ok (Z.of_nat n) ->
  get_window (a_window a) (stft_win_len a (Z.of_nat n)) (Z.of_nat n) = Ok w -> length w = n ->
  (a_f32 a = true -> (a_hop a <= Z.of_nat n)%Z) -> pad_usable (a_padtype a) (Z.of_nat (length x)) (Z.of_nat n) ->
  narrow n w b -> (b < m)%nat -> (2 * m + 2 * b < n)%nat -> Nat.even n = false -> 0 <= a_fs a ->
  exists Sx dSx, stft x a = Ok (Sx, dSx) /\ nrows Sx = (n / 2 + 1)%nat /\
    Z.of_nat (ncols Sx) = ((Z.of_nat (length x) - 1) / a_hop a + 1)%Z /\
    forall h k, (h < ncols Sx)%nat -> interior n (length x) (Z.to_nat (a_hop a)) h -> (k <= n / 2)%nat ->
      el Sx k h = Cmul (Cmul (RtoC (A / 2)) (bin_phase phi m n (Z.to_nat (a_hop a) * h))) (wspec n w (Z.of_nat k - Z.of_nat m)) /\
      (el Sx k h <> C0 ->
       phase_stft_pt (nth k (make_Sfs (n / 2 + 1) (a_fs a)) 0) (el Sx k h) (el dSx k h) =
       a_fs a / INR n * (INR m + INR k / (INR n - 1))).
Proof.
  intros Hn Hx HN Hhop Hmod Hnf Hw Hlw Hf32 Hpad Hb Hm Hm2 Ho Hfs.
  destruct (tone_stft x a n w A phi m b Hn Hx HN Hhop Hmod Hnf Hw Hlw Hf32 Hpad Hb Hm Hm2)
    as (Sx & dSx & ES & R1 & R2 & C1 & C2 & H).
  exists Sx, dSx. split; [exact ES|]. split; [exact R1|]. split; [exact C2|].
  intros h k Hh Hi Hk. destruct (H h k Hh Hi Hk) as [E1 E2]. split; [exact E1|]. intros Hnz.
  rewrite E2, phase_stft_factor, make_Sfs_odd by (try exact Ho; try exact Hnz; lia).
  assert (Hn1 : 0 < INR n - 1). { assert (INR 2 <= INR n) by (apply le_INR; lia). cbn [INR] in *. lra. }
  assert (0 <= a_fs a / INR n * (INR m + INR k / (INR n - 1))).
  { pose proof (pos_INR m). pose proof (pos_INR k). apply Rmult_le_pos.
    - apply Rmult_le_pos; [exact Hfs|]. apply Rlt_le, Rinv_0_lt_compat. lra.
    - assert (0 <= INR k / (INR n - 1)) by (apply Rmult_le_pos; [assumption|]; apply Rlt_le, Rinv_0_lt_compat; lra). lra. }
  rewrite <- (Rabs_right _ (Rle_ge _ _ H0)). f_equal. field. lra.
Qed.

(** seven samples at 1 Hz, two periods, seven-point Hann: not [2 / 7] *)
Lemma odd_refuted : exists x a m n Sx dSx h k, x = bin_tone 1 0 m n (length x) /\ (2 * m < n)%nat /\ a_modulated a = true /\
  a_window a = WArray (hann n) /\ stft x a = Ok (Sx, dSx) /\ interior n (length x) 1 h /\ (h < ncols Sx)%nat /\ (k < nrows Sx)%nat /\
  el Sx k h <> C0 /\
  phase_stft_pt (nth k (make_Sfs (n / 2 + 1) (a_fs a)) 0) (el Sx k h) (el dSx k h) <> INR m * a_fs a / INR n.
Proof.
  set (x := bin_tone 1 0 2 7 7). set (a := SA 1 (WArray (hann 7)) (Some 7%Z) None 1 true PReflect false).
  destruct (tone_phase_odd x a 7 (hann 7) 1 0 2 1) as (Sx & dSx & E & R1 & C1 & H); try reflexivity; try lia; try discriminate;
    try (left; discriminate); try (apply hann_narrow; lia).
  - change (1 <= 7)%nat. lia.
  - cbn. lra.
  - exists x, a, 2%nat, 7%nat, Sx, dSx, 3%nat, 2%nat.
    assert (Hc : ncols Sx = 7%nat) by (change (length x) with 7%nat in C1; cbn in C1; lia).
    assert (Hi : interior 7 7 1 3) by (unfold interior; cbn; lia).
    destruct (H 3%nat 2%nat ltac:(lia) Hi ltac:(cbn; lia)) as [E1 E2].
    assert (Hnz : el Sx 2%nat 3%nat <> C0).
    { rewrite E1. intros E0. apply (f_equal Cabs) in E0. rewrite Cabs_0, !Cabs_mul, bin_phase_abs, Cabs_RtoC in E0.
      replace (Z.of_nat 2 - Z.of_nat 2)%Z with (Z.of_nat 0) in E0 by lia.
      rewrite wspec_dft, hann_spec in E0 by lia. cbn [Nat.eqb] in E0.
      unfold tw in E0. rewrite Cabs_mul, Cabs_cis, Cabs_RtoC in E0. cbn [INR] in E0.
      rewrite !Rabs_right in E0 by lra. lra. }
    split; [reflexivity|]. split; [lia|]. split; [reflexivity|]. split; [reflexivity|]. split; [exact E|]. split; [exact Hi|].
    split; [lia|]. split; [rewrite R1; cbn; lia|]. split; [exact Hnz|].
    rewrite (E2 Hnz). cbn [a a_fs INR]. intros E0. lra.
Qed.
