(** Witnesses for the symmetries and the energy of [stft] and [ssq_stft]. *)
From Coq Require Import Reals Lra ZifyBool ZifyNat.
From Verif Require Import Py Round Parallel Cplx CplxProofs Padding PaddingProofs Buffer BufferProofs Freqs Stft StftProofs Squeeze SqueezeProofs BinProofs
  SqueezeThms SqueezeThms2 SqueezeThms3 Scales Ssqueeze SsqueezeProofs FreqRange Cwt CwtProofs CwtThms Transport RateThms SymmThms SymmInst StftTone StftToneThms StftToneWitness
  CwtTone StftMap StftEnergy StftMap2 StftMap3 StftMirror.
Import Stft.
Local Open Scope R_scope.
Ltac Zify.zify_post_hook ::= Z.div_mod_to_equations.

Lemma hann_usable x n hop f32 b pt r : (1 <= length x)%nat -> (1 <= n)%nat -> (1 <= hop)%Z -> (f32 = true -> (hop <= Z.of_nat n)%Z) -> pt = PReflect \/ pt = PZero ->
  usable x (SA r (WArray (hann n)) (Some (Z.of_nat n)) None hop b pt f32) n (hann n).
Proof.
  intros Hx Hn Hh Hf Hp. unfold usable. cbn [a_hop a_window a_f32 a_padtype]. split; [destruct x; [cbn in Hx; lia|discriminate]|]. split; [exact Hn|]. split; [exact Hh|].
  split. { unfold stft_n_fft. cbn [a_n_fft]. destruct (Z.eqb_spec (Z.of_nat n) 0); [lia|reflexivity]. }
  split. { unfold stft_win_len. cbn [a_win_len a_window]. rewrite hann_length. apply hann_window. }
  split; [apply hann_length|]. split; [exact Hf|]. left. destruct Hp as [-> | ->]; discriminate.
Qed.
Lemma hann_even n : even_window n (hann n) /\ ((1 <= n)%nat -> nth 0 (hann n) 0 = 0).
Proof.
  split.
  - intros u Hu. unfold hann. rewrite !nth_tab by lia. f_equal. f_equal.
    replace (2 * PI * INR (n - u) / INR n) with (- (2 * PI * INR u / INR n) + 2 * INR 1 * PI).
    + rewrite cos_period. apply cos_neg.
    + rewrite minus_INR by lia. cbn [INR]. field. apply not_0_INR. lia.
  - intros Hn. unfold hann. rewrite nth_tab by lia. cbn [INR]. replace (2 * PI * 0 / INR n) with 0 by (unfold Rdiv; ring). rewrite cos_0. lra.
Qed.

(** ** Dropping whole hops from the front, changing what the window does not reach *)
Lemma skip_frame n hop x s h : interior n (length x) hop (h + s) -> interior n (length x - hop * s) hop h ->
  same_frame n hop x (skipn (hop * s) x) (h + s) h.
Proof.
  intros I1 I2. unfold same_frame. rewrite skipn_length. split; [exact I1|]. split; [exact I2|]. intros u Hu. unfold interior in *. rewrite nth_skipn_add. f_equal. nia.
Qed.
Theorem ssq_stft_skip ord x a n w fs s sk rate Tx Sx f Sfs : valid_order ord -> (forall g, s_sq s <> SqFun g) -> usable x a n w -> usable (skipn (Z.to_nat (a_hop a) * sk) x) a n w ->
  process_fs_and_t fs None (length x) = Ok rate -> ssq_stft ord x a fs None s = Ok (Tx, Sx, f, Sfs) ->
  exists Tx' Sx', ssq_stft ord (skipn (Z.to_nat (a_hop a) * sk) x) a fs None s = Ok (Tx', Sx', f, Sfs) /\ nrows Tx' = nrows Tx /\
    forall h, (h + sk < ncols Tx)%nat -> (h < ncols Tx')%nat ->
      (n / 2 <= Z.to_nat (a_hop a) * h)%nat -> (Z.to_nat (a_hop a) * (h + sk) + n <= n / 2 + length x)%nat ->
    forall q, (q < nrows Tx)%nat -> el Tx' q h = el Tx q (h + sk)%nat /\ el Sx' q h = el Sx q (h + sk)%nat.
Proof.
  intros Ho Hsq Hu Hu' Er E. destruct (ssq_stft_local ord x _ a n w fs None None s rate Tx Sx f Sfs Ho Hsq Hu Hu' Er Er E) as (Tx' & Sx' & E' & R' & H).
  exists Tx', Sx'. split; [exact E'|]. split; [exact R'|]. intros h H1 H2 H3 H4. apply H; try assumption. apply skip_frame; unfold interior; lia.
Qed.
Theorem ssq_stft_rev ord x a n w fs s rate Tx Sx f Sfs : valid_order ord -> s_sq s = SqSum \/ s_sq s = SqAbs ->
  usable x a n w -> even_window n w -> nth 0 w 0 = 0 -> Nat.even n = true -> a_hop a = 1%Z ->
  process_fs_and_t fs None (length x) = Ok rate -> ssq_stft ord x a fs None s = Ok (Tx, Sx, f, Sfs) ->
  exists Tx' Sx', ssq_stft ord (rev x) a fs None s = Ok (Tx', Sx', f, Sfs) /\ nrows Tx' = nrows Tx /\ ncols Tx' = ncols Tx /\
    forall h, (n / 2 <= h)%nat -> (h + n / 2 < length x)%nat -> forall q, (q < nrows Tx)%nat ->
      el Tx' q (length x - 1 - h)%nat = Cconj (el Tx q h) /\ el Sx' q (length x - 1 - h)%nat = Cconj (el Sx q h).
Proof.
  intros Ho Hsq Hu Hw Hw0 He Hh Er E. assert (Hu' : usable (rev x) a n w) by (apply (usable_len x); [apply rev_length|exact Hu]).
  pose proof Hu as (Hx0 & Hn & _).
  destruct (ssq_stft_mirror ord x (rev x) a n w fs None None s rate Tx Sx f Sfs Ho Hsq Hu Hu' Hw (or_introl He) Er ltac:(rewrite rev_length; exact Er) E) as (Tx' & Sx' & E' & R' & H).
  assert (HC : forall y T S f0 F0, usable y a n w -> ssq_stft ord y a fs None s = Ok (T, S, f0, F0) -> ncols T = length y).
  { intros y T S f0 F0 Uy Ey. destruct (ssq_stft_parts _ _ _ _ _ _ _ _ _ _ Ey) as (rt & dS & _ & _ & F3 & _ & F5 & _).
    destruct (one_cells _ _ _ _ _ _ _ _ _ Ho F5) as (_ & T2 & _). rewrite T2.
    destruct (stft_cells y (rated a rt) n w (usable_rated _ _ _ _ _ Uy)) as (xp & X & dX & _ & _ & _ & E1 & _ & _ & _ & C1 & _).
    rewrite F3 in E1. injection E1 as <- <-. cbn [rated a_hop] in C1. rewrite Hh, Z.div_1_r in C1.
    replace (ncols (squeeze_input (s_sq s) (nrows S) S)) with (ncols S) by (destruct Hsq as [-> | ->]; reflexivity). lia. }
  pose proof (HC _ _ _ _ _ Hu E) as K. pose proof (HC _ _ _ _ _ Hu' E') as K'. rewrite rev_length in K'.
  exists Tx', Sx'. split; [exact E'|]. split; [exact R'|]. split; [congruence|]. intros h H1 H2 q Hq.
  apply Nat.even_spec in He as Hp. destruct Hp as (p & Hp).
  apply H; try lia. rewrite Hh. apply rev_mirror; try assumption; unfold interior; change (Z.to_nat 1) with 1%nat; lia.
Qed.

(** ** The unmodulated transform *)
Definition unmodulated (a : stft_args) (r : R) : stft_args :=
  SA r (a_window a) (a_n_fft a) (a_win_len a) (a_hop a) false (a_padtype a) (a_f32 a).
Lemma ratio_turn u z d : Cabs u = 1 -> phase_ratio (Cmul u z) (Cmul u d) = phase_ratio z d.
Proof.
  intros Hu. destruct u as [p q], z as [a b], d as [c e]. assert (Hq : p * p + q * q = 1).
  { pose proof (Cabs_sqr (p, q)) as H. rewrite Hu in H. unfold Cnorm2, Re, Im in H. cbn [fst snd] in H. lra. }
  unfold phase_ratio, Cmul, Re, Im. cbn [fst snd]. f_equal; [|f_equal].
  - transitivity ((p * p + q * q) * (e * a - c * b)); [ring|rewrite Hq; ring].
  - transitivity ((p * p + q * q) * (a * a + b * b)); [ring|rewrite Hq; ring].
Qed.
Theorem unmodulated_phase x a n w r : usable x a n w -> a_modulated a = true -> exists Sx dSx Sx' dSx',
  stft x (rated a 1) = Ok (Sx, dSx) /\ stft x (unmodulated a r) = Ok (Sx', dSx') /\ nrows Sx' = nrows Sx /\ ncols Sx' = ncols Sx /\
  forall k h, (h < ncols Sx)%nat -> Cabs (el Sx' k h) = Cabs (el Sx k h) /\ phase_ratio (el Sx' k h) (el dSx' k h) = phase_ratio (el Sx k h) (el dSx k h).
Proof.
  intros Hu Hm. pose proof Hu as (_ & Hn & Hhop & Hnf & Hwn & Hlw & Hf & Hp).
  assert (Hu' : usable x (unmodulated a r) n w) by (unfold usable; repeat split; try assumption; apply Hu).
  destruct (stft_cells x (rated a 1) n w (usable_rated _ _ _ _ _ Hu)) as (xp & X & dX & P1 & L1 & A1 & E1 & R1 & D1 & K1 & C1 & F1 & V1).
  destruct (stft_cells x _ n w Hu') as (yp & Y & dY & P2 & L2 & A2 & E2 & R2 & D2 & K2 & C2 & F2 & V2).
  assert (yp = xp) as -> by (apply (padded_fun x a n); [exact P2|exact P1]). cbn [rated unmodulated a_hop] in C1, C2.
  exists X, dX, Y, dY. split; [exact E1|]. split; [exact E2|]. split; [congruence|]. assert (Ec : ncols Y = ncols X) by lia. split; [exact Ec|].
  intros k h Hh. destruct (V1 k h Hh) as [-> ->]. destruct (V2 k h ltac:(lia)) as [-> ->].
  assert (Ed : dwindow (unmodulated a r) w = diff_window w) by reflexivity.
  assert (Ed1 : forall u, nth u (dwindow (rated a 1) w) 0 = nth u (diff_window w) 0).
  { intros u. unfold dwindow. cbn [rated a_modulated a_fs]. rewrite Hm, nth_map_scal. ring. }
  set (z := tw n (- (Z.of_nat k * (Z.of_nat n / 2)))).
  assert (HZ : forall g g', (forall u, nth u g' 0 = nth u g 0) -> cell (unmodulated a r) n g xp k h = Cmul z (cell (rated a 1) n g' xp k h)).
  { intros g g' Hg. unfold cell. rewrite <- Csum_scal. apply Csum_ext. intros u Hu0. unfold phase_ref. cbn [rated unmodulated a_hop a_modulated]. rewrite Hm, Hg.
    replace (- (Z.of_nat k * (Z.of_nat u - 0)))%Z with (- (Z.of_nat k * (Z.of_nat n / 2)) + - (Z.of_nat k * (Z.of_nat u - Z.of_nat n / 2)))%Z by ring.
    rewrite tw_add by exact Hn. fold z. apply C_eq; unfold Cmul, RtoC; cbn [fst snd]; ring. }
  assert (Hz : Cabs z = 1) by (unfold z, tw; apply Cabs_cis).
  rewrite Ed, (HZ w w) by reflexivity. rewrite (HZ (diff_window w) (dwindow (rated a 1) w)) by exact Ed1.
  rewrite ratio_turn by exact Hz. rewrite Cabs_mul, Hz. split; [ring|reflexivity].
Qed.
(** the phase transforms of the two at the same rate *)
Theorem unmodulated_one x a n w : usable x a n w -> a_modulated a = true -> exists Sx dSx Sx' dSx',
  stft x (rated a 1) = Ok (Sx, dSx) /\ stft x (unmodulated a 1) = Ok (Sx', dSx') /\ nrows Sx' = nrows Sx /\ ncols Sx' = ncols Sx /\
  forall g k h, (h < ncols Sx)%nat -> el (phase_stft (make_Sfs (nrows Sx') 1) g Sx' dSx') k h = el (phase_stft (make_Sfs (nrows Sx) 1) g Sx dSx) k h.
Proof.
  intros Hu Hm. destruct (unmodulated_phase x a n w 1 Hu Hm) as (Sx & dSx & Sx' & dSx' & E1 & E2 & R & Cc & H). exists Sx, dSx, Sx', dSx'.
  repeat (split; [assumption|]). intros g k h Hh. destruct (H k h Hh) as [H1 H2]. cbn [phase_stft el]. unfold phase_stft_pt. rewrite H1, H2, R. reflexivity.
Qed.
Lemma unmodulated_wrong : exists x a m n Sx dSx h k, x = bin_tone 1 0 m n (length x) /\ (2 * m < n)%nat /\ Nat.even n = true /\ a_modulated a = false /\
  a_window a = WArray (hann n) /\ stft x a = Ok (Sx, dSx) /\ interior n (length x) 1 h /\ (h < ncols Sx)%nat /\ (k < nrows Sx)%nat /\
  el (phase_stft (make_Sfs (nrows Sx) (a_fs a)) (1 / 100) Sx dSx) k h = Fin (11 / 8) /\ INR m * a_fs a / INR n = 1.
Proof.
  set (x := bin_tone 1 0 2 8 16). set (a := SA 1 (WArray (hann 8)) (Some 8%Z) None 1 true PReflect false).
  assert (Hu : usable x a 8 (hann 8)) by (apply (hann_usable x 8); try discriminate; auto; [unfold x, bin_tone; rewrite tab_length|..]; lia).
  destruct (unmodulated_phase x a 8 (hann 8) 4 Hu eq_refl) as (Sx & dSx & Sx' & dSx' & E1 & E2 & R1 & C1 & H).
  destruct (tone_stft x a 8 (hann 8) 1 0 2 1) as (Sy & dSy & E & Ry & _ & _ & Cy & Hy); try reflexivity; try lia; try discriminate;
    try (left; discriminate); try (apply hann_narrow; lia).
  { change (1 <= 16)%nat. lia. }
  change (rated a 1) with a in E1. rewrite E in E1. injection E1 as <- <-.
  assert (Hc : ncols Sy = 16%nat) by (change (length x) with 16%nat in Cy; cbn in Cy; lia).
  assert (Hi : interior 8 (length x) 1 6) by (change (length x) with 16%nat; unfold interior; cbn; lia).
  destruct (Hy 6%nat 3%nat ltac:(lia) Hi ltac:(cbn; lia)) as [V1 V2]. destruct (H 3%nat 6%nat ltac:(lia)) as [A1 A2].
  assert (Hab : Cabs (el Sy 3%nat 6%nat) = 1).
  { rewrite V1, !Cabs_mul, bin_phase_abs, Cabs_RtoC. replace (Z.of_nat 3 - Z.of_nat 2)%Z with (Z.of_nat 1) by lia.
    rewrite wspec_dft, hann_spec by lia. cbn [Nat.eqb]. unfold tw. rewrite Cabs_mul, Cabs_cis, Rabs_right by lra.
    cbn [INR Nat.sub Nat.eqb Nat.odd Nat.even negb orb]. rewrite Cabs_RtoC. rewrite Rabs_left by lra. lra. }
  exists x, (unmodulated a 4), 2%nat, 8%nat, Sx', dSx', 6%nat, 3%nat. split; [reflexivity|]. split; [lia|]. split; [reflexivity|]. split; [reflexivity|]. split; [reflexivity|].
  split; [exact E2|]. split; [exact Hi|]. split; [lia|]. split; [rewrite R1, Ry; cbn; lia|]. cbn [unmodulated a_fs INR]. split; [|lra].
  cbn [phase_stft el]. rewrite A1, Hab. destruct (Rlt_dec 1 (1 / 100)); [lra|]. f_equal. unfold phase_stft_pt. rewrite A2, V2.
  rewrite phase_ratio_factor by (intros E0; rewrite E0, Cabs_0 in Hab; lra). rewrite R1, Ry. change (8 / 2 + 1)%nat with 5%nat.
  unfold make_Sfs, linspace. cbn [a a_fs INR]. pose proof PI_RGT_0.
  replace (nth 3 _ 0) with (3 / 2) by (cbn; lra).
  replace (2 * PI * (1 * (1 + 1 + 1 - (1 + 1)) / (1 + 1 + 1 + 1 + 1 + 1 + 1 + 1)) / (2 * PI)) with (1 / 8) by (field; lra).
  rewrite Rabs_right; lra.
Qed.
