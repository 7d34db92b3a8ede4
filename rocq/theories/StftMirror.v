(** [stft] and [ssq_stft] of mirrored frames; the unmodulated transform and the sampling rate. *)
From Coq Require Import Reals Lra ZifyBool ZifyNat.
From Verif Require Import Py Round Parallel Cplx CplxProofs Padding PaddingProofs Buffer BufferProofs Freqs Stft StftProofs Squeeze SqueezeProofs BinProofs
  SqueezeThms SqueezeThms2 SqueezeThms3 Scales Ssqueeze SsqueezeProofs FreqRange Cwt CwtProofs CwtThms Transport RateThms SymmThms SymmInst StftTone StftMap StftMap2 StftMap3.
Import Stft.
Local Open Scope R_scope.
Ltac Zify.zify_post_hook ::= Z.div_mod_to_equations.

Lemma Csum_mirror n f g : f 0%nat = g 0%nat -> (forall u, (0 < u < n)%nat -> f (n - u)%nat = g u) -> Csum n f = Csum n g.
Proof.
  intros H0 H. destruct n as [|m]; [reflexivity|]. rewrite !Csum_first, H0. f_equal. rewrite Csum_rev. apply Csum_ext. intros i Hi.
  rewrite <- H by lia. f_equal. lia.
Qed.
(** the window is symmetric about [n / 2] *)
Definition even_window (n : nat) (w : list R) : Prop := forall u, (0 < u < n)%nat -> nth (n - u) w 0 = nth u w 0.
Lemma tw_back n k u : (1 <= n)%nat -> (0 < u < n)%nat -> tw n (- (Z.of_nat k * Z.of_nat (n - u))) = Cconj (tw n (- (Z.of_nat k * Z.of_nat u))).
Proof.
  intros Hn Hu. rewrite <- (tw_opp n Hn). rewrite <- (tw_shift n Hn _ (Z.of_nat k)). f_equal. rewrite Nat2Z.inj_sub by lia. ring.
Qed.
Lemma even_dft n w k : (1 <= n)%nat -> even_window n w -> Im (dft n (fun u => RtoC (nth u w 0)) k) = 0.
Proof.
  intros Hn Hw. assert (E : dft n (fun u => RtoC (nth u w 0)) k = Cconj (dft n (fun u => RtoC (nth u w 0)) k)).
  { unfold dft. rewrite Csum_conj. apply Csum_mirror.
    - replace (- (Z.of_nat k * Z.of_nat 0))%Z with 0%Z by lia. rewrite (tw_0 n Hn). apply C_eq; unfold Cconj, Cmul, RtoC, C1; cbn [fst snd]; ring.
    - intros u Hu. rewrite Hw, tw_back, Cconj_mul, Cconj_RtoC by (try exact Hn; exact Hu). reflexivity. }
  apply (f_equal snd) in E. unfold Cconj in E. cbn [snd] in E. unfold Im. lra.
Qed.
Lemma Re_scalR r z : Re (Cmul (RtoC r) z) = r * Re z.
Proof. destruct z. unfold Re, Cmul, RtoC. cbn [fst snd]. ring. Qed.
Lemma diff_odd n w : (1 <= n)%nat -> length w = n -> even_window n w ->
  nth 0 (diff_window w) 0 = 0 /\ forall u, (0 < u < n)%nat -> nth (n - u) (diff_window w) 0 = - nth u (diff_window w) 0.
Proof.
  intros Hn Hl Hw.
  assert (HX : forall m, Re (diff_window_c w m) = / INR n * Rsum n (fun k => - (Re (dft n (fun j => RtoC (nth j w 0)) k) * xi_diff n k * Im (tw n (Z.of_nat k * Z.of_nat m))))).
  { intros m. unfold diff_window_c. rewrite Hl. unfold idft. rewrite (Re_scalR (/ INR n)), Re_Csum. f_equal. apply Rsum_ext. intros k Hk.
    pose proof (even_dft n w k Hn Hw) as HI. destruct (dft n (fun j => RtoC (nth j w 0)) k) as [p q]. unfold Im in HI. cbn [snd] in HI. subst q.
    destruct (tw n (Z.of_nat k * Z.of_nat m)). unfold Re, Im, Cmul, RtoC, Ci. cbn [fst snd]. ring. }
  split.
  - unfold diff_window. rewrite nth_tab by lia. rewrite HX. rewrite Rsum_0; [ring|]. intros k Hk. 
    replace (Z.of_nat k * Z.of_nat 0)%Z with 0%Z by lia. rewrite (tw_0 n Hn). unfold Im, C1. cbn [snd]. ring.
  - intros u Hu. unfold diff_window. rewrite !nth_tab by lia. rewrite !HX. rewrite Ropp_mult_distr_r. f_equal.
    replace (- Rsum n (fun k => - (Re (dft n (fun j => RtoC (nth j w 0)) k) * xi_diff n k * Im (tw n (Z.of_nat k * Z.of_nat u)))))
      with (-1 * Rsum n (fun k => - (Re (dft n (fun j => RtoC (nth j w 0)) k) * xi_diff n k * Im (tw n (Z.of_nat k * Z.of_nat u))))) by ring.
    rewrite <- Rsum_scal. apply Rsum_ext. intros k Hk.
    assert (Et : tw n (Z.of_nat k * Z.of_nat (n - u)) = Cconj (tw n (Z.of_nat k * Z.of_nat u))).
    { rewrite <- (tw_opp n Hn). rewrite <- (tw_shift n Hn (- _) (Z.of_nat k)). f_equal. rewrite Nat2Z.inj_sub by lia. ring. }
    rewrite Et. unfold Cconj, Im. cbn [snd]. ring.
Qed.

(** column [h'] of [x'] sees the samples of column [h] of [x] backwards *)
Definition mirror_frame (n hop : nat) (w x x' : list R) (h h' : nat) : Prop :=
  interior n (length x) hop h /\ interior n (length x') hop h' /\
  (nth 0 w 0 = 0 \/ nth (hop * h' - n / 2) x' 0 = nth (hop * h - n / 2) x 0) /\
  forall u, (0 < u < n)%nat -> nth (hop * h' + (n - u) - n / 2) x' 0 = nth (hop * h + u - n / 2) x 0.
Lemma tw_mirror a n k u : (1 <= n)%nat -> Nat.even n = true \/ a_modulated a = false -> (0 < u < n)%nat ->
  tw n (- (Z.of_nat k * (Z.of_nat (n - u) - phase_ref a (Z.of_nat n)))) = Cconj (tw n (- (Z.of_nat k * (Z.of_nat u - phase_ref a (Z.of_nat n))))).
Proof.
  intros Hn He Hu. rewrite <- (tw_opp n Hn). unfold phase_ref. destruct (a_modulated a) eqn:Em.
  - destruct He as [He|]; [|discriminate]. apply Nat.even_spec in He. destruct He as (p & Hp). f_equal.
    replace (Z.of_nat n / 2)%Z with (Z.of_nat p) by lia. rewrite Nat2Z.inj_sub by lia. replace (Z.of_nat n) with (2 * Z.of_nat p)%Z by lia. ring.
  - rewrite <- (tw_shift n Hn _ (Z.of_nat k)). f_equal. rewrite Nat2Z.inj_sub by lia. ring.
Qed.
Lemma tw_centre a n k : (1 <= n)%nat -> Nat.even n = true \/ a_modulated a = false ->
  Cconj (tw n (- (Z.of_nat k * (Z.of_nat 0 - phase_ref a (Z.of_nat n))))) = tw n (- (Z.of_nat k * (Z.of_nat 0 - phase_ref a (Z.of_nat n)))).
Proof.
  intros Hn He. rewrite <- (tw_opp n Hn). unfold phase_ref. destruct (a_modulated a) eqn:Em.
  - destruct He as [He|]; [|discriminate]. apply Nat.even_spec in He. destruct He as (p & Hp).
    rewrite <- (tw_shift n Hn _ (Z.of_nat k)). f_equal.
    replace (Z.of_nat n / 2)%Z with (Z.of_nat p) by lia. replace (Z.of_nat n) with (2 * Z.of_nat p)%Z by lia. change (Z.of_nat 0) with 0%Z. ring.
  - f_equal. lia.
Qed.
Theorem stft_mirror x x' a n w Sx dSx Sx' dSx' : usable x a n w -> usable x' a n w -> even_window n w -> Nat.even n = true \/ a_modulated a = false ->
  stft x a = Ok (Sx, dSx) -> stft x' a = Ok (Sx', dSx') ->
  forall h h', (h < ncols Sx)%nat -> (h' < ncols Sx')%nat -> mirror_frame n (Z.to_nat (a_hop a)) w x x' h h' ->
  forall k, el Sx' k h' = Cconj (el Sx k h) /\ el dSx' k h' = Copp (Cconj (el dSx k h)).
Proof.
  intros Hx Hx' Hw He E E' h h' Hh Hh' ((I1 & I2) & (I3 & I4) & H0 & Hs) k. pose proof Hx as (_ & Hn & _ & _ & _ & Hlw & _).
  destruct (stft_cells x a n w Hx) as (xp & X & dX & P1 & L1 & A1 & E1 & R1 & D1 & K1 & C1 & F1 & V1).
  destruct (stft_cells x' a n w Hx') as (yp & Y & dY & P2 & L2 & A2 & E2 & R2 & D2 & K2 & C2 & F2 & V2).
  rewrite E1 in E. rewrite E2 in E'. injection E as <- <-. injection E' as <- <-.
  destruct (V1 k h Hh) as [-> ->]. destruct (V2 k h' Hh') as [-> ->].
  set (hop := Z.to_nat (a_hop a)) in *.
  assert (Ax : forall u, (u < n)%nat -> nth (hop * h + u) xp 0 = nth (hop * h + u - n / 2) x 0).
  { intros u Hu. rewrite <- A1 by lia. f_equal. lia. }
  assert (Ay : forall u, (u < n)%nat -> nth (hop * h' + u) yp 0 = nth (hop * h' + u - n / 2) x' 0).
  { intros u Hu. rewrite <- A2 by lia. f_equal. lia. }
  assert (HG : forall g sg, sg * sg = 1 -> (forall u, (0 < u < n)%nat -> nth (n - u) g 0 = sg * nth u g 0) ->
     (nth 0 g 0 = 0 \/ sg = 1 /\ nth (hop * h' - n / 2) x' 0 = nth (hop * h - n / 2) x 0) ->
     cell a n g yp k h' = Cmul (RtoC sg) (Cconj (cell a n g xp k h))).
  { intros g sg Hsg Hg Hg0. unfold cell. fold hop. rewrite Csum_conj, <- Csum_scal. apply Csum_mirror.
    - rewrite Cconj_mul, Cconj_RtoC, tw_centre by assumption. destruct Hg0 as [ ->|[ -> Hs0]].
      + apply C_eq; unfold Cmul, RtoC; cbn [fst snd]; ring.
      + rewrite Ax, Ay, !Nat.add_0_r, Hs0 by lia. apply C_eq; unfold Cmul, RtoC; cbn [fst snd]; ring.
    - intros u Hu. rewrite tw_mirror, Cconj_mul, Cconj_RtoC, Hg, Ax, Ay, Hs by (try assumption; lia).
      apply C_eq; unfold Cmul, RtoC; cbn [fst snd]; ring. }
  destruct (diff_odd n w Hn Hlw Hw) as [O0 O1]. split.
  - rewrite (HG w 1); [apply C_eq; unfold Cmul, RtoC; cbn [fst snd]; ring|ring|intros u Hu; rewrite Hw by exact Hu; ring|].
    destruct H0 as [H0|H0]; [left; exact H0|right; split; [reflexivity|exact H0]].
  - assert (Hd : nth 0 (dwindow a w) 0 = 0 /\ forall u, (0 < u < n)%nat -> nth (n - u) (dwindow a w) 0 = -1 * nth u (dwindow a w) 0).
    { unfold dwindow. assert (Hld : length (diff_window w) = n) by (unfold diff_window; rewrite tab_length; exact Hlw).
      destruct (a_modulated a); [rewrite !nth_map_scal|]; rewrite ?O0; (split; [ring|]); intros u Hu; rewrite ?nth_map_scal, O1 by exact Hu; ring. }
    rewrite (HG (dwindow a w) (-1)); [apply C_eq; unfold Cmul, Copp, RtoC; cbn [fst snd]; ring|ring|apply Hd|left; apply Hd].
Qed.
Lemma sphase_mirror Sf z d : phase_stft_pt (1 * Sf) (Cconj z) (Copp (Cconj d)) = 1 * phase_stft_pt Sf z d.
Proof.
  unfold phase_stft_pt. rewrite !Rmult_1_l. f_equal. f_equal. unfold phase_ratio. destruct z as [a b], d as [c e]. cbn [Cconj Copp Re Im fst snd]. unfold Rdiv.
  f_equal; [ring|]. f_equal. ring.
Qed.
Theorem ssq_stft_mirror ord x x' a n w fs t t' s rate Tx Sx f Sfs : valid_order ord -> s_sq s = SqSum \/ s_sq s = SqAbs ->
  usable x a n w -> usable x' a n w -> even_window n w -> Nat.even n = true \/ a_modulated a = false ->
  process_fs_and_t fs t (length x) = Ok rate -> process_fs_and_t fs t' (length x') = Ok rate ->
  ssq_stft ord x a fs t s = Ok (Tx, Sx, f, Sfs) ->
  exists Tx' Sx', ssq_stft ord x' a fs t' s = Ok (Tx', Sx', f, Sfs) /\ nrows Tx' = nrows Tx /\
    forall h h', (h < ncols Tx)%nat -> (h' < ncols Tx')%nat -> mirror_frame n (Z.to_nat (a_hop a)) w x x' h h' ->
    forall q, (q < nrows Tx)%nat -> el Tx' q h' = Cconj (el Tx q h) /\ el Sx' q h' = Cconj (el Sx q h).
Proof.
  intros Ho Hsq Hu Hu' Hw He Er Er' E.
  destruct (ssq_stft_parts _ _ _ _ _ _ _ _ _ _ E) as (rate0 & dSx & F1 & F2 & F3 & F4 & F5 & F6). rewrite Er in F1. injection F1 as <-.
  destruct (stft_cells x (rated a rate) n w (usable_rated _ _ _ _ _ Hu)) as (xp & X & dX & _ & _ & _ & E1 & R1 & _).
  rewrite F3 in E1. injection E1 as <- <-.
  destruct (stft_cells x' (rated a rate) n w (usable_rated _ _ _ _ _ Hu')) as (yp & Y & dY & _ & _ & _ & E2 & R2 & _).
  destruct (one_cells _ _ _ _ _ _ _ _ _ Ho F5) as (T1 & T2 & _).
  assert (Hsh : nrows (squeeze_input (s_sq s) (nrows Sx) Sx) = nrows Sx /\ ncols (squeeze_input (s_sq s) (nrows Sx) Sx) = ncols Sx)
    by (destruct Hsq as [-> | ->]; cbn; auto). destruct Hsh as [Hs1 Hs2].
  destruct (ssq_stft_follow ord x a fs t s Tx Sx f Sfs rate dSx x' a fs t' s rate Y dY
    Cconj (fun d => Copp (Cconj d)) Cconj 1 1 Ho E Er F3) as (Tx' & ET & N1 & N2 & N3); try reflexivity; try assumption; try lra.
  - congruence.
  - rewrite map_one. unfold the_freqs. rewrite F4, R2, R1. reflexivity.
  - eapply one_grids; eassumption.
  - repeat split; intros; apply C_eq; unfold Cconj, Cadd, Cmul, RtoC, C0; cbn [fst snd]; ring.
  - intros z. rewrite Cabs_conj. ring.
  - intros z. rewrite Cabs_conj. ring.
  - apply sphase_mirror.
  - unfold scompatible. destruct Hsq as [-> | ->]; [reflexivity|]. split.
    + intros z. rewrite Cabs_conj, Cconj_RtoC. reflexivity.
    + intros Sf z d. rewrite Cabs_conj. rewrite <- (Cconj_RtoC (Cabs z)) at 1. apply sphase_mirror.
  - exists Tx', Y. rewrite ET, !map_one. split; [reflexivity|]. split; [congruence|]. intros h h' Hh Hh' Hs q Hq.
    rewrite T1, Hs1 in Hq. rewrite T2, Hs2 in Hh. rewrite N2 in Hh'.
    pose proof (stft_mirror x x' (rated a rate) n w Sx dSx Y dY (usable_rated _ _ _ _ _ Hu) (usable_rated _ _ _ _ _ Hu') Hw He F3 E2 h h' Hh Hh' Hs) as HL.
    split; [|apply HL]. rewrite (N3 h h') by (try assumption; intros i Hi; apply HL). apply C_eq; unfold Cmul, RtoC; cbn [fst snd]; ring.
Qed.
(** a signal and its reverse, hop dividing the length less one *)
Lemma rev_mirror n hop w x h h' : Nat.even n = true -> (2 <= n)%nat -> (hop * h + hop * h' + 1 = length x)%nat -> nth 0 w 0 = 0 ->
  interior n (length x) hop h -> interior n (length x) hop h' -> mirror_frame n hop w x (rev x) h h'.
Proof.
  intros He Hn Hh Hw I1 I2. split; [exact I1|]. split; [rewrite rev_length; exact I2|]. split; [left; exact Hw|].
  apply Nat.even_spec in He. destruct He as (p & Hp). intros u Hu. unfold interior in *.
  rewrite rev_nth by lia. f_equal. lia.
Qed.
