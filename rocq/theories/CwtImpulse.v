(** The frequency [phase_cwt] assigns at an impulse; the default wavelet; odd lengths. *)
From Coq Require Import Reals Lra ZifyBool ZifyNat.
From Verif Require Import Py Padding PaddingProofs Cplx CplxProofs Freqs Stft Squeeze BinProofs Scales Ssqueeze ShiftProofs Cwt CwtProofs CwtThms CwtTone RoundTrip
  WaveletProofs SearchGmw GmwOrders Resol ResolProofs SsqCwtProofs CwtEnergy SymmInst DefaultRoundTrip CwtWitness SsqCwtWitness OctaveSep Pointwise PointwiseProofs RoundTrip GmwRoundTrip AdmissThms3 CwtConv.
Local Open Scope R_scope.
Ltac Zify.zify_post_hook ::= Z.div_mod_to_equations.

Lemma drow_impulse f g s fs xp q c : real_wavelet f g -> (q < length xp)%nat -> (forall t, (t < length xp)%nat -> nth t xp 0 = if (t =? q)%nat then c else 0) ->
  let n := length xp in
  drow_val f s fs xp q = (0, c * fs / INR n * Rsum n (fun k => halved g s n k * nth k (xifn 1 n) 0)).
Proof.
  intros Hf Hq Hx n. assert (Hn : (1 <= n)%nat) by (unfold n; lia). unfold drow_val. fold n. unfold idft.
  rewrite (Csum_ext n _ (fun k => Cmul (0, c * fs) (RtoC (halved g s n k * nth k (xifn 1 n) 0)))).
  2:{ intros k Hk. rewrite (psih_halved f g) by assumption. unfold sig_dft. fold n.
      assert (X : dft n (fun m => RtoC (nth m xp 0)) k = Cmul (RtoC c) (tw n (- (Z.of_nat k * Z.of_nat q)))).
      { unfold dft. rewrite (Csum_ext n _ (fun m => if (m =? q)%nat then Cmul (RtoC c) (tw n (- (Z.of_nat k * Z.of_nat m))) else C0)).
        - apply (Csum_one n q (fun m => Cmul (RtoC c) (tw n (- (Z.of_nat k * Z.of_nat m))))). exact Hq.
        - intros m Hm. rewrite Hx by exact Hm. destruct (m =? q)%nat; [reflexivity|]. change (RtoC 0) with C0. ring. }
      rewrite X.
      assert (T : Cmul (tw n (- (Z.of_nat k * Z.of_nat q))) (tw n (Z.of_nat k * Z.of_nat q)) = C1).
      { rewrite <- tw_add by exact Hn. replace (- (Z.of_nat k * Z.of_nat q) + Z.of_nat k * Z.of_nat q)%Z with 0%Z by lia. apply tw_0, Hn. }
      set (u := tw n (- (Z.of_nat k * Z.of_nat q))) in *. set (v := tw n (Z.of_nat k * Z.of_nat q)) in *.
      transitivity (Cmul (Cmul (RtoC (halved g s n k)) (Cmul (RtoC c) (0, nth k (xifn 1 n) 0 * fs))) (Cmul u v)); [ring|].
      rewrite T. apply C_eq; unfold Cmul, RtoC, C1; cbn [fst snd]; ring. }
  rewrite Csum_scal, Csum_RtoC. unfold Rdiv. apply C_eq; unfold Cmul, RtoC; cbn [fst snd]; ring.
Qed.

Theorem impulse_frequency py inst f g a N p c s W sc d s' fs : real_wavelet f g -> uncached inst a s -> (a_pad a = None \/ a_pad a = Some PZero) -> a_rpadded a = false ->
  (p < N)%nat -> c <> 0 -> cwt py inst f a (impulse N p c) s = (Ok (W, sc, Some d), s') -> process_fs_and_t (a_fs a) (a_t a) N = Ok fs ->
  (forall w, 0 <= g w) -> (forall i, (i < nrows W)%nat -> 0 < nth i sc 0) ->
  exists n, (N <= n)%nat /\ forall i, (i < nrows W)%nat ->
    let h k := halved g (nth i sc 0) n k in
    0 < Rsum n h -> phase_cwt_pt (el W i p) (el d i p) = Rabs (fs * (Rsum n (fun k => h k * nth k (xifn 1 n) 0) / Rsum n h)) / (2 * PI).
Proof.
  intros Hf Hu Hpt Hrp Hp Hc E Hfs Hg Hs. assert (HL : length (impulse N p c) = N) by apply tab_length.
  destruct (cwt_rows _ _ _ _ _ _ _ _ _ _ (real_of _ _ Hf) Hu E) as (fs' & xp & n1 & Hfs' & Hpad & _ & HW & HD).
  rewrite HL, Hfs in Hfs'. injection Hfs' as <-.
  destruct (pad_impulse _ _ _ _ _ _ Hpt Hp Hpad) as (Hfit & Hxp). set (n := length xp) in *. exists n. split; [lia|].
  assert (Ho : origin a n1 = Z.to_nat n1).
  { unfold origin. rewrite Hrp. cbn [negb andb]. destruct (a_pad a) eqn:Ep; [reflexivity|]. unfold pad_input in Hpad. destruct (impulse N p c); [discriminate|]. injection Hpad as _ <-. reflexivity. }
  intros i Hi h Hpos. set (si := nth i sc 0) in *. assert (Hn : (1 <= n)%nat) by lia. pose proof (lt_0_INR n ltac:(lia)) as HnR.
  assert (HG : gain a si <> 0).
  { unfold gain. destruct (a_l1 a); [lra|]. pose proof (sqrt_lt_R0 si (Hs i Hi)). lra. }
  assert (EW : el W i p = RtoC (gain a si * c * (Rsum n h / INR n))).
  { rewrite HW, finish_gain, Ho. fold si. rewrite (row_conv f g) by (try assumption; fold n; lia). fold n.
    rewrite (Csum_ext n _ (fun t => if (t =? Z.to_nat n1 + p)%nat then Cmul (RtoC c) (kernel g si n ((Z.to_nat n1 + p + (n - t)) mod n)) else C0)).
    2:{ intros t Ht. rewrite Hxp by exact Ht. destruct (t =? _)%nat; [reflexivity|]. change (RtoC 0) with C0. ring. }
    rewrite Csum_one by lia. replace (Z.to_nat n1 + p + (n - (Z.to_nat n1 + p)))%nat with (0 + 1 * n)%nat by lia. rewrite Nat.mod_add, Nat.mod_small by lia.
    destruct (kernel_peak g si n 0 Hn Hg) as (-> & _). rewrite (RtoC_mul (gain a si * c)), (RtoC_mul (gain a si) c). change (Rsum n h) with (Rsum n (halved g si n)). ring. }
  assert (ED : el d i p = Cmul (RtoC (gain a si)) (0, c * fs / INR n * Rsum n (fun k => h k * nth k (xifn 1 n) 0))).
  { rewrite HD, finish_gain, Ho. f_equal. apply (drow_impulse f g si fs xp (Z.to_nat n1 + p) c Hf); [fold n; lia|exact Hxp]. }
  unfold phase_cwt_pt. set (M := Rsum n (fun k => h k * nth k (xifn 1 n) 0)) in *.
  assert (EQ : el d i p = Cmul (0, fs * (M / Rsum n h)) (el W i p)).
  { rewrite ED, EW. apply C_eq; unfold Cmul, RtoC; cbn [fst snd]; field; lra. }
  assert (NZ : el W i p <> C0).
  { rewrite EW. intros K. apply (f_equal fst) in K. unfold RtoC, C0 in K. cbn [fst] in K.
    assert (Q : 0 < Rsum n h / INR n) by (apply Rdiv_lt_0_compat; assumption).
    apply Rmult_integral in K. destruct K as [K|K]; [|lra]. apply Rmult_integral in K. tauto. }
  rewrite EQ, phase_ratio_factor by exact NZ. pose proof PI_RGT_0. unfold Rdiv at 1. rewrite Rabs_mult. rewrite (Rabs_right (/ (2 * PI))); [reflexivity|].
  apply Rle_ge. left. apply Rinv_0_lt_compat. lra.
Qed.

(** ** generalized Morse wavelets *)
Lemma gmw_real_wavelet g : real_wavelet (gmw_wave g) g.
Proof. intros w. reflexivity. Qed.

Lemma impulse_case : exists W dW s', cwt false true (gmw_wave gmw60) (arg_c (Some PZero) false) (impulse 5 2 3) st0 = (Ok (W, [1; 2; 4], Some dW), s') /\
  nrows W = 3%nat /\ uncached true (arg_c (Some PZero) false) st0 /\ (forall w, 0 <= gmw60 w) /\
  forall i j, (i < 3)%nat -> (j < 5)%nat -> Cabs (el W i j) <= Cabs (el W i 2%nat).
Proof.
  assert (Hpad : exists xp n1, pad_input (Some PZero) (impulse 5 2 3) = Ok (xp, n1)) by (unfold pad_input; cbn; eexists _, _; reflexivity).
  destruct Hpad as (xp & n1 & Hpad).
  destruct (cwt_c_ok (gmw_wave gmw60) (Some PZero) false _ xp n1 ltac:(discriminate) Hpad) as (W & dW & s' & E).
  assert (Hu : uncached true (arg_c (Some PZero) false) st0) by (left; reflexivity).
  assert (Hg : forall w, 0 <= gmw60 w) by (apply (gmw_nonneg 3 60 gmw60 ltac:(lra) ltac:(lra) default_gmw)).
  exists W, dW, s'. split; [exact E|]. destruct (cwt_ncols _ _ _ _ _ _ _ _ _ _ E) as [Hr _]. cbn [length] in Hr.
  split; [exact Hr|]. split; [exact Hu|]. split; [exact Hg|]. intros i j Hi Hj.
  destruct (cwt_impulse false true (gmw_wave gmw60) gmw60 _ 5 2 3 _ _ _ _ _ (gmw_real_wavelet gmw60) Hu (or_intror eq_refl) eq_refl ltac:(lia) E) as (n & _ & _ & H).
  destruct (H i ltac:(lia)) as (_ & _ & K). apply K; [exact Hg|exact Hj].
Qed.

(** ** an odd number of samples: [psifn] is no rotation of the row *)
Lemma kernel3 g s : (forall w, w <= 0 -> g w = 0) -> 0 < s -> forall m, kernel g s 3 m = Cmul (RtoC (g (s * (2 * PI / 3)) / 3)) (tw 3 (Z.of_nat m)).
Proof.
  intros Hz Hs m. pose proof PI_RGT_0. unfold kernel, idft. cbn [Csum].
  assert (H0 : halved g s 3 0 = 0). { unfold halved, xi_bin. cbn. apply Hz. lra. }
  assert (H1 : halved g s 3 1 = g (s * (2 * PI / 3))). { unfold halved, xi_bin. cbn. f_equal. field. }
  assert (H2 : halved g s 3 2 = 0).
  { unfold halved, xi_bin. cbn. apply Hz. assert (0 < s * PI) by (apply Rmult_lt_0_compat; lra). unfold Rdiv. lra. }
  rewrite H0, H1, H2. rewrite Z.mul_1_l. unfold Rdiv. rewrite RtoC_mul. change (RtoC 0) with C0. replace (INR 3) with 3 by (cbn; ring). ring.
Qed.
Lemma psifn3 g s : (forall w, w <= 0 -> g w = 0) -> 0 < s -> forall m, (m < 3)%nat -> nth m (psifn (gmw_wave g) s 3) C0 = Cmul (RtoC (- (g (s * (2 * PI / 3)) / 3))) (tw 3 (Z.of_nat m)).
Proof.
  intros Hz Hs m Hm. rewrite (nth_psifn _ g _ _ _ (gmw_real_wavelet g)) by exact Hm. pose proof PI_RGT_0. unfold idft. cbn [Csum].
  assert (H0 : halved g s 3 0 = 0). { unfold halved, xi_bin. cbn. apply Hz. lra. }
  assert (H1 : halved g s 3 1 = g (s * (2 * PI / 3))). { unfold halved, xi_bin. cbn. f_equal. field. }
  assert (H2 : halved g s 3 2 = 0).
  { unfold halved, xi_bin. cbn. apply Hz. assert (0 < s * PI) by (apply Rmult_lt_0_compat; lra). unfold Rdiv. lra. }
  rewrite H0, H1, H2. rewrite Z.mul_1_l. unfold sgn1. cbn [Nat.even]. rewrite !Rmult_0_l. change (RtoC 0) with C0.
  replace (INR 3) with 3 by (cbn; ring). apply C_eq; unfold Cmul, Cadd, RtoC, C0; cbn [fst snd]; field.
Qed.

Theorem odd_length : exists W dW s', cwt false true (gmw_wave gmw60) (arg_c None false) [1; 0; 0] st0 = (Ok (W, [1; 2; 4], Some dW), s') /\
  forall i m, (i < 3)%nat -> (m < 3)%nat -> nth m (psifn (gmw_wave gmw60) (nth i [1; 2; 4] 0) 3) C0 <> el W i 0%nat.
Proof.
  assert (Ei : impulse 3 0 1 = [1; 0; 0]) by reflexivity.
  destruct (cwt_c_ok (gmw_wave gmw60) None false [1; 0; 0] [1; 0; 0] 0 ltac:(discriminate) eq_refl) as (W & dW & s' & E).
  exists W, dW, s'. split; [exact E|]. intros i m Hi Hm.
  assert (Hu : uncached true (arg_c None false) st0) by (left; reflexivity).
  destruct (cwt_ncols _ _ _ _ _ _ _ _ _ _ E) as [Hr _]. cbn [length] in Hr.
  destruct (gmw_l1_peaks 3 60 gmw60 ltac:(lra) ltac:(lra) default_gmw) as (_ & _ & Hpos & Hz).
  destruct (cwt_rows _ _ _ _ _ _ _ _ _ _ (real_of _ _ (gmw_real_wavelet gmw60)) Hu E) as (fs & xp & n1 & _ & Hpad & _ & HW & _).
  cbn in Hpad. injection Hpad as <- <-.
  assert (Hs : 0 < nth i [1; 2; 4] 0) by (destruct i as [|[|[|i]]]; cbn; lra || lia). set (si := nth i [1; 2; 4] 0) in *.
  assert (EW : el W i 0%nat = RtoC (gmw60 (si * (2 * PI / 3)) / 3)).
  { rewrite HW, finish_gain. fold si. unfold gain. cbn [arg_c a_l1]. unfold origin. cbn [arg_c a_rpadded a_pad negb andb].
    rewrite (row_conv _ gmw60) by (try apply gmw_real_wavelet; cbn; lia). cbn [length Csum nth Nat.sub Nat.add Nat.modulo Nat.divmod fst snd].
    rewrite !(kernel3 gmw60 si Hz Hs). change (Z.of_nat 0) with 0%Z. rewrite tw_0 by lia. change (RtoC 0) with C0. change (RtoC 1) with C1. ring. }
  rewrite EW, (psifn3 gmw60 si Hz Hs m Hm).
  assert (V : 0 < gmw60 (si * (2 * PI / 3))). { apply Hpos. pose proof PI_RGT_0. apply Rmult_lt_0_compat; [exact Hs|]. lra. }
  set (v := gmw60 _) in *. intros K.
  assert (T : tw 3 (Z.of_nat m) = RtoC (-1)).
  { apply (f_equal (Cmul (RtoC (- (3 / v))))) in K. rewrite <- RtoC_mul in K.
    transitivity (Cmul (RtoC (- (3 / v))) (Cmul (RtoC (- (v / 3))) (tw 3 (Z.of_nat m)))).
    - transitivity (Cmul (Cmul (RtoC (- (3 / v))) (RtoC (- (v / 3)))) (tw 3 (Z.of_nat m))); [|ring].
      rewrite <- RtoC_mul. replace (- (3 / v) * - (v / 3)) with 1 by (field; lra). change (RtoC 1) with C1. ring.
    - rewrite K. f_equal. field. lra. }
  assert (C3 : Cmul (tw 3 (Z.of_nat m)) (Cmul (tw 3 (Z.of_nat m)) (tw 3 (Z.of_nat m))) = C1).
  { rewrite <- !tw_add by lia. replace (Z.of_nat m + (Z.of_nat m + Z.of_nat m))%Z with (Z.of_nat 3 * Z.of_nat m)%Z by lia. apply tw_mul_n. lia. }
  rewrite T, <- !RtoC_mul in C3. apply (f_equal fst) in C3. unfold RtoC, C1 in C3. cbn [fst] in C3. lra.
Qed.
