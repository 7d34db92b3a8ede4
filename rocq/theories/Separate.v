(** The phase transform of any signal: how far it is from a frequency, in terms of what the other
    frequencies contribute to the same scale. *)
From Coq Require Import Reals Lra Lia ZifyBool ZifyNat.
From Verif Require Import Py Round Cplx CplxProofs Padding PaddingProofs Buffer Freqs Squeeze Scales Cwt CwtProofs CwtThms CwtThms2 CwtTone.
Local Open Scope R_scope.

(** ** Specification *)
(** frequency of DFT bin [q] in Hz, negative past the middle *)
Definition bin_hz (fs : R) (n q : nat) : R := (if (q <=? n / 2)%nat then INR q else INR q - INR n) * fs / INR n.
(** magnitude of the wavelet at scale [s] and bin [q]; half at the Nyquist bin *)
Definition wav_mag (f : wfun) (s : R) (n q : nat) : R :=
  (if (2 * q =? n)%nat then / 2 else 1) * Cabs (wf f (s * bin_freq q n)).
(** what bin [q] contributes to the magnitude of the transform at scale [s], at any time *)
Definition level (f : wfun) (l1 : bool) (s : R) (xp : list R) (q : nat) : R :=
  (if l1 then 1 else sqrt s) * (wav_mag f s (length xp) q * Cabs (sig_dft xp q) / INR (length xp)).
Definition others (n m : nat) (g : nat -> R) : R := Rsum n (fun q => if (q =? m)%nat then 0 else g q).

(** ** Complex numbers *)
Lemma Cabs_triangle a b : Cabs (Cadd a b) <= Cabs a + Cabs b.
Proof.
  unfold Cabs. apply Rsqr_incr_0_var; [|apply Rplus_le_le_0_compat; apply sqrt_pos].
  rewrite Rsqr_sqrt by apply Cnorm2_nonneg. unfold Rsqr.
  replace ((sqrt (Cnorm2 a) + sqrt (Cnorm2 b)) * (sqrt (Cnorm2 a) + sqrt (Cnorm2 b)))
    with (sqrt (Cnorm2 a) * sqrt (Cnorm2 a) + sqrt (Cnorm2 b) * sqrt (Cnorm2 b) +
          2 * (sqrt (Cnorm2 a) * sqrt (Cnorm2 b))) by ring.
  rewrite !sqrt_sqrt by apply Cnorm2_nonneg. rewrite <- sqrt_mult by apply Cnorm2_nonneg.
  assert (Q : fst a * fst b + snd a * snd b <= sqrt (Cnorm2 a * Cnorm2 b)).
  { destruct (Rle_lt_dec (fst a * fst b + snd a * snd b) 0) as [L|L].
    - apply Rle_trans with 0; [exact L|apply sqrt_pos].
    - rewrite <- (sqrt_Rsqr (fst a * fst b + snd a * snd b)) by lra. apply sqrt_le_1_alt.
      unfold Rsqr, Cnorm2. pose proof (Rle_0_sqr (fst a * snd b - snd a * fst b)). unfold Rsqr in *. nra. }
  unfold Cnorm2 in *. cbn [fst snd Cadd]. nra.
Qed.
Lemma Cabs_Csum n g : Cabs (Csum n g) <= Rsum n (fun q => Cabs (g q)).
Proof.
  induction n as [|n IH]; cbn [Csum Rsum]; [rewrite Cabs_0; lra|].
  eapply Rle_trans; [apply Cabs_triangle|]. lra.
Qed.
Lemma Csum_Csub n f g : Csub (Csum n f) (Csum n g) = Csum n (fun q => Csub (f q) (g q)).
Proof. induction n as [|n IH]; cbn [Csum]; [apply C_eq; cbn; ring|]. rewrite <- IH. apply C_eq; cbn; ring. Qed.
Lemma Cabs_tw n z : Cabs (tw n z) = 1.
Proof. apply Cabs_cis. Qed.
Lemma Cabs_im c : Cabs (0, c) = Rabs c.
Proof. unfold Cabs, Cnorm2. cbn. rewrite Rmult_0_l, Rplus_0_l. apply sqrt_Rsqr_abs. Qed.
Lemma Im_le_Cabs z : Rabs (Im z) <= Cabs z.
Proof.
  unfold Cabs. rewrite <- sqrt_Rsqr_abs. apply sqrt_le_1_alt. unfold Cnorm2, Rsqr, Im. pose proof (Rle_0_sqr (fst z)). unfold Rsqr in *. lra.
Qed.

(** ** One point *)
Lemma phase_dev W D F : W <> C0 -> Rabs (phase_ratio W D - F) * Cabs W <= Cabs (Csub D (Cmul (0, 2 * PI * F) W)) / (2 * PI).
Proof.
  intros H. pose proof (Cnorm2_pos _ H) as Hp. pose proof (Cabs_pos _ H) as Ha. pose proof PI_RGT_0. set (E := Csub D _).
  assert (Eq : phase_ratio W D - F = Im (Cmul E (Cconj W)) / (Cnorm2 W * (2 * PI))).
  { unfold Cnorm2 in *. unfold phase_ratio, E, Im, Re. destruct W as [u v], D as [p q]. cbn [fst snd Cmul Cconj Csub Cadd Copp] in *. cbn. field. split; lra. }
  assert (0 < Cnorm2 W * (2 * PI)) by (apply Rmult_lt_0_compat; lra).
  rewrite Eq. unfold Rdiv at 1. rewrite Rabs_mult, Rabs_inv, (Rabs_right (Cnorm2 W * _)) by lra.
  pose proof (Im_le_Cabs (Cmul E (Cconj W))) as I. rewrite Cabs_mul in I.
  assert (Ec : Cabs (Cconj W) = Cabs W) by (unfold Cabs, Cnorm2; cbn; f_equal; ring). rewrite Ec in I.
  rewrite <- (Cabs_sqr W). set (w := Cabs W) in *.
  replace (Cabs E / (2 * PI)) with (Cabs E * w * / (w * w * (2 * PI)) * w) by (field; lra).
  apply Rmult_le_compat_r; [lra|]. apply Rmult_le_compat_r; [|exact I]. left. apply Rinv_0_lt_compat. assert (0 < w * w) by nra. apply Rmult_lt_0_compat; lra.
Qed.

(** ** Rows *)
Lemma others_split n m g : (m < n)%nat -> Rsum n g = g m + others n m g.
Proof.
  intros Hm. unfold others.
  rewrite (Rsum_ext n g (fun q => (if (q =? m)%nat then g q else 0) + (if (q =? m)%nat then 0 else g q))) by (intros q _; destruct (q =? m)%nat; lra).
  rewrite Rsum_plus, (Rsum_single n _ m Hm). { rewrite Nat.eqb_refl. reflexivity. }
  intros i _ Hi. destruct (Nat.eqb_spec i m); [congruence|reflexivity].
Qed.
Lemma level_nonneg f l1 s xp q : 0 <= level f l1 s xp q.
Proof.
  unfold level, wav_mag. apply Rmult_le_pos; [destruct l1; [lra|apply sqrt_pos]|].
  destruct (length xp) as [|k] eqn:E. { cbn [INR]. unfold Rdiv. rewrite Rinv_0. lra. }
  assert (0 < INR (S k)) by (apply lt_0_INR; lia). apply Rmult_le_pos; [|left; apply Rinv_0_lt_compat; lra].
  repeat apply Rmult_le_pos; try apply Cabs_nonneg. destruct (_ =? _)%nat; lra.
Qed.
Lemma psih_mag f s n q : (q < n)%nat -> Cabs (psih_val f s n false q) = wav_mag f s n q.
Proof.
  intros Hq. unfold psih_val, wav_mag. rewrite xi_bin_freq by exact Hq. cbn [negb andb].
  replace ((n mod 2 =? 0)%nat && (q =? n / 2)%nat) with (2 * q =? n)%nat.
  - destruct (2 * q =? n)%nat; [|ring]. rewrite Cabs_mul, Cabs_RtoC, Rabs_right by lra. reflexivity.
  - destruct (Nat.eqb_spec (2 * q) n) as [E|E].
    + subst n. replace (2 * q)%nat with (q * 2)%nat by lia. rewrite Nat.mod_mul, Nat.div_mul by lia. rewrite !Nat.eqb_refl. reflexivity.
    + symmetry. apply andb_false_iff. pose proof (Nat.div_mod n 2 ltac:(lia)).
      destruct (Nat.eqb_spec (n mod 2) 0); [right|left; reflexivity]. apply Nat.eqb_neq. lia.
Qed.

(** one bin's share of a row *)
Definition share (f : wfun) (l1 : bool) (s : R) (xp : list R) (q j : nat) : C :=
  Cmul (if l1 then C1 else RtoC (sqrt s))
    (Cmul (RtoC (/ INR (length xp))) (Cmul (Cmul (psih_val f s (length xp) false q) (sig_dft xp q)) (tw (length xp) (Z.of_nat q * Z.of_nat j)))).
Lemma share_abs f l1 s xp q j : (q < length xp)%nat -> Cabs (share f l1 s xp q j) = level f l1 s xp q.
Proof.
  intros Hq. unfold share, level. rewrite !Cabs_mul, Cabs_tw, psih_mag by exact Hq. rewrite Cabs_RtoC, Rabs_inv, (Rabs_right (INR _)) by (apply Rle_ge, pos_INR).
  replace (Cabs (if l1 then C1 else RtoC (sqrt s))) with (if l1 then 1 else sqrt s); [unfold Rdiv; ring|].
  destruct l1; [change C1 with (RtoC 1)|]; rewrite Cabs_RtoC, Rabs_right; try reflexivity; [lra|apply Rle_ge, sqrt_pos].
Qed.
Definition at_time (a : cwt_args) (n1 : Z) (j : nat) : nat :=
  ((if negb (a_rpadded a) && (if a_pad a then true else false) then Z.to_nat n1 else 0) + j)%nat.
Lemma finish_row a n1 f s xp j : finish_cell a n1 s (row_val f s xp) j = Csum (length xp) (fun q => share f (a_l1 a) s xp q (at_time a n1 j)).
Proof.
  unfold finish_cell, row_val, share, at_time. cbv zeta. set (t := (_ + j)%nat). rewrite !Csum_scal. unfold idft.
  destruct (a_l1 a); [apply C_eq; cbn; ring|]. set (c := Cmul _ (Csum _ _)). apply C_eq; cbn; ring.
Qed.
Lemma finish_drow a n1 f s fs xp j : finish_cell a n1 s (drow_val f s fs xp) j =
  Csum (length xp) (fun q => Cmul (0, 2 * PI * bin_hz fs (length xp) q) (share f (a_l1 a) s xp q (at_time a n1 j))).
Proof.
  unfold finish_cell, drow_val, at_time. cbv zeta. set (t := (_ + j)%nat). unfold idft.
  assert (E : Csum (length xp) (fun q => Cmul (0, 2 * PI * bin_hz fs (length xp) q) (share f (a_l1 a) s xp q t)) =
    Cmul (if a_l1 a then C1 else RtoC (sqrt s)) (Cmul (RtoC (/ INR (length xp)))
      (Csum (length xp) (fun k => Cmul (Cmul (Cmul (psih_val f s (length xp) false k) (sig_dft xp k)) (0, nth k (xifn 1 (length xp)) 0 * fs)) (tw (length xp) (Z.of_nat k * Z.of_nat t)))))).
  { rewrite <- !Csum_scal. apply Csum_ext. intros q Hq. rewrite xi_bin_freq by exact Hq.
    replace (bin_freq q (length xp) * fs) with (2 * PI * bin_hz fs (length xp) q).
    2: { unfold bin_freq, bin_hz. assert (INR (length xp) <> 0) by (apply not_0_INR; lia). field. assumption. }
    unfold share. set (c := 2 * PI * _). generalize (psih_val f s (length xp) false q) (sig_dft xp q) (tw (length xp) (Z.of_nat q * Z.of_nat t)).
    intros u v w. apply C_eq; cbn; destruct (a_l1 a); cbn; ring. }
  rewrite E. destruct (a_l1 a); [apply C_eq; cbn; ring|]. set (c := Cmul _ (Csum _ _)). apply C_eq; cbn; ring.
Qed.

(** ** Any signal *)
Theorem phase_spread py inst f a x s W sc dW s' fs xp n1 i j F : real_valued f -> uncached inst a s ->
  cwt py inst f a x s = (Ok (W, sc, Some dW), s') -> process_fs_and_t (a_fs a) (a_t a) (length x) = Ok fs ->
  pad_input (a_pad a) x = Ok (xp, n1) -> el W i j <> C0 ->
  Rabs (phase_ratio (el W i j) (el dW i j) - F) <=
  Rsum (length xp) (fun q => level f (a_l1 a) (nth i sc 0) xp q * Rabs (bin_hz fs (length xp) q - F)) / Cabs (el W i j).
Proof.
  intros Hr Hu E Hfs Hp HW. destruct (cwt_rows _ _ _ _ _ _ _ _ _ _ Hr Hu E) as (fs' & xp' & n1' & Hfs' & Hp' & _ & EW & ED).
  rewrite Hfs in Hfs'. injection Hfs' as <-. rewrite Hp in Hp'. injection Hp' as <- <-.
  pose proof (Cabs_pos _ HW) as Ha. pose proof PI_RGT_0.
  apply (Rmult_le_reg_r (Cabs (el W i j))); [exact Ha|]. unfold Rdiv. rewrite Rmult_assoc, Rinv_l, Rmult_1_r by lra.
  eapply Rle_trans; [apply phase_dev, HW|]. rewrite ED, EW, finish_drow, finish_row. set (t := at_time a n1 j). set (n := length xp).
  apply (Rmult_le_reg_r (2 * PI)); [lra|]. unfold Rdiv. rewrite Rmult_assoc, Rinv_l, Rmult_1_r by lra.
  assert (Eq : Csub (Csum n (fun q => Cmul (0, 2 * PI * bin_hz fs n q) (share f (a_l1 a) (nth i sc 0) xp q t)))
    (Cmul (0, 2 * PI * F) (Csum n (fun q => share f (a_l1 a) (nth i sc 0) xp q t))) =
    Csum n (fun q => Cmul (0, 2 * PI * (bin_hz fs n q - F)) (share f (a_l1 a) (nth i sc 0) xp q t))).
  { rewrite <- Csum_scal, Csum_Csub. apply Csum_ext. intros q _. apply C_eq; cbn; ring. }
  rewrite Eq. eapply Rle_trans; [apply Cabs_Csum|]. rewrite (Rmult_comm (Rsum _ _)), <- Rsum_scal. right. apply Rsum_ext. intros q Hq.
  rewrite Cabs_mul, Cabs_im, share_abs by exact Hq. rewrite Rabs_mult, (Rabs_right (2 * PI)) by lra. ring.
Qed.

(** ** One bin dominating a scale *)
Lemma Cabs_sub_le a b : Cabs a - Cabs b <= Cabs (Cadd a b).
Proof.
  pose proof (Cabs_triangle (Cadd a b) (Copp b)) as T. replace (Cadd (Cadd a b) (Copp b)) with a in T by (apply C_eq; cbn; ring).
  replace (Cabs (Copp b)) with (Cabs b) in T by (unfold Cabs, Cnorm2; cbn; f_equal; ring). lra.
Qed.
Theorem dominant_bin py inst f a x s W sc dW s' fs xp n1 i j m eps Fmax : real_valued f -> uncached inst a s ->
  cwt py inst f a x s = (Ok (W, sc, Some dW), s') -> process_fs_and_t (a_fs a) (a_t a) (length x) = Ok fs ->
  pad_input (a_pad a) x = Ok (xp, n1) -> (m < length xp)%nat -> 0 <= bin_hz fs (length xp) m ->
  let lv := level f (a_l1 a) (nth i sc 0) xp in
  0 < lv m -> others (length xp) m lv <= eps * lv m -> eps < 1 ->
  (forall q, (q < length xp)%nat -> lv q <> 0 -> Rabs (bin_hz fs (length xp) q - bin_hz fs (length xp) m) <= Fmax) ->
  (1 - eps) * lv m <= Cabs (el W i j) <= (1 + eps) * lv m /\
  Rabs (phase_cwt_pt (el W i j) (el dW i j) - bin_hz fs (length xp) m) <= Fmax * eps / (1 - eps).
Proof.
  intros Hr Hu E Hfs Hp Hm Hf lv Hl Ho He HF.
  destruct (cwt_rows _ _ _ _ _ _ _ _ _ _ Hr Hu E) as (fs' & xp' & n1' & Hfs' & Hp' & _ & EW & _).
  rewrite Hfs in Hfs'. injection Hfs' as <-. rewrite Hp in Hp'. injection Hp' as <- <-.
  set (n := length xp) in *. set (t := at_time a n1 j).
  assert (Elv : forall q, (q < n)%nat -> Cabs (share f (a_l1 a) (nth i sc 0) xp q t) = lv q) by (intros; apply share_abs; assumption).
  assert (Hb : (1 - eps) * lv m <= Cabs (el W i j) <= (1 + eps) * lv m).
  { rewrite EW, finish_row. fold n t. set (g := fun q => share f (a_l1 a) (nth i sc 0) xp q t).
    assert (S : Csum n g = Cadd (g m) (Csum n (fun q => if (q =? m)%nat then C0 else g q))).
    { rewrite (Csum_ext n g (fun q => Cadd (if (q =? m)%nat then g q else C0) (if (q =? m)%nat then C0 else g q)))
        by (intros q _; destruct (q =? m)%nat; apply C_eq; cbn; ring).
      rewrite Csum_plus. f_equal. rewrite (Csum_single n _ m Hm); [rewrite Nat.eqb_refl; reflexivity|].
      intros q _ Hq. destruct (Nat.eqb_spec q m); [congruence|reflexivity]. }
    assert (B : Cabs (Csum n (fun q => if (q =? m)%nat then C0 else g q)) <= eps * lv m).
    { eapply Rle_trans; [apply Cabs_Csum|]. eapply Rle_trans; [|exact Ho]. right. unfold others. apply Rsum_ext. intros q Hq.
      destruct (q =? m)%nat; [apply Cabs_0|apply Elv, Hq]. }
    rewrite S. split.
    - eapply Rle_trans; [|apply Cabs_sub_le]. unfold g at 1. rewrite Elv by exact Hm. lra.
    - eapply Rle_trans; [apply Cabs_triangle|]. unfold g at 1. rewrite Elv by exact Hm. lra. }
  split; [exact Hb|].
  assert (HW : el W i j <> C0). { intros H0. rewrite H0, Cabs_0 in Hb. nra. }
  pose proof (phase_spread _ _ _ _ _ _ _ _ _ _ _ _ _ i j (bin_hz fs n m) Hr Hu E Hfs Hp HW) as P. fold n lv in P.
  eapply Rle_trans with (Rabs (phase_ratio (el W i j) (el dW i j) - bin_hz fs n m)).
  { unfold phase_cwt_pt. rewrite <- (Rabs_right (bin_hz fs n m)) at 1 by lra. apply Rabs_triang_inv2. }
  eapply Rle_trans; [exact P|]. destruct Hb as (Hb & _). assert (0 < (1 - eps) * lv m) by nra.
  assert (HF0 : 0 <= Fmax).
  { specialize (HF m Hm ltac:(lra)). replace (bin_hz fs n m - bin_hz fs n m) with 0 in HF by ring. rewrite Rabs_R0 in HF. exact HF. }
  assert (S : Rsum n (fun q => lv q * Rabs (bin_hz fs n q - bin_hz fs n m)) <= Fmax * (eps * lv m)).
  { rewrite (others_split n m _ Hm). replace (bin_hz fs n m - bin_hz fs n m) with 0 by ring. rewrite Rabs_R0, Rmult_0_r, Rplus_0_l.
    apply Rle_trans with (Fmax * others n m lv); [|apply Rmult_le_compat_l; assumption]. unfold others. rewrite <- Rsum_scal. apply Rsum_le. intros q Hq.
    destruct (q =? m)%nat; [lra|]. pose proof (level_nonneg f (a_l1 a) (nth i sc 0) xp q) as L. fold lv in L.
    destruct (Req_dec (lv q) 0) as [E0|E0]; [rewrite E0; lra|]. rewrite Rmult_comm. apply Rmult_le_compat_r; [exact L|]. apply HF; assumption. }
  assert (0 <= eps * lv m). { eapply Rle_trans; [|exact Ho]. unfold others. apply Rsum_nonneg. intros q _. destruct (q =? m)%nat; [lra|apply level_nonneg]. }
  apply Rle_trans with (Fmax * (eps * lv m) / ((1 - eps) * lv m)); [|right; field; lra].
  apply Rmult_le_compat; [|left; apply Rinv_0_lt_compat; lra|exact S|apply Rinv_le_contravar; assumption].
  apply Rsum_nonneg. intros q _. apply Rmult_le_pos; [apply level_nonneg|apply Rabs_pos].
Qed.
