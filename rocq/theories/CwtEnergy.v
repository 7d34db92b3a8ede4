(** Energies of the rows of [cwt], its stability, and what it does not see. *)
From Coq Require Import ZifyBool ZifyNat.
From Verif Require Import Py Padding PaddingProofs Cplx CplxProofs Freqs Stft Squeeze Scales Ssqueeze Cwt CwtProofs CwtThms CwtTone SsqCwtProofs RoundTrip
  CwtWitness SsqCwtWitness.
Local Open Scope R_scope.
Ltac Zify.zify_post_hook ::= Z.div_mod_to_equations.

(** energy of row [i] *)
Definition row_energy (W : mat C) (i : nat) : R := Rsum (ncols W) (fun j => Cnorm2 (el W i j)).
(** what [l1_norm=False] multiplies energies by *)
Definition norm_gain (l1 : bool) (s : R) : R := if l1 then 1 else s.

Lemma idft_energy n X : (1 <= n)%nat -> Rsum n (fun j => Cnorm2 (idft n X j)) = / INR n * Rsum n (fun k => Cnorm2 (X k)).
Proof.
  intros Hn. pose proof (parseval n Hn (idft n X)) as P.
  assert (Hp : 0 < INR n) by (apply lt_0_INR; lia).
  rewrite (Rsum_ext n (fun k => Cnorm2 (dft n (idft n X) k)) (fun k => Cnorm2 (X k))) in P by (intros k Hk; rewrite (dft_idft n Hn) by exact Hk; reflexivity).
  rewrite P. field. lra.
Qed.

Lemma Cnorm2_scal z c : Cnorm2 (Cmul z (RtoC c)) = c * c * Cnorm2 z.
Proof. rewrite Cnorm2_mul. unfold RtoC at 1, Cnorm2 at 2. cbn. ring. Qed.

Lemma finish_norm2 a n1 s g j : (a_l1 a = false -> 0 <= s) ->
  Cnorm2 (finish_cell a n1 s g j) = norm_gain (a_l1 a) s *
  Cnorm2 (g ((if negb (a_rpadded a) && (if a_pad a then true else false) then Z.to_nat n1 else 0%nat) + j)%nat).
Proof.
  intros Hs. unfold finish_cell, norm_gain. destruct (a_l1 a); [ring|].
  rewrite Cnorm2_scal, sqrt_sqrt by auto. reflexivity.
Qed.

(** the whole transform, or its part over the signal *)
Definition whole (a : cwt_args) : Prop := a_pad a = None \/ a_rpadded a = true.

Lemma whole_cols py inst f a x s W sc dW s' xp n1 : whole a -> cwt py inst f a x s = (Ok (W, sc, dW), s') ->
  pad_input (a_pad a) x = Ok (xp, n1) ->
  ncols W = length xp /\ negb (a_rpadded a) && (if a_pad a then true else false) = false.
Proof.
  intros Hw E Hp. destruct (cwt_ncols _ _ _ _ _ _ _ _ _ _ E) as [_ Hc].
  destruct (a_pad a) as [pt|] eqn:Ep.
  - destruct Hw as [Hw|Hw]; [congruence|]. rewrite Hw in *. cbn [andb negb] in *.
    destruct (pad_input_len _ _ _ _ Hp) as (u & n2 & Eu & L & _). rewrite Eu in Hc. split; [lia|reflexivity].
  - rewrite Bool.andb_false_r in *. unfold pad_input in Hp. destruct x; [discriminate|]. injection Hp as <- <-.
    split; [lia|reflexivity].
Qed.

Lemma deriv_cols py inst f a x s W sc d s' : cwt py inst f a x s = (Ok (W, sc, Some d), s') -> ncols d = ncols W /\ nrows d = nrows W.
Proof.
  intros H. destruct (cwt_ok_inv _ _ _ _ _ _ _ _ H) as ((fs & xp & n1 & scales & P) & U1 & U2).
  rewrite (cwt_run _ _ _ _ _ _ _ _ _ _ P U1 U2) in H. destruct (a_deriv a); [|discriminate H]. injection H as <- <- <- <-.
  unfold finish. destruct (negb (a_rpadded a) && _), (a_l1 a); split; reflexivity.
Qed.

Theorem cwt_energy py inst f a x s W sc dW s' : real_valued f -> uncached inst a s ->
  cwt py inst f a x s = (Ok (W, sc, dW), s') -> whole a -> (a_l1 a = false -> forall i, (i < length sc)%nat -> 0 <= nth i sc 0) ->
  exists fs xp n1, process_fs_and_t (a_fs a) (a_t a) (length x) = Ok fs /\ pad_input (a_pad a) x = Ok (xp, n1) /\
    ncols W = length xp /\
    let n := length xp in let X := dft n (fun m => RtoC (nth m xp 0)) in
    forall i, (i < length sc)%nat ->
      row_energy W i = norm_gain (a_l1 a) (nth i sc 0) / INR n *
        Rsum n (fun k => Cnorm2 (psih_val f (nth i sc 0) n false k) * Cnorm2 (X k)) /\
      match dW with
      | Some d => row_energy d i = norm_gain (a_l1 a) (nth i sc 0) / INR n *
          Rsum n (fun k => Cnorm2 (psih_val f (nth i sc 0) n false k) * Cnorm2 (X k) * (nth k (xifn 1 n) 0 * fs) ^ 2)
      | None => True
      end.
Proof.
  intros Hr Hu E Hw Hs. destruct (cwt_rows _ _ _ _ _ _ _ _ _ _ Hr Hu E) as (fs & xp & n1 & Hfs & Hp & _ & HW & HD).
  exists fs, xp, n1. split; [exact Hfs|]. split; [exact Hp|].
  destruct (whole_cols _ _ _ _ _ _ _ _ _ _ _ _ Hw E Hp) as [Hc He]. split; [exact Hc|].
  destruct (pad_window _ _ _ _ Hp) as (Hwin & Hx & _). assert (Hn : (1 <= length xp)%nat) by lia.
  intros n X i Hi. split.
  - unfold row_energy. rewrite Hc. fold n.
    rewrite (Rsum_ext n _ (fun j => norm_gain (a_l1 a) (nth i sc 0) * Cnorm2 (row_val f (nth i sc 0) xp j))).
    2:{ intros j _. rewrite HW, finish_norm2, He by auto. reflexivity. }
    rewrite Rsum_scal. unfold row_val. fold n. rewrite idft_energy by exact Hn.
    unfold Rdiv. rewrite Rmult_assoc. do 2 f_equal. apply Rsum_ext. intros k _. rewrite Cnorm2_mul. reflexivity.
  - destruct dW as [d|]; [|exact I]. destruct (deriv_cols _ _ _ _ _ _ _ _ _ _ E) as [Hd _]. unfold row_energy. rewrite Hd, Hc. fold n.
    rewrite (Rsum_ext n _ (fun j => norm_gain (a_l1 a) (nth i sc 0) * Cnorm2 (drow_val f (nth i sc 0) fs xp j))).
    2:{ intros j _. rewrite HD, finish_norm2, He by auto. reflexivity. }
    rewrite Rsum_scal. unfold drow_val. fold n. rewrite idft_energy by exact Hn.
    unfold Rdiv. rewrite Rmult_assoc. do 2 f_equal. apply Rsum_ext. intros k _. rewrite !Cnorm2_mul.
    unfold sig_dft. fold n. fold X. unfold Cnorm2 at 3. cbn [fst snd]. ring.
Qed.

(** ** No more energy than the signal's, times the peak of the wavelet *)
Lemma Rsum_part n N o g : (o + N <= n)%nat -> (forall j, 0 <= g j) -> Rsum N (fun j => g (o + j)%nat) <= Rsum n g.
Proof.
  intros H Hg. replace n with (o + (N + (n - o - N)))%nat by lia. rewrite Rsum_app, Rsum_app.
  pose proof (Rsum_nonneg o g ltac:(auto)). pose proof (Rsum_nonneg (n - o - N) (fun i => g (o + (N + i))%nat) (fun i _ => Hg _)). lra.
Qed.

Theorem cwt_bounded py inst f a x s W sc dW s' P : real_valued f -> uncached inst a s ->
  cwt py inst f a x s = (Ok (W, sc, dW), s') -> (a_l1 a = false -> forall i, (i < length sc)%nat -> 0 <= nth i sc 0) ->
  0 <= P -> (forall w, Cabs (wf f w) <= P) ->
  exists xp n1, pad_input (a_pad a) x = Ok (xp, n1) /\
    forall i, (i < length sc)%nat ->
      row_energy W i <= norm_gain (a_l1 a) (nth i sc 0) * P ^ 2 * Rsum (length xp) (fun m => nth m xp 0 ^ 2).
Proof.
  intros Hr Hu E Hs HP Hf. destruct (cwt_rows _ _ _ _ _ _ _ _ _ _ Hr Hu E) as (fs & xp & n1 & Hfs & Hp & _ & HW & _).
  exists xp, n1. split; [exact Hp|]. intros i Hi.
  destruct (cwt_ncols _ _ _ _ _ _ _ _ _ _ E) as [_ Hc].
  destruct (pad_window _ _ _ _ Hp) as (Hwin & Hx & _). set (n := length xp) in *. assert (Hn : (1 <= n)%nat) by lia.
  assert (Hg0 : 0 <= norm_gain (a_l1 a) (nth i sc 0)) by (unfold norm_gain; destruct (a_l1 a); [lra|auto]).
  set (o := (if negb (a_rpadded a) && (if a_pad a then true else false) then Z.to_nat n1 else 0)%nat).
  assert (Ho : (o + ncols W <= n)%nat).
  { unfold o. destruct (a_pad a) as [pt|] eqn:Ep.
    - destruct (pad_input_len _ _ _ _ Hp) as (u & n2 & Eu & L & H1 & H2 & H3). rewrite Eu in Hc.
      destruct (a_rpadded a); cbn [andb negb] in *; unfold n; lia.
    - rewrite !Bool.andb_false_r in *. unfold pad_input in Hp. destruct x; [discriminate|]. injection Hp as <- <-. unfold n. lia. }
  unfold row_energy.
  rewrite (Rsum_ext _ _ (fun j => norm_gain (a_l1 a) (nth i sc 0) * Cnorm2 (row_val f (nth i sc 0) xp (o + j)))).
  2:{ intros j _. rewrite HW, finish_norm2 by auto. reflexivity. }
  rewrite Rsum_scal, Rmult_assoc. apply Rmult_le_compat_l; [exact Hg0|].
  eapply Rle_trans.
  { apply (Rsum_part n (ncols W) o (fun j => Cnorm2 (row_val f (nth i sc 0) xp j)) Ho). intros j. apply Cnorm2_nonneg. }
  unfold row_val. fold n. rewrite idft_energy by exact Hn.
  pose proof (parseval n Hn (fun m => RtoC (nth m xp 0))) as Pv.
  assert (Hpn : 0 < INR n) by (apply lt_0_INR; lia).
  rewrite (Rsum_ext n (fun m => nth m xp 0 ^ 2) (fun m => Cnorm2 (RtoC (nth m xp 0)))) by (intros m _; unfold Cnorm2, RtoC; cbn [fst snd]; ring).
  replace (Rsum n (fun m => Cnorm2 (RtoC (nth m xp 0)))) with (/ INR n * Rsum n (fun k => Cnorm2 (dft n (fun m => RtoC (nth m xp 0)) k))) by (rewrite Pv; field; lra).
  replace (P ^ 2 * (/ INR n * Rsum n (fun k => Cnorm2 (dft n (fun m => RtoC (nth m xp 0)) k)))) with
    (/ INR n * (P ^ 2 * Rsum n (fun k => Cnorm2 (dft n (fun m => RtoC (nth m xp 0)) k)))) by ring.
  apply Rmult_le_compat_l; [apply Rlt_le, Rinv_0_lt_compat; exact Hpn|].
  rewrite <- Rsum_scal. apply Rsum_le. intros k Hk. rewrite Cnorm2_mul. apply Rmult_le_compat_r; [apply Cnorm2_nonneg|].
  assert (Hw2 : forall w, Cnorm2 (wf f w) <= P ^ 2).
  { intros w. rewrite <- Cabs_sqr. specialize (Hf w). pose proof (Cabs_nonneg (wf f w)). nra. }
  unfold psih_val. destruct (negb false && _ && _); [|apply Hw2].
  rewrite Cnorm2_mul. unfold Cnorm2 at 1, RtoC. cbn [fst snd]. specialize (Hw2 (nth i sc 0 * nth k (xifn 1 n) 0)).
  pose proof (Cnorm2_nonneg (wf f (nth i sc 0 * nth k (xifn 1 n) 0))). nra.
Qed.

(** ** Stability *)
Theorem cwt_stable py inst f a x y s W sc dW s' P : real_valued f -> uncached inst a s -> length x = length y ->
  cwt py inst f a x s = (Ok (W, sc, dW), s') -> (a_l1 a = false -> forall i, (i < length sc)%nat -> 0 <= nth i sc 0) ->
  0 <= P -> (forall w, Cabs (wf f w) <= P) ->
  exists V dV zp n1, cwt py inst f a y s = (Ok (V, sc, dV), s') /\ ncols V = ncols W /\
    pad_input (a_pad a) (lin 1 (-1) x y) = Ok (zp, n1) /\
    forall i, (i < length sc)%nat ->
      Rsum (ncols W) (fun j => Cnorm2 (Csub (el W i j) (el V i j)))
      <= norm_gain (a_l1 a) (nth i sc 0) * P ^ 2 * Rsum (length zp) (fun m => nth m zp 0 ^ 2).
Proof.
  intros Hr Hu HL E Hs HP Hf. destruct (cwt_linear _ _ _ _ _ 1 (-1) _ _ _ _ _ _ HL E) as (V & dV & Z & dZ & EV & EZ & (_ & _ & Hc & Hc' & Hz) & _).
  destruct (cwt_bounded _ _ _ _ _ _ _ _ _ _ P Hr Hu EZ Hs HP Hf) as (zp & n1 & Hp & Hb).
  exists V, dV, zp, n1. split; [exact EV|]. split; [exact Hc'|]. split; [exact Hp|]. intros i Hi. specialize (Hb i Hi).
  unfold row_energy in Hb. rewrite Hc in Hb.
  rewrite (Rsum_ext _ _ (fun j => Cnorm2 (el Z i j))); [exact Hb|]. intros j _. rewrite Hz. f_equal.
  apply C_eq; unfold Csub, Cadd, Cmul, RtoC, Copp; cbn; ring.
Qed.

(** ** What it does not see *)
(** every positive frequency of a length-[n] transform is seen at some scale *)
Definition covers (f : wfun) (sc : list R) (n : nat) : Prop :=
  forall k, (1 <= k <= n / 2)%nat -> exists i, (i < length sc)%nat /\ 0 < nth i sc 0 /\ wf f (nth i sc 0 * (2 * PI * INR k / INR n)) <> C0.

Lemma Rsum_zero_terms n g : (forall i, 0 <= g i) -> Rsum n g = 0 -> forall i, (i < n)%nat -> g i = 0.
Proof.
  intros Hg. induction n; cbn [Rsum]; intros E i Hi; [lia|].
  pose proof (Rsum_nonneg n g ltac:(auto)). pose proof (Hg n).
  destruct (Nat.eq_dec i n); [subst; lra|]. apply IHn; [lra|lia].
Qed.

Lemma flat_spectrum n (x : nat -> R) : (1 <= n)%nat ->
  (forall k, (1 <= k <= n / 2)%nat -> dft n (fun m => RtoC (x m)) k = C0) ->
  forall m, (m < n)%nat -> RtoC (x m) = Cmul (RtoC (/ INR n)) (dft n (fun m => RtoC (x m)) 0).
Proof.
  intros Hn H m Hm. set (X := dft n (fun m => RtoC (x m))) in *.
  assert (H' : forall k, (1 <= k < n)%nat -> X k = C0).
  { intros k Hk. destruct (le_lt_dec k (n / 2)); [apply H; lia|].
    pose proof (dft_real_sym n Hn x (n - k) ltac:(lia)) as Ek.
    replace (n - (n - k))%nat with k in Ek by lia. unfold X. rewrite Ek. fold X. rewrite H by lia.
    apply C_eq; unfold Cconj, C0; cbn; ring. }
  rewrite <- (idft_dft n Hn (fun m => RtoC (x m)) m Hm). fold X. unfold idft. f_equal.
  rewrite (Csum_single n _ 0) by (try lia; intros i Hi Hne; rewrite H' by lia; ring).
  cbn [Z.of_nat]. rewrite Z.mul_0_l, (tw_0 n Hn). ring.
Qed.

Theorem cwt_zero py inst f a x s W sc dW s' : real_valued f -> uncached inst a s ->
  cwt py inst f a x s = (Ok (W, sc, dW), s') -> whole a ->
  (forall xp n1, pad_input (a_pad a) x = Ok (xp, n1) -> covers f sc (length xp)) ->
  (forall i j, (i < nrows W)%nat -> (j < ncols W)%nat -> el W i j = C0) ->
  exists c, forall j, (j < length x)%nat -> nth j x 0 = c.
Proof.
  intros Hr Hu E Hw Hcov H0. destruct (cwt_rows _ _ _ _ _ _ _ _ _ _ Hr Hu E) as (fs & xp & n1 & Hfs & Hp & HR & HW & _).
  destruct (whole_cols _ _ _ _ _ _ _ _ _ _ _ _ Hw E Hp) as [Hc He].
  destruct (pad_window _ _ _ _ Hp) as (Hwin & Hx & Hat). set (n := length xp) in *. assert (Hn : (1 <= n)%nat) by lia.
  assert (HX : forall k, (1 <= k <= n / 2)%nat -> dft n (fun m => RtoC (nth m xp 0)) k = C0).
  { intros k Hk. destruct (Hcov _ _ Hp k Hk) as (i & Hi & Hsi & Hnz). fold n in Hnz.
    assert (Hz : forall j, (j < n)%nat -> row_val f (nth i sc 0) xp j = C0).
    { intros j Hj. specialize (H0 i j ltac:(lia) ltac:(lia)). rewrite HW in H0. unfold finish_cell in H0. rewrite He in H0.
      cbn [Nat.add] in H0. destruct (a_l1 a); [exact H0|]. apply Cmul_integral in H0. destruct H0 as [H0|H0]; [exact H0|].
      exfalso. apply (f_equal fst) in H0. cbn in H0. pose proof (sqrt_lt_R0 _ Hsi). lra. }
    assert (Hk' : (k < n)%nat) by lia.
    assert (Ek : Cmul (psih_val f (nth i sc 0) n false k) (sig_dft xp k) = C0).
    { rewrite <- (dft_idft n Hn (fun k => Cmul (psih_val f (nth i sc 0) n false k) (sig_dft xp k)) k Hk').
      unfold dft. apply Csum_0. intros j Hj. specialize (Hz j Hj). unfold row_val in Hz. fold n in Hz. rewrite Hz. ring. }
    apply Cmul_integral in Ek. destruct Ek as [Ek|Ek]; [|exact Ek]. exfalso. apply Hnz.
    unfold psih_val in Ek. rewrite xi_low in Ek by lia.
    destruct (negb false && _ && _); [|exact Ek]. apply Cmul_integral in Ek. destruct Ek as [Ek|Ek]; [|exact Ek].
    exfalso. apply (f_equal fst) in Ek. cbn in Ek. lra. }
  exists (Re (Cmul (RtoC (/ INR n)) (dft n (fun m => RtoC (nth m xp 0)) 0))). intros j Hj.
  rewrite <- (flat_spectrum n (fun m => nth m xp 0) Hn HX (Z.to_nat n1 + j) ltac:(lia)). cbn [Re RtoC fst].
  symmetry. apply Hat. exact Hj.
Qed.

(** two signals with the same transform differ by a constant *)
Theorem cwt_kernel py inst f a x y s W V sc dW dV s' s'' : real_valued f -> uncached inst a s -> length x = length y ->
  cwt py inst f a x s = (Ok (W, sc, dW), s') -> cwt py inst f a y s = (Ok (V, sc, dV), s'') -> whole a ->
  (forall xp n1, pad_input (a_pad a) x = Ok (xp, n1) -> covers f sc (length xp)) ->
  (forall i j, (i < nrows W)%nat -> (j < ncols W)%nat -> el W i j = el V i j) ->
  exists c, forall j, (j < length x)%nat -> nth j x 0 = nth j y 0 + c.
Proof.
  intros Hr Hu HL E EV Hw Hcov Hsame. destruct (cwt_linear _ _ _ _ _ 1 (-1) _ _ _ _ _ _ HL E) as (V' & dV' & Z & dZ & EV' & EZ & (Hr1 & _ & Hc & Hc' & Hz) & _).
  rewrite EV in EV'. injection EV' as <- <- _.
  destruct (cwt_zero _ _ _ _ _ _ _ _ _ _ Hr Hu EZ Hw) as [c H].
  - intros zp n1 Hp. destruct (cwt_rows _ _ _ _ _ _ _ _ _ _ Hr Hu E) as (fs & xp & m1 & _ & Hpx & _).
    rewrite <- (pad_input_length_eq (a_pad a) x (lin 1 (-1) x y) xp zp m1 n1); [eapply Hcov; exact Hpx| |exact Hpx|exact Hp].
    symmetry. apply lin_length. exact HL.
  - intros i j Hi Hj. rewrite Hz, <- Hsame by lia. apply C_eq; unfold Cadd, Cmul, RtoC, C0; cbn; ring.
  - exists c. intros j Hj. assert (Hl : length (lin 1 (-1) x y) = length x) by (apply lin_length; exact HL).
    specialize (H j ltac:(lia)). unfold lin in H.
    rewrite (nth_map_in _ _ _ _ (0, 0)) in H by (rewrite combine_length; lia).
    rewrite combine_nth in H by exact HL. cbn [fst snd] in H. lra.
Qed.
