(** Bands of rows of a noisy [ssq_stft], and the components [issq_stft] makes of them. *)
From Coq Require Import Reals Lra Lia List ZifyBool ZifyNat.
Import ListNotations.
From Verif Require Import Py Round Padding Parallel Cplx CplxProofs Buffer Freqs Stft StftProofs WindowProofs Separate
  Squeeze SqueezeProofs SqueezeThms SqueezeThms2 SqueezeThms3 Scales Ssqueeze SsqueezeProofs SsqThms CwtTone IssqProofs StftTone StftToneThms StftToneWitness StftMap StftChord StftChordThms
  StftStable2 CwtThms NoiseRidge NoiseSsq.
Local Open Scope R_scope.
Ltac Zify.zify_post_hook ::= Z.div_mod_to_equations.

Lemma Csum_dec' (f : nat -> C) N : (exists r, (r < N)%nat /\ f r <> C0) \/ (forall r, (r < N)%nat -> f r = C0).
Proof.
  induction N as [|N IH]; [right; lia|]. destruct IH as [(r & Hr & E)|IH]; [left; exists r; split; [lia|exact E]|].
  destruct (Req_EM_T (Cnorm2 (f N)) 0) as [E0|E0].
  - right. intros r Hr. destruct (Nat.eq_dec r N) as [->|]; [apply Cnorm2_0, E0|apply IH; lia].
  - left. exists N. split; [lia|]. intros E. apply E0. rewrite E. unfold Cnorm2, C0. cbn. ring.
Qed.
(** a value sent to at most one place *)
Lemma sent_once (hit : nat -> bool) (Q : nat -> bool) (v : C) N : (forall q q', hit q = true -> hit q' = true -> q = q') ->
  Csum N (fun q => if Q q then (if hit q then v else C0) else C0) = v \/ Csum N (fun q => if Q q then (if hit q then v else C0) else C0) = C0.
Proof.
  intros Hu. destruct (Csum_dec' (fun q => if Q q then (if hit q then v else C0) else C0) N) as [(q & Hq & Hne)|Hz].
  - left. rewrite (Csum_single N _ q Hq).
    + destruct (Q q), (hit q); try reflexivity; exfalso; apply Hne; reflexivity.
    + intros q' Hq' Hd'. destruct (Q q'), (hit q') eqn:E'; try reflexivity. exfalso. apply Hd'.
      destruct (Q q), (hit q) eqn:E; try (exfalso; apply Hne; reflexivity). apply Hu; assumption.
  - right. apply Csum_0. exact Hz.
Qed.

Section Band.
Variables (ord : order) (M : nat) (A phi : nat -> R) (m : nat -> nat) (y : list R) (a : stft_args) (fs : option R) (t : option (list R))
  (s : ssq_stft_opts) (rate : R) (n : nat) (w : list R) (b : nat) (g e : R).
Let x := bin_chord M A phi m n (length y).
Let hop := Z.to_nat (a_hop a).
Let a' := SA rate (a_window a) (a_n_fft a) (a_win_len a) (a_hop a) (a_modulated a) (a_padtype a) (a_f32 a).
Let Sfs := make_Sfs (n / 2 + 1) rate.
Let row (r : nat) := (if s_flip s then n / 2 - m r else m r)%nat.
Let noise := e * Rsum n (fun u => Rabs (nth u w 0)).
Hypothesis Ho : valid_order ord.
Hypothesis Hy : noisy_chord M A phi m n e y.
Hypothesis U : usable y a n w.
Hypothesis Hfs : process_fs_and_t fs t (length y) = Ok rate.
Hypothesis Hd : EPS64 <= rate / INR n.
Hypothesis Hn : (2 <= n)%nat.
Hypothesis He : Nat.even n = true.
Hypothesis Hn62 : (Z.of_nat n < 2 ^ 62)%Z.
Hypothesis Hmod : a_modulated a = true.
Hypothesis Hb : narrow n w b.
Hypothesis Hap : bins_apart M m n b.
Hypothesis Hfr : s_freqs s = None.
Hypothesis Hsq : s_sq s = SqSum.
Hypothesis Hg : g = match s_gamma s with Some g => g | None => 10 * (if a_f32 a then EPS32 else EPS64) end.
Hypothesis He0 : 0 <= e.
Hypothesis Hdom : forall r d, (r < M)%nat -> (Z.abs d <= Z.of_nat b)%Z -> wspec n w d <> C0 ->
  let c := Rabs (A r) / 2 * Cabs (wspec n w d) in dominates rate n w e c d /\ g < c - noise.


Let part_near' := part_near M A phi m y a s rate n w b g e Hn Hb Hap Hdom.
Let one_tone' := one_tone M A phi m y a s rate n w b g e Hn Hb Hap Hdom.
Let tone_sum' := tone_sum M A m a s rate n w b g e Hn Hb Hap Hdom.

(** the tones whose rows are among [Q], and no more than one share of the noise however many rows there are *)
Theorem noisy_band : a_padtype a = PWrap -> (length y mod n = 0)%nat -> exists Tx Sx f, ssq_stft ord y a fs t s = Ok (Tx, Sx, f, Sfs) /\
  nrows Tx = (n / 2 + 1)%nat /\ Z.of_nat (ncols Tx) = ((Z.of_nat (length y) - 1) / a_hop a + 1)%Z /\
  (forall r, (r < M)%nat -> nth (row r) f 0 = INR (m r) * rate / INR n) /\
  forall (Q : nat -> bool) h, (h < ncols Tx)%nat ->
    Cabs (Csub (Csum (n / 2 + 1) (fun q => if Q q then el Tx q h else C0))
               (Csum M (fun r => if Q (row r) then Cmul (RtoC (rate * nth (n / 2) w 0 * (A r / 2))) (bin_phase (phi r) (m r) n (hop * h)) else C0)))
      <= rate / INR n * INR (n / 2 + 1) * noise.
Proof.
  intros Hwrap Hmult. destruct (rate_pos M A m a s rate n w b g e Hd Hn Hdom) as [Hd0 Hr0]. pose proof PI_RGT_0 as HP. assert (Hn0 : 0 < INR n) by (apply lt_0_INR; lia).
  assert (Hl : length x = length y) by apply tab_length. assert (U' : usable y a' n w) by exact U. pose proof (usable_len y x a' n w Hl U') as Ux.
  destruct (chord_stft M A phi m x a' n w b Ux Hn) as (X & dX & EX & RX & CX & V); [rewrite Hl; reflexivity|exact Hmod|exact Hb|apply Hap|].
  destruct (stft_cells y a' n w U') as (yp & Y & dY & _ & _ & _ & EY & RY & _ & _ & CY & _).
  change (part A phi m a' n w) with (part A phi m a n w) in V. change (a_fs a') with rate in V.
  assert (Hyx : forall i, (i < length y)%nat -> Rabs (nth i y 0 - nth i x 0) <= e) by (intros i Hi; unfold x, bin_chord; rewrite nth_tab by exact Hi; apply Hy, Hi).
  assert (P : forall h k, (h < ncols Y)%nat -> (k <= n / 2)%nat -> Cabs (Csub (el Y k h) (Csum M (fun r => part A phi m a n w r k h))) <= noise /\
     Cabs (Csub (el dY k h) (Csum M (fun r => Cmul (0, 2 * PI * (rate * (INR k - INR (m r)) / INR n)) (part A phi m a n w r k h)))) <= e * (rate * Rsum n (fun u => Rabs (nth u (diff_window w) 0)))).
  { intros h k Hh Hk. destruct (V h k) as [V1 V2]; [rewrite Hl in CX; lia|right; rewrite Hl; split; assumption|exact Hk|]. rewrite <- V1, <- V2. split.
    - apply (stft_sup y x a' n w Y dY X dX e U' Hl He0 Hyx EY EX); exact Hh.
    - eapply Rle_trans; [apply (stft_dsup y x a' n w Y dY X dX e U' Hl He0 Hyx EY EX); exact Hh|]. right. f_equal. rewrite <- Rsum_scal. apply Rsum_ext. intros u Hu.
      unfold dwindow. change (a_modulated a') with (a_modulated a). rewrite Hmod. change (a_fs a') with rate.
      assert (Hu2 : (u < length (diff_window w))%nat) by (unfold diff_window; rewrite tab_length; destruct U as (_ & _ & _ & _ & _ & K & _); lia).
      rewrite (nth_indep _ 0 (0 * rate)) by (rewrite map_length; exact Hu2). rewrite (map_nth (fun v => v * rate)), Rabs_mult, (Rabs_right rate) by lra. ring. }
  destruct (near_bins ord y a fs t s rate n g Y dY) as (Tx & f & hit & ET & RT & CT & Lf & Hf & Huniq & Hhit & VT); try assumption.
  exists Tx, Y, f. split; [exact ET|]. split; [exact RT|]. split; [rewrite CT; exact CY|].
  destruct Hap as [Hm Hs]. split; [intros r Hr; destruct (Hm r Hr); apply Hf; lia|].
  intros Q h Hh. rewrite CT in Hh.
  assert (Hnz : 0 <= noise) by (unfold noise; apply Rmult_le_pos; [exact He0|]; apply Rsum_nonneg; intros; apply Rabs_pos).
  (* bring both sides to a sum over the stft rows *)
  assert (EL : Csum (n / 2 + 1) (fun q => if Q q then el Tx q h else C0) =
     Csum (n / 2 + 1) (fun k => Csum (n / 2 + 1) (fun q => if Q q then (if hit k h q then (if kept (s_get_w s) g (Cabs (el Y k h)) then Cmul (RtoC (rate / INR n)) (el Y k h) else C0) else C0) else C0))).
  { rewrite Csum_swap. apply Csum_ext. intros q Hq. destruct (Q q).
    - rewrite (VT h q Hh ltac:(lia)). apply Csum_ext. intros k Hk. destruct (hit k h q); reflexivity.
    - symmetry. apply Csum_0. reflexivity. }
  assert (ER : Csum M (fun r => if Q (row r) then Cmul (RtoC (rate * nth (n / 2) w 0 * (A r / 2))) (bin_phase (phi r) (m r) n (hop * h)) else C0) =
     Csum (n / 2 + 1) (fun k => Cmul (RtoC (rate / INR n)) (Csum M (fun r => if Q (row r) then part A phi m a n w r k h else C0)))).
  { rewrite Csum_scal, (Csum_swap (n / 2 + 1) M), <- Csum_scal. apply Csum_ext. intros r Hr. destruct (Q (row r)); [|rewrite Csum_0 by reflexivity; ring].
    rewrite (Csum_ext _ (fun k => part A phi m a n w r k h) (fun k => Cmul (Cmul (RtoC (A r / 2)) (bin_phase (phi r) (m r) n (hop * h))) (wspec n w (Z.of_nat k - Z.of_nat (m r))))).
    - rewrite Csum_scal, tone_sum' by exact Hr. apply C_eq; unfold Cmul, RtoC; cbn [fst snd]; field; lra.
    - intros k Hk. unfold part. fold hop. ring. }
  rewrite EL, ER, Csum_diff. eapply Rle_trans; [apply Cabs_Csum|].
  replace (rate / INR n * INR (n / 2 + 1) * noise) with (Rsum (n / 2 + 1) (fun _ => rate / INR n * noise)) by (rewrite Rsum_const; ring).
  apply Rsum_le. intros k Hk. destruct (P h k Hh ltac:(lia)) as [P1 P2].
  destruct (Csum_dec' (fun r => part A phi m a n w r k h) M) as [(r & Hr & Hp)|Hz].
  - destruct (part_near' r k h Hr ltac:(lia) Hp) as [N1 N2]. destruct (Hdom r _ Hr N1 N2) as [[D1 D2] D3]. destruct (Hm r Hr) as [M1 M2].
    set (c := Rabs (A r) / 2 * Cabs (wspec n w (Z.of_nat k - Z.of_nat (m r)))) in *. fold noise in D1, D2.
    assert (Ec : Cabs (part A phi m a n w r k h) = c) by (unfold part, c; rewrite !Cabs_mul, bin_phase_abs, Cabs_RtoC; unfold Rdiv; rewrite Rabs_mult, (Rabs_right (/ 2)) by lra; ring).
    assert (Os : forall r', (r' < M)%nat -> r' <> r -> part A phi m a n w r' k h = C0) by (intros r' Hr' Hne; apply (one_tone' r r' k h); try assumption; lia).
    rewrite (Csum_single M _ r Hr) in P1 by exact Os.
    rewrite (Csum_single M _ r Hr) in P2 by (intros r' Hr' Hne; rewrite Os by assumption; ring).
    rewrite (Csum_single M _ r Hr) by (intros r' Hr' Hne; rewrite Os by assumption; destruct (Q _); reflexivity).
    destruct (phase_noise _ _ _ _ _ _ P1 P2) as [W1 W2]; [rewrite Ec; exact D1|]. rewrite Ec in W2.
    assert (Kp : kept (s_get_w s) g (Cabs (el Y k h)) = true).
    { pose proof (Cabs_near _ _ _ P1) as [K1 _]. rewrite Ec in K1. unfold kept. destruct (s_get_w s).
      - destruct (Rlt_dec (Cabs (el Y k h)) g); [lra|reflexivity].
      - destruct (Rlt_dec g (Cabs (el Y k h))); [reflexivity|lra]. }
    assert (Hh' : forall q, (q <= n / 2)%nat -> hit k h q = (q =? row r)%nat).
    { intros q Hq. apply (Hhit k h (m r) q); [lia|lia|exact Hq|]. unfold phase_stft_pt. rewrite make_Sfs_even by (try exact He; lia).
      set (pr := phase_ratio (el Y k h) (el dY k h)) in *.
      assert (B : Rabs (pr - rate * (INR k - INR (m r)) / INR n) < rate / INR n / 2).
      { eapply Rle_lt_trans; [exact W2|]. apply (Rmult_lt_reg_r (2 * PI * (c - noise))); [apply Rmult_lt_0_compat; lra|].
        match goal with |- ?p / ?q * ?q < _ => replace (p / q * q) with p by (field; lra) end.
        replace (rate / INR n / 2 * (2 * PI * (c - noise))) with (PI * (rate / INR n) * (c - noise)) by (field; lra). eapply Rle_lt_trans; [|exact D2]. right. f_equal.
        replace (rate * (INR k - INR (m r)) / INR n) with (rate / INR n * IZR (Z.of_nat k - Z.of_nat (m r))) by (rewrite minus_IZR, <- !INR_IZR_INZ; field; lra).
        rewrite Rabs_mult, (Rabs_right (rate / INR n)) by lra. ring. }
      assert (B2 : INR k * (rate / INR n) - pr - INR (m r) * (rate / INR n) = - (pr - rate * (INR k - INR (m r)) / INR n)) by (field; lra).
      apply Rabs_def2 in B. assert (Hm1 : rate / INR n <= INR (m r) * (rate / INR n)).
      { replace (rate / INR n) with (1 * (rate / INR n)) at 1 by ring. apply Rmult_le_compat_r; [lra|]. change 1 with (INR 1). apply le_INR. lia. }
      rewrite (Rabs_right (INR k * (rate / INR n) - pr)) by lra. apply Rabs_def1; lra. }
    assert (Hrow : (row r < n / 2 + 1)%nat) by (unfold row; destruct (s_flip s); lia).
    rewrite Kp. rewrite (Csum_single (n / 2 + 1) _ (row r) Hrow).
    + rewrite Hh', Nat.eqb_refl by lia. destruct (Q (row r)).
      * replace (Csub (Cmul (RtoC (rate / INR n)) (el Y k h)) (Cmul (RtoC (rate / INR n)) (part A phi m a n w r k h))) with (Cmul (RtoC (rate / INR n)) (Csub (el Y k h) (part A phi m a n w r k h))) by ring.
        rewrite Cabs_mul, Cabs_RtoC, (Rabs_right (rate / INR n)) by lra. apply Rmult_le_compat_l; [lra|exact P1].
      * replace (Csub C0 (Cmul (RtoC (rate / INR n)) C0)) with C0 by ring. rewrite Cabs_0. apply Rmult_le_pos; lra.
    + intros q Hq Hne. rewrite Hh' by lia. destruct (Nat.eqb_spec q (row r)); [contradiction|]. destruct (Q q); reflexivity.
  - rewrite (Csum_0 M) in P1 by exact Hz. rewrite (Csum_0 M) by (intros r Hr; rewrite Hz by exact Hr; destruct (Q _); reflexivity).
    replace (Csub (el Y k h) C0) with (el Y k h) in P1 by ring.
    set (v := if kept (s_get_w s) g (Cabs (el Y k h)) then Cmul (RtoC (rate / INR n)) (el Y k h) else C0).
    assert (Hv : Cabs v <= rate / INR n * noise).
    { unfold v. destruct (kept _ _ _); [|rewrite Cabs_0; apply Rmult_le_pos; lra].
      rewrite Cabs_mul, Cabs_RtoC, (Rabs_right (rate / INR n)) by lra. apply Rmult_le_compat_l; [lra|exact P1]. }
    assert (Ez : forall z, Csub z (Cmul (RtoC (rate / INR n)) C0) = z) by (intros z; ring). rewrite Ez.
    destruct (sent_once (hit k h) Q v (n / 2 + 1) (fun q q' => Huniq k h q q')) as [->| ->]; [exact Hv|]. rewrite Cabs_0. apply Rmult_le_pos; lra.
Qed.
End Band.
