(** [ssq_stft] of tones in noise: the coefficients a tone dominates still go to the tone's row. *)
From Coq Require Import Reals Lra Lia List ZifyBool ZifyNat.
Import ListNotations.
From Verif Require Import Py Round Padding Parallel Cplx CplxProofs Buffer Freqs Stft StftProofs WindowProofs Separate
  Squeeze SqueezeProofs SqueezeThms SqueezeThms2 SqueezeThms3 Scales Ssqueeze SsqueezeProofs SsqThms CwtTone IssqProofs StftTone StftToneThms StftToneWitness StftMap StftChord StftChordThms
  StftStable2 CwtThms NoiseRidge.
Local Open Scope R_scope.
Ltac Zify.zify_post_hook ::= Z.div_mod_to_equations.

Lemma abs_sub a b : Cabs (Csub a b) <= Cabs a + Cabs b.
Proof.
  replace (Csub a b) with (Cadd a (Cmul (RtoC (-1)) b)) by (apply C_eq; unfold Csub, Copp, Cadd, Cmul, RtoC; cbn [fst snd]; ring). eapply Rle_trans; [apply Cabs_triangle|].
  rewrite Cabs_mul, Cabs_RtoC, Rabs_left by lra. lra.
Qed.
(** ** the phase transform under an error of the coefficient and of its derivative *)
(** coefficient [V] with derivative [2 pi i c V], observed as [W], [dW] *)
Lemma phase_noise V W dW c nu dnu : Cabs (Csub W V) <= nu -> Cabs (Csub dW (Cmul (0, 2 * PI * c) V)) <= dnu -> nu < Cabs V ->
  W <> C0 /\ Rabs (phase_ratio W dW - c) <= (dnu + 2 * PI * Rabs c * nu) / (2 * PI * (Cabs V - nu)).
Proof.
  intros H1 H2 H3. pose proof (Cabs_near _ _ _ H1) as [N1 _]. assert (HA : 0 < Cabs W) by lra.
  assert (HW : W <> C0) by (intros E; rewrite E, Cabs_0 in HA; lra). split; [exact HW|]. pose proof PI_RGT_0 as HP.
  pose proof (phase_dev W dW c HW) as D.
  assert (Hc : Cabs (0, 2 * PI * c) = 2 * PI * Rabs c) by (rewrite Cabs_im, !Rabs_mult, (Rabs_right 2), (Rabs_right PI) by lra; reflexivity).
  assert (HE : Cabs (Csub dW (Cmul (0, 2 * PI * c) W)) <= dnu + 2 * PI * Rabs c * nu).
  { replace (Csub dW (Cmul (0, 2 * PI * c) W)) with (Csub (Csub dW (Cmul (0, 2 * PI * c) V)) (Cmul (0, 2 * PI * c) (Csub W V)))
      by (apply C_eq; unfold Csub, Copp, Cadd, Cmul; cbn [fst snd]; ring).
    eapply Rle_trans; [apply abs_sub|]. rewrite Cabs_mul, Hc. apply Rplus_le_compat; [exact H2|]. apply Rmult_le_compat_l; [|exact H1].
    pose proof (Rabs_pos c). apply Rmult_le_pos; lra. }
  set (B := dnu + 2 * PI * Rabs c * nu) in *. set (z := Rabs (phase_ratio W dW - c)) in *. assert (Hz : 0 <= z) by apply Rabs_pos.
  assert (D2 : z * (Cabs V - nu) <= B / (2 * PI)).
  { apply Rle_trans with (z * Cabs W); [apply Rmult_le_compat_l; lra|]. eapply Rle_trans; [exact D|]. unfold Rdiv. apply Rmult_le_compat_r; [left; apply Rinv_0_lt_compat; lra|exact HE]. }
  replace (B / (2 * PI * (Cabs V - nu))) with (B / (2 * PI) * / (Cabs V - nu)) by (field; lra).
  replace z with (z * (Cabs V - nu) * / (Cabs V - nu)) by (field; lra). apply Rmult_le_compat_r; [left; apply Rinv_0_lt_compat; lra|exact D2].
Qed.

(** ** coefficients whose phase transform is nearest a bin's frequency *)
Section Near.
Variables (ord : order) (x : list R) (a : stft_args) (fs : option R) (t : option (list R)) (s : ssq_stft_opts) (rate : R) (n : nat) (g : R) (Sx dSx : mat C).
Let a' := SA rate (a_window a) (a_n_fft a) (a_win_len a) (a_hop a) (a_modulated a) (a_padtype a) (a_f32 a).
Let Sfs := make_Sfs (n / 2 + 1) rate.
Let rowof (m : nat) := (if s_flip s then n / 2 - m else m)%nat.
Hypothesis Ho : valid_order ord.
Hypothesis Hfs : process_fs_and_t fs t (length x) = Ok rate.
Hypothesis Hd : EPS64 <= rate / INR n.
Hypothesis Hn2 : (2 <= n)%nat.
Hypothesis He : Nat.even n = true.
Hypothesis Hn62 : (Z.of_nat n < 2 ^ 62)%Z.
Hypothesis ES : stft x a' = Ok (Sx, dSx).
Hypothesis HrS : nrows Sx = (n / 2 + 1)%nat.
Hypothesis Hfr : s_freqs s = None.
Hypothesis Hsq : s_sq s = SqSum.
Hypothesis Hg : g = match s_gamma s with Some g => g | None => 10 * (if a_f32 a then EPS32 else EPS64) end.

Theorem near_bins : exists Tx f hit, ssq_stft ord x a fs t s = Ok (Tx, Sx, f, Sfs) /\
  nrows Tx = (n / 2 + 1)%nat /\ ncols Tx = ncols Sx /\ length f = (n / 2 + 1)%nat /\
  (forall m, (m <= n / 2)%nat -> nth (rowof m) f 0 = INR m * rate / INR n) /\
  (forall k h q q', hit k h q = true -> hit k h q' = true -> q = q') /\
  (forall k h m q, (k <= n / 2)%nat -> (m <= n / 2)%nat -> (q <= n / 2)%nat ->
     Rabs (phase_stft_pt (nth k Sfs 0) (el Sx k h) (el dSx k h) - INR m * (rate / INR n)) < rate / INR n / 2 -> hit k h q = (q =? rowof m)%nat) /\
  forall h q, (h < ncols Sx)%nat -> (q <= n / 2)%nat ->
    el Tx q h = Csum (n / 2 + 1) (fun k => if hit k h q && kept (s_get_w s) g (Cabs (el Sx k h)) then Cmul (RtoC (rate / INR n)) (el Sx k h) else C0).
Proof.
  set (p := (n / 2)%nat) in *.
  assert (Hn0 : 0 < INR n) by (apply lt_0_INR; lia). pose proof EPS64_pos as Heps.
  assert (HS : forall k, (k <= p)%nat -> nth k Sfs 0 = INR k * (rate / INR n)).
  { intros k Hk. apply make_Sfs_even; [lia|exact He|exact Hk]. }
  assert (Hsl : length Sfs = (p + 1)%nat) by apply linspace_length.
  set (c := nth 1 Sfs 0 - nth 0 Sfs 0).
  assert (Hc : c = rate / INR n).
  { unfold c. rewrite !HS by lia. cbn [INR]. ring. }
  set (o := SO TStft (FArray Sfs) None true (s_f64v s) 1 (s_sq s) MRMaximal (Some g) (s_flip s) (Some Sfs)).
  assert (Ec : ssq_const o None Sfs = Ok (CScalar c)).
  { unfold ssq_const, o. cbn [o_tr]. unfold c. destruct (list_two Sfs ltac:(lia)) as [r Er]. rewrite Er. reflexivity. }
  assert (Ea : const_arr (nrows Sx) (CScalar c) = Ok (repeat c (nrows Sx))) by (apply const_arr_scalar; lia).
  assert (Hbg : bin_grid Sfs false (reach_lin Sfs)).
  { apply (bg_lin _ (rate / INR n)); [lia|exact Hd|]. intros k Hk. rewrite !HS by lia. cbn [INR]. ring. }
  destruct (grid_nearest_any (s_f64v s) Sfs false _ Hbg) as (gd & Egd & Hnear).
  set (wo := if s_get_w s then Some (phase_stft Sfs g Sx dSx) else None).
  set (dd := if s_get_w s then None else Some dSx).
  assert (Hone : exists Tx, ssqueeze_one ord o None Sfs false Sx wo dd = Ok Tx).
  { unfold ssqueeze_one. rewrite Ec. cbn [bind]. unfold wo, dd. destruct (s_get_w s).
    - unfold indexed_sum_onfly. rewrite Ea. cbn [bind]. cbn [o o_f64v]. rewrite Egd. cbn [bind]. eexists. reflexivity.
    - cbn [o o_gamma]. unfold ssqueeze_fast. rewrite Ea. cbn [bind o o_f64v]. rewrite Egd. cbn [bind o o_Sfs]. eexists. reflexivity. }
  destruct Hone as [Tx ET].
  destruct (one_cells _ _ _ _ _ _ _ _ _ Ho ET) as (HrT & HcT & cst & ca & gd' & Ec' & Ea' & Eg' & Hel).
  rewrite Ec in Ec'. injection Ec' as <-. rewrite Ea in Ea'. injection Ea' as <-.
  cbn [o o_f64v] in Eg'. rewrite Egd in Eg'. injection Eg' as <-.
  set (hit := fun (k h q : nat) => (flip_row (s_flip s) (Z.of_nat (p + 1) - 1) ((if s_get_w s then bin_onfly else bin_fast) (Z.of_nat (p + 1) - 1)%Z gd (phase_stft_pt (nth k Sfs 0%R) (el Sx k h) (el dSx k h))) =? Z.of_nat q)%Z).
  exists Tx, (flip_freqs o Sfs), hit. split.
  { unfold ssq_stft. rewrite Hfs. cbn [bind]. rewrite Hfr. cbn [bind]. fold a'. rewrite ES. cbn [bind].
    rewrite HrS. cbv zeta. change (a_f32 a') with (a_f32 a). rewrite <- Hg. fold Sfs. fold o. fold wo. fold dd.
    unfold ssqueeze.
    fold (args_bad o wo dd). assert (Ebad : args_bad o wo dd = false).
    { unfold wo, dd. destruct (s_get_w s); [|reflexivity]. exact (phase_not_negative o g Sx dSx). }
    rewrite Ebad.
    assert (Evs : ssq_freqs_of o (ncols Sx) = Ok (None, Sfs, false)) by reflexivity.
    assert (Esq : squeeze_input (o_sq o) (nrows Sx) Sx = Sx) by (cbn [o o_sq]; rewrite Hsq; reflexivity).
    rewrite Evs. cbn [bind]. rewrite Esq, ET. reflexivity. }
  split; [congruence|]. split; [exact HcT|]. split; [rewrite flip_freqs_length; exact Hsl|].
  split.
  { intros m Hm. rewrite flip_freqs_rows by discriminate. cbn [o o_flip]. unfold rowof. fold p. destruct (s_flip s).
    - rewrite nth_rev_lt by lia. replace (length Sfs - 1 - (p - m))%nat with m by lia. rewrite HS by lia. unfold Rdiv. ring.
    - rewrite HS by lia. unfold Rdiv. ring. }
  split; [intros k h q q' H1 H2; unfold hit in *; lia|]. split.
  - intros k h m q Hk Hm Hq HF. set (F := phase_stft_pt (nth k Sfs 0) (el Sx k h) (el dSx k h)) in *. assert (HF0 : 0 <= F) by apply Rabs_pos.
    assert (Hdp : 0 < rate / INR n) by lra. apply Rabs_def2 in HF.
    assert (Hr : reach_lin Sfs F).
    { unfold reach_lin. fold c. rewrite (HS 0%nat) by lia. cbn [INR]. rewrite Rmult_0_l, Rminus_0_r, Hc.
      apply Rle_trans with ((INR m + 1) * (rate / INR n)); [lra|]. rewrite <- S_INR.
      apply Rmult_le_compat; [apply pos_INR|lra| |apply Rmax_l]. rewrite INR_IZR_INZ. apply IZR_le. lia. }
    destruct (Hnear F Hr) as (H1 & H2 & H3 & H4). rewrite Hsl in *.
    assert (Hkm : Z.to_nat (bin_onfly (Z.of_nat (p + 1) - 1) gd F) = m).
    { specialize (H4 m ltac:(lia)). cbv beta iota in H4. rewrite !HS in H4 by lia.
      set (j := Z.to_nat (bin_onfly (Z.of_nat (p + 1) - 1) gd F)) in *.
      assert (K1 : Rabs (F - INR m * (rate / INR n)) < rate / INR n / 2) by (apply Rabs_def1; lra).
      assert (K2 : Rabs (F - INR j * (rate / INR n)) < rate / INR n / 2) by lra. apply Rabs_def2 in K2.
      destruct (Nat.lt_trichotomy j m) as [L|[E|L]]; [|exact E|].
      - assert (L' : INR j + 1 <= INR m) by (rewrite <- S_INR; apply le_INR; lia). assert ((INR j + 1) * (rate / INR n) <= INR m * (rate / INR n)) by (apply Rmult_le_compat_r; lra). lra.
      - assert (L' : INR m + 1 <= INR j) by (rewrite <- S_INR; apply le_INR; lia). assert ((INR m + 1) * (rate / INR n) <= INR j * (rate / INR n)) by (apply Rmult_le_compat_r; lra). lra. }
    unfold hit. fold F. unfold flip_row, rowof. fold p. destruct (s_get_w s); [|rewrite H2]; destruct (s_flip s); lia.
  - intros h q Hh Hq. rewrite Hel by lia. clear Hel. rewrite HrS. cbn [o o_flip].
    apply Csum_ext. intros k Hk.
    assert (Ek : nth k (repeat c (p + 1)) 0 = rate / INR n).
    { rewrite (nth_indep _ 0 c) by (rewrite repeat_length; exact Hk). rewrite nth_repeat. exact Hc. }
    rewrite Ek. unfold hit, freq_at, wo, dd, kept. destruct (s_get_w s) eqn:Egw.
    + cbn [phase_stft el]. destruct (Rlt_dec (Cabs (el Sx k h)) g) as [Hlt|Hge]; [rewrite andb_false_r; reflexivity|].
      rewrite andb_true_r. destruct (_ =? _)%Z; [ring|reflexivity].
    + cbn [o o_gamma o_Sfs]. destruct (Rlt_dec g (Cabs (el Sx k h))) as [Hlt|Hge]; [|rewrite andb_false_r; reflexivity].
      rewrite andb_true_r. destruct (_ =? _)%Z; [ring|reflexivity].
Qed.
End Near.

(** ** the derivative coefficients under an error of the signal *)
Lemma stft_dsup x y a n w X dX Y dY e : usable x a n w -> length y = length x -> 0 <= e ->
  (forall i, (i < length x)%nat -> Rabs (nth i x 0 - nth i y 0) <= e) ->
  stft x a = Ok (X, dX) -> stft y a = Ok (Y, dY) ->
  forall k h, (h < ncols X)%nat -> Cabs (Csub (el dX k h) (el dY k h)) <= e * Rsum n (fun u => Rabs (nth u (dwindow a w) 0)).
Proof.
  intros Hu Hl He Hd EX EY k h Hh.
  destruct (stft_linear x y a n w 1 (-1) Hu Hl) as (X' & dX' & Y' & dY' & Z & dZ & E1 & E2 & E3 & (_ & _ & _ & C4 & _) & (_ & _ & _ & D4 & D5)).
  rewrite EX in E1. injection E1 as <- <-. rewrite EY in E2. injection E2 as <- <-.
  destruct (stft_cells x a n w Hu) as (xp & X' & dX' & _ & _ & _ & E1 & _ & _ & Cd & _). rewrite EX in E1. injection E1 as <- <-.
  assert (Hz : usable (lin 1 (-1) x y) a n w) by (apply (usable_len x); [apply lin_length; auto|exact Hu]).
  destruct (stft_cells _ a n w Hz) as (zp & Z' & dZ' & (n_up & n2 & Ep) & _ & _ & E4 & _ & _ & _ & _ & _ & V).
  rewrite E3 in E4. injection E4 as <- <-. destruct (V k h ltac:(lia)) as (_ & Ev).
  replace (Csub (el dX k h) (el dY k h)) with (el dZ k h) by (rewrite (D5 k h ltac:(lia)); apply C_eq; unfold Csub, Copp, Cadd, Cmul, RtoC; cbn [fst snd]; ring).
  rewrite Ev. assert (Hw : length w = n) by (destruct Hu as (_ & _ & _ & _ & _ & K & _); exact K).
  assert (Hdw : length (dwindow a w) = n) by (unfold dwindow, diff_window; destruct (a_modulated a); [rewrite map_length|]; rewrite tab_length; exact Hw).
  apply cell_bound; [exact He| |exact Hdw]. refine (padsignal_all _ _ _ _ _ _ _ _ _ _ _ Ep); [rewrite Rabs_R0; exact He|].
  apply Forall_forall. intros v Hv. unfold lin in Hv. apply in_map_iff in Hv. destruct Hv as ([p q] & <- & Hpq). cbn [fst snd].
  apply (In_nth _ _ (0, 0)) in Hpq. destruct Hpq as (i & Hi & E). rewrite combine_length in Hi. rewrite combine_nth in E by auto. injection E as <- <-.
  replace (1 * nth i x 0 + -1 * nth i y 0) with (nth i x 0 - nth i y 0) by ring. apply Hd. lia.
Qed.

(** noise small enough for one coefficient of one tone: [c] is its size without noise, [d] its distance from the tone's bin *)
Definition dominates (rate : R) (n : nat) (w : list R) (e c : R) (d : Z) : Prop :=
  let noise := e * Rsum n (fun u => Rabs (nth u w 0)) in
  noise < c /\ e * (rate * Rsum n (fun u => Rabs (nth u (diff_window w) 0))) + 2 * PI * (rate / INR n) * Rabs (IZR d) * noise < PI * (rate / INR n) * (c - noise).

Section Chord.
Variables (ord : order) (M : nat) (A phi : nat -> R) (m : nat -> nat) (y : list R) (a : stft_args) (fs : option R) (t : option (list R))
  (s : ssq_stft_opts) (rate : R) (n : nat) (w : list R) (b : nat) (g e : R).
Let x := bin_chord M A phi m n (length y).
Let hop := Z.to_nat (a_hop a).
Let a' := SA rate (a_window a) (a_n_fft a) (a_win_len a) (a_hop a) (a_modulated a) (a_padtype a) (a_f32 a).
Let Sfs := make_Sfs (n / 2 + 1) rate.
Let row (r : nat) := (if s_flip s then n / 2 - m r else m r)%nat.
Let noise := e * Rsum n (fun u => Rabs (nth u w 0)).
Hypothesis Ho : valid_order ord.
Hypothesis Hy : noisy_chord M A phi m n e y.
Hypothesis U : usable y a n w.
Hypothesis Hfs : process_fs_and_t fs t (length y) = Ok rate.
Hypothesis Hd : EPS64 <= rate / INR n.
Hypothesis Hn : (2 <= n)%nat.
Hypothesis He : Nat.even n = true.
Hypothesis Hn62 : (Z.of_nat n < 2 ^ 62)%Z.
Hypothesis Hmod : a_modulated a = true.
Hypothesis Hb : narrow n w b.
Hypothesis Hap : bins_apart M m n b.
Hypothesis Hfr : s_freqs s = None.
Hypothesis Hsq : s_sq s = SqSum.
Hypothesis Hg : g = match s_gamma s with Some g => g | None => 10 * (if a_f32 a then EPS32 else EPS64) end.
Hypothesis He0 : 0 <= e.
Hypothesis Hdom : forall r d, (r < M)%nat -> (Z.abs d <= Z.of_nat b)%Z -> wspec n w d <> C0 ->
  let c := Rabs (A r) / 2 * Cabs (wspec n w d) in dominates rate n w e c d /\ g < c - noise.

Lemma rate_pos : 0 < rate / INR n /\ 0 < rate.
Proof.
  pose proof EPS64_pos. assert (0 < INR n) by (apply lt_0_INR; lia). split; [lra|]. replace rate with (rate / INR n * INR n) by (field; lra). apply Rmult_lt_0_compat; lra.
Qed.
Lemma part_near r k h : (r < M)%nat -> (k <= n / 2)%nat -> part A phi m a n w r k h <> C0 ->
  (Z.abs (Z.of_nat k - Z.of_nat (m r)) <= Z.of_nat b)%Z /\ wspec n w (Z.of_nat k - Z.of_nat (m r)) <> C0.
Proof.
  intros Hr Hk Hp. destruct Hap as [Hm _]. destruct (Hm r Hr). assert (Hw : wspec n w (Z.of_nat k - Z.of_nat (m r)) <> C0) by (intros E; apply Hp; unfold part; rewrite E; ring).
  split; [|exact Hw]. destruct (Z.le_gt_cases (Z.abs (Z.of_nat k - Z.of_nat (m r))) (Z.of_nat b)) as [|G]; [assumption|]. exfalso. apply Hw.
  apply (narrow_far x a n w b Hn Hb); lia.
Qed.
(** at most one tone reaches a row *)
Lemma one_tone r r' k h : (r < M)%nat -> (r' < M)%nat -> (k <= n / 2)%nat -> part A phi m a n w r k h <> C0 -> r' <> r -> part A phi m a n w r' k h = C0.
Proof.
  intros Hr Hr' Hk Hp Hne. destruct (part_near r k h Hr Hk Hp) as [N1 _].
  destruct (Req_EM_T (Cnorm2 (part A phi m a n w r' k h)) 0) as [E0|E0]; [apply Cnorm2_0, E0|].
  assert (Hp' : part A phi m a n w r' k h <> C0) by (intros E; apply E0; rewrite E; unfold Cnorm2, C0; cbn; ring).
  destruct (part_near r' k h Hr' Hk Hp') as [N2 _]. destruct Hap as [_ Hs]. specialize (Hs r r' Hr Hr' ltac:(congruence)). lia.
Qed.
Lemma tone_sum r : (r < M)%nat -> Csum (n / 2 + 1) (fun k => wspec n w (Z.of_nat k - Z.of_nat (m r))) = RtoC (INR n * nth (n / 2) w 0).
Proof.
  intros Hr. destruct Hap as [Hm _]. destruct (Hm r Hr) as [H1 H2].
  rewrite <- (wspec_sum n ltac:(lia) w (Z.of_nat (m r))).
  replace (Csum n (fun k => wspec n w (Z.of_nat k - Z.of_nat (m r)))) with
    (Csum (n / 2 + 1 + (n - (n / 2 + 1))) (fun k => wspec n w (Z.of_nat k - Z.of_nat (m r)))) by (f_equal; lia).
  rewrite (Csum_app (n / 2 + 1) (n - (n / 2 + 1))). rewrite (Csum_0 (n - (n / 2 + 1))); [ring|].
  intros i Hi. rewrite <- Nat2Z.inj_sub by lia. apply Hb. lia.
Qed.
Lemma Csum_diff (f f' : nat -> C) N : Csub (Csum N f) (Csum N f') = Csum N (fun k => Csub (f k) (f' k)).
Proof. induction N as [|N IH]; cbn [Csum]; [ring|]. rewrite <- IH. ring. Qed.
Lemma Csum_dec (f : nat -> C) N : (exists r, (r < N)%nat /\ f r <> C0) \/ (forall r, (r < N)%nat -> f r = C0).
Proof.
  induction N as [|N IH]; [right; lia|]. destruct IH as [(r & Hr & E)|IH]; [left; exists r; split; [lia|exact E]|].
  destruct (Req_EM_T (Cnorm2 (f N)) 0) as [E0|E0].
  - right. intros r Hr. destruct (Nat.eq_dec r N) as [->|]; [apply Cnorm2_0, E0|apply IH; lia].
  - left. exists N. split; [lia|]. intros E. apply E0. rewrite E. unfold Cnorm2, C0. cbn. ring.
Qed.

Theorem noisy_ssq : a_padtype a = PWrap -> (length y mod n = 0)%nat -> exists Tx Sx f, ssq_stft ord y a fs t s = Ok (Tx, Sx, f, Sfs) /\
  nrows Tx = (n / 2 + 1)%nat /\ Z.of_nat (ncols Tx) = ((Z.of_nat (length y) - 1) / a_hop a + 1)%Z /\
  (forall r, (r < M)%nat -> nth (row r) f 0 = INR (m r) * rate / INR n) /\
  forall h, (h < ncols Tx)%nat ->
    (forall r, (r < M)%nat -> Cabs (Csub (el Tx (row r) h) (Cmul (RtoC (rate * nth (n / 2) w 0 * (A r / 2))) (bin_phase (phi r) (m r) n (hop * h)))) <= rate / INR n * INR (n / 2 + 1) * noise) /\
    (forall q, (q <= n / 2)%nat -> (forall r, (r < M)%nat -> q <> row r) -> Cabs (el Tx q h) <= rate / INR n * INR (n / 2 + 1) * noise).
Proof.
  intros Hwrap Hmult. destruct rate_pos as [Hd0 Hr0]. pose proof PI_RGT_0 as HP. assert (Hn0 : 0 < INR n) by (apply lt_0_INR; lia).
  assert (Hl : length x = length y) by apply tab_length. assert (U' : usable y a' n w) by exact U. pose proof (usable_len y x a' n w Hl U') as Ux.
  destruct (chord_stft M A phi m x a' n w b Ux Hn) as (X & dX & EX & RX & CX & V); [rewrite Hl; reflexivity|exact Hmod|exact Hb|apply Hap|].
  destruct (stft_cells y a' n w U') as (yp & Y & dY & _ & _ & _ & EY & RY & _ & _ & CY & _).
  change (part A phi m a' n w) with (part A phi m a n w) in V. change (a_fs a') with rate in V.
  assert (Hyx : forall i, (i < length y)%nat -> Rabs (nth i y 0 - nth i x 0) <= e) by (intros i Hi; unfold x, bin_chord; rewrite nth_tab by exact Hi; apply Hy, Hi).
  assert (P : forall h k, (h < ncols Y)%nat -> (k <= n / 2)%nat -> Cabs (Csub (el Y k h) (Csum M (fun r => part A phi m a n w r k h))) <= noise /\
     Cabs (Csub (el dY k h) (Csum M (fun r => Cmul (0, 2 * PI * (rate * (INR k - INR (m r)) / INR n)) (part A phi m a n w r k h)))) <= e * (rate * Rsum n (fun u => Rabs (nth u (diff_window w) 0)))).
  { intros h k Hh Hk. destruct (V h k) as [V1 V2]; [rewrite Hl in CX; lia|right; rewrite Hl; split; assumption|exact Hk|]. rewrite <- V1, <- V2. split.
    - apply (stft_sup y x a' n w Y dY X dX e U' Hl He0 Hyx EY EX); exact Hh.
    - eapply Rle_trans; [apply (stft_dsup y x a' n w Y dY X dX e U' Hl He0 Hyx EY EX); exact Hh|]. right. f_equal. rewrite <- Rsum_scal. apply Rsum_ext. intros u Hu.
      unfold dwindow. change (a_modulated a') with (a_modulated a). rewrite Hmod. change (a_fs a') with rate.
      assert (Hu2 : (u < length (diff_window w))%nat) by (unfold diff_window; rewrite tab_length; destruct U as (_ & _ & _ & _ & _ & K & _); lia).
      rewrite (nth_indep _ 0 (0 * rate)) by (rewrite map_length; exact Hu2). rewrite (map_nth (fun v => v * rate)), Rabs_mult, (Rabs_right rate) by lra. ring. }
  destruct (near_bins ord y a fs t s rate n g Y dY) as (Tx & f & hit & ET & RT & CT & Lf & Hf & _ & Hhit & VT); try assumption.
  exists Tx, Y, f. split; [exact ET|]. split; [exact RT|]. split; [rewrite CT; exact CY|].
  destruct Hap as [Hm Hs]. split; [intros r Hr; destruct (Hm r Hr); apply Hf; lia|].
  intros h Hh. rewrite CT in Hh.
  assert (Hnz : 0 <= noise) by (unfold noise; apply Rmult_le_pos; [exact He0|]; apply Rsum_nonneg; intros; apply Rabs_pos).
  assert (Main : forall q, (q <= n / 2)%nat -> Cabs (Csub (el Tx q h) (Csum (n / 2 + 1) (fun k => Cmul (RtoC (rate / INR n)) (Csum M (fun r => if (q =? row r)%nat then part A phi m a n w r k h else C0))))) <= rate / INR n * INR (n / 2 + 1) * noise).
  { intros q Hq. rewrite (VT h q Hh Hq).
    replace (Csub _ _) with (Csum (n / 2 + 1) (fun k => Csub (if hit k h q && kept (s_get_w s) g (Cabs (el Y k h)) then Cmul (RtoC (rate / INR n)) (el Y k h) else C0)
      (Cmul (RtoC (rate / INR n)) (Csum M (fun r => if (q =? row r)%nat then part A phi m a n w r k h else C0))))).
    2:{ symmetry. apply Csum_diff. }
    eapply Rle_trans; [apply Cabs_Csum|]. replace (rate / INR n * INR (n / 2 + 1) * noise) with (Rsum (n / 2 + 1) (fun _ => rate / INR n * noise)) by (rewrite Rsum_const; ring).
    apply Rsum_le. intros k Hk. destruct (P h k Hh ltac:(lia)) as [P1 P2].
    destruct (Csum_dec (fun r => part A phi m a n w r k h) M) as [(r & Hr & Hp)|Hz].
    - destruct (part_near r k h Hr ltac:(lia) Hp) as [N1 N2]. destruct (Hdom r _ Hr N1 N2) as [[D1 D2] D3]. destruct (Hm r Hr) as [M1 M2].
      set (c := Rabs (A r) / 2 * Cabs (wspec n w (Z.of_nat k - Z.of_nat (m r)))) in *. fold noise in D1, D2.
      assert (Ec : Cabs (part A phi m a n w r k h) = c) by (unfold part, c; rewrite !Cabs_mul, bin_phase_abs, Cabs_RtoC; unfold Rdiv; rewrite Rabs_mult, (Rabs_right (/ 2)) by lra; ring).
      assert (Os : forall r', (r' < M)%nat -> r' <> r -> part A phi m a n w r' k h = C0) by (intros r' Hr' Hne; apply (one_tone r r' k h); try assumption; lia).
      rewrite (Csum_single M _ r Hr) in P1 by exact Os.
      rewrite (Csum_single M _ r Hr) in P2 by (intros r' Hr' Hne; rewrite Os by assumption; ring).
      rewrite (Csum_single M _ r Hr) by (intros r' Hr' Hne; rewrite Os by assumption; destruct (_ =? _)%nat; reflexivity).
      destruct (phase_noise _ _ _ _ _ _ P1 P2) as [W1 W2]; [rewrite Ec; exact D1|]. rewrite Ec in W2.
      assert (Kp : kept (s_get_w s) g (Cabs (el Y k h)) = true).
      { pose proof (Cabs_near _ _ _ P1) as [K1 _]. rewrite Ec in K1. unfold kept. destruct (s_get_w s).
        - destruct (Rlt_dec (Cabs (el Y k h)) g); [lra|reflexivity].
        - destruct (Rlt_dec g (Cabs (el Y k h))); [reflexivity|lra]. }
      assert (Hh' : hit k h q = (q =? row r)%nat).
      { apply (Hhit k h (m r) q); [lia|lia|exact Hq|]. unfold phase_stft_pt. rewrite make_Sfs_even by (try exact He; lia).
        set (pr := phase_ratio (el Y k h) (el dY k h)) in *.
        assert (B : Rabs (pr - rate * (INR k - INR (m r)) / INR n) < rate / INR n / 2).
        { eapply Rle_lt_trans; [exact W2|]. apply (Rmult_lt_reg_r (2 * PI * (c - noise))); [apply Rmult_lt_0_compat; lra|].
          match goal with |- ?p / ?q * ?q < _ => replace (p / q * q) with p by (field; lra) end.
          replace (rate / INR n / 2 * (2 * PI * (c - noise))) with (PI * (rate / INR n) * (c - noise)) by (field; lra). eapply Rle_lt_trans; [|exact D2]. right. f_equal.
          replace (rate * (INR k - INR (m r)) / INR n) with (rate / INR n * IZR (Z.of_nat k - Z.of_nat (m r))) by (rewrite minus_IZR, <- !INR_IZR_INZ; field; lra).
          rewrite Rabs_mult, (Rabs_right (rate / INR n)) by lra. ring. }
        assert (B2 : INR k * (rate / INR n) - pr - INR (m r) * (rate / INR n) = - (pr - rate * (INR k - INR (m r)) / INR n)) by (field; lra).
        apply Rabs_def2 in B. assert (Hm1 : rate / INR n <= INR (m r) * (rate / INR n)).
        { replace (rate / INR n) with (1 * (rate / INR n)) at 1 by ring. apply Rmult_le_compat_r; [lra|]. change 1 with (INR 1). apply le_INR. lia. }
        rewrite (Rabs_right (INR k * (rate / INR n) - pr)) by lra. apply Rabs_def1; lra. }
      rewrite Hh', Kp, andb_true_r. destruct (q =? row r)%nat.
      + replace (Csub (Cmul (RtoC (rate / INR n)) (el Y k h)) (Cmul (RtoC (rate / INR n)) (part A phi m a n w r k h))) with (Cmul (RtoC (rate / INR n)) (Csub (el Y k h) (part A phi m a n w r k h))) by ring.
        rewrite Cabs_mul, Cabs_RtoC, (Rabs_right (rate / INR n)) by lra. apply Rmult_le_compat_l; [lra|exact P1].
      + replace (Csub C0 (Cmul (RtoC (rate / INR n)) C0)) with C0 by ring. rewrite Cabs_0. apply Rmult_le_pos; lra.
    - rewrite (Csum_0 M) in P1 by exact Hz. rewrite (Csum_0 M) by (intros r Hr; rewrite Hz by exact Hr; destruct (_ =? _)%nat; reflexivity).
      replace (Csub (el Y k h) C0) with (el Y k h) in P1 by ring. destruct (_ && _).
      + replace (Csub (Cmul (RtoC (rate / INR n)) (el Y k h)) (Cmul (RtoC (rate / INR n)) C0)) with (Cmul (RtoC (rate / INR n)) (el Y k h)) by ring.
        rewrite Cabs_mul, Cabs_RtoC, (Rabs_right (rate / INR n)) by lra. apply Rmult_le_compat_l; [lra|exact P1].
      + replace (Csub C0 (Cmul (RtoC (rate / INR n)) C0)) with C0 by ring. rewrite Cabs_0. apply Rmult_le_pos; lra. }
  split.
  - intros r Hr. destruct (Hm r Hr) as [M1 M2]. assert (Hrow : (row r <= n / 2)%nat) by (unfold row; destruct (s_flip s); lia). specialize (Main (row r) Hrow).
    match type of Main with Cabs (Csub _ ?v) <= _ => assert (Ev : v = Cmul (RtoC (rate * nth (n / 2) w 0 * (A r / 2))) (bin_phase (phi r) (m r) n (hop * h))) end; [|rewrite Ev in Main; exact Main].
    rewrite (Csum_ext _ _ (fun k => Cmul (Cmul (RtoC (rate / INR n * (A r / 2))) (bin_phase (phi r) (m r) n (hop * h))) (wspec n w (Z.of_nat k - Z.of_nat (m r))))).
    + rewrite Csum_scal, tone_sum by exact Hr. apply C_eq; unfold Cmul, RtoC; cbn [fst snd]; field; lra.
    + intros k Hk. rewrite (Csum_single M _ r Hr).
      * rewrite Nat.eqb_refl. unfold part. fold hop. rewrite RtoC_mul. ring.
      * intros r' Hr' Hne. destruct (Hm r' Hr'). assert (Er : (row r =? row r')%nat = false) by (specialize (Hs r r' Hr Hr' ltac:(congruence)); unfold row; destruct (s_flip s); lia). rewrite Er. reflexivity.
  - intros q Hq Hne. specialize (Main q Hq). rewrite (Csum_0 (n / 2 + 1)) in Main.
    + replace (Csub (el Tx q h) C0) with (el Tx q h) in Main by ring. exact Main.
    + intros k Hk. rewrite Csum_0; [ring|]. intros r Hr. specialize (Hne r Hr). destruct (Nat.eqb_spec q (row r)); [contradiction|reflexivity].
Qed.
End Chord.
