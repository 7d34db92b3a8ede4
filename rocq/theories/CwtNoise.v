(** [ssq_cwt] of a tone in noise of bounded energy: rows the tone dominates still meet at the tone's frequency. *)
From Coq Require Import Reals Lra Lia List ZifyBool ZifyNat.
Import ListNotations.
From Verif Require SsqRoundTrip AdmissAcc IssqProofs.
From Verif Require Import Py Round Parallel Cplx CplxProofs Padding PaddingProofs Buffer Freqs Squeeze
  SqueezeProofs SqueezeThms Scales Ssqueeze SsqueezeProofs Cwt CwtProofs CwtThms CwtThms2 CwtTone
  SsqCwt SsqCwtProofs SsqCwtInv ShiftProofs RidgePenalty
  SsqThms ToneThms Separate Reassign ChordSqueeze CwtEnergy NoiseRidge NoiseSsq.
Local Open Scope R_scope.
Ltac Zify.zify_post_hook ::= Z.div_mod_to_equations.

(** root of the energy of a signal, and of the difference of two signals *)
Definition norm2 (y : list R) : R := sqrt (Rsum (length y) (fun m => nth m y 0 ^ 2)).
Definition dist2 (y x : list R) : R := sqrt (Rsum (length y) (fun m => (nth m y 0 - nth m x 0) ^ 2)).

Lemma cell_row W i j B : (j < ncols W)%nat -> 0 <= B -> row_energy W i <= B ^ 2 -> Cabs (el W i j) <= B.
Proof.
  intros Hj HB H. assert (T : Cnorm2 (el W i j) <= row_energy W i).
  { unfold row_energy. apply (Rsum_term (ncols W) (fun j => Cnorm2 (el W i j)) j); [intros; apply Cnorm2_nonneg|exact Hj]. }
  rewrite <- Cabs_sqr in T. pose proof (Cabs_nonneg (el W i j)). nra.
Qed.

(** ** no coefficient exceeds the signal's norm times the wavelet's peak *)
Theorem cwt_cells py inst f a x s W sc D s' fs P : real_valued f -> uncached inst a s -> a_pad a = None -> a_l1 a = true ->
  cwt py inst f a x s = (Ok (W, sc, Some D), s') -> process_fs_and_t (a_fs a) (a_t a) (length x) = Ok fs -> 0 < fs ->
  0 <= P -> (forall w, Cabs (wf f w) <= P) ->
  forall i j, (i < length sc)%nat -> (j < length x)%nat ->
    Cabs (el W i j) <= P * norm2 x /\ Cabs (el D i j) <= PI * fs * (P * norm2 x).
Proof.
  intros Hr Hu Hpad Hl1 E Hfs H0 HP Hf i j Hi Hj.
  assert (Hs : a_l1 a = false -> forall i, (i < length sc)%nat -> 0 <= nth i sc 0) by congruence.
  assert (Xn : pad_input None x = Ok (x, 0%Z)) by (unfold pad_input; destruct x; [cbn in Hj; lia|reflexivity]).
  destruct (cwt_bounded _ _ _ _ _ _ _ _ _ _ P Hr Hu E Hs HP Hf) as (xp & n1 & Hp & B1). rewrite Hpad, Xn in Hp. injection Hp as <- <-.
  destruct (cwt_energy _ _ _ _ _ _ _ _ _ _ Hr Hu E (or_introl Hpad) Hs) as (fs' & xp & n1 & Hfs' & Hp & Hc & B2). rewrite Hpad, Xn in Hp. injection Hp as <- <-.
  rewrite Hfs in Hfs'. injection Hfs' as <-. specialize (B1 i Hi). destruct (B2 i Hi) as (_ & B3). rewrite Hl1 in B1, B3. cbn [norm_gain] in B1, B3.
  destruct (deriv_cols _ _ _ _ _ _ _ _ _ _ E) as (Hd & _). set (n := length x) in *. assert (Hn : (1 <= n)%nat) by lia.
  set (en := Rsum n (fun m => nth m x 0 ^ 2)) in *. assert (He : 0 <= en) by (apply Rsum_nonneg; intros; apply pow2_ge_0).
  assert (Hsq : norm2 x ^ 2 = en) by (unfold norm2; fold n; fold en; apply pow2_sqrt, He). assert (HN : 0 <= norm2 x) by apply sqrt_pos.
  pose proof PI_RGT_0 as HPI. assert (HPN : 0 <= P * norm2 x) by (apply Rmult_le_pos; assumption). split.
  - apply cell_row; [lia|exact HPN|]. rewrite Rpow_mult_distr, Hsq. lra.
  - apply cell_row; [lia|apply Rmult_le_pos; [nra|exact HPN]|]. rewrite B3. rewrite !Rpow_mult_distr, Hsq.
    pose proof (parseval n Hn (fun m => RtoC (nth m x 0))) as Pv. assert (Hpn : 0 < INR n) by (apply lt_0_INR; lia).
    assert (En : en = / INR n * Rsum n (fun k => Cnorm2 (dft n (fun m => RtoC (nth m x 0)) k))).
    { rewrite Pv. unfold en. rewrite (Rsum_ext n (fun m => nth m x 0 ^ 2) (fun m => Cnorm2 (RtoC (nth m x 0)))) by (intros m _; unfold Cnorm2, RtoC; cbn [fst snd]; ring). field. lra. }
    rewrite En. unfold Rdiv. rewrite Rmult_1_l.
    match goal with |- ?a * ?u <= ?b * (?c * (?d * ?e)) => replace (b * (c * (d * e))) with (a * (b * c * e)) by ring end.
    apply Rmult_le_compat_l; [left; apply Rinv_0_lt_compat; exact Hpn|]. rewrite <- Rsum_scal. apply Rsum_le. intros k Hk.
    destruct (xifn_dft n k Hk) as (Hxi & _). set (xi := nth k (xifn 1 n) 0) in *.
    assert (Hpp : Cnorm2 (psih_val f (nth i sc 0) n false k) <= P ^ 2).
    { assert (Hw2 : forall w, Cnorm2 (wf f w) <= P ^ 2) by (intros w; rewrite <- Cabs_sqr; specialize (Hf w); pose proof (Cabs_nonneg (wf f w)); nra).
      unfold psih_val. fold xi. destruct (negb false && _ && _); [|apply Hw2]. rewrite Cnorm2_mul. unfold Cnorm2 at 1, RtoC. cbn [fst snd].
      specialize (Hw2 (nth i sc 0 * xi)). pose proof (Cnorm2_nonneg (wf f (nth i sc 0 * xi))). nra. }
    set (X := Cnorm2 (dft n (fun m => RtoC (nth m x 0)) k)). assert (0 <= X) by apply Cnorm2_nonneg.
    pose proof (Cnorm2_nonneg (psih_val f (nth i sc 0) n false k)) as Q0. set (Q := Cnorm2 (psih_val _ _ _ _ _)) in *.
    assert (Hx2 : (xi * fs) ^ 2 <= PI ^ 2 * fs ^ 2). { rewrite Rpow_mult_distr. apply Rmult_le_compat_r; [apply pow2_ge_0|]. nra. }
    replace (PI ^ 2 * fs ^ 2 * P ^ 2 * X) with (P ^ 2 * X * (PI ^ 2 * fs ^ 2)) by ring.
    apply Rmult_le_compat; [apply Rmult_le_pos; assumption|apply pow2_ge_0|apply Rmult_le_compat_r; assumption|exact Hx2].
Qed.

(** ** the transforms of two signals differ by at most the distance of the signals times the peak *)
Theorem cwt_near py inst f a y x s W sc D s' fs P : real_valued f -> uncached inst a s -> a_pad a = None -> a_l1 a = true ->
  length x = length y -> cwt py inst f a y s = (Ok (W, sc, Some D), s') -> process_fs_and_t (a_fs a) (a_t a) (length y) = Ok fs -> 0 < fs ->
  0 <= P -> (forall w, Cabs (wf f w) <= P) ->
  exists V G, cwt py inst f a x s = (Ok (V, sc, Some G), s') /\
  forall i j, (i < length sc)%nat -> (j < length y)%nat ->
    Cabs (Csub (el W i j) (el V i j)) <= P * dist2 y x /\ Cabs (Csub (el D i j) (el G i j)) <= PI * fs * (P * dist2 y x).
Proof.
  intros Hr Hu Hpad Hl1 HL E Hfs H0 HP Hf.
  destruct (cwt_linear py inst f a s 1 (-1) y x W sc (Some D) s' (eq_sym HL) E) as (V & dV & Z & dZ & EV & EZ & L1 & L2).
  destruct dV as [G|], dZ as [dZ|]; cbn [lincomb_opt] in L2; try contradiction. exists V, G. split; [exact EV|].
  intros i j Hi Hj. pose proof (lin_length 1 (-1) y x (eq_sym HL)) as Lz.
  assert (Nz : norm2 (lin 1 (-1) y x) = dist2 y x).
  { unfold norm2, dist2. rewrite Lz. f_equal. apply Rsum_ext. intros m _. rewrite nth_lin by (symmetry; exact HL). f_equal. ring. }
  destruct (cwt_cells _ _ _ _ _ _ _ _ _ _ fs P Hr Hu Hpad Hl1 EZ ltac:(rewrite Lz; exact Hfs) H0 HP Hf i j Hi ltac:(lia)) as (A1 & A2).
  rewrite Nz in A1, A2. destruct L1 as (_ & _ & _ & _ & L1). destruct L2 as (_ & _ & _ & _ & L2). rewrite L1 in A1. rewrite L2 in A2. split.
  - replace (Csub (el W i j) (el V i j)) with (Cadd (Cmul (RtoC 1) (el W i j)) (Cmul (RtoC (-1)) (el V i j))) by (apply C_eq; unfold Csub, Copp, Cadd, Cmul, RtoC; cbn [fst snd]; ring). exact A1.
  - replace (Csub (el D i j) (el G i j)) with (Cadd (Cmul (RtoC 1) (el D i j)) (Cmul (RtoC (-1)) (el G i j))) by (apply C_eq; unfold Csub, Copp, Cadd, Cmul, RtoC; cbn [fst snd]; ring). exact A2.
Qed.

(** ** where the tone is louder than the noise *)
(** the tone's size in row [i] *)
Definition size (f : wfun) (A : R) (s : R) (k n : nat) : R := Rabs (A / 2 * response f s k n).
Lemma abs_analytic c phi k n j : Cabs (Cmul (RtoC c) (analytic phi k n j)) = Rabs c.
Proof. apply Cabs_tone. Qed.

Theorem cwt_tone_noise py inst f a y A phi k n s W sc D s' fs P : real_valued f -> uncached inst a s -> a_pad a = None -> a_l1 a = true ->
  (0 < k)%nat -> (2 * k < n)%nat -> length y = n -> one_sided f sc k n ->
  cwt py inst f a y s = (Ok (W, sc, Some D), s') -> process_fs_and_t (a_fs a) (a_t a) n = Ok fs -> 0 < fs ->
  0 <= P -> (forall w, Cabs (wf f w) <= P) -> let nu := P * dist2 y (tone A phi k n) in
  forall i j, (i < length sc)%nat -> (j < n)%nat ->
    Cabs (Csub (el W i j) (Cmul (RtoC (A / 2 * response f (nth i sc 0) k n)) (analytic phi k n j))) <= nu /\
    (nu < size f A (nth i sc 0) k n -> Rabs (phase_cwt_pt (el W i j) (el D i j) - tone_freq fs k n) <= fs * nu / (size f A (nth i sc 0) k n - nu)).
Proof.
  intros Hr Hu Hpad Hl1 Hk H2 HL H1 E Hfs H0 HP Hf nu i j Hi Hj.
  destruct (cwt_near py inst f a y (tone A phi k n) s W sc D s' fs P Hr Hu Hpad Hl1 ltac:(rewrite tone_length; lia) E ltac:(rewrite HL; exact Hfs) H0 HP Hf) as (V & G & EV & B).
  destruct (B i j Hi ltac:(lia)) as (B1 & B2). fold nu in B1, B2.
  destruct (cwt_rows _ _ _ _ _ _ _ _ _ _ Hr Hu EV) as (fs' & xp & n1 & Hfs' & Hp & _ & HV & HG). rewrite tone_length, Hfs in Hfs'. injection Hfs' as <-.
  rewrite Hpad in Hp. assert (xp = tone A phi k n /\ n1 = 0%Z) as (-> & ->).
  { unfold pad_input in Hp. destruct (tone A phi k n); [discriminate|]. injection Hp as <- <-. auto. }
  assert (Fin : forall c sv g, finish_cell a c sv g j = g j). { intros c sv g. unfold finish_cell. rewrite Hpad, Hl1, Bool.andb_false_r. reflexivity. }
  pose proof (HV i j) as V1. rewrite Fin, row_tone in V1 by (try assumption; apply H1; exact Hi). pose proof (HG i j) as G1. rewrite Fin, drow_tone, row_tone in G1 by (try assumption; apply H1; exact Hi).
  rewrite V1 in B1. split; [exact B1|]. intros Hnu. set (c := A / 2 * response f (nth i sc 0) k n) in *. set (v := Cmul (RtoC c) (analytic phi k n j)) in *.
  assert (HnR : 0 < INR n) by (apply lt_0_INR; lia). set (F := tone_freq fs k n).
  assert (EF : 2 * PI * INR k / INR n * fs = 2 * PI * F) by (unfold F, tone_freq; field; lra). rewrite EF in G1. rewrite G1 in B2.
  assert (Hv : Cabs v = size f A (nth i sc 0) k n) by (unfold v, size; apply abs_analytic).
  assert (F0 : 0 < F) by (unfold F, tone_freq; apply Rdiv_lt_0_compat; [apply Rmult_lt_0_compat; [apply lt_0_INR; lia|exact H0]|exact HnR]).
  assert (F2 : F <= fs / 2).
  { unfold F, tone_freq. apply (Rmult_le_reg_r (INR n)); [exact HnR|]. unfold Rdiv at 1. rewrite Rmult_assoc, Rinv_l by lra. apply lt_INR in H2. rewrite mult_INR in H2. replace (INR 2) with 2 in H2 by reflexivity. nra. }
  destruct (phase_noise v (el W i j) (el D i j) F nu (PI * fs * nu) B1 B2 ltac:(rewrite Hv; exact Hnu)) as (_ & Ph). rewrite Hv in Ph. rewrite (Rabs_right F) in Ph by lra.
  assert (Hn0 : 0 <= nu) by (unfold nu; apply Rmult_le_pos; [exact HP|apply sqrt_pos]). pose proof PI_RGT_0 as HPI. set (S := size f A (nth i sc 0) k n) in *.
  assert (Rabs (phase_cwt_pt (el W i j) (el D i j) - F) <= Rabs (phase_ratio (el W i j) (el D i j) - F)).
  { unfold phase_cwt_pt. rewrite <- (Rabs_right F) at 1 by lra. apply Rabs_triang_inv2. }
  eapply Rle_trans; [eassumption|]. eapply Rle_trans; [exact Ph|].
  replace (fs * nu / (S - nu)) with (2 * PI * fs * nu / (2 * PI * (S - nu))) by (field; lra).
  unfold Rdiv. apply Rmult_le_compat_r; [left; apply Rinv_0_lt_compat, Rmult_lt_0_compat; lra|].
  assert (2 * PI * F * nu <= 2 * PI * (fs / 2) * nu) by (apply Rmult_le_compat_r; [exact Hn0|apply Rmult_le_compat_l; lra]). lra.
Qed.
