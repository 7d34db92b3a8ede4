(** [ssq_stft] of several tones, each in a bin of its own. *)
From Coq Require Import ZifyBool ZifyNat.
From Verif Require Import Py Round Padding Parallel Cplx CplxProofs Buffer Freqs Stft StftProofs WindowProofs
  Squeeze SqueezeProofs SqueezeThms SqueezeThms2 SqueezeThms3 Scales Ssqueeze SsqueezeProofs CwtTone IssqProofs StftTone StftToneThms StftMap PaddingProofs.
Local Open Scope R_scope.
Ltac Zify.zify_post_hook ::= Z.div_mod_to_equations.

(** ** coefficients whose phase transform is a bin's frequency *)
Section Located.
Variables (ord : order) (x : list R) (a : stft_args) (fs : option R) (t : option (list R)) (s : ssq_stft_opts) (rate : R) (n : nat) (g : R)
  (Sx dSx : mat C) (Mb : nat -> nat -> nat) (good : nat -> Prop).
Let a' := SA rate (a_window a) (a_n_fft a) (a_win_len a) (a_hop a) (a_modulated a) (a_padtype a) (a_f32 a).
Let Sfs := make_Sfs (n / 2 + 1) rate.
Let rowof (m : nat) := (if s_flip s then n / 2 - m else m)%nat.
Hypothesis Ho : valid_order ord.
Hypothesis Hfs : process_fs_and_t fs t (length x) = Ok rate.
Hypothesis Hd : EPS64 <= rate / INR n.
Hypothesis Hn2 : (2 <= n)%nat.
Hypothesis He : Nat.even n = true.
Hypothesis Hn62 : (Z.of_nat n < 2 ^ 62)%Z.
Hypothesis ES : stft x a' = Ok (Sx, dSx).
Hypothesis HrS : nrows Sx = (n / 2 + 1)%nat.
Hypothesis Hfr : s_freqs s = None.
Hypothesis Hsq : s_sq s = SqSum.
Hypothesis Hg : g = match s_gamma s with Some g => g | None => 10 * (if a_f32 a then EPS32 else EPS64) end.
Hypothesis Hg0 : 0 <= g.
Hypothesis Hgw : s_get_w s = true -> 0 < g.
Hypothesis HMb : forall h k, (h < ncols Sx)%nat -> good h -> (k <= n / 2)%nat -> (Mb k h <= n / 2)%nat /\
  (el Sx k h <> C0 -> phase_stft_pt (nth k Sfs 0) (el Sx k h) (el dSx k h) = INR (Mb k h) * (rate / INR n)).

Theorem located : exists Tx f, ssq_stft ord x a fs t s = Ok (Tx, Sx, f, Sfs) /\
  nrows Tx = (n / 2 + 1)%nat /\ ncols Tx = ncols Sx /\ length f = (n / 2 + 1)%nat /\
  (forall m, (m <= n / 2)%nat -> nth (rowof m) f 0 = INR m * rate / INR n) /\
  forall h q, (h < ncols Sx)%nat -> good h -> (q <= n / 2)%nat ->
    el Tx q h = Csum (n / 2 + 1) (fun k => if (q =? rowof (Mb k h))%nat && kept (s_get_w s) g (Cabs (el Sx k h)) then Cmul (RtoC (rate / INR n)) (el Sx k h) else C0).
Proof.
  set (p := (n / 2)%nat) in *.
  assert (Hn0 : 0 < INR n) by (apply lt_0_INR; lia). pose proof EPS64_pos as Heps.
  assert (HS : forall k, (k <= p)%nat -> nth k Sfs 0 = INR k * (rate / INR n)).
  { intros k Hk. apply make_Sfs_even; [lia|exact He|exact Hk]. }
  assert (Hsl : length Sfs = (p + 1)%nat) by apply linspace_length.
  set (c := nth 1 Sfs 0 - nth 0 Sfs 0).
  assert (Hc : c = rate / INR n).
  { unfold c. rewrite !HS by lia. cbn [INR]. ring. }
  set (o := SO TStft (FArray Sfs) None true (s_f64v s) 1 (s_sq s) MRMaximal (Some g) (s_flip s) (Some Sfs)).
  assert (Ec : ssq_const o None Sfs = Ok (CScalar c)).
  { unfold ssq_const, o. cbn [o_tr]. unfold c. destruct (list_two Sfs ltac:(lia)) as [r Er]. rewrite Er. reflexivity. }
  assert (Ea : const_arr (nrows Sx) (CScalar c) = Ok (repeat c (nrows Sx))) by (apply const_arr_scalar; lia).
  assert (Hbg : bin_grid Sfs false (reach_lin Sfs)).
  { apply (bg_lin _ (rate / INR n)); [lia|exact Hd|]. intros k Hk. rewrite !HS by lia. cbn [INR]. ring. }
  destruct (grid_nearest_any (s_f64v s) Sfs false _ Hbg) as (gd & Egd & Hnear).
  set (wo := if s_get_w s then Some (phase_stft Sfs g Sx dSx) else None).
  set (dd := if s_get_w s then None else Some dSx).
  assert (Hone : exists Tx, ssqueeze_one ord o None Sfs false Sx wo dd = Ok Tx).
  { unfold ssqueeze_one. rewrite Ec. cbn [bind]. unfold wo, dd. destruct (s_get_w s).
    - unfold indexed_sum_onfly. rewrite Ea. cbn [bind]. cbn [o o_f64v]. rewrite Egd. cbn [bind]. eexists. reflexivity.
    - cbn [o o_gamma]. unfold ssqueeze_fast. rewrite Ea. cbn [bind o o_f64v]. rewrite Egd. cbn [bind o o_Sfs]. eexists. reflexivity. }
  destruct Hone as [Tx ET].
  destruct (one_cells _ _ _ _ _ _ _ _ _ Ho ET) as (HrT & HcT & cst & ca & gd' & Ec' & Ea' & Eg' & Hel).
  rewrite Ec in Ec'. injection Ec' as <-. rewrite Ea in Ea'. injection Ea' as <-.
  cbn [o o_f64v] in Eg'. rewrite Egd in Eg'. injection Eg' as <-.
  exists Tx, (flip_freqs o Sfs). split.
  { unfold ssq_stft. rewrite Hfs. cbn [bind]. rewrite Hfr. cbn [bind]. fold a'. rewrite ES. cbn [bind].
    rewrite HrS. cbv zeta. change (a_f32 a') with (a_f32 a). rewrite <- Hg. fold Sfs. fold o. fold wo. fold dd.
    unfold ssqueeze.
    fold (args_bad o wo dd). assert (Ebad : args_bad o wo dd = false).
    { unfold wo, dd. destruct (s_get_w s); [|reflexivity]. exact (phase_not_negative o g Sx dSx). }
    rewrite Ebad.
    assert (Evs : ssq_freqs_of o (ncols Sx) = Ok (None, Sfs, false)) by reflexivity.
    assert (Esq : squeeze_input (o_sq o) (nrows Sx) Sx = Sx) by (cbn [o o_sq]; rewrite Hsq; reflexivity).
    rewrite Evs. cbn [bind]. rewrite Esq, ET. reflexivity. }
  split; [congruence|]. split; [exact HcT|]. split; [rewrite flip_freqs_length; exact Hsl|].
  split.
  { intros m Hm. rewrite flip_freqs_rows by discriminate. cbn [o o_flip]. unfold rowof. fold p. destruct (s_flip s).
    - rewrite nth_rev_lt by lia. replace (length Sfs - 1 - (p - m))%nat with m by lia. rewrite HS by lia. unfold Rdiv. ring.
    - rewrite HS by lia. unfold Rdiv. ring. }
  intros h q Hh Hgood Hq. rewrite Hel by lia. clear Hel.
  (* where a bin's frequency goes *)
  assert (HF : forall (gw : bool) m, (m <= p)%nat -> let F := INR m * (rate / INR n) in (0 <= (if gw then bin_onfly else bin_fast) (Z.of_nat (nrows Sx) - 1)%Z gd F)%Z /\
                Z.to_nat ((if gw then bin_onfly else bin_fast) (Z.of_nat (nrows Sx) - 1)%Z gd F) = m).
  { intros gw m Hm F. assert (Hr : reach_lin Sfs F).
    { unfold reach_lin. fold c. rewrite (HS 0%nat) by lia. cbn [INR]. rewrite Rmult_0_l, Rminus_0_r, Hc. unfold F.
      apply Rmult_le_compat; [apply pos_INR|lra| |apply Rmax_l]. rewrite INR_IZR_INZ. apply IZR_le. lia. }
    destruct (Hnear F Hr) as (H1 & H2 & H3 & H4). rewrite Hsl in *.
    assert (Hk : Z.to_nat (bin_onfly (Z.of_nat (p + 1) - 1) gd F) = m).
    { specialize (H4 m ltac:(lia)). cbv beta iota in H4. rewrite !HS in H4 by lia. fold F in H4.
      replace (F - F) with 0 in H4 by ring. rewrite Rabs_R0 in H4.
      set (k := Z.to_nat (bin_onfly (Z.of_nat (p + 1) - 1) gd F)) in *.
      pose proof (Rabs_pos (F - INR k * (rate / INR n))) as H0.
      assert (E0 : Rabs (F - INR k * (rate / INR n)) = 0) by lra.
      destruct (Req_dec (F - INR k * (rate / INR n)) 0) as [E|E]; [|destruct (Rabs_no_R0 _ E E0)].
      apply INR_eq. unfold F in E. nra. }
    rewrite HrS. destruct gw; [split; assumption|]. rewrite H2. split; assumption. }
  rewrite HrS. cbn [o o_flip].
  assert (Hrow : forall (gw : bool) m, (m <= p)%nat -> (flip_row (s_flip s) (Z.of_nat (p + 1) - 1) ((if gw then bin_onfly else bin_fast) (Z.of_nat (p + 1) - 1)%Z gd ((INR m * (rate / INR n))%R)) =? Z.of_nat q)%Z = (q =? rowof m)%nat).
  { intros gw m Hm. destruct (HF gw m Hm) as [H1 H2]. rewrite HrS in *. unfold flip_row, rowof. fold p.
    destruct (s_flip s); lia. }
  apply Csum_ext. intros k Hk. destruct (HMb h k Hh Hgood ltac:(lia)) as [Hm E2].
  assert (Ek : nth k (repeat c (p + 1)) 0 = rate / INR n).
  { rewrite (nth_indep _ 0 c) by (rewrite repeat_length; exact Hk). rewrite nth_repeat. exact Hc. }
  rewrite Ek. unfold freq_at, wo, dd, kept. destruct (s_get_w s) eqn:Egw.
  - cbn [phase_stft el]. destruct (Rlt_dec (Cabs (el Sx k h)) g) as [Hlt|Hge]; [rewrite andb_false_r; reflexivity|].
    assert (Hnz : el Sx k h <> C0) by (intros E; rewrite E, Cabs_0 in Hge; specialize (Hgw eq_refl); lra).
    rewrite (E2 Hnz). rewrite (Hrow true) by exact Hm. rewrite andb_true_r. destruct (q =? rowof (Mb k h))%nat; [ring|reflexivity].
  - cbn [o o_gamma o_Sfs]. destruct (Rlt_dec g (Cabs (el Sx k h))) as [Hlt|Hge]; [|rewrite andb_false_r; reflexivity].
    assert (Hnz : el Sx k h <> C0) by (intros E; rewrite E, Cabs_0 in Hlt; lra).
    rewrite (E2 Hnz). rewrite (Hrow false) by exact Hm. rewrite andb_true_r. destruct (q =? rowof (Mb k h))%nat; [ring|reflexivity].
Qed.
End Located.

(** ** several tones *)
Definition bin_chord (M : nat) (A phi : nat -> R) (m : nat -> nat) (n N : nat) : list R :=
  tab N (fun t => Rsum M (fun r => A r * cos (2 * PI * INR (m r) * INR t / INR n + phi r))).
Definition bins_apart (M : nat) (m : nat -> nat) (n b : nat) : Prop :=
  (forall r, (r < M)%nat -> (b < m r)%nat /\ (2 * m r + 2 * b < n)%nat) /\
  forall r r', (r < M)%nat -> (r' < M)%nat -> r <> r' -> (m r + 2 * b < m r')%nat \/ (m r' + 2 * b < m r)%nat.

(** columns whose slice the signal's tones fill: those inside the signal, and all of them if [padtype='wrap'] continues the tones *)
Definition clean (x : list R) (a : stft_args) (n h : nat) : Prop :=
  interior n (length x) (Z.to_nat (a_hop a)) h \/ a_padtype a = PWrap /\ (length x mod n = 0)%nat.

Lemma cos_cycle n (m : nat) (i k : Z) phi : (1 <= n)%nat ->
  cos (2 * PI * INR m * IZR (i + Z.of_nat n * k) / INR n + phi) = cos (2 * PI * INR m * IZR i / INR n + phi).
Proof.
  intros Hn. assert (E : forall z, cos (2 * PI * INR m * IZR z / INR n + phi) = Re (Cmul (tw n (Z.of_nat m * z)) (cis phi))).
  { intros z. unfold tw. rewrite <- cis_add. unfold cis, Re. cbn [fst]. f_equal. rewrite mult_IZR, <- INR_IZR_INZ. field. apply not_0_INR. lia. }
  rewrite !E. replace (Z.of_nat m * (i + Z.of_nat n * k))%Z with (Z.of_nat m * i + Z.of_nat n * (Z.of_nat m * k))%Z by ring. rewrite tw_shift by lia. reflexivity.
Qed.

Lemma wrap_chord M A phi m n x a xp : (1 <= n)%nat -> x = bin_chord M A phi m n (length x) -> x <> [] -> a_padtype a = PWrap -> (length x mod n = 0)%nat -> padded x a n xp ->
  forall i, (i < length x + n - 1)%nat -> nth i xp 0 = Rsum M (fun r => A r * cos (2 * PI * INR (m r) * (INR i - INR (n / 2)) / INR n + phi r)).
Proof.
  intros Hn Hx Hx0 Hp Hd (n_up & n2 & E) i Hi. assert (HN : (1 <= length x)%nat) by (destruct x; [congruence|cbn; lia]).
  rewrite Hp in E. destruct (pad_widths (Z.of_nat (length x)) (Some (Z.of_nat (length x) + Z.of_nat n - 1)%Z)) as [[u1 u2] u3] eqn:Ew.
  destruct (padsignal_np R 0 x PWrap (Some (Z.of_nat (length x) + Z.of_nat n - 1)%Z) u1 u2 u3 Hx0 ltac:(discriminate) ltac:(intros p Ep; injection Ep as <-; lia) Ew) as (xp' & E' & L' & V).
  rewrite E in E'. injection E' as <- <- <- <-. assert (Hu : n_up = (Z.of_nat (length x) + Z.of_nat n - 1)%Z) by (unfold pad_widths in Ew; destruct (_ =? 0)%Z; congruence).
  specialize (V (Z.of_nat i) ltac:(lia)). rewrite Nat2Z.id in V. rewrite V. unfold pad_at. set (N := Z.of_nat (length x)) in *.
  set (d := (Z.of_nat i - Z.of_nat n / 2)%Z). assert (Ei : np_pad_index PWrap N d = Some (d mod N)%Z).
  { unfold np_pad_index. destruct ((0 <=? d)%Z && (d <? N)%Z) eqn:Eb; [|reflexivity]. rewrite Z.mod_small by lia. reflexivity. }
  rewrite Ei. pose proof (Z.mod_pos_bound d N ltac:(lia)). rewrite Hx. unfold bin_chord. rewrite nth_tab by lia. apply Rsum_ext. intros r Hr. f_equal.
  assert (Ed : d = (d mod N + Z.of_nat n * (Z.of_nat (length x / n) * (d / N)))%Z).
  { pose proof (Z.div_mod d N ltac:(lia)) as Q. assert (EN : N = (Z.of_nat n * Z.of_nat (length x / n))%Z) by (unfold N; rewrite (Nat.div_mod (length x) n) at 1 by lia; rewrite Hd; lia).
    rewrite EN in Q at 1. rewrite Z.mul_assoc. lia. }
  replace (INR i - INR (n / 2)) with (IZR d) by (unfold d; rewrite minus_IZR, <- INR_IZR_INZ; replace (Z.of_nat n / 2)%Z with (Z.of_nat (n / 2)) by lia; rewrite <- INR_IZR_INZ; reflexivity).
  transitivity (cos (2 * PI * INR (m r) * IZR (d mod N + Z.of_nat n * (Z.of_nat (length x / n) * (d / N))) / INR n + phi r)); [|rewrite <- Ed; reflexivity].
  rewrite cos_cycle by exact Hn. rewrite (INR_IZR_INZ (Z.to_nat _)), Z2Nat.id by lia. reflexivity.
Qed.

Section Chord.
Variables (M : nat) (A phi : nat -> R) (m : nat -> nat) (x : list R) (a : stft_args) (n : nat) (w : list R) (b : nat).
Let N := length x.
Let hop := Z.to_nat (a_hop a).
Hypothesis U : usable x a n w.
Hypothesis Hn : (2 <= n)%nat.
Hypothesis Hx : x = bin_chord M A phi m n N.
Hypothesis Hmod : a_modulated a = true.
Hypothesis Hb : narrow n w b.

Lemma narrow_far q : (Z.abs q < Z.of_nat n - Z.of_nat b)%Z -> (Z.of_nat b < Z.abs q)%Z -> wspec n w q = C0.
Proof.
  intros H1 H2. destruct (Z.le_gt_cases 0 q).
  - replace q with (Z.of_nat (Z.to_nat q)) by lia. apply Hb. lia.
  - rewrite <- (wspec_period n ltac:(lia) w q 1). replace (q + Z.of_nat n * 1)%Z with (Z.of_nat (Z.to_nat (q + Z.of_nat n))) by lia. apply Hb. lia.
Qed.
Lemma diff_zero g q : (0 <= q < Z.of_nat n)%Z -> length g = n -> wspec n g q = C0 -> wspec n (diff_window g) q = C0.
Proof.
  intros Hq Hl Hz. replace q with (Z.of_nat (Z.to_nat q)) in * by lia. rewrite wspec_dft in * by lia. rewrite diff_window_dft by lia.
  apply Cmul_integral in Hz. destruct Hz as [E|E]; [destruct (tw_neq0 n _ E)|]. rewrite E. ring.
Qed.
Hypothesis Hm : forall r, (r < M)%nat -> (b < m r)%nat /\ (2 * m r + 2 * b < n)%nat.
Definition part (r k h : nat) : C := Cmul (Cmul (RtoC (A r / 2)) (bin_phase (phi r) (m r) n (hop * h))) (wspec n w (Z.of_nat k - Z.of_nat (m r))).

Theorem chord_stft : exists Sx dSx, stft x a = Ok (Sx, dSx) /\ nrows Sx = (n / 2 + 1)%nat /\
  Z.of_nat (ncols Sx) = ((Z.of_nat N - 1) / a_hop a + 1)%Z /\
  forall h k, (h < ncols Sx)%nat -> clean x a n h -> (k <= n / 2)%nat ->
    el Sx k h = Csum M (fun r => part r k h) /\
    el dSx k h = Csum M (fun r => Cmul (0, 2 * PI * (a_fs a * (INR k - INR (m r)) / INR n)) (part r k h)).
Proof.
  destruct (stft_cells x a n w U) as (xp & Sx & dSx & P & L & Mi & E & Rw & _ & _ & Cc & F & V). exists Sx, dSx. split; [exact E|]. split; [exact Rw|]. split; [exact Cc|].
  intros h k Hh Hcl Hk. destruct (V k h Hh) as [V1 V2].
  destruct U as (U1 & U2 & U3 & U4 & U5 & U6 & U7 & U8).
  assert (SV : forall u, (u < n)%nat -> nth (hop * h + u) xp 0 = Rsum M (fun r => A r * cos (2 * PI * INR (m r) * (INR (hop * h + u) - INR (n / 2)) / INR n + phi r))).
  { intros u Hu. destruct Hcl as [[Hi1 Hi2]|[Hp Hd]].
    - fold hop in Hi1, Hi2. fold N in Hi2. replace (hop * h + u)%nat with (n / 2 + (hop * h + u - n / 2))%nat at 1 by lia. rewrite Mi by (fold N; lia). rewrite Hx at 1. unfold bin_chord. rewrite nth_tab by lia.
      apply Rsum_ext. intros r Hr. rewrite minus_INR by lia. reflexivity.
    - specialize (F h Hh). apply (wrap_chord M A phi m n x a xp); try assumption. fold N in L. fold N. unfold hop. nia. }
  assert (Fr : forall g, (forall r, (r < M)%nat -> wspec n g (Z.of_nat k + Z.of_nat (m r)) = C0) ->
    cell a n g xp k h = Csum M (fun r => Cmul (Cmul (RtoC (A r / 2)) (bin_phase (phi r) (m r) n (hop * h))) (wspec n g (Z.of_nat k - Z.of_nat (m r))))).
  { intros g Hg. unfold cell.
    rewrite (Csum_ext n _ (fun u => Csum M (fun r => Cmul (RtoC ((A r * cos (2 * PI * INR (m r) * INR (hop * h) / INR n + phi r + 2 * PI * IZR (Z.of_nat (m r) * (Z.of_nat u - Z.of_nat (n / 2))) / INR n)) * nth u g 0))
       (tw n (- (Z.of_nat k * (Z.of_nat u - Z.of_nat (n / 2)))))))).
    - rewrite Csum_swap. apply Csum_ext. intros r Hr.
      rewrite (frame_spec n ltac:(lia) g (A r) (2 * PI * INR (m r) * INR (hop * h) / INR n + phi r) (m r) k
        (fun u => A r * cos (2 * PI * INR (m r) * INR (hop * h) / INR n + phi r + 2 * PI * IZR (Z.of_nat (m r) * (Z.of_nat u - Z.of_nat (n / 2))) / INR n))) by (intros; reflexivity).
      rewrite Hg by exact Hr. fold (bin_phase (phi r) (m r) n (hop * h)). ring.
    - intros u Hu. unfold phase_ref. rewrite Hmod. replace (Z.of_nat n / 2)%Z with (Z.of_nat (n / 2)) by lia. fold hop.
      rewrite SV by exact Hu.
      rewrite <- Rsum_scal_r, <- Csum_RtoC. rewrite <- Csum_scal_r. apply Csum_ext. intros r Hr. f_equal. f_equal. f_equal. f_equal. f_equal.
      rewrite mult_IZR, <- !INR_IZR_INZ, minus_IZR, <- !INR_IZR_INZ. rewrite plus_INR. field. apply not_0_INR. lia. }
  assert (Hmir : forall r, (r < M)%nat -> wspec n w (Z.of_nat k + Z.of_nat (m r)) = C0).
  { intros r Hr. destruct (Hm r Hr). apply narrow_far; lia. }
  split; [rewrite V1; apply Fr, Hmir|].
  rewrite V2. unfold dwindow. rewrite Hmod. rewrite Fr.
  - apply Csum_ext. intros r Hr. destruct (Hm r Hr). rewrite wspec_scal, wspec_diff by lia. unfold part.
    replace (0, 2 * PI * (a_fs a * (INR k - INR (m r)) / INR n)) with
      (Cmul (RtoC (a_fs a)) (0, 2 * PI * IZR (Z.of_nat k - Z.of_nat (m r)) / INR n)); [ring|].
    apply C_eq; unfold Cmul, RtoC; cbn; [ring|]. rewrite minus_IZR, <- !INR_IZR_INZ. field. apply not_0_INR. lia.
  - intros r Hr. destruct (Hm r Hr). rewrite wspec_scal, diff_zero by (try apply Hmir; lia). ring.
Qed.
End Chord.
