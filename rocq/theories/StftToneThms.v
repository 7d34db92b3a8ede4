(** [ssq_stft] of a tone whose frequency is one of the bins. *)
From Coq Require Import ZifyBool ZifyNat.
From Verif Require Import Py Round Padding Parallel Cplx CplxProofs Buffer Freqs Stft StftProofs WindowProofs
  Squeeze SqueezeProofs SqueezeThms SqueezeThms2 SqueezeThms3 Scales Ssqueeze SsqueezeProofs CwtTone IssqProofs StftTone.
Local Open Scope R_scope.
Ltac Zify.zify_post_hook ::= Z.div_mod_to_equations.

(** whether a coefficient of modulus [r] survives the threshold [g]; with [get_w] one equal
    to it does *)
Definition kept (gw : bool) (g r : R) : bool :=
  if gw then (if Rlt_dec r g then false else true) else (if Rlt_dec g r then true else false).

Definition stft_tone_run (ord : order) (x : list R) (a : stft_args) (fs : option R) (t : option (list R))
  (s : ssq_stft_opts) (rate : R) (n : nat) (w : list R) (A phi : R) (m b : nat) (g : R) : Prop :=
  valid_order ord /\ x = bin_tone A phi m n (length x) /\ x <> [] /\
  process_fs_and_t fs t (length x) = Ok rate /\ EPS64 <= rate / INR n /\
  Nat.even n = true /\ (Z.of_nat n < 2 ^ 62)%Z /\
  (1 <= a_hop a)%Z /\ a_modulated a = true /\
  stft_n_fft a (Z.of_nat (length x)) = Ok (Z.of_nat n) /\
  get_window (a_window a) (stft_win_len a (Z.of_nat n)) (Z.of_nat n) = Ok w /\ length w = n /\
  (a_f32 a = true -> (a_hop a <= Z.of_nat n)%Z) /\
  pad_usable (a_padtype a) (Z.of_nat (length x)) (Z.of_nat n) /\
  narrow n w b /\ (b < m)%nat /\ (2 * m + 2 * b < n)%nat /\
  s_freqs s = None /\ s_sq s = SqSum /\
  g = match s_gamma s with Some g => g | None => 10 * (if a_f32 a then EPS32 else EPS64) end /\
  0 <= g /\ (s_get_w s = true -> 0 < g).

Lemma bin_phase_abs phi m n t : Cabs (bin_phase phi m n t) = 1.
Proof. apply Cabs_cis. Qed.

Section Run.
Variables (ord : order) (x : list R) (a : stft_args) (fs : option R) (t : option (list R))
  (s : ssq_stft_opts) (rate : R) (n : nat) (w : list R) (A phi : R) (m b : nat) (g : R).
Hypothesis Hrun : stft_tone_run ord x a fs t s rate n w A phi m b g.
Let hop := Z.to_nat (a_hop a).
Let a' := SA rate (a_window a) (a_n_fft a) (a_win_len a) (a_hop a) (a_modulated a) (a_padtype a) (a_f32 a).
Let Sfs := make_Sfs (n / 2 + 1) rate.
Let F := INR m * (rate / INR n).
Let row := (if s_flip s then n / 2 - m else m)%nat.

Lemma tone_phase : exists Sx dSx, stft x a' = Ok (Sx, dSx) /\
  nrows Sx = (n / 2 + 1)%nat /\ Z.of_nat (ncols Sx) = ((Z.of_nat (length x) - 1) / a_hop a + 1)%Z /\
  forall h k, (h < ncols Sx)%nat -> interior n (length x) hop h -> (k <= n / 2)%nat ->
    el Sx k h = Cmul (Cmul (RtoC (A / 2)) (bin_phase phi m n (hop * h))) (wspec n w (Z.of_nat k - Z.of_nat m)) /\
    (el Sx k h <> C0 -> phase_stft_pt (nth k Sfs 0) (el Sx k h) (el dSx k h) = F).
Proof.
  destruct Hrun as (Ho & Hx & Hx0 & Hfs & Hd & He & Hn62 & Hhop & Hmod & Hnf & Hw & Hlw & Hf32 & Hpad & Hb & Hm & Hm2 & Hfr & Hsq & Hg & Hg0 & Hgw).
  assert (HN : (1 <= length x)%nat) by (destruct x; [congruence|cbn; lia]).
  destruct (tone_stft x a' n w A phi m b ltac:(lia) Hx HN Hhop Hmod Hnf Hw Hlw Hf32 Hpad Hb Hm Hm2)
    as (Sx & dSx & ES & R1 & R2 & C1 & C2 & H).
  exists Sx, dSx. split; [exact ES|]. split; [exact R1|]. split; [exact C2|].
  intros h k Hh Hi Hk. destruct (H h k Hh Hi Hk) as [E1 E2]. split; [exact E1|]. intros Hnz.
  rewrite E2, phase_stft_factor by exact Hnz. unfold Sfs. rewrite make_Sfs_even by (try exact He; lia).
  assert (0 < INR n) by (apply lt_0_INR; lia). pose proof EPS64_pos. pose proof (pos_INR m).
  replace (INR k * (rate / INR n) - a_fs a' * (INR k - INR m) / INR n) with F by (unfold F, a'; cbn [a_fs]; field; lra).
  apply Rabs_right. unfold F. nra.
Qed.

Theorem tone_ssq_stft : exists Tx Sx f,
  ssq_stft ord x a fs t s = Ok (Tx, Sx, f, Sfs) /\
  nrows Tx = (n / 2 + 1)%nat /\ Z.of_nat (ncols Tx) = ((Z.of_nat (length x) - 1) / a_hop a + 1)%Z /\
  length f = (n / 2 + 1)%nat /\ nth row f 0 = INR m * rate / INR n /\
  forall h q, (h < ncols Tx)%nat -> interior n (length x) hop h -> (q <= n / 2)%nat ->
    el Tx q h =
    if (q =? row)%nat
    then Cmul (Cmul (RtoC (A / 2 * (rate / INR n))) (bin_phase phi m n (hop * h)))
           (Csum (n / 2 + 1) (fun k => let H := wspec n w (Z.of_nat k - Z.of_nat m) in
              if kept (s_get_w s) g (Rabs (A / 2) * Cabs H) then H else C0))
    else C0.
Proof.
  destruct tone_phase as (Sx & dSx & ES & HrS & HcS & Hph).
  destruct Hrun as (Ho & Hx & Hx0 & Hfs & Hd & He & Hn62 & Hhop & Hmod & Hnf & Hw & Hlw & Hf32 & Hpad & Hb & Hm & Hm2 & Hfr & Hsq & Hg & Hg0 & Hgw).
  set (p := (n / 2)%nat) in *.
  assert (Hn0 : 0 < INR n) by (apply lt_0_INR; lia). pose proof EPS64_pos as Heps.
  assert (HS : forall k, (k <= p)%nat -> nth k Sfs 0 = INR k * (rate / INR n)).
  { intros k Hk. apply make_Sfs_even; [lia|exact He|exact Hk]. }
  assert (Hsl : length Sfs = (p + 1)%nat) by apply linspace_length.
  set (c := nth 1 Sfs 0 - nth 0 Sfs 0).
  assert (Hc : c = rate / INR n).
  { unfold c. rewrite !HS by lia. cbn [INR]. ring. }
  set (o := SO TStft (FArray Sfs) None true (s_f64v s) 1 (s_sq s) MRMaximal (Some g) (s_flip s) (Some Sfs)).
  assert (Ec : ssq_const o None Sfs = Ok (CScalar c)).
  { unfold ssq_const, o. cbn [o_tr]. unfold c. destruct (list_two Sfs ltac:(lia)) as [r Er]. rewrite Er. reflexivity. }
  assert (Ea : const_arr (nrows Sx) (CScalar c) = Ok (repeat c (nrows Sx))) by (apply const_arr_scalar; lia).
  assert (Hbg : bin_grid Sfs false (reach_lin Sfs)).
  { apply (bg_lin _ (rate / INR n)); [lia|exact Hd|]. intros k Hk. rewrite !HS by lia. cbn [INR]. ring. }
  destruct (grid_nearest_any (s_f64v s) Sfs false _ Hbg) as (gd & Egd & Hnear).
  set (wo := if s_get_w s then Some (phase_stft Sfs g Sx dSx) else None).
  set (dd := if s_get_w s then None else Some dSx).
  assert (Hone : exists Tx, ssqueeze_one ord o None Sfs false Sx wo dd = Ok Tx).
  { unfold ssqueeze_one. rewrite Ec. cbn [bind]. unfold wo, dd. destruct (s_get_w s).
    - unfold indexed_sum_onfly. rewrite Ea. cbn [bind]. cbn [o o_f64v]. rewrite Egd. cbn [bind]. eexists. reflexivity.
    - cbn [o o_gamma]. unfold ssqueeze_fast. rewrite Ea. cbn [bind o o_f64v]. rewrite Egd. cbn [bind o o_Sfs]. eexists. reflexivity. }
  destruct Hone as [Tx ET].
  destruct (one_cells _ _ _ _ _ _ _ _ _ Ho ET) as (HrT & HcT & cst & ca & gd' & Ec' & Ea' & Eg' & Hel).
  rewrite Ec in Ec'. injection Ec' as <-. rewrite Ea in Ea'. injection Ea' as <-.
  cbn [o o_f64v] in Eg'. rewrite Egd in Eg'. injection Eg' as <-.
  exists Tx, Sx, (flip_freqs o Sfs). split.
  { unfold ssq_stft. rewrite Hfs. cbn [bind]. rewrite Hfr. cbn [bind]. fold a'. rewrite ES. cbn [bind].
    rewrite HrS. cbv zeta. change (a_f32 a') with (a_f32 a). rewrite <- Hg. fold Sfs. fold o. fold wo. fold dd.
    unfold ssqueeze.
    fold (args_bad o wo dd). assert (Ebad : args_bad o wo dd = false).
    { unfold wo, dd. destruct (s_get_w s); [|reflexivity]. exact (phase_not_negative o g Sx dSx). }
    rewrite Ebad.
    assert (Evs : ssq_freqs_of o (ncols Sx) = Ok (None, Sfs, false)) by reflexivity.
    assert (Esq : squeeze_input (o_sq o) (nrows Sx) Sx = Sx) by (cbn [o o_sq]; rewrite Hsq; reflexivity).
    rewrite Evs. cbn [bind]. rewrite Esq, ET. reflexivity. }
  split; [congruence|]. split; [rewrite HcT; exact HcS|]. split; [rewrite flip_freqs_length; exact Hsl|].
  split.
  { rewrite flip_freqs_rows by discriminate. cbn [o o_flip]. unfold row. destruct (s_flip s).
    - rewrite nth_rev_lt by lia. replace (length Sfs - 1 - (p - m))%nat with m by lia. rewrite HS by lia. unfold Rdiv. ring.
    - rewrite HS by lia. unfold Rdiv. ring. }
  intros h q Hh Hi Hq. rewrite HcT in Hh. rewrite Hel by lia. clear Hel.
  (* the row all of it goes to *)
  assert (HF : forall gw : bool, (0 <= (if gw then bin_onfly else bin_fast) (Z.of_nat (nrows Sx) - 1)%Z gd F)%Z /\
                Z.to_nat ((if gw then bin_onfly else bin_fast) (Z.of_nat (nrows Sx) - 1)%Z gd F) = m).
  { assert (Hr : reach_lin Sfs F).
    { unfold reach_lin. fold c. rewrite (HS 0%nat) by lia. cbn [INR]. rewrite Rmult_0_l, Rminus_0_r, Hc. unfold F.
      apply Rmult_le_compat; [apply pos_INR|lra| |apply Rmax_l]. rewrite INR_IZR_INZ. apply IZR_le. lia. }
    destruct (Hnear F Hr) as (H1 & H2 & H3 & H4). rewrite Hsl in *.
    assert (Hk : Z.to_nat (bin_onfly (Z.of_nat (p + 1) - 1) gd F) = m).
    { specialize (H4 m ltac:(lia)). cbv beta iota in H4. rewrite !HS in H4 by lia. fold F in H4.
      replace (F - F) with 0 in H4 by ring. rewrite Rabs_R0 in H4.
      set (k := Z.to_nat (bin_onfly (Z.of_nat (p + 1) - 1) gd F)) in *.
      pose proof (Rabs_pos (F - INR k * (rate / INR n))) as H0.
      assert (E0 : Rabs (F - INR k * (rate / INR n)) = 0) by lra.
      destruct (Req_dec (F - INR k * (rate / INR n)) 0) as [E|E]; [|destruct (Rabs_no_R0 _ E E0)].
      apply INR_eq. unfold F in E. nra. }
    rewrite HrS. intros gw. destruct gw; [split; assumption|]. rewrite H2. split; assumption. }
  rewrite HrS. cbn [o o_flip].
  assert (Hrow : forall gw : bool, (flip_row (s_flip s) (Z.of_nat (p + 1) - 1) ((if gw then bin_onfly else bin_fast) (Z.of_nat (p + 1) - 1)%Z gd F) =? Z.of_nat q)%Z = (q =? row)%nat).
  { intros gw. destruct (HF gw) as [H1 H2]. rewrite HrS in *. unfold flip_row, row.
    destruct (s_flip s); [|lia]. fold p. lia. }
  assert (Hterm : forall k, (k < p + 1)%nat ->
    match freq_at o Sx wo dd k h with
    | Inf => C0
    | Fin r => if (flip_row (s_flip s) (Z.of_nat (p + 1) - 1)
                     (match wo with Some _ => bin_onfly (Z.of_nat (p + 1) - 1) gd | None => bin_fast (Z.of_nat (p + 1) - 1) gd end r) =? Z.of_nat q)%Z
               then Cmul (el Sx k h) (RtoC (nth k (repeat c (p + 1)) 0)) else C0 end =
    if (q =? row)%nat then
      Cmul (Cmul (RtoC (A / 2 * (rate / INR n))) (bin_phase phi m n (hop * h)))
        (let H := wspec n w (Z.of_nat k - Z.of_nat m) in if kept (s_get_w s) g (Rabs (A / 2) * Cabs H) then H else C0)
    else C0).
  { intros k Hk. destruct (Hph h k Hh Hi ltac:(lia)) as [E1 E2]. cbv zeta.
    assert (Eabs : Cabs (el Sx k h) = Rabs (A / 2) * Cabs (wspec n w (Z.of_nat k - Z.of_nat m))).
    { rewrite E1, !Cabs_mul, bin_phase_abs, Cabs_RtoC. ring. }
    assert (Ek : nth k (repeat c (p + 1)) 0 = rate / INR n).
    { rewrite (nth_indep _ 0 c) by (rewrite repeat_length; exact Hk). rewrite nth_repeat. exact Hc. }
    rewrite Ek, <- Eabs.
    unfold freq_at, wo, dd, kept. destruct (s_get_w s) eqn:Egw.
    - cbn [phase_stft el]. destruct (Rlt_dec (Cabs (el Sx k h)) g) as [Hlt|Hge].
      + destruct (q =? row)%nat; ring.
      + assert (Hnz : el Sx k h <> C0) by (intros E; rewrite E, Cabs_0 in Hge; specialize (Hgw eq_refl); lra).
        rewrite (E2 Hnz). rewrite (Hrow true). destruct (q =? row)%nat; [|reflexivity].
        rewrite E1, RtoC_mul. ring.
    - cbn [o o_gamma o_Sfs]. destruct (Rlt_dec g (Cabs (el Sx k h))) as [Hlt|Hge].
      + assert (Hnz : el Sx k h <> C0) by (intros E; rewrite E, Cabs_0 in Hlt; lra).
        rewrite (E2 Hnz). rewrite (Hrow false). destruct (q =? row)%nat; [|reflexivity].
        rewrite E1, RtoC_mul. ring.
      + destruct (q =? row)%nat; ring. }
  rewrite (Csum_ext _ _ _ Hterm). destruct (q =? row)%nat.
  - rewrite Csum_scal. reflexivity.
  - apply Csum_0. reflexivity.
Qed.

(** when nothing is below the threshold *)
Lemma tone_total : Csum (n / 2 + 1) (fun k => wspec n w (Z.of_nat k - Z.of_nat m)) = RtoC (INR n * nth (n / 2) w 0).
Proof.
  destruct Hrun as (Ho & Hx & Hx0 & Hfs & Hd & He & Hn62 & Hhop & Hmod & Hnf & Hw & Hlw & Hf32 & Hpad & Hb & Hm & Hm2 & _).
  rewrite <- (wspec_sum n ltac:(lia) w (Z.of_nat m)).
  replace (Csum n (fun k => wspec n w (Z.of_nat k - Z.of_nat m))) with
    (Csum (n / 2 + 1 + (n - (n / 2 + 1))) (fun k => wspec n w (Z.of_nat k - Z.of_nat m)))
    by (f_equal; lia).
  rewrite (Csum_app (n / 2 + 1) (n - (n / 2 + 1))). rewrite (Csum_0 (n - (n / 2 + 1))).
  - ring.
  - intros i Hi. rewrite <- Nat2Z.inj_sub by lia. apply Hb. lia.
Qed.

Theorem tone_ssq_full :
  (forall q, wspec n w q <> C0 -> g < Rabs (A / 2) * Cabs (wspec n w q)) ->
  exists Tx Sx f, ssq_stft ord x a fs t s = Ok (Tx, Sx, f, Sfs) /\
  nrows Tx = (n / 2 + 1)%nat /\ nth row f 0 = INR m * rate / INR n /\
  forall h q, (h < ncols Tx)%nat -> interior n (length x) hop h -> (q <= n / 2)%nat ->
    el Tx q h = if (q =? row)%nat
                then Cmul (RtoC (rate * nth (n / 2) w 0 * (A / 2))) (bin_phase phi m n (hop * h)) else C0.
Proof.
  intros Hall. destruct tone_ssq_stft as (Tx & Sx & f & E & R1 & C1 & L1 & N1 & H).
  exists Tx, Sx, f. split; [exact E|]. split; [exact R1|]. split; [exact N1|].
  intros h q Hh Hi Hq. rewrite (H h q Hh Hi Hq). destruct (q =? row)%nat; [|reflexivity].
  rewrite (Csum_ext _ _ (fun k => wspec n w (Z.of_nat k - Z.of_nat m))).
  - rewrite tone_total.
    assert (0 < INR n) by (apply lt_0_INR; unfold stft_tone_run in Hrun; intuition lia).
    replace (RtoC (rate * nth (n / 2) w 0 * (A / 2))) with (Cmul (RtoC (A / 2 * (rate / INR n))) (RtoC (INR n * nth (n / 2) w 0))).
    + ring.
    + rewrite <- RtoC_mul. f_equal. field. lra.
  - intros k _. cbv zeta. destruct (kept _ _ _) eqn:Ek; [reflexivity|].
    set (z := wspec n w (Z.of_nat k - Z.of_nat m)) in *.
    destruct (Req_EM_T (Cnorm2 z) 0) as [E0|E0]; [symmetry; apply Cnorm2_0; exact E0|].
    assert (Hz : z <> C0) by (intros Ez; rewrite Ez in E0; apply E0; unfold Cnorm2, C0; cbn; ring).
    specialize (Hall _ Hz). fold z in Hall. unfold kept in Ek.
    destruct (s_get_w s).
    + destruct (Rlt_dec (Rabs (A / 2) * Cabs z) g); [lra|discriminate].
    + destruct (Rlt_dec g (Rabs (A / 2) * Cabs z)); [discriminate|lra].
Qed.

(** and inverting: the signal times the sampling rate, away from the ends *)
Theorem tone_issq_stft nf wl f32 : a_hop a = 1%Z -> nth (n / 2) w 0 <> 0 ->
  or_default nf (2 * Z.of_nat (n / 2))%Z = Z.of_nat n -> get_window (a_window a) (or_default wl (Z.of_nat n)) (Z.of_nat n) = Ok w ->
  (forall q, wspec n w q <> C0 -> g < Rabs (A / 2) * Cabs (wspec n w q)) ->
  exists Tx Sx f y, ssq_stft ord x a fs t s = Ok (Tx, Sx, f, Sfs) /\
    issq_stft Tx (a_window a) None nf wl 1 true f32 = Ok (One y) /\ length y = length x /\
    forall j, (n / 2 <= j)%nat -> (j + n <= n / 2 + length x)%nat -> nth j y 0 = rate * nth j x 0.
Proof.
  intros H1 Hg' Hnf' Hw' Hall.
  destruct (tone_ssq_full Hall) as (Tx & Sx & f & E & R1 & N1 & H).
  destruct tone_ssq_stft as (Tx' & Sx' & f' & E' & R1' & C1' & _ & _ & _).
  rewrite E in E'. injection E' as <- <- <-.
  destruct Hrun as (Ho & Hx & Hx0 & Hfs & Hd & He & Hn62 & Hhop & Hmod & Hnf & Hw & Hlw & Hf32 & Hpad & Hb & Hm & Hm2 & _).
  assert (HN : (1 <= length x)%nat) by (destruct x; [congruence|cbn; lia]).
  assert (HC : ncols Tx = length x) by (rewrite H1 in C1'; lia).
  exists Tx, Sx, f, (map (fun y => y * (2 / nth (length w / 2) w 0)) (real_colsum Tx)).
  split; [exact E|]. split.
  { unfold issq_stft. cbn [negb Z.eqb Pos.eqb]. rewrite R1.
    replace ((Z.of_nat (n / 2 + 1) - 1) * 2)%Z with (2 * Z.of_nat (n / 2))%Z by lia. rewrite Hnf'.
    rewrite Hw'. cbn [bind].
    unfold check_NOLA. destruct (Z.leb_spec 1 0); [lia|]. destruct (Z.gtb_spec 1 (Z.of_nat (length w))); [lia|].
    rewrite Bool.andb_false_r. reflexivity. }
  split.
  { rewrite map_length. unfold real_colsum. rewrite tab_length. exact HC. }
  intros j Hj1 Hj2.
  rewrite (nth_indep _ 0 (0 * (2 / nth (length w / 2) w 0))) by (rewrite map_length; unfold real_colsum; rewrite tab_length; lia).
  rewrite (map_nth (fun y => y * (2 / nth (length w / 2) w 0))).
  unfold real_colsum. rewrite nth_tab by lia. rewrite R1, Hlw.
  assert (Hhop1 : hop = 1%nat) by (unfold hop; rewrite H1; reflexivity).
  assert (Hrow : (row < n / 2 + 1)%nat) by (unfold row; destruct (s_flip s); lia).
  rewrite (Rsum_single _ _ row Hrow).
  - rewrite H by (rewrite ?Hhop1; unfold interior; lia). rewrite Nat.eqb_refl, Hhop1, Nat.mul_1_l.
    assert (Ex : nth j x 0 = A * cos (2 * PI * INR m * INR j / INR n + phi)).
    { rewrite Hx. unfold bin_tone. rewrite nth_tab by lia. reflexivity. }
    rewrite Ex. unfold bin_phase, cis, Re, Cmul, RtoC. cbn [fst snd].
    field. exact Hg'.
  - intros i Hi Hne. rewrite H by (rewrite ?Hhop1; unfold interior; lia).
    destruct (Nat.eqb_spec i row); [contradiction|reflexivity].
Qed.
End Run.
