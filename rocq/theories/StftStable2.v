(** Bounds from [issq_kept]. *)
From Coq Require Import Reals Lra Lia List ZifyBool ZifyNat.
Import ListNotations.
From Verif Require Import Py Round Parallel Cplx CplxProofs Padding PaddingProofs Buffer BufferProofs Freqs Stft StftProofs Squeeze SqueezeProofs BinProofs
  SqueezeThms SqueezeThms2 SqueezeThms3 Scales Ssqueeze SsqueezeProofs IssqProofs CwtThms Separate SsqRoundTrip StftMap StftStable.
Import Stft.
Local Open Scope R_scope.
Ltac Zify.zify_post_hook ::= Z.div_mod_to_equations.

(** a call [ssq_stft x ..] followed by [issq_stft]: [n] the transform length, [w] the window in both,
    [rate] the sampling rate, [g] the threshold; frequencies found do not overflow int64 *)
Definition stft_ready (x : list R) (a : stft_args) (fs : option R) (t : option (list R)) (s : ssq_stft_opts) (rate : R) (n : Z) (w : list R)
  (nf wl : option Z) (g : R) : Prop :=
  x <> [] /\ process_fs_and_t fs t (length x) = Ok rate /\ (3 <= n < 2 ^ 62)%Z /\ a_hop a = 1%Z /\ a_modulated a = true /\
  stft_n_fft a (Z.of_nat (length x)) = Ok n /\ get_window (a_window a) (stft_win_len a n) n = Ok w /\ Z.of_nat (length w) = n /\
  pad_usable (a_padtype a) (Z.of_nat (length x)) n /\ or_default nf ((Z.of_nat (rfft_len (Z.to_nat n)) - 1) * 2) = n /\
  get_window (a_window a) (or_default wl n) n = Ok w /\ nth (Z.to_nat (n / 2)) w 0 <> 0 /\ s_freqs s = None /\ s_sq s = SqSum /\
  g = match s_gamma s with Some g => g | None => 10 * (if a_f32 a then EPS32 else EPS64) end /\ 0 <= g /\ (s_get_w s = true -> 0 < g) /\
  forall Sx dSx k j, stft x (SA rate (a_window a) (a_n_fft a) (a_win_len a) (a_hop a) (a_modulated a) (a_padtype a) (a_f32 a)) = Ok (Sx, dSx) ->
    (k < nrows Sx)%nat -> (j < ncols Sx)%nat -> spass s g (Cabs (el Sx k j)) ->
    phase_stft_pt (nth k (make_Sfs (rfft_len (Z.to_nat n)) rate) 0) (el Sx k j) (el dSx k j)
    <= IZR (2 ^ 62) * Rmax (nth 1 (make_Sfs (rfft_len (Z.to_nat n)) rate) 0) EPS64.

Lemma ready_kept ord x a fs t s rate n w nf wl f32 g : valid_order ord -> stft_ready x a fs t s rate n w nf wl g ->
  exists Tx Sx dSx f y,
    stft x (SA rate (a_window a) (a_n_fft a) (a_win_len a) (a_hop a) (a_modulated a) (a_padtype a) (a_f32 a)) = Ok (Sx, dSx) /\
    ssq_stft ord x a fs t s = Ok (Tx, Sx, f, make_Sfs (rfft_len (Z.to_nat n)) rate) /\
    issq_stft Tx (a_window a) None nf wl 1 true f32 = Ok (One y) /\
    length y = length x /\ nrows Sx = (Z.to_nat n / 2 + 1)%nat /\ ncols Sx = length x /\
    forall j, (j < length x)%nat ->
      let p := (Z.to_nat n / 2)%nat in
      nth j y 0 = 2 / nth (Z.to_nat (n / 2)) w 0 * (rate / (2 * INR p)) * Rsum (p + 1) (fun k => Re (skept s g (el Sx k j))) /\
      2 * Rsum (p + 1) (fun k => Re (el Sx k j)) =
        IZR n * (nth j x 0 * nth (Z.to_nat (n / 2)) w 0) + Re (el Sx 0%nat j) + (if Z.even n then Re (el Sx p j) else 0).
Proof.
  intros Ho (H1 & H2 & H3 & H4 & H5 & H6 & H7 & H8 & H9 & H10 & H11 & H12 & H13 & H14 & H15 & H16 & H17 & H18).
  apply issq_kept; assumption.
Qed.
(** the window, the transform length and the options are those of any signal of this length *)
Lemma ready_usable x a fs t s rate n w nf wl g : stft_ready x a fs t s rate n w nf wl g ->
  usable x (SA rate (a_window a) (a_n_fft a) (a_win_len a) (a_hop a) (a_modulated a) (a_padtype a) (a_f32 a)) (Z.to_nat n) w /\
  nth (Z.to_nat (n / 2)) w 0 <> 0 /\ 0 <= g /\ (3 <= n)%Z.
Proof.
  intros (H1 & H2 & H3 & H4 & H5 & H6 & H7 & H8 & H9 & H10 & H11 & H12 & H13 & H14 & H15 & H16 & H17 & H18).
  split; [|tauto]. unfold usable. cbn [a_hop a_window a_f32 a_padtype]. rewrite Z2Nat.id by lia.
  repeat split; try assumption; try lia.
Qed.

Lemma skept_close s g z : 0 <= g -> Cabs (Csub (skept s g z) z) <= g.
Proof.
  intros Hg. unfold skept. destruct (spass_dec s g (Cabs z)) as [H|H].
  - replace (Csub z z) with C0 by (apply C_eq; unfold Csub, Copp, Cadd, C0; cbn; ring). rewrite Cabs_0. exact Hg.
  - replace (Csub C0 z) with (Copp z) by (apply C_eq; unfold Csub, Copp, Cadd, C0; cbn; ring).
    replace (Cabs (Copp z)) with (Cabs z) by (unfold Cabs; f_equal; unfold Copp, Cnorm2; cbn [fst snd]; ring).
    unfold spass in H. destruct (s_get_w s); lra.
Qed.
Lemma skept_stable s g a b : 0 <= g -> Cabs (Csub (skept s g a) (skept s g b)) <= Cabs (Csub a b) + g.
Proof.
  intros Hg. unfold skept.
  assert (Hn : forall z, ~ spass s g (Cabs z) -> Cabs z <= g) by (intros z H; unfold spass in H; destruct (s_get_w s); lra).
  assert (Ho : forall u v, Cabs (Csub u v) = Cabs (Csub v u)).
  { intros u v. unfold Cabs. f_equal. unfold Csub, Copp, Cadd, Cnorm2. cbn [fst snd]. ring. }
  assert (Ht : forall u v, Cabs u <= Cabs (Csub u v) + Cabs v).
  { intros u v. replace u with (Cadd (Csub u v) v) at 1 by (apply C_eq; unfold Csub, Copp, Cadd; cbn; ring). apply Cabs_triangle. }
  assert (Hz : forall u, Cabs (Csub u C0) = Cabs u) by (intros u; f_equal; apply C_eq; unfold Csub, Copp, Cadd, C0; cbn; ring).
  destruct (spass_dec s g (Cabs a)) as [Ha|Ha], (spass_dec s g (Cabs b)) as [Hb|Hb].
  - lra.
  - rewrite Hz. specialize (Hn b Hb). specialize (Ht a b). lra.
  - rewrite Ho, Hz. specialize (Hn a Ha). specialize (Ht b a). rewrite (Ho b a) in Ht. lra.
  - rewrite Hz, Cabs_0. pose proof (Cabs_nonneg (Csub a b)). lra.
Qed.
Lemma Re_sums n (g h : nat -> C) : Rabs (Rsum n (fun i => Re (g i)) - Rsum n (fun i => Re (h i))) <= Rsum n (fun i => Cabs (Csub (g i) (h i))).
Proof.
  rewrite <- Rsum_sub. induction n; cbn [Rsum]; [rewrite Rabs_R0; lra|].
  eapply Rle_trans; [apply Rabs_triang|]. apply Rplus_le_compat; [exact IHn|].
  replace (Re (g n) - Re (h n)) with (Re (Csub (g n) (h n))) by (unfold Csub, Copp, Cadd, Re; cbn [fst]; ring). apply Re_le_Cabs.
Qed.

(** ** The reconstruction formula, whatever [gamma] *)
Theorem issq_within_gamma ord x a fs t s rate n w nf wl f32 g : valid_order ord -> stft_ready x a fs t s rate n w nf wl g ->
  exists Tx Sx f Sfs y,
    ssq_stft ord x a fs t s = Ok (Tx, Sx, f, Sfs) /\ issq_stft Tx (a_window a) None nf wl 1 true f32 = Ok (One y) /\ length y = length x /\
    forall j, (j < length x)%nat ->
      let p := (Z.to_nat n / 2)%nat in
      let c := nth (Z.to_nat (n / 2)) w 0 in
      Rabs (nth j y 0 - rate / (2 * INR p) * (IZR n * nth j x 0 + (Re (el Sx 0%nat j) + (if Z.even n then Re (el Sx p j) else 0)) / c))
      <= Rabs rate / (2 * INR p) * (2 / Rabs c) * (INR (p + 1) * g).
Proof.
  intros Ho H. destruct (ready_usable _ _ _ _ _ _ _ _ _ _ _ H) as (_ & Hc & Hg & Hn).
  destruct (ready_kept ord _ _ _ _ _ _ _ _ _ _ f32 _ Ho H) as (Tx & Sx & dSx & f & y & _ & E2 & E3 & L & _ & _ & Hy).
  exists Tx, Sx, f, (make_Sfs (rfft_len (Z.to_nat n)) rate), y. split; [exact E2|]. split; [exact E3|]. split; [exact L|].
  intros j Hj p c. destruct (Hy j Hj) as (Ey & Ef). fold p c in Ey, Ef.
  assert (Hp : 0 < INR p) by (apply lt_0_INR; unfold p; lia).
  match goal with |- Rabs (_ - ?F) <= _ => assert (EF : F = 2 / c * (rate / (2 * INR p)) * Rsum (p + 1) (fun k => Re (el Sx k j))) end.
  { replace (2 / c * (rate / (2 * INR p)) * Rsum (p + 1) (fun k => Re (el Sx k j))) with
      (rate / (2 * INR p) * (2 * Rsum (p + 1) (fun k => Re (el Sx k j))) / c) by (field; split; [lra|exact Hc]).
    rewrite Ef. field. split; [lra|exact Hc]. }
  rewrite EF, Ey, <- Rmult_minus_distr_l, Rabs_mult.
  replace (Rabs (2 / c * (rate / (2 * INR p)))) with (Rabs rate / (2 * INR p) * (2 / Rabs c)).
  2:{ unfold Rdiv. rewrite !Rabs_mult, !Rabs_inv, (Rabs_pos_eq 2), (Rabs_pos_eq (2 * INR p)) by lra. ring. }
  apply Rmult_le_compat_l.
  { apply Rmult_le_pos; unfold Rdiv; apply Rmult_le_pos; try apply Rabs_pos; try lra; apply Rlt_le, Rinv_0_lt_compat; [lra|apply Rabs_pos_lt, Hc]. }
  eapply Rle_trans; [apply Re_sums|].
  eapply Rle_trans; [apply Rsum_le; intros i _; apply (skept_close s g _ Hg)|]. rewrite Rsum_const. lra.
Qed.

(** ** Padding keeps bounds *)
Lemma padsignal_all {A} (Q : A -> Prop) zero x pt pl xp n_up n1 n2 : Q zero -> Forall Q x ->
  padsignal zero x pt pl = Ok (xp, n_up, n1, n2) -> Forall Q xp.
Proof.
  intros Hz Hx. unfold padsignal. destruct x as [|x0 x1]; [discriminate|]. set (x := x0 :: x1) in *. clearbody x.
  destruct (pad_widths _ _) as [[u m1] m2].
  assert (Hs : forall l a b, Forall Q l -> Forall Q (pyslice l a b)).
  { intros l a b Hl. unfold pyslice. apply Forall_forall. intros v Hv. apply (proj1 (Forall_forall Q l) Hl).
    
    assert (In v (skipn (Z.to_nat (norm_bound (Z.of_nat (length l)) a)) l)).
    { rewrite <- (firstn_skipn (Z.to_nat (norm_bound (Z.of_nat (length l)) b - norm_bound (Z.of_nat (length l)) a)) (skipn _ l)). apply in_or_app. left. exact Hv. }
    rewrite <- (firstn_skipn (Z.to_nat (norm_bound (Z.of_nat (length l)) a)) l). apply in_or_app. right. exact H. }
  assert (Hnp : forall xp, np_pad zero pt x m1 m2 = Ok xp -> Forall Q xp).
  { intros q. unfold np_pad. destruct (_ || _); [discriminate|]. intros E. injection E as <-.
    apply Forall_forall. intros v Hv. apply (In_nth _ _ zero) in Hv. destruct Hv as (i & Hi & <-). rewrite tab_length in Hi. rewrite nth_tab by exact Hi.
    destruct (np_pad_index _ _ _) as [k|]; [|exact Hz].
    destruct (le_lt_dec (length x) (Z.to_nat k)) as [Hk|Hk]; [rewrite nth_overflow by exact Hk; exact Hz|].
    apply (proj1 (Forall_forall Q x) Hx). apply nth_In, Hk. }
  destruct pt; try (destruct (np_pad _ _ _ _ _) as [q|] eqn:E; [|discriminate]; cbn [bind]; intros K; injection K as <- _ _ _; apply Hnp; reflexivity).
  intros K. injection K as <- _ _ _. apply Forall_app. split; [|apply Forall_app; split; [exact Hx|]]; apply Hs; apply Forall_rev, Hx.
Qed.

Lemma cell_bound a n w xp k h e : 0 <= e -> Forall (fun v => Rabs v <= e) xp -> length w = n ->
  Cabs (cell a n w xp k h) <= e * Rsum n (fun u => Rabs (nth u w 0)).
Proof.
  intros He Hx Hw. unfold cell. eapply Rle_trans; [apply Cabs_Csum|]. rewrite <- Rsum_scal. apply Rsum_le. intros u Hu.
  rewrite Cabs_mul, Cabs_tw, Rmult_1_r, Cabs_RtoC, Rabs_mult. apply Rmult_le_compat_r; [apply Rabs_pos|].
  destruct (le_lt_dec (length xp) (Z.to_nat (a_hop a) * h + u)) as [Hk|Hk]; [rewrite nth_overflow, Rabs_R0 by exact Hk; exact He|].
  apply (proj1 (Forall_forall _ _) Hx). apply nth_In, Hk.
Qed.
Lemma stft_sup x y a n w X dX Y dY e : usable x a n w -> length y = length x -> 0 <= e ->
  (forall i, (i < length x)%nat -> Rabs (nth i x 0 - nth i y 0) <= e) ->
  stft x a = Ok (X, dX) -> stft y a = Ok (Y, dY) ->
  forall k h, (h < ncols X)%nat -> Cabs (Csub (el X k h) (el Y k h)) <= e * Rsum n (fun u => Rabs (nth u w 0)).
Proof.
  intros Hu Hl He Hd EX EY k h Hh.
  destruct (stft_linear x y a n w 1 (-1) Hu Hl) as (X' & dX' & Y' & dY' & Z & dZ & E1 & E2 & E3 & (_ & _ & _ & C4 & C5) & _).
  rewrite EX in E1. injection E1 as <- <-. rewrite EY in E2. injection E2 as <- <-.
  assert (Hz : usable (lin 1 (-1) x y) a n w) by (apply (usable_len x); [apply lin_length; auto|exact Hu]).
  destruct (stft_cells _ a n w Hz) as (zp & Z' & dZ' & (n_up & n2 & Ep) & _ & _ & E4 & _ & _ & _ & _ & _ & V).
  rewrite E3 in E4. injection E4 as <- <-. destruct (V k h ltac:(lia)) as (Ev & _).
  replace (Csub (el X k h) (el Y k h)) with (el Z k h) by (rewrite (C5 k h Hh); apply C_eq; unfold Csub, Copp, Cadd, Cmul, RtoC; cbn [fst snd]; ring).
  rewrite Ev. assert (Hw : length w = n) by (destruct Hu as (_ & _ & _ & _ & _ & K & _); exact K).
  apply cell_bound; [exact He| |exact Hw]. refine (padsignal_all _ _ _ _ _ _ _ _ _ _ _ Ep); [rewrite Rabs_R0; exact He|].
  apply Forall_forall. intros v Hv. unfold lin in Hv. apply in_map_iff in Hv. destruct Hv as ([p q] & <- & Hpq). cbn [fst snd].
  apply (In_nth _ _ (0, 0)) in Hpq. destruct Hpq as (i & Hi & E). rewrite combine_length in Hi. rewrite combine_nth in E by auto. injection E as <- <-.
  replace (1 * nth i x 0 + -1 * nth i y 0) with (nth i x 0 - nth i y 0) by ring. apply Hd. lia.
Qed.

(** ** Two signals *)
Theorem issq_stft_stable ord x y a fs t s rate n w nf wl f32 g e : valid_order ord -> length y = length x ->
  stft_ready x a fs t s rate n w nf wl g -> stft_ready y a fs t s rate n w nf wl g ->
  0 <= e -> (forall i, (i < length x)%nat -> Rabs (nth i x 0 - nth i y 0) <= e) ->
  exists Tx Sx fx Sfs u Ty Sy fy v,
    ssq_stft ord x a fs t s = Ok (Tx, Sx, fx, Sfs) /\ issq_stft Tx (a_window a) None nf wl 1 true f32 = Ok (One u) /\
    ssq_stft ord y a fs t s = Ok (Ty, Sy, fy, Sfs) /\ issq_stft Ty (a_window a) None nf wl 1 true f32 = Ok (One v) /\
    forall j, (j < length x)%nat ->
      let p := (Z.to_nat n / 2)%nat in
      Rabs (nth j u 0 - nth j v 0) <=
        Rabs rate / (2 * INR p) * (2 / Rabs (nth (Z.to_nat (n / 2)) w 0)) * (INR (p + 1) * (e * Rsum (length w) (fun i => Rabs (nth i w 0)) + g)).
Proof.
  intros Ho Hl Hx Hy He Hd. destruct (ready_usable _ _ _ _ _ _ _ _ _ _ _ Hx) as (Hu & Hc & Hg & Hn).
  destruct (ready_kept ord _ _ _ _ _ _ _ _ _ _ f32 _ Ho Hx) as (Tx & Sx & dSx & fx & u & E1 & E2 & E3 & L & R1 & R2 & Vx).
  destruct (ready_kept ord _ _ _ _ _ _ _ _ _ _ f32 _ Ho Hy) as (Ty & Sy & dSy & fy & v & F1 & F2 & F3 & L' & _ & _ & Vy).
  exists Tx, Sx, fx, (make_Sfs (rfft_len (Z.to_nat n)) rate), u, Ty, Sy, fy, v.
  split; [exact E2|]. split; [exact E3|]. split; [exact F2|]. split; [exact F3|].
  intros j Hj p. destruct (Vx j Hj) as (-> & _). destruct (Vy j ltac:(lia)) as (-> & _). fold p.
  set (c := nth (Z.to_nat (n / 2)) w 0) in *.
  assert (Hp : 0 < INR p) by (apply lt_0_INR; unfold p; lia).
  rewrite <- Rmult_minus_distr_l, Rabs_mult.
  replace (Rabs (2 / c * (rate / (2 * INR p)))) with (Rabs rate / (2 * INR p) * (2 / Rabs c)).
  2:{ unfold Rdiv. rewrite !Rabs_mult, !Rabs_inv, (Rabs_pos_eq 2), (Rabs_pos_eq (2 * INR p)) by lra. ring. }
  apply Rmult_le_compat_l.
  { apply Rmult_le_pos; unfold Rdiv; apply Rmult_le_pos; try apply Rabs_pos; try lra; apply Rlt_le, Rinv_0_lt_compat; [lra|apply Rabs_pos_lt, Hc]. }
  eapply Rle_trans; [apply Re_sums|].
  assert (Hw : length w = Z.to_nat n) by (destruct Hu as (_ & _ & _ & _ & _ & K & _); exact K). rewrite Hw.
  eapply Rle_trans; [apply Rsum_le with (g := fun _ => e * Rsum (Z.to_nat n) (fun i => Rabs (nth i w 0)) + g)|rewrite Rsum_const; lra].
  intros k _. eapply Rle_trans; [apply (skept_stable s g _ _ Hg)|]. apply Rplus_le_compat_r.
  apply (stft_sup x y _ _ w Sx dSx Sy dSy e Hu Hl He Hd E1 F1). lia.
Qed.
