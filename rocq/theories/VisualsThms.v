(** Proofs about visuals.py. *)
From Coq Require Import Reals Lra ZifyBool ZifyNat String Ascii DecimalString DecimalNat.
From Verif Require Import Py Round Cplx CplxProofs Freqs Search SearchProofs Scales SsqueezeProofs CwtTone Visuals.
Local Open Scope R_scope.
Ltac Zify.zify_post_hook ::= Z.div_mod_to_equations.

(** ** Ticks *)
Lemma is_integer_spec r : is_integer r = true -> IZR (Int_part r) = r.
Proof. unfold is_integer. destruct (Req_EM_T r _); [congruence|discriminate]. Qed.
Lemma tick_label_near v r : In r v -> Rabs (shown (tick_label v r) - r) <= 1 / 200 /\ (forallb is_integer v = true -> shown (tick_label v r) = r).
Proof.
  intros Hr. unfold tick_label. destruct (forallb is_integer v) eqn:E.
  - rewrite forallb_forall in E. specialize (E r Hr). apply is_integer_spec in E. cbn [shown]. rewrite E. split; [|reflexivity].
    rewrite Rminus_diag_eq, Rabs_R0 by reflexivity. lra.
  - cbn [shown]. split; [|discriminate]. pose proof (rhe_near (100 * r)). apply Rabs_le. lra.
Qed.
Theorem ticks_right v : v <> [] -> exists l, ticks v = Ok l /\ length l = 8%nat /\ fst (nth 0 l (0%nat, LInt 0)) = 0%nat /\
  fst (nth 7 l (0%nat, LInt 0)) = (length v - 1)%nat /\
  (forall k, (k < 8)%nat -> let '(i, lab) := nth k l (0%nat, LInt 0) in (i < length v)%nat /\ Rabs (shown lab - nth i v 0) <= 1 / 200 /\
     ((forall r, In r v -> exists z, r = IZR z) -> shown lab = nth i v 0)) /\
  ((8 <= length v)%nat -> forall k, (k < 7)%nat -> (fst (nth k l (0%nat, LInt 0)) < fst (nth (S k) l (0%nat, LInt 0)))%nat).
Proof.
  intros Hv. assert (Hn : (1 <= length v)%nat) by (destruct v; [congruence|cbn; lia]).
  set (F := fun i => (i, tick_label v (nth i v 0))).
  exists (map F (tick_idxs (length v))). split; [unfold ticks; destruct v; [congruence|reflexivity]|].
  assert (HK : forall k, (k < 8)%nat -> nth k (map F (tick_idxs (length v))) (0%nat, LInt 0) = F (k * (length v - 1) / 7)%nat).
  { intros k Hk. unfold tick_idxs. rewrite map_map. rewrite (nth_indep _ _ (F (0 * (length v - 1) / 7)%nat)) by (rewrite map_length, seq_length; exact Hk).
    rewrite (map_nth (fun k => F (k * (length v - 1) / 7)%nat)). rewrite seq_nth by exact Hk. reflexivity. }
  split; [reflexivity|]. split; [rewrite HK by lia; reflexivity|]. split; [rewrite HK by lia; cbn [F fst]; lia|]. split.
  - intros k Hk. rewrite HK by exact Hk. unfold F. assert (Hi : (k * (length v - 1) / 7 < length v)%nat) by (assert (k * (length v - 1) <= 7 * (length v - 1))%nat by (apply Nat.mul_le_mono_r; lia); lia).
    split; [exact Hi|]. destruct (tick_label_near v (nth (k * (length v - 1) / 7) v 0) (nth_In _ _ Hi)) as [H1 H2]. split; [exact H1|].
    intros HZ. apply H2. apply forallb_forall. intros r Hr. destruct (HZ r Hr) as (z & ->). unfold is_integer.
    rewrite (Int_part_unique (IZR z) z) by lra. destruct (Req_EM_T _ _); [reflexivity|congruence].
  - intros H8 k Hk. rewrite !HK by lia. unfold F. cbn [fst]. assert (E : (S k * (length v - 1) = k * (length v - 1) + (length v - 1))%nat) by lia. rewrite E.
    set (q := (k * (length v - 1))%nat) in *. lia.
Qed.
Lemma ticks_collide : exists v l, ticks v = Ok l /\ length v = 8%nat /\ (forall i j, (i < j < 8)%nat -> nth i v 0 < nth j v 0) /\
  forall k, (k < 8)%nat -> snd (nth k l (0%nat, LInt 0)) = LHund 0.
Proof.
  set (v := tab 8 (fun i => (INR i + 1) / 2000)). assert (Hl : length v = 8%nat) by apply tab_length.
  assert (Hv : v <> []) by (intros E; rewrite E in Hl; discriminate).
  set (F := fun i => (i, tick_label v (nth i v 0))).
  exists v, (map F (tick_idxs 8)). split; [unfold ticks; rewrite <- Hl at 1; destruct v; [congruence|reflexivity]|]. split; [exact Hl|].
  assert (Hat : forall i, (i < 8)%nat -> nth i v 0 = (INR i + 1) / 2000) by (intros i Hi; unfold v; apply nth_tab; exact Hi).
  split.
  - intros i j Hij. rewrite !Hat by lia. assert (INR i < INR j) by (apply lt_INR; lia). lra.
  - assert (E : forallb is_integer v = false).
    { apply not_true_is_false. intros E. rewrite forallb_forall in E. assert (Hi : (0 < length v)%nat) by (rewrite Hl; repeat constructor). specialize (E (nth 0 v 0) (nth_In _ _ Hi)). apply is_integer_spec in E.
      rewrite Hat in E by lia. cbn [INR] in E. rewrite (Int_part_unique _ 0) in E by lra. lra. }
    assert (HF : forall i, (i < 8)%nat -> snd (F i) = LHund 0).
    { intros i Hi. unfold F, tick_label. cbn [snd]. rewrite E, Hat by exact Hi. f_equal. apply rhe_unique.
      assert (INR i <= 7) by (replace 7 with (INR 7) by (cbn; lra); apply le_INR; lia). pose proof (pos_INR i). lra. }
    intros k Hk. unfold tick_idxs. rewrite map_map. cbn [seq map]. do 8 (destruct k as [|k]; [apply HF; apply Nat.ltb_lt; reflexivity|]). exfalso. lia.
Qed.

(** ** Colour limits *)
Lemma Re_abs z : Rabs (Re z) <= Cabs z.
Proof. unfold Cabs. rewrite <- sqrt_Rsqr_abs. apply sqrt_le_1_alt. unfold Rsqr, Cnorm2. destruct z as [a b]; cbn. pose proof (Rle_0_sqr a). pose proof (Rle_0_sqr b). unfold Rsqr in *. lra. Qed.
Lemma Im_abs z : Rabs (Im z) <= Cabs z.
Proof. unfold Cabs. rewrite <- sqrt_Rsqr_abs. apply sqrt_le_1_alt. unfold Rsqr, Cnorm2. destruct z as [a b]; cbn. pose proof (Rle_0_sqr a). pose proof (Rle_0_sqr b). unfold Rsqr in *. lra. Qed.
Theorem limits_hold data b : data <> [] -> exists lo hi, color_limits data None b 1 = Ok (lo, hi) /\
  (forall z, In z data -> (if b then lo <= Cabs z <= hi else lo <= Re z <= hi /\ lo <= Im z <= hi)) /\ (exists z, In z data /\ hi = Cabs z).
Proof.
  intros Hd. set (mx := lmax (map Cabs data)). exists ((if b then 0 else - mx) * 1), (mx * 1).
  split; [unfold color_limits; destruct data; [congruence|reflexivity]|].
  assert (Hle : forall z, In z data -> Cabs z <= mx).
  { intros z Hz. apply (In_nth _ _ C0) in Hz. destruct Hz as (i & Hi & <-). unfold mx.
    replace (Cabs (nth i data C0)) with (nth i (map Cabs data) 0).
    - apply lmax_ge. rewrite map_length. exact Hi.
    - rewrite (nth_indep _ 0 (Cabs C0)) by (rewrite map_length; exact Hi). apply map_nth. }
  split.
  - intros z Hz. specialize (Hle z Hz). destruct b.
    + pose proof (Cabs_nonneg z). lra.
    + pose proof (Re_abs z) as A1. pose proof (Im_abs z) as A2. apply Rabs_def2 in A1 || idtac.
      unfold Rabs in A1, A2. destruct (Rcase_abs (Re z)), (Rcase_abs (Im z)); lra.
  - destruct (lmax_in (map Cabs data)) as (i & Hi & E). { destruct data; [congruence|discriminate]. }
    rewrite map_length in Hi. exists (nth i data C0). split; [apply nth_In; exact Hi|]. fold mx in E. rewrite <- E, Rmult_1_r.
    rewrite (nth_indep _ 0 (Cabs C0)) by (rewrite map_length; exact Hi). apply map_nth.
Qed.

(** ** [plots] *)
Lemma combine_Some {A B} (X : list A) (Y : list B) : combine X (map Some Y) = map (fun p => (fst p, Some (snd p))) (combine X Y).
Proof. revert Y; induction X as [|a X IH]; intros [|b Y]; cbn; f_equal; auto. Qed.
Theorem plots_all (A B : Type) (X : list A) (Y : list B) nrows ncols r c : grid_dims (length X) nrows ncols = Ok (r, c) -> (2 <= r * c)%nat -> (length X <= r * c)%nat ->
  plots X (Some Y) nrows ncols = Ok (map (fun p => (fst p, Some (snd p))) (combine X Y)).
Proof.
  intros E H2 Hl. unfold plots. rewrite E. cbn [bind]. destruct (Nat.eqb_spec r 0) as [ ->|Hr]; [lia|]. destruct (Nat.eqb_spec c 0) as [ ->|Hc]; [lia|].
  destruct (Nat.eqb_spec (r * c) 1); [lia|]. cbn [orb]. f_equal. rewrite <- combine_Some. apply firstn_all2. rewrite combine_length, map_length. lia.
Qed.
Theorem plots_default (A B : Type) (X : list A) (Y : list B) : (2 <= length X)%nat -> plots X (Some Y) None None = Ok (map (fun p => (fst p, Some (snd p))) (combine X Y)).
Proof. intros H. apply (plots_all A B X Y None None (length X) 1); [reflexivity|lia|lia]. Qed.
Lemma plots_dropped : exists (X Y : list nat) l, length X = 5%nat /\ length Y = 5%nat /\ plots X (Some Y) None (Some 2%nat) = Ok l /\ length l = 4%nat.
Proof. exists [1; 2; 3; 4; 5]%nat, [1; 2; 3; 4; 5]%nat. eexists. repeat split. Qed.
Lemma plots_one_drawn : exists (X : list nat) l, length X = 3%nat /\ plots (B := nat) X None None None = Ok l /\ length l = 1%nat.
Proof. exists [1; 2; 3]%nat. eexists. repeat split. Qed.
Lemma plots_single : exists (X Y : list nat), length X = 1%nat /\ length Y = 1%nat /\ plots X (Some Y) None None = Err AttributeError.
Proof. exists [1]%nat, [1]%nat. repeat split. Qed.

(** ** Lines *)
Definition asked (v : lines_arg) : list R :=
  match v with VNone => [] | VNum r | VTupNum r => [r] | VList l | VArray l | VTupList l => l end.
Theorem lines_drawn v : (forall l, v <> VArray l) -> v <> VNum 0 -> drawn_lines v = Ok (asked v).
Proof.
  intros Ha H0. destruct v as [|r|l|l|r|l]; cbn; try reflexivity; [|congruence]. destruct (Req_EM_T r 0); [subst; congruence|reflexivity].
Qed.
Lemma line_at_zero : exists v, asked v = [0] /\ drawn_lines v = Ok [].
Proof. exists (VNum 0). split; [reflexivity|]. cbn. destruct (Req_EM_T 0 0); [reflexivity|congruence]. Qed.
Lemma lines_array : exists v, asked v = [1; 2] /\ drawn_lines v = Err ValueError.
Proof. exists (VArray [1; 2]). split; reflexivity. Qed.

(** ** Limits *)
Definition visible (l : R * R) (lo hi : R) : Prop := fst l <= lo /\ hi <= snd l.
Theorem two_plots n lo hi : (n <= 2)%nat -> lo <= hi -> visible (after_plots n lo hi) lo hi.
Proof.
  intros Hn H. destruct n as [|[|[|n]]]; [..|lia]; unfold visible, after_plots, margins, shrink; cbn; lra.
Qed.
Theorem third_plot lo hi : lo < hi -> lo < fst (after_plots 3 lo hi) /\ snd (after_plots 3 lo hi) < hi.
Proof. intros H. unfold after_plots, margins, shrink. cbn. lra. Qed.
Lemma third_plot_cuts : exists lo hi, lo <= hi /\ ~ visible (after_plots 3 lo hi) lo hi.
Proof. exists 0, 1. split; [lra|]. destruct (third_plot 0 1 ltac:(lra)). unfold visible. lra. Qed.
Theorem scale_given cur ycur l auto : scale_plot cur ycur (Some l) auto false = Ok l.
Proof. reflexivity. Qed.
Theorem scale_equal cur ycur : exists m, scale_plot cur ycur None true true = Ok (- m, m) /\ - m <= fst cur /\ snd cur <= m /\ - m <= fst ycur /\ snd ycur <= m.
Proof.
  eexists. split; [reflexivity|]. pose proof (Rmax_l (Rmax (Rabs (fst ycur)) (Rabs (snd ycur))) (Rmax (Rabs (fst cur)) (Rabs (snd cur)))).
  pose proof (Rmax_r (Rmax (Rabs (fst ycur)) (Rabs (snd ycur))) (Rmax (Rabs (fst cur)) (Rabs (snd cur)))).
  pose proof (Rmax_l (Rabs (fst ycur)) (Rabs (snd ycur))). pose proof (Rmax_r (Rabs (fst ycur)) (Rabs (snd ycur))).
  pose proof (Rmax_l (Rabs (fst cur)) (Rabs (snd cur))). pose proof (Rmax_r (Rabs (fst cur)) (Rabs (snd cur))).
  set (M := Rmax (Rmax _ _) _) in *. unfold Rabs in *.
  destruct (Rcase_abs (fst ycur)), (Rcase_abs (snd ycur)), (Rcase_abs (fst cur)), (Rcase_abs (snd cur)); repeat split; lra.
Qed.
Lemma scale_equal_given : exists cur ycur l, scale_plot cur ycur (Some l) true true = Err UnboundLocalError.
Proof. exists (0, 1), (0, 1), (0, 2). reflexivity. Qed.

(** ** Frequency axes *)
Lemma nth_linspace a b n k : (2 <= n)%nat -> (k < n)%nat -> nth k (linspace a b n) 0 = a + INR k * ((b - a) / INR (n - 1)).
Proof. intros Hn Hk. unfold linspace. rewrite nth_tab by exact Hk. destruct (Nat.eqb_spec n 1); [lia|reflexivity]. Qed.
Theorem filterbank_stretch N k : Nat.even N = true -> (4 <= N)%nat -> (k < N / 2)%nat ->
  let true_freq := nth k (xifn 1 N) 0 in
  nth k (filterbank_axis N) 0 = true_freq * (INR N / (INR N - 2)) /\ 0 <= nth k (filterbank_axis N) 0 - true_freq <= 2 * PI / INR N.
Proof.
  intros He Hn Hk F. apply Nat.even_spec in He. destruct He as (p & Hp). unfold F, filterbank_axis. rewrite nth_linspace, xi_low by lia.
  replace (N / 2)%nat with p in * by lia. rewrite minus_INR by lia. assert (EN : INR N = 2 * INR p) by (rewrite Hp, mult_INR; cbn [INR]; ring). rewrite EN. cbn [INR].
  assert (2 <= INR p) by (replace 2 with (INR 2) by (cbn; lra); apply le_INR; lia).
  assert (INR k <= INR p - 1) by (replace (INR p - 1) with (INR (p - 1)) by (rewrite minus_INR by lia; cbn; lra); apply le_INR; lia).
  pose proof (pos_INR k). pose proof PI_RGT_0. split; [field; lra|].
  replace (0 + INR k * ((PI - 0) / (INR p - 1)) - 2 * PI * INR k / (2 * INR p)) with (PI / INR p * (INR k / (INR p - 1))) by (field; lra).
  replace (2 * PI / (2 * INR p)) with (PI / INR p * 1) by (field; lra).
  assert (0 < PI / INR p) by (apply Rdiv_lt_0_compat; lra).
  assert (0 <= INR k / (INR p - 1) <= 1).
  { split; [apply Rmult_le_pos; [assumption|left; apply Rinv_0_lt_compat; lra]|]. apply (Rmult_le_reg_r (INR p - 1)); [lra|]. unfold Rdiv. rewrite Rmult_assoc, Rinv_l by lra. lra. }
  split; [apply Rmult_le_pos; lra|apply Rmult_le_compat_l; lra].
Qed.
Lemma filterbank_wrong : exists N k, Nat.even N = true /\ (k < N / 2)%nat /\ nth k (filterbank_axis N) 0 = PI /\ nth k (xifn 1 N) 0 = 3 / 4 * PI.
Proof.
  exists 8%nat, 3%nat. split; [reflexivity|]. split; [cbn; lia|]. destruct (filterbank_stretch 8 3 eq_refl ltac:(lia) ltac:(cbn; lia)) as [-> _].
  rewrite xi_low by (cbn; lia). cbn [INR]. split; field.
Qed.
Theorem gmw_axis_right k : (k <= 512)%nat -> length (gmw_freqs 1024) = length (gmw_axis 1024) /\ nth k (gmw_axis 1024) 0 = nth k (gmw_freqs 1024) 0.
Proof.
  intros Hk. assert (L : length (xifn 1 1024) = 1024%nat) by apply tab_length. assert (E5 : (1024 / 2 + 1)%nat = 513%nat) by reflexivity.
  split. { unfold gmw_freqs, gmw_axis. rewrite E5, firstn_length, linspace_length, L. reflexivity. }
  unfold gmw_freqs, gmw_axis. rewrite E5. rewrite nth_firstn_lt by lia. rewrite nth_linspace by lia. assert (E6 : (512 <= 1024 / 2)%nat) by (cbn; lia). rewrite xi_low by lia.
  replace (513 - 1)%nat with (2 ^ 9)%nat by reflexivity. replace 1024%nat with (2 ^ 10)%nat at 1 by reflexivity. rewrite !pow_INR. cbn [INR]. field.
Qed.
Lemma gmw_axis_wrong : exists N k, (k < length (gmw_axis N))%nat /\ (k < length (gmw_freqs N))%nat /\ nth k (gmw_axis N) 0 = PI /\ nth k (gmw_freqs N) 0 = PI / 2.
Proof.
  exists 512%nat, 256%nat. assert (L : length (xifn 1 1024) = 1024%nat) by apply tab_length. assert (E5 : (512 / 2 + 1)%nat = 257%nat) by reflexivity.
  unfold gmw_freqs, gmw_axis. rewrite E5, firstn_length, linspace_length, L. split; [lia|]. split; [lia|]. rewrite nth_firstn_lt by lia. rewrite nth_linspace by lia.
  assert (E6 : (256 <= 1024 / 2)%nat) by (cbn; lia). rewrite xi_low by lia.
  replace (257 - 1)%nat with (2 ^ 8)%nat by reflexivity. replace 256%nat with (2 ^ 8)%nat by reflexivity. replace 1024%nat with (2 ^ 10)%nat at 1 by reflexivity. rewrite !pow_INR. cbn [INR].
  split; field.
Qed.
Lemma tf_at N j : (1 <= N)%nat -> (j <= N / 2)%nat -> tf_height N j = 2 * PI * INR j / INR N /\ tf_freq N j = 2 * PI * INR (N / 2 - j) / INR N.
Proof.
  intros Hn Hj. assert (L : length (xifn 1 N) = N) by apply tab_length. assert (L2 : length (firstn (N / 2 + 1) (xifn 1 N)) = (N / 2 + 1)%nat \/ N = 1%nat) by (rewrite firstn_length, L; lia).
  destruct (Nat.eq_dec N 1) as [ ->|H1].
  { replace j with 0%nat by (cbn in Hj; lia). unfold tf_height, tf_freq. cbn. unfold Rdiv. split; ring. }
  destruct L2 as [L2|]; [|lia]. unfold tf_height, tf_freq. rewrite rev_nth by (rewrite L2; lia). rewrite L2, !nth_firstn_lt by lia.
  rewrite !xi_low by lia. split; [reflexivity|]. replace (N / 2 + 1 - S j)%nat with (N / 2 - j)%nat by lia. reflexivity.
Qed.
Theorem tf_axis N j : (1 <= N)%nat -> (j <= N / 2)%nat -> Nat.even N = true -> tf_label (tf_height N j) = tf_freq N j.
Proof.
  intros Hn Hj He. destruct (tf_at N j Hn Hj) as [-> ->]. apply Nat.even_spec in He. destruct He as (p & Hp). unfold tf_label.
  replace (N / 2)%nat with p in * by lia. rewrite minus_INR by lia. assert (EN : INR N = 2 * INR p) by (rewrite Hp, mult_INR; cbn [INR]; ring). rewrite EN.
  field. apply not_0_INR. lia.
Qed.
Theorem tf_axis_odd N j : (1 <= N)%nat -> (j <= N / 2)%nat -> Nat.odd N = true -> tf_label (tf_height N j) = tf_freq N j + PI / INR N.
Proof.
  intros Hn Hj Ho. destruct (tf_at N j Hn Hj) as [-> ->]. apply Nat.odd_spec in Ho. destruct Ho as (p & Hp). unfold tf_label.
  replace (N / 2)%nat with p in * by lia. rewrite minus_INR by lia. assert (EN : INR N = 2 * INR p + 1) by (rewrite Hp, plus_INR, mult_INR; cbn [INR]; ring). rewrite EN.
  pose proof (pos_INR p). field. lra.
Qed.
Lemma tf_axis_wrong : exists N j, (j <= N / 2)%nat /\ tf_label (tf_height N j) <> tf_freq N j.
Proof.
  exists 3%nat, 0%nat. split; [cbn; lia|]. rewrite tf_axis_odd by (try reflexivity; cbn; lia). cbn [INR]. pose proof PI_RGT_0. lra.
Qed.
