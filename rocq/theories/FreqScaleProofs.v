(** Proofs about [scale_to_freq]. *)
From Coq Require Import Reals Lra ZifyBool ZifyNat.
From Verif Require Import Py Round Cplx CplxProofs Padding PaddingProofs Freqs ShiftProofs Squeeze Scales Cwt FreqScale.
Ltac Zify.zify_post_hook ::= Z.div_mod_to_equations.
Local Open Scope R_scope.

Lemma clt_true a b : clt a b = true <-> Re a < Re b \/ (Re a = Re b /\ Im a < Im b).
Proof.
  unfold clt, Rltb'. destruct (Rlt_dec (Re a) (Re b)), (Req_EM_T (Re a) (Re b)), (Rlt_dec (Im a) (Im b));
    cbn; intuition (try lra; try discriminate).
Qed.
Lemma clt_trans a b c : clt a b = true -> clt b c = true -> clt a c = true.
Proof. rewrite !clt_true. intuition lra. Qed.
Lemma clt_ge_trans a b c : clt a b = true -> clt c b = false -> clt a c = true.
Proof.
  intros H1 H2. apply clt_true. apply clt_true in H1.
  destruct (Rlt_dec (Re a) (Re c)); [auto|]. destruct (Req_dec (Re a) (Re c)) as [E|E].
  - right. split; [auto|]. apply Rnot_le_lt. intros C. assert (X : clt c b = true) by (apply clt_true; lra). congruence.
  - assert (X : clt c b = true) by (apply clt_true; lra). congruence.
Qed.
(** [k] is the first maximum of [g] below [n] *)
Definition first_peak (g : nat -> C) (n k : nat) : Prop :=
  (k < n)%nat /\ (forall j, (j < n)%nat -> clt (g k) (g j) = false) /\ (forall j, (j < k)%nat -> clt (g j) (g k) = true).
Lemma cargmax_spec g n : (0 < n)%nat -> first_peak g n (cargmax g n).
Proof.
  induction n as [|n IH]; [lia|]. intros _. cbn [cargmax]. destruct n as [|n].
  - cbn [cargmax]. assert (X : clt (g 0%nat) (g 0%nat) = false).
    { destruct (clt (g 0%nat) (g 0%nat)) eqn:E; [apply clt_true in E; lra|auto]. }
    rewrite X. split; [lia|]. split; intros j Hj; [replace j with 0%nat by lia; auto|lia].
  - destruct (IH ltac:(lia)) as (A & B & D). set (b := cargmax g (S n)) in *.
    destruct (clt (g b) (g (S n))) eqn:E.
    + split; [lia|]. split.
      * intros j Hj. destruct (clt (g (S n)) (g j)) eqn:F; [|auto].
        pose proof (clt_trans _ _ _ E F) as G. destruct (Nat.eq_dec j (S n)) as [->|Hne].
        -- apply clt_true in F. lra.
        -- rewrite B in G by lia. discriminate.
      * intros j Hj. destruct (clt (g j) (g (S n))) eqn:F; [auto|].
        assert (G : clt (g b) (g j) = true) by (apply (clt_ge_trans _ (g (S n))); auto).
        rewrite B in G by lia. discriminate.
    + split; [lia|]. split; [|auto]. intros j Hj. destruct (Nat.eq_dec j (S n)) as [->|Hne]; [auto|apply B; lia].
Qed.
Lemma first_peak_unique g n k k' : first_peak g n k -> first_peak g n k' -> k = k'.
Proof.
  intros (A & B & D) (A' & B' & D'). destruct (Nat.lt_trichotomy k k') as [H|[H|H]]; auto.
  - specialize (D' _ H). rewrite B in D' by auto. discriminate.
  - specialize (D _ H). rewrite B' in D by auto. discriminate.
Qed.

Lemma wavelet_call_shape f scales N : nrows (wavelet_call f scales N true) = length scales /\
  ncols (wavelet_call f scales N true) = N.
Proof. unfold wavelet_call. destruct (wf_cplx f && _); auto. Qed.

Lemma padded_ge N b : (2 <= N)%nat \/ (b = false /\ (1 <= N)%nat) -> (2 <= padded_len N b)%nat.
Proof.
  intros H. unfold padded_len. destruct b; [destruct H as [H|[H _]]; [auto|discriminate]|].
  destruct (p2up (Z.of_nat N)) as [[up n1] n2] eqn:E. cbn [fst].
  destruct (p2up_bounds (Z.of_nat N) up n1 n2 ltac:(lia) E) as (_ & _ & Hl & _). lia.
Qed.

Lemma fix_idx_range Npad n i ix : (2 <= Npad)%nat -> (1 <= fix_idx Npad n i ix <= Npad / 2)%nat.
Proof.
  intros H. unfold fix_idx.
  destruct ((Npad / 2 <? ix)%nat || (ix =? 0)%nat) eqn:B; [destruct (n / 2 <? i)%nat; lia|lia].
Qed.
Lemma idx_half k Npad : (2 <= Npad)%nat -> (1 <= k <= Npad / 2)%nat -> 0 < INR k / INR Npad <= 1 / 2.
Proof.
  intros H [A B]. assert (P : 0 < INR Npad) by (apply lt_0_INR; lia).
  split; [apply Rdiv_lt_0_compat; [apply lt_0_INR; lia|auto]|].
  apply Rmult_le_reg_r with (INR Npad); [auto|]. unfold Rdiv. rewrite Rmult_assoc, Rinv_l by lra.
  assert (H2 : INR (2 * k) <= INR Npad) by (apply le_INR; lia). rewrite mult_INR in H2. cbn [INR] in H2. lra.
Qed.
Lemma existsb_none {A} (p : A -> bool) l : (forall x, In x l -> p x = false) -> existsb p l = false.
Proof. induction l as [|x l IH]; intros H; [reflexivity|]. cbn. rewrite H, IH; cbn; auto. intros; apply H; cbn; auto. Qed.
Lemma nth_map_lt {A B} (f : A -> B) l i d d' : (i < length l)%nat -> nth i (map f l) d = f (nth i l d').
Proof. intros H. rewrite (nth_indep _ d (f d')) by (rewrite map_length; auto). apply map_nth. Qed.

Section Main.
Variables (f : wfun) (scales : list R) (N : nat) (fs : R) (b : bool).
Hypothesis Hs : (2 <= length scales)%nat.
Hypothesis HN : (2 <= N)%nat \/ (b = false /\ (1 <= N)%nat).
Let Npad := padded_len N b.
Let psis := wavelet_call f scales Npad true.
(** peak index of row [i], as found and as used *)
Let ix (i : nat) : nat := cargmax (el psis i) Npad.
Let jx (i : nat) : nat := fix_idx Npad (length scales) i (ix i).

Lemma scale_to_freq_eq : scale_to_freq f scales N fs b =
  Ok (tab (length scales) (fun i => INR (jx i) / INR Npad * fs)).
Proof.
  assert (HP : (2 <= Npad)%nat) by now apply padded_ge.
  unfold scale_to_freq. fold Npad. fold psis.
  destruct (wavelet_call_shape f scales Npad) as [S1 S2]. fold psis in S1, S2. rewrite S1, S2.
  assert (M : forall X : res (list R),
    match scales with [] => Err ValueError | [_] => Err TypeError | _ => X end = X).
  { clear - Hs. intros X. destruct scales as [|? [|? ?]]; [cbn in Hs; lia|cbn in Hs; lia|reflexivity]. }
  rewrite M. clear M.
  change (tab (length scales) (fun i => cargmax (el psis i) Npad)) with (tab (length scales) ix).
  set (bad := existsb _ (tab (length scales) ix)).
  assert (E : (if bad then tab (length (tab (length scales) ix))
                 (fun i => fix_idx Npad (length scales) i (nth i (tab (length scales) ix) 0%nat))
               else tab (length scales) ix) = tab (length scales) jx).
  { rewrite tab_length. destruct bad eqn:Bd.
    - apply tab_ext. intros i Hi. rewrite nth_tab by auto. reflexivity.
    - apply tab_ext. intros i Hi. unfold jx, fix_idx.
      destruct ((Npad / 2 <? ix i)%nat || (ix i =? 0)%nat) eqn:C; [|reflexivity]. exfalso.
      assert (T : bad = true); [|congruence]. apply existsb_exists. exists (ix i). split; [|exact C].
      replace (ix i) with (nth i (tab (length scales) ix) 0%nat) by now apply nth_tab.
      apply nth_In. now rewrite tab_length. }
  rewrite E. clear E. set (fr := map _ (tab (length scales) jx)).
  assert (R : forall x, In x fr -> 0 < x <= 1 / 2).
  { intros x Hx. apply in_map_iff in Hx as (j & <- & Hj). apply (In_nth _ _ 0%nat) in Hj as (i & Hi & <-).
    rewrite tab_length in Hi. rewrite nth_tab by auto. apply idx_half; [auto|]. now apply fix_idx_range. }
  rewrite existsb_none by (intros x Hx; apply R in Hx; unfold Rltb'; destruct (Rlt_dec x 0); [lra|auto]).
  rewrite existsb_none by (intros x Hx; apply R in Hx; unfold Rltb'; destruct (Rlt_dec (1/2) x); [lra|auto]).
  f_equal. unfold fr. rewrite map_map. apply (nth_ext _ _ 0 0).
  - now rewrite map_length, !tab_length.
  - intros i Hi. rewrite map_length, tab_length in Hi. rewrite nth_tab by auto.
    rewrite (nth_map_lt _ _ i 0 0%nat) by (rewrite tab_length; auto). now rewrite nth_tab.
Qed.
Theorem scale_to_freq_range : 0 < fs -> exists freqs, scale_to_freq f scales N fs b = Ok freqs /\
  length freqs = length scales /\ forall i, (i < length scales)%nat -> 0 < nth i freqs 0 <= fs / 2.
Proof.
  intros Hf. assert (HP : (2 <= Npad)%nat) by now apply padded_ge.
  eexists. split; [apply scale_to_freq_eq|]. split; [apply tab_length|].
  intros i Hi. rewrite nth_tab by auto. pose proof (idx_half (jx i) Npad HP (fix_idx_range _ _ _ _ HP)). nra.
Qed.
(** the frequency is that of the row's peak whenever the peak is at a positive frequency *)
Theorem scale_to_freq_peak i k : (i < length scales)%nat -> first_peak (el psis i) Npad k ->
  (1 <= k <= Npad / 2)%nat -> exists freqs, scale_to_freq f scales N fs b = Ok freqs /\
  nth i freqs 0 = INR k / INR Npad * fs.
Proof.
  intros Hi Hk Hr. assert (HP : (2 <= Npad)%nat) by now apply padded_ge.
  eexists. split; [apply scale_to_freq_eq|]. rewrite nth_tab by auto. do 3 f_equal.
  assert (E : ix i = k) by (apply (first_peak_unique (el psis i) Npad); [apply cargmax_spec; lia|auto]).
  unfold jx. rewrite E. unfold fix_idx. replace ((Npad / 2 <? k)%nat || (k =? 0)%nat) with false; [reflexivity|lia].
Qed.

(** ** real wavelets with one peak, at [p] *)
Variables (g : R -> R) (p : R).
Hypotheses (Hfg : forall w, wf f w = RtoC (g w)) (Hre : wf_cplx f = false).
Hypotheses (Hup : forall x y, 0 <= x -> x < y -> y <= p -> g x < g y)
           (Hdn : forall x y, p <= x -> x < y -> g y < g x).
Hypotheses (Hneg : forall w, w <= 0 -> g w = 0) (Hpos : forall w, 0 < w -> 0 < g w) (Hp : 0 < p).
Lemma psis_el i j : (i < length scales)%nat -> (j < Npad)%nat ->
  el psis i j = RtoC (g (nth i scales 0 * (IZR (xi_bin Npad j) * (2 * PI / INR Npad)))).
Proof.
  intros Hi Hj. unfold psis, wavelet_call. rewrite Hre. cbn [andb]. cbn [el].
  rewrite nth_xifn by auto. rewrite Hfg. do 3 f_equal. unfold Rdiv. ring.
Qed.
Lemma clt_real x y : clt (RtoC x) (RtoC y) = true <-> x < y.
Proof. rewrite clt_true. cbn. intuition lra. Qed.
Lemma clt_real_false x y : clt (RtoC x) (RtoC y) = false -> y <= x.
Proof. intros H. apply Rnot_lt_le. intros C. apply clt_real in C. congruence. Qed.
Theorem scale_to_freq_unimodal i : (i < length scales)%nat -> 0 < fs -> 0 < nth i scales 0 ->
  p <= nth i scales 0 * (2 * PI) * (INR (Npad / 2) / INR Npad) ->
  exists freqs, scale_to_freq f scales N fs b = Ok freqs /\
  Rabs (nth i freqs 0 - fs * p / (2 * PI * nth i scales 0)) < fs / INR Npad.
Proof.
  intros Hi Hfs Hsc Hny. set (s := nth i scales 0) in *.
  assert (HP : (2 <= Npad)%nat) by now apply padded_ge.
  assert (P : 0 < INR Npad) by (apply lt_0_INR; lia). pose proof PI_RGT_0 as Hpi.
  set (h := s * (2 * PI / INR Npad)).
  assert (Hh : 0 < h) by (unfold h; apply Rmult_lt_0_compat; [auto|apply Rdiv_lt_0_compat; lra]).
  destruct (cargmax_spec (el psis i) Npad ltac:(lia)) as (A & B & D). set (k := cargmax (el psis i) Npad) in *.
  assert (EL : forall j, (j < Npad)%nat -> el psis i j = RtoC (g (IZR (xi_bin Npad j) * h))).
  { intros j Hj. rewrite psis_el by auto. fold s. do 2 f_equal. unfold h. ring. }
  assert (Ehalf : forall j, (j <= Npad / 2)%nat -> IZR (xi_bin Npad j) = INR j).
  { intros j Hj. unfold xi_bin. replace (j <? Npad / 2 + 1)%nat with true by lia. now rewrite INR_IZR_INZ. }
  assert (K1 : (1 <= k <= Npad / 2)%nat).
  { pose proof (B 1%nat ltac:(lia)) as X. rewrite !EL in X by lia. apply clt_real_false in X.
    rewrite (Ehalf 1%nat) in X by lia. rewrite Rmult_1_l in X. pose proof (Hpos h Hh).
    destruct (Nat.le_gt_cases k (Npad / 2)) as [H1|H1].
    - destruct k as [|k']; [|lia]. rewrite (Ehalf 0%nat) in X by lia. change (INR 0) with 0 in X. rewrite Rmult_0_l, (Hneg 0) in X by lra. lra.
    - assert (Y : IZR (xi_bin Npad k) * h <= 0).
      { unfold xi_bin. replace (k <? Npad / 2 + 1)%nat with false by lia.
        assert (Z : IZR (Z.of_nat k - Z.of_nat Npad) <= 0) by (apply IZR_le; lia). nra. }
      rewrite (Hneg _ Y) in X. lra. }
  destruct (scale_to_freq_peak i k Hi (conj A (conj B D)) K1) as (freqs & E1 & E2).
  exists freqs. split; [auto|]. rewrite E2.
  (* near the peak *)
  assert (Vk : forall j, (j <= Npad / 2)%nat -> g (INR j * h) <= g (INR k * h)).
  { intros j Hj. pose proof (B j ltac:(lia)) as X. rewrite !EL, !Ehalf in X by lia. now apply clt_real_false. }
  assert (C : Rabs (INR k * h - p) < h).
  { apply Rabs_def1.
    - apply Rnot_le_lt. intros Q. specialize (Vk (k - 1)%nat ltac:(lia)).
      rewrite minus_INR in Vk by lia. change (INR 1) with 1 in Vk.
      pose proof (Hdn ((INR k - 1) * h) (INR k * h) ltac:(lra) ltac:(lra)). lra.
    - apply Rnot_le_lt. intros Q.
      destruct (Nat.eq_dec k (Npad / 2)) as [Ek|Ek].
      + rewrite <- Ek in Hny. replace (s * (2 * PI) * (INR k / INR Npad)) with (INR k * h) in Hny
          by (unfold h; field; lra). lra.
      + specialize (Vk (S k) ltac:(lia)). rewrite S_INR in Vk. pose proof (pos_INR k).
        pose proof (Hup (INR k * h) ((INR k + 1) * h) ltac:(nra) ltac:(lra) ltac:(lra)). lra. }
  replace (INR k / INR Npad * fs - fs * p / (2 * PI * s)) with (fs / (2 * PI * s) * (INR k * h - p))
    by (unfold h; field; lra).
  assert (P2 : 0 < fs / (2 * PI * s)) by (apply Rdiv_lt_0_compat; [auto|apply Rmult_lt_0_compat; lra]).
  rewrite Rabs_mult, (Rabs_right (fs / (2 * PI * s))) by lra.
  apply Rlt_le_trans with (fs / (2 * PI * s) * h); [now apply Rmult_lt_compat_l|].
  right. unfold h. field. lra.
Qed.
End Main.

(** ** where it fails *)
Theorem scale_to_freq_single f s N fs b : scale_to_freq f [s] N fs b = Err TypeError.
Proof. reflexivity. Qed.
Theorem scale_to_freq_one_sample f s1 s2 s3 fs : scale_to_freq f [s1; s2; s3] 1 fs true = Err AssertionError.
Proof.
  unfold scale_to_freq, padded_len. destruct (wavelet_call_shape f [s1; s2; s3] 1) as [S1 S2].
  rewrite S1, S2. assert (Z : forall g, cargmax g 1 = 0%nat) by (intros g; cbn; destruct (clt _ _); auto).
  replace (tab (length [s1; s2; s3]) (fun i => cargmax (el (wavelet_call f [s1; s2; s3] 1 true) i) 1))
    with [0; 0; 0]%nat by (cbn [length tab seq map]; unfold tab; cbn [seq map]; now rewrite !Z).
  cbn. replace (0 / 1) with 0 by field. replace (1 / 1) with 1 by field.
  unfold Rltb'. destruct (Rlt_dec 0 0); [lra|]. destruct (Rlt_dec 1 0); [lra|].
  destruct (Rlt_dec (1 / 2) 0); [lra|]. destruct (Rlt_dec (1 / 2) 1); [reflexivity|lra].
Qed.
