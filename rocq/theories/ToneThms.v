(** A sampled cosine through [ssq_cwt], [issq_cwt] and [icwt], end to end. *)
From Coq Require Import Reals Lra Psatz.
From Coq Require Import ZifyBool ZifyNat.
From Verif Require Import ExperimentalThms.
From Verif Require Import Py Round Parallel Cplx CplxProofs Padding PaddingProofs Buffer Freqs Squeeze
  SqueezeProofs BinProofs SqueezeThms SqueezeThms2 SqueezeThms3 Scales Ssqueeze SsqueezeProofs
  Cwt CwtProofs CwtThms SsqCwt SsqCwtProofs SsqCwtInv CwtTone IssqProofs SsqThms CwtThms2 Ridge RidgeOpt RidgeThms RidgeCurve.
Local Open Scope R_scope.
Ltac Zify.zify_post_hook ::= Z.div_mod_to_equations.

(** ** The transform of a tone *)
Lemma tone_dft_self A phi k n : (0 < k)%nat -> (2 * k < n)%nat ->
  sig_dft (tone A phi k n) k = Cmul (RtoC (INR n * (A / 2))) (cis phi).
Proof.
  intros Hk H2k. unfold sig_dft. rewrite tone_length.
  assert (HnR : INR n <> 0) by (apply not_0_INR; lia).
  set (c1 := Cmul (RtoC (A / 2)) (cis phi)). set (c2 := Cmul (RtoC (A / 2)) (cis (- phi))).
  unfold dft.
  rewrite (Csum_ext n _ (fun m => Cadd (Cmul c1 (tw n ((Z.of_nat k - Z.of_nat k) * Z.of_nat m)))
                                       (Cmul c2 (tw n ((Z.of_nat (n - k) - Z.of_nat k) * Z.of_nat m))))).
  - rewrite Csum_plus, !Csum_scal, !roots_delta by lia.
    rewrite Nat.eqb_refl. destruct (Nat.eqb_spec (n - k) k); [lia|].
    subst c1 c2. apply C_eq; simpl; ring.
  - intros m Hm. unfold tone. rewrite nth_tab by auto.
    rewrite RtoC_mul, cos_cis.
    replace (- (2 * PI * INR k * INR m / INR n + phi))
      with (2 * PI * IZR (- (Z.of_nat k * Z.of_nat m)) / INR n + - phi)
      by (rewrite opp_IZR, mult_IZR, <- !INR_IZR_INZ; field; auto).
    replace (2 * PI * INR k * INR m / INR n + phi)
      with (2 * PI * IZR (Z.of_nat k * Z.of_nat m) / INR n + phi)
      by (rewrite mult_IZR, <- !INR_IZR_INZ; field; auto).
    rewrite !cis_add. fold (tw n (Z.of_nat k * Z.of_nat m)). fold (tw n (- (Z.of_nat k * Z.of_nat m))).
    replace ((Z.of_nat k - Z.of_nat k) * Z.of_nat m)%Z
      with (Z.of_nat k * Z.of_nat m + - (Z.of_nat k * Z.of_nat m))%Z by ring.
    replace ((Z.of_nat (n - k) - Z.of_nat k) * Z.of_nat m)%Z
      with (- (Z.of_nat k * Z.of_nat m) + - (Z.of_nat k * Z.of_nat m) + Z.of_nat n * Z.of_nat m)%Z
      by (rewrite Nat2Z.inj_sub by lia; ring).
    rewrite tw_shift, !tw_add by lia. subst c1 c2.
    generalize (tw n (Z.of_nat k * Z.of_nat m)) (tw n (- (Z.of_nat k * Z.of_nat m)))
      (cis phi) (cis (- phi)). intros u v d e. apply C_eq; simpl; field.
Qed.

(** the wavelet at scale [s] and the tone's frequency *)
Definition response (f : wfun) (s : R) (k n : nat) : R := Re (wf f (s * (2 * PI * INR k / INR n))).
(** the wavelet vanishes at the mirror frequency *)
Definition one_sided (f : wfun) (sc : list R) (k n : nat) : Prop :=
  forall i, (i < length sc)%nat -> wf f (nth i sc 0 * - (2 * PI * INR k / INR n)) = C0.
(** the analytic tone *)
Definition analytic (phi : R) (k n j : nat) : C := cis (2 * PI * INR k * INR j / INR n + phi).

Lemma row_tone f s A phi k n j : (0 < k)%nat -> (2 * k < n)%nat -> real_valued f ->
  wf f (s * - (2 * PI * INR k / INR n)) = C0 ->
  row_val f s (tone A phi k n) j = Cmul (RtoC (A / 2 * response f s k n)) (analytic phi k n j).
Proof.
  intros Hk H2k Hr Han. unfold row_val. rewrite tone_length. unfold idft.
  assert (HnR : INR n <> 0) by (apply not_0_INR; lia).
  rewrite (Csum_single n _ k ltac:(lia)).
  - rewrite tone_dft_self by assumption. unfold psih_val.
    replace (negb false && (n mod 2 =? 0)%nat && (k =? n / 2)%nat) with false.
    2:{ destruct (Nat.eqb_spec (n mod 2) 0), (Nat.eqb_spec k (n / 2)); try reflexivity. exfalso. lia. }
    rewrite xi_low by lia. unfold response, analytic.
    specialize (Hr (s * (2 * PI * INR k / INR n))).
    replace (2 * PI * INR k * INR j / INR n + phi) with (2 * PI * IZR (Z.of_nat k * Z.of_nat j) / INR n + phi)
      by (rewrite mult_IZR, <- !INR_IZR_INZ; field; auto).
    rewrite cis_add. fold (tw n (Z.of_nat k * Z.of_nat j)).
    destruct (wf f _) as [u v]. unfold Im, Re in *. cbn [fst snd] in *. subst v.
    generalize (tw n (Z.of_nat k * Z.of_nat j)) (cis phi). intros [a b] [c d].
    apply C_eq; simpl; field; auto.
  - intros q Hq Hne. destruct (Nat.eq_dec q (n - k)) as [->|Hne2].
    + unfold psih_val. rewrite xi_high by lia. rewrite Han.
      destruct (negb false && _ && _); apply C_eq; simpl; ring.
    + rewrite tone_dft by (auto; lia). apply C_eq; simpl; ring.
Qed.

Lemma tone_nil A phi k n x n1 : pad_input None (tone A phi k n) = Ok (x, n1) -> x = tone A phi k n /\ n1 = 0%Z.
Proof. unfold pad_input. destruct (tone A phi k n) eqn:E; [discriminate|]. intros H. injection H as <- <-. auto. Qed.

Lemma cwt_tone py inst f a s A phi k n W sc dW s' i j :
  (0 < k)%nat -> (2 * k < n)%nat -> a_pad a = None -> a_l1 a = true -> uncached inst a s -> real_valued f ->
  cwt py inst f a (tone A phi k n) s = (Ok (W, sc, dW), s') ->
  one_sided f sc k n -> (i < length sc)%nat ->
  el W i j = Cmul (RtoC (A / 2 * response f (nth i sc 0) k n)) (analytic phi k n j).
Proof.
  intros Hk H2k Hp Hl Hu Hr H Hos Hi.
  destruct (cwt_rows _ _ _ _ _ _ _ _ _ _ Hr Hu H) as (fs & xp & n1 & Ef & Ep & _ & A1 & _).
  rewrite Hp in Ep. apply tone_nil in Ep. destruct Ep as [-> ->].
  rewrite A1. unfold finish_cell. rewrite Hl, Hp. rewrite andb_false_r. cbn [plus].
  apply row_tone; auto.
Qed.

(** ** Squeezing it *)
(** coefficients of modulus [m] that are squeezed: with [get_w=True] those of exactly gamma too *)
Definition passes (q : ssq_args) (m : R) : Prop :=
  if q_get_w q then ssq_gamma q <= m else ssq_gamma q < m.
Definition passes_dec (q : ssq_args) (m : R) : {passes q m} + {~ passes q m}.
Proof. unfold passes. destruct (q_get_w q); [apply Rle_dec|apply Rlt_dec]. Defined.
(** sum of the wavelet's values at the tone's frequency over the scales *)
Definition gain (q : ssq_args) (f : wfun) (sc : list R) (nv : Z) (A : R) (k n : nat) : R :=
  Rsum (length sc) (fun i =>
    if passes_dec q (Rabs (A / 2 * response f (nth i sc 0) k n))
    then response f (nth i sc 0) k n * (ln 2 / IZR nv) else 0).
Definition tone_freq (fs : R) (k n : nat) : R := INR k * fs / INR n.

Lemma Csum_RtoC_scal n g c z :
  Csum n (fun i => Cmul (RtoC (c * g i)) z) = Cmul (RtoC (c * Rsum n g)) z.
Proof.
  induction n as [|n IH].
  - cbn [Csum Rsum]. apply C_eq; simpl; ring.
  - cbn [Csum Rsum]. rewrite IH. apply C_eq; simpl; ring.
Qed.

Lemma Cabs_tone c phi k n j : Cabs (Cmul (RtoC c) (analytic phi k n j)) = Rabs c.
Proof. unfold analytic. rewrite Cabs_mul, Cabs_RtoC, Cabs_cis. ring. Qed.

Lemma rate_self fs n : 0 < fs -> process_fs_and_t (Some fs) None n = Ok fs.
Proof. intros H. cbn. destruct (Rle_dec fs 0); [lra|reflexivity]. Qed.

Theorem tone_squeezed ord py f fam q A phi k n s r s' fs kind nv kk v d : valid_order ord ->
  (0 < k)%nat -> (2 * k < n)%nat ->
  q_order q = None -> q_sq q = SqSum -> q_diff q = DTrig -> q_pad q = None -> q_flip q = true ->
  0 < ssq_gamma q -> (s_cache s = None \/ use_cache true (q_vec q) (q_cache q) = false) ->
  real_valued f -> one_sided f (r_scales r) k n ->
  ssq_cwt ord py f fam q (tone A phi k n) s = (Ok r, s') ->
  process_fs_and_t (q_fs q) (q_t q) n = Ok fs ->
  ssq_scales (q_f64s q) (q_scales q) (q_kind q) (ssq_nv q) n = Ok (r_scales r, kind) ->
  process_scales_arr (q_f64 q) (r_scales r) = Ok (KLog nv) ->
  ssq_freqs_of (ssq_o q fs (r_scales r) kind (q_f64 q)) n = Ok (kk, v, true) ->
  geometric v d -> EPS64 <= d -> length v = length (r_scales r) -> reach_log v 0 (tone_freq fs k n) ->
  nrows (r_Tx r) = length (r_scales r) /\ ncols (r_Tx r) = n /\ length (r_freqs r) = length (r_scales r) /\
  exists row, (row < length (r_scales r))%nat /\
    (forall i, (i < length (r_scales r))%nat ->
       Rabs (log2 (tone_freq fs k n) - log2 (nth row (r_freqs r) 0)) <=
       Rabs (log2 (tone_freq fs k n) - log2 (nth i (r_freqs r) 0))) /\
    forall i j, (i < length (r_scales r))%nat -> (j < n)%nat ->
      el (r_Tx r) i j =
      if (i =? row)%nat
      then Cmul (RtoC (A / 2 * gain q f (r_scales r) nv A k n)) (analytic phi k n j) else C0.
Proof.
  intros Ho Hk H2k Hq Hsq Hd Hpad Hfl Hgam Hu Hr Hos H Hfs Hscs Hp Hf Hgeo Hde Hlv Hreach.
  assert (Hsk : shape_keeping (q_sq q)) by (rewrite Hsq; exact I).
  assert (Hdn : q_diff q <> DNumeric) by congruence.
  destruct (ssq_cols_plain _ _ _ _ _ _ _ _ _ Ho Hsk Hq Hdn H) as (C1 & C2 & R1 & R2).
  rewrite tone_length in C1, C2.
  destruct (ssq_cwt_inv _ _ _ _ _ _ _ _ _ Hq H) as (kd & fs' & sc & kind' & W & dW & Hkd & Hfs' & Hsc' & Hcw & Hst).
  rewrite tone_length in Hfs', Hsc', Hst.
  rewrite Hfs in Hfs'. injection Hfs' as <-.
  assert (En : numeric q = false) by (unfold numeric; rewrite Hd; reflexivity).
  destruct (step_inv _ _ _ _ _ _ _ _ _ _ _ Hkd Hst) as (w & Tx & Es & E1 & E2 & E3 & E4 & E5 & Ew).
  assert (Ec : forall T (V : mat T), crop (q_diff q) V = V) by (intros; unfold crop; rewrite Hd; reflexivity).
  rewrite Ec in E1, E2. rewrite E3 in *. rewrite Hscs in Hsc'. injection Hsc' as <-.
  unfold squeezed in Es, Ew. rewrite En in Es, Ew. rewrite E1 in *. rewrite E2 in *.
  destruct (ssqueeze_inv _ _ _ _ _ _ _ Es) as (k' & v' & ls' & Ef & Efr & Eone).
  rewrite C2 in Ef. unfold ssq_o in Hf. rewrite Hf in Ef. injection Ef as <- <- <-.
  rewrite Hsq in Eone. cbn [o_sq squeeze_input] in Eone.
  destruct (one_cells _ _ _ _ _ _ _ _ _ Ho Eone) as (H1 & H2 & cst & ca & g & Ecst & Ea & Eg & Hcell).
  pose proof (ssq_freqs_kind (ssq_o q fs sc kind (q_f64 q)) n sc nv _ _ _ eq_refl eq_refl Hp Hf) as ->.
  unfold ssq_const in Ecst. cbn [o_tr] in Ecst. injection Ecst as <-.
  pose proof (process_log_len _ _ _ Hp) as Hlen.
  rewrite const_arr_scalar in Ea by lia. injection Ea as <-.
  cbn [o_f64v o_flip] in Eg, Hcell.
  assert (Hlr : length (r_freqs r) = length sc).
  { rewrite Efr. unfold flip_freqs. cbn [o_tr o_flip]. rewrite Hfl, rev_length. exact Hlv. }
  split; [exact R1|]. split; [exact C1|]. split; [exact Hlr|].
  destruct (nearest_log (q_f64v q) v d (Z.of_nat (nrows W) - 1) Hgeo Hde ltac:(lia)) as (g' & Eg' & Hnear).
  rewrite Eg in Eg'. injection Eg' as <-.
  set (F := tone_freq fs k n) in *.
  destruct (Hnear F Hreach) as (B0 & Bf & B1 & B2 & B3).
  set (b := bin_onfly (Z.of_nat (nrows W) - 1) g F) in *.
  assert (Hb : (0 <= b < Z.of_nat (nrows W))%Z) by lia.
  assert (Hfs0 : 0 < fs).
  { destruct (cwt_ok_inv _ _ _ _ _ _ _ _ Hcw) as ((fs1 & xp & n1 & scl & P) & _).
    apply proj1 in P. cbn [inner a_fs a_t] in P. destruct (rate_again _ _ _ _ P eq_refl) as [_ L]. exact L. }
  assert (HF : 0 < F).
  { unfold F, tone_freq. assert (0 < INR k) by (apply lt_0_INR; lia).
    assert (0 < INR n) by (apply lt_0_INR; lia).
    assert (0 < / INR n) by (apply Rinv_0_lt_compat; assumption).
    unfold Rdiv. repeat apply Rmult_lt_0_compat; lra. }
  set (row := (nrows W - 1 - Z.to_nat b)%nat).
  exists row. split; [unfold row; lia|].
  assert (Hfr : forall i, (i < length sc)%nat -> nth i (r_freqs r) 0 = nth (length sc - 1 - i) v 0).
  { intros i Hi. rewrite Efr. unfold flip_freqs. cbn [o_tr o_flip]. rewrite Hfl, rev_nth by lia.
    f_equal. lia. }
  split.
  { intros i Hi. rewrite !Hfr by (unfold row; lia).
    replace (length sc - 1 - row)%nat with (Z.to_nat b) by (unfold row; lia).
    apply (B3 HF (length sc - 1 - i)%nat). lia. }
  assert (HW : forall i j, (i < length sc)%nat ->
            el W i j = Cmul (RtoC (A / 2 * response f (nth i sc 0) k n)) (analytic phi k n j)).
  { intros i j Hi. match type of Hcw with cwt _ _ _ ?a _ _ = _ =>
      exact (cwt_tone py true f a s A phi k n W sc (Some dW) s' i j Hk H2k Hpad eq_refl Hu Hr Hcw Hos Hi) end. }
  assert (Hpt : forall i j, (i < length sc)%nat -> ssq_gamma q <= Cabs (el W i j) ->
            phase_cwt_pt (el W i j) (el dW i j) = F).
  { intros i j Hi Hg.
    assert (H2k' : (2 * k <= n)%nat) by lia.
    match type of Hcw with cwt _ _ _ ?a _ _ = _ =>
      assert (T := tone_phase py true f a s A phi k n fs W sc dW s' (ssq_gamma q) i j Hk H2k' Hpad Hu) end.
    cbn [inner a_fs a_t] in T. specialize (T (rate_self fs n Hfs0) Hcw ltac:(intros; apply Hos; exact Hi) Hgam Hg).
    cbn [phase_cwt el] in T. destruct (Rlt_dec _ _); [lra|]. injection T as T. rewrite T.
    unfold F, tone_freq. rewrite Rabs_right by lra. reflexivity. }
  intros i j Hi Hj. rewrite (Hcell i j ltac:(lia) ltac:(lia)).
  assert (Hterm : forall m, (m < nrows W)%nat ->
    freq_at (SO TCwt (ssq_freqs q kind) (Some sc) (q_f64 q) (q_f64v q) fs SqSum (q_mr q) (Some (ssq_gamma q)) (q_flip q) None)
      W w (if q_get_w q then None else Some dW) m j =
    if passes_dec q (Rabs (A / 2 * response f (nth m sc 0) k n)) then Fin F else Inf).
  { intros m Hm. assert (Hab := Cabs_tone (A / 2 * response f (nth m sc 0) k n) phi k n j).
    rewrite <- HW in Hab by lia. rewrite <- Hab.
    destruct (passes_dec q (Cabs (el W m j))) as [Hy|Hn]; unfold passes in *;
      destruct (q_get_w q) eqn:Egw; unfold freq_at; cbn [o_gamma o_Sfs].
    - destruct Ew as (w' & -> & Ep). unfold phase_transform in Ep. rewrite Hd in Ep. injection Ep as <-.
      cbn [phase_cwt el]. destruct (Rlt_dec _ _); [lra|]. f_equal. apply Hpt; [lia|exact Hy].
    - destruct Ew as (-> & _). destruct (Rlt_dec _ _); [|lra]. f_equal. apply Hpt; [lia|lra].
    - destruct Ew as (w' & -> & Ep). unfold phase_transform in Ep. rewrite Hd in Ep. injection Ep as <-.
      cbn [phase_cwt el]. destruct (Rlt_dec _ _); [reflexivity|lra].
    - destruct Ew as (-> & _). destruct (Rlt_dec _ _); [lra|reflexivity]. }
  set (o := SO _ _ _ _ _ _ _ _ _ _ _) in *.
  assert (Hflip : flip_row (q_flip q) (Z.of_nat (nrows W) - 1)
     (match w with Some _ => bin_onfly (Z.of_nat (nrows W) - 1) g | None => bin_fast (Z.of_nat (nrows W) - 1) g end F)
     = Z.of_nat row).
  { rewrite Hfl. unfold flip_row. destruct w; rewrite ?Bf; fold b; unfold row; lia. }
  rewrite (Csum_ext (nrows W) _ (fun m => if (i =? row)%nat then
     Cmul (RtoC (A / 2 * (if passes_dec q (Rabs (A / 2 * response f (nth m sc 0) k n))
            then response f (nth m sc 0) k n * (ln 2 / IZR nv) else 0))) (analytic phi k n j) else C0)).
  - destruct (Nat.eqb_spec i row) as [->|Hne].
    + rewrite Csum_RtoC_scal. unfold gain. rewrite R2. reflexivity.
    + clear. induction (nrows W) as [|m IH]; [reflexivity|]. cbn [Csum]. rewrite IH. apply C_eq; simpl; ring.
  - intros m Hm. rewrite Hterm by exact Hm.
    destruct (passes_dec q _).
    + rewrite Hflip. rewrite nth_repeat_in by exact Hm. rewrite HW by lia.
      destruct (Z.eqb_spec (Z.of_nat row) (Z.of_nat i)), (Nat.eqb_spec i row); try (exfalso; lia); [|reflexivity].
      apply C_eq; simpl; ring.
    + destruct (Nat.eqb_spec i row); [|reflexivity]. apply C_eq; simpl; ring.
Qed.

(** ** The runs considered *)
(** a sampled cosine of [k] periods, unpadded; default squeezing, difftype and row order; an
    analytic wavelet with real spectrum, evaluated (not read from a cache); log scales; rows
    spaced by a constant ratio *)
Definition tone_run (ord : order) (py : bool) (f : wfun) (fam : nat -> wfun) (q : ssq_args) (A phi : R)
  (k n : nat) (s : cstate) (r : ssq_out) (s' : cstate) (fs : R) (nv : Z) : Prop :=
  valid_order ord /\ (0 < k)%nat /\ (2 * k < n)%nat /\
  (q_order q = None /\ q_sq q = SqSum /\ q_diff q = DTrig /\ q_pad q = None /\ q_flip q = true) /\
  0 < ssq_gamma q /\ (s_cache s = None \/ use_cache true (q_vec q) (q_cache q) = false) /\
  real_valued f /\ one_sided f (r_scales r) k n /\
  ssq_cwt ord py f fam q (tone A phi k n) s = (Ok r, s') /\
  process_fs_and_t (q_fs q) (q_t q) n = Ok fs /\
  process_scales_arr (q_f64 q) (r_scales r) = Ok (KLog nv) /\
  exists kind kk v d,
    ssq_scales (q_f64s q) (q_scales q) (q_kind q) (ssq_nv q) n = Ok (r_scales r, kind) /\
    ssq_freqs_of (ssq_o q fs (r_scales r) kind (q_f64 q)) n = Ok (kk, v, true) /\
    geometric v d /\ EPS64 <= d /\ length v = length (r_scales r) /\ reach_log v 0 (tone_freq fs k n).

(** row [row] is the tone's *)
Definition nearest_row (r : ssq_out) (F : R) (row : nat) : Prop :=
  (row < length (r_scales r))%nat /\ length (r_freqs r) = length (r_scales r) /\
  forall i, (i < length (r_scales r))%nat ->
    Rabs (log2 F - log2 (nth row (r_freqs r) 0)) <= Rabs (log2 F - log2 (nth i (r_freqs r) 0)).

Theorem tone_one_row ord py f fam q A phi k n s r s' fs nv : tone_run ord py f fam q A phi k n s r s' fs nv ->
  nrows (r_Tx r) = length (r_scales r) /\ ncols (r_Tx r) = n /\
  exists row, nearest_row r (tone_freq fs k n) row /\
    forall i j, (i < length (r_scales r))%nat -> (j < n)%nat ->
      el (r_Tx r) i j =
      if (i =? row)%nat
      then Cmul (RtoC (A / 2 * gain q f (r_scales r) nv A k n)) (analytic phi k n j) else C0.
Proof.
  intros (H1 & H2 & H3 & (H4 & H5 & H6 & H7 & H8) & H9 & H10 & H11 & H12 & H13 & H14 & H15 & kind & kk & v & d & H16 & H17 & H18 & H19 & H20 & H21).
  destruct (tone_squeezed ord py f fam q A phi k n s r s' fs kind nv kk v d H1 H2 H3 H4 H5 H6 H7 H8 H9 H10 H11 H12 H13 H14 H16 H15 H17 H18 H19 H20 H21)
    as (R1 & C1 & L1 & row & B1 & B2 & B3).
  split; [exact R1|]. split; [exact C1|]. exists row. split; [split; [exact B1|split; [exact L1|exact B2]]|exact B3].
Qed.

(** ** Inverting it *)
Lemma Re_analytic c phi k n j : Re (Cmul (RtoC c) (analytic phi k n j)) = c * cos (2 * PI * INR k * INR j / INR n + phi).
Proof. unfold analytic, cis, Cmul, RtoC, Re. simpl. ring. Qed.

Lemma tone_halves A G c Css : A / 2 * G * c * (2 / Css) = A * (G / Css) * c.
Proof. unfold Rdiv. generalize (/ Css). intros i. field. Qed.

Theorem tone_issq ord py f fam q A phi k n s r s' fs nv Css : tone_run ord py f fam q A phi k n s r s' fs nv ->
  issq_cwt Css (r_Tx r) None = Ok (One (tone (A * (gain q f (r_scales r) nv A k n / Css)) phi k n)).
Proof.
  intros H. destruct (tone_one_row _ _ _ _ _ _ _ _ _ _ _ _ _ _ H) as (R1 & C1 & row & (B1 & _) & B3).
  rewrite issq_full. do 2 f_equal. unfold tone. rewrite C1. apply tab_ext. intros j Hj. rewrite R1.
  rewrite (Rsum_single _ _ row B1).
  - rewrite B3, Nat.eqb_refl, Re_analytic by assumption. apply tone_halves.
  - intros i Hi Hne. rewrite B3 by assumption. destruct (Nat.eqb_spec i row); [contradiction|reflexivity].
Qed.

(** one component, following the tone's row to within its half-width at every time *)
Theorem tone_component ord py f fam q A phi k n s r s' fs nv Css : tone_run ord py f fam q A phi k n s r s' fs nv ->
  exists row, nearest_row r (tone_freq fs k n) row /\
  forall cc cw, nrows cc = n -> ncols cc = 1%nat -> nrows cw = n -> ncols cw = 1%nat ->
  (forall m, (m < n)%nat -> (0 <= el cc m 0%nat)%Z /\ (Z.abs (el cc m 0%nat - Z.of_nat row) <= el cw m 0%nat)%Z) ->
  exists x res, issq_cwt Css (r_Tx r) (Some (cc, cw)) = Ok (Many [x; res]) /\
    x = tone (A * (gain q f (r_scales r) nv A k n / Css)) phi k n /\ res = repeat 0 n.
Proof.
  intros H. destruct (tone_one_row _ _ _ _ _ _ _ _ _ _ _ _ _ _ H) as (R1 & C1 & row & B0 & B3).
  exists row. split; [exact B0|]. destruct B0 as (B1 & _). intros cc cw Hc1 Hc2 Hw1 Hw2 Hband.
  set (f' := fun l : list R => map (fun y => y * (2 / Css)) l).
  set (sum := fun g => tab (ncols (r_Tx r)) (fun m => Rsum (nrows (r_Tx r)) (fun i => Re (g i m)))).
  exists (f' (sum (masked (nrows (r_Tx r)) cc cw (r_Tx r) 0))), (f' (sum (remainder 1 (nrows (r_Tx r)) cc cw (r_Tx r)))).
  assert (Hin : forall m, (m < n)%nat -> in_band (nrows (r_Tx r)) cc cw 0 m row = true).
  { intros m Hm. destruct (Hband m Hm) as (P1 & P2). apply in_band_spec; [lia|lia|lia|]. unfold covers. lia. }
  split; [|split].
  - unfold issq_cwt, invert, invert_components. rewrite Hc2, Hc1, Hw1, Hw2, C1, !Nat.ltb_irrefl, !Nat.eqb_refl.
    cbn [Nat.eqb Nat.ltb Nat.leb orb negb bind seq map app scale_out]. unfold sum, f'. rewrite C1. reflexivity.
  - unfold f', sum, tone. rewrite C1. apply nth_ext with (d := 0) (d' := 0); [rewrite map_length, !tab_length; reflexivity|].
    intros j Hj. rewrite map_length, tab_length in Hj. rewrite nth_tab by exact Hj.
    set (h := fun y => y * (2 / Css)). rewrite (nth_indep _ 0 (h 0)) by (rewrite map_length, tab_length; exact Hj).
    rewrite map_nth, nth_tab by exact Hj. unfold h. rewrite R1.
    rewrite (Rsum_single _ _ row B1).
    + unfold masked. rewrite <- R1, Hin by exact Hj. rewrite B3, Nat.eqb_refl, Re_analytic by assumption. apply tone_halves.
    + intros i Hi Hne. unfold masked. destruct (in_band _ _ _ _ _ _); [|reflexivity].
      rewrite B3 by assumption. destruct (Nat.eqb_spec i row); [contradiction|reflexivity].
  - unfold f', sum. rewrite C1. apply nth_ext with (d := 0) (d' := 0); [rewrite map_length, tab_length, repeat_length; reflexivity|].
    intros j Hj. rewrite map_length, tab_length in Hj. rewrite nth_repeat.
    set (h := fun y => y * (2 / Css)). rewrite (nth_indep _ 0 (h 0)) by (rewrite map_length, tab_length; exact Hj).
    rewrite map_nth, nth_tab by exact Hj. unfold h. rewrite Rsum_0; [ring|].
    intros i Hi. rewrite R1 in Hi. destruct (Nat.eq_dec i row) as [->|Hne].
    + rewrite (proj2 (remainder_el 1 _ cc cw (r_Tx r) row j) 0%nat ltac:(lia) (Hin j Hj)). reflexivity.
    + cbn [remainder]. destruct (in_band _ _ _ _ _ _); [reflexivity|].
      rewrite B3 by assumption. destruct (Nat.eqb_spec i row); [contradiction|reflexivity].
Qed.

(** [icwt] of [cwt]: all scales count *)
Definition full_gain (f : wfun) (sc : list R) (nv : Z) (k n : nat) : R :=
  Rsum (length sc) (fun i => response f (nth i sc 0) k n * (ln 2 / IZR nv)).
Theorem tone_icwt py inst f a s A phi k n W sc dW s' f64 nv Css pt rp :
  (0 < k)%nat -> (2 * k < n)%nat -> a_pad a = None -> a_l1 a = true -> uncached inst a s -> real_valued f ->
  cwt py inst f a (tone A phi k n) s = (Ok (W, sc, dW), s') -> one_sided f sc k n ->
  process_scales_arr f64 sc = Ok (KLog nv) ->
  icwt f Css W sc f64 None true true None 0 pt rp = Ok (tone (A * (full_gain f sc nv k n / Css)) phi k n).
Proof.
  intros Hk H2k Hp Hl Hu Hr H Hos Hsc.
  pose proof (cwt_gmw _ _ _ _ _ _ _ _ H) as Hg. rewrite Hl in Hg.
  destruct (cwt_ncols _ _ _ _ _ _ _ _ _ _ H) as (Hn1 & Hn2). rewrite Hp, andb_false_r, tone_length in Hn2.
  rewrite icwt_log_one with (nv := nv); auto. f_equal. unfold tone.
  assert (Hn : ncols W = n) by (cbn in Hn2; lia).
  rewrite Hn. apply tab_ext. intros j Hj. rewrite Hn1. unfold full_gain. rewrite Rsum_scal_r.
  rewrite (Rsum_ext _ _ (fun i => response f (nth i sc 0) k n * (A / 2 * cos (2 * PI * INR k * INR j / INR n + phi)))).
  - rewrite Rsum_scal_r. unfold Rdiv. generalize (/ Css) (ln 2 * / IZR nv). intros u v. field.
  - intros i Hi. rewrite (cwt_tone py inst f a s A phi k n W sc dW s' i j); auto. rewrite Re_analytic. ring.
Qed.

(** the ridge of a squeezed tone *)
Theorem tone_ridge ord py f fam q A phi k n s r s' fs nv par (f64 : bool) penalty nr bw cwt o :
  tone_run ord py f fam q A phi k n s r s' fs nv ->
  A * gain q f (r_scales r) nv A k n <> 0 ->
  extract_ridges par f64 (r_Tx r) (r_freqs r) penalty nr bw cwt = Ok o ->
  sched_ok (length (r_scales r)) par -> (1 <= nr)%nat -> (length (r_scales r) <= n)%nat -> 0 <= penalty ->
  (Z.of_nat n <= (if f64 then 2 ^ 52 else 2 ^ 23))%Z ->
  exists row, nearest_row r (tone_freq fs k n) row /\ forall t, (t < n)%nat ->
    nth t (r_idx (nth 0 o ridge0)) 0%nat = row /\
    nth t (r_freq (nth 0 o ridge0)) 0 = nth row (r_freqs r) 0 /\
    nth t (r_energy (nth 0 o ridge0)) 0 = (A / 2 * gain q f (r_scales r) nv A k n) ^ 2.
Proof.
  intros H HA He Hs Hnr Hn Hpen HT.
  destruct (tone_one_row _ _ _ _ _ _ _ _ _ _ _ _ _ _ H) as (R1 & C1 & row & B0 & B3).
  exists row. split; [exact B0|]. destruct B0 as (B1 & _). intros t Ht.
  set (G := gain _ _ _ _ _ _ _) in *.
  destruct (row_found par f64 (r_Tx r) (r_freqs r) penalty nr bw cwt o row) with (t := t) as (E1 & E2 & E3); try assumption; try lia.
  - rewrite R1. exact Hs.
  - intros i j Hi Hj. rewrite B3 by lia. destruct (Nat.eqb_spec i row) as [->|Hne].
    + split; [|intros E; contradiction]. intros E. exfalso.
      assert (Habs := Cabs_tone (A / 2 * G) phi k n j). rewrite E, Cabs_0 in Habs.
      symmetry in Habs. destruct (Req_dec (A / 2 * G) 0) as [Z0|Z0]; [apply HA; lra|].
      apply Rabs_no_R0 in Z0. contradiction.
    + split; [intros _; exact Hne|reflexivity].
  - split; [exact E1|]. split; [exact E2|]. rewrite E3. unfold energy. rewrite B3, Nat.eqb_refl by lia.
    rewrite Cabs_tone. rewrite RPow_abs. rewrite Rabs_right; [reflexivity|]. apply Rle_ge, pow2_ge_0.
Qed.
