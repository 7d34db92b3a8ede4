(** What [issq_cwt] returns for [ssq_cwt]'s transform when some coefficients are below [gamma]
    (C34), and when the signal changes (C151). *)
From Coq Require Import Reals Lra Lia List ZifyBool ZifyNat.
Import ListNotations.
From Verif Require Import Py Round Parallel Cplx CplxProofs Padding PaddingProofs Buffer Freqs Squeeze SqueezeProofs
  SqueezeThms SqueezeThms2 SqueezeThms3 Scales Ssqueeze SsqueezeProofs IssqProofs FreqRange Cwt CwtProofs CwtThms CwtThms2 SsqCwt DiffProofs SsqCwtProofs
  SsqCwtInv ToneThms Separate SsqRoundTrip CwtEnergy.
Local Open Scope R_scope.

(** a coefficient, or nothing *)
Definition kept (q : ssq_args) (z : C) : C := if passes_dec q (Cabs z) then z else C0.

Lemma Cabs_C0 : Cabs C0 = 0.
Proof. apply Cabs_0. Qed.
Lemma kept_close q z : 0 <= ssq_gamma q -> Cabs (Csub (kept q z) z) <= ssq_gamma q.
Proof.
  intros Hg. unfold kept. destruct (passes_dec q (Cabs z)) as [H|H].
  - replace (Csub z z) with C0 by (apply C_eq; unfold Csub, Copp, Cadd, C0; cbn; ring). rewrite Cabs_C0. exact Hg.
  - replace (Csub C0 z) with (Copp z) by (apply C_eq; unfold Csub, Copp, Cadd, C0; cbn; ring).
    replace (Cabs (Copp z)) with (Cabs z) by (unfold Cabs; f_equal; unfold Copp, Cnorm2; cbn [fst snd]; ring).
    unfold passes in H. destruct (q_get_w q); lra.
Qed.
Lemma kept_stable q a b : 0 <= ssq_gamma q -> Cabs (Csub (kept q a) (kept q b)) <= Cabs (Csub a b) + ssq_gamma q.
Proof.
  intros Hg. unfold kept.
  assert (Hn : forall z, ~ passes q (Cabs z) -> Cabs z <= ssq_gamma q) by (intros z H; unfold passes in H; destruct (q_get_w q); lra).
  assert (Ho : forall u v, Cabs (Csub u v) = Cabs (Csub v u)).
  { intros u v. unfold Cabs. f_equal. unfold Csub, Copp, Cadd, Cnorm2. cbn [fst snd]. ring. }
  assert (Ht : forall u v, Cabs u <= Cabs (Csub u v) + Cabs v).
  { intros u v. replace u with (Cadd (Csub u v) v) at 1 by (apply C_eq; unfold Csub, Copp, Cadd; cbn; ring). apply Cabs_triangle. }
  assert (Hz : forall u, Cabs (Csub u C0) = Cabs u) by (intros u; f_equal; apply C_eq; unfold Csub, Copp, Cadd, C0; cbn; ring).
  destruct (passes_dec q (Cabs a)) as [Ha|Ha], (passes_dec q (Cabs b)) as [Hb|Hb].
  - lra.
  - rewrite Hz. specialize (Hn b Hb). specialize (Ht a b). lra.
  - rewrite Ho, Hz. specialize (Hn a Ha). specialize (Ht b a). rewrite (Ho b a) in Ht. lra.
  - rewrite Hz, Cabs_C0. pose proof (Cabs_nonneg (Csub a b)). lra.
Qed.

(** ** Column sums, with the coefficients below [gamma] left out *)
Lemma squeeze_col_kept ord o W w d Tx f sc nv k v ls (reach : R -> Prop) j : valid_order ord ->
  o_tr o = TCwt -> o_sq o = SqSum -> o_scales o = Some sc ->
  process_scales_arr (o_f64s o) sc = Ok (KLog nv) ->
  ssq_freqs_of o (ncols W) = Ok (k, v, ls) -> freq_grid (o_f64v o) v ls reach ->
  (ls = true -> length v <= nrows W)%nat -> (2 <= Z.of_nat (nrows W) < 2 ^ 62)%Z -> (j < ncols W)%nat ->
  (forall i r, (i < nrows W)%nat -> freq_at o W w d i j = Fin r -> reach r) ->
  ssqueeze ord o W w d = Ok (Tx, f) ->
  Csum (nrows W) (fun q => el Tx q j) =
  Csum (nrows W) (fun i => match freq_at o W w d i j with Fin _ => Cmul (el W i j) (RtoC (ln 2 / IZR nv)) | Inf => C0 end).
Proof.
  intros Ho Ht Hsq Hs Hp Hf Hg Hl Hm Hj Hr E.
  destruct (ssqueeze_inv _ _ _ _ _ _ _ E) as (k' & v' & ls' & Ef & _ & E1).
  rewrite Hf in Ef. injection Ef as <- <- <-.
  rewrite Hsq in E1. cbn [squeeze_input] in E1.
  destruct (one_cells _ _ _ _ _ _ _ _ _ Ho E1) as (H1 & H2 & cst & ca & g & Ec & Ea & Eg & Hcell).
  pose proof (ssq_freqs_kind _ _ _ _ _ _ _ Ht Hs Hp Hf) as ->.
  unfold ssq_const in Ec. rewrite Ht in Ec. injection Ec as <-.
  rewrite const_arr_scalar in Ea by lia. injection Ea as <-.
  destruct (bins_in_range _ _ _ _ (Z.of_nat (nrows W)) Hg ltac:(lia) ltac:(intros; specialize (Hl H); lia)) as (g' & Eg' & Hin).
  rewrite Eg in Eg'. injection Eg' as <-. cbv zeta in Hcell.
  rewrite (Csum_ext (nrows W) _ (fun q => Csum (nrows W) (fun i => match freq_at o W w d i j with
        | Inf => C0
        | Fin r => if (flip_row (o_flip o) (Z.of_nat (nrows W) - 1) (match w with Some _ => bin_onfly (Z.of_nat (nrows W) - 1) g | None => bin_fast (Z.of_nat (nrows W) - 1) g end r) =? Z.of_nat q)%Z
                   then Cmul (el W i j) (RtoC (nth i (repeat (ln 2 / IZR nv) (nrows W)) 0)) else C0 end)))
    by (intros q Hq; apply Hcell; assumption).
  rewrite Csum_swap. apply Csum_ext. intros i Hi.
  destruct (freq_at o W w d i j) as [r|] eqn:Er; [|apply Csum_C0]. rewrite nth_repeat_in by exact Hi.
  destruct (Hin r (Hr i r Hi Er) (o_flip o)) as (B1 & B2).
  set (b := flip_row _ _ _). assert (Hb : (0 <= b < Z.of_nat (nrows W))%Z) by (unfold b; destruct w; assumption).
  clearbody b. replace b with (Z.of_nat (Z.to_nat b)) by lia. apply Csum_hit. lia.
Qed.

(** a run of [ssq_cwt] whose scales are log-spaced, and whose bins catch every frequency found *)
Definition caught (ord : order) (py : bool) (f : wfun) (fam : nat -> wfun) (q : ssq_args) (nv : Z) (x : list R) (s : cstate)
  (r : ssq_out) (s' : cstate) : Prop :=
  ssq_cwt ord py f fam q x s = (Ok r, s') /\
  exists fs kind k v ls reach,
    process_fs_and_t (q_fs q) (q_t q) (length x) = Ok fs /\
    ssq_scales (q_f64s q) (q_scales q) (q_kind q) (ssq_nv q) (length x) = Ok (r_scales r, kind) /\
    process_scales_arr (q_f64 q) (r_scales r) = Ok (KLog nv) /\
    ssq_freqs_of (ssq_o q fs (r_scales r) kind (q_f64 q)) (length x) = Ok (k, v, ls) /\
    freq_grid (q_f64v q) v ls reach /\ (ls = true -> length v <= length (r_scales r))%nat /\
    (Z.of_nat (length (r_scales r)) < 2 ^ 62)%Z /\
    forall i j a, (i < length (r_scales r))%nat -> (j < length x)%nat -> passes q (Cabs (el (r_Wx r) i j)) ->
      found r i j = Fin a -> reach a.

Lemma ssq_kept ord py f fam q nv x s r s' : valid_order ord ->
  q_order q = None -> q_sq q = SqSum -> q_diff q <> DNumeric -> caught ord py f fam q nv x s r s' ->
  (forall Css, exists y, issq_cwt Css (r_Tx r) None = Ok (One y) /\ length y = length x /\
     forall j, (j < length x)%nat ->
       nth j y 0 = 2 / Css * (ln 2 / IZR nv) * Re (Csum (length (r_scales r)) (fun i => kept q (el (r_Wx r) i j)))) /\
  nrows (r_Wx r) = length (r_scales r) /\ ncols (r_Wx r) = length x /\
  process_scales_arr (q_f64 q) (r_scales r) = Ok (KLog nv) /\ check_gmw f true = Ok tt.
Proof.
  intros Ho Hq Hsq Hd (H & fs & kind & k & v & ls & reach & Hfs & Hscs & Hp & Hf & Hg & Hl & Hm & Hc).
  assert (Hsk : shape_keeping (q_sq q)) by (rewrite Hsq; exact I).
  destruct (ssq_cols_plain _ _ _ _ _ _ _ _ _ Ho Hsk Hq Hd H) as (C1 & C2 & R1 & R2).
  destruct (ssq_cwt_inv _ _ _ _ _ _ _ _ _ Hq H) as (kd & fs' & sc & kind' & W & dW & Hk & Hfs' & Hsc' & Hcw & Hst).
  rewrite Hfs in Hfs'. injection Hfs' as <-.
  assert (En : numeric q = false) by (unfold numeric; destruct (q_diff q); congruence).
  destruct (step_inv _ _ _ _ _ _ _ _ _ _ _ Hk Hst) as (w & Tx & Es & E1 & E2 & E3 & E4 & E5 & Ew).
  assert (Ec : forall T (V : mat T), crop (q_diff q) V = V) by (intros; unfold crop; destruct (q_diff q); congruence).
  rewrite Ec in E1, E2. rewrite E3 in *. rewrite Hscs in Hsc'. injection Hsc' as <-.
  assert (E4' : r_w r = w) by (rewrite E4; destruct w; cbn; rewrite ?Ec; reflexivity).
  unfold squeezed in Es, Ew. rewrite En in Es, Ew. rewrite E1, E2 in *.
  pose proof (process_log_len _ _ _ Hp) as Hlen.
  split; [|split; [exact R2|split; [exact C2|split; [exact Hp|apply (cwt_gmw _ _ _ _ _ _ _ _ Hcw)]]]].
  intros Css. rewrite issq_full. eexists. split; [reflexivity|]. rewrite tab_length. split; [exact C1|].
  intros j Hj. rewrite nth_tab by lia.
  assert (Hcol : Csum (nrows W) (fun q => el Tx q j) = Csum (nrows W) (fun i => Cmul (kept q (el W i j)) (RtoC (ln 2 / IZR nv)))).
  { assert (Hat : forall i, freq_at (ssq_o q fs sc kind (q_f64 q)) W w (if q_get_w q then None else Some dW) i j =
              (if passes_dec q (Cabs (el W i j)) then found r i j else Inf) /\
              (passes q (Cabs (el W i j)) -> exists a, found r i j = Fin a)).
    { intros i. unfold found. rewrite E4', E5, E2. unfold freq_at. cbn [ssq_o o_gamma o_Sfs].
      destruct (passes_dec q (Cabs (el W i j))) as [G|G]; unfold passes in *; destruct (q_get_w q) eqn:Egw.
      - destruct Ew as (w' & -> & Ep). split; [reflexivity|]. intros _.
        unfold phase_transform in Ep. unfold numeric in En. destruct (q_diff q).
        + injection Ep as <-. cbn [phase_cwt el]. destruct (Rlt_dec _ _); [lra|eauto].
        + unfold phase_phase in Ep. destruct (ncols W =? 0)%nat; [discriminate|]. cbn [bind] in Ep. injection Ep as <-.
          cbn [el]. destruct (Rlt_dec _ _); [lra|eauto].
        + congruence.
      - destruct Ew as (-> & _). destruct (Rlt_dec _ _); [|lra]. split; [reflexivity|eauto].
      - destruct Ew as (w' & -> & Ep). split; [|tauto].
        unfold phase_transform in Ep. unfold numeric in En. destruct (q_diff q).
        + injection Ep as <-. cbn [phase_cwt el]. destruct (Rlt_dec _ _); [reflexivity|lra].
        + unfold phase_phase in Ep. destruct (ncols W =? 0)%nat; [discriminate|]. cbn [bind] in Ep. injection Ep as <-.
          cbn [el]. destruct (Rlt_dec _ _); [reflexivity|lra].
        + congruence.
      - destruct Ew as (-> & _). destruct (Rlt_dec _ _); [lra|]. split; [reflexivity|tauto]. }
    rewrite (squeeze_col_kept ord (ssq_o q fs sc kind (q_f64 q)) W w (if q_get_w q then None else Some dW) Tx (r_freqs r) sc nv k v ls reach j);
      cbn [ssq_o o_tr o_sq o_scales o_f64s o_f64v]; auto; try lia.
    - apply Csum_ext. intros i Hi. destruct (Hat i) as (A & B).
      change (freq_at _ W w (if q_get_w q then None else Some dW) i j) with (freq_at (ssq_o q fs sc kind (q_f64 q)) W w (if q_get_w q then None else Some dW) i j).
      rewrite A. unfold kept. destruct (passes_dec q (Cabs (el W i j))) as [G|G].
      + destruct (B G) as (a & ->). reflexivity.
      + apply C_eq; unfold Cmul, RtoC, C0; cbn; ring.
    - rewrite C2. exact Hf.
    - intros i a Hi. destruct (Hat i) as (A & B).
      change (freq_at _ W w (if q_get_w q then None else Some dW) i j) with (freq_at (ssq_o q fs sc kind (q_f64 q)) W w (if q_get_w q then None else Some dW) i j).
      rewrite A. destruct (passes_dec q (Cabs (el W i j))) as [G|G]; [|discriminate].
      apply Hc; [lia|exact Hj|exact G]. }
  rewrite R1. rewrite R2 in Hcol. rewrite (col_sum_re _ (fun i => el Tx i j) (fun i => kept q (el W i j)) _ Hcol).
  rewrite Re_Csum. ring.
Qed.

Lemma Re_Csum_diff n g h : Rabs (Re (Csum n g) - Re (Csum n h)) <= Rsum n (fun i => Cabs (Csub (g i) (h i))).
Proof.
  replace (Re (Csum n g) - Re (Csum n h)) with (Re (Csum n (fun i => Csub (g i) (h i)))).
  - eapply Rle_trans; [apply Re_le_Cabs|apply Cabs_Csum].
  - rewrite !Re_Csum. rewrite <- Rsum_sub. apply Rsum_ext. intros i _. unfold Csub, Copp, Cadd, Re. cbn [fst]. ring.
Qed.
Lemma weight_pos f64 sc nv : process_scales_arr f64 sc = Ok (KLog nv) -> 0 < ln 2 / IZR nv.
Proof.
  intros H. apply process_log_pos in H. apply Rdiv_lt_0_compat; [|apply IZR_lt; lia].
  rewrite <- ln_1. apply ln_increasing; lra.
Qed.

(** ** [issq_cwt] against [icwt], whatever [gamma] *)
Theorem issq_icwt_gamma ord py f fam q nv x s r s' Css pt rp : valid_order ord ->
  q_order q = None -> q_sq q = SqSum -> q_diff q <> DNumeric -> 0 <= ssq_gamma q -> Css <> 0 ->
  caught ord py f fam q nv x s r s' ->
  exists y z, issq_cwt Css (r_Tx r) None = Ok (One y) /\
    icwt f Css (r_Wx r) (r_scales r) (q_f64 q) None true true None 0 pt rp = Ok z /\
    length y = length x /\ length z = length x /\
    forall j, (j < length x)%nat ->
      Rabs (nth j y 0 - nth j z 0) <= 2 / Rabs Css * (ln 2 / IZR nv) * (INR (length (r_scales r)) * ssq_gamma q).
Proof.
  intros Ho Hq Hsq Hd Hg HC Hr. destruct (ssq_kept _ _ _ _ _ _ _ _ _ _ Ho Hq Hsq Hd Hr) as (Hy & R1 & R2 & Hp & Hgm).
  destruct (Hy Css) as (y & Ey & Ly & Hv). exists y. eexists. split; [exact Ey|].
  split; [apply icwt_log_one; [exact Hgm|exact Hp|congruence]|]. rewrite tab_length. split; [exact Ly|]. split; [exact R2|].
  intros j Hj. rewrite Hv by exact Hj. rewrite nth_tab by lia. rewrite R1.
  pose proof (weight_pos _ _ _ Hp) as Hw. set (c := ln 2 / IZR nv) in *. set (L := length (r_scales r)).
  rewrite <- (Re_Csum L (fun i => el (r_Wx r) i j)).
  match goal with |- Rabs (?k * ?a - ?b * ?k) <= _ => replace (k * a - b * k) with (k * (a - b)) by ring end.
  rewrite Rabs_mult. rewrite Rabs_mult. unfold Rdiv at 1. rewrite Rabs_mult, Rabs_inv, (Rabs_pos_eq 2), (Rabs_pos_eq c) by lra.
  apply Rmult_le_compat_l.
  { apply Rmult_le_pos; [|lra]. apply Rlt_le, Rmult_lt_0_compat; [lra|]. apply Rinv_0_lt_compat, Rabs_pos_lt, HC. }
  eapply Rle_trans; [apply Re_Csum_diff|].
  eapply Rle_trans; [apply Rsum_le; intros i _; apply (kept_close q _ Hg)|]. rewrite Rsum_const. lra.
Qed.

(** ** Two signals *)
Theorem issq_moves ord py f fam q nv x y s rx sx ry sy Css : valid_order ord ->
  q_order q = None -> q_sq q = SqSum -> q_diff q <> DNumeric -> 0 <= ssq_gamma q -> Css <> 0 -> length x = length y ->
  caught ord py f fam q nv x s rx sx -> caught ord py f fam q nv y s ry sy ->
  exists u v, issq_cwt Css (r_Tx rx) None = Ok (One u) /\ issq_cwt Css (r_Tx ry) None = Ok (One v) /\
    length u = length x /\ length v = length x /\
    forall j, (j < length x)%nat ->
      Rabs (nth j u 0 - nth j v 0) <= 2 / Rabs Css * (ln 2 / IZR nv) *
        Rsum (length (r_scales rx)) (fun i => Cabs (Csub (el (r_Wx rx) i j) (el (r_Wx ry) i j)) + ssq_gamma q).
Proof.
  intros Ho Hq Hsq Hd Hg HC HL Hx Hy.
  destruct (ssq_kept _ _ _ _ _ _ _ _ _ _ Ho Hq Hsq Hd Hx) as (Ax & R1 & R2 & Hp & _).
  destruct (ssq_kept _ _ _ _ _ _ _ _ _ _ Ho Hq Hsq Hd Hy) as (Ay & _).
  assert (Es : r_scales ry = r_scales rx).
  { destruct Hx as (_ & ? & ? & ? & ? & ? & ? & _ & Sx & _). destruct Hy as (_ & ? & ? & ? & ? & ? & ? & _ & Sy & _).
    rewrite <- HL in Sy. congruence. }
  destruct (Ax Css) as (u & Eu & Lu & Hu). destruct (Ay Css) as (v & Ev & Lv & Hv). exists u, v.
  split; [exact Eu|]. split; [exact Ev|]. split; [exact Lu|]. split; [lia|].
  intros j Hj. rewrite Hu by exact Hj. rewrite Hv by lia. rewrite Es.
  pose proof (weight_pos _ _ _ Hp) as Hw. set (c := ln 2 / IZR nv) in *. set (L := length (r_scales rx)).
  rewrite <- Rmult_minus_distr_l.
  rewrite Rabs_mult. rewrite Rabs_mult. unfold Rdiv at 1. rewrite Rabs_mult, Rabs_inv, (Rabs_pos_eq 2), (Rabs_pos_eq c) by lra.
  apply Rmult_le_compat_l.
  { apply Rmult_le_pos; [|lra]. apply Rlt_le, Rmult_lt_0_compat; [lra|]. apply Rinv_0_lt_compat, Rabs_pos_lt, HC. }
  eapply Rle_trans; [apply Re_Csum_diff|]. apply Rsum_le. intros i _. apply (kept_stable q _ _ Hg).
Qed.

Theorem issq_stable ord py f fam q nv x y s rx sx ry sy Css P : valid_order ord ->
  q_order q = None -> q_sq q = SqSum -> q_diff q <> DNumeric -> 0 <= ssq_gamma q -> Css <> 0 -> length x = length y ->
  real_valued f -> s_cache s = None \/ use_cache true (q_vec q) (q_cache q) = false -> 0 <= P -> (forall w, Cabs (wf f w) <= P) ->
  caught ord py f fam q nv x s rx sx -> caught ord py f fam q nv y s ry sy ->
  exists u v zp n1, issq_cwt Css (r_Tx rx) None = Ok (One u) /\ issq_cwt Css (r_Tx ry) None = Ok (One v) /\
    pad_input (q_pad q) (lin 1 (-1) x y) = Ok (zp, n1) /\
    forall j, (j < length x)%nat ->
      Rabs (nth j u 0 - nth j v 0) <= 2 / Rabs Css * (ln 2 / IZR nv) * INR (length (r_scales rx)) *
        (P * sqrt (Rsum (length zp) (fun m => nth m zp 0 ^ 2)) + ssq_gamma q).
Proof.
  intros Ho Hq Hsq Hd Hg HC HL Hf Hs HP HfP Hx Hy.
  destruct (issq_moves _ _ _ _ _ _ _ _ _ _ _ _ _ Css Ho Hq Hsq Hd Hg HC HL Hx Hy) as (u & v & Eu & Ev & Lu & Lv & Hb).
  destruct Hx as (Hx & fs & kind & k & v0 & ls & reach & Hfs & Hsc & Hp & _). destruct Hy as (Hy & _).
  assert (En : numeric q = false) by (unfold numeric; destruct (q_diff q); congruence).
  assert (Ec : forall T (V : mat T), crop (q_diff q) V = V) by (intros; unfold crop; destruct (q_diff q); congruence).
  destruct (ssq_cwt_inv _ _ _ _ _ _ _ _ _ Hq Hx) as (kd & fs1 & sc1 & kind1 & W & dW & Hk & Hfs1 & Hsc1 & Hcw & Hst).
  destruct (ssq_cwt_inv _ _ _ _ _ _ _ _ _ Hq Hy) as (kd2 & fs2 & sc2 & kind2 & V & dV & Hk2 & Hfs2 & Hsc2 & Hcv & Hst2).
  rewrite <- HL in Hfs2, Hsc2. rewrite Hfs in Hfs1, Hfs2. injection Hfs1 as <-. injection Hfs2 as <-.
  rewrite Hsc in Hsc1, Hsc2. injection Hsc1 as <- <-. injection Hsc2 as <- <-.
  destruct (step_inv _ _ _ _ _ _ _ _ _ _ _ Hk Hst) as (_ & _ & _ & _ & E2 & _). rewrite Ec in E2.
  destruct (step_inv _ _ _ _ _ _ _ _ _ _ _ Hk2 Hst2) as (_ & _ & _ & _ & E2' & _). rewrite Ec in E2'.
  destruct (cwt_ncols _ _ _ _ _ _ _ _ _ _ Hcw) as (_ & Hn). cbn [inner a_rpadded] in Hn. rewrite En in Hn. cbn [andb] in Hn.
  match type of Hcw with cwt py true f ?a0 x s = _ => set (a := a0) in * end.
  assert (Hu : uncached true a s) by exact Hs.
  destruct (cwt_stable py true f a x y s W (r_scales rx) (Some dW) sx P Hf Hu HL Hcw ltac:(discriminate) HP HfP)
    as (V' & dV' & zp & n1 & EV & Hc' & Hpad & Hrow).
  rewrite Hcv in EV. injection EV as <- _ _.
  exists u, v, zp, n1. split; [exact Eu|]. split; [exact Ev|]. split; [exact Hpad|].
  intros j Hj. eapply Rle_trans; [apply Hb, Hj|]. rewrite (Rmult_assoc (2 / Rabs Css * (ln 2 / IZR nv))). apply Rmult_le_compat_l.
  { apply Rmult_le_pos; [|apply Rlt_le, (weight_pos _ _ _ Hp)]. apply Rlt_le, Rmult_lt_0_compat; [lra|]. apply Rinv_0_lt_compat, Rabs_pos_lt, HC. }
  eapply Rle_trans; [apply Rsum_le with (g := fun _ => P * sqrt (Rsum (length zp) (fun m => nth m zp 0 ^ 2)) + ssq_gamma q)|].
  2:{ rewrite Rsum_const. lra. }
  intros i Hi. apply Rplus_le_compat_r. rewrite E2, E2'.
  set (E := Rsum (length zp) (fun m => nth m zp 0 ^ 2)) in *.
  assert (HE : 0 <= E) by (apply Rsum_nonneg; intros; apply pow2_ge_0).
  rewrite <- (sqrt_pow2 P HP), <- sqrt_mult by (try apply pow2_ge_0; exact HE). unfold Cabs. apply sqrt_le_1_alt.
  specialize (Hrow i Hi). cbn [a inner a_l1 norm_gain] in Hrow. rewrite Rmult_1_l in Hrow.
  eapply Rle_trans; [|exact Hrow].
  pose proof (Rsum_part (ncols W) 1 j (fun j => Cnorm2 (Csub (el W i j) (el V i j))) ltac:(lia) ltac:(intros; apply Cnorm2_nonneg)) as Hone.
  cbn [Rsum] in Hone. rewrite Nat.add_0_r, Rplus_0_l in Hone. exact Hone.
Qed.
