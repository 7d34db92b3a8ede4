(** [issq_cwt] after [ssq_cwt] when some coefficients are below [gamma]. *)
From Coq Require Import Reals Lra Lia ZifyBool ZifyNat.
From Verif Require Import Py Round Parallel Cplx CplxProofs Padding PaddingProofs Buffer Freqs Squeeze SqueezeProofs
  SqueezeThms SqueezeThms2 SqueezeThms3 Scales ScaleThms Ssqueeze SsqueezeProofs IssqProofs FreqRange Cwt CwtProofs CwtThms CwtThms2 SsqCwt DiffProofs SsqCwtProofs
  SsqCwtInv Wavelets Admiss AdmissThms2 AdmissThms3 Integral RoundTrip RoundTripGain GmwRoundTrip DefaultRoundTrip.
Local Open Scope R_scope.

(** column sums of [ssqueeze]: cells without a frequency are left out *)
Lemma squeeze_col_sum_drop ord o W w d Tx f sc nv k v ls (reach : R -> Prop) j : valid_order ord ->
  o_tr o = TCwt -> o_sq o = SqSum -> o_scales o = Some sc ->
  process_scales_arr (o_f64s o) sc = Ok (KLog nv) ->
  ssq_freqs_of o (ncols W) = Ok (k, v, ls) -> freq_grid (o_f64v o) v ls reach ->
  (ls = true -> length v <= nrows W)%nat -> (2 <= Z.of_nat (nrows W) < 2 ^ 62)%Z -> (j < ncols W)%nat ->
  (forall i r, (i < nrows W)%nat -> freq_at o W w d i j = Fin r -> reach r) ->
  ssqueeze ord o W w d = Ok (Tx, f) ->
  Csum (nrows W) (fun q => el Tx q j) =
  Csum (nrows W) (fun i => match freq_at o W w d i j with Inf => C0 | Fin _ => Cmul (el W i j) (RtoC (ln 2 / IZR nv)) end).
Proof.
  intros Ho Ht Hsq Hs Hp Hf Hg Hl Hm Hj Hr E.
  destruct (ssqueeze_inv _ _ _ _ _ _ _ E) as (k' & v' & ls' & Ef & _ & E1).
  rewrite Hf in Ef. injection Ef as <- <- <-.
  rewrite Hsq in E1. cbn [squeeze_input] in E1.
  destruct (one_cells _ _ _ _ _ _ _ _ _ Ho E1) as (H1 & H2 & cst & ca & g & Ec & Ea & Eg & Hcell).
  pose proof (ssq_freqs_kind _ _ _ _ _ _ _ Ht Hs Hp Hf) as ->.
  unfold ssq_const in Ec. rewrite Ht in Ec. injection Ec as <-.
  rewrite const_arr_scalar in Ea by lia. injection Ea as <-.
  destruct (bins_in_range _ _ _ _ (Z.of_nat (nrows W)) Hg ltac:(lia) ltac:(intros; specialize (Hl H); lia)) as (g' & Eg' & Hin).
  rewrite Eg in Eg'. injection Eg' as <-. cbv zeta in Hcell.
  rewrite (Csum_ext (nrows W) _ (fun q => Csum (nrows W) (fun i => match freq_at o W w d i j with
        | Inf => C0
        | Fin r => if (flip_row (o_flip o) (Z.of_nat (nrows W) - 1) (match w with Some _ => bin_onfly (Z.of_nat (nrows W) - 1) g | None => bin_fast (Z.of_nat (nrows W) - 1) g end r) =? Z.of_nat q)%Z
                   then Cmul (el W i j) (RtoC (nth i (repeat (ln 2 / IZR nv) (nrows W)) 0)) else C0 end)))
    by (intros q Hq; apply Hcell; assumption).
  rewrite Csum_swap. apply Csum_ext. intros i Hi.
  destruct (freq_at o W w d i j) as [r|] eqn:Er.
  2:{ apply Csum_0. reflexivity. }
  specialize (Hr i r Hi Er). rewrite nth_repeat_in by exact Hi.
  destruct (Hin r Hr (o_flip o)) as (B1 & B2).
  set (b := flip_row _ _ _). assert (Hb : (0 <= b < Z.of_nat (nrows W))%Z) by (unfold b; destruct w; assumption).
  clearbody b. replace b with (Z.of_nat (Z.to_nat b)) by lia. apply Csum_hit. lia.
Qed.

Lemma Rsum_sub n f g : Rsum n (fun i => f i - g i) = Rsum n f - Rsum n g.
Proof. induction n as [|n IH]; cbn [Rsum]; [ring|]. rewrite IH. ring. Qed.
Lemma Re_le_Cabs z : Rabs (Re z) <= Cabs z.
Proof.
  unfold Cabs, Cnorm2. rewrite <- sqrt_Rsqr_abs. apply sqrt_le_1_alt. unfold Rsqr. pose proof (Rle_0_sqr (Im z)). unfold Rsqr in *. unfold Re, Im in *. nra.
Qed.

(** [issq_cwt] differs from [icwt] by the dropped coefficients: at most [gamma] per scale *)
Theorem issq_near_icwt ord py f fam q x s r s' fs kind nv k v ls reach Css pt rp : valid_order ord ->
  q_order q = None -> q_sq q = SqSum -> q_diff q <> DNumeric -> 0 <= ssq_gamma q ->
  ssq_cwt ord py f fam q x s = (Ok r, s') ->
  process_fs_and_t (q_fs q) (q_t q) (length x) = Ok fs ->
  ssq_scales (q_f64s q) (q_scales q) (q_kind q) (ssq_nv q) (length x) = Ok (r_scales r, kind) ->
  process_scales_arr (q_f64 q) (r_scales r) = Ok (KLog nv) ->
  ssq_freqs_of (ssq_o q fs (r_scales r) kind (q_f64 q)) (length x) = Ok (k, v, ls) ->
  freq_grid (q_f64v q) v ls reach -> (ls = true -> length v <= length (r_scales r))%nat ->
  (Z.of_nat (length (r_scales r)) < 2 ^ 62)%Z ->
  (forall i j a, (i < length (r_scales r))%nat -> (j < length x)%nat ->
     ssq_gamma q <= Cabs (el (r_Wx r) i j) -> found r i j = Fin a -> reach a) ->
  exists y z, issq_cwt Css (r_Tx r) None = Ok (One y) /\
    icwt f Css (r_Wx r) (r_scales r) (q_f64 q) None true true None 0 pt rp = Ok z /\ length y = length x /\ length z = length x /\
    forall j, (j < length x)%nat ->
      Rabs (nth j y 0 - nth j z 0) <= INR (length (r_scales r)) * ssq_gamma q * (ln 2 / IZR nv) * (2 / Rabs Css).
Proof.
  intros Ho Hq Hsq Hd Hgm H Hfs Hscs Hp Hf Hg Hl Hm Hc.
  assert (Hsk : shape_keeping (q_sq q)) by (rewrite Hsq; exact I).
  destruct (ssq_cols_plain _ _ _ _ _ _ _ _ _ Ho Hsk Hq Hd H) as (C1 & C2 & R1 & R2).
  destruct (ssq_cwt_inv _ _ _ _ _ _ _ _ _ Hq H) as (kd & fs' & sc & kind' & W & dW & Hk & Hfs' & Hsc' & Hcw & Hst).
  rewrite Hfs in Hfs'. injection Hfs' as <-.
  assert (En : numeric q = false) by (unfold numeric; destruct (q_diff q); congruence).
  destruct (step_inv _ _ _ _ _ _ _ _ _ _ _ Hk Hst) as (w & Tx & Es & E1 & E2 & E3 & E4 & E5 & Ew).
  assert (Ec : forall T (V : mat T), crop (q_diff q) V = V) by (intros; unfold crop; destruct (q_diff q); congruence).
  rewrite Ec in E1, E2. rewrite E3 in *. rewrite Hscs in Hsc'. injection Hsc' as <-.
  assert (E4' : r_w r = w) by (rewrite E4; destruct w; cbn; rewrite ?Ec; reflexivity).
  unfold squeezed in Es, Ew. rewrite En in Es, Ew. rewrite E1, E2 in *.
  pose proof (process_log_len _ _ _ Hp) as Hlen. pose proof (process_log_pos _ _ _ Hp) as Hnv.
  set (o := ssq_o q fs sc kind (q_f64 q)) in *. set (d := if q_get_w q then None else Some dW) in *.
  assert (Hfin : forall i j, (i < length sc)%nat -> (j < length x)%nat -> match freq_at o W w d i j with
            | Inf => Cabs (el W i j) <= ssq_gamma q | Fin a => reach a end).
  { intros i j Hi Hj. specialize (Hc i j). unfold found in Hc. rewrite E4', E5, E2 in Hc. unfold freq_at, d. cbn [o ssq_o o_gamma o_Sfs].
    destruct (q_get_w q) eqn:Egw.
    - destruct Ew as (w' & -> & Ep).
      assert (Hw : match el w' i j with Inf => Cabs (el W i j) < ssq_gamma q | Fin _ => ssq_gamma q <= Cabs (el W i j) end).
      { unfold phase_transform in Ep. unfold numeric in En. destruct (q_diff q).
        - injection Ep as <-. cbn [phase_cwt el]. destruct (Rlt_dec _ _); lra.
        - unfold phase_phase in Ep. destruct (ncols W =? 0)%nat; [discriminate|]. cbn [bind] in Ep. injection Ep as <-.
          cbn [el]. destruct (Rlt_dec _ _); lra.
        - congruence. }
      destruct (el w' i j) as [a|] eqn:Ea; [|lra]. apply (Hc a Hi Hj Hw). reflexivity.
    - destruct Ew as (-> & _). destruct (Rlt_dec _ _); [|lra]. apply Hc; [exact Hi|exact Hj|lra|reflexivity]. }
  exists (tab (ncols W) (fun j => Rsum (nrows W) (fun i => Re (el Tx i j)) * (2 / Css))).
  exists (tab (ncols W) (fun j => Rsum (nrows W) (fun i => Re (el W i j)) * (2 / Css * (ln 2 / IZR nv)))).
  split; [|split; [|split; [|split]]].
  - rewrite issq_full. rewrite C1, C2, R1, R2. reflexivity.
  - apply icwt_log_one; [|exact Hp|lia]. apply (cwt_gmw _ _ _ _ _ _ _ _ Hcw).
  - rewrite tab_length. exact C2.
  - rewrite tab_length. exact C2.
  - intros j Hj. rewrite !nth_tab by lia.
    assert (Hcol : Csum (nrows W) (fun q => el Tx q j) =
        Csum (nrows W) (fun i => match freq_at o W w d i j with Inf => C0 | Fin _ => Cmul (el W i j) (RtoC (ln 2 / IZR nv)) end)).
    { apply (squeeze_col_sum_drop ord o W w d Tx (r_freqs r) sc nv k v ls reach j);
        cbn [o ssq_o o_tr o_sq o_scales o_f64s o_f64v]; auto; try lia.
      - rewrite C2. exact Hf.
      - intros i a Hi Ea. specialize (Hfin i j ltac:(lia) Hj). rewrite Ea in Hfin. exact Hfin. }
    apply (f_equal Re) in Hcol. rewrite !Re_Csum in Hcol. rewrite Hcol. rewrite R2.
    set (c := ln 2 / IZR nv). assert (Hcp : 0 < c).
    { unfold c. apply Rdiv_lt_0_compat; [apply ln2_pos|apply IZR_lt; lia]. }
    replace (Rsum (length sc) (fun i => Re (el W i j)) * (2 / Css * c)) with (Rsum (length sc) (fun i => Re (el W i j) * c) * (2 / Css))
      by (rewrite Rsum_scal_r; ring).
    rewrite <- Rmult_minus_distr_r, <- Rsum_sub, Rabs_mult.
    replace (Rabs (2 / Css)) with (2 / Rabs Css).
    2:{ unfold Rdiv. rewrite Rabs_mult, Rabs_inv, (Rabs_right 2) by lra. reflexivity. }
    apply Rmult_le_compat_r.
    { destruct (Req_dec Css 0) as [->|Hne]; [rewrite Rabs_R0; unfold Rdiv; rewrite Rinv_0; lra|].
      left. apply Rdiv_lt_0_compat; [lra|apply Rabs_pos_lt, Hne]. }
    eapply Rle_trans; [apply Rsum_abs|]. rewrite Rmult_assoc, <- Rsum_const. apply Rsum_le. intros i Hi. specialize (Hfin i j Hi Hj).
    destruct (freq_at o W w d i j) as [a|].
    + replace (Re (Cmul (el W i j) (RtoC c)) - Re (el W i j) * c) with 0 by (unfold Re, Cmul, RtoC; cbn [fst snd]; ring).
      rewrite Rabs_R0. apply Rmult_le_pos; [|lra]. exact Hgm.
    + unfold C0 at 1. cbn [Re fst]. replace (0 - Re (el W i j) * c) with (- (Re (el W i j) * c)) by ring. rewrite Rabs_Ropp, Rabs_mult, (Rabs_right c) by lra.
      apply Rmult_le_compat_r; [lra|]. eapply Rle_trans; [apply Re_le_Cabs|exact Hfin].
Qed.

(** the default wavelet with the library's log scales, 32 voices or more: [issq_cwt (ssq_cwt x)] *)
Theorem default_ssq_round_trip ord py fam q x s r s' fs kind nv k v ls reach xp n1 mn mx fds ds Css : valid_order ord ->
  q_order q = None -> q_sq q = SqSum -> q_diff q <> DNumeric -> 0 <= ssq_gamma q ->
  (s_cache s = None \/ use_cache true (q_vec q) (q_cache q) = false) ->
  ssq_cwt ord py (gmw_wave gmw60) fam q x s = (Ok r, s') ->
  process_fs_and_t (q_fs q) (q_t q) (length x) = Ok fs ->
  ssq_scales (q_f64s q) (q_scales q) (q_kind q) (ssq_nv q) (length x) = Ok (r_scales r, kind) ->
  0 < mn < mx -> (32 <= nv)%Z -> make_scales mn mx nv SLog fds ds = Ok (r_scales r) -> (3 <= length (r_scales r))%nat ->
  ssq_freqs_of (ssq_o q fs (r_scales r) kind (q_f64 q)) (length x) = Ok (k, v, ls) ->
  freq_grid (q_f64v q) v ls reach -> (ls = true -> length v <= length (r_scales r))%nat ->
  (Z.of_nat (length (r_scales r)) < 2 ^ 62)%Z ->
  (forall i j a, (i < length (r_scales r))%nat -> (j < length x)%nat ->
     ssq_gamma q <= Cabs (el (r_Wx r) i j) -> found r i j = Fin a -> reach a) ->
  pad_input (q_pad q) x = Ok (xp, n1) -> adm_ssq gmw60 = Ok Css ->
  (forall k, (0 < k < length xp)%nat -> dft (length xp) (fun m => RtoC (nth m xp 0)) k = C0 \/
     (nth 0 (r_scales r) 0 * bin_xi (length xp) k) ^ 3 <= 10 /\
     40 <= (nth (length (r_scales r) - 1) (r_scales r) 0 * bin_xi (length xp) k) ^ 3) ->
  exists y e, issq_cwt Css (r_Tx r) None = Ok (One y) /\ length y = length x /\
    (forall j, (j < length x)%nat -> Rabs (nth j y 0 - (nth j x 0 - avg xp + e j)) <=
       INR (length (r_scales r)) * ssq_gamma q * (ln 2 / IZR nv) * (2 / Css)) /\
    Rsum (length x) (fun j => e j ^ 2) <= (3 / 100) ^ 2 * Rsum (length xp) (fun i => (nth i xp 0 - avg xp) ^ 2).
Proof.
  intros Ho Hq Hsq Hd Hgm Hu H Hfs Hscs Hm Hnv Es Hl Hf Hg Hlv Hmx Hc Hpad HC HH.
  pose proof (log_scales_inferred (q_f64 q) mn mx nv fds ds (r_scales r) Hm ltac:(lia) Es Hl) as Hp.
  destruct (issq_near_icwt ord py (gmw_wave gmw60) fam q x s r s' fs kind nv k v ls reach Css PReflect false Ho Hq Hsq Hd Hgm H Hfs Hscs Hp Hf Hg Hlv Hmx Hc)
    as (y & z & Ey & Ez & Ly & Lz & Hyz).
  destruct (ssq_cwt_inv _ _ _ _ _ _ _ _ _ Hq H) as (kd & fs' & sc & kind' & W & dW & Hk & Hfs' & Hsc' & Hcw & Hst).
  rewrite Hfs in Hfs'. injection Hfs' as <-. rewrite Hscs in Hsc'. injection Hsc' as <- _.
  assert (En : numeric q = false) by (unfold numeric; destruct (q_diff q); congruence).
  destruct (step_inv _ _ _ _ _ _ _ _ _ _ _ Hk Hst) as (w & Tx & _ & _ & E2 & _).
  assert (E2' : r_Wx r = W) by (rewrite E2; unfold crop; destruct (q_diff q); congruence).
  rewrite En in Hcw.
  match type of Hcw with cwt _ _ _ ?a _ _ = _ => assert (Hu' : uncached true a s) by exact Hu end.
  destruct (default_round_trip py true _ x s W (r_scales r) (Some dW) s' xp n1 (q_f64 q) mn mx nv fds ds Css None 0 PReflect false
              Hm Hnv Es Hl Hu' eq_refl eq_refl Hcw Hpad HC HH) as (z' & Ez' & Lz' & B).
  rewrite E2' in Ez. rewrite Ez in Ez'. injection Ez' as <-.
  destruct default_adm_ssq as (vC & EvC & _ & HvC). rewrite HC in EvC. injection EvC as <-.
  exists y, (fun j => nth j z 0 - (nth j x 0 - avg xp)). split; [exact Ey|]. split; [exact Ly|]. split.
  - intros j Hj. replace (nth j x 0 - avg xp + (nth j z 0 - (nth j x 0 - avg xp))) with (nth j z 0) by ring.
    rewrite <- (Rabs_right Css) by lra. apply Hyz, Hj.
  - eapply Rle_trans; [|exact B]. right. apply Rsum_ext. intros j Hj. ring.
Qed.
