(** issq_cwt of ssq_cwt against icwt (C34). *)
From Coq Require Import Reals Lra ZifyBool ZifyNat.
From Verif Require Import Py Round Parallel Cplx CplxProofs Padding PaddingProofs Buffer Freqs Squeeze SqueezeProofs
  SqueezeThms SqueezeThms2 SqueezeThms3 Scales Ssqueeze SsqueezeProofs IssqProofs FreqRange Cwt CwtProofs CwtThms CwtThms2 SsqCwt DiffProofs SsqCwtProofs.
Local Open Scope R_scope.

Lemma nth_repeat_in {A} (a d : A) n i : (i < n)%nat -> nth i (repeat a n) d = a.
Proof. revert i. induction n; intros [|i] H; cbn; try lia; auto. apply IHn. lia. Qed.
Lemma Csum_hit n k c : (k < n)%nat -> Csum n (fun q => if (Z.of_nat k =? Z.of_nat q)%Z then c else C0) = c.
Proof.
  intros Hk. rewrite (Csum_single n _ k Hk).
  - rewrite Z.eqb_refl. reflexivity.
  - intros i Hi Hne. destruct (Z.eqb_spec (Z.of_nat k) (Z.of_nat i)); [lia|reflexivity].
Qed.

(** ** Column sums of [ssqueeze] with log scales and squeezing 'sum' *)
Lemma ssq_freqs_kind o N sc nv k v ls : o_tr o = TCwt -> o_scales o = Some sc ->
  process_scales_arr (o_f64s o) sc = Ok (KLog nv) -> ssq_freqs_of o N = Ok (k, v, ls) -> k = Some (KLog nv).
Proof.
  intros Ht Hs Hp. unfold ssq_freqs_of. rewrite Ht, Hs, Hp. cbn [bind].
  assert (A : forall st,
    match st, o_mr o with
    | SPiece, MRTuple _ _ | SPiece, MRMaximal => Err ValueError
    | _, _ => do v <- associated_frequencies (o_f64s o) sc N st (o_mr o) (1 / o_fs o) TCwt; Ok (Some (KLog nv), v, is_log st)
    end = Ok (k, v, ls) -> k = Some (KLog nv)).
  { intros st. destruct st, (o_mr o); try discriminate; destruct (associated_frequencies _ _ _ _ _ _ _); try discriminate;
      cbn [bind]; intros E; injection E as <- _ _; reflexivity. }
  destruct (o_freqs o).
  - destruct (infer_scaletype _ _); [|discriminate]. cbn [bind]. intros E; injection E as <- _ _; reflexivity.
  - apply A.
  - apply A.
Qed.

Lemma squeeze_col_sum ord o W w d Tx f sc nv k v ls (reach : R -> Prop) j : valid_order ord ->
  o_tr o = TCwt -> o_sq o = SqSum -> o_scales o = Some sc ->
  process_scales_arr (o_f64s o) sc = Ok (KLog nv) ->
  ssq_freqs_of o (ncols W) = Ok (k, v, ls) -> freq_grid (o_f64v o) v ls reach ->
  (ls = true -> length v <= nrows W)%nat -> (2 <= Z.of_nat (nrows W) < 2 ^ 62)%Z -> (j < ncols W)%nat ->
  (forall i, (i < nrows W)%nat -> exists r, freq_at o W w d i j = Fin r /\ reach r) ->
  ssqueeze ord o W w d = Ok (Tx, f) ->
  nrows Tx = nrows W /\ ncols Tx = ncols W /\
  Csum (nrows W) (fun q => el Tx q j) = Csum (nrows W) (fun i => Cmul (el W i j) (RtoC (ln 2 / IZR nv))).
Proof.
  intros Ho Ht Hsq Hs Hp Hf Hg Hl Hm Hj Hr E.
  destruct (ssqueeze_inv _ _ _ _ _ _ _ E) as (k' & v' & ls' & Ef & _ & E1).
  rewrite Hf in Ef. injection Ef as <- <- <-.
  rewrite Hsq in E1. cbn [squeeze_input] in E1.
  destruct (one_cells _ _ _ _ _ _ _ _ _ Ho E1) as (H1 & H2 & cst & ca & g & Ec & Ea & Eg & Hcell).
  split; [exact H1|]. split; [exact H2|].
  pose proof (ssq_freqs_kind _ _ _ _ _ _ _ Ht Hs Hp Hf) as ->.
  unfold ssq_const in Ec. rewrite Ht in Ec. injection Ec as <-.
  rewrite const_arr_scalar in Ea by lia. injection Ea as <-.
  destruct (bins_in_range _ _ _ _ (Z.of_nat (nrows W)) Hg ltac:(lia) ltac:(intros; specialize (Hl H); lia)) as (g' & Eg' & Hin).
  rewrite Eg in Eg'. injection Eg' as <-. cbv zeta in Hcell.
  rewrite (Csum_ext (nrows W) _ (fun q => Csum (nrows W) (fun i => match freq_at o W w d i j with
        | Inf => C0
        | Fin r => if (flip_row (o_flip o) (Z.of_nat (nrows W) - 1) (match w with Some _ => bin_onfly (Z.of_nat (nrows W) - 1) g | None => bin_fast (Z.of_nat (nrows W) - 1) g end r) =? Z.of_nat q)%Z
                   then Cmul (el W i j) (RtoC (nth i (repeat (ln 2 / IZR nv) (nrows W)) 0)) else C0 end)))
    by (intros q Hq; apply Hcell; assumption).
  rewrite Csum_swap. apply Csum_ext. intros i Hi.
  destruct (Hr i Hi) as (r & -> & Hrr). rewrite nth_repeat_in by exact Hi.
  destruct (Hin r Hrr (o_flip o)) as (B1 & B2).
  set (b := flip_row _ _ _). assert (Hb : (0 <= b < Z.of_nat (nrows W))%Z) by (unfold b; destruct w; assumption).
  clearbody b. replace b with (Z.of_nat (Z.to_nat b)) by lia. apply Csum_hit. lia.
Qed.

(** [icwt] with log scales, one integral, L1 *)
Lemma ln_root nv : (0 < nv)%Z -> ln (Rpower 2 (1 / IZR nv)) = ln 2 / IZR nv.
Proof. intros H. unfold Rpower. rewrite ln_exp. field. apply not_0_IZR. lia. Qed.
Lemma process_log_pos f64 sc nv : process_scales_arr f64 sc = Ok (KLog nv) -> (0 < nv)%Z.
Proof.
  unfold process_scales_arr. destruct (infer_scaletype f64 sc) as [[n| |]|]; cbn [bind]; try discriminate.
  destruct (Z.leb_spec n 0); [discriminate|]. intros E; injection E as <-. lia.
Qed.
Lemma process_log_len f64 sc k : process_scales_arr f64 sc = Ok k -> (3 <= length sc)%nat.
Proof.
  unfold process_scales_arr, infer_scaletype. destruct (Nat.ltb_spec (length sc) 3); [discriminate|]. lia.
Qed.
Lemma icwt_log_one f Css W sc f64 nv x_len pt rp : check_gmw f true = Ok tt ->
  process_scales_arr f64 sc = Ok (KLog nv) -> length sc = nrows W ->
  icwt f Css W sc f64 None true true x_len 0 pt rp =
  Ok (tab (ncols W) (fun j => Rsum (nrows W) (fun i => Re (el W i j)) * (2 / Css * (ln 2 / IZR nv)))).
Proof.
  intros Hg Hp Hl. unfold icwt. cbn [icwt_rec]. rewrite Hg, Hp. cbn [bind]. rewrite Hl, Nat.eqb_refl. cbn [negb bind].
  f_equal. unfold icwt_1int. apply nth_ext with (d := 0) (d' := 0); [rewrite map_length, !tab_length; reflexivity|].
  intros j Hj. rewrite map_length, tab_length in Hj.
  rewrite nth_tab by exact Hj. set (h := fun y => y * _ + 0).
  rewrite (nth_indep _ 0 (h 0)) by (rewrite map_length, tab_length; exact Hj). rewrite map_nth, nth_tab by exact Hj.
  unfold h. rewrite (ln_root nv) by (apply (process_log_pos f64 sc), Hp). rewrite Rplus_0_r. f_equal.
  apply Rsum_ext. intros i Hi. cbn [icwt_norm]. field.
Qed.
Lemma issq_full Css Tx : issq_cwt Css Tx None =
  Ok (One (tab (ncols Tx) (fun j => Rsum (nrows Tx) (fun i => Re (el Tx i j)) * (2 / Css)))).
Proof.
  unfold issq_cwt, invert. cbn [bind]. do 2 f_equal. cbn [scale_out]. f_equal. unfold real_colsum.
  apply nth_ext with (d := 0) (d' := 0); [rewrite map_length, !tab_length; reflexivity|].
  intros j Hj. rewrite map_length, tab_length in Hj. rewrite nth_tab by exact Hj.
  set (h := fun y => y * (2 / Css)). rewrite (nth_indep _ 0 (h 0)) by (rewrite map_length, tab_length; exact Hj).
  rewrite map_nth, nth_tab by exact Hj. reflexivity.
Qed.
Lemma col_sum_re n (T W : nat -> C) c : Csum n T = Csum n (fun i => Cmul (W i) (RtoC c)) ->
  Rsum n (fun i => Re (T i)) = Rsum n (fun i => Re (W i)) * c.
Proof.
  intros E. rewrite <- Re_Csum, E, Re_Csum, <- Rsum_scal_r. apply Rsum_ext. intros i Hi.
  unfold Re, Cmul, RtoC. cbn [fst snd]. ring.
Qed.

(** options with which [ssq_cwt] calls [ssqueeze] *)
Definition ssq_o (q : ssq_args) (fs : R) (sc : list R) (kind : skind) (f64s : bool) : ssq_opts :=
  SO TCwt (ssq_freqs q kind) (Some sc) f64s (q_f64v q) fs (q_sq q) (q_mr q) (Some (ssq_gamma q)) (q_flip q) None.

Lemma cwt_gmw py inst f a x s r s' : cwt py inst f a x s = (Ok r, s') -> check_gmw f (a_l1 a) = Ok tt.
Proof. intros H. destruct (cwt_ok_inv _ _ _ _ _ _ _ _ H) as ((fs & xp & n1 & sc & P) & _). apply P. Qed.

(** ** The theorem *)
(** frequency found for a cell *)
Definition found (r : ssq_out) (i j : nat) : fval :=
  match r_w r with
  | Some w => el w i j
  | None => Fin (phase_cwt_pt (el (r_Wx r) i j) (el (r_dWx r) i j))
  end.

Theorem issq_icwt ord py f fam q x s r s' fs kind nv k v ls reach Css pt rp : valid_order ord ->
  q_order q = None -> q_sq q = SqSum -> q_diff q <> DNumeric ->
  ssq_cwt ord py f fam q x s = (Ok r, s') ->
  process_fs_and_t (q_fs q) (q_t q) (length x) = Ok fs ->
  ssq_scales (q_f64s q) (q_scales q) (q_kind q) (ssq_nv q) (length x) = Ok (r_scales r, kind) ->
  process_scales_arr (q_f64 q) (r_scales r) = Ok (KLog nv) ->
  ssq_freqs_of (ssq_o q fs (r_scales r) kind (q_f64 q)) (length x) = Ok (k, v, ls) ->
  freq_grid (q_f64v q) v ls reach -> (ls = true -> length v <= length (r_scales r))%nat ->
  (Z.of_nat (length (r_scales r)) < 2 ^ 62)%Z ->
  (forall i j, (i < length (r_scales r))%nat -> (j < length x)%nat ->
     ssq_gamma q < Cabs (el (r_Wx r) i j) /\ forall a, found r i j = Fin a -> reach a) ->
  exists y, issq_cwt Css (r_Tx r) None = Ok (One y) /\
    icwt f Css (r_Wx r) (r_scales r) (q_f64 q) None true true None 0 pt rp = Ok y /\ length y = length x.
Proof.
  intros Ho Hq Hsq Hd H Hfs Hscs Hp Hf Hg Hl Hm Hc.
  assert (Hsk : shape_keeping (q_sq q)) by (rewrite Hsq; exact I).
  destruct (ssq_cols_plain _ _ _ _ _ _ _ _ _ Ho Hsk Hq Hd H) as (C1 & C2 & R1 & R2).
  destruct (ssq_cwt_inv _ _ _ _ _ _ _ _ _ Hq H) as (kd & fs' & sc & kind' & W & dW & Hk & Hfs' & Hsc' & Hcw & Hst).
  rewrite Hfs in Hfs'. injection Hfs' as <-.
  assert (En : numeric q = false) by (unfold numeric; destruct (q_diff q); congruence).
  destruct (step_inv _ _ _ _ _ _ _ _ _ _ _ Hk Hst) as (w & Tx & Es & E1 & E2 & E3 & E4 & E5 & Ew).
  assert (Ec : forall T (V : mat T), crop (q_diff q) V = V) by (intros; unfold crop; destruct (q_diff q); congruence).
  rewrite Ec in E1, E2. rewrite E3 in *. rewrite Hscs in Hsc'. injection Hsc' as <-.
  assert (E4' : r_w r = w) by (rewrite E4; destruct w; cbn; rewrite ?Ec; reflexivity).
  unfold squeezed in Es, Ew. rewrite En in Es, Ew. rewrite E1, E2 in *.
  pose proof (process_log_len _ _ _ Hp) as Hlen.
  exists (tab (ncols W) (fun j => Rsum (nrows W) (fun i => Re (el W i j)) * (2 / Css * (ln 2 / IZR nv)))).
  split; [|split].
  - rewrite issq_full. do 2 f_equal. rewrite C1, C2. apply tab_ext. intros j Hj. rewrite R1, R2.
    assert (Hcol : Csum (nrows W) (fun q => el Tx q j) = Csum (nrows W) (fun i => Cmul (el W i j) (RtoC (ln 2 / IZR nv)))).
    { apply (squeeze_col_sum ord (ssq_o q fs sc kind (q_f64 q)) W w (if q_get_w q then None else Some dW) Tx (r_freqs r) sc nv k v ls reach j);
        cbn [ssq_o o_tr o_sq o_scales o_f64s o_f64v]; auto; try lia.
      - rewrite C2. exact Hf.
      - intros i Hi. destruct (Hc i j ltac:(lia) Hj) as (G1 & G2). unfold found in G2. rewrite E4', E5 in G2. rewrite E2 in G2.
        unfold freq_at. cbn [ssq_o o_gamma o_Sfs]. destruct (q_get_w q) eqn:Egw.
        + destruct Ew as (w' & -> & Ep).
          assert (exists a, el w' i j = Fin a) as (a & Ea).
          { unfold phase_transform in Ep. unfold numeric in En. destruct (q_diff q).
            - injection Ep as <-. cbn [phase_cwt el]. destruct (Rlt_dec _ _); [lra|eauto].
            - unfold phase_phase in Ep. destruct (ncols W =? 0)%nat; [discriminate|]. cbn [bind] in Ep. injection Ep as <-.
              cbn [el]. destruct (Rlt_dec _ _); [lra|eauto].
            - congruence. }
          exists a. split; [exact Ea|apply G2, Ea].
        + destruct Ew as (-> & _). destruct (Rlt_dec _ _); [|lra]. eexists. split; [reflexivity|]. apply G2. reflexivity. }
    rewrite R2 in Hcol. rewrite (col_sum_re _ (fun i => el Tx i j) (fun i => el W i j) _ Hcol). ring.
  - apply icwt_log_one; [|exact Hp|lia]. apply (cwt_gmw _ _ _ _ _ _ _ _ Hcw).
  - rewrite tab_length. exact C2.
Qed.

(** difftype 'numeric', with padding; [Wc] is what [cwt] returns on the same input *)
Theorem issq_icwt_numeric ord py f fam q x s r s' fs kind nv k v ls reach Css pt rp u n1 n2 p Wc dWc s1 : valid_order ord ->
  q_order q = None -> q_sq q = SqSum -> q_diff q = DNumeric -> q_pad q = Some p ->
  p2up (Z.of_nat (length x)) = (u, n1, n2) -> (4 <= n2)%Z ->
  ssq_cwt ord py f fam q x s = (Ok r, s') ->
  process_fs_and_t (q_fs q) (q_t q) (length x) = Ok fs ->
  ssq_scales (q_f64s q) (q_scales q) (q_kind q) (ssq_nv q) (length x) = Ok (r_scales r, kind) ->
  cwt py true f (inner q fs (ScArr (r_scales r)) (match q_scales q with ScArr _ => q_f64s q | ScAuto _ => true end)
                   true false (q_pat q)) x s = (Ok (Wc, r_scales r, dWc), s1) ->
  process_scales_arr (q_f64 q) (r_scales r) = Ok (KLog nv) ->
  ssq_freqs_of (ssq_o q fs (r_scales r) kind (q_f64 q)) (length x + 8) = Ok (k, v, ls) ->
  freq_grid (q_f64v q) v ls reach -> (ls = true -> length v <= length (r_scales r))%nat ->
  (Z.of_nat (length (r_scales r)) < 2 ^ 62)%Z ->
  (forall i j, (i < length (r_scales r))%nat -> (j < length x)%nat ->
     or_real (Some (ssq_gamma q)) (10 * (if q_f64 q then EPS64 else EPS32)) <= Cabs (el Wc i j) /\
     forall w a, r_w r = Some w -> el w i j = Fin a -> reach a) ->
  exists y, issq_cwt Css (r_Tx r) None = Ok (One y) /\
    icwt f Css Wc (r_scales r) (q_f64 q) None true true None 0 pt rp = Ok y /\ length y = length x.
Proof.
  intros Ho Hq Hsq Hd Hpad Eu Hn2 H Hfs Hscs Hcc Hp Hf Hg Hl Hm Hc.
  assert (Hsk : shape_keeping (q_sq q)) by (rewrite Hsq; exact I).
  destruct (ssq_cols_numeric _ _ _ _ _ _ _ _ _ _ _ _ Ho Hsk Hq Hd Eu H) as (_ & C1).
  specialize (C1 ltac:(congruence) Hn2).
  destruct (ssq_cwt_inv _ _ _ _ _ _ _ _ _ Hq H) as (kd & fs' & sc & kind' & W & dW & Hk & Hfs' & Hsc' & Hcw & Hst).
  rewrite Hfs in Hfs'. injection Hfs' as <-.
  assert (En : numeric q = true) by (unfold numeric; rewrite Hd; reflexivity).
  destruct (step_inv _ _ _ _ _ _ _ _ _ _ _ Hk Hst) as (w & Tx & Es & E1 & E2 & E3 & E4 & E5 & Ew).
  rewrite E3 in *. rewrite Hscs in Hsc'. injection Hsc' as <-. rewrite En in Hcw.
  destruct (cwt_columns py true f (inner q fs (ScArr sc) (match q_scales q with ScArr _ => q_f64s q | ScAuto _ => true end) true false (q_pat q))
              x s Wc sc dWc s1 p Hpad Hcc) as (u' & m1 & m2 & V & dV & Eu' & HV & HcV & HrV & (K1 & K2 & K3) & _).
  rewrite Eu in Eu'. injection Eu' as <- <- <-.
  change (set_rpadded _ true) with (inner q fs (ScArr sc) (match q_scales q with ScArr _ => q_f64s q | ScAuto _ => true end) true true (q_pat q)) in HV.
  rewrite HV in Hcw. injection Hcw as -> _ _.
  assert (HN : (1 <= Z.of_nat (length x))%Z).
  { destruct (cwt_ok_inv _ _ _ _ _ _ _ _ HV) as ((fs' & xp & q1 & scales & (_ & _ & P & _)) & _).
    cbn [inner a_pad] in P. rewrite Hpad in P. destruct x; [|cbn; lia].
    unfold pad_input in P. destruct p; cbn in P; discriminate. }
  destruct (p2up_bounds _ _ _ _ HN Eu) as (_ & _ & Hlt & Hsum & Hn21 & Hn1).
  set (S := squeezed q (length x) W) in *.
  assert (HS : nrows S = length sc /\ ncols S = (length x + 8)%nat /\
               forall i j, (j < length x)%nat -> el S i (4 + j) = el Wc i j).
  { unfold S, squeezed. rewrite En, Eu. rewrite nrows_mcols, ncols_mcols. split; [exact HrV|]. split; [nb|].
    intros i j Hj. rewrite K3 by exact Hj. unfold mcols. cbn [el]. f_equal. nb. }
  destruct HS as (S1 & S2 & S3).
  pose proof (process_log_len _ _ _ Hp) as Hlen.
  pose proof Es as AB. apply ssqueeze_shape in AB; [|exact Ho|exact Hsk]. destruct AB as (T1 & T2).
  assert (HT : nrows (r_Tx r) = length sc /\ forall i j, el (r_Tx r) i j = el Tx i (4 + j)).
  { rewrite E1, Hd. cbn [crop]. rewrite nrows_mcols. split; [lia|]. intros i j. unfold mcols. cbn [el]. f_equal.
    rewrite T2, S2. nb. }
  destruct HT as (T3 & T4).
  assert (Egw : q_get_w q = true).
  { unfold check_diff in Hk. rewrite Hd in Hk. destruct (q_get_w q); [reflexivity|discriminate]. }
  rewrite Egw in *. destruct Ew as (w' & -> & Ep). unfold phase_transform in Ep. rewrite Hd, Eu in Ep.
  exists (tab (ncols Wc) (fun j => Rsum (nrows Wc) (fun i => Re (el Wc i j)) * (2 / Css * (ln 2 / IZR nv)))).
  split; [|split].
  - rewrite issq_full. do 2 f_equal. rewrite C1, K1. apply tab_ext. intros j Hj. rewrite T3, K2, HrV.
    assert (Hcol : Csum (nrows S) (fun q => el Tx q (4 + j)%nat) = Csum (nrows S) (fun i => Cmul (el S i (4 + j)%nat) (RtoC (ln 2 / IZR nv)))).
    { apply (squeeze_col_sum ord (ssq_o q fs sc kind (q_f64 q)) S (Some w') None Tx (r_freqs r) sc nv k v ls reach (4 + j)%nat);
        cbn [ssq_o o_tr o_sq o_scales o_f64s o_f64v]; auto; try lia.
      - rewrite S2. exact Hf.
      - intros i Hi. destruct (Hc i j ltac:(lia) Hj) as (G1 & G2).
        unfold freq_at.
        destruct (phase_cwt_num (q_f64 q) (mcols W (n1 - 4) (n1 + Z.of_nat (length x) + 4)) (1 / fs) kd (Some (ssq_gamma q))) as [w0|] eqn:Ew0; [|discriminate].
        cbn [bind] in Ep. injection Ep as ES Ew'. subst w0. rewrite ES in Ew0.
        assert (exists a, el w' i (4 + j)%nat = Fin a) as (a & Ea).
        { unfold phase_cwt_num in Ew0. destruct (negb _); [discriminate|]. destruct (_ && _); [discriminate|]. cbv zeta in Ew0.
          match type of Ew0 with Ok ?m = Ok _ => assert (E' : w' = m) by congruence end. rewrite E'. cbn [el].
          rewrite S3 by exact Hj. destruct (Rlt_dec _ _); [lra|eauto]. }
        assert (Hwc : ncols w' = (length x + 8)%nat).
        { unfold phase_cwt_num in Ew0. destruct (negb _); [discriminate|]. destruct (_ && _); [discriminate|]. cbv zeta in Ew0.
          match type of Ew0 with Ok ?m = Ok _ => assert (E' : w' = m) by congruence end. rewrite E'. exact S2. }
        exists a. split; [exact Ea|]. apply (G2 (crop (q_diff q) w')); [exact E4|].
        rewrite Hd. cbn [crop]. unfold mcols. cbn [el]. rewrite <- Ea. f_equal. rewrite Hwc. nb. }
    rewrite (Rsum_ext _ _ (fun i => Re (el Tx i (4 + j)%nat))) by (intros i Hi; rewrite T4; reflexivity).
    rewrite (Rsum_ext (length sc) (fun i => Re (el Wc i j)) (fun i => Re (el S i (4 + j)%nat))) by (intros i Hi; rewrite S3 by exact Hj; reflexivity).
    rewrite S1 in Hcol. rewrite (col_sum_re _ (fun i => el Tx i (4 + j)%nat) (fun i => el S i (4 + j)%nat) _ Hcol). ring.
  - apply icwt_log_one; [|exact Hp|congruence]. apply (cwt_gmw _ _ _ _ _ _ _ _ Hcc).
  - rewrite tab_length. exact K1.
Qed.

(** ** Default frequencies of log scales *)
Lemma log_freqs_geometric fm fM na : 0 < fm -> 0 < fM -> (3 <= na)%nat ->
  geometric (log_freqs fm fM na) ((ln fM - ln fm) / INR (na - 1) / ln 2).
Proof.
  intros H1 H2 Hn. split; [rewrite log_freqs_length; exact Hn|]. rewrite log_freqs_length. intros k Hk.
  unfold lg, log2. rewrite !log_freqs_nth by (assumption || lia). rewrite !ln_exp. cbn [INR]. field.
  split; [apply not_0_INR; lia|]. pose proof ln2_pos. lra.
Qed.
Lemma default_log_grid o sc nv N fm fM : o_tr o = TCwt -> o_scales o = Some sc ->
  process_scales_arr (o_f64s o) sc = Ok (KLog nv) -> (o_freqs o = FNone \/ o_freqs o = FKind SLog) ->
  ssq_freqrange (o_mr o) (1 / o_fs o) N sc = (fm, fM) -> 0 < fm -> 0 < fM ->
  ssq_freqs_of o N = Ok (Some (KLog nv), log_freqs fm fM (length sc), true) /\
  freq_grid (o_f64v o) (log_freqs fm fM (length sc)) true (reach_log (log_freqs fm fM (length sc)) 0).
Proof.
  intros Ht Hs Hp Hf Hr H1 H2. pose proof (process_log_len _ _ _ Hp). split.
  - unfold ssq_freqs_of. rewrite Ht, Hs, Hp. cbn [bind].
    destruct Hf as [-> | ->]; cbn [skind_of]; unfold associated_frequencies; rewrite Hr; cbn [bind is_log]; destruct (o_mr o); reflexivity.
  - eapply fg_geometric. apply log_freqs_geometric; assumption.
Qed.
