(** [ssq_cwt] of any signal: every coefficient above the threshold goes to the row nearest its phase transform. *)
From Coq Require Import Reals Lra Psatz.
From Coq Require Import ZifyBool ZifyNat.
From Verif Require Import ExperimentalThms.
From Verif Require Import Py Round Parallel Cplx CplxProofs Padding PaddingProofs Buffer Freqs Squeeze
  SqueezeProofs BinProofs SqueezeThms SqueezeThms2 SqueezeThms3 Scales Ssqueeze SsqueezeProofs
  Cwt CwtProofs CwtThms SsqCwt SsqCwtProofs SsqCwtInv CwtTone IssqProofs SsqThms CwtThms2 ToneThms.
Local Open Scope R_scope.
Ltac Zify.zify_post_hook ::= Z.div_mod_to_equations.

(** default squeezing, difftype and row order; log scales; rows spaced by a constant ratio [2^d] *)
Definition log_run (ord : order) (py : bool) (f : wfun) (fam : nat -> wfun) (q : ssq_args) (x : list R) (s : cstate)
  (r : ssq_out) (s' : cstate) (fs : R) (nv : Z) (d : R) : Prop :=
  valid_order ord /\ (q_order q = None /\ q_sq q = SqSum /\ q_diff q = DTrig /\ q_flip q = true) /\
  ssq_cwt ord py f fam q x s = (Ok r, s') /\ process_fs_and_t (q_fs q) (q_t q) (length x) = Ok fs /\
  process_scales_arr (q_f64 q) (r_scales r) = Ok (KLog nv) /\
  exists kind kk v,
    ssq_scales (q_f64s q) (q_scales q) (q_kind q) (ssq_nv q) (length x) = Ok (r_scales r, kind) /\
    ssq_freqs_of (ssq_o q fs (r_scales r) kind (q_f64 q)) (length x) = Ok (kk, v, true) /\
    geometric v d /\ EPS64 <= d /\ length v = length (r_scales r).
(** frequencies that do not overflow the row index: [2^62] rows above the lowest *)
Definition in_reach (r : ssq_out) (d F : R) : Prop :=
  log2 F - log2 (nth (length (r_scales r) - 1) (r_freqs r) 0) <= IZR (2 ^ 62) * d.

Theorem reassigned ord py f fam q x s r s' fs nv d : log_run ord py f fam q x s r s' fs nv d ->
  0 < fs /\ nrows (r_Tx r) = length (r_scales r) /\ ncols (r_Tx r) = length x /\ length (r_freqs r) = length (r_scales r) /\
  (forall i, (S i < length (r_scales r))%nat -> log2 (nth i (r_freqs r) 0) = log2 (nth (S i) (r_freqs r) 0) + d) /\
  (exists f64s pat, cwt py true f (inner q fs (ScArr (r_scales r)) f64s true false pat) x s = (Ok (r_Wx r, r_scales r, Some (r_dWx r)), s')) /\
  ((forall i j, (i < length (r_scales r))%nat -> (j < length x)%nat -> passes q (Cabs (el (r_Wx r) i j)) ->
      in_reach r d (phase_cwt_pt (el (r_Wx r) i j) (el (r_dWx r) i j))) ->
  exists row : nat -> nat -> nat,
    (forall i j, (i < length (r_scales r))%nat -> (j < length x)%nat -> passes q (Cabs (el (r_Wx r) i j)) ->
       0 < phase_cwt_pt (el (r_Wx r) i j) (el (r_dWx r) i j) ->
       nearest_row r (phase_cwt_pt (el (r_Wx r) i j) (el (r_dWx r) i j)) (row i j)) /\
    forall k j, (k < length (r_scales r))%nat -> (j < length x)%nat ->
      el (r_Tx r) k j = Csum (length (r_scales r)) (fun i =>
        if passes_dec q (Cabs (el (r_Wx r) i j)) then
          if (row i j =? k)%nat then Cmul (el (r_Wx r) i j) (RtoC (ln 2 / IZR nv)) else C0
        else C0)).
Proof.
  intros (Ho & (Hq & Hsq & Hd & Hfl) & H & Hfs & Hp & kind & kk & v & Hscs & Hf & Hgeo & Hde & Hlv).
  assert (Hsk : shape_keeping (q_sq q)) by (rewrite Hsq; exact I).
  assert (Hdn : q_diff q <> DNumeric) by congruence.
  destruct (ssq_cols_plain _ _ _ _ _ _ _ _ _ Ho Hsk Hq Hdn H) as (C1 & C2 & R1 & R2).
  destruct (ssq_cwt_inv _ _ _ _ _ _ _ _ _ Hq H) as (kd & fs' & sc & kind' & W & dW & Hkd & Hfs' & Hsc' & Hcw & Hst).
  rewrite Hfs in Hfs'. injection Hfs' as <-.
  assert (En : numeric q = false) by (unfold numeric; rewrite Hd; reflexivity).
  destruct (step_inv _ _ _ _ _ _ _ _ _ _ _ Hkd Hst) as (w & Tx & Es & E1 & E2 & E3 & E4 & E5 & Ew).
  assert (Ec : forall T (V : mat T), crop (q_diff q) V = V) by (intros; unfold crop; rewrite Hd; reflexivity).
  rewrite Ec in E1, E2. rewrite E3 in *. rewrite Hscs in Hsc'. injection Hsc' as <-.
  unfold squeezed in Es, Ew. rewrite En in Es, Ew. rewrite E1 in *. rewrite E2 in *. rewrite E5 in *.
  destruct (ssqueeze_inv _ _ _ _ _ _ _ Es) as (k' & v' & ls' & Ef & Efr & Eone).
  rewrite C2 in Ef. unfold ssq_o in Hf. rewrite Hf in Ef. injection Ef as <- <- <-.
  rewrite Hsq in Eone. cbn [o_sq squeeze_input] in Eone.
  destruct (one_cells _ _ _ _ _ _ _ _ _ Ho Eone) as (H1 & H2 & cst & ca & g & Ecst & Ea & Eg & Hcell).
  pose proof (ssq_freqs_kind (ssq_o q fs sc kind (q_f64 q)) (length x) sc nv _ _ _ eq_refl eq_refl Hp Hf) as ->.
  unfold ssq_const in Ecst. cbn [o_tr] in Ecst. injection Ecst as <-.
  pose proof (process_log_len _ _ _ Hp) as Hlen.
  rewrite const_arr_scalar in Ea by lia. injection Ea as <-.
  cbn [o_f64v o_flip] in Eg, Hcell.
  assert (Hlr : length (r_freqs r) = length sc).
  { rewrite Efr. unfold flip_freqs. cbn [o_tr o_flip]. rewrite Hfl, rev_length. exact Hlv. }
  assert (Hfs0 : 0 < fs).
  { destruct (cwt_ok_inv _ _ _ _ _ _ _ _ Hcw) as ((fs1 & xp & n1 & scl & P) & _).
    apply proj1 in P. cbn [inner a_fs a_t] in P. destruct (rate_again _ _ _ _ P eq_refl) as [_ L]. exact L. }
  assert (Hfr : forall i, (i < length sc)%nat -> nth i (r_freqs r) 0 = nth (length sc - 1 - i) v 0).
  { intros i Hi. rewrite Efr. unfold flip_freqs. cbn [o_tr o_flip]. rewrite Hfl, rev_nth by lia.
    f_equal. lia. }
  pose proof Hgeo as (_ & Hgk).
  split; [exact Hfs0|]. split; [exact R1|]. split; [exact C1|]. split; [exact Hlr|].
  split.
  { intros i Hi. rewrite !Hfr by lia. fold (lg v (length sc - 1 - i)). fold (lg v (length sc - 1 - S i)).
    rewrite (Hgk (length sc - 1 - i)%nat), (Hgk (length sc - 1 - S i)%nat) by lia.
    replace (length sc - 1 - i)%nat with (S (length sc - 1 - S i)) by lia. rewrite S_INR. ring. }
  rewrite En in Hcw. split; [eexists _, _; exact Hcw|]. intros Hreach.
  destruct (nearest_log (q_f64v q) v d (Z.of_nat (nrows W) - 1) Hgeo Hde ltac:(lia)) as (g' & Eg' & Hnear).
  rewrite Eg in Eg'. injection Eg' as <-.
  set (om := fun i j => phase_cwt_pt (el W i j) (el dW i j)) in *.
  assert (Hre : forall i j, (i < length sc)%nat -> (j < length x)%nat -> passes q (Cabs (el W i j)) -> reach_log v 0 (om i j)).
  { intros i j Hi Hj Hpa. specialize (Hreach i j Hi Hj Hpa). unfold in_reach in Hreach. rewrite E3, Hfr in Hreach by lia.
    replace (length sc - 1 - (length sc - 1))%nat with 0%nat in Hreach by lia. unfold reach_log, om. unfold lg at 1. eapply Rle_trans; [exact Hreach|].
    apply Rmult_le_compat_l; [apply IZR_le; lia|]. rewrite (Hgk 1%nat), (Hgk 0%nat) by lia. eapply Rle_trans; [|apply Rmax_l]. cbn [INR]. lra. }
  set (bin := fun i j => bin_onfly (Z.of_nat (nrows W) - 1) g (om i j)).
  exists (fun i j => (nrows W - 1 - Z.to_nat (bin i j))%nat). split.
  { intros i j Hi Hj Hpa Hpos. destruct (Hnear _ (Hre i j Hi Hj Hpa)) as (B0 & Bf & B1 & B2 & B3). fold (bin i j) in *.
    unfold nearest_row. rewrite E3. split; [lia|]. split; [exact Hlr|]. intros m Hm. rewrite !Hfr by lia.
    replace (length sc - 1 - (nrows W - 1 - Z.to_nat (bin i j)))%nat with (Z.to_nat (bin i j)) by lia.
    apply (B3 Hpos (length sc - 1 - m)%nat). lia. }
  intros i j Hi Hj. rewrite (Hcell i j ltac:(lia) ltac:(lia)).
  assert (Hterm : forall m, (m < nrows W)%nat ->
    freq_at (SO TCwt (ssq_freqs q kind) (Some sc) (q_f64 q) (q_f64v q) fs SqSum (q_mr q) (Some (ssq_gamma q)) (q_flip q) None)
      W w (if q_get_w q then None else Some dW) m j =
    if passes_dec q (Cabs (el W m j)) then Fin (om m j) else Inf).
  { intros m Hm. destruct (passes_dec q (Cabs (el W m j))) as [Hy|Hn]; unfold passes in *;
      destruct (q_get_w q) eqn:Egw; unfold freq_at; cbn [o_gamma o_Sfs].
    - destruct Ew as (w' & -> & Ep). unfold phase_transform in Ep. rewrite Hd in Ep. injection Ep as <-.
      cbn [phase_cwt el]. destruct (Rlt_dec _ _); [lra|]. reflexivity.
    - destruct Ew as (-> & _). destruct (Rlt_dec _ _); [|lra]. reflexivity.
    - destruct Ew as (w' & -> & Ep). unfold phase_transform in Ep. rewrite Hd in Ep. injection Ep as <-.
      cbn [phase_cwt el]. destruct (Rlt_dec _ _); [reflexivity|lra].
    - destruct Ew as (-> & _). destruct (Rlt_dec _ _); [lra|reflexivity]. }
  rewrite R2. apply Csum_ext. intros m Hm. rewrite Hterm by (rewrite R2; exact Hm).
  destruct (passes_dec q (Cabs (el W m j))) as [Hy|Hn]; [|reflexivity].
  rewrite nth_repeat_in by (try rewrite R2; exact Hm).
  destruct (Hnear _ (Hre m j ltac:(lia) Hj Hy)) as (B0 & Bf & B1 & _).
  assert (Hflip : flip_row (q_flip q) (Z.of_nat (nrows W) - 1)
     (match w with Some _ => bin_onfly (Z.of_nat (nrows W) - 1) g | None => bin_fast (Z.of_nat (nrows W) - 1) g end (om m j))
     = Z.of_nat (nrows W - 1 - Z.to_nat (bin m j))).
  { rewrite Hfl. unfold flip_row. destruct w; rewrite ?Bf; fold (bin m j); unfold bin in *; lia. }
  rewrite R2 in Hflip. rewrite Hflip. set (p := (length sc - 1 - Z.to_nat (bin m j))%nat).
  destruct (Z.eqb_spec (Z.of_nat p) (Z.of_nat i)), (Nat.eqb_spec p i); try reflexivity; lia.
Qed.
