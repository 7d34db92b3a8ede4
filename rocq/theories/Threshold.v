(** What the threshold gamma does in [ssqueeze]. *)
From Coq Require Import Reals Lra ZifyBool ZifyNat.
From Verif Require Import Py Round Parallel Padding Buffer Cplx CplxProofs Freqs Stft Squeeze SqueezeProofs BinProofs SqueezeThms SqueezeThms2 SqueezeThms3 Scales ScaleThms Ssqueeze SsqueezeProofs
  Separate ShiftProofs Cwt CwtProofs CwtThms Pointwise SsqCwt DiffProofs SsqCwtProofs Transport RateThms SymmThms IcwtLin SsqLinear.
Local Open Scope R_scope.

(** the coefficients with modulus in (lo, hi]; those above g; zero elsewhere *)
Definition between (lo hi : R) (X : mat C) : mat C :=
  Mat (nrows X) (ncols X) (fun i j => if Rlt_dec lo (Cabs (el X i j)) then (if Rle_dec (Cabs (el X i j)) hi then el X i j else C0) else C0).
Definition above (g : R) (X : mat C) : mat C := Mat (nrows X) (ncols X) (fun i j => if Rlt_dec g (Cabs (el X i j)) then el X i j else C0).

Lemma same_outcome ord o X d g g' Y T f : o_sq o = SqSum -> nrows Y = nrows X -> ncols Y = ncols X ->
  ssqueeze ord (with_gamma (Some g) o) X None (Some d) = Ok (T, f) -> exists T', ssqueeze ord (with_gamma (Some g') o) Y None (Some d) = Ok (T', f).
Proof.
  intros Hsq HR HK. unfold ssqueeze. cbn [with_gamma o_gamma]. rewrite HK. change (ssq_freqs_of (with_gamma (Some g) o) (ncols X)) with (ssq_freqs_of o (ncols X)).
  change (ssq_freqs_of (with_gamma (Some g') o) (ncols X)) with (ssq_freqs_of o (ncols X)). destruct (ssq_freqs_of o (ncols X)) as [[[k v] ls]|]; [|discriminate]. cbn [bind].
  cbn [with_gamma o_sq]. rewrite Hsq. cbn [squeeze_input]. unfold ssqueeze_one. cbn [with_gamma o_gamma o_f64v o_flip o_Sfs].
  change (ssq_const (with_gamma (Some g) o) k v) with (ssq_const o k v). change (ssq_const (with_gamma (Some g') o) k v) with (ssq_const o k v).
  destruct (ssq_const o k v) as [cst|]; [|discriminate]. cbn [bind]. unfold ssqueeze_fast. rewrite HR.
  destruct (const_arr (nrows X) cst) as [ca|]; [|discriminate]. cbn [bind]. destruct (get_grid (o_f64v o) ls v) as [gr|]; [|discriminate]. cbn [bind].
  destruct (o_Sfs o), ls; try discriminate; cbn [bind]; intros E; injection E as _ <-; eauto.
Qed.
(** the contribution of one coefficient *)
Definition put (o : ssq_opts) (n : nat) (gr : grid) (ca : list R) (g : R) (q i : nat) (z d : C) : C :=
  if Rlt_dec g (Cabs z) then
    let r := match o_Sfs o with None => phase_cwt_pt z d | Some s => phase_stft_pt (nth i s 0) z d end in
    if (flip_row (o_flip o) (Z.of_nat n - 1) (bin_fast (Z.of_nat n - 1) gr r) =? Z.of_nat q)%Z then Cmul z (RtoC (nth i ca 0)) else C0
  else C0.
Lemma put_cells ord o X d T f : valid_order ord -> o_sq o = SqSum -> (exists g, ssqueeze ord (with_gamma (Some g) o) X None (Some d) = Ok (T, f)) ->
  exists gr ca, length ca = nrows X /\ forall g Y TY, nrows Y = nrows X -> ncols Y = ncols X -> ssqueeze ord (with_gamma (Some g) o) Y None (Some d) = Ok (TY, f) ->
    nrows TY = nrows X /\ ncols TY = ncols X /\ forall q j, (q < nrows X)%nat -> (j < ncols X)%nat -> el TY q j = Csum (nrows X) (fun i => put o (nrows X) gr ca g q i (el Y i j) (el d i j)).
Proof.
  intros Ho Hsq (g0 & E0). destruct (ssqueeze_inv _ _ _ _ _ _ _ E0) as (k & v & ls & Ef & _ & E1).
  change (ssq_freqs_of (with_gamma (Some g0) o) (ncols X)) with (ssq_freqs_of o (ncols X)) in Ef. cbn [with_gamma o_sq] in E1. rewrite Hsq in E1. cbn [squeeze_input] in E1.
  destruct (one_cells _ _ _ _ _ _ _ _ _ Ho E1) as (A1 & A2 & cst & ca & gr & Q1 & Q2 & Q3 & _).
  change (ssq_const (with_gamma (Some g0) o) k v) with (ssq_const o k v) in Q1. cbn [with_gamma o_f64v] in Q3.
  exists gr, ca. split.
  { unfold const_arr in Q2. destruct (nrows X =? 1)%nat; [discriminate|]. destruct cst as [r|l]; [injection Q2 as <-; apply repeat_length|].
    destruct (Nat.eqb_spec (length l) (nrows X)); [injection Q2 as <-; assumption|]. destruct (length l =? 1)%nat; [injection Q2 as <-; apply repeat_length|discriminate]. }
  intros g Y TY HR HK EY. destruct (ssqueeze_inv _ _ _ _ _ _ _ EY) as (k' & v' & ls' & Ef' & _ & EY1). rewrite HK in Ef'.
  change (ssq_freqs_of (with_gamma (Some g) o) (ncols X)) with (ssq_freqs_of o (ncols X)) in Ef'. rewrite Ef in Ef'. injection Ef' as <- <- <-.
  cbn [with_gamma o_sq] in EY1. rewrite Hsq in EY1. cbn [squeeze_input] in EY1.
  destruct (one_cells _ _ _ _ _ _ _ _ _ Ho EY1) as (B1 & B2 & cst' & ca' & gr' & Q1' & Q2' & Q3' & V).
  change (ssq_const (with_gamma (Some g) o) k v) with (ssq_const o k v) in Q1'. cbn [with_gamma o_f64v] in Q3'. rewrite HR in *. rewrite HK in *.
  rewrite Q1 in Q1'. injection Q1' as <-. rewrite Q2 in Q2'. injection Q2' as <-. rewrite Q3 in Q3'. injection Q3' as <-.
  split; [exact B1|]. split; [exact B2|]. intros q j Hq Hj. rewrite V by assumption. cbv zeta. apply Csum_ext. intros i Hi. unfold freq_at, put. cbn [with_gamma o_gamma o_Sfs o_flip].
  destruct (Rlt_dec g (Cabs (el Y i j))); reflexivity.
Qed.
Lemma put_zero o n gr ca g q i d : 0 <= g -> put o n gr ca g q i C0 d = C0.
Proof. intros H. unfold put. rewrite Cabs_0. destruct (Rlt_dec g 0); [lra|reflexivity]. Qed.

(** coefficients at or below the threshold might as well be zero; what is above does not depend on the threshold *)
Theorem gamma_gate ord o X d g g' T f : valid_order ord -> o_sq o = SqSum -> 0 <= g' <= g ->
  ssqueeze ord (with_gamma (Some g) o) X None (Some d) = Ok (T, f) ->
  exists T', ssqueeze ord (with_gamma (Some g') o) (above g X) None (Some d) = Ok (T', f) /\ nrows T' = nrows T /\ ncols T' = ncols T /\
    forall q j, (q < nrows T)%nat -> (j < ncols T)%nat -> el T' q j = el T q j.
Proof.
  intros Ho Hsq Hg E. destruct (same_outcome ord o X d g g' (above g X) T f Hsq eq_refl eq_refl E) as (T' & E'). exists T'. split; [exact E'|].
  destruct (put_cells ord o X d T f Ho Hsq (ex_intro _ g E)) as (gr & ca & _ & V). destruct (V g X T eq_refl eq_refl E) as (A1 & A2 & VT). destruct (V g' (above g X) T' eq_refl eq_refl E') as (B1 & B2 & VT').
  rewrite A1, A2. split; [exact B1|]. split; [exact B2|]. intros q j Hq Hj. rewrite VT, VT' by assumption. apply Csum_ext. intros i Hi. cbn [above el].
  unfold put. destruct (Rlt_dec g (Cabs (el X i j))) as [H|H].
  - destruct (Rlt_dec g' (Cabs (el X i j))); [reflexivity|lra].
  - rewrite Cabs_0. destruct (Rlt_dec g' 0); [lra|reflexivity].
Qed.
(** raising the threshold takes away what the coefficients between the two contributed *)
Theorem gamma_step ord o X d g1 g2 T1 f : valid_order ord -> o_sq o = SqSum -> 0 <= g1 <= g2 ->
  ssqueeze ord (with_gamma (Some g1) o) X None (Some d) = Ok (T1, f) ->
  exists T2 TB ca, ssqueeze ord (with_gamma (Some g2) o) X None (Some d) = Ok (T2, f) /\ ssqueeze ord (with_gamma (Some g1) o) (between g1 g2 X) None (Some d) = Ok (TB, f) /\
    nrows T2 = nrows T1 /\ ncols T2 = ncols T1 /\ length ca = nrows X /\
    (forall q j, (q < nrows T1)%nat -> (j < ncols T1)%nat -> el T1 q j = Cadd (el T2 q j) (el TB q j)) /\
    (forall j, (j < ncols T1)%nat -> Rsum (nrows T1) (fun q => Cabs (Csub (el T1 q j) (el T2 q j))) <= g2 * Rsum (nrows X) (fun i => Rabs (nth i ca 0))).
Proof.
  intros Ho Hsq Hg E. destruct (same_outcome ord o X d g1 g2 X T1 f Hsq eq_refl eq_refl E) as (T2 & E2). destruct (same_outcome ord o X d g1 g1 (between g1 g2 X) T1 f Hsq eq_refl eq_refl E) as (TB & EB).
  destruct (put_cells ord o X d T1 f Ho Hsq (ex_intro _ g1 E)) as (gr & ca & Lc & V). exists T2, TB, ca. split; [exact E2|]. split; [exact EB|].
  destruct (V g1 X T1 eq_refl eq_refl E) as (A1 & A2 & V1). destruct (V g2 X T2 eq_refl eq_refl E2) as (B1 & B2 & V2). destruct (V g1 (between g1 g2 X) TB eq_refl eq_refl EB) as (D1 & D2 & VB).
  rewrite A1, A2. split; [exact B1|]. split; [exact B2|]. split; [exact Lc|].
  assert (S : forall q j, (q < nrows X)%nat -> (j < ncols X)%nat -> el T1 q j = Cadd (el T2 q j) (el TB q j)).
  { intros q j Hq Hj. rewrite V1, V2, VB by assumption. rewrite <- Csum_plus. apply Csum_ext. intros i Hi. cbn [between el].
    destruct (Rlt_dec g1 (Cabs (el X i j))) as [H1|H1]; [destruct (Rle_dec (Cabs (el X i j)) g2) as [H2|H2]|].
    - unfold put at 2. destruct (Rlt_dec g2 (Cabs (el X i j))); [lra|]. ring.
    - rewrite put_zero by lra. unfold put. destruct (Rlt_dec g1 (Cabs (el X i j))); [|lra]. destruct (Rlt_dec g2 (Cabs (el X i j))); [|lra]. ring.
    - rewrite put_zero by lra. unfold put. destruct (Rlt_dec g1 (Cabs (el X i j))); [lra|]. destruct (Rlt_dec g2 (Cabs (el X i j))); [lra|]. ring. }
  split; [exact S|]. intros j Hj. rewrite (Rsum_ext (nrows X) _ (fun q => Cabs (el TB q j))).
  2:{ intros q Hq. rewrite S by assumption. f_equal. ring. }
  apply Rle_trans with (Rsum (nrows X) (fun q => Rsum (nrows X) (fun i => Cabs (put o (nrows X) gr ca g1 q i (el (between g1 g2 X) i j) (el d i j))))).
  { apply Rsum_le. intros q Hq. rewrite VB by assumption. apply Cabs_Csum. }
  rewrite Rsum_swap, <- Rsum_scal. apply Rsum_le. intros i Hi. set (z := el (between g1 g2 X) i j).
  assert (Bz : 0 <= Cabs z <= g2). { split; [apply Cabs_nonneg|]. unfold z. cbn [between el]. destruct (Rlt_dec _ _); [destruct (Rle_dec _ _); [assumption|rewrite Cabs_0; lra]|rewrite Cabs_0; lra]. }
  unfold put. destruct (Rlt_dec g1 (Cabs z)).
  2:{ rewrite (Rsum_0 (nrows X)) by (intros; apply Cabs_0). pose proof (Rabs_pos (nth i ca 0)). nra. }
  cbv zeta. set (b := bin_fast _ _ _). set (om := (Z.of_nat (nrows X) - 1)%Z).
  apply Rle_trans with (Rsum (nrows X) (fun q => Cabs z * Rabs (nth i ca 0) * (if (flip_row (o_flip o) om b =? Z.of_nat q)%Z then 1 else 0))).
  { apply Rsum_le. intros q Hq. destruct (_ =? _)%Z; [rewrite Cabs_mul, Cabs_RtoC; lra|rewrite Cabs_0; lra]. }
  rewrite Rsum_scal. pose proof (indicator_sum (nrows X) (fun q => (flip_row (o_flip o) om b =? Z.of_nat q)%Z) ltac:(intros p q Hp Hq; lia)) as I1.
  pose proof (Rsum_nonneg (nrows X) (fun q => if (flip_row (o_flip o) om b =? Z.of_nat q)%Z then 1 else 0) ltac:(intros q _; cbv beta; destruct (_ =? _)%Z; lra)) as I0.
  pose proof (Rabs_pos (nth i ca 0)). set (I := Rsum (nrows X) _) in *. assert (Cabs z * Rabs (nth i ca 0) <= g2 * Rabs (nth i ca 0)) by (apply Rmult_le_compat_r; lra).
  assert (0 <= Cabs z * Rabs (nth i ca 0)) by (apply Rmult_le_pos; lra). nra.
Qed.
