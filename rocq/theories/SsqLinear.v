(** [ssqueeze] for given frequencies is linear; it never adds modulus to a column; it leaves alone
    coefficients already at their frequencies; below the threshold it gives zero. *)
From Coq Require Import Reals Lra ZifyBool ZifyNat.
From Verif Require Import Py Round Parallel Padding Buffer Cplx CplxProofs Freqs Stft Squeeze SqueezeProofs BinProofs SqueezeThms SqueezeThms2 SqueezeThms3 Scales ScaleThms Ssqueeze SsqueezeProofs
  Separate ShiftProofs Cwt CwtProofs CwtThms IcwtLin.
Local Open Scope R_scope.

Theorem ssqueeze_linear ord o X Y Z w dX dY dZ a b TX f : valid_order ord -> o_sq o = SqSum -> mix a b X Y Z ->
  ssqueeze ord o X (Some w) dX = Ok (TX, f) ->
  exists TY TZ, ssqueeze ord o Y (Some w) dY = Ok (TY, f) /\ ssqueeze ord o Z (Some w) dZ = Ok (TZ, f) /\ mix a b TX TY TZ.
Proof.
  intros Ho Hsq (R1 & K1 & R2 & K2 & E) ES. pose proof (ssqueeze_inv _ _ _ _ _ _ _ ES) as (k & v & ls & Ef & -> & E1).
  assert (Hneg : has_negative w = false) by (revert ES; unfold ssqueeze; destruct (has_negative w); [discriminate|reflexivity]).
  rewrite Hsq in E1. cbn [squeeze_input] in E1.
  assert (Hsame : forall W, nrows W = nrows X -> ncols W = ncols X -> exists T, ssqueeze_one ord o k v ls W (Some w) dX = Ok T).
  { intros W HR HK. revert E1. unfold ssqueeze_one. destruct (ssq_const o k v) as [cst|]; [|discriminate]. cbn [bind].
    unfold indexed_sum_onfly. rewrite HR. destruct (const_arr (nrows X) cst); [|discriminate]. cbn [bind].
    destruct (get_grid _ _ _); [|discriminate]. cbn [bind]. eauto. }
  assert (Hany : forall W d, ssqueeze_one ord o k v ls W (Some w) d = ssqueeze_one ord o k v ls W (Some w) dX) by reflexivity.
  destruct (Hsame Y R1 K1) as (TY & EY). destruct (Hsame Z R2 K2) as (TZ & EZ).
  exists TY, TZ. unfold ssqueeze. rewrite Hneg, K1, K2, Ef. cbn [bind]. rewrite Hsq. cbn [squeeze_input]. rewrite (Hany Y dY), (Hany Z dZ), EY, EZ. cbn [bind].
  split; [reflexivity|]. split; [reflexivity|].
  destruct (one_cells _ _ _ _ _ _ _ _ _ Ho E1) as (A1 & A2 & cst & ca & g & Q1 & Q2 & Q3 & V1).
  destruct (one_cells _ _ _ _ _ _ _ _ _ Ho EY) as (B1 & B2 & cst' & ca' & g' & Q1' & Q2' & Q3' & V2).
  destruct (one_cells _ _ _ _ _ _ _ _ _ Ho EZ) as (D1 & D2 & cst2 & ca2 & g2 & Q12 & Q22 & Q32 & V3).
  rewrite Q1 in Q1', Q12. injection Q1' as <-. injection Q12 as <-. rewrite R1 in *. rewrite R2 in *. rewrite K1 in *. rewrite K2 in *.
  rewrite Q2 in Q2', Q22. injection Q2' as <-. injection Q22 as <-. rewrite Q3 in Q3', Q32. injection Q3' as <-. injection Q32 as <-.
  unfold mix. rewrite A1, A2. repeat split; try assumption. intros q j Hq Hj. rewrite V1, V2, V3 by assumption. cbv zeta. cbn [freq_at].
  rewrite <- !Csum_scal, <- Csum_plus. apply Csum_ext. intros i Hi. destruct (el w i j); [|symmetry; rewrite <- mix_0; reflexivity].
  destruct (_ =? _)%Z; [|symmetry; rewrite <- mix_0; reflexivity]. rewrite E by assumption. ring.
Qed.

(** ** columns do not gain modulus *)
Lemma indicator_sum n (b : nat -> bool) : (forall p q, b p = true -> b q = true -> p = q) -> Rsum n (fun q => if b q then 1 else 0) <= 1.
Proof.
  intros H. induction n as [|n IH]; cbn [Rsum]; [lra|]. destruct (b n) eqn:En; [|lra].
  rewrite (Rsum_ext n _ (fun _ => 0)); [rewrite Rsum_const; lra|]. intros q Hq. destruct (b q) eqn:Eq; [|reflexivity].
  pose proof (H _ _ En Eq). lia.
Qed.
Theorem squeeze_l1 ord o X w dX TX f : valid_order ord -> ssqueeze ord o X w dX = Ok (TX, f) ->
  let W := squeeze_input (o_sq o) (nrows X) X in
  exists ca, length ca = nrows W /\ forall j, (j < ncols TX)%nat ->
    Rsum (nrows TX) (fun q => Cabs (el TX q j)) <= Rsum (nrows W) (fun i => match freq_at o W w dX i j with Fin _ => Cabs (el W i j) * Rabs (nth i ca 0) | Inf => 0 end).
Proof.
  intros Ho ES W. pose proof (ssqueeze_inv _ _ _ _ _ _ _ ES) as (k & v & ls & Ef & -> & E1). fold W in E1.
  destruct (one_cells _ _ _ _ _ _ _ _ _ Ho E1) as (A1 & A2 & cst & ca & g & Q1 & Q2 & Q3 & V).
  exists ca. split.
  { unfold const_arr in Q2. destruct (nrows W =? 1)%nat; [discriminate|]. destruct cst as [r|l]; [injection Q2 as <-; apply repeat_length|].
    destruct (Nat.eqb_spec (length l) (nrows W)); [injection Q2 as <-; assumption|]. destruct (length l =? 1)%nat; [injection Q2 as <-; apply repeat_length|discriminate]. }
  rewrite A1, A2. intros j Hj. cbv zeta in V. set (bin := match w with Some _ => bin_onfly (Z.of_nat (nrows W) - 1) g | None => bin_fast (Z.of_nat (nrows W) - 1) g end) in V.
  set (c := fun i => Cabs (el W i j) * Rabs (nth i ca 0)).
  set (hit := fun i q => match freq_at o W w dX i j with Fin r => (flip_row (o_flip o) (Z.of_nat (nrows W) - 1) (bin r) =? Z.of_nat q)%Z | Inf => false end).
  apply Rle_trans with (Rsum (nrows W) (fun q => Rsum (nrows W) (fun i => c i * if hit i q then 1 else 0))).
  - apply Rsum_le. intros q Hq. rewrite V by assumption. eapply Rle_trans; [apply Cabs_Csum|]. apply Rsum_le. intros i Hi. unfold hit, c.
    destruct (freq_at o W w dX i j) as [r|]; [|rewrite Cabs_0; lra]. destruct (_ =? _)%Z; [|rewrite Cabs_0; lra].
    rewrite Cabs_mul, Cabs_RtoC. lra.
  - rewrite Rsum_swap. apply Rsum_le. intros i Hi. rewrite Rsum_scal. unfold hit. destruct (freq_at o W w dX i j) as [r|].
    + rewrite <- (Rmult_1_r (Cabs _ * _)). apply Rmult_le_compat_l; [unfold c; apply Rmult_le_pos; [apply Cabs_nonneg|apply Rabs_pos]|].
      apply indicator_sum. intros p q Hp Hq. lia.
    + rewrite Rsum_const. lra.
Qed.

(** ** nothing above the threshold *)
Theorem squeeze_silent ord o X dX gm TX f j : valid_order ord -> o_gamma o = Some gm -> ssqueeze ord o X None dX = Ok (TX, f) ->
  (forall i, (i < nrows (squeeze_input (o_sq o) (nrows X) X))%nat -> Cabs (el (squeeze_input (o_sq o) (nrows X) X) i j) <= gm) ->
  forall q, (q < nrows TX)%nat -> (j < ncols TX)%nat -> el TX q j = C0.
Proof.
  intros Ho Hg ES H q Hq Hj. pose proof (ssqueeze_inv _ _ _ _ _ _ _ ES) as (k & v & ls & Ef & -> & E1).
  set (W := squeeze_input (o_sq o) (nrows X) X) in *.
  destruct (one_cells _ _ _ _ _ _ _ _ _ Ho E1) as (A1 & A2 & cst & ca & g & Q1 & Q2 & Q3 & V).
  rewrite V by congruence. rewrite (Csum_ext _ _ (fun _ => C0)); [apply Csum_0; reflexivity|]. intros i Hi. cbn [freq_at]. rewrite Hg.
  destruct dX as [d|]; [|reflexivity]. specialize (H i Hi). destruct (Rlt_dec gm (Cabs (el W i j))); [lra|reflexivity].
Qed.

(** ** 'abs' bounds 'sum' *)
Definition with_sq (o : ssq_opts) (sq : squeezing) : ssq_opts :=
  SO (o_tr o) (o_freqs o) (o_scales o) (o_f64s o) (o_f64v o) (o_fs o) sq (o_mr o) (o_gamma o) (o_flip o) (o_Sfs o).
Lemma freqs_sq o sq N : ssq_freqs_of (with_sq o sq) N = ssq_freqs_of o N.
Proof. reflexivity. Qed.
Definition nonneg_const (c : const_arg) : Prop := match c with CScalar r => 0 <= r | CArr l => forall r, In r l -> 0 <= r end.
Lemma nonneg_weights n c ca : nonneg_const c -> const_arr n c = Ok ca -> forall i, 0 <= nth i ca 0.
Proof.
  intros H E i. assert (A : forall r, In r ca -> 0 <= r).
  { unfold const_arr in E. destruct (n =? 1)%nat; [discriminate|]. destruct c as [r|l]; cbn in H.
    - injection E as <-. intros r' Hr. apply repeat_spec in Hr. subst. exact H.
    - destruct (length l =? n)%nat; [injection E as <-; exact H|]. destruct (Nat.eqb_spec (length l) 1); [|discriminate]. injection E as <-.
      intros r Hr. apply repeat_spec in Hr. subst. apply H, nth_In. lia. }
  destruct (Nat.lt_ge_cases i (length ca)); [apply A, nth_In; assumption|rewrite nth_overflow by assumption; lra].
Qed.
Theorem squeeze_abs ord o X w dX TX f k v ls cst : valid_order ord -> o_sq o = SqSum -> ssqueeze ord o X (Some w) dX = Ok (TX, f) ->
  ssq_freqs_of o (ncols X) = Ok (k, v, ls) -> ssq_const o k v = Ok cst -> nonneg_const cst ->
  exists TA, ssqueeze ord (with_sq o SqAbs) X (Some w) dX = Ok (TA, f) /\ nrows TA = nrows TX /\ ncols TA = ncols TX /\
    forall q j, (q < nrows TX)%nat -> (j < ncols TX)%nat -> Im (el TA q j) = 0 /\ Cabs (el TX q j) <= Re (el TA q j).
Proof.
  intros Ho Hsq ES Ef Ec Hc. pose proof (ssqueeze_inv _ _ _ _ _ _ _ ES) as (k' & v' & ls' & Ef' & Efl & E1).
  rewrite Ef in Ef'. injection Ef' as <- <- <-. rewrite Hsq in E1. cbn [squeeze_input] in E1.
  assert (Hneg : has_negative w = false) by (revert ES; unfold ssqueeze; destruct (has_negative w); [discriminate|reflexivity]).
  set (A := squeeze_input SqAbs (nrows X) X).
  assert (EA : exists TA, ssqueeze_one ord (with_sq o SqAbs) k v ls A (Some w) dX = Ok TA).
  { revert E1. unfold ssqueeze_one. change (ssq_const (with_sq o SqAbs) k v) with (ssq_const o k v). destruct (ssq_const o k v) as [c|]; [|discriminate]. cbn [bind].
    unfold indexed_sum_onfly. change (nrows A) with (nrows X). destruct (const_arr (nrows X) c); [|discriminate]. cbn [bind with_sq o_f64v].
    destruct (get_grid _ _ _); [|discriminate]. cbn [bind]. eauto. }
  destruct EA as (TA & EA). exists TA.
  destruct (one_cells _ _ _ _ _ _ _ _ _ Ho E1) as (A1 & A2 & c1 & ca & g & Q1 & Q2 & Q3 & V1).
  destruct (one_cells _ _ _ _ _ _ _ _ _ Ho EA) as (B1 & B2 & c2 & ca' & g' & Q1' & Q2' & Q3' & V2).
  change (ssq_const (with_sq o SqAbs) k v) with (ssq_const o k v) in Q1'. change (nrows A) with (nrows X) in *. change (ncols A) with (ncols X) in *.
  rewrite Q1 in Q1', Ec. injection Ec as ->. injection Q1' as <-. rewrite Q2 in Q2'. injection Q2' as <-. cbn [with_sq o_f64v] in Q3'. rewrite Q3 in Q3'. injection Q3' as <-.
  split.
  { unfold ssqueeze. rewrite Hneg, freqs_sq, Ef. cbn [bind with_sq o_sq]. fold A. change (SO _ _ _ _ _ _ _ _ _ _ _) with (with_sq o SqAbs). rewrite EA. cbn [bind]. rewrite Efl. reflexivity. }
  split; [congruence|]. split; [congruence|]. rewrite A1, A2. intros q j Hq Hj. rewrite V1, V2 by assumption. cbv zeta. cbn [freq_at with_sq o_flip].
  pose proof (nonneg_weights _ _ _ Hc Q2) as Hw.
  set (hit := fun i => match el w i j with Fin r => (flip_row (o_flip o) (Z.of_nat (nrows X) - 1) (bin_onfly (Z.of_nat (nrows X) - 1) g r) =? Z.of_nat q)%Z | Inf => false end).
  assert (RA : Csum (nrows X) (fun i => match el w i j with Fin r => if (flip_row (o_flip o) (Z.of_nat (nrows X) - 1) (bin_onfly (Z.of_nat (nrows X) - 1) g r) =? Z.of_nat q)%Z
      then Cmul (el A i j) (RtoC (nth i ca 0)) else C0 | Inf => C0 end) = RtoC (Rsum (nrows X) (fun i => if hit i then Cabs (el X i j) * nth i ca 0 else 0))).
  { rewrite <- Csum_RtoC. apply Csum_ext. intros i Hi. unfold hit, A. cbn [squeeze_input el]. destruct (el w i j); [|reflexivity]. destruct (_ =? _)%Z; [|reflexivity]. symmetry. apply RtoC_mul. }
  rewrite RA. split; [reflexivity|]. match goal with |- _ <= Re (RtoC ?r) => change (Re (RtoC r)) with r end.
  eapply Rle_trans; [apply Cabs_Csum|]. apply Rsum_le. intros i Hi. unfold hit. destruct (el w i j) as [r|]; [|rewrite Cabs_0; lra].
  destruct (_ =? _)%Z; [|rewrite Cabs_0; lra]. rewrite Cabs_mul, Cabs_RtoC, Rabs_right by (apply Rle_ge, Hw). lra.
Qed.

(** ** coefficients at their own frequencies stay where they are *)
Inductive grid_of (v : list R) : bool -> Prop :=
| go_lin d : (2 <= length v)%nat -> EPS64 <= d -> (forall k, (k < length v)%nat -> nth k v 0 = nth 0 v 0 + INR k * d) -> grid_of v false
| go_log d : geometric v d -> EPS64 <= d -> (forall k, (k < length v)%nat -> 0 < nth k v 0) -> grid_of v true.
Lemma own_bin f64 v ls : grid_of v ls -> (Z.of_nat (length v) < 2 ^ 62)%Z ->
  exists g, get_grid f64 ls v = Ok g /\ forall k, (k < length v)%nat -> bin_onfly (Z.of_nat (length v) - 1) g (nth k v 0) = Z.of_nat k.
Proof.
  pose proof EPS64_pos as He. intros [d Hn Hd Hv|d Hg Hd Hp] HL.
  - destruct (nearest_lin f64 v d _ Hn Hd Hv eq_refl) as (g & Eg & H). exists g. split; [exact Eg|]. intros k Hk.
    assert (E1 : nth 1 v 0 - nth 0 v 0 = d) by (rewrite (Hv 1%nat) by lia; simpl; ring).
    destruct (H (nth k v 0)) as (A & _ & B & D).
    { unfold reach_lin. rewrite E1, Rmax_left by exact Hd. rewrite (Hv k Hk). apply Rle_trans with (INR k * d); [lra|]. apply Rmult_le_compat_r; [lra|].
      rewrite INR_IZR_INZ. apply IZR_le. lia. }
    set (q := Z.to_nat (bin_onfly (Z.of_nat (length v) - 1) g (nth k v 0))) in *. specialize (D k Hk).
    rewrite Rminus_eq_0, Rabs_R0 in D. pose proof (Rabs_pos (nth k v 0 - nth q v 0)). assert (Z0 : nth k v 0 - nth q v 0 = 0) by (destruct (Req_dec (nth k v 0 - nth q v 0) 0) as [|K]; [assumption|apply Rabs_pos_lt in K; lra]).
    rewrite (Hv k Hk), (Hv q B) in Z0. assert (INR k = INR q) by (apply Rmult_eq_reg_r with d; lra). apply INR_eq in H1. lia.
  - destruct (nearest_log f64 v d _ Hg Hd eq_refl) as (g & Eg & H). exists g. split; [exact Eg|]. destruct Hg as (Hn & Hv). intros k Hk.
    assert (E1 : lg v 1 - lg v 0 = d) by (rewrite (Hv 1%nat) by lia; simpl; ring).
    destruct (H (nth k v 0)) as (A & _ & B & _ & D).
    { unfold reach_log. rewrite E1, Rmax_left by exact Hd. change (log2 (nth k v 0)) with (lg v k). rewrite (Hv k Hk). apply Rle_trans with (INR k * d); [lra|]. apply Rmult_le_compat_r; [lra|].
      rewrite INR_IZR_INZ. apply IZR_le. lia. }
    set (q := Z.to_nat (bin_onfly (Z.of_nat (length v) - 1) g (nth k v 0))) in *. specialize (D (Hp k Hk) k Hk). change (log2 (nth k v 0)) with (lg v k) in D.
    rewrite Rminus_eq_0, Rabs_R0 in D. pose proof (Rabs_pos (lg v k - lg v q)). assert (Z0 : lg v k - lg v q = 0) by (destruct (Req_dec (lg v k - lg v q) 0) as [|K]; [assumption|apply Rabs_pos_lt in K; lra]).
    rewrite (Hv k Hk), (Hv q B) in Z0. assert (INR k = INR q) by (apply Rmult_eq_reg_r with d; lra). apply INR_eq in H1. lia.
Qed.

(** [row_freq]: the frequency of row [i], rows being from the highest down with [flipud] *)
Definition row_freq (o : ssq_opts) (v : list R) (i : nat) : R := nth (if o_flip o then length v - 1 - i else i) v 0.
Theorem squeeze_still ord o X w dX TX f k v ls cst ca : valid_order ord -> ssqueeze ord o X (Some w) dX = Ok (TX, f) -> o_sq o = SqSum ->
  ssq_freqs_of o (ncols X) = Ok (k, v, ls) -> ssq_const o k v = Ok cst -> const_arr (nrows X) cst = Ok ca ->
  grid_of v ls -> length v = nrows X -> (Z.of_nat (length v) < 2 ^ 62)%Z ->
  forall j, (j < ncols X)%nat -> (forall i, (i < nrows X)%nat -> el w i j = Fin (row_freq o v i)) ->
  forall i, (i < nrows X)%nat -> el TX i j = Cmul (el X i j) (RtoC (nth i ca 0)).
Proof.
  intros Ho ES Hsq Ef Ec Ea Hg HL HL2 j Hj Hw i Hi. pose proof (ssqueeze_inv _ _ _ _ _ _ _ ES) as (k' & v' & ls' & Ef' & Efl & E1).
  rewrite Ef in Ef'. injection Ef' as <- <- <-. rewrite Hsq in E1. cbn [squeeze_input] in E1.
  destruct (one_cells _ _ _ _ _ _ _ _ _ Ho E1) as (A1 & A2 & c1 & ca' & g & Q1 & Q2 & Q3 & V).
  rewrite Q1 in Ec. injection Ec as ->. rewrite Q2 in Ea. injection Ea as ->.
  destruct (own_bin (o_f64v o) v ls Hg HL2) as (g' & Eg & B). rewrite Q3 in Eg. injection Eg as <-. rewrite HL in B.
  rewrite V by assumption. cbv zeta. cbn [freq_at].
  rewrite (Csum_single _ _ i Hi).
  - rewrite Hw by exact Hi. unfold row_freq. rewrite B by (rewrite HL; destruct (o_flip o); lia).
    unfold flip_row. rewrite HL. destruct (o_flip o).
    + destruct (Z.eqb_spec (Z.of_nat (nrows X) - 1 - Z.of_nat (nrows X - 1 - i)) (Z.of_nat i)); [reflexivity|lia].
    + rewrite Z.eqb_refl. reflexivity.
  - intros p Hp Hne. rewrite Hw by exact Hp. unfold row_freq. rewrite B by (rewrite HL; destruct (o_flip o); lia).
    unfold flip_row. rewrite HL. destruct (o_flip o).
    + destruct (Z.eqb_spec (Z.of_nat (nrows X) - 1 - Z.of_nat (nrows X - 1 - p)) (Z.of_nat i)); [lia|reflexivity].
    + destruct (Z.eqb_spec (Z.of_nat p) (Z.of_nat i)); [lia|reflexivity].
Qed.
