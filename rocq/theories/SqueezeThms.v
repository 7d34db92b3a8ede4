(** Properties of the squeezing drivers, from the loop and index lemmas. *)
From Coq Require Import ZifyBool ZifyNat Psatz Permutation Sorted.
From Verif Require Import Py Round Parallel Cplx CplxProofs Squeeze SqueezeProofs BinProofs.
Local Open Scope R_scope.
Ltac Zify.zify_post_hook ::= Z.div_mod_to_equations.

(** ** Specification vocabulary: frequency grids, without the kernels' parameters *)
Definition lg (v : list R) (k : nat) : R := log2 (nth k v 0).

(** a frequency less than 2^62 bin widths above the start of the piece it falls in (a bin
    narrower than EPS64 counts as EPS64) *)
Definition reach_lin (v : list R) (r : R) : Prop :=
  r - nth 0 v 0 <= IZR (2 ^ 62) * Rmax (nth 1 v 0 - nth 0 v 0) EPS64.
Definition reach_log (v : list R) (s : nat) (r : R) : Prop :=
  log2 r - lg v s <= IZR (2 ^ 62) * Rmax (lg v (S s) - lg v s) EPS64.

(** geometric progression, and two of them sharing entry [p + 1] *)
Definition geometric (v : list R) (d : R) : Prop :=
  (3 <= length v)%nat /\ forall k, (k < length v)%nat -> lg v k = lg v 0 + INR k * d.
Definition geometric2 (v : list R) (p : nat) (a b : R) : Prop :=
  (S (S p) < length v)%nat /\ (Z.of_nat (length v) < 2 ^ 62)%Z /\ a <> b /\
  (forall k, (k <= S p)%nat -> lg v k = lg v 0 + INR k * a) /\
  (forall k, (S p <= k < length v)%nat -> lg v k = lg v (S p) + (INR k - INR (S p)) * b).

(** the grids the kernels handle, with the frequencies they can take: any linear array, any
    log array in which no change of spacing is detected, and any log array with one detected
    at entry [p + 2] whose lower piece is no longer than its first step suggests *)
Inductive freq_grid (f64 : bool) (v : list R) : bool -> (R -> Prop) -> Prop :=
| fg_lin : (2 <= length v)%nat -> freq_grid f64 v false (reach_lin v)
| fg_log : logscale_transition_idx f64 v = Ok None -> freq_grid f64 v true (reach_log v 0)
| fg_piece p : logscale_transition_idx f64 v = Ok (Some (S (S p))) ->
    (Z.of_nat (length v) < 2 ^ 62)%Z ->
    lg v (S p) - lg v 0 <= INR (S p) * Rmax (lg v 1 - lg v 0) EPS64 ->
    freq_grid f64 v true (reach_log v (S p)).

Lemma EPS64_pos : 0 < EPS64.
Proof. unfold EPS64. apply Rinv_0_lt_compat. lra. Qed.
Lemma ensure_Rmax x : ensure_nonzero_nonnegative x = Rmax x EPS64.
Proof.
  unfold ensure_nonzero_nonnegative. destruct (Rlt_dec x EPS64).
  - rewrite Rmax_right; lra.
  - rewrite Rmax_left; lra.
Qed.
Lemma ensure_pos x : 0 < ensure_nonzero_nonnegative x.
Proof. rewrite ensure_Rmax. eapply Rlt_le_trans; [apply EPS64_pos|apply Rmax_r]. Qed.

Lemma ln2_pos : 0 < ln 2.
Proof. rewrite <- ln_1. apply ln_increasing; lra. Qed.
Lemma ln_log2 x : ln x = ln 2 * log2 x.
Proof. unfold log2. field. pose proof ln2_pos; lra. Qed.
Lemma d2_log2 v i : d2 v i = ln 2 * (lg v (S (S i)) - 2 * lg v (S i) + lg v i).
Proof. unfold d2, lg, log2. field. pose proof ln2_pos; lra. Qed.

Lemma grid_lin f64 v : (2 <= length v)%nat ->
  get_grid f64 false v = Ok (GLin (nth 0 v 0) (ensure_nonzero_nonnegative (nth 1 v 0 - nth 0 v 0))).
Proof. destruct v as [|v0 [|v1 v]]; cbn; intros; try lia. reflexivity. Qed.

Lemma grid_log f64 v d : geometric v d ->
  get_grid f64 true v = Ok (GLog (lg v 0) (ensure_nonzero_nonnegative (lg v 1 - lg v 0))).
Proof.
  intros [Hn Hg]. unfold get_grid, get_params_log.
  rewrite transition_none; [reflexivity|exact Hn|].
  intros i Hi. rewrite d2_log2. rewrite (Hg (S (S i))), (Hg (S i)), (Hg i) by lia.
  rewrite !S_INR. ring.
Qed.

Lemma grid_piece f64 v p a b : geometric2 v p a b ->
  get_grid f64 true v =
    Ok (GPiece (lg v 0) (lg v (S p)) (ensure_nonzero_nonnegative (lg v 1 - lg v 0))
          (ensure_nonzero_nonnegative (lg v (S (S p)) - lg v (S p))) (Z.of_nat (S p))).
Proof.
  intros (Hp & _ & Hab & H1 & H2). unfold get_grid, get_params_log.
  rewrite (transition_some f64 v p).
  - cbn [bind]. replace (p + 2 - 1)%nat with (S p) by lia. replace (p + 2)%nat with (S (S p)) by lia.
    do 2 f_equal. lia.
  - exact Hp.
  - rewrite d2_log2. rewrite (H2 (S (S p))) by lia. rewrite (H1 p), (H1 (S p)) by lia.
    rewrite !S_INR.
    replace (ln 2 * _) with (ln 2 * (b - a)) by ring.
    pose proof ln2_pos. apply Rmult_integral_contrapositive. split; lra.
  - intros i Hi Hne. rewrite d2_log2.
    destruct (Nat.lt_ge_cases i p) as [Hlt|Hge].
    + rewrite (H1 (S (S i))), (H1 (S i)), (H1 i) by lia. rewrite !S_INR. ring.
    + rewrite (H2 (S (S i))), (H2 (S i)), (H2 i) by lia. rewrite !S_INR. ring.
Qed.

(** ** In range *)
Lemma div_le x y d : 0 < d -> x <= y * d -> x / d <= y.
Proof.
  intros Hd H. apply Rmult_le_reg_r with d; [exact Hd|].
  unfold Rdiv. rewrite Rmult_assoc, Rinv_l by lra. lra.
Qed.

Lemma bin_piece_range omax v0 v1 d0 d1 idx1 w :
  (0 <= idx1 <= omax)%Z -> (omax < 2 ^ 62)%Z -> 0 < d0 -> 0 < d1 -> v1 - v0 <= IZR idx1 * d0 ->
  (log2 w - v1) / d1 <= IZR (2 ^ 62) ->
  (0 <= bin_piece omax v0 v1 d0 d1 idx1 w <= omax)%Z.
Proof.
  intros Hi Hom H0 H1 Hv Hx. unfold bin_piece, log2e.
  destruct (Rlt_dec 0 w).
  2:{ rewrite rnd_i64_ok by (split; [lra|apply IZR_le; lia]). rewrite (rhe_IZR 0). lia. }
  destruct (Rlt_dec v1 (log2 w)) as [Hl|Hl].
  - set (x := (log2 w - v1) / d1) in *.
    assert (Hx0 : 0 < x) by (unfold x; apply Rdiv_lt_0_compat; lra).
    rewrite rnd_i64_ok; [|split; [lra|eapply Rle_trans; [exact Hx|apply IZR_le; lia]]].
    assert (0 <= round_half_even x)%Z by (apply rhe_lower; lra). lia.
  - set (x := (log2 w - v0) / d0).
    assert (Hxi : x <= IZR idx1) by (apply div_le; [exact H0|lra]).
    assert (Hi0 : 0 <= IZR idx1) by (apply IZR_le; lia).
    rewrite rnd_i64_ok.
    + split; [apply rhe_lower; apply Rmax_r|].
      transitivity idx1; [|lia]. apply rhe_upper. apply Rmax_lub; lra.
    + split; [apply Rmax_r|]. apply Rmax_lub; [|apply IZR_le; lia].
      eapply Rle_trans; [exact Hxi|]. apply IZR_le. lia.
Qed.

Lemma IZR_of_nat_S p : IZR (Z.of_nat (S p)) = INR (S p).
Proof. symmetry. apply INR_IZR_INZ. Qed.

(** geometric arrays are such grids *)
Lemma fg_geometric f64 v d : geometric v d -> freq_grid f64 v true (reach_log v 0).
Proof.
  intros [Hn Hg]. apply fg_log. apply transition_none; [exact Hn|].
  intros i Hi. rewrite d2_log2. rewrite (Hg (S (S i))), (Hg (S i)), (Hg i) by lia.
  rewrite !S_INR. ring.
Qed.

Lemma transition_bound f64 v i : logscale_transition_idx f64 v = Ok (Some i) -> (i < length v)%nat.
Proof.
  unfold logscale_transition_idx. set (D := map Rabs (diff (diff (map ln v)))).
  assert (HL : length D = (length v - 2)%nat).
  { unfold D. rewrite map_length, !diff_length, map_length. lia. }
  destruct D as [|y D'] eqn:ED; [discriminate|].
  destruct (argmax_spec (y :: D')) as [Ha _]; [discriminate|].
  cbv zeta. destruct (Rlt_dec _ _); [|discriminate]. destruct (forallb _ _); [|discriminate].
  intros E. apply (f_equal (fun r => match r with Ok (Some i) => i | _ => 0%nat end)) in E.
  cbv beta iota in E. rewrite <- E. lia.
Qed.

Lemma fg_geometric2 f64 v p a b : geometric2 v p a b -> 0 <= a -> freq_grid f64 v true (reach_log v (S p)).
Proof.
  intros Hg Ha. pose proof Hg as (Hp & Hlen & Hab & H1 & H2).
  apply fg_piece; [|exact Hlen|].
  - pose proof (grid_piece f64 v p a b Hg) as E. unfold get_grid, get_params_log in E.
    destruct (logscale_transition_idx f64 v) as [[i|]|] eqn:Et; cbn [bind] in E; try discriminate.
    apply (f_equal (fun r => match r with Ok (GPiece _ _ _ _ k) => k | _ => 0%Z end)) in E.
    cbv beta iota in E. do 2 f_equal. lia.
  - rewrite (H1 (S p)), (H1 1%nat) by lia.
    pose proof (Rmax_l (lg v 0 + INR 1 * a - lg v 0) EPS64) as Hm.
    pose proof (pos_INR (S p)). simpl (INR 1) in *. nra.
Qed.

(** the parameters [get_grid] finds for a specified grid keep every reachable frequency
    within the rows, and both kernel families agree *)
Lemma grid_in_range f64 v ls reach omax : freq_grid f64 v ls reach ->
  (0 <= omax < 2 ^ 62)%Z -> (ls = true -> Z.of_nat (length v) - 1 <= omax)%Z ->
  exists g, get_grid f64 ls v = Ok g /\ forall r, reach r ->
    (0 <= bin_onfly omax g r <= omax)%Z /\ bin_fast omax g r = bin_onfly omax g r.
Proof.
  intros Hg Ho Hlen.
  assert (H63 : IZR (2 ^ 62) <= IZR (2 ^ 63 - 1)) by (apply IZR_le; lia).
  destruct Hg as [Hn|Ht|p Ht Hp2 Hv].
  - rewrite grid_lin by exact Hn. eexists. split; [reflexivity|]. intros r Hr. cbn [bin_onfly bin_fast].
    split; [|reflexivity].
    apply (bin_lin_ok omax _ _ r); [lia|apply ensure_pos|].
    eapply Rle_trans; [|exact H63]. apply div_le; [apply ensure_pos|]. rewrite ensure_Rmax. exact Hr.
  - unfold get_grid, get_params_log. rewrite Ht. cbn [bind]. fold (lg v 0) (lg v 1). eexists. split; [reflexivity|]. intros r Hr.
    cbn [bin_onfly bin_fast]. split; [|reflexivity].
    apply (bin_log_ok omax _ _ r); [lia|apply ensure_pos|].
    eapply Rle_trans; [|exact H63]. apply div_le; [apply ensure_pos|]. rewrite ensure_Rmax. exact Hr.
  - pose proof (transition_bound _ _ _ Ht) as Hp1. specialize (Hlen eq_refl).
    unfold get_grid, get_params_log. rewrite Ht. cbn [bind].
    replace (S (S p) - 1)%nat with (S p) by lia.
    replace (Z.of_nat (S (S p)) - 1)%Z with (Z.of_nat (S p)) by lia.
    fold (lg v 0) (lg v 1) (lg v (S p)) (lg v (S (S p))).
    eexists. split; [reflexivity|]. intros r Hr. cbn [bin_onfly bin_fast].
    rewrite <- IZR_of_nat_S, <- ensure_Rmax in Hv.
    assert (Hx : (log2 r - lg v (S p)) / ensure_nonzero_nonnegative (lg v (S (S p)) - lg v (S p))
                 <= IZR (2 ^ 62)).
    { apply div_le; [apply ensure_pos|]. rewrite ensure_Rmax. exact Hr. }
    split; [apply bin_piece_range; try assumption; try apply ensure_pos; lia|].
    apply bin_piece_fast_eq.
    destruct (Rlt_dec (lg v (S p)) (log2 r)); [right; assumption|left].
    apply div_le; [apply ensure_pos|]. eapply Rle_trans; [|].
    2:{ apply Rmult_le_compat_r with (r1 := IZR (Z.of_nat (S p)));
          [apply Rlt_le, ensure_pos|apply IZR_le; lia]. }
    lra.
Qed.

(** ** Drivers as sums *)
Definition zeros (m n : nat) : mat C := Mat m n (fun _ _ => C0).

Lemma onfly_sum ord f64 Wx w v cst ls flipud out ca g : valid_order ord ->
  const_arr (nrows Wx) cst = Ok ca -> get_grid f64 ls v = Ok g ->
  exists Tx, indexed_sum_onfly ord f64 Wx w v cst ls flipud out = Ok Tx /\
    nrows Tx = nrows out /\ ncols Tx = ncols out /\
    forall k j, (k < nrows out)%nat -> (j < ncols Wx)%nat ->
      el Tx k j = Cadd (el out k j) (Csum (nrows Wx) (fun i =>
        match el w i j with
        | Inf => C0
        | Fin r => if (flip_row flipud (Z.of_nat (nrows out) - 1)
                         (bin_onfly (Z.of_nat (nrows out) - 1) g r) =? Z.of_nat k)%Z
                   then Cmul (el Wx i j) (RtoC (nth i ca 0)) else C0
        end)).
Proof.
  intros Ho Hc Hg. unfold indexed_sum_onfly. rewrite Hc, Hg. cbn [bind].
  eexists. split; [reflexivity|]. split; [reflexivity|]. split; [reflexivity|].
  intros k j Hk Hj. rewrite squeeze_rows_el by assumption. rewrite acc_cell_sum. f_equal.
  apply Csum_ext. intros i Hi. unfold hits, onfly_row. destruct (el w i j); reflexivity.
Qed.

Lemma fast_sum ord f64 Wx dWx v cst ls flipud gamma Sfs out ca g : valid_order ord ->
  const_arr (nrows Wx) cst = Ok ca -> get_grid f64 ls v = Ok g -> (Sfs = None \/ ls = false) ->
  exists Tx, ssqueeze_fast ord f64 Wx dWx v cst ls flipud gamma Sfs out = Ok Tx /\
    nrows Tx = nrows out /\ ncols Tx = ncols out /\
    forall k j, (k < nrows out)%nat -> (j < ncols Wx)%nat ->
      el Tx k j = Cadd (el out k j) (Csum (nrows Wx) (fun i =>
        let r := match Sfs with
                 | None => phase_cwt_pt (el Wx i j) (el dWx i j)
                 | Some s => phase_stft_pt (nth i s 0) (el Wx i j) (el dWx i j) end in
        if Rlt_dec gamma (Cabs (el Wx i j)) then
          if (flip_row flipud (Z.of_nat (nrows out) - 1)
                (bin_fast (Z.of_nat (nrows out) - 1) g r) =? Z.of_nat k)%Z
          then Cmul (el Wx i j) (RtoC (nth i ca 0)) else C0
        else C0)).
Proof.
  intros Ho Hc Hg Hs. unfold ssqueeze_fast. rewrite Hc, Hg. cbn [bind].
  assert (E : forall (X Y : res (mat C)),
    (match Sfs, ls with Some _, true => X | _, _ => Y end) = Y).
  { intros. destruct Sfs, ls; try reflexivity. destruct Hs; discriminate. }
  rewrite E. eexists. split; [reflexivity|]. split; [reflexivity|]. split; [reflexivity|].
  intros k j Hk Hj. rewrite squeeze_rows_el by assumption. rewrite acc_cell_sum. f_equal.
  apply Csum_ext. intros i Hi. unfold hits, fast_row.
  destruct Sfs; destruct (Rlt_dec gamma (Cabs (el Wx i j))); reflexivity.
Qed.

(** ** C16 *)
Lemma flip_range flipud omax k : (0 <= k <= omax)%Z -> (0 <= flip_row flipud omax k <= omax)%Z.
Proof. unfold flip_row. destruct flipud; lia. Qed.

Lemma Csum_pick n (k : Z) (x : C) : (0 <= k < Z.of_nat n)%Z ->
  Csum n (fun q => if (k =? Z.of_nat q)%Z then x else C0) = x.
Proof.
  intros H. rewrite (Csum_single n _ (Z.to_nat k)).
  - cbv beta. rewrite Z2Nat.id, Z.eqb_refl by lia. reflexivity.
  - lia.
  - intros i _ Hne. destruct (Z.eqb_spec k (Z.of_nat i)); [lia|reflexivity].
Qed.

Lemma onfly_column_sum ord f64 Wx w v cst ls flipud out ca reach j : valid_order ord ->
  const_arr (nrows Wx) cst = Ok ca -> freq_grid f64 v ls reach ->
  (0 < Z.of_nat (nrows out) < 2 ^ 62)%Z -> (ls = true -> length v <= nrows out)%nat ->
  (j < ncols Wx)%nat ->
  (forall i r, (i < nrows Wx)%nat -> el w i j = Fin r -> reach r) ->
  exists Tx, indexed_sum_onfly ord f64 Wx w v cst ls flipud out = Ok Tx /\
    Csum (nrows out) (fun k => el Tx k j) =
    Cadd (Csum (nrows out) (fun k => el out k j))
         (Csum (nrows Wx) (fun i => match el w i j with
            | Fin _ => Cmul (el Wx i j) (RtoC (nth i ca 0)) | Inf => C0 end)).
Proof.
  intros Ho Hc Hg Hm Hl Hj Hr.
  destruct (grid_in_range f64 v ls reach (Z.of_nat (nrows out) - 1) Hg) as (g & Eg & Hin);
    [lia|lia|].
  destruct (onfly_sum ord f64 Wx w v cst ls flipud out ca g Ho Hc Eg) as (Tx & E & _ & _ & Hel).
  exists Tx. split; [exact E|].
  rewrite (Csum_ext _ _ _ (fun k Hk => Hel k j Hk Hj)). rewrite Csum_plus. f_equal.
  rewrite Csum_swap. apply Csum_ext. intros i Hi.
  destruct (el w i j) as [r|] eqn:Ew; [|apply Csum_0; auto].
  apply Csum_pick. pose proof (proj1 (Hin r (Hr i r Hi Ew))) as Hb.
  pose proof (flip_range flipud _ _ Hb). lia.
Qed.

Lemma fast_column_sum ord f64 Wx dWx v cst ls flipud gamma Sfs out ca reach j : valid_order ord ->
  const_arr (nrows Wx) cst = Ok ca -> freq_grid f64 v ls reach -> (Sfs = None \/ ls = false) ->
  (0 < Z.of_nat (nrows out) < 2 ^ 62)%Z -> (ls = true -> length v <= nrows out)%nat ->
  (j < ncols Wx)%nat ->
  (forall i, (i < nrows Wx)%nat -> gamma < Cabs (el Wx i j) ->
     reach (match Sfs with
            | None => phase_cwt_pt (el Wx i j) (el dWx i j)
            | Some s => phase_stft_pt (nth i s 0) (el Wx i j) (el dWx i j) end)) ->
  exists Tx, ssqueeze_fast ord f64 Wx dWx v cst ls flipud gamma Sfs out = Ok Tx /\
    Csum (nrows out) (fun k => el Tx k j) =
    Cadd (Csum (nrows out) (fun k => el out k j))
         (Csum (nrows Wx) (fun i => if Rlt_dec gamma (Cabs (el Wx i j))
            then Cmul (el Wx i j) (RtoC (nth i ca 0)) else C0)).
Proof.
  intros Ho Hc Hg Hs Hm Hl Hj Hr.
  destruct (grid_in_range f64 v ls reach (Z.of_nat (nrows out) - 1) Hg) as (g & Eg & Hin);
    [lia|lia|].
  destruct (fast_sum ord f64 Wx dWx v cst ls flipud gamma Sfs out ca g Ho Hc Eg Hs)
    as (Tx & E & _ & _ & Hel).
  exists Tx. split; [exact E|].
  rewrite (Csum_ext _ _ _ (fun k Hk => Hel k j Hk Hj)). rewrite Csum_plus. f_equal.
  rewrite Csum_swap. apply Csum_ext. intros i Hi. cbv zeta.
  destruct (Rlt_dec gamma (Cabs (el Wx i j))) as [Hw|Hw]; [|apply Csum_0; auto].
  apply Csum_pick. destruct (Hin _ (Hr i Hi Hw)) as [Hb Eb]. rewrite Eb.
  pose proof (flip_range flipud _ _ Hb). lia.
Qed.

(** ** C17 *)
Definition flip_rows {A} (M : mat A) : mat A :=
  Mat (nrows M) (ncols M) (fun i j => el M (nrows M - 1 - i) j).

Lemma onfly_flip ord f64 Wx w v cst ls out Tx : valid_order ord -> ncols out = ncols Wx ->
  indexed_sum_onfly ord f64 Wx w v cst ls false out = Ok Tx ->
  exists Tx', indexed_sum_onfly ord f64 Wx w v cst ls true (flip_rows out) = Ok Tx' /\
    meq Tx' (flip_rows Tx).
Proof.
  intros Ho Hn E. unfold indexed_sum_onfly in E.
  destruct (const_arr (nrows Wx) cst) as [ca|] eqn:Hc; [|discriminate].
  destruct (get_grid f64 ls v) as [g|] eqn:Hg; [|discriminate].
  destruct (onfly_sum ord f64 Wx w v cst ls false out ca g Ho Hc Hg) as (T & ET & Hr & Hcl & Hel).
  assert (T = Tx).
  { unfold indexed_sum_onfly in ET. rewrite Hc, Hg in ET. cbn [bind] in ET, E. congruence. }
  subst T.
  destruct (onfly_sum ord f64 Wx w v cst ls true (flip_rows out) ca g Ho Hc Hg)
    as (T' & ET' & Hr' & Hcl' & Hel').
  exists T'. split; [exact ET'|]. cbn [flip_rows nrows ncols] in *.
  split; [cbn; congruence|]. split; [cbn; congruence|].
  intros i j Hi Hj. rewrite Hr' in Hi. rewrite Hcl' in Hj.
  rewrite Hel' by (try lia; congruence). cbn [flip_rows el]. rewrite Hr.
  rewrite Hel by (try lia; congruence).
  f_equal. apply Csum_ext. intros q Hq. destruct (el w q j) as [r|]; [|reflexivity].
  unfold flip_row. 
  replace (Z.of_nat (nrows out) - 1 - bin_onfly (Z.of_nat (nrows out) - 1) g r =? Z.of_nat i)%Z
    with (bin_onfly (Z.of_nat (nrows out) - 1) g r =? Z.of_nat (nrows out - 1 - i))%Z; [reflexivity|].
  destruct (Z.eqb_spec (bin_onfly (Z.of_nat (nrows out) - 1) g r) (Z.of_nat (nrows out - 1 - i))),
    (Z.eqb_spec (Z.of_nat (nrows out) - 1 - bin_onfly (Z.of_nat (nrows out) - 1) g r) (Z.of_nat i)); lia.
Qed.

Lemma fast_flip ord f64 Wx dWx v cst ls gamma Sfs out Tx : valid_order ord -> ncols out = ncols Wx ->
  ssqueeze_fast ord f64 Wx dWx v cst ls false gamma Sfs out = Ok Tx ->
  exists Tx', ssqueeze_fast ord f64 Wx dWx v cst ls true gamma Sfs (flip_rows out) = Ok Tx' /\
    meq Tx' (flip_rows Tx).
Proof.
  intros Ho Hn E. unfold ssqueeze_fast in E.
  destruct (const_arr (nrows Wx) cst) as [ca|] eqn:Hc; [|discriminate].
  destruct (get_grid f64 ls v) as [g|] eqn:Hg; [|discriminate]. cbn [bind] in E.
  assert (Hs : Sfs = None \/ ls = false) by (destruct Sfs, ls; auto; discriminate).
  destruct (fast_sum ord f64 Wx dWx v cst ls false gamma Sfs out ca g Ho Hc Hg Hs) as (T & ET & Hr & Hcl & Hel).
  assert (T = Tx).
  { unfold ssqueeze_fast in ET. rewrite Hc, Hg in ET. cbn [bind] in ET.
    rewrite ET in E. congruence. }
  subst T.
  destruct (fast_sum ord f64 Wx dWx v cst ls true gamma Sfs (flip_rows out) ca g Ho Hc Hg Hs)
    as (T' & ET' & Hr' & Hcl' & Hel').
  exists T'. split; [exact ET'|]. cbn [flip_rows nrows ncols] in *.
  split; [cbn; congruence|]. split; [cbn; congruence|].
  intros i j Hi Hj. rewrite Hr' in Hi. rewrite Hcl' in Hj.
  rewrite Hel' by (try lia; congruence). cbn [flip_rows el]. rewrite Hr.
  rewrite Hel by (try lia; congruence).
  f_equal. apply Csum_ext. intros q Hq. cbv zeta.
  destruct (Rlt_dec gamma (Cabs (el Wx q j))); [|reflexivity].
  set (b := bin_fast _ _ _). unfold flip_row.
  replace (Z.of_nat (nrows out) - 1 - b =? Z.of_nat i)%Z
    with (b =? Z.of_nat (nrows out - 1 - i))%Z; [reflexivity|].
  destruct (Z.eqb_spec b (Z.of_nat (nrows out - 1 - i))),
    (Z.eqb_spec (Z.of_nat (nrows out) - 1 - b) (Z.of_nat i)); lia.
Qed.
