(** How [ssqueeze] responds to a change of its input that relabels frequencies, permutes
    columns, or maps coefficients (C112-C114). *)
From Coq Require Import Reals Lra.
From Verif Require Import Py Round Parallel Cplx CplxProofs Stft Squeeze SqueezeProofs BinProofs
  SqueezeThms SqueezeThms2 SqueezeThms3 Scales Ssqueeze SsqueezeProofs FreqRange.
Local Open Scope R_scope.

(** the bin function of the kernel that is called *)
Definition bin_of (w : option (mat fval)) : Z -> grid -> R -> Z :=
  match w with Some _ => bin_onfly | None => bin_fast end.

(** a map on coefficients that respects sums and real factors *)
Definition real_linear (phi : C -> C) : Prop :=
  phi C0 = C0 /\ (forall a b, phi (Cadd a b) = Cadd (phi a) (phi b)) /\
  (forall a r, phi (Cmul a (RtoC r)) = Cmul (phi a) (RtoC r)).

Lemma real_linear_sum phi n f : real_linear phi -> phi (Csum n f) = Csum n (fun i => phi (f i)).
Proof. intros (H0 & Ha & _). induction n; cbn; [exact H0|]. now rewrite Ha, IHn. Qed.

(** both coefficients are dropped, or both go to the same bin *)
Definition same_bin (bin bin' : R -> Z) (a b : fval) : Prop :=
  match a, b with
  | Inf, Inf => True
  | Fin r, Fin r' => bin' r' = bin r
  | _, _ => False
  end.

Lemma one_transport ord o o' k v v' ls W W' w w' d d' T phi (P : nat -> Prop) sigma g g' : valid_order ord ->
  ssqueeze_one ord o k v ls W w d = Ok T -> get_grid (o_f64v o) ls v = Ok g ->
  real_linear phi -> nrows W' = nrows W -> ncols W' = ncols W ->
  (forall j, (j < ncols W)%nat -> P j -> (sigma j < ncols W)%nat) ->
  ssq_const o' k v' = ssq_const o k v -> get_grid (o_f64v o') ls v' = Ok g' ->
  o_flip o' = o_flip o -> o_Sfs o = None -> o_Sfs o' = None ->
  ((w = None <-> w' = None) /\ (d = None <-> d' = None) /\ (o_gamma o = None <-> o_gamma o' = None)) ->
  (forall i j, (i < nrows W)%nat -> (j < ncols W)%nat -> P j -> el W' i j = phi (el W i (sigma j))) ->
  (forall i j, (i < nrows W)%nat -> (j < ncols W)%nat -> P j ->
     let omax := (Z.of_nat (nrows W) - 1)%Z in
     same_bin (bin_of w omax g) (bin_of w omax g') (freq_at o W w d i (sigma j)) (freq_at o' W' w' d' i j)) ->
  exists T', ssqueeze_one ord o' k v' ls W' w' d' = Ok T' /\ nrows T' = nrows T /\ ncols T' = ncols T /\
    forall q j, (q < nrows T)%nat -> (j < ncols T)%nat -> P j -> el T' q j = phi (el T q (sigma j)).
Proof.
  intros Ho E Eg Hphi Hr Hc Hs Hk Eg' Hf Hn Hn' (Hw & Hd & Hgm) HW Hb.
  destruct (one_cells _ _ _ _ _ _ _ _ _ Ho E) as (A1 & A2 & cst & ca & g0 & B1 & B2 & B3 & B4).
  rewrite Eg in B3. injection B3 as <-.
  assert (exists T', ssqueeze_one ord o' k v' ls W' w' d' = Ok T') as (T' & E').
  { unfold ssqueeze_one in *. rewrite Hk, B1 in *. cbn [bind] in *.
    destruct w as [w|], w' as [w'|]; try (exfalso; destruct Hw as [Hw1 Hw2]; (discriminate (Hw1 eq_refl) || discriminate (Hw2 eq_refl))).
    - unfold indexed_sum_onfly. rewrite Hr, B2, Eg'. cbn [bind]. eexists. reflexivity.
    - destruct d as [d|]; [|discriminate].
      destruct d' as [d'|]; [|destruct Hd as [_ Hd]; discriminate (Hd eq_refl)].
      destruct (o_gamma o) as [gm|] eqn:Egm; [|discriminate].
      destruct (o_gamma o') as [gm'|]; [|destruct Hgm as [_ Hgm]; discriminate (Hgm eq_refl)].
      unfold ssqueeze_fast. rewrite Hr, B2, Eg', Hn'. cbn [bind]. eexists. reflexivity. }
  exists T'. split; [exact E'|].
  destruct (one_cells _ _ _ _ _ _ _ _ _ Ho E') as (A1' & A2' & cst' & ca' & g0' & B1' & B2' & B3' & B4').
  rewrite Eg' in B3'. injection B3' as <-. rewrite Hk, B1 in B1'. injection B1' as <-.
  rewrite Hr, B2 in B2'. injection B2' as <-.
  split; [congruence|]. split; [congruence|]. intros q j Hq Hj HP. rewrite A1 in Hq. rewrite A2 in Hj.
  cbv zeta in B4, B4'. rewrite B4' by congruence. rewrite B4 by auto.
  rewrite real_linear_sum by exact Hphi. rewrite Hr. apply Csum_ext. intros i Hi.
  specialize (Hb i j Hi Hj HP). cbv zeta in Hb. specialize (HW i j Hi Hj HP).
  assert (Ew : (match w' with Some _ => bin_onfly (Z.of_nat (nrows W) - 1) g' | None => bin_fast (Z.of_nat (nrows W) - 1) g' end)
             = bin_of w (Z.of_nat (nrows W) - 1) g').
  { destruct w, w'; try reflexivity; destruct Hw as [Hw1 Hw2]; (discriminate (Hw1 eq_refl) || discriminate (Hw2 eq_refl)). }
  assert (Ew0 : (match w with Some _ => bin_onfly (Z.of_nat (nrows W) - 1) g | None => bin_fast (Z.of_nat (nrows W) - 1) g end)
             = bin_of w (Z.of_nat (nrows W) - 1) g) by (destruct w; reflexivity).
  rewrite Ew, Ew0. destruct Hphi as (P0 & _ & P2).
  unfold same_bin in Hb. destruct (freq_at o W w d i (sigma j)) as [r|], (freq_at o' W' w' d' i j) as [r'|];
    try contradiction; [|now rewrite P0].
  rewrite Hb, Hf, HW. destruct (_ =? _)%Z; [now rewrite P2|now rewrite P0].
Qed.

(** ** Scaled frequency grids *)
Definition scale_grid (c : R) (g : grid) : grid :=
  match g with
  | GLin a d => GLin (c * a) (c * d)
  | GLog a d => GLog (a + log2 c) d
  | GPiece a b d e i => GPiece (a + log2 c) (b + log2 c) d e i
  end.

Lemma log2_scale c w : 0 < c -> 0 < w -> log2 (c * w) = log2 w + log2 c.
Proof. intros Hc Hw. unfold log2. rewrite ln_mult by assumption. field. pose proof ln2_pos; lra. Qed.
Lemma log2e_scale c w : 0 < c -> log2e (c * w) = match log2e w with Some l => Some (l + log2 c) | None => None end.
Proof.
  intros Hc. unfold log2e. destruct (Rlt_dec 0 w) as [Hw|Hw], (Rlt_dec 0 (c * w)) as [Hw'|Hw']; try reflexivity.
  - now rewrite log2_scale.
  - exfalso. apply Hw'. apply Rmult_lt_0_compat; assumption.
  - exfalso. apply Hw. destruct (Rle_or_lt w 0); [nra|assumption].
Qed.
Lemma div_scale c a d : 0 < c -> (c * a) / (c * d) = a / d.
Proof.
  intros Hc. unfold Rdiv. rewrite Rinv_mult.
  replace (c * a * (/ c * / d)) with (c * / c * (a * / d)) by ring. rewrite Rinv_r by lra. ring.
Qed.

Lemma bin_onfly_scale c g omax w : 0 < c -> bin_onfly omax (scale_grid c g) (c * w) = bin_onfly omax g w.
Proof.
  intros Hc. destruct g as [a d|a d|a b d e i]; cbn [scale_grid bin_onfly].
  - unfold bin_lin. replace (c * w - c * a) with (c * (w - a)) by ring. now rewrite div_scale.
  - unfold bin_log. rewrite log2e_scale by exact Hc. destruct (log2e w) as [l|]; [|reflexivity].
    now replace (l + log2 c - (a + log2 c)) with (l - a) by ring.
  - unfold bin_piece. rewrite log2e_scale by exact Hc. destruct (log2e w) as [l|]; [|reflexivity].
    replace (l + log2 c - (a + log2 c)) with (l - a) by ring.
    replace (l + log2 c - (b + log2 c)) with (l - b) by ring.
    destruct (Rlt_dec b l), (Rlt_dec (b + log2 c) (l + log2 c)); try reflexivity; lra.
Qed.
Lemma bin_fast_scale c g omax w : 0 < c -> bin_fast omax (scale_grid c g) (c * w) = bin_fast omax g w.
Proof.
  intros Hc. destruct g as [a d|a d|a b d e i]; cbn [scale_grid bin_fast].
  - apply (bin_onfly_scale c (GLin a d) omax w Hc).
  - apply (bin_onfly_scale c (GLog a d) omax w Hc).
  - unfold bin_piece_fast. rewrite log2e_scale by exact Hc. destruct (log2e w) as [l|]; [|reflexivity].
    replace (l + log2 c - (a + log2 c)) with (l - a) by ring.
    replace (l + log2 c - (b + log2 c)) with (l - b) by ring.
    destruct (Rlt_dec b l), (Rlt_dec (b + log2 c) (l + log2 c)); try reflexivity; lra.
Qed.
Lemma bin_of_scale w c g omax r : 0 < c -> bin_of w omax (scale_grid c g) (c * r) = bin_of w omax g r.
Proof. destruct w; [apply bin_onfly_scale|apply bin_fast_scale]. Qed.

(** [logscale_transition_idx] looks at ratios only *)
Definition positive (v : list R) : Prop := forall i, (i < length v)%nat -> 0 < nth i v 0.
Lemma diff_shift v m : diff (map (fun x => x + m) v) = diff v.
Proof.
  induction v as [|x v IH]; [reflexivity|]. destruct v as [|y v]; [reflexivity|].
  change (diff (map (fun x0 => x0 + m) (x :: y :: v)))
    with ((y + m - (x + m)) :: diff (map (fun x0 => x0 + m) (y :: v))).
  rewrite IH. cbn [diff]. f_equal. ring.
Qed.
Lemma ln_scale c v : 0 < c -> positive v -> map ln (map (Rmult c) v) = map (fun x => x + ln c) (map ln v).
Proof.
  intros Hc Hv. rewrite !map_map. apply map_ext_in. intros x Hx.
  destruct (In_nth _ _ 0 Hx) as (i & Hi & <-). specialize (Hv i Hi). rewrite ln_mult by assumption. ring.
Qed.
Lemma transition_scale f64 c v : 0 < c -> positive v ->
  logscale_transition_idx f64 (map (Rmult c) v) = logscale_transition_idx f64 v.
Proof.
  intros Hc Hv. unfold logscale_transition_idx. rewrite ln_scale by assumption. now rewrite diff_shift.
Qed.
Lemma nth_scale c v i : nth i (map (Rmult c) v) 0 = c * nth i v 0.
Proof. rewrite <- (Rmult_0_r c) at 1. apply (map_nth (Rmult c)). Qed.
Lemma positive_scale c v : 0 < c -> positive v -> positive (map (Rmult c) v).
Proof. intros Hc Hv i Hi. rewrite map_length in Hi. rewrite nth_scale. specialize (Hv i Hi). nra. Qed.

(** the step is not lost to the guard against zero steps *)
Definition resolved (ls : bool) (v : list R) : Prop := ls = false -> EPS64 <= nth 1 v 0 - nth 0 v 0.

Lemma grid_scale f64 ls c v g : 0 < c -> (ls = true -> positive v) -> resolved ls v -> resolved ls (map (Rmult c) v) ->
  get_grid f64 ls v = Ok g -> get_grid f64 ls (map (Rmult c) v) = Ok (scale_grid c g).
Proof.
  intros Hc Hv H1 H2 E. unfold get_grid in *. destruct ls.
  - specialize (Hv eq_refl). unfold get_params_log in *. rewrite transition_scale by assumption.
    destruct (logscale_transition_idx f64 v) as [idx|] eqn:Et; [|discriminate]. cbn [bind] in *.
    assert (Hlen : (3 <= length v)%nat).
    { unfold logscale_transition_idx in Et. destruct v as [|? [|? [|? v]]]; try discriminate Et; cbn; lia. }
    assert (Hl : forall i, (i < length v)%nat -> log2 (nth i (map (Rmult c) v) 0) = log2 (nth i v 0) + log2 c).
    { intros i Hi. rewrite nth_scale. apply log2_scale; auto. }
    destruct idx as [i|].
    + assert (Hi : (i < length v)%nat).
      { apply (transition_ge2 _ _ _ Et). }
      apply (f_equal (fun r => match r with Ok g => g | _ => GLin 0 0 end)) in E. cbv beta iota in E. subst g.
      cbn [scale_grid]. rewrite !Hl by lia.
      do 2 f_equal; f_equal; ring.
    + injection E as <-. cbn [scale_grid]. rewrite !Hl by lia. do 2 f_equal. f_equal. ring.
  - destruct v as [|v0 [|v1 v]]; try discriminate. cbn [map]. injection E as <-. cbn [scale_grid].
    specialize (H1 eq_refl). specialize (H2 eq_refl). cbn [nth map] in H1, H2.
    unfold ensure_nonzero_nonnegative. destruct (Rlt_dec (c * v1 - c * v0) EPS64); [lra|].
    destruct (Rlt_dec (v1 - v0) EPS64); [lra|]. do 2 f_equal. ring.
Qed.
