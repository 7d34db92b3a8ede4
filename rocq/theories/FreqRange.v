From Coq Require Import ZifyBool ZifyNat.
From Verif Require Import Py Round Parallel Cplx CplxProofs Stft Squeeze SqueezeProofs BinProofs
  SqueezeThms SqueezeThms2 SqueezeThms3 Scales Ssqueeze SsqueezeProofs.
Local Open Scope R_scope.
Ltac Zify.zify_post_hook ::= Z.div_mod_to_equations.

Lemma ln_div a b : 0 < a -> 0 < b -> ln (a / b) = ln a - ln b.
Proof.
  intros Ha Hb. unfold Rdiv. rewrite ln_mult by (try apply Rinv_0_lt_compat; assumption).
  rewrite ln_Rinv by assumption. ring.
Qed.

(** strictly increasing from [a] to [b] *)
Definition spans (v : list R) (a b : R) : Prop :=
  nth 0 v 0 = a /\ nth (length v - 1) v 0 = b /\
  forall i j, (i < j < length v)%nat -> nth i v 0 < nth j v 0.

Lemma linspace_spans a b n : a < b -> (2 <= n)%nat -> spans (linspace a b n) a b.
Proof.
  intros Hab Hn. unfold spans. rewrite linspace_length.
  assert (H : forall k, (k < n)%nat -> nth k (linspace a b n) 0 = a + INR k * ((b - a) / INR (n - 1))).
  { intros k Hk. unfold linspace. rewrite nth_tab by exact Hk. destruct (Nat.eqb_spec n 1); [lia|reflexivity]. }
  assert (Hp : 0 < INR (n - 1)) by (apply lt_0_INR; lia).
  repeat split.
  - rewrite H by lia. cbn. ring.
  - rewrite H by lia. field. lra.
  - intros i j Hij. rewrite !H by lia. pose proof (lt_INR i j ltac:(lia)).
    assert (0 < (b - a) / INR (n - 1)) by (apply Rdiv_lt_0_compat; lra). nra.
Qed.

Lemma log_freqs_nth fm fM na k : 0 < fm -> 0 < fM -> (k < na)%nat -> (2 <= na)%nat ->
  nth k (log_freqs fm fM na) 0 = exp (ln fm + INR k * ((ln fM - ln fm) / INR (na - 1))).
Proof.
  intros H1 H2 Hk Hn. unfold log_freqs. rewrite nth_tab by exact Hk.
  unfold Rpower. rewrite ln_div by assumption. rewrite exp_plus, exp_ln by exact H1.
  f_equal. f_equal. field. apply not_0_INR. lia.
Qed.
Lemma log_freqs_spans fm fM na : 0 < fm < fM -> (2 <= na)%nat -> spans (log_freqs fm fM na) fm fM.
Proof.
  intros Hf Hn. unfold spans. rewrite log_freqs_length.
  assert (Hp : 0 < INR (na - 1)) by (apply lt_0_INR; lia).
  assert (Hl : ln fm < ln fM) by (apply ln_increasing; lra).
  repeat split.
  - rewrite log_freqs_nth by (lia || lra). cbn [INR]. rewrite Rmult_0_l, Rplus_0_r. apply exp_ln. lra.
  - rewrite log_freqs_nth by (lia || lra).
    replace (ln fm + _) with (ln fM) by (field; lra). apply exp_ln. lra.
  - intros i j Hij. rewrite !log_freqs_nth by (lia || lra). apply exp_increasing.
    pose proof (lt_INR i j ltac:(lia)).
    assert (0 < (ln fM - ln fm) / INR (na - 1)) by (apply Rdiv_lt_0_compat; lra). nra.
Qed.

(** ** [_exp_fm] *)
Lemma nth_map_gen {A B} (f : A -> B) l d d' k : (k < length l)%nat -> nth k (map f l) d' = f (nth k l d).
Proof.
  intros Hk. rewrite (nth_indep _ d' (f d)) by (rewrite map_length; exact Hk). apply map_nth.
Qed.
Lemma fold_Rmax l : forall a M, a <= M -> (forall y, In y l -> y <= M) -> (a = M \/ In M l) ->
  fold_left Rmax l a = M.
Proof.
  induction l as [|y l IH]; intros a M Ha Hl HM; cbn.
  - destruct HM as [|[]]; assumption.
  - apply IH.
    + apply Rmax_lub; [exact Ha|apply Hl; left; reflexivity].
    + intros z Hz. apply Hl. right. exact Hz.
    + destruct HM as [->|[->|HM]]; [left; apply Rmax_left; apply Hl; left; reflexivity|
        left; apply Rmax_right; exact Ha|right; exact HM].
Qed.
Lemma fold_Rmin l : forall a M, M <= a -> (forall y, In y l -> M <= y) -> (a = M \/ In M l) ->
  fold_left Rmin l a = M.
Proof.
  induction l as [|y l IH]; intros a M Ha Hl HM; cbn.
  - destruct HM as [|[]]; assumption.
  - apply IH.
    + apply Rmin_glb; [exact Ha|apply Hl; left; reflexivity].
    + intros z Hz. apply Hl. right. exact Hz.
    + destruct HM as [->|[->|HM]]; [left; apply Rmin_left; apply Hl; left; reflexivity|
        left; apply Rmin_right; exact Ha|right; exact HM].
Qed.

Lemma exp_fm_nth t fmin fmax lo hi k : 0 < fmin -> 0 < fmax -> tmin t = lo -> tmax t = hi -> lo < hi -> 0 < hi ->
  (k < length t)%nat ->
  nth k (exp_fm t fmin fmax) 0 = exp (ln fmin + (nth k t 0 - lo) * ((ln fmax - ln fmin) / (hi - lo))).
Proof.
  intros H1 H2 Hlo Hhi Hlt Hpos Hk. unfold exp_fm. rewrite Hlo, Hhi.
  set (a := Rpower (Rpower fmin hi / Rpower fmax lo) (1 / (hi - lo))).
  set (b := Rpower fmax (1 / hi) * Rpower (1 / a) (1 / hi)).
  rewrite (nth_map_gen (fun u => a * Rpower b u) t 0) by exact Hk.
  assert (Ha : a = exp ((hi * ln fmin - lo * ln fmax) / (hi - lo))).
  { unfold a, Rpower. rewrite ln_div by apply exp_pos. rewrite !ln_exp. f_equal. field. lra. }
  assert (Hap : 0 < a) by (rewrite Ha; apply exp_pos).
  assert (Hln : ln a = (hi * ln fmin - lo * ln fmax) / (hi - lo)) by (rewrite Ha; apply ln_exp).
  assert (Hb : ln b = (ln fmax - ln fmin) / (hi - lo)).
  { unfold b, Rpower. rewrite <- exp_plus, ln_exp. rewrite ln_div, ln_1 by lra. rewrite Hln. field. lra. }
  unfold Rpower. rewrite Hb. rewrite Ha, <- exp_plus. f_equal. field. lra.
Qed.

(** ** Piecewise frequencies *)
Section Piece.
Variables (na idx : nat) (f0 f1 f2 : R).
Hypothesis Hi : (1 <= idx)%nat.
Hypothesis Hf : 0 < f0 /\ 0 < f1 /\ 0 < f2.
Let q := (na - idx - 1)%nat.
Let tt k := INR k / INR (na - 1).
Let t2 := map tt (seq q (idx + 1)).
Let t1 := map tt (seq 0 q) ++ [nth 0 t2 0].
Let v := removelast (exp_fm t1 f0 f1) ++ exp_fm t2 f1 f2.

Lemma t2_nth k : (k <= idx)%nat -> nth k t2 0 = tt (q + k).
Proof.
  intros Hk. unfold t2. rewrite (nth_map_gen tt _ 0%nat) by (rewrite seq_length; lia).
  rewrite seq_nth by lia. reflexivity.
Qed.
Lemma t1_nth k : (k <= q)%nat -> nth k t1 0 = tt k.
Proof.
  intros Hk. unfold t1. destruct (Nat.eq_dec k q) as [->|].
  - rewrite app_nth2 by (rewrite map_length, seq_length; lia). rewrite map_length, seq_length, Nat.sub_diag.
    cbn [nth]. rewrite t2_nth by lia. f_equal. lia.
  - rewrite app_nth1 by (rewrite map_length, seq_length; lia).
    rewrite (nth_map_gen tt _ 0%nat) by (rewrite seq_length; lia). rewrite seq_nth by lia. reflexivity.
Qed.
Lemma t1_length : length t1 = S q.
Proof. unfold t1. rewrite app_length, map_length, seq_length. cbn. lia. Qed.
Lemma t2_length : length t2 = S idx.
Proof. unfold t2. rewrite map_length, seq_length. lia. Qed.

Lemma tt_mono a b : (a <= b)%nat -> tt a <= tt b.
Proof.
  intros H. unfold tt, Rdiv. pose proof (le_INR a b H).
  destruct (Nat.eq_dec (na - 1) 0) as [E|E].
  - rewrite E. cbn [INR]. rewrite Rinv_0. lra.
  - apply Rmult_le_compat_r; [|assumption]. left. apply Rinv_0_lt_compat, lt_0_INR. lia.
Qed.

Hypothesis Hq : (idx < na)%nat.
Lemma naR : 0 < INR (na - 1). Proof. apply lt_0_INR. lia. Qed.
Lemma t2_min : tmin t2 = tt q.
Proof.
  unfold tmin. apply fold_Rmin.
  - rewrite t2_nth by lia. apply tt_mono. lia.
  - intros y Hy. apply (In_nth _ _ 0) in Hy. destruct Hy as (k & Hk & <-). rewrite t2_length in Hk.
    rewrite t2_nth by lia. apply tt_mono. lia.
  - left. rewrite t2_nth by lia. f_equal. lia.
Qed.
Lemma t2_max : tmax t2 = tt (q + idx).
Proof.
  unfold tmax. apply fold_Rmax.
  - rewrite t2_nth by lia. apply tt_mono. lia.
  - intros y Hy. apply (In_nth _ _ 0) in Hy. destruct Hy as (k & Hk & <-). rewrite t2_length in Hk.
    rewrite t2_nth by lia. apply tt_mono. lia.
  - right. rewrite <- t2_nth by lia. apply nth_In. rewrite t2_length. lia.
Qed.
Lemma t1_min : tmin t1 = tt 0.
Proof.
  unfold tmin. apply fold_Rmin.
  - rewrite t1_nth by lia. apply tt_mono. lia.
  - intros y Hy. apply (In_nth _ _ 0) in Hy. destruct Hy as (k & Hk & <-). rewrite t1_length in Hk.
    rewrite t1_nth by lia. apply tt_mono. lia.
  - left. rewrite t1_nth by lia. reflexivity.
Qed.
Lemma t1_max : tmax t1 = tt q.
Proof.
  unfold tmax. apply fold_Rmax.
  - rewrite t1_nth by lia. apply tt_mono. lia.
  - intros y Hy. apply (In_nth _ _ 0) in Hy. destruct Hy as (k & Hk & <-). rewrite t1_length in Hk.
    rewrite t1_nth by lia. apply tt_mono. lia.
  - right. rewrite <- t1_nth by lia. apply nth_In. rewrite t1_length. lia.
Qed.

Let a := (ln f1 - ln f0) / INR q.
Let b := (ln f2 - ln f1) / INR idx.
Lemma removelast_nth {A} (l : list A) d k : (S k < length l)%nat -> nth k (removelast l) d = nth k l d.
Proof.
  revert k. induction l as [|x l IH]; intros k Hk; [cbn in Hk; lia|].
  destruct l as [|y l]; [cbn in Hk; lia|].
  change (removelast (x :: y :: l)) with (x :: removelast (y :: l)).
  destruct k; [reflexivity|]. cbn [nth]. apply IH. cbn in *. lia.
Qed.
Lemma v_length : length v = na.
Proof.
  unfold v. rewrite app_length, removelast_length, !exp_fm_length, t1_length, t2_length. lia.
Qed.
Lemma tt_sub i j : tt i - tt j = (INR i - INR j) / INR (na - 1).
Proof. unfold tt. pose proof naR. field. lra. Qed.
Lemma v_low k : (k < q)%nat -> nth k v 0 = exp (ln f0 + INR k * a).
Proof.
  intros Hk. assert (HqR : 0 < INR q) by (apply lt_0_INR; lia). pose proof naR as Hna.
  unfold v. rewrite app_nth1 by (rewrite removelast_length, exp_fm_length, t1_length; lia).
  rewrite removelast_nth by (rewrite exp_fm_length, t1_length; lia).
  rewrite (exp_fm_nth t1 f0 f1 (tt 0) (tt q) k); try lra.
  - rewrite t1_nth by lia. rewrite !tt_sub. unfold a. cbn [INR]. do 2 f_equal. field. lra.
  - apply t1_min.
  - apply t1_max.
  - unfold tt. cbn [INR]. unfold Rdiv. rewrite Rmult_0_l. apply Rmult_lt_0_compat; [lra|apply Rinv_0_lt_compat; lra].
  - unfold tt. apply Rdiv_lt_0_compat; lra.
  - rewrite t1_length. lia.
Qed.
Lemma v_high k : (q <= k < na)%nat -> nth k v 0 = exp (ln f1 + (INR k - INR q) * b).
Proof.
  intros Hk. assert (HiR : 0 < INR idx) by (apply lt_0_INR; lia). pose proof naR as Hna.
  assert (Hrl : length (removelast (exp_fm t1 f0 f1)) = q) by (rewrite removelast_length, exp_fm_length, t1_length; lia).
  unfold v. rewrite app_nth2 by lia. rewrite Hrl.
  assert (Hqi : INR (q + idx) - INR q = INR idx) by (rewrite plus_INR; ring).
  rewrite (exp_fm_nth t2 f1 f2 (tt q) (tt (q + idx)) (k - q)); try lra.
  - rewrite t2_nth by lia. replace (q + (k - q))%nat with k by lia. rewrite !tt_sub, Hqi. unfold b.
    do 2 f_equal. field. lra.
  - apply t2_min.
  - apply t2_max.
  - assert (tt (q + idx) - tt q = INR idx / INR (na - 1)) by (rewrite tt_sub, Hqi; reflexivity).
    assert (0 < INR idx / INR (na - 1)) by (apply Rdiv_lt_0_compat; lra). lra.
  - unfold tt. apply Rdiv_lt_0_compat; [apply lt_0_INR; lia|lra].
  - rewrite t2_length. lia.
Qed.

Lemma ab_pos : f0 < f1 < f2 -> (0 < q)%nat -> 0 < a /\ 0 < b.
Proof.
  intros Hlt H. assert (ln f0 < ln f1) by (apply ln_increasing; lra). assert (ln f1 < ln f2) by (apply ln_increasing; lra).
  split; apply Rdiv_lt_0_compat; try lra; apply lt_0_INR; lia.
Qed.

Lemma v_mid : nth q v 0 = f1.
Proof.
  rewrite v_high by lia. rewrite Rminus_diag_eq by reflexivity. rewrite Rmult_0_l, Rplus_0_r. apply exp_ln. lra.
Qed.
Lemma piece_spans : f0 < f1 < f2 -> (0 < q)%nat -> spans v f0 f2 /\ nth q v 0 = f1.
Proof.
  intros Hlt H0. destruct (ab_pos Hlt H0) as [Ha Hb]. unfold spans. rewrite v_length.
  assert (HqR : 0 < INR q) by (apply lt_0_INR; lia). assert (HiR : 0 < INR idx) by (apply lt_0_INR; lia).
  split; [|exact v_mid]. repeat split.
  - rewrite v_low by lia. cbn [INR]. rewrite Rmult_0_l, Rplus_0_r. apply exp_ln. lra.
  - rewrite v_high by lia. replace (INR (na - 1) - INR q) with (INR idx).
    + unfold b. replace (ln f1 + _) with (ln f2) by (field; lra). apply exp_ln. lra.
    + replace (na - 1)%nat with (q + idx)%nat by lia. rewrite plus_INR. ring.
  - intros i j Hij. pose proof (lt_INR i j ltac:(lia)) as HijR.
    destruct (Nat.lt_ge_cases j q).
    + rewrite !v_low by lia. apply exp_increasing. nra.
    + rewrite (v_high j) by lia. pose proof (le_INR q j ltac:(lia)).
      destruct (Nat.lt_ge_cases i q) as [Hlq|].
      * rewrite v_low by lia. apply exp_increasing. pose proof (lt_INR i q Hlq).
        assert (INR i * a < ln f1 - ln f0).
        { replace (ln f1 - ln f0) with (INR q * a) by (unfold a; field; lra). nra. }
        nra.
      * rewrite v_high by lia. apply exp_increasing. nra.
Qed.

(** where the generated frequencies change spacing *)
Lemma ln_low k : (0 < q)%nat -> (k <= q)%nat -> ln (nth k v 0) = ln f0 + INR k * a.
Proof.
  intros H0 Hk. destruct (Nat.eq_dec k q) as [->|].
  - rewrite v_mid. assert (0 < INR q) by (apply lt_0_INR; lia). unfold a. field. lra.
  - rewrite v_low by lia. apply ln_exp.
Qed.
Lemma ln_high k : (q <= k < na)%nat -> ln (nth k v 0) = ln f1 + (INR k - INR q) * b.
Proof. intros Hk. rewrite v_high by lia. apply ln_exp. Qed.

Lemma piece_d2 i : (0 < q)%nat -> (S (S i) < na)%nat -> d2 v i = if (S i =? q)%nat then b - a else 0.
Proof.
  intros H0 Hi2. unfold d2.
  destruct (Nat.eqb_spec (S i) q) as [E|E].
  - rewrite (ln_high (S (S i))), (ln_low (S i)), (ln_low i) by lia.
    pose proof (ln_low q H0 ltac:(lia)) as Eq. rewrite ln_high in Eq by lia.
    rewrite <- E in *. rewrite !S_INR in *. lra.
  - destruct (Nat.lt_ge_cases (S i) q).
    + rewrite !ln_low by lia. rewrite !S_INR. ring.
    + rewrite !ln_high by lia. rewrite !S_INR. ring.
Qed.

Lemma piece_transition : (0 < q)%nat -> (2 <= idx)%nat ->
  logscale_transition_idx true v = Ok (if Req_EM_T a b then None else Some (S q)).
Proof.
  intros H0 H2. destruct (Req_EM_T a b) as [E|E].
  - apply transition_none; [rewrite v_length; lia|]. intros i Hi2. rewrite v_length in Hi2.
    rewrite piece_d2 by lia. destruct (_ =? _)%nat; lra.
  - rewrite (transition_some true v (q - 1)).
    + do 2 f_equal. lia.
    + rewrite v_length. lia.
    + rewrite piece_d2 by lia. destruct (Nat.eqb_spec (S (q - 1)) q); [lra|lia].
    + intros i Hi2 Hne. rewrite v_length in Hi2. rewrite piece_d2 by lia.
      destruct (Nat.eqb_spec (S i) q); [lia|reflexivity].
Qed.
Lemma late_transition : q = 0%nat -> (2 <= idx)%nat -> logscale_transition_idx true v = Ok None.
Proof.
  intros H0 H2. apply transition_none; [rewrite v_length; lia|]. intros i Hi2. rewrite v_length in Hi2.
  unfold d2. rewrite !ln_high by lia. rewrite !S_INR. ring.
Qed.
End Piece.

Lemma transition_ge2 f64 v i : logscale_transition_idx f64 v = Ok (Some i) -> (2 <= i < length v)%nat.
Proof.
  intros E. pose proof (transition_bound _ _ _ E). split; [|assumption].
  unfold logscale_transition_idx in E. destruct (map Rabs _); [discriminate|].
  cbv zeta in E. destruct (Rlt_dec _ _); [|discriminate]. destruct (forallb _ _); [|discriminate].
  apply (f_equal (fun r => match r with Ok (Some i) => i | _ => 0%nat end)) in E.
  cbv beta iota in E. rewrite <- E. lia.
Qed.

(** 'log-piecewise': three anchor frequencies [f0 < f1 < f2] *)
Theorem piecewise_freqs f64s scales N c dt tr idx :
  logscale_transition_idx f64s scales = Ok (Some idx) ->
  let na := length scales in
  let f0 := c (last scales 0) in let f1 := c (nth idx scales 0) in let f2 := c (nth 0 scales 0) in
  0 < f0 < f1 -> f1 < f2 ->
  match associated_frequencies f64s scales N SPiece (MRCenter c) dt tr with
  | Ok v => length v = na /\ spans v f0 f2 /\ nth (na - idx - 1) v 0 = f1 /\ (idx < na - 1)%nat /\
      logscale_transition_idx true v = Ok (Some (na - idx)%nat)
  | Err e => e = PlainException /\
      (idx = (na - 1)%nat \/ (ln f1 - ln f0) / INR (na - idx - 1) = (ln f2 - ln f1) / INR idx)
  end.
Proof.
  intros Et na f0 f1 f2 H01 H12. pose proof (transition_ge2 _ _ _ Et) as Hi. fold na in Hi.
  unfold associated_frequencies, ssq_freqrange. rewrite Et. cbn [bind]. fold na f0 f1 f2.
  set (tt := fun k => INR k / INR (na - 1)).
  set (v := removelast _ ++ _).
  assert (Hv : length v = na) by (apply (v_length na idx f0 f1 f2); lia).
  destruct (Nat.eq_dec (na - idx - 1) 0) as [E0|E0].
  - rewrite (late_transition na idx f0 f1 f2 ltac:(lia) ltac:(lra) ltac:(lia) E0 ltac:(lia) : logscale_transition_idx true v = _).
    cbn [bind]. split; [reflexivity|]. left. lia.
  - rewrite (piece_transition na idx f0 f1 f2 ltac:(lia) ltac:(lra) ltac:(lia) ltac:(lia) ltac:(lia) : logscale_transition_idx true v = _).
    destruct (Req_EM_T _ _) as [E|E]; cbn [bind].
    + split; [reflexivity|]. right. exact E.
    + destruct (Z.eqb_spec (Z.of_nat na - Z.of_nat (S (na - idx - 1))) (Z.of_nat idx)); [|lia].
      destruct (piece_spans na idx f0 f1 f2 ltac:(lia) ltac:(lra) ltac:(lia) ltac:(lra) ltac:(lia)) as [Hs Hm].
      fold tt v in Hs, Hm. split; [exact Hv|]. split; [exact Hs|]. split; [exact Hm|]. split; [lia|].
      rewrite (piece_transition na idx f0 f1 f2 ltac:(lia) ltac:(lra) ltac:(lia) ltac:(lia) ltac:(lia) : logscale_transition_idx true v = _).
      destruct (Req_EM_T _ _); [contradiction|]. do 2 f_equal. lia.
Qed.

(** the two lowest anchors coincide: repeated frequencies *)
Theorem piecewise_repeated f64s scales N c dt tr idx :
  logscale_transition_idx f64s scales = Ok (Some idx) -> (idx < length scales - 2)%nat ->
  let f0 := c (last scales 0) in
  0 < f0 -> c (nth idx scales 0) = f0 -> f0 < c (nth 0 scales 0) ->
  exists v, associated_frequencies f64s scales N SPiece (MRCenter c) dt tr = Ok v /\
    nth 0 v 0 = nth 1 v 0.
Proof.
  intros Et Hlt f0 H0 H1 H2. pose proof (transition_ge2 _ _ _ Et) as Hi. set (na := length scales) in *.
  set (f2 := c (nth 0 scales 0)) in *.
  unfold associated_frequencies, ssq_freqrange. rewrite Et. cbn [bind]. rewrite H1. fold na f0 f2.
  set (tt := fun k => INR k / INR (na - 1)).
  set (v := removelast _ ++ _).
  assert (Ha : (ln f0 - ln f0) / INR (na - idx - 1) = 0) by (unfold Rdiv; ring).
  assert (Hb : 0 < (ln f2 - ln f0) / INR idx).
  { apply Rdiv_lt_0_compat; [|apply lt_0_INR; lia]. assert (ln f0 < ln f2) by (apply ln_increasing; lra). lra. }
  rewrite (piece_transition na idx f0 f0 f2 ltac:(lia) ltac:(lra) ltac:(lia) ltac:(lia) ltac:(lia) : logscale_transition_idx true v = _).
  destruct (Req_EM_T _ _) as [E|E]; [rewrite Ha in E; lra|]. cbn [bind].
  destruct (Z.eqb_spec (Z.of_nat na - Z.of_nat (S (na - idx - 1))) (Z.of_nat idx)); [|lia].
  exists v. split; [reflexivity|].
  pose proof (v_low na idx f0 f0 f2 ltac:(lia) ltac:(lra) ltac:(lia) 0 ltac:(lia)) as E0.
  pose proof (v_low na idx f0 f0 f2 ltac:(lia) ltac:(lra) ltac:(lia) 1 ltac:(lia)) as E1.
  rewrite Ha in E0, E1. rewrite Rmult_0_r in E0, E1. fold tt in E0, E1. unfold v. rewrite E0, E1. reflexivity.
Qed.

Theorem log_lin_freqs f64s scales N st mr dt tr fm fM : st <> SPiece -> (st = SLin -> tr = TCwt) ->
  (2 <= length scales)%nat -> ssq_freqrange mr dt N scales = (fm, fM) -> 0 < fm < fM ->
  exists v, associated_frequencies f64s scales N st mr dt tr = Ok v /\
    length v = length scales /\ spans v fm fM.
Proof.
  intros Hst Htr Hn Er Hf. unfold associated_frequencies. rewrite Er. destruct st.
  - eexists. split; [reflexivity|]. split; [apply log_freqs_length|]. apply log_freqs_spans; assumption.
  - congruence.
  - rewrite (Htr eq_refl). eexists. split; [reflexivity|]. split; [apply linspace_length|].
    apply linspace_spans; [lra|assumption].
Qed.

(** 'linear' with transform='stft': 0 to Nyquist *)
Theorem stft_lin_freqs f64s scales N mr dt : (2 <= length scales)%nat -> 0 < dt ->
  exists v, associated_frequencies f64s scales N SLin mr dt TStft = Ok v /\
    length v = length scales /\ spans v 0 (1 / 2 / dt).
Proof.
  intros Hn Hdt. unfold associated_frequencies. destruct (ssq_freqrange mr dt N scales).
  eexists. split; [reflexivity|]. set (l := linspace 0 (1 / 2) (length scales)).
  assert (HL : length l = length scales) by apply linspace_length.
  destruct (linspace_spans 0 (1 / 2) (length scales) ltac:(lra) Hn) as (A & B & D). fold l in A, B, D.
  split; [rewrite map_length; exact HL|].
  unfold spans. rewrite map_length. rewrite HL in *.
  assert (H : forall k, (k < length scales)%nat -> nth k (map (fun f => f / dt) l) 0 = nth k l 0 / dt).
  { intros k Hk. apply (nth_map_gen (fun f => f / dt) l 0 0 k). lia. }
  repeat split.
  - rewrite H by lia. rewrite A. unfold Rdiv. ring.
  - rewrite H by lia. rewrite B. reflexivity.
  - intros i j Hij. rewrite !H by lia. specialize (D i j ltac:(lia)).
    unfold Rdiv. apply Rmult_lt_compat_r; [apply Rinv_0_lt_compat; lra|exact D].
Qed.

Lemma maximal_range dt N scales : 0 < dt -> (3 <= N)%nat ->
  exists fm fM, ssq_freqrange MRMaximal dt N scales = (fm, fM) /\ 0 < fm < fM /\
    fm * (dt * INR N) = 1 /\ fM * (2 * dt) = 1.
Proof.
  intros Hdt HN. eexists _, _. split; [reflexivity|].
  assert (3 <= INR N) by (replace 3 with (INR 3) by (simpl; ring); apply le_INR; exact HN).
  assert (0 < dt * INR N) by nra.
  split; [|split; field; lra]. split; [apply Rdiv_lt_0_compat; lra|].
  unfold Rdiv. rewrite !Rmult_1_l. apply Rinv_lt_contravar; nra.
Qed.
