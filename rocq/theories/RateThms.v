(** The sampling rate only relabels frequencies (C112). *)
From Coq Require Import Reals Lra.
From Verif Require Import Py Round Parallel Cplx CplxProofs Padding PaddingProofs Buffer Freqs Stft Squeeze SqueezeProofs BinProofs
  SqueezeThms SqueezeThms2 SqueezeThms3 Scales Ssqueeze SsqueezeProofs FreqRange Cwt CwtProofs CwtThms CwtThms2 SsqCwt
  DiffProofs SsqCwtProofs Transport.
Local Open Scope R_scope.

(** the same request in other units: a tuple is given in Hz; a centre frequency is
    [wc / (2*pi) / dt] (ssqueezing.py:301-311) *)
Definition scale_mr (c : R) (mr : maprange) : maprange :=
  match mr with
  | MRTuple a b => MRTuple (c * a) (c * b)
  | MRMaximal => MRMaximal
  | MRCenter f => MRCenter (fun s => c * f s)
  end.
Definition center_at (wc : R -> R) (fs s : R) : R := wc s / (2 * PI) / (1 / fs).

(** the range asked for is positive *)
Definition mr_positive (mr : maprange) (scales : list R) : Prop :=
  match mr with
  | MRTuple a b => 0 < a /\ 0 < b
  | MRMaximal => True
  | MRCenter f => forall s, In s scales -> 0 < f s
  end.

Definition res_map {A B} (h : A -> B) (r : res A) : res B := match r with Ok a => Ok (h a) | Err e => Err e end.

Lemma map_tab {A B} (h : A -> B) n g : map h (tab n g) = tab n (fun i => h (g i)).
Proof. unfold tab. apply map_map. Qed.
Lemma log_freqs_scale c fm fM na : 0 < c -> log_freqs (c * fm) (c * fM) na = map (Rmult c) (log_freqs fm fM na).
Proof.
  intros Hc. unfold log_freqs. rewrite map_tab. apply tab_ext. intros k Hk. rewrite div_scale by exact Hc. ring.
Qed.
Lemma linspace_scale c a b n : linspace (c * a) (c * b) n = map (Rmult c) (linspace a b n).
Proof.
  unfold linspace. rewrite map_tab. apply tab_ext. intros k Hk. destruct (n =? 1)%nat; [reflexivity|]. unfold Rdiv. ring.
Qed.
Lemma Rpower_pos a b : 0 < Rpower a b. Proof. apply exp_pos. Qed.
Lemma exp_fm_scale c t fm fM : 0 < c -> 0 < fm -> 0 < fM -> tmax t - tmin t <> 0 ->
  exp_fm t (c * fm) (c * fM) = map (Rmult c) (exp_fm t fm fM).
Proof.
  intros Hc H1 H2 Ht. unfold exp_fm.
  set (lo := tmin t) in *. set (hi := tmax t) in *.
  set (a := Rpower (Rpower fm hi / Rpower fM lo) (1 / (hi - lo))).
  assert (Ha : Rpower (Rpower (c * fm) hi / Rpower (c * fM) lo) (1 / (hi - lo)) = c * a).
  { unfold a.
    rewrite <- !Rpower_mult_distr by assumption.
    replace (Rpower c hi * Rpower fm hi / (Rpower c lo * Rpower fM lo))
      with (Rpower c hi / Rpower c lo * (Rpower fm hi / Rpower fM lo)).
    2:{ pose proof (Rpower_pos c lo). pose proof (Rpower_pos fM lo). field. split; lra. }
    rewrite <- Rpower_mult_distr by (apply Rdiv_lt_0_compat; apply Rpower_pos). f_equal.
    unfold Rdiv at 1. rewrite <- Rpower_Ropp, <- Rpower_plus, Rpower_mult.
    replace ((hi + - lo) * (1 / (hi - lo))) with 1 by (field; exact Ht). apply Rpower_1, Hc. }
  rewrite Ha. pose proof (Rpower_pos (Rpower fm hi / Rpower fM lo) (1 / (hi - lo))) as Hap. fold a in Hap.
  rewrite map_map. apply map_ext. intros u. rewrite Rmult_assoc. f_equal. f_equal. f_equal.
  rewrite <- Rpower_mult_distr by assumption.
  replace (1 / (c * a)) with (1 / c * (1 / a)) by (field; split; lra).
  rewrite <- Rpower_mult_distr by (apply Rdiv_lt_0_compat; lra).
  replace (Rpower c (1 / hi) * Rpower fM (1 / hi) * (Rpower (1 / c) (1 / hi) * Rpower (1 / a) (1 / hi)))
    with ((Rpower c (1 / hi) * Rpower (1 / c) (1 / hi)) * (Rpower fM (1 / hi) * Rpower (1 / a) (1 / hi))) by ring.
  rewrite Rpower_mult_distr by (try apply Rdiv_lt_0_compat; lra).
  replace (c * (1 / c)) with 1 by (field; lra).
  unfold Rpower at 1. rewrite ln_1, Rmult_0_r, exp_0. ring.
Qed.

Lemma fold_min_le l : forall a, fold_left Rmin l a <= a /\ (forall y, In y l -> fold_left Rmin l a <= y).
Proof.
  induction l as [|y l IH]; intros a; cbn [fold_left]; [split; [lra|intros y []]|].
  destruct (IH (Rmin a y)) as [H1 H2]. pose proof (Rmin_l a y). pose proof (Rmin_r a y).
  split; [lra|]. intros z [ <-|Hz]; [lra|auto].
Qed.
Lemma fold_max_ge l : forall a, a <= fold_left Rmax l a /\ (forall y, In y l -> y <= fold_left Rmax l a).
Proof.
  induction l as [|y l IH]; intros a; cbn [fold_left]; [split; [lra|intros y []]|].
  destruct (IH (Rmax a y)) as [H1 H2]. pose proof (Rmax_l a y). pose proof (Rmax_r a y).
  split; [lra|]. intros z [ <-|Hz]; [lra|auto].
Qed.
Lemma extent_neq0 t a b : In a t -> In b t -> a <> b -> tmax t - tmin t <> 0.
Proof.
  intros Ha Hb Hab. pose proof (fold_min_le t (nth 0 t 0)) as [_ H1]. pose proof (fold_max_ge t (nth 0 t 0)) as [_ H2].
  fold (tmin t) in H1. fold (tmax t) in H2. pose proof (H1 a Ha). pose proof (H1 b Hb). pose proof (H2 a Ha). pose proof (H2 b Hb).
  lra.
Qed.
Lemma removelast_map {A B} (h : A -> B) l : removelast (map h l) = map h (removelast l).
Proof. induction l as [|x [|y l] IH]; [reflexivity|reflexivity|].
  change (h x :: removelast (map h (y :: l)) = h x :: map h (removelast (y :: l))). f_equal. exact IH. Qed.
Lemma exp_fm_positive t fm fM : forall y, In y (exp_fm t fm fM) -> 0 < y.
Proof. intros y Hy. unfold exp_fm in Hy. apply in_map_iff in Hy. destruct Hy as (u & <- & _). apply Rmult_lt_0_compat; apply Rpower_pos. Qed.
Lemma removelast_In {A} (l : list A) y : In y (removelast l) -> In y l.
Proof. induction l as [|x [|z l] IH]; [auto|intros []|]. intros [ <-|H]; [left; reflexivity|right; apply IH, H]. Qed.
Lemma positive_In v : (forall y, In y v -> 0 < y) -> positive v.
Proof. intros H i Hi. apply H, nth_In, Hi. Qed.

Lemma range_scale c mr fs N sc : 0 < c -> 0 < fs -> (0 < N)%nat ->
  ssq_freqrange (scale_mr c mr) (1 / (c * fs)) N sc =
  (c * fst (ssq_freqrange mr (1 / fs) N sc), c * snd (ssq_freqrange mr (1 / fs) N sc)).
Proof.
  intros Hc Hf HN. destruct mr; cbn [scale_mr ssq_freqrange fst snd]; try reflexivity.
  assert (0 < INR N) by (apply lt_0_INR; exact HN). f_equal; field; repeat split; lra.
Qed.
Lemma range_positive mr fs N sc : 0 < fs -> (0 < N)%nat -> sc <> [] -> mr_positive mr sc ->
  0 < fst (ssq_freqrange mr (1 / fs) N sc) /\ 0 < snd (ssq_freqrange mr (1 / fs) N sc).
Proof.
  intros Hf HN Hs Hp. destruct mr as [a b| |f]; cbn [ssq_freqrange fst snd mr_positive] in *; [exact Hp| |].
  - assert (0 < INR N) by (apply lt_0_INR; exact HN). assert (0 < 1 / fs) by (apply Rdiv_lt_0_compat; lra).
    split; apply Rdiv_lt_0_compat; nra.
  - split; apply Hp.
    + destruct (exists_last Hs) as (l & y & ->). rewrite last_last. apply in_or_app. right. left. reflexivity.
    + destruct sc; [contradiction|left; reflexivity].
Qed.

Lemma assoc_scale c f64s sc N st mr fs : 0 < c -> 0 < fs -> (0 < N)%nat -> sc <> [] -> mr_positive mr sc ->
  associated_frequencies f64s sc N st (scale_mr c mr) (1 / (c * fs)) TCwt =
  res_map (map (Rmult c)) (associated_frequencies f64s sc N st mr (1 / fs) TCwt).
Proof.
  intros Hc Hf HN Hs Hp. unfold associated_frequencies. rewrite range_scale by assumption.
  destruct (range_positive mr fs N sc Hf HN Hs Hp) as [P1 P2].
  destruct (ssq_freqrange mr (1 / fs) N sc) as [fm fM]. cbn [fst snd] in *.
  destruct st.
  - cbn [res_map]. now rewrite log_freqs_scale.
  - destruct (logscale_transition_idx f64s sc) as [[idx|]|e] eqn:Et; cbn [bind res_map]; [| |reflexivity].
    2:{ now rewrite log_freqs_scale. }
    destruct mr as [a b| |f]; cbn [scale_mr res_map]; try reflexivity.
    destruct (transition_ge2 _ _ _ Et) as [I1 I2].
    set (na := length sc) in *. set (t := fun k => INR k / INR (na - 1)).
    set (t2 := map t (seq (na - idx - 1) (idx + 1))).
    set (t1 := (map t (seq 0 (na - idx - 1)) ++ [nth 0 t2 0])%list).
    assert (Hna : 0 < INR (na - 1)) by (apply lt_0_INR; lia).
    assert (Hf1 : 0 < f (nth idx sc 0)) by (apply Hp, nth_In; exact I2).
    assert (Ht : forall i j, i <> j -> t i <> t j).
    { intros i j Hij E. apply Hij, INR_eq. unfold t in E. apply (f_equal (fun y => y * INR (na - 1))) in E.
      unfold Rdiv in E. rewrite !Rmult_assoc, Rinv_l, !Rmult_1_r in E by lra. exact E. }
    assert (In2 : forall k, (na - idx - 1 <= k < na)%nat -> In (t k) t2).
    { intros k Hk. unfold t2. apply in_map, in_seq. lia. }
    assert (E2 : exp_fm t2 (c * f (nth idx sc 0)) (c * fM) = map (Rmult c) (exp_fm t2 (f (nth idx sc 0)) fM)).
    { apply exp_fm_scale; auto. apply (extent_neq0 _ (t (na - 2)%nat) (t (na - 1)%nat)); [apply In2; lia|apply In2; lia|apply Ht; lia]. }
    assert (E1 : removelast (exp_fm t1 (c * fm) (c * f (nth idx sc 0))) = map (Rmult c) (removelast (exp_fm t1 fm (f (nth idx sc 0))))).
    { destruct (Nat.eq_dec (na - idx - 1) 0) as [E0|E0].
      - unfold t1. rewrite E0. reflexivity.
      - rewrite exp_fm_scale; auto; [apply removelast_map|].
        apply (extent_neq0 _ (t 0%nat) (t (na - idx - 1)%nat)).
        + unfold t1. apply in_or_app. left. apply in_map, in_seq. lia.
        + unfold t1. apply in_or_app. right. left. unfold t2.
          replace (idx + 1)%nat with (S idx) by lia. reflexivity.
        + apply Ht. lia. }
    cbv zeta. rewrite E1, E2, <- map_app.
    set (v := (removelast (exp_fm t1 fm (f (nth idx sc 0))) ++ exp_fm t2 (f (nth idx sc 0)) fM)%list).
    assert (Hv : positive v).
    { apply positive_In. intros y Hy. unfold v in Hy. apply in_app_or in Hy.
      destruct Hy as [Hy|Hy]; [apply removelast_In in Hy|]; apply exp_fm_positive in Hy; exact Hy. }
    rewrite transition_scale by assumption.
    destruct (logscale_transition_idx true v) as [[si|]|]; cbn [bind]; try reflexivity.
    destruct (_ =? _)%Z; reflexivity.
  - cbn [res_map]. now rewrite linspace_scale.
Qed.

(** ** Frequencies of a call *)
Definition scale_freqs (c : R) (a : freqs_arg) : freqs_arg :=
  match a with FArray v => FArray (map (Rmult c) v) | a => a end.
Definition rate_opts (c : R) (o : ssq_opts) : ssq_opts :=
  SO (o_tr o) (scale_freqs c (o_freqs o)) (o_scales o) (o_f64s o) (o_f64v o) (c * o_fs o) (o_sq o)
     (scale_mr c (o_mr o)) (o_gamma o) (o_flip o) (o_Sfs o).
(** given frequencies are recognised as logarithmic *)
Definition log_array (f64v : bool) (a : freqs_arg) : Prop :=
  match a with FArray v => exists nv, infer_scaletype f64v v = Ok (KLog nv) | _ => True end.

Lemma all_pos_positive v : all_pos v = true <-> positive v.
Proof.
  unfold all_pos. rewrite forallb_forall. split.
  - intros H. apply positive_In. intros y Hy. specialize (H y Hy). unfold Rltb' in H. destruct (Rlt_dec 0 y); [assumption|discriminate].
  - intros H y Hy. destruct (In_nth _ _ 0 Hy) as (i & Hi & <-). specialize (H i Hi). unfold Rltb'. destruct (Rlt_dec 0 (nth i v 0)); [reflexivity|contradiction].
Qed.
Lemma infer_klog f64 v nv : infer_scaletype f64 v = Ok (KLog nv) ->
  (3 <= length v)%nat /\ positive v /\
  Rltb' (mean (map Rabs (diff (diff (map ln v))))) (if f64 then 4 / 1000000000000000 else 8 / 10000000) = true.
Proof.
  unfold infer_scaletype. intros H. destruct (Nat.ltb_spec (length v) 3) as [|HL]; [discriminate|].
  destruct (all_pos v && Rltb' _ _) eqn:E.
  - apply andb_prop in E. destruct E as [E1 E2]. apply all_pos_positive in E1. auto.
  - exfalso. cbv zeta in H. match type of H with context [if Rltb' ?a ?b then _ else _] => destruct (Rltb' a b) end; [discriminate H|].
    destruct (negb (all_pos v)); [discriminate H|].
    destruct (logscale_transition_idx f64 v) as [[i|]|]; try discriminate. cbn [bind] in H.
    destruct (nv_from_scales f64 v); cbn [bind] in H; discriminate H.
Qed.
Lemma infer_scale f64 c v nv : 0 < c -> infer_scaletype f64 v = Ok (KLog nv) ->
  infer_scaletype f64 (map (Rmult c) v) = Ok (KLog nv).
Proof.
  intros Hc H. destruct (infer_klog _ _ _ H) as (HL & Hv & Hm). unfold infer_scaletype in *.
  rewrite map_length. destruct (length v <? 3)%nat eqn:E3; [discriminate|].
  rewrite (proj2 (all_pos_positive v) Hv), Hm in H. cbn [andb] in H.
  rewrite (proj2 (all_pos_positive _) (positive_scale c v Hc Hv)).
  rewrite ln_scale, diff_shift, Hm by assumption. cbn [andb].
  rewrite !nth_scale, !log2_scale by (auto; apply Hv; lia).
  replace (log2 (nth 1 v 0) + log2 c - (log2 (nth 0 v 0) + log2 c)) with (log2 (nth 1 v 0) - log2 (nth 0 v 0)) by ring.
  exact H.
Qed.

Lemma assoc_positive f64s sc N st mr fs v : 0 < fs -> (0 < N)%nat -> sc <> [] -> mr_positive mr sc -> is_log st = true ->
  associated_frequencies f64s sc N st mr (1 / fs) TCwt = Ok v -> positive v.
Proof.
  intros Hf HN Hs Hp Hl E. unfold associated_frequencies in E.
  destruct (range_positive mr fs N sc Hf HN Hs Hp) as [P1 P2].
  destruct (ssq_freqrange mr (1 / fs) N sc) as [fm fM]. cbn [fst snd] in *.
  assert (Hlog : positive (log_freqs fm fM (length sc))).
  { intros i Hi. rewrite log_freqs_length in Hi. unfold log_freqs. rewrite nth_tab by exact Hi.
    apply Rmult_lt_0_compat; [exact P1|apply Rpower_pos]. }
  destruct st; [injection E as <-; exact Hlog| |discriminate].
  destruct (logscale_transition_idx f64s sc) as [[idx|]|]; cbn [bind] in E; try discriminate; [|injection E as <-; exact Hlog].
  destruct mr as [a b| |f]; try discriminate. cbv zeta in E.
  match type of E with context [logscale_transition_idx true ?v0] => set (u := v0) in * end.
  destruct (logscale_transition_idx true u) as [[si|]|]; cbn [bind] in E; try discriminate.
  destruct (_ =? _)%Z; [|discriminate]. injection E as <-.
  apply positive_In. intros y Hy. unfold u in Hy. apply in_app_or in Hy.
  destruct Hy as [Hy|Hy]; [apply removelast_In in Hy|]; apply exp_fm_positive in Hy; exact Hy.
Qed.

Definition scale_answer (c : R) (r : option scale_kind * list R * bool) : option scale_kind * list R * bool :=
  let '(k, v, ls) := r in (k, map (Rmult c) v, ls).

Lemma freqs_scale c o N k v ls : 0 < c -> 0 < o_fs o -> (0 < N)%nat -> o_tr o = TCwt ->
  (forall sc, o_scales o = Some sc -> mr_positive (o_mr o) sc) -> log_array (o_f64v o) (o_freqs o) ->
  ssq_freqs_of o N = Ok (k, v, ls) ->
  ssq_freqs_of (rate_opts c o) N = Ok (k, map (Rmult c) v, ls) /\ (ls = true -> positive v).
Proof.
  intros Hc Hf HN Ht Hp Ha E. unfold ssq_freqs_of in *. cbn [rate_opts o_tr o_scales o_freqs o_f64s o_f64v o_mr o_fs] in *.
  rewrite Ht in *. destruct (o_scales o) as [sc|]; [|discriminate]. specialize (Hp sc eq_refl).
  destruct (process_scales_arr (o_f64s o) sc) as [k0|] eqn:Ek; [|discriminate]. cbn [bind] in *.
  assert (Hs : sc <> []).
  { intros ->. unfold process_scales_arr, infer_scaletype in Ek. cbn in Ek. discriminate. }
  assert (Auto : forall st,
    match st, o_mr o with
    | SPiece, MRTuple _ _ | SPiece, MRMaximal => Err ValueError
    | _, _ => do v <- associated_frequencies (o_f64s o) sc N st (o_mr o) (1 / o_fs o) TCwt; Ok (Some k0, v, is_log st)
    end = Ok (k, v, ls) ->
    match st, scale_mr c (o_mr o) with
    | SPiece, MRTuple _ _ | SPiece, MRMaximal => Err ValueError
    | _, _ => do v <- associated_frequencies (o_f64s o) sc N st (scale_mr c (o_mr o)) (1 / (c * o_fs o)) TCwt; Ok (Some k0, v, is_log st)
    end = Ok (k, map (Rmult c) v, ls) /\ (ls = true -> positive v)).
  { intros st E0. rewrite assoc_scale by assumption.
    destruct (associated_frequencies (o_f64s o) sc N st (o_mr o) (1 / o_fs o) TCwt) as [u|] eqn:Eu.
    2:{ destruct st, (o_mr o); discriminate. }
    assert (Ek' : (Some k0, u, is_log st) = (k, v, ls)).
    { cbn [bind] in E0. destruct st, (o_mr o); try discriminate; injection E0 as <- <- <-; reflexivity. }
    injection Ek' as <- <- <-. split.
    - destruct st, (o_mr o); try discriminate; reflexivity.
    - intros Hl. eapply assoc_positive; eauto. }
  destruct (o_freqs o) as [u|st|]; cbn [scale_freqs].
  - destruct Ha as [nv Ha]. rewrite Ha in E. cbn [bind skind_of is_log] in E. injection E as <- <- <-.
    rewrite (infer_scale _ _ _ _ Hc Ha). split; [reflexivity|]. intros _. apply (infer_klog _ _ _ Ha).
  - apply Auto, E.
  - apply Auto, E.
Qed.

(** ** The squeezing step *)
Definition fscale (c : R) (a : fval) : fval := match a with Fin r => Fin (c * r) | Inf => Inf end.
Definition wscaled (c : R) (w w' : mat fval) : Prop :=
  nrows w' = nrows w /\ ncols w' = ncols w /\ forall i j, el w' i j = fscale c (el w i j).
Definition cscaled (c : R) (W W' : mat C) : Prop :=
  nrows W' = nrows W /\ ncols W' = ncols W /\ forall i j, el W' i j = Cmul (RtoC c) (el W i j).
Definition opt_rel {A} (Q : A -> A -> Prop) (a b : option A) : Prop :=
  match a, b with Some a, Some b => Q a b | None, None => True | _, _ => False end.

Lemma phase_cwt_pt_rate c W d : 0 < c -> phase_cwt_pt W (Cmul (RtoC c) d) = c * phase_cwt_pt W d.
Proof.
  intros Hc. unfold phase_cwt_pt. rewrite <- (Rabs_pos_eq c) at 2 by lra. rewrite <- Rabs_mult. f_equal.
  unfold phase_ratio, Re, Im, RtoC, Cmul, Rdiv. cbn [fst snd]. ring.
Qed.
Lemma existsb_ext {A} (f g : A -> bool) l : (forall x, f x = g x) -> existsb f l = existsb g l.
Proof. intros H. induction l as [|x l IH]; [reflexivity|]. cbn [existsb]. now rewrite H, IH. Qed.
Lemma has_negative_scale c w w' : 0 < c -> wscaled c w w' -> has_negative w' = has_negative w.
Proof.
  intros Hc (H1 & H2 & H3). unfold has_negative. rewrite H1, H2.
  assert (E : forall i j, match el w' i j with Fin r => Rltb' r 0 | Inf => false end =
                          match el w i j with Fin r => Rltb' r 0 | Inf => false end).
  { intros i j. rewrite H3. destruct (el w i j) as [r|]; cbn [fscale]; [|reflexivity].
    unfold Rltb'. destruct (Rlt_dec (c * r) 0), (Rlt_dec r 0); try reflexivity; exfalso; nra. }
  apply existsb_ext. intros i. apply existsb_ext. intros j. apply E.
Qed.

Lemma real_linear_id : real_linear (fun z => z).
Proof. split; [reflexivity|]. split; reflexivity. Qed.

Theorem ssqueeze_rate c ord o W w w' d d' T f : valid_order ord -> 0 < c -> 0 < o_fs o ->
  (0 < ncols W)%nat -> o_tr o = TCwt -> o_Sfs o = None ->
  (forall sc, o_scales o = Some sc -> mr_positive (o_mr o) sc) -> log_array (o_f64v o) (o_freqs o) ->
  (forall k v ls, ssq_freqs_of o (ncols W) = Ok (k, v, ls) -> resolved ls v /\ resolved ls (map (Rmult c) v)) ->
  opt_rel (wscaled c) w w' -> opt_rel (cscaled c) d d' ->
  ssqueeze ord o W w d = Ok (T, f) ->
  exists T', ssqueeze ord (rate_opts c o) W w' d' = Ok (T', map (Rmult c) f) /\ meq T' T.
Proof.
  intros Ho Hc Hf HN Ht Hn Hp Ha Hres Hw Hd E.
  assert (Hbad : match w', d', o_gamma o with
     | None, None, _ | None, _, None => true | Some w, _, _ => has_negative w | _, _, _ => false end = false).
  { unfold ssqueeze in E. destruct w as [w|], w' as [w'|]; cbn [opt_rel] in Hw; try contradiction.
    - rewrite (has_negative_scale c w w' Hc Hw). destruct (has_negative w); [discriminate|reflexivity].
    - destruct d as [d|], d' as [d'|]; cbn [opt_rel] in Hd; try contradiction; [|discriminate].
      destruct (o_gamma o); [reflexivity|discriminate]. }
  destruct (ssqueeze_inv _ _ _ _ _ _ _ E) as (k & v & ls & Ev & -> & E1).
  destruct (Hres _ _ _ Ev) as [R1 R2].
  destruct (freqs_scale c o _ _ _ _ Hc Hf HN Ht Hp Ha Ev) as [Ev' Hpos].
  assert (exists g, get_grid (o_f64v o) ls v = Ok g) as (g & Eg).
  { destruct (one_cells _ _ _ _ _ _ _ _ _ Ho E1) as (_ & _ & cst & ca & g & _ & _ & Eg & _). exists g. exact Eg. }
  assert (Eg' := grid_scale _ _ c _ _ Hc Hpos R1 R2 Eg).
  set (V := squeeze_input (o_sq o) (nrows W) W) in *.
  destruct (one_transport ord o (rate_opts c o) k v (map (Rmult c) v) ls V V w w' d d' T (fun z => z) (fun _ => True) (fun j => j) g (scale_grid c g)
              Ho E1 Eg real_linear_id eq_refl eq_refl) as (T' & ET & N1 & N2 & N3); auto.
  - unfold ssq_const. cbn [rate_opts o_tr o_scales]. rewrite Ht. reflexivity.
  - cbn [rate_opts o_gamma]. split; [|split; [|tauto]].
    + destruct w, w'; cbn [opt_rel] in Hw; try contradiction; [split; discriminate|tauto].
    + destruct d, d'; cbn [opt_rel] in Hd; try contradiction; [split; discriminate|tauto].
  - intros i j Hi Hj _ omax. unfold freq_at. cbn [rate_opts o_gamma o_Sfs]. rewrite Hn.
    destruct w as [w|], w' as [w'|]; cbn [opt_rel] in Hw; try contradiction.
    + destruct Hw as (_ & _ & Hw). rewrite Hw. destruct (el w i j) as [r|]; cbn [fscale same_bin]; [|exact I].
      apply bin_of_scale, Hc.
    + destruct d as [d|], d' as [d'|]; cbn [opt_rel] in Hd; try contradiction; [|exact I].
      destruct (o_gamma o) as [gm|]; [|exact I]. destruct Hd as (_ & _ & Hd). rewrite Hd.
      destruct (Rlt_dec gm (Cabs (el V i j))); cbn [same_bin]; [|exact I].
      rewrite phase_cwt_pt_rate by exact Hc. apply bin_of_scale, Hc.
  - exists T'. split.
    + unfold ssqueeze. cbn [rate_opts o_gamma o_sq]. rewrite Hbad. change (o_sq (rate_opts c o)) with (o_sq o).
      fold (rate_opts c o). rewrite Ev'. cbn [bind]. fold V. rewrite ET. cbn [bind]. do 2 f_equal.
      unfold flip_freqs. cbn [rate_opts o_tr o_flip]. rewrite Ht. destruct (o_flip o); symmetry; apply map_rev.
    + split; [exact N1|]. split; [exact N2|]. intros i j Hi Hj. apply N3; [congruence|congruence|exact I].
Qed.

(** ** [ssq_cwt] *)
Definition set_rate (c : R) (q : ssq_args) : ssq_args :=
  SQ (q_scales q) (q_kind q) (q_nv q) (q_f64s q) (q_f64 q) (q_f64v q)
     (Some (match q_fs q with Some fs => c * fs | None => c end)) (q_t q) (scale_freqs c (q_freqs q))
     (q_pad q) (q_sq q) (scale_mr c (q_mr q)) (q_diff q) (q_difforder q) (q_gamma q) (q_vec q) (q_order q)
     (q_pat q) (q_flip q) (q_cache q) (q_get_w q).

(** the rows of [Tx] are logarithmically spaced: asked for, or following the scales *)
Definition asks_log (q : ssq_args) : Prop :=
  match q_freqs q with
  | FArray _ => True
  | FKind k => is_log k = true
  | FNone => match q_scales q with
             | ScAuto _ => is_log (q_kind q) = true
             | ScArr l => exists k, infer_scaletype (q_f64s q) l = Ok k /\ is_log (skind_of k) = true
             end
  end.
(** the step between the two lowest returned frequencies is not below machine epsilon, in
    either unit *)
Definition steps_resolved (c : R) (f : list R) : Prop :=
  let d := nth (length f - 2) f 0 - nth (length f - 1) f 0 in EPS64 <= d /\ EPS64 <= c * d.

Lemma idft_rate n c (A : nat -> C) (a : nat -> R) fs m :
  idft n (fun k => Cmul (A k) (0, a k * (c * fs))) m = Cmul (RtoC c) (idft n (fun k => Cmul (A k) (0, a k * fs)) m).
Proof.
  rewrite <- idft_scal. unfold idft. f_equal. apply Csum_ext. intros k Hk. f_equal. apply C_eq; simpl; ring.
Qed.
Lemma finish_cscaled c a n1 N sc X Y : cscaled c X Y -> cscaled c (finish a n1 N sc X) (finish a n1 N sc Y).
Proof.
  intros H. unfold finish. set (b := negb (a_rpadded a) && _).
  assert (K : cscaled c (if b then mcols X n1 (n1 + Z.of_nat N) else X) (if b then mcols Y n1 (n1 + Z.of_nat N) else Y)).
  { destruct b; [|exact H]. destruct H as (E1 & E2 & E3). unfold cscaled, mcols; simpl. rewrite E1, E2.
    repeat split; try reflexivity. intros; apply E3. }
  destruct (a_l1 a); [exact K|]. destruct K as (E1 & E2 & E3). unfold cscaled, scale_rows; simpl.
  repeat split; auto. intros i j. rewrite E3. apply C_eq; simpl; ring.
Qed.

Lemma cwt_rate py inst f c fs sc f64s deriv q q' rp pat x s W dW s' : 0 < c -> 0 < fs ->
  q_pad q' = q_pad q -> q_vec q' = q_vec q -> q_cache q' = q_cache q ->
  cwt py inst f (inner q fs (ScArr sc) f64s deriv rp pat) x s = (Ok (W, sc, dW), s') ->
  exists dW', cwt py inst f (inner q' (c * fs) (ScArr sc) f64s deriv rp pat) x s = (Ok (W, sc, dW'), s') /\
    opt_rel (cscaled c) dW dW'.
Proof.
  intros Hc Hf E1 E2 E3 H.
  destruct (cwt_ok_inv _ _ _ _ _ _ _ _ H) as ((fs0 & xp & n1 & scales & P) & U1 & U2).
  rewrite (cwt_run _ _ _ _ _ _ _ _ _ _ P U1 U2) in H. destruct P as (P1 & P2 & P3 & P4).
  assert (fs0 = fs) as ->.
  { unfold process_fs_and_t in P1. cbn [inner a_fs a_t] in P1. destruct (Rle_dec fs 0); [discriminate|]. now injection P1. }
  assert (Hp : pre f (inner q' (c * fs) (ScArr sc) f64s deriv rp pat) x (c * fs) xp n1 scales).
  { unfold pre, inner in *. cbn [a_fs a_t a_l1 a_pad a_scales a_f64s] in *. rewrite E1. repeat split; auto.
    unfold process_fs_and_t. destruct (Rle_dec (c * fs) 0); [nra|reflexivity]. }
  rewrite (cwt_run _ _ _ _ _ _ _ _ _ _ Hp U1 U2).
  revert H. unfold inner. rewrite E1, E2, E3. cbn [a_deriv a_vec]. intros H. injection H as <- E4 <- <-. subst scales.
  assert (Ep : psih_used inst f (CA (ScArr sc) f64s (Some (c * fs)) None true deriv (q_pad q) rp (q_vec q) pat (q_cache q)) sc (length xp) (s_cache s)
             = psih_used inst f (CA (ScArr sc) f64s (Some fs) None true deriv (q_pad q) rp (q_vec q) pat (q_cache q)) sc (length xp) (s_cache s))
    by reflexivity.
  rewrite Ep. eexists. split; [reflexivity|]. destruct deriv; cbn [opt_rel]; [|exact I].
  match goal with |- cscaled c (finish ?a _ _ _ ?X) (finish ?b _ _ _ ?Y) => change (finish b) with (finish a) end.
  apply finish_cscaled. split; [reflexivity|]. split; [reflexivity|]. intros i j. rewrite !draw_el.
  unfold dcwt_cell. apply idft_rate.
Qed.

Lemma cdiv_rate l k c fs j : 0 < c -> 0 < fs -> k <> 0 ->
  nth j (cdiv l (k * (1 / (c * fs)))) C0 = Cmul (RtoC c) (nth j (cdiv l (k * (1 / fs))) C0).
Proof.
  intros Hc Hf Hk. rewrite !cdiv_nth. apply C_eq; simpl; rewrite ?Rmult_0_l, ?Rminus_0_r, ?Rplus_0_r; field; repeat split; lra.
Qed.
Lemma differentiate_rate d c fs r j : 0 < c -> 0 < fs ->
  nth j (differentiate d (1 / (c * fs)) r) C0 = Cmul (RtoC c) (nth j (differentiate d (1 / fs) r) C0).
Proof.
  intros Hc Hf. unfold differentiate. destruct (d =? 1)%Z; [|destruct (d =? 2)%Z].
  - rewrite <- (Rmult_1_l (1 / (c * fs))), <- (Rmult_1_l (1 / fs)). apply cdiv_rate; lra.
  - apply cdiv_rate; lra.
  - apply cdiv_rate; lra.
Qed.

Lemma num_rate c z y : 0 < c -> Rabs (Re (Cmul (Cmul (0, -1) (Cmul (RtoC c) z)) y) / (2 * PI)) = c * Rabs (Re (Cmul (Cmul (0, -1) z) y) / (2 * PI)).
Proof.
  intros Hc. transitivity (Rabs (c * (Re (Cmul (Cmul (0, -1) z) y) / (2 * PI)))).
  - f_equal. unfold Re, RtoC, Cmul, Rdiv. cbn [fst snd]. ring.
  - rewrite Rabs_mult, (Rabs_pos_eq c) by lra. reflexivity.
Qed.
Lemma phase_rate c f64 W dW dW' N fs gamma d k W1 w : 0 < c -> 0 < fs -> d <> DPhase -> cscaled c dW dW' ->
  phase_transform f64 W dW N (1 / fs) gamma d k = Ok (W1, w) ->
  exists w', phase_transform f64 W dW' N (1 / (c * fs)) gamma d k = Ok (W1, w') /\ wscaled c w w'.
Proof.
  intros Hc Hf Hd (D1 & D2 & D3) E. unfold phase_transform in *. destruct d; [|congruence|].
  - injection E as <- <-. eexists. split; [reflexivity|]. split; [reflexivity|]. split; [reflexivity|]. intros i j.
    cbn [phase_cwt el]. destruct (Rlt_dec _ gamma); cbn [fscale]; [reflexivity|]. rewrite D3, phase_cwt_pt_rate by exact Hc. reflexivity.
  - destruct (p2up N) as [[u n1] n2]. unfold phase_cwt_num in *.
    destruct (negb _); [discriminate|]. destruct (_ && _); [discriminate|]. cbn [bind] in *.
    injection E as <- <-. eexists. split; [reflexivity|]. split; [reflexivity|]. split; [reflexivity|]. intros i j. cbn [el].
    destruct (Rlt_dec _ _); cbn [fscale]; [reflexivity|]. f_equal.
    rewrite differentiate_rate by assumption. apply num_rate. exact Hc.
Qed.

Lemma crop_wscaled c d w w' : wscaled c w w' -> wscaled c (crop d w) (crop d w').
Proof.
  intros (H1 & H2 & H3). destruct d; cbn [crop]; [repeat split; auto|repeat split; auto|].
  unfold mcols, wscaled. cbn [nrows ncols el]. rewrite H1, H2. repeat split. intros. apply H3.
Qed.
Lemma crop_meq d (T T' : mat C) : meq T' T -> meq (crop d T') (crop d T).
Proof.
  intros (H1 & H2 & H3). destruct d; cbn [crop]; [repeat split; auto|repeat split; auto|].
  unfold mcols, meq. cbn [nrows ncols el]. rewrite H1, H2. split; [reflexivity|]. split; [reflexivity|]. intros i j Hi Hj.
  apply H3; [rewrite H1; exact Hi|]. revert Hj. unfold norm_bound. destruct (Z.ltb_spec (-4) 0); [|lia]. destruct (Z.ltb_spec 4 0); lia.
Qed.

Lemma step_resolved c ls v : steps_resolved c (rev v) -> resolved ls v /\ resolved ls (map (Rmult c) v).
Proof.
  unfold steps_resolved. rewrite rev_length. intros [H1 H2]. pose proof EPS64_pos as He.
  assert (Hl : (2 <= length v)%nat).
  { destruct v as [|a [|b v]]; cbn in *; try lra. lia. }
  rewrite (rev_nth v) in H1, H2 by lia. rewrite (rev_nth v) in H1, H2 by lia.
  replace (length v - S (length v - 2))%nat with 1%nat in H1, H2 by lia.
  replace (length v - S (length v - 1))%nat with 0%nat in H1, H2 by lia.
  unfold resolved. rewrite !(nth_indep (map (Rmult c) v) 0 (c * 0)) by (rewrite map_length; lia). rewrite !map_nth.
  split; intros _; lra.
Qed.
Lemma log_resolved c o N k v ls : o_tr o = TCwt -> log_array (o_f64v o) (o_freqs o) ->
  match o_freqs o with FArray _ => true | FKind k => is_log k | FNone => false end = true ->
  ssq_freqs_of o N = Ok (k, v, ls) -> resolved ls v /\ resolved ls (map (Rmult c) v).
Proof.
  intros Ht Ha Hl E. assert (ls = true); [|subst ls; split; intros K; discriminate K].
  unfold ssq_freqs_of in E. rewrite Ht in E. destruct (o_scales o) as [sc|]; [|discriminate].
  destruct (process_scales_arr _ _) as [k0|]; [|discriminate]. cbn [bind] in E.
  destruct (o_freqs o) as [v0|st|].
  - destruct Ha as (nv & Ea). rewrite Ea in E. cbn [bind skind_of is_log] in E. injection E as _ _ <-. reflexivity.
  - destruct st, (o_mr o); try discriminate E; try discriminate Hl;
      match type of E with context [bind ?X _] => destruct X; [|discriminate E] end; cbn [bind is_log] in E; injection E as _ _ <-; reflexivity.
  - discriminate Hl.
Qed.

Theorem ssq_cwt_rate ord py f fam q c x s r s' : valid_order ord -> shape_keeping (q_sq q) -> 0 < c -> (0 < ncols (r_Tx r))%nat ->
  q_order q = None ->
  q_t q = None -> q_diff q <> DPhase -> mr_positive (q_mr q) (r_scales r) -> log_array (q_f64v q) (q_freqs q) ->
  asks_log q \/ steps_resolved c (r_freqs r) ->
  ssq_cwt ord py f fam q x s = (Ok r, s') ->
  exists r', ssq_cwt ord py f fam (set_rate c q) x s = (Ok r', s') /\
    meq (r_Tx r') (r_Tx r) /\ r_Wx r' = r_Wx r /\ r_scales r' = r_scales r /\
    r_freqs r' = map (Rmult c) (r_freqs r) /\ cscaled c (r_dWx r) (r_dWx r') /\ opt_rel (wscaled c) (r_w r) (r_w r').
Proof.
  intros Ho Hsh Hc Hx Hq Ht Hd Hp Ha Hs E.
  destruct (ssq_cwt_inv _ _ _ _ _ _ _ _ _ Hq E) as (k & fs & sc & kind & W & dW & E1 & E2 & E3 & E4 & E5).
  destruct (step_inv _ _ _ _ _ _ _ _ _ _ _ E1 E5) as (w & T & F1 & F2 & F3 & F4 & F5 & F6 & F7).
  assert (Hf : 0 < fs /\ process_fs_and_t (q_fs (set_rate c q)) (q_t (set_rate c q)) (length x) = Ok (c * fs)).
  { unfold process_fs_and_t in *. cbn [set_rate q_fs q_t]. rewrite Ht in *. destruct (q_fs q) as [f0|].
    - destruct (Rle_dec f0 0); [discriminate|]. injection E2 as ->. split; [lra|]. destruct (Rle_dec (c * fs) 0); [nra|reflexivity].
    - injection E2 as <-. split; [lra|]. destruct (Rle_dec c 0); [lra|]. rewrite Rmult_1_r. reflexivity. }
  destruct Hf as [Hf E2'].
  destruct (cwt_rate _ _ _ c _ _ _ _ q (set_rate c q) _ _ _ _ _ _ _ Hc Hf eq_refl eq_refl eq_refl E4) as (dW' & E4' & Hdw).
  destruct dW' as [dW'|]; cbn [opt_rel] in Hdw; [|contradiction].
  assert (Hn : (0 < ncols (squeezed q (length x) W))%nat).
  { pose proof F1 as AB. apply ssqueeze_shape in AB; [|exact Ho|exact Hsh]. destruct AB as (_ & B). rewrite <- B.
    rewrite F2 in Hx. destruct (q_diff q); cbn [crop] in Hx; [exact Hx|exact Hx|].
    cbn [mcols ncols] in Hx. revert Hx. unfold norm_bound. destruct (Z.ltb_spec (-4) 0); [|lia]. lia. }
  assert (exists w', opt_rel (wscaled c) w w' /\
    (if q_get_w q
     then exists w0, w' = Some w0 /\ phase_transform (q_f64 q) W dW' (Z.of_nat (length x)) (1 / (c * fs)) (ssq_gamma q) (q_diff q) k = Ok (squeezed q (length x) W, w0)
     else w' = None)) as (w' & Hw & Hw').
  { destruct (q_get_w q).
    - destruct F7 as (w0 & -> & F7). destruct (phase_rate c _ _ _ _ _ _ _ _ _ _ _ Hc Hf Hd Hdw F7) as (w1 & G1 & G2).
      exists (Some w1). split; [exact G2|]. exists w1. split; [reflexivity|exact G1].
    - destruct F7 as [-> _]. exists None. split; [exact I|reflexivity]. }
  edestruct (ssqueeze_rate c ord) with (w' := w') (d' := if q_get_w q then @None (mat C) else Some dW') (12 := F1) as (T' & G1 & G2);
    [exact Ho|exact Hc|exact Hf|exact Hn|reflexivity|reflexivity| | | |exact Hw| |].
  all: cbn [o_scales o_mr o_f64v o_freqs].
  - intros sc0 H0. injection H0 as <-. rewrite F4 in Hp. exact Hp.
  - unfold ssq_freqs. destruct (q_freqs q); exact Ha || exact I.
  - intros k0 v0 ls0 H0. destruct Hs as [Hs|Hs].
    + refine (log_resolved c _ _ _ _ _ _ _ _ H0); cbn [o_tr o_f64v o_freqs]; [reflexivity| |].
      * unfold ssq_freqs. destruct (q_freqs q); exact Ha || exact I.
      * unfold asks_log in Hs. unfold ssq_freqs. destruct (q_freqs q); auto.
        destruct (q_scales q) as [l|mk]; unfold ssq_scales in E3.
        -- destruct Hs as (k1 & K1 & K2). unfold process_scales_nv in E3. rewrite K1 in E3. cbn [bind] in E3.
           assert (kind = skind_of k1) as -> by
             (destruct k1, (ssq_nv q); repeat (match type of E3 with context [if ?b then _ else _] => destruct b end; cbn [bind] in E3);
              try discriminate E3; injection E3 as _ <-; reflexivity).
           exact K2.
        -- match type of E3 with context [bind ?X _] => destruct X; [|discriminate E3] end. cbn [bind] in E3. injection E3 as _ <-. exact Hs.
    + destruct (ssqueeze_inv _ _ _ _ _ _ _ F1) as (k1 & v1 & ls1 & K1 & K2 & _).
      rewrite H0 in K1. injection K1 as <- <- <-. rewrite K2 in Hs. apply step_resolved.
      unfold flip_freqs in Hs. cbn [o_tr o_flip] in Hs. destruct (q_flip q); exact Hs.
  - destruct (q_get_w q); [exact I|exact Hdw].
  - exists (SQO (crop (q_diff q) T') (crop (q_diff q) W) (map (Rmult c) (r_freqs r)) sc (opt_map (crop (q_diff q)) w') dW').
    split.
    + unfold ssq_cwt. cbn [set_rate q_order q_scales q_kind q_f64s q_pat q_diff q_f64]. rewrite Hq.
      change (check_diff (set_rate c q)) with (check_diff q). rewrite E1.
      change (ssq_nv (set_rate c q)) with (ssq_nv q).
      unfold mbind at 1, lift at 1. unfold mbind at 1, lift at 1. rewrite E2'.
      unfold mbind at 1, lift at 1. rewrite E3. unfold mbind at 1. unfold numeric in E4'. rewrite E4'.
      unfold lift. f_equal. unfold squeeze_step. cbn [set_rate q_get_w q_f64 q_diff q_f64v q_sq q_mr q_flip].
      change (ssq_gamma (set_rate c q)) with (ssq_gamma q).
      assert (Ef : ssq_freqs (set_rate c q) kind = scale_freqs c (ssq_freqs q kind))
        by (unfold ssq_freqs; cbn [set_rate q_freqs]; destruct (q_freqs q); reflexivity).
      rewrite Ef. unfold rate_opts in G1. cbn [o_tr o_freqs o_scales o_f64s o_f64v o_fs o_sq o_mr o_gamma o_flip o_Sfs] in G1.
      destruct (q_get_w q).
      * destruct Hw' as (w0 & -> & G3). rewrite G3. cbn [bind]. rewrite G1. reflexivity.
      * subst w'. cbn [bind]. destruct F7 as [_ F7]. unfold squeezed in G1. rewrite F7 in G1. rewrite G1. reflexivity.
    + cbn [r_Tx r_Wx r_freqs r_scales r_w r_dWx]. rewrite F2, F3, F4, F5, F6. split; [apply crop_meq, G2|].
      do 3 (split; [reflexivity|]). split; [exact Hdw|].
      destruct w as [w|], w' as [w'|]; cbn [opt_rel opt_map] in *; try contradiction; [apply crop_wscaled, Hw|exact I].
Qed.
