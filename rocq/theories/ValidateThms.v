From Coq Require Import Reals Lra Lia List Bool String.
From Verif Require Import Py Round Parallel Cplx Padding Buffer Freqs Squeeze Scales Ssqueeze Cwt SsqCwt Validate BinProofs SqueezeThms SqueezeThms2 IntegralProofs.
Import ListNotations.
Local Open Scope R_scope.

(** Which calls are acceptable, written from the documentation. *)
Definition good_squeezing (v : pyv) : Prop :=
  v = PFunc \/ v = PStr "sum" \/ v = PStr "lebesgue" \/ v = PStr "abs".
Definition good_number (v : pyv) : Prop :=
  (exists z, v = PInt z) \/ (exists b, v = PBool b) \/ (exists r, v = PFloat r).
Definition good_maprange (v : pyv) (wavelet cwt : bool) : Prop :=
  v = PNone \/ v = PStr "maximal" \/
  ((v = PStr "peak" \/ v = PStr "energy") /\ (cwt = true -> wavelet = true)) \/
  (exists l, (v = PTuple l \/ v = PList l) /\ Forall good_number l).
Definition good_difftype (v : pyv) (get_w gpu : bool) : Prop :=
  v = PNone \/ v = PStr "trig" \/
  ((v = PStr "phase" \/ v = PStr "numeric") /\ gpu = false /\ get_w = true).
Definition good_difforder (dt v : pyv) : Prop :=
  dt = PStr "numeric" ->
  v = PNone \/ exists r, number v = Some r /\ (r = 1 \/ r = 2 \/ r = 4).

Lemma is_str_iff v s : is_str v s = true <-> v = PStr s.
Proof.
  destruct v; simpl; try (split; intros E; [discriminate E|discriminate E]).
  rewrite String.eqb_eq. split; [intros ->; reflexivity | intros E; injection E as ->; reflexivity].
Qed.
Lemma one_of_iff v l : one_of v l = true <-> exists s, In s l /\ v = PStr s.
Proof.
  unfold one_of. rewrite existsb_exists. split; intros (s & Hs & E); exists s; split; trivial; now apply is_str_iff.
Qed.
Lemma is_number_iff v : is_number v = true <-> good_number v.
Proof.
  unfold is_number, good_number.
  split.
  - destruct v; simpl; intros E; try discriminate E; eauto.
  - intros [[z ->]|[[b ->]|[r ->]]]; reflexivity.
Qed.
Lemma is_int_iff v z : is_int v z = true <-> number v = Some (IZR z).
Proof.
  unfold is_int. destruct (number v) as [r|]; [|split; intros E; discriminate E].
  destruct (Req_EM_T r (IZR z)) as [ ->|N]; split; intros E; trivial; try discriminate E.
  injection E as E. contradiction.
Qed.

Lemma squeezing_ok v : check_squeezing v = Ok tt <-> good_squeezing v.
Proof.
  unfold good_squeezing. destruct v; simpl; try (split; [intros E; discriminate E|
    intros [E|[E|[E|E]]]; discriminate E]).
  - destruct (String.eqb_spec s "sum") as [ ->|N1]; [split; auto|].
    destruct (String.eqb_spec s "lebesgue") as [ ->|N2]; [split; auto|].
    destruct (String.eqb_spec s "abs") as [ ->|N3]; [split; auto|].
    simpl. split; [intros E; discriminate E|].
    intros [E|[E|[E|E]]]; try discriminate E; injection E as E; contradiction.
  - split; auto.
Qed.

Lemma all_numbers l : forallb is_number l = true <-> Forall good_number l.
Proof.
  rewrite forallb_forall, Forall_forall. split; intros H x Hx; apply is_number_iff; auto.
Qed.

Lemma maprange_ok v wv cwt : (exists m, check_maprange v wv cwt = Ok m) <-> good_maprange v wv cwt.
Proof.
  unfold good_maprange.
  destruct v; simpl;
    try (split; [intros [m E]; discriminate E
                |intros [E|[E|[[[E|E] _]|(l' & [E|E] & _)]]]; discriminate E]).
  - split; eauto.
  - destruct (String.eqb_spec s "maximal") as [ ->|N1]; [simpl; split; eauto|].
    destruct (String.eqb_spec s "peak") as [ ->|N2];
      [|destruct (String.eqb_spec s "energy") as [ ->|N3]]; simpl.
    + destruct cwt, wv; simpl; split;
        try (intros [m E]; discriminate E); try (intros _; right; right; left; auto);
        try (intros _; eexists; reflexivity).
      intros [E|[E|[[_ E]|(l' & [E|E] & _)]]]; try discriminate E. discriminate (E eq_refl).
    + destruct cwt, wv; simpl; split;
        try (intros [m E]; discriminate E); try (intros _; right; right; left; auto);
        try (intros _; eexists; reflexivity).
      intros [E|[E|[[_ E]|(l' & [E|E] & _)]]]; try discriminate E. discriminate (E eq_refl).
    + split; [intros [m E]; discriminate E|].
      intros [E|[E|[[[E|E] _]|(l' & [E|E] & _)]]]; try discriminate E; injection E as E; contradiction.
  - destruct (forallb is_number l) eqn:F.
    + split; [|eauto]. intros _. right; right; right. exists l. split; [auto|now apply all_numbers].
    + split; [intros [m E]; discriminate E|].
      intros [E|[E|[[[E|E] _]|(l' & [E|E] & G)]]]; try discriminate E.
      injection E as <-. apply all_numbers in G. rewrite G in F. discriminate F.
  - destruct (forallb is_number l) eqn:F.
    + split; [|eauto]. intros _. right; right; right. exists l. split; [auto|now apply all_numbers].
    + split; [intros [m E]; discriminate E|].
      intros [E|[E|[[[E|E] _]|(l' & [E|E] & G)]]]; try discriminate E.
      injection E as <-. apply all_numbers in G. rewrite G in F. discriminate F.
Qed.

Lemma difftype_ok v gw gpu : check_difftype v gw gpu = Ok tt <-> good_difftype v gw gpu.
Proof.
  unfold good_difftype, check_difftype.
  destruct v; simpl;
    try (split; [intros E; discriminate E|intros [E|[E|[[E|E] _]]]; discriminate E]).
  - split; auto.
  - destruct (String.eqb_spec s "trig") as [ ->|N1]; simpl; [split; auto|].
    destruct (String.eqb_spec s "phase") as [ ->|N2];
      [|destruct (String.eqb_spec s "numeric") as [ ->|N3]]; simpl.
    + destruct gpu, gw; simpl; split; try (intros E; discriminate E); auto;
        intros [E|[E|[_ [E E']]]]; try discriminate E; try discriminate E'; reflexivity.
    + destruct gpu, gw; simpl; split; try (intros E; discriminate E); auto;
        intros [E|[E|[_ [E E']]]]; try discriminate E; try discriminate E'; reflexivity.
    + split; [intros E; discriminate E|].
      intros [E|[E|[[E|E] _]]]; try discriminate E; injection E as E; contradiction.
Qed.

Lemma none_iff v : is_none v = true <-> v = PNone.
Proof. destruct v; simpl; split; intros E; trivial; discriminate E. Qed.

Lemma difforder_ok dt v : (exists k, check_difforder dt v = Ok k) <-> good_difforder dt v.
Proof.
  unfold check_difforder, good_difforder.
  destruct (is_none v) eqn:Nv; simpl.
  - apply none_iff in Nv. subst v. split; [auto|]. intros _. destruct (is_str dt "numeric"); eauto.
  - destruct (is_str dt "numeric") eqn:Ed; simpl.
    + apply is_str_iff in Ed.
      assert (I : (is_int v 1 || is_int v 2 || is_int v 4)%bool = true
                  <-> exists r, number v = Some r /\ (r = 1 \/ r = 2 \/ r = 4)).
      { rewrite !orb_true_iff, !is_int_iff. split.
        - intros [[E|E]|E]; eauto 6.
        - intros (r & E & [ ->|[ ->| -> ]]); auto. }
      destruct (is_int v 1 || is_int v 2 || is_int v 4)%bool.
      * split; [|eauto]. intros _ _. right. now apply I.
      * split; [intros [k E]; discriminate E|]. intros H. destruct (H Ed) as [ ->|H'].
        -- discriminate Nv.
        -- apply I in H'. discriminate H'.
    + split; [|eauto]. intros _ E. apply is_str_iff in E. rewrite E in Ed. discriminate Ed.
Qed.

(** exactly the documented calls are accepted *)
Lemma accepted sq mr wv dt od gw gpu tr :
  (exists r, check_ssqueezing_args sq mr wv dt od gw gpu tr = Ok r) <->
  ((tr = PStr "cwt" \/ tr = PStr "stft") /\ good_squeezing sq /\
   good_maprange mr wv (is_str tr "cwt") /\ good_difftype dt gw gpu /\ good_difforder dt od).
Proof.
  unfold check_ssqueezing_args.
  assert (T : one_of tr ["cwt"; "stft"]%string = true <-> tr = PStr "cwt" \/ tr = PStr "stft").
  { rewrite one_of_iff. split.
    - intros (s & [<-|[<-|[]]] & E); auto.
    - intros [E|E]; eexists; (split; [|exact E]); simpl; auto. }
  rewrite <- squeezing_ok, <- maprange_ok, <- difftype_ok, <- difforder_ok.
  destruct (one_of tr _); simpl.
  2:{ split; [intros [r E]; discriminate E|]. intros (E & _). apply T in E. discriminate E. }
  assert (T' : tr = PStr "cwt" \/ tr = PStr "stft") by now apply T.
  destruct (check_squeezing sq) as [[]|e]; simpl.
  2:{ split; [intros [r E]; discriminate E|]. intros (_ & E & _). discriminate E. }
  destruct (check_maprange mr wv _) as [m|e]; simpl.
  2:{ split; [intros [r E]; discriminate E|]. intros (_ & _ & [m E] & _). discriminate E. }
  destruct (check_difftype dt gw gpu) as [[]|e]; simpl.
  2:{ split; [intros [r E]; discriminate E|]. intros (_ & _ & _ & E & _). discriminate E. }
  destruct (check_difforder dt od) as [[k m2]|e]; simpl.
  2:{ split; [intros [r E]; discriminate E|]. intros (_ & _ & _ & _ & [m' E]). discriminate E. }
  split; eauto 8.
Qed.

(** everything else is refused with ValueError or TypeError *)
Lemma refused sq mr wv dt od gw gpu tr e :
  check_ssqueezing_args sq mr wv dt od gw gpu tr = Err e -> e = ValueError \/ e = TypeError.
Proof.
  unfold check_ssqueezing_args.
  destruct (one_of tr _); simpl; [|intros E; injection E as <-; auto].
  destruct (check_squeezing sq) as [u|e1] eqn:E1; simpl.
  2:{ intros E; injection E as ->. unfold check_squeezing in E1.
      destruct sq; try (destruct (one_of _ _)); try discriminate E1; injection E1 as <-; auto. }
  destruct (check_maprange mr wv _) as [m|e2] eqn:E2; simpl.
  2:{ intros E; injection E as ->. unfold check_maprange in E2.
      destruct mr; try (destruct (one_of _ _)); try (destruct (forallb _ _));
      try (destruct (String.eqb s "maximal"));
      try (destruct (negb (is_str tr "cwt")));  try (destruct (negb wv)); try discriminate E2; injection E2 as <-; auto. }
  destruct (check_difftype dt gw gpu) as [u'|e3] eqn:E3; simpl.
  2:{ intros E; injection E as ->. unfold check_difftype in E3.
      destruct (is_none dt); [discriminate E3|]. destruct (negb _); [injection E3 as <-; auto|].
      destruct (is_str dt "trig"); [discriminate E3|].
      destruct gpu; [injection E3 as <-; auto|]. destruct gw; [discriminate E3|injection E3 as <-; auto]. }
  destruct (check_difforder dt od) as [[k m']|e4] eqn:E4; simpl; [intros E; discriminate E|].
  intros E; injection E as ->. unfold check_difforder in E4.
  destruct (negb (is_none od)).
  - destruct (negb _); [discriminate E4|]. destruct (_ || _)%bool; [discriminate E4|injection E4 as <-; auto].
  - destruct (is_str dt "numeric"); discriminate E4.
Qed.

(** the order of differentiation handed on *)
Lemma order_given sq mr wv od gw gpu tr k m :
  check_ssqueezing_args sq mr wv (PStr "numeric") od gw gpu tr = Ok (k, m) ->
  (od = PNone /\ k = PInt 4) \/
  (k = od /\ (number k = Some 1 \/ number k = Some 2 \/ number k = Some 4)).
Proof.
  unfold check_ssqueezing_args.
  destruct (one_of tr _); simpl; [|intros E; discriminate E].
  destruct (check_squeezing sq) as [u|e1]; simpl; [|intros E; discriminate E].
  destruct (check_maprange mr wv _) as [m1|e2]; simpl; [|intros E; discriminate E].
  destruct (check_difftype (PStr "numeric") gw gpu) as [u'|e3]; simpl; [|intros E; discriminate E].
  destruct (check_difforder (PStr "numeric") od) as [[k' m']|e4] eqn:E4; simpl; [|intros E; discriminate E].
  intros E. injection E as <- <-. unfold check_difforder in E4.
  destruct (is_none od) eqn:No; simpl in E4.
  - apply none_iff in No. injection E4 as <- <-. auto.
  - destruct (is_int od 1 || is_int od 2 || is_int od 4)%bool eqn:I; [|discriminate E4].
    injection E4 as <- <-. right. split; trivial.
    rewrite !orb_true_iff, !is_int_iff in I. tauto.
Qed.

(** it is the model of the check in SsqCwt.v *)
Definition diff_value (d : difftype) : pyv :=
  PStr (match d with DTrig => "trig" | DPhase => "phase" | DNumeric => "numeric" end).
Definition order_value (o : option Z) : pyv := match o with Some k => PInt k | None => PNone end.

Lemma is_int_PInt k z : is_int (PInt k) z = (k =? z)%Z.
Proof.
  apply eq_true_iff_eq. rewrite is_int_iff, Z.eqb_eq. simpl. split.
  - intros E. injection E as E. now apply eq_IZR.
  - now intros ->.
Qed.

Lemma check_diff_agrees q sq mr wv :
  check_squeezing sq = Ok tt -> check_maprange mr wv true = Ok [] ->
  match check_ssqueezing_args sq mr wv (diff_value (q_diff q)) (order_value (q_difforder q))
          (q_get_w q) false (PStr "cwt") with
  | Ok (k, _) => exists z, check_diff q = Ok z /\ (q_diff q = DNumeric -> k = PInt z)
  | Err e => check_diff q = Err e
  end.
Proof.
  intros Hs Hm. unfold check_ssqueezing_args. simpl. rewrite Hs. simpl. rewrite Hm. simpl.
  unfold check_diff, check_difftype, check_difforder.
  destruct (q_diff q) eqn:Ed; simpl.
  - destruct (q_difforder q); simpl; exists 4%Z; (split; [reflexivity|intros E; discriminate E]).
  - destruct (q_get_w q); simpl; trivial.
    destruct (q_difforder q); simpl; exists 4%Z; (split; [reflexivity|intros E; discriminate E]).
  - destruct (q_get_w q); simpl; trivial.
    destruct (q_difforder q) as [k|]; simpl.
    + rewrite !is_int_PInt. destruct ((k =? 1)%Z || (k =? 2)%Z || (k =? 4)%Z)%bool; simpl; trivial.
      exists k. auto.
    + exists 4%Z. auto.
Qed.

(** ** what happens to an accepted range *)
Lemma range_used ce v mr dt N sc : sc <> [] ->
  typed_maprange ce v = Some mr -> freqrange v ce dt N sc = Ok (ssq_freqrange mr dt N sc).
Proof.
  intros Hs. destruct v as [| | | |s|l|l| |]; simpl; try (intros E; discriminate E).
  - destruct (String.eqb_spec s "maximal") as [ ->|N1]; simpl.
    { intros E. injection E as <-. reflexivity. }
    destruct (String.eqb_spec s "peak") as [ ->|N2]; simpl;
      [|destruct (String.eqb_spec s "energy") as [ ->|N3]; simpl].
    + intros E. injection E as <-. destruct sc; [contradiction|reflexivity].
    + intros E. injection E as <-. destruct sc; [contradiction|reflexivity].
    + intros E; discriminate E.
  - destruct l as [|a [|b [|c l]]]; try (intros E; discriminate E).
    destruct (number a), (number b); intros E; try discriminate E. injection E as <-. reflexivity.
Qed.

Lemma accepted_range sq mr wv dt od gw gpu tr r ce T N sc :
  check_ssqueezing_args sq mr wv dt od gw gpu tr = Ok r -> sc <> [] ->
  (exists s, mr = PStr s) \/ (exists a b, mr = PTuple [a; b]) ->
  exists m, typed_maprange ce mr = Some m /\
            freqrange mr ce T N sc = Ok (ssq_freqrange m T N sc).
Proof.
  intros H Hs K.
  assert (A : exists r, check_ssqueezing_args sq mr wv dt od gw gpu tr = Ok r) by eauto.
  apply accepted in A. destruct A as (_ & _ & G & _).
  assert (X : exists m, typed_maprange ce mr = Some m).
  { destruct K as [[s ->]|(a & b & ->)].
    - destruct G as [E|[E|[[[E|E] _]|(l' & [E|E] & _)]]]; try discriminate E; injection E as ->;
        simpl; eauto.
    - destruct G as [E|[E|[[[E|E] _]|(l' & [E|E] & G)]]]; try discriminate E. injection E as <-.
      inversion G as [|? ? Ga G']; subst. inversion G' as [|? ? Gb _]; subst.
      apply is_number_iff in Ga, Gb. unfold is_number in Ga, Gb. simpl.
      destruct (number a); [|discriminate Ga]. destruct (number b); [|discriminate Gb]. eauto. }
  destruct X as [m X]. exists m. split; trivial. now apply range_used.
Qed.

Lemma list_range sq l wv dt od gw gpu tr r ce T N sc :
  check_ssqueezing_args sq (PList l) wv dt od gw gpu tr = Ok r ->
  freqrange (PList l) ce T N sc = Err UnboundLocalError.
Proof. reflexivity. Qed.

Lemma tuple_range l ce T N sc : length l <> 2%nat -> freqrange (PTuple l) ce T N sc = Err ValueError.
Proof. destruct l as [|a [|b [|c l]]]; simpl; intros H; trivial. now destruct H. Qed.

(** ** a misspelt frequency scheme *)
Lemma misspelt s fm fM dt na : s <> "log"%string ->
  string_freqs s fm fM dt na true = (linspace fm fM na, String.prefix "log" s).
Proof.
  intros H. unfold string_freqs. destruct (String.eqb_spec s "log"); [contradiction|reflexivity].
Qed.

(** two bends in the logarithm: no transition *)
Lemma two_bends f64 v i j : let d2 := map Rabs (diff (diff (map ln v))) in
  (i < length d2)%nat -> (j < length d2)%nat -> i <> j ->
  / 1000000 <= nth i d2 0 -> / 1000000 <= nth j d2 0 ->
  logscale_transition_idx f64 v = Ok None.
Proof.
  intros d2 Hi Hj Hij Ei Ej. unfold logscale_transition_idx. fold d2.
  destruct d2 as [|y ys] eqn:Ed; [simpl in Hi; lia|]. rewrite <- Ed in *.
  destruct (Rlt_dec _ _) as [_|]; [|reflexivity].
  set (a := (argmax d2 + 2 - 2)%nat).
  assert (X : exists k, (k < length d2)%nat /\ k <> a /\ / 1000000 <= nth k d2 0).
  { destruct (Nat.eq_dec i a) as [Ea|Na]; [exists j|exists i]; repeat split; trivial; congruence. }
  destruct X as (k & Hk & Nk & Ek).
  destruct (forallb _ _) eqn:F; [|reflexivity]. exfalso.
  rewrite forallb_forall in F.
  assert (L : In (nth k d2 0) (set_nth d2 a 0)).
  { assert (Hn : d2 <> []) by (rewrite Ed; discriminate).
    destruct (argmax_spec d2 Hn) as (Ha & _).
    assert (E : nth k (set_nth d2 a 0) 0 = nth k d2 0).
    { rewrite nth_set_nth by (unfold a; lia). destruct (Nat.eqb_spec k a); [contradiction|reflexivity]. }
    rewrite <- E. apply nth_In. now rewrite set_nth_length. }
  specialize (F _ L). cbv beta in F. rewrite Rabs_right in F by lra.
  destruct (Rlt_dec _ _) as [H|]; [|discriminate F].
  destruct f64; lra.
Qed.

Definition five : list R := [1; 2; 3; 4; 5].
Lemma five_linspace : linspace 1 5 5 = five.
Proof. unfold linspace, tab, five. simpl. repeat (f_equal; try lra). Qed.

Lemma five_grid f64 : get_grid f64 true five = Ok (GLog 0 1).
Proof.
  unfold get_grid, get_params_log.
  rewrite (two_bends f64 five 0 1).
  - cbn [bind nth five]. rewrite log2_1, log2_2. unfold ensure_nonzero_nonnegative, EPS64.
    destruct (Rlt_dec _ _) as [H|_]; [exfalso; lra|]. do 2 f_equal. lra.
  - cbn. lia.
  - cbn. lia.
  - lia.
  - rewrite nth_d2 by (cbn; lia). unfold d2. cbn [nth five].
    pose proof (ln_le_sub1 (3 * 1 / (2 * 2)) ltac:(lra)) as H.
    unfold Rdiv in H. rewrite ln_mult, ln_Rinv, !ln_mult, ln_1 in H by lra.
    rewrite ln_1. rewrite Rabs_left1; lra.
  - rewrite nth_d2 by (cbn; lia). unfold d2. cbn [nth five].
    pose proof (ln_le_sub1 (4 * 2 / (3 * 3)) ltac:(lra)) as H.
    unfold Rdiv in H. rewrite ln_mult, ln_Rinv, !ln_mult in H by lra.
    rewrite Rabs_left1; lra.
Qed.

Lemma misspelt_case f64 dt : exists v g,
  string_freqs "log2" 1 5 dt 5 true = (v, true) /\ v = [1; 2; 3; 4; 5] /\
  get_grid f64 true v = Ok g /\ nth 3 v 0 = 4 /\ bin_onfly 4 g 4 = 2%Z.
Proof.
  exists five, (GLog 0 1). repeat split.
  - unfold string_freqs. simpl. now rewrite five_linspace.
  - apply five_grid.
  - cbn [bin_onfly]. unfold bin_log, log2e. destruct (Rlt_dec 0 4); [|lra].
    replace (log2 4) with 2.
    2:{ replace 4 with (2 * 2) by lra. rewrite log2_mult by lra. rewrite log2_2. lra. }
    rewrite Rmax_left by lra. replace ((2 - 0) / 1) with 2 by lra.
    rewrite rnd_i64_ok by (split; [lra|apply IZR_le; lia]). rewrite (rhe_IZR 2). reflexivity.
Qed.
