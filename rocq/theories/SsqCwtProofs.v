(** [ssq_cwt]: shapes (C57) and inversion (C34). *)
From Coq Require Import Reals Lra ZifyBool ZifyNat.
From Verif Require Import Py Round Parallel Cplx CplxProofs Padding PaddingProofs Buffer Freqs Squeeze SqueezeProofs
  SqueezeThms SqueezeThms2 SqueezeThms3 Scales Ssqueeze SsqueezeProofs Cwt CwtProofs CwtThms CwtThms2 SsqCwt DiffProofs.
Local Open Scope R_scope.

Lemma mbind_ok {A B} (m : M A) (k : A -> M B) s b s' : mbind m k s = (Ok b, s') ->
  exists a s1, m s = (Ok a, s1) /\ k a s1 = (Ok b, s').
Proof. unfold mbind. destruct (m s) as [[a|e] s1]; [intros H; exists a, s1; auto|discriminate]. Qed.
Lemma lift_ok {A} (r : res A) s a s' : lift r s = (Ok a, s') -> r = Ok a /\ s' = s.
Proof. unfold lift. intros H. injection H as -> ->. auto. Qed.

Definition numeric (q : ssq_args) : bool := match q_diff q with DNumeric => true | _ => false end.

(** the steps of a successful run with [order=0] *)
Lemma ssq_cwt_inv ord py f fam q x s r s' : q_order q = None ->
  ssq_cwt ord py f fam q x s = (Ok r, s') ->
  exists k fs sc kind W dW, check_diff q = Ok k /\
    process_fs_and_t (q_fs q) (q_t q) (length x) = Ok fs /\
    ssq_scales (q_f64s q) (q_scales q) (q_kind q) (ssq_nv q) (length x) = Ok (sc, kind) /\
    cwt py true f (inner q fs (ScArr sc) (match q_scales q with ScArr _ => q_f64s q | ScAuto _ => true end)
                     true (numeric q) (q_pat q)) x s = (Ok (W, sc, Some dW), s') /\
    squeeze_step ord q fs k (length x) W dW sc (q_f64 q) kind = Ok r.
Proof.
  intros Hq H. unfold ssq_cwt in H. rewrite Hq in H.
  destruct (mbind_ok _ _ _ _ _ H) as (k & s1 & H1 & H2). apply lift_ok in H1. destruct H1 as [H1 ->].
  destruct (mbind_ok _ _ _ _ _ H2) as (fs & s2 & H3 & H4). apply lift_ok in H3. destruct H3 as [H3 ->].
  destruct (mbind_ok _ _ _ _ _ H4) as ([sc kind] & s3 & H5 & H6). apply lift_ok in H5. destruct H5 as [H5 ->].
  destruct (mbind_ok _ _ _ _ _ H6) as ([[W sc'] dW] & s4 & H7 & H8).
  assert (sc' = sc) as ->.
  { destruct (cwt_ok_inv _ _ _ _ _ _ _ _ H7) as ((fs' & xp & n1 & scales & P) & U1 & U2).
    rewrite (cwt_run _ _ _ _ _ _ _ _ _ _ P U1 U2) in H7.
    destruct P as (_ & _ & _ & P). cbn [inner a_scales a_f64s process_scales] in P.
    destruct (process_scales_arr _ sc); [|discriminate]. cbn [bind] in P. injection P as <-. congruence. }
  destruct dW as [dW|]; [|discriminate]. apply lift_ok in H8. destruct H8 as [H8 ->].
  exists k, fs, sc, kind, W, dW. repeat split; auto.
Qed.

Lemma ncols_mcols {A} (W : mat A) a b : ncols (mcols W a b) =
  (Z.to_nat (norm_bound (Z.of_nat (ncols W)) b) - Z.to_nat (norm_bound (Z.of_nat (ncols W)) a))%nat.
Proof. reflexivity. Qed.
Lemma nrows_mcols {A} (W : mat A) a b : nrows (mcols W a b) = nrows W.
Proof. reflexivity. Qed.

(** what [squeeze_step] squeezes *)
Definition squeezed (q : ssq_args) (N : nat) (W : mat C) : mat C :=
  if numeric q then let '(_, n1, _) := p2up (Z.of_nat N) in mcols W (n1 - 4) (n1 + Z.of_nat N + 4) else W.
Lemma step_inv ord q fs k N W dW sc f64s kind r : check_diff q = Ok k ->
  squeeze_step ord q fs k N W dW sc f64s kind = Ok r ->
  exists w Tx, ssqueeze ord (SO TCwt (ssq_freqs q kind) (Some sc) f64s (q_f64v q) fs (q_sq q)
                               (q_mr q) (Some (ssq_gamma q)) (q_flip q) None)
                 (squeezed q N W) w (if q_get_w q then None else Some dW) = Ok (Tx, r_freqs r) /\
    r_Tx r = crop (q_diff q) Tx /\ r_Wx r = crop (q_diff q) W /\ r_scales r = sc /\
    r_w r = opt_map (crop (q_diff q)) w /\ r_dWx r = dW /\
    (if q_get_w q
     then exists w', w = Some w' /\ phase_transform (q_f64 q) W dW (Z.of_nat N) (1 / fs) (ssq_gamma q) (q_diff q) k = Ok (squeezed q N W, w')
     else w = None /\ numeric q = false).
Proof.
  intros Hk H. unfold squeeze_step in H. cbv zeta in H. destruct (q_get_w q) eqn:Ew.
  - destruct (phase_transform _ _ _ _ _ _ _ _) as [[W' w]|] eqn:Ep; [|discriminate]. cbn [bind] in H.
    assert (W' = squeezed q N W) as ->.
    { unfold phase_transform in Ep. unfold squeezed, numeric. destruct (q_diff q).
      - injection Ep as <- _. reflexivity.
      - destruct (phase_phase _ _); [|discriminate]. cbn [bind] in Ep. injection Ep as <- _. reflexivity.
      - destruct (p2up (Z.of_nat N)) as [[u n1] n2]. destruct (phase_cwt_num _ _ _ _ _); [|discriminate]. cbn [bind] in Ep.
        injection Ep as <- _. reflexivity. }
    destruct (ssqueeze _ _ _ _ _) as [[Tx v]|] eqn:Es; [|discriminate]. cbn [bind] in H. injection H as <-.
    exists (Some w), Tx. cbn [r_Tx r_Wx r_freqs r_scales r_w r_dWx]. repeat split; auto. exists w. split; auto.
  - cbn [bind] in H.
    assert (En : numeric q = false).
    { unfold check_diff in Hk. unfold numeric. destruct (q_diff q); auto. rewrite Ew in Hk. discriminate. }
    destruct (ssqueeze _ _ _ _ _) as [[Tx v]|] eqn:Es; [|discriminate]. cbn [bind] in H. injection H as <-.
    exists None, Tx. cbn [r_Tx r_Wx r_freqs r_scales r_w r_dWx]. unfold squeezed. rewrite En. repeat split; auto.
Qed.

(** columns of [cwt]'s output *)
Lemma cwt_ncols py inst f a x s W sc dW s' : cwt py inst f a x s = (Ok (W, sc, dW), s') ->
  nrows W = length sc /\
  Z.of_nat (ncols W) = (if a_rpadded a && (if a_pad a then true else false) then let '(u, _, _) := p2up (Z.of_nat (length x)) in u
                        else Z.of_nat (length x)).
Proof.
  intros H. destruct (a_pad a) as [pt|] eqn:Ep.
  - rewrite Bool.andb_true_r. destruct (a_rpadded a) eqn:Er.
    + destruct (cwt_ok_inv _ _ _ _ _ _ _ _ H) as ((fs & xp & n1 & scales & P) & U1 & U2).
      rewrite (cwt_run _ _ _ _ _ _ _ _ _ _ P U1 U2) in H. injection H as <- <- _ _.
      destruct P as (_ & _ & Hp & _). rewrite Ep in Hp. destruct (pad_input_len _ _ _ _ Hp) as (n_up & n2 & E & L & _).
      unfold finish. rewrite Er. cbn [negb andb]. destruct (a_l1 a); cbn [scale_rows raw nrows ncols]; rewrite E; auto.
    + assert (Ea : a = set_rpadded a false) by (destruct a; cbn in *; subst; reflexivity).
      rewrite Ea in H. destruct (cwt_columns _ _ _ _ _ _ _ _ _ _ pt Ep H) as (u & n1 & n2 & V & dV & _ & _ & _ & HV & (Hc & Hr & _) & _).
      split; congruence.
  - rewrite Bool.andb_false_r. destruct (cwt_columns_nopad _ _ _ _ _ _ _ _ _ _ Ep H) as (A & B & _). split; congruence.
Qed.

(** ** C57 *)
Theorem ssq_cols_plain ord py f fam q x s r s' : valid_order ord -> shape_keeping (q_sq q) ->
  q_order q = None -> q_diff q <> DNumeric -> ssq_cwt ord py f fam q x s = (Ok r, s') ->
  ncols (r_Tx r) = length x /\ ncols (r_Wx r) = length x /\
  nrows (r_Tx r) = length (r_scales r) /\ nrows (r_Wx r) = length (r_scales r).
Proof.
  intros Ho Hs Hq Hd H. destruct (ssq_cwt_inv _ _ _ _ _ _ _ _ _ Hq H) as (k & fs & sc & kind & W & dW & Hk & _ & _ & Hc & Hst).
  assert (En : numeric q = false) by (unfold numeric; destruct (q_diff q); congruence).
  destruct (step_inv _ _ _ _ _ _ _ _ _ _ _ Hk Hst) as (w & Tx & Es & E1 & E2 & E3 & _ & _ & _).
  destruct (cwt_ncols _ _ _ _ _ _ _ _ _ _ Hc) as (Hr & Hn). cbn [inner a_rpadded] in Hn. rewrite En in Hn. cbn [andb] in Hn.
  pose proof Es as AB; apply ssqueeze_shape in AB; [|exact Ho|exact Hs]; destruct AB as (A & B). unfold squeezed in A, B. rewrite En in A, B.
  assert (Ec : forall T (V : mat T), crop (q_diff q) V = V) by (intros; unfold crop; destruct (q_diff q); congruence).
  rewrite E1, E2, !Ec, E3. repeat split; try lia; congruence.
Qed.
Theorem ssq_cols_numeric ord py f fam q x s r s' u n1 n2 : valid_order ord -> shape_keeping (q_sq q) ->
  q_order q = None -> q_diff q = DNumeric -> p2up (Z.of_nat (length x)) = (u, n1, n2) ->
  ssq_cwt ord py f fam q x s = (Ok r, s') ->
  Z.of_nat (ncols (r_Wx r)) = Z.max 0 ((if q_pad q then u else Z.of_nat (length x)) - 8) /\
  (q_pad q <> None -> (4 <= n2)%Z -> ncols (r_Tx r) = length x).
Proof.
  intros Ho Hs Hq Hd Eu H. destruct (ssq_cwt_inv _ _ _ _ _ _ _ _ _ Hq H) as (k & fs & sc & kind & W & dW & Hk & _ & _ & Hc & Hst).
  assert (En : numeric q = true) by (unfold numeric; rewrite Hd; reflexivity).
  destruct (step_inv _ _ _ _ _ _ _ _ _ _ _ Hk Hst) as (w & Tx & Es & E1 & E2 & E3 & _ & _ & _).
  destruct (cwt_ncols _ _ _ _ _ _ _ _ _ _ Hc) as (Hr & Hn). cbn [inner a_rpadded a_pad] in Hn. rewrite En, Eu in Hn. cbn [andb] in Hn.
  pose proof Es as AB; apply ssqueeze_shape in AB; [|exact Ho|exact Hs]; destruct AB as (A & B). unfold squeezed in A, B. rewrite En, Eu in A, B.
  rewrite E1, E2, Hd. cbn [crop]. rewrite !ncols_mcols. split.
  - destruct (q_pad q); nb.
  - intros Hp Hn1. destruct (q_pad q) as [pt|] eqn:Epd; [|congruence]. rewrite B. rewrite ncols_mcols.
    assert (HN : (1 <= Z.of_nat (length x))%Z).
    { destruct (cwt_ok_inv _ _ _ _ _ _ _ _ Hc) as ((fs' & xp & m1 & scales & (_ & _ & P & _)) & _).
      cbn [inner a_pad] in P. rewrite Epd in P. destruct x; [|cbn; lia].
      unfold pad_input in P. destruct pt; cbn in P; discriminate. }
    destruct (p2up_bounds _ _ _ _ HN Eu) as (_ & _ & Hlt & Hsum & Hn2 & Hn1').
    nb.
Qed.

(** ** Higher orders *)
Lemma ho_first_ncols py fam o a x s W dW s' : ho_list o <> [] ->
  cwt_higher_order py fam o (Some (is_tuple o)) a x s = (Ok (HOOne W, dW), s') ->
  exists sc W0 dW0 s1 s2 k l, ho_scales a (length x) = Ok (ScArr sc) /\ ho_list o = k :: l /\
    cwt py true (fam k) (set_scales a (ScArr sc)) x s1 = (Ok (W0, sc, dW0), s2) /\
    ncols W = ncols W0 /\ nrows W = nrows W0.
Proof.
  intros Hne H. unfold cwt_higher_order in H. unfold mbind at 1, lift in H.
  destruct (ho_scales a (length x)) as [sa|] eqn:Es; [|discriminate].
  assert (exists sc, sa = ScArr sc) as (sc & ->).
  { unfold ho_scales in Es. destruct (a_scales a) as [l|mk]; [injection Es as <-; eauto|].
    destruct (mk (length x)); [|discriminate]. injection Es as <-. eauto. }
  unfold mbind in H.
  destruct (msequence _ s) as [[outs|e] s1] eqn:Em; [|discriminate].
  apply (msequence_ok (fun k => cwt_fresh py (fam k) (set_scales a (ScArr sc)) x)) in Em.
  2:{ intros k [[W' sc'] d'] t t' E. eapply cwt_fresh_ok; exact E. }
  destruct Em as (-> & F). unfold mret in H.
  destruct F as [|k [[W0 c0] d0] l rs H0 F]; [congruence|].
  pose proof (cwt_fresh_scales py (fam k) (set_scales a (ScArr sc)) sc x s W0 c0 d0 s eq_refl H0) as ->.
  unfold cwt_fresh in H0. destruct (cwt py true (fam k) (set_scales a (ScArr sc)) x (CS (s_pat s) (s_lim s) 1024 None)) as [r0 s2] eqn:Ec.
  injection H0 as -> _.
  exists sc, W0, d0, (CS (s_pat s) (s_lim s) 1024 None), s2, k, l.
  split; [reflexivity|]. split; [reflexivity|]. split; [exact Ec|].
  assert (E1 : ho_collect (ho_averages o (Some (is_tuple o))) mmean (W0 :: map (fun r => fst (fst r)) rs) = HOOne W).
  { cbn [map fst] in H. destruct (if a_deriv a then _ else _); injection H; intros; assumption. }
  unfold ho_collect in E1. destruct (ho_averages _ _).
  - injection E1 as <-. split; reflexivity.
  - destruct rs; [|discriminate]. injection E1 as <-. split; reflexivity.
Qed.

Theorem ssq_cols_order ord py f fam q o x s r s' p : valid_order ord -> shape_keeping (q_sq q) ->
  q_order q = Some o -> q_diff q <> DNumeric -> q_pad q = Some p ->
  ssq_cwt ord py f fam q x s = (Ok r, s') ->
  ncols (r_Tx r) = length x /\ ncols (r_Wx r) = length x /\
  nrows (r_Tx r) = length (r_scales r) /\ nrows (r_Wx r) = length (r_scales r).
Proof.
  intros Ho Hs Hq Hd Hpad H. unfold ssq_cwt in H. rewrite Hq in H.
  apply mbind_ok in H. destruct H as (k & s1 & Hk & H). apply lift_ok in Hk. destruct Hk as (Hk & ->).
  apply mbind_ok in H. destruct H as (fs & s1 & Hfs & H). apply lift_ok in Hfs. destruct Hfs as (Hfs & ->).
  apply mbind_ok in H. destruct H as ([[[W dW] sc] f64s] & s1 & Hh & H).
  apply mbind_ok in H. destruct H as ([sc' kind] & s2 & Hsc & H). apply lift_ok in Hsc. destruct Hsc as (Hsc & ->).
  apply lift_ok in H. destruct H as (Hst & ->).
  assert (sc' = sc) as ->.
  { unfold ssq_scales in Hsc. destruct (process_scales_nv _ _ _); [|discriminate]. cbn [bind] in Hsc. injection Hsc as <- _. reflexivity. }
  assert (HW : nrows W = length sc /\ ncols W = length x).
  { unfold ssq_higher in Hh.
    destruct (p2up (Z.of_nat (length x))) as [[u n1] n2] eqn:Eu.
    set (a := inner q fs (q_scales q) _ false true (PatInt 0)) in Hh.
    assert (K : forall st st', (mdo sc <- lift (ho_scales a (length x));
      mdo (W, _) <- cwt_higher_order py fam o (Some (is_tuple o)) a x;
      match sc, W with
      | ScArr l, HOOne W =>
          mdo _ <- fft_check py;
          mdo d <- lift (trigdiff W fs None (Some true) (Some (Z.of_nat (length x))) (Some n1));
          mret (mcols W n1 (n1 + Z.of_nat (length x)), d, l, match q_scales q with ScArr _ => q_f64s q | ScAuto _ => q_f64 q end)
      | _, _ => lift (Err NotModelled)
      end) st = (Ok (W, dW, sc, f64s), st') -> ho_list o <> [] -> nrows W = length sc /\ ncols W = length x).
    { intros st st' K Hne.
      apply mbind_ok in K. destruct K as (sa & t1 & K1 & K). apply lift_ok in K1. destruct K1 as (K1 & ->).
      apply mbind_ok in K. destruct K as ([V dV] & t2 & K2 & K).
      destruct sa as [l|]; [|destruct V; discriminate]. destruct V as [V|]; [|discriminate].
      apply mbind_ok in K. destruct K as (uu & t3 & _ & K).
      apply mbind_ok in K. destruct K as (d & t4 & _ & K). unfold mret in K. injection K as <- _ <- _ _.
      destruct (ho_first_ncols _ _ _ _ _ _ _ _ _ Hne K2) as (sc0 & W0 & dW0 & v1 & v2 & kk & ll & F1 & _ & F2 & F3 & F4).
      rewrite K1 in F1. injection F1 as ->.
      destruct (cwt_ncols _ _ _ _ _ _ _ _ _ _ F2) as (Hr & Hn). cbn [a set_scales inner a_rpadded a_pad] in Hn. rewrite Hpad, Eu in Hn.
      cbn [andb] in Hn. rewrite nrows_mcols, ncols_mcols, F3. split; [lia|].
      assert (HN : (1 <= Z.of_nat (length x))%Z).
      { destruct (cwt_ok_inv _ _ _ _ _ _ _ _ F2) as ((fs' & xp & m1 & scales & (_ & _ & P & _)) & _).
        cbn [a set_scales inner a_pad] in P. rewrite Hpad in P. destruct x; [|cbn; lia].
        unfold pad_input in P. destruct p; cbn in P; discriminate. }
      destruct (p2up_bounds _ _ _ _ HN Eu) as (_ & _ & Hlt & Hsum & Hn2 & Hn1'). nb. }
    destruct (wf_norm f), o as [kk|[|kk ll]]; try discriminate Hh; (eapply K; [exact Hh|discriminate]). }
  destruct HW as (Hr & Hn).
  assert (En : numeric q = false) by (unfold numeric; destruct (q_diff q); congruence).
  destruct (step_inv _ _ _ _ _ _ _ _ _ _ _ Hk Hst) as (w & Tx & Es & E1 & E2 & E3 & _ & _ & _).
  pose proof Es as AB; apply ssqueeze_shape in AB; [|exact Ho|exact Hs]; destruct AB as (A & B). unfold squeezed in A, B. rewrite En in A, B.
  rewrite E1, E2, E3. assert (Ec : forall T (V : mat T), crop (q_diff q) V = V) by (intros; unfold crop; destruct (q_diff q); congruence).
  rewrite !Ec. repeat split; lia.
Qed.

(** ** Batches *)
Theorem ssq_batch ord py f fam q xs N s r s' : not_lebesgue (q_sq q) -> q_order q = None -> q_diff q = DTrig ->
  xs <> [] -> same_length xs N -> ssq_cwt2 ord py f fam q xs s = (Ok r, s') ->
  length (r2_Tx r) = length xs /\ length (r2_Wx r) = length xs /\
  forall b, (b < length xs)%nat ->
    ssq_cwt ord py f fam q (nth b xs []) s =
      (Ok (SQO (nth b (r2_Tx r) mat0) (nth b (r2_Wx r) mat0) (r2_freqs r) (r2_scales r) None (nth b (r2_dWx r) mat0)), s').
Proof.
  intros Hsq Hq Hd Hne HL H. unfold ssq_cwt2 in H. destruct (q_get_w q) eqn:Egw; [discriminate|].
  assert (EN : forall b, (b < length xs)%nat -> length (nth b xs []) = N) by exact HL.
  assert (Hpos : (0 < length xs)%nat) by (destruct xs; [congruence|simpl; lia]).
  rewrite (EN 0%nat Hpos) in H. rewrite Hq in H.
  apply mbind_ok in H. destruct H as (k & s1 & Hk & H). apply lift_ok in Hk. destruct Hk as (Hk & ->).
  apply mbind_ok in H. destruct H as (fs & s1 & Hfs & H). apply lift_ok in Hfs. destruct Hfs as (Hfs & ->).
  apply mbind_ok in H. destruct H as ([sc kind] & s1 & Hsc & H). apply lift_ok in Hsc. destruct Hsc as (Hsc & ->).
  apply mbind_ok in H. destruct H as ([[Ws sc'] dWs] & s1 & Hc & H).
  destruct dWs as [dWs|]; [|discriminate]. apply lift_ok in H. destruct H as (Hst & ->).
  destruct (cwt_batch _ _ _ _ _ _ _ _ _ _ _ Hne HL Hc) as (HW & Hit).
  unfold squeeze_step2 in Hst. destruct (ssqueeze_batch _ _ _ _ _) as [[Ts v]|] eqn:Eb; [|discriminate]. cbn [bind] in Hst. injection Hst as <-.
  cbn [r2_Tx r2_Wx r2_freqs r2_scales r2_dWx].
  assert (HdW : length dWs = length xs).
  { destruct (cwt_batch_full _ _ _ _ _ _ _ _ _ _ _ Hne HL Hc) as (_ & A & _). apply A. reflexivity. }
  pose proof Eb as Eb'.
  apply (batch_item ord _ Ws None (Some dWs) N mat0 (Mat 0 0 (fun _ _ => Inf))) in Eb'.
  - destruct Eb' as (HT & Hi). split; [lia|]. split; [exact HW|]. intros b Hb.
    specialize (Hi b mat0 ltac:(lia)). cbn [nth_opt] in Hi. specialize (Hit b Hb). cbn [opt_map] in Hit.
    unfold ssq_cwt. rewrite Hq, (EN b Hb). unfold mbind at 1, lift at 1. rewrite Hk. unfold mbind at 1, lift at 1. rewrite Hfs.
    unfold mbind at 1, lift at 1. rewrite Hsc. unfold mbind at 1. rewrite Hd. rewrite Hit. cbv iota. unfold lift. f_equal.
    unfold squeeze_step. rewrite Egw. cbn [bind]. rewrite Hi. cbn [bind]. rewrite Hd. reflexivity.
  - exact Hsq.
  - intros i Hi. specialize (Hit i ltac:(lia)).
    destruct (cwt_ncols _ _ _ _ _ _ _ _ _ _ Hit) as (_ & Hn). cbn [inner a_rpadded andb] in Hn. rewrite (EN i ltac:(lia)) in Hn. lia.
  - discriminate.
  - intros l E. injection E as <-. lia.
Qed.

Theorem ssq_batch_ok ord py f fam q xs N s : not_lebesgue (q_sq q) -> q_order q = None -> q_diff q = DTrig -> q_get_w q = false ->
  xs <> [] -> same_length xs N ->
  (forall b, (b < length xs)%nat -> exists r s', ssq_cwt ord py f fam q (nth b xs []) s = (Ok r, s')) ->
  exists r s', ssq_cwt2 ord py f fam q xs s = (Ok r, s').
Proof.
  intros Hsq Hq Hd Egw Hne HL H.
  assert (Hpos : (0 < length xs)%nat) by (destruct xs; [congruence|simpl; lia]).
  destruct (H 0%nat Hpos) as (r0 & s' & H0).
  destruct (ssq_cwt_inv _ _ _ _ _ _ _ _ _ Hq H0) as (k & fs & sc & kind & W & dW & Hk & Hfs & Hsc & Hc & _).
  rewrite HL in Hfs, Hsc by exact Hpos.
  assert (Enum : numeric q = false) by (unfold numeric; rewrite Hd; reflexivity). rewrite Enum in Hc.
  destruct (cwt2_ok _ _ _ _ _ _ _ _ _ _ _ Hne HL Hc) as (Ws & dWs & E2).
  destruct (cwt_batch_full _ _ _ _ _ _ _ _ _ _ _ Hne HL E2) as (HW & HdW & Hit).
  assert (exists l, dWs = Some l) as (l & ->).
  { destruct dWs as [l|]; [eauto|]. specialize (Hit 0%nat Hpos). rewrite Hc in Hit. discriminate. }
  specialize (HdW l eq_refl).
  destruct (batch_ok ord (SO TCwt (ssq_freqs q kind) (Some sc) (q_f64 q) (q_f64v q) fs (q_sq q)
                               (q_mr q) (Some (ssq_gamma q)) (q_flip q) None) Ws None (Some l) N mat0 (Mat 0 0 (fun _ _ => Inf))) as ((Ts & v) & Eb).
  - exact Hsq.
  - intros i Hi. specialize (Hit i ltac:(lia)).
    destruct (cwt_ncols _ _ _ _ _ _ _ _ _ _ Hit) as (_ & Hn). cbn [inner a_rpadded andb] in Hn. rewrite HL in Hn by lia. lia.
  - discriminate.
  - intros l' E. injection E as <-. lia.
  - destruct Ws; [cbn in HW; lia|discriminate].
  - intros i Hi. rewrite HW in Hi. destruct (H i Hi) as (r & t & Hr).
    destruct (ssq_cwt_inv _ _ _ _ _ _ _ _ _ Hq Hr) as (k' & fs' & sc' & kind' & W' & dW' & Hk' & Hfs' & Hsc' & Hc' & Hst).
    rewrite HL in Hfs', Hsc' by exact Hi. rewrite Hfs in Hfs'. injection Hfs' as <-. rewrite Hsc in Hsc'. injection Hsc' as <- <-.
    rewrite Enum in Hc'. rewrite (Hit i Hi) in Hc'. injection Hc' as <- <- _.
    destruct (step_inv _ _ _ _ _ _ _ _ _ _ _ Hk' Hst) as (w & Tx & Es & _ & _ & _ & _ & _ & Hw).
    cbn [nth_opt]. unfold squeezed in Es. rewrite Enum, Egw in Es.
    assert (w = None) as -> by (unfold squeeze_step in Hst; rewrite Egw in *; tauto). eauto.
  - do 2 eexists. unfold ssq_cwt2. rewrite Egw, HL by exact Hpos. unfold mbind at 1, lift at 1. rewrite Hk.
    unfold mbind at 1, lift at 1. rewrite Hfs. rewrite Hq. unfold mbind at 1, lift at 1. rewrite Hsc. unfold mbind at 1.
    rewrite E2. unfold lift, squeeze_step2. rewrite Eb. cbn [bind]. reflexivity.
Qed.
