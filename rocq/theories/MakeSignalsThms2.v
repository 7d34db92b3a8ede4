(** [make_signals]: seeds, noise, repeated calls. *)
From Coq Require Import Ascii String Reals Lra ZifyBool ZifyNat.
From Verif Require Import Py Squeeze SqueezeProofs BinProofs Config ConfigProofs MakeSignals MakeSignalsThms.
Local Open Scope R_scope.
Local Open Scope string_scope.

(** ** with a seed, the state of the generator does not matter *)
Theorem seeded_same g gen s N p st k xc x t f' st1 : m_seed s = Some k ->
  make_one g gen s N p st = Ok (xc, x, t, f', st1) -> forall st2, exists st3,
  make_one g gen s N p st2 = Ok (xc, x, t, f', st3).
Proof.
  intros Hk E st2. destruct p as [[name f] a]. unfold make_one in *. rewrite Hk in *.
  destruct (split_name name) as [[fname aname]|]; [|discriminate]. cbn [bind] in *.
  destruct (find_method gen (lstrip _ _)) as [fn|]; [|discriminate]. cbn [bind] in *.
  destruct (find_method gen (under aname)) as [afn|]; [|discriminate]. cbn [bind] in *.
  destruct (fn N (dpop "snr" f)) as [[x0 t0]|]; [|discriminate]. cbn [bind] in *.
  destruct (join a (time_keys f a)) as [kw|]; [|discriminate]. cbn [bind] in *.
  destruct (afn _ kw) as [[am tm]|]; [|discriminate]. cbn [bind] in *.
  destruct (negb _); [discriminate|].
  destruct (match dget "snr" f with Some v => v | None => _ end) as [| |r| |]; try discriminate.
  - injection E as <- <- <- <- _. eauto.
  - destruct (Req_EM_T r 0); [injection E as <- <- <- <- _; eauto|]. cbv zeta in *.
    destruct (randn g _ _) as [e st4]. injection E as <- <- <- <- _. eauto.
Qed.

Lemma map_res_nth {A B} (h : A -> res B) l ys : map_res h l = Ok ys -> length ys = length l /\
  forall i x, nth_error l i = Some x -> exists y, nth_error ys i = Some y /\ h x = Ok y.
Proof.
  revert ys. induction l as [|x l IH]; intros ys E; cbn in E.
  - injection E as <-. split; [reflexivity|]. intros [|i] x H; discriminate.
  - destruct (h x) as [y|] eqn:Ex; [|discriminate]. cbn in E. destruct (map_res h l) as [ys'|]; [|discriminate].
    cbn in E. injection E as <-. destruct (IH ys' eq_refl) as (Hl & H). split; [cbn; lia|].
    intros [|i] z Hz; cbn in *; [injection Hz as <-; eauto|auto].
Qed.
Lemma process_nth s rs ps : process_input s rs = Ok ps -> length ps = length rs /\
  forall i r, nth_error rs i = Some r -> exists p, nth_error ps i = Some p /\ process_input s [r] = Ok [p].
Proof.
  unfold process_input. destruct (map_res (check_request s) rs) as [us|] eqn:Ec; [|discriminate]. cbn [bind]. intros E.
  destruct (map_res_nth _ _ _ Ec) as (_ & Hc). destruct (map_res_nth _ _ _ E) as (Hl & Hp). split; [exact Hl|].
  intros i r Hr. destruct (Hc i r Hr) as (u & _ & Hu). destruct (Hp i r Hr) as (p & Hi & Hq). exists p. split; [exact Hi|].
  cbn. rewrite Hu. cbn. rewrite Hq. reflexivity.
Qed.
Lemma made_nth g gen s N ps st es ds st' : made g gen s N ps st es ds st' ->
  map fst es = map pname ps /\ length ds = length ps /\
  forall i p, nth_error ps i = Some p -> exists xc x t f' sti stj,
    make_one g gen s N p sti = Ok (xc, x, t, f', stj) /\
    nth_error es i = Some (pname p, (x, t, f', snd p)) /\ nth_error ds i = Some (f', snd p).
Proof.
  induction 1 as [st|name f a ps st xc x t f' st1 es ds st2 E H (IH1 & IH2 & IH3)].
  - split; [reflexivity|]. split; [reflexivity|]. intros [|i] p Hp; discriminate.
  - split; [cbn; now rewrite IH1|]. split; [cbn; lia|]. intros [|i] p Hp; cbn in Hp.
    + injection Hp as <-. exists xc, x, t, f', st, st1. auto.
    + exact (IH3 i p Hp).
Qed.
(** distinct names: one entry per request, in order, and with a seed each is what the request
    gives when made alone *)
Theorem one_each g gen s rs N st data ds st' ps : process_input s rs = Ok ps -> NoDup (map pname ps) ->
  make_signals g gen s rs N st = Ok (data, ds, st') ->
  length data = length rs /\ map fst data = map pname ps /\
  forall k i r, m_seed s = Some k -> nth_error rs i = Some r -> exists name e d, nth_error data i = Some (name, e) /\
    forall st0, exists st1, make_signals g gen s [r] N st0 = Ok ([(name, e)], [d], st1).
Proof.
  intros Hp Hn E. unfold make_signals in E. rewrite Hp in E. cbn [bind] in E.
  destruct (make_all_made g gen s N ps [] st data ds st' Hn E) as (es & Hes & M). cbn [app] in Hes. subst data.
  destruct (made_nth _ _ _ _ _ _ _ _ _ M) as (M1 & M2 & M3).
  destruct (process_nth _ _ _ Hp) as (P1 & P2).
  split; [rewrite <- (map_length fst), M1, map_length; exact P1|]. split; [exact M1|].
  intros k i r Hk Hr. destruct (P2 i r Hr) as (p & Hi & Hq). destruct (M3 i p Hi) as (xc & x & t & f' & sti & stj & Em & He & Hd).
  exists (pname p), (x, t, f', snd p), (f', snd p). split; [exact He|]. intros st0.
  destruct (seeded_same _ _ _ _ _ _ _ _ _ _ _ _ Hk Em st0) as (st3 & E3). exists st3.
  unfold make_signals. rewrite Hq. cbn [bind]. destruct p as [[name f] a]. cbn [make_all]. rewrite E3. reflexivity.
Qed.

(** ** time keywords of the modulator *)
Lemma time_keys_has_fold k (l acc : dict pyv) : time_key k = true -> has k acc = true \/ In k (keys l) ->
  has k (fold_left (fun d '(k, v) => if time_key k then dset k v d else d) l acc) = true.
Proof.
  intros Hk. revert acc. induction l as [|[k' v] l IH]; intros acc H; cbn [fold_left].
  - destruct H as [H|[]]. exact H.
  - apply IH. cbn in H. destruct H as [H|[->|H]].
    + left. destruct (time_key k'); [|exact H]. unfold has in *. rewrite dget_dset. destruct (String.eqb k k'); [reflexivity|exact H].
    + left. rewrite Hk. unfold has. rewrite dget_dset, String.eqb_refl. reflexivity.
    + now right.
Qed.
Theorem modulator_times g gen s N name f a st out k : time_key k = true -> has k a = true ->
  make_one g gen s N (name, f, a) st <> Ok out.
Proof.
  intros Hk Ha E. destruct out as [[[[xc x] t] f'] st'].
  destruct (make_one_spec _ _ _ _ _ _ _ _ _ _ _ _ _ E) as (fname & aname & fn & afn & x0 & am & kw & tm & _ & _ & _ & _ & Hj & _).
  unfold join in Hj. destruct (existsb (fun k => has k a) (keys (time_keys f a))) eqn:Ex; [discriminate|].
  assert (existsb (fun k => has k a) (keys (time_keys f a)) = true); [|congruence].
  apply existsb_exists. exists k. split; [|exact Ha]. apply has_in. unfold time_keys. apply time_keys_has_fold; [exact Hk|].
  right. unfold keys. rewrite map_app. apply in_or_app. right. now apply has_in.
Qed.

(** ** noise *)
Lemma lsum_map_scale c l : lsum (map (Rmult c) l) = c * lsum l.
Proof. unfold lsum. induction l as [|x l IH]; cbn; [ring|]. rewrite IH. ring. Qed.
Lemma mean_scale c l : mean (map (Rmult c) l) = c * mean l.
Proof. unfold mean. rewrite lsum_map_scale, map_length. unfold Rdiv. ring. Qed.
Lemma var_scale c l : var (map (Rmult c) l) = c ^ 2 * var l.
Proof.
  unfold var. rewrite mean_scale. rewrite <- (mean_scale (c ^ 2)). f_equal. rewrite !map_map. apply map_ext. intros u. ring.
Qed.
Lemma var_nonneg l : 0 <= var l.
Proof.
  unfold var. generalize (mean l). intros m. unfold mean. destruct l as [|x l]; [cbn; unfold Rdiv; lra|].
  apply Rmult_le_pos; [|left; apply Rinv_0_lt_compat; apply (lt_INR 0); cbn; lia].
  unfold lsum. induction (x :: l) as [|y q IH]; cbn [map fold_right]; [lra|]. pose proof (pow2_ge_0 (y - m)). lra.
Qed.
Lemma ten_pos u : 0 < Rpower 10 u. Proof. apply exp_pos. Qed.
Lemma noise_var x e r : var (noise_of x e r) = var x / Rpower 10 (r / 10) * var e.
Proof.
  unfold noise_of. rewrite var_scale. f_equal. rewrite <- Rsqr_pow2. apply Rsqr_sqrt.
  apply Rmult_le_pos; [apply var_nonneg|left; apply Rinv_0_lt_compat, ten_pos].
Qed.
Lemma ln10_pos : 0 < ln 10. Proof. rewrite <- ln_1. apply ln_increasing; lra. Qed.
Lemma log10_mult a b : 0 < a -> 0 < b -> log10 (a * b) = log10 a + log10 b.
Proof. intros. unfold log10. rewrite ln_mult by assumption. pose proof ln10_pos. field. lra. Qed.
Lemma log10_inv a : 0 < a -> log10 (/ a) = - log10 a.
Proof. intros. unfold log10. rewrite ln_Rinv by assumption. unfold Rdiv. ring. Qed.
Lemma log10_pow u : log10 (Rpower 10 u) = u.
Proof. unfold log10, Rpower. rewrite ln_exp. pose proof ln10_pos. field. lra. Qed.
(** the SNR of the noise added is the one asked for, up to the sample variance of the deviates *)
Theorem measured_snr x e r : 0 < var x -> 0 < var e ->
  measured x (noise_of x e r) = PFloat (r - 10 * log10 (var e)).
Proof.
  intros Hx He. unfold measured. rewrite noise_var. pose proof (ten_pos (r / 10)) as Ht.
  assert (0 < var x / Rpower 10 (r / 10)) by (apply Rdiv_lt_0_compat; assumption).
  assert (0 < var x / Rpower 10 (r / 10) * var e) by (apply Rmult_lt_0_compat; assumption).
  destruct (Req_EM_T _ _); [lra|]. destruct (Req_EM_T _ _); [lra|]. f_equal.
  replace (var x / (var x / Rpower 10 (r / 10) * var e)) with (Rpower 10 (r / 10) * / var e) by (field; lra).
  rewrite log10_mult, log10_inv, log10_pow by (try apply Rinv_0_lt_compat; assumption). field.
Qed.
(** the same dict passed again: the noise is scaled by the deviates' standard deviation *)
Lemma noise_again x e r : 0 < var x -> 0 < var e ->
  noise_of x e (r - 10 * log10 (var e)) = map (Rmult (sqrt (var e))) (noise_of x e r).
Proof.
  intros Hx He. unfold noise_of. rewrite map_map. apply map_ext. intros u. rewrite <- Rmult_assoc. f_equal.
  pose proof (ten_pos (r / 10)). rewrite <- sqrt_mult_alt by lra. f_equal.
  replace ((r - 10 * log10 (var e)) / 10) with (r / 10 + - log10 (var e)) by field. rewrite Rpower_plus, Rpower_Ropp.
  replace (Rpower 10 (log10 (var e))) with (var e).
  - field. lra.
  - unfold Rpower, log10. replace (ln (var e) / ln 10 * ln 10) with (ln (var e)) by (field; pose proof ln10_pos; lra). now rewrite exp_ln.
Qed.
Lemma dpop_dset k v d : ~ In k (keys d) -> dpop k (dset k v d) = d.
Proof.
  intros H. induction d as [|[k' u] d IH]; cbn [dset].
  - cbn. now rewrite String.eqb_refl.
  - cbn in H. destruct (String.eqb_spec k k') as [->|]; [tauto|]. cbn [dpop]. destruct (String.eqb_spec k k'); [tauto|]. rewrite IH by tauto. reflexivity.
Qed.
Lemma dpop_notin k d : NoDup (keys d) -> ~ In k (keys (dpop k d)).
Proof.
  induction d as [|[k' u] d IH]; cbn; [tauto|]. intros H. inversion H as [|? ? H1 H2]; subst.
  destruct (String.eqb_spec k k') as [->|]; [exact H1|]. cbn. intros [->|Hi]; [tauto|]. now apply IH.
Qed.
Lemma time_keys_dpop f a : time_keys (dpop "snr" f) a = time_keys f a.
Proof.
  unfold time_keys. rewrite !fold_left_app. f_equal. generalize (@nil (string * pyv)). induction f as [|[k v] f IH]; intros acc; cbn [dpop]; [reflexivity|].
  destruct (String.eqb_spec "snr" k) as [<-|].
  - reflexivity.
  - cbn [fold_left]. apply IH.
Qed.
Lemma time_keys_dset f a v : ~ In "snr" (keys f) -> time_keys (dset "snr" v f) a = time_keys f a.
Proof.
  intros H. rewrite dset_notin by exact H. unfold time_keys. rewrite !fold_left_app. reflexivity.
Qed.
Theorem drift g gen s N name f a st xc x t f' st1 r k e st2 : NoDup (keys f) ->
  m_seed s = Some k -> dget "snr" f = Some (PFloat r) -> r <> 0 ->
  make_one g gen s N (name, f, a) st = Ok (xc, x, t, f', st1) ->
  randn g (reseed g k) (length xc) = (e, st2) -> 0 < var xc -> 0 < var e -> r <> 10 * log10 (var e) ->
  x = vplus xc (noise_of xc e r) /\
  exists f'' st3, make_one g gen s N (name, f', a) st1 = Ok (xc, vplus xc (map (Rmult (sqrt (var e))) (noise_of xc e r)), t, f'', st3).
Proof.
  intros Hn Hk Hs Hr E Er Hx He Hr'.
  destruct (make_one_spec _ _ _ _ _ _ _ _ _ _ _ _ _ E) as (fname & aname & fn & afn & x0 & am & kw & tm & A1 & A2 & A3 & A4 & A5 & A6 & A7 & A8 & A9 & C).
  assert (Hni : ~ In "snr" (keys (dpop "snr" f))) by (apply dpop_notin; exact Hn).
  pose proof E as E0. unfold make_one in E0. rewrite A1 in E0. cbn [bind] in E0. rewrite A2 in E0. cbn [bind] in E0. rewrite A3 in E0. cbn [bind] in E0.
  rewrite A4 in E0. cbn [bind] in E0. rewrite A5 in E0. cbn [bind] in E0. rewrite A6 in E0. cbn [bind] in E0. rewrite A7, Nat.eqb_refl in E0. cbn [negb] in E0.
  rewrite Hs in E0. destruct (Req_EM_T r 0); [contradiction|]. rewrite Hk in E0. cbv zeta in E0.
  set (y := if starts "#" name then _ else _) in E0.
  destruct (randn g (reseed g k) (length y)) as [e' st4] eqn:Er'. injection E0 as Ey Ex Ef' Est. rewrite Ey in *.
  rewrite Er in Er'. injection Er' as <- _.
  split; [now rewrite <- Ex|].
  rewrite measured_snr in Ef' by assumption.
  unfold make_one. rewrite A1. cbn [bind]. rewrite A2. cbn [bind]. rewrite A3. cbn [bind]. rewrite <- Ef'.
  rewrite dpop_dset by exact Hni. rewrite A4. cbn [bind]. rewrite time_keys_dset by exact Hni. rewrite time_keys_dpop, A5. cbn [bind].
  rewrite A6. cbn [bind]. rewrite A7, Nat.eqb_refl. cbn [negb]. rewrite dget_dset, String.eqb_refl.
  destruct (Req_EM_T _ 0); [lra|]. rewrite Hk. cbv zeta. fold y. rewrite Ey, Er. rewrite noise_again by assumption. do 2 eexists. reflexivity.
Qed.
(** an SNR of 0 dB adds nothing; 0 is not accepted as a seed either *)
Theorem zero_snr g gen s N name f a st xc x t f' st1 : dget "snr" f = Some (PFloat 0) ->
  make_one g gen s N (name, f, a) st = Ok (xc, x, t, f', st1) -> x = xc.
Proof.
  intros Hs E. destruct (make_one_spec _ _ _ _ _ _ _ _ _ _ _ _ _ E) as (? & ? & ? & ? & ? & ? & ? & ? & _ & _ & _ & _ & _ & _ & _ & _ & _ & C).
  destruct C as [(-> & _)|(r & st0 & e & Hr & [H|[H _]] & _)]; [reflexivity|rewrite Hs in H; injection H as <-; lra|congruence].
Qed.
Theorem zero_init d sup : init (Some 0) (Some 0%Z) d sup = init None None d sup.
Proof. unfold init. destruct (Req_EM_T 0 0); [reflexivity|lra]. Qed.

(** ** witnesses *)
(** 'cosine': two samples [f, -f] *)
Definition gen1 (name : string) : option method :=
  if String.eqb name "cosine" then
    Some (fun _ d => match dget "f" d with Some (PFloat f) => Ok ([f; - f]%R, None) | _ => Err TypeError end)
  else None.
(** a counter for a generator: [2, -2] first *)
Definition rng1 : rng := RNG nat (fun st n => (tab n (fun i => INR (2 + st) * (if Nat.even i then 1 else -1)), S st)) (fun _ => 0%nat).
Definition self1 (seed : option Z) : mself := init None seed [] ["cosine"].
Definition both : list request := [RFull "cosine" [("f", PFloat 1)] []; RFull "cosine" [("f", PFloat 2)] []].
Theorem duplicates : exists data ds st', make_signals rng1 gen1 (self1 None) both None 0%nat = Ok (data, ds, st') /\
  length both = 2%nat /\ length data = 1%nat /\ exists x, plain data = One x.
Proof.
  do 3 eexists. split; [reflexivity|]. split; [reflexivity|]. split; [reflexivity|]. eexists. reflexivity.
Qed.
Lemma var2 c : var [c; - c]%R = (c ^ 2)%R.
Proof. unfold var, mean, lsum. cbn. field. Qed.
Definition noisy (r : R) : dict pyv := [("f", PFloat 1); ("snr", PFloat r)].
Lemma run1 r st seed : r <> 0 -> make_one rng1 gen1 (init None seed [] ["cosine"]) None ("cosine", noisy r, []) st =
  let st' := match seed with Some 0%Z => st | Some _ => 0%nat | None => st end in
  let c := sqrt (1 / Rpower 10 (r / 10)) in
  Ok ([1; Ropp 1], [1 + c * (INR (2 + st') * 1); Ropp 1 + c * (INR (2 + st') * Ropp 1)]%R, None,
      [("f", PFloat 1); ("snr", measured [1; Ropp 1] [c * (INR (2 + st') * 1); c * (INR (2 + st') * Ropp 1)]%R)], S st').
Proof.
  intros Hr. unfold make_one. cbn -[Req_EM_T rng1 INR noise_of measured].
  destruct (Req_EM_T r 0); [contradiction|]. change (Pos.to_nat 2) with 2%nat. cbn -[rng1 INR noise_of measured].
  replace (1 * 1)%R with 1 by ring. replace (Ropp 1 * 1)%R with (Ropp 1) by ring.
  assert (Hv : var [1; Ropp 1] = 1) by (rewrite var2; ring).
  destruct seed as [[|p|p]|]; cbn -[INR noise_of measured]; unfold noise_of; rewrite Hv; cbn -[INR measured]; reflexivity.
Qed.
Lemma make_single g gen s N r st name f a xc x t f' st1 : process_input s [r] = Ok [(name, f, a)] ->
  make_one g gen s N (name, f, a) st = Ok (xc, x, t, f', st1) ->
  make_signals g gen s [r] N st = Ok ([(name, (x, t, f', a))], [(f', a)], st1).
Proof. intros Hp E. unfold make_signals. rewrite Hp. cbn [bind make_all]. rewrite E. reflexivity. Qed.
(** one and the same dict, the same seed, two calls *)
Theorem drift_case : exists d1 f' a st1 d2 ds st2 x1 t1 x2 t2 f1 f2,
  let s := self1 (Some 7%Z) in
  make_signals rng1 gen1 s [RFull "cosine" (noisy 10) []] None 0%nat = Ok (d1, [(f', a)], st1) /\
  make_signals rng1 gen1 s [RFull "cosine" f' a] None st1 = Ok (d2, ds, st2) /\
  d1 = [("cosine", (x1, t1, f1, []))] /\ d2 = [("cosine", (x2, t2, f2, []))] /\ nth 0 x1 0 < nth 0 x2 0.
Proof.
  pose proof (run1 10 0%nat (Some 7%Z) ltac:(lra)) as E1. cbv zeta in E1. fold (self1 (Some 7%Z)) in E1.
  assert (Er : randn rng1 (reseed rng1 7) (length [1; Ropp 1]) = ([INR 2 * 1; INR 2 * Ropp 1]%R, 1%nat)) by reflexivity.
  assert (Hx : var [1; Ropp 1] = 1) by (rewrite var2; ring).
  assert (He : var [INR 2 * 1; INR 2 * Ropp 1]%R = 4).
  { replace [INR 2 * 1; INR 2 * Ropp 1]%R with [2; Ropp 2]; [rewrite var2; ring|]. cbn. f_equal; [ring|]. f_equal. ring. }
  assert (Hlog : 10 <> 10 * log10 4).
  { assert (log10 4 < 1); [|lra]. unfold log10. apply Rmult_lt_reg_r with (ln 10); [apply ln10_pos|].
    replace (ln 4 / ln 10 * ln 10)%R with (ln 4) by (field; pose proof ln10_pos; lra). rewrite Rmult_1_l. apply ln_increasing; lra. }
  destruct (drift rng1 gen1 (self1 (Some 7%Z)) None "cosine" (noisy 10) [] 0%nat _ _ _ _ _ 10 7%Z _ _
    ltac:(repeat constructor; cbn; intuition discriminate) eq_refl eq_refl ltac:(lra) E1 Er ltac:(lra) ltac:(lra) ltac:(rewrite He; exact Hlog)) as (Ex & f'' & st3 & E2).
  set (nz := noise_of [1; Ropp 1] [INR 2 * 1; INR 2 * Ropp 1]%R 10) in *.
  assert (Hnz : nth 0 nz 0 = sqrt (1 / Rpower 10 (10 / 10)) * (INR 2 * 1)) by (unfold nz, noise_of; rewrite Hx; reflexivity).
  assert (Hpos : 0 < nth 0 nz 0).
  { rewrite Hnz. apply Rmult_lt_0_compat; [|cbn; lra]. apply sqrt_lt_R0. apply Rdiv_lt_0_compat; [lra|apply ten_pos]. }
  do 13 eexists. cbv zeta. split; [|split; [|split; [reflexivity|split; [reflexivity|]]]].
  - eapply make_single; [|exact E1]. reflexivity.
  - eapply make_single; [|exact E2]. reflexivity.
  - unfold nz, noise_of. rewrite Hx, He. cbn [map vplus nth].
    assert (sqrt 4 = 2) as ->.
    { replace 4 with (2 * 2)%R by ring. apply sqrt_square. lra. }
    rewrite Hnz in Hpos. change (2 + 0)%nat with 2%nat. set (c := sqrt _) in *. generalize dependent c. intros. lra.
Qed.
(** seed 0: the result depends on the state of the generator *)
Theorem seed_zero : exists st st' d1 d2 ds1 ds2 st1 st2,
  let s := self1 (Some 0%Z) in let rs := [RFull "cosine" (noisy 10) []] in
  make_signals rng1 gen1 s rs None st = Ok (d1, ds1, st1) /\ make_signals rng1 gen1 s rs None st' = Ok (d2, ds2, st2) /\
  plain d1 <> plain d2.
Proof.
  exists 0%nat, 1%nat. pose proof (run1 10 0%nat (Some 0%Z) ltac:(lra)) as E1. pose proof (run1 10 1%nat (Some 0%Z) ltac:(lra)) as E2. cbv zeta in E1, E2. fold (self1 (Some 0%Z)) in E1, E2.
  do 6 eexists. cbv zeta. split; [|split].
  - eapply make_single; [|exact E1]. reflexivity.
  - eapply make_single; [|exact E2]. reflexivity.
  - unfold plain. cbn [map]. intros H. injection H as H _.
    assert (0 < sqrt (1 / Rpower 10 (10 / 10))) by (apply sqrt_lt_R0, Rdiv_lt_0_compat; [lra|apply ten_pos]).
    cbn [INR Nat.add] in H. lra.
Qed.
