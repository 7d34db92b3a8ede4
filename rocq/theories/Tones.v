(** [sine], [cosine], [cos_f], [sin_f], and the frequencies [jumps] and [packed] choose. *)
From Coq Require Import Reals Lra Lia ZifyBool ZifyNat.
From Verif Require Import Py Round Cplx CplxProofs Squeeze SqueezeProofs Scales Search SearchProofs Chirp ChirpProofs CwtTone Signals SignalsThms SignalsThms2 SignalsThms3.
Local Open Scope R_scope.

(** the [N] that [sine] and [cosine] use *)
Definition own_N (s : tself) (N : option Z) : Z := match N with Some n => n | None => ts_N s end.

Theorem tone_samples g s N f phi0 k : let n := own_N s N in
  ((n < 0)%Z -> Signals.tone g s N f phi0 k = Err ValueError) /\
  ((0 <= n)%Z -> exists x t, Signals.tone g s N f phi0 k = Ok (x, t) /\ length x = Z.to_nat n /\ length t = Z.to_nat n /\
    (forall j, (j < Z.to_nat n)%nat -> nth j x 0 = g (2 * PI * f * nth j t 0 + phi0)) /\
    (k_end k <> Some true -> forall j, (j < Z.to_nat n)%nat -> nth j t 0 = kw_tmin s k + INR j * ((kw_tmax s k - kw_tmin s k) / IZR n)) /\
    (k_end k = Some true -> (2 <= n)%Z -> nth 0 t 0 = kw_tmin s k /\ nth (Z.to_nat n - 1) t 0 = kw_tmax s k)).
Proof.
  intros n.
  assert (Et : Signals.tone g s N f phi0 k = (do t <- times (kw_tmin s k) (kw_tmax s k) n (or_default (k_end k) false);
    Ok (map (fun t => g (2 * PI * f * t + phi0)) t, t))).
  { unfold Signals.tone, process_params, open_end. cbn [k_tmin k_tmax k_end or_default].
    unfold n, own_N, kw_tmin, kw_tmax. destruct N; cbn [bind]; destruct (times _ _ _ _); reflexivity. }
  rewrite Et. clear Et. split.
  - intros H. unfold times. destruct (Z.ltb_spec n 0); [reflexivity|lia].
  - intros H. set (e := or_default (k_end k) false).
    assert (exists t, times (kw_tmin s k) (kw_tmax s k) n e = Ok t) as (t & E).
    { unfold times. destruct (Z.ltb_spec n 0); [lia|]. eauto. }
    rewrite E. cbn [bind]. destruct (times_spec _ _ _ _ _ E) as (_ & Hl & Hv & H0).
    eexists _, t. split; [reflexivity|]. split; [now rewrite map_length|]. split; [exact Hl|]. split; [|split].
    + intros j Hj. rewrite (nth_map0 _ _ j 0) by lia. reflexivity.
    + intros He j Hj. assert (e = false) by (unfold e; destruct (k_end k) as [[]|]; [now elim He|reflexivity|reflexivity]).
      unfold times in E. rewrite H1 in E. destruct (Z.ltb_spec n 0); [lia|]. injection E as <-. now rewrite nth_tab.
    + intros He H2. split; [apply H0; lia|]. rewrite Hv by lia. unfold step, e. rewrite He. cbn [or_default].
      rewrite INR_IZR_INZ. replace (Z.of_nat (Z.to_nat n - 1)) with (n - 1)%Z by lia.
      assert (0 < IZR (n - 1)) by (apply IZR_lt; lia). field. lra.
Qed.

Lemma cos_turns x m : cos (x + 2 * PI * IZR m) = cos x.
Proof.
  destruct m as [|p|p].
  - now replace (x + 2 * PI * 0) with x by ring.
  - replace (IZR (Zpos p)) with (INR (Pos.to_nat p)) by (rewrite INR_IZR_INZ; f_equal; lia).
    replace (x + 2 * PI * INR (Pos.to_nat p)) with (x + 2 * INR (Pos.to_nat p) * PI) by ring. apply cos_period.
  - replace (IZR (Zneg p)) with (- INR (Pos.to_nat p)) by (rewrite INR_IZR_INZ, <- opp_IZR; f_equal; lia).
    rewrite <- (cos_period (x + 2 * PI * - INR (Pos.to_nat p)) (Pos.to_nat p)). f_equal. ring.
Qed.
Lemma sin_turns x m : sin (x + 2 * PI * IZR m) = sin x.
Proof. rewrite <- !cos_shift. replace (PI / 2 - (x + 2 * PI * IZR m)) with (PI / 2 - x + 2 * PI * IZR (- m)) by (rewrite opp_IZR; ring). apply cos_turns. Qed.

(** [m] periods in the time range, the end point left out: the tone of exactly [m] periods *)
Theorem cosine_whole s N f phi0 k m n : own_N s N = Z.of_nat n -> (0 < n)%nat -> k_end k <> Some true ->
  f * (kw_tmax s k - kw_tmin s k) = INR m ->
  exists t, Signals.tone cos s N f phi0 k = Ok (CwtTone.tone 1 (2 * PI * f * kw_tmin s k + phi0) m n, t).
Proof.
  intros HN Hn He Hm. destruct (proj2 (tone_samples cos s N f phi0 k) ltac:(rewrite HN; lia)) as (x & t & E & Hx & Ht & Hv & Ho & _).
  rewrite HN, Nat2Z.id in *. exists t. rewrite E. repeat f_equal.
  apply (nth_ext _ _ 0 0). { now rewrite CwtTone.tone_length. }
  intros j Hj. rewrite Hx in Hj. rewrite Hv by exact Hj. rewrite (Ho He) by exact Hj. unfold CwtTone.tone. rewrite nth_tab by exact Hj.
  rewrite Rmult_1_l. f_equal. rewrite <- Hm, INR_IZR_INZ, <- (INR_IZR_INZ n). rewrite <- !INR_IZR_INZ.
  assert (0 < INR n) by (apply lt_0_INR; lia). field. lra.
Qed.
(** with the end point the first sample comes twice *)
Theorem closed_twice g s N f phi0 k m x t : (g = cos \/ g = sin) -> (2 <= own_N s N)%Z -> k_end k = Some true ->
  f * (kw_tmax s k - kw_tmin s k) = IZR m -> Signals.tone g s N f phi0 k = Ok (x, t) ->
  nth (length x - 1) x 0 = nth 0 x 0.
Proof.
  intros Hg H2 He Hm E. destruct (proj2 (tone_samples g s N f phi0 k) ltac:(lia)) as (x' & t' & E' & Hx & Ht & Hv & _ & Hc).
  rewrite E in E'. injection E' as <- <-. destruct (Hc He H2) as (T0 & T1).
  rewrite Hx, !Hv by lia. rewrite T0, T1.
  replace (2 * PI * f * kw_tmax s k + phi0) with (2 * PI * f * kw_tmin s k + phi0 + 2 * PI * IZR m) by (rewrite <- Hm; ring).
  destruct Hg as [-> | ->]; [apply cos_turns|apply sin_turns].
Qed.
(** a quarter turn makes a cosine of a sine *)
Theorem sine_cosine s N f phi0 k : Signals.tone sin s N f (phi0 + PI / 2) k = Signals.tone cos s N f phi0 k.
Proof.
  unfold Signals.tone. destruct (process_params _ _ _ _) as [[[[t ?] ?] ?]|]; [|reflexivity]. cbn [bind]. f_equal. f_equal.
  apply map_ext. intros u. rewrite <- (sin_shift (2 * PI * f * u + phi0)).
  rewrite <- sin_PI_x. f_equal. lra.
Qed.

(** ** [cos_f], [sin_f] *)
Lemma tones_loop g N phi e freqs i : (0 <= N)%Z -> exists x,
  fold_right (fun '(i, f) r => do t <- times (INR i) (INR i + 1) N e; do r <- r; Ok (map (fun t => g (2 * PI * f * (t + phi))) t ++ r))
             (Ok []) (combine (seq i (length freqs)) freqs) = Ok x /\
  length x = (length freqs * Z.to_nat N)%nat /\
  forall q j, (q < length freqs)%nat -> (j < Z.to_nat N)%nat -> exists t, times (INR (i + q)) (INR (i + q) + 1) N e = Ok t /\
    nth (q * Z.to_nat N + j) x 0 = g (2 * PI * nth q freqs 0 * (nth j t 0 + phi)).
Proof.
  intros HN. revert i. induction freqs as [|f freqs IH]; intros i.
  { exists []. cbn. split; [reflexivity|]. split; [reflexivity|]. intros; lia. }
  cbn [length seq combine fold_right]. destruct (IH (S i)) as (x & E & Hl & Hv). rewrite E.
  assert (exists t, times (INR i) (INR i + 1) N e = Ok t) as (t & Et).
  { unfold times. destruct (Z.ltb_spec N 0); [lia|]. eauto. }
  rewrite Et. cbn [bind]. destruct (times_spec _ _ _ _ _ Et) as (_ & Lt & _).
  eexists. split; [reflexivity|]. split; [rewrite app_length, map_length; lia|].
  intros [|q] j Hq Hj.
  - exists t. rewrite Nat.add_0_r. split; [exact Et|]. cbn [Nat.mul Nat.add nth]. rewrite app_nth1 by (rewrite map_length; lia).
    rewrite (nth_map0 _ _ j 0) by lia. reflexivity.
  - destruct (Hv q j ltac:(lia) Hj) as (t' & Et' & V). exists t'. rewrite <- Nat.add_succ_comm in *. split; [exact Et'|].
    rewrite app_nth2 by (rewrite map_length; lia). rewrite map_length, Lt.
    replace (S q * Z.to_nat N + j - Z.to_nat N)%nat with (q * Z.to_nat N + j)%nat by lia. exact V.
Qed.
Theorem tones_f_samples g freqs N phi e :
  (freqs = [] \/ (N < 0)%Z -> tones_f g freqs N phi e = Err ValueError) /\
  (freqs <> [] -> (0 <= N)%Z -> exists x, tones_f g freqs N phi e = Ok x /\ length x = (length freqs * Z.to_nat N)%nat /\
    forall q j, (q < length freqs)%nat -> (j < Z.to_nat N)%nat -> (e = true -> (2 <= N)%Z) ->
      nth (q * Z.to_nat N + j) x 0 = g (2 * PI * nth q freqs 0 * (INR q + INR j / IZR (if e then N - 1 else N) + phi))).
Proof.
  split.
  - intros H. unfold tones_f. destruct freqs as [|f freqs]; [reflexivity|]. destruct H as [H|H]; [discriminate|].
    cbn [length seq combine fold_right Nat.eqb]. unfold times at 1. destruct (Z.ltb_spec N 0); [reflexivity|lia].
  - intros Hf HN. unfold tones_f. destruct (Nat.eqb_spec (length freqs) 0) as [H0|_]; [destruct freqs; [now elim Hf|discriminate]|].
    destruct (tones_loop g N phi e freqs 0 HN) as (x & E & Hl & Hv). exists x. split; [exact E|]. split; [exact Hl|].
    intros q j Hq Hj He. destruct (Hv q j Hq Hj) as (t & Et & V). rewrite V. cbn [Nat.add] in Et.
    assert (nth j t 0 = INR q + INR j / IZR (if e then N - 1 else N)) as ->; [|reflexivity].
    destruct e.
    + destruct (times_spec _ _ _ _ _ Et) as (_ & Lt & Ht & _). rewrite Ht by (try apply He; try reflexivity; lia). unfold step.
      replace (INR q + 1 - INR q) with 1 by ring. unfold Rdiv. ring.
    + unfold times in Et. destruct (Z.ltb_spec N 0); [lia|]. injection Et as <-. rewrite nth_tab by exact Hj.
      replace (INR q + 1 - INR q) with 1 by ring. unfold Rdiv. ring.
Qed.
(** whole frequencies: every segment is its tone of [m] periods, starting at the same phase *)
Theorem cos_f_whole freqs ms n phi : freqs = map INR ms -> ms <> [] -> (0 < n)%nat ->
  exists x, tones_f cos freqs (Z.of_nat n) phi false = Ok x /\ length x = (length ms * n)%nat /\
  forall q j, (q < length ms)%nat -> (j < n)%nat ->
    nth (q * n + j) x 0 = nth j (CwtTone.tone 1 (2 * PI * INR (nth q ms 0%nat) * phi) (nth q ms 0%nat) n) 0.
Proof.
  intros -> Hm Hn. destruct (proj2 (tones_f_samples cos (map INR ms) (Z.of_nat n) phi false)) as (x & E & Hl & Hv);
    [intros H; apply Hm; destruct ms; [reflexivity|discriminate]|lia|].
  rewrite map_length, Nat2Z.id in *. exists x. split; [exact E|]. split; [exact Hl|].
  intros q j Hq Hj. rewrite Hv by (try exact Hq; try exact Hj; discriminate).
  replace (nth q (map INR ms) 0) with (INR (nth q ms 0%nat)) by (symmetry; apply (map_nth INR ms 0%nat q)).
  unfold CwtTone.tone. rewrite nth_tab by exact Hj. set (m := nth q ms 0%nat).
  rewrite Rmult_1_l. rewrite <- INR_IZR_INZ. symmetry. rewrite <- (cos_turns _ (Z.of_nat (m * q))). f_equal.
  rewrite <- INR_IZR_INZ, mult_INR. assert (0 < INR n) by (apply lt_0_INR; lia). field. lra.
Qed.

(** ** frequencies chosen by [jumps] and [packed] *)
(** [f] is at most half the sampling rate of a time vector of constant step *)
Definition below_nyquist (f : R) (t : list R) : Prop := Rabs f * (nth 1 t 0 - nth 0 t 0) <= 1 / 2.

Theorem jumps_default s N k x t : kw_tmin s k = 0 -> 0 <= kw_tmax s k <= 1 -> kw_end s k = false -> (8 <= or_N s N)%Z ->
  jumps s N None k = Ok (x, t) ->
  let M := (or_N s N / 4)%Z in
  exists fs, fs = [1; IZR M / 4; IZR M / 2; IZR M / 16] /\ Forall (fun f => below_nyquist f t) fs /\
  forall i j, (i < 4)%nat -> (Z.of_nat j < M)%Z ->
    nth (i * Z.to_nat M + j) x 0 = cos (2 * PI * nth i fs 0 * nth (i * Z.to_nat M + j) t 0).
Proof.
  intros H0 H1 He HN E M. destruct (jumps_shape _ _ _ _ _ _ E) as (_ & _ & _ & _ & V). cbn [n_freqs] in V. change (Z.of_nat 4) with 4%Z in V. fold M in V.
  eexists. split; [reflexivity|]. split; [|exact V].
  pose proof (jumps_times _ _ _ _ _ _ H0 He E) as T. cbn [n_freqs] in T. change (Z.of_nat 4) with 4%Z in T. fold M in T.
  assert (HM : (2 <= M)%Z) by (unfold M; apply Z.div_le_lower_bound; lia).
  pose proof (T 0%nat 0%nat ltac:(lia) ltac:(lia) ltac:(lia)) as T0. pose proof (T 0%nat 1%nat ltac:(lia) ltac:(lia) ltac:(lia)) as T1.
  cbn [Nat.mul Nat.add INR] in T0, T1. clearbody M. apply IZR_le in HM.
  assert (D : nth 1 t 0 - nth 0 t 0 = kw_tmax s k * / IZR M) by (rewrite T0, T1; unfold Rdiv; ring).
  assert (Hi : 0 < / IZR M) by (apply Rinv_0_lt_compat; lra). assert (Hii : IZR M * / IZR M = 1) by (apply Rinv_r; lra).
  set (u := / IZR M) in *. assert (Hu : u <= 1 / 2) by nra.
  repeat (apply Forall_cons; [unfold below_nyquist; rewrite D, Rabs_right by lra; nra|]); apply Forall_nil.
Qed.
(** with the default time vector the third frequency is above it *)
Theorem jumps_default_alias : exists x t, jumps ts0 (Some 16%Z) None (TK None None None) = Ok (x, t) /\
  ~ below_nyquist (nth 2 [1; IZR (16 / 4) / 4; IZR (16 / 4) / 2; IZR (16 / 4) / 16] 0) t.
Proof.
  destruct (jumps ts0 (Some 16%Z) None (TK None None None)) as [[x t]|] eqn:E; [|discriminate]. exists x, t. split; [reflexivity|].
  injection E as _ <-. unfold below_nyquist. change (16 / 4)%Z with 4%Z. cbn [nth]. unfold linspace.
  change (Z.to_nat (16 / 4 * 4)) with 16%nat. rewrite !nth_tab by lia. cbn [Nat.eqb Nat.sub]. rewrite Rabs_right by lra.
  change (d_tmin (ts_tkw ts0)) with 0. change (d_tmax (ts_tkw ts0)) with 1. rewrite !INR_IZR_INZ. cbn. change (Pos.to_nat 16) with 16%nat. cbn. lra.
Qed.

Lemma packed_t s N freqs overlap k x t : packed s N freqs overlap k = Ok (x, t) ->
  times (kw_tmin s k) (kw_tmax s k) (or_N s N) (kw_end s k) = Ok t.
Proof.
  intros E. unfold packed, process_params in E. fold (kw_tmin s k) (kw_tmax s k) (kw_end s k) in E. cbn [bind] in E.
  destruct (times _ _ _ _) as [t0|]; [|discriminate]. cbn [bind] in E. injection E as _ E2. f_equal. exact E2.
Qed.
Theorem packed_default s N overlap k x t : 0 <= kw_tmax s k - kw_tmin s k <= 1 -> (8 <= or_N s N)%Z ->
  packed s N None overlap k = Ok (x, t) ->
  let n := IZR (or_N s N) in let No := py_int (overlap * n) in
  exists fs, fs = [1 / 2; 1; 2; n / 10; 12 * n / 100; 14 * n / 100; n / 5; n / 4; n / 3; 13 * n / 30] /\ Forall (fun f => below_nyquist f t) fs /\
  ((0 < No)%Z -> length x = length t /\
   forall j, (j < length t)%nat -> nth j x 0 = Rsum 10 (fun i => if covers (length t) No i j then cos (2 * PI * nth i fs 0 * nth j t 0) else 0)).
Proof.
  intros H1 HN E n No.
  pose proof (packed_t _ _ _ _ _ _ _ E) as Et.
  destruct (times_spec _ _ _ _ _ Et) as (_ & Hl & Hv & _).
  assert (EF : packed_freqs (or_N s N) None = [1 / 2; 1; 2; n / 10; 12 * n / 100; 14 * n / 100; n / 5; n / 4; n / 3; 13 * n / 30]).
  { unfold packed_freqs. cbn [or_default]. fold n. repeat (apply f_equal2; [lra|]). reflexivity. }
  eexists. split; [reflexivity|]. split.
  - pose proof (Hv 0%nat ltac:(lia) ltac:(lia)) as T0. pose proof (Hv 1%nat ltac:(lia) ltac:(lia)) as T1. cbn [INR] in T0, T1.
    assert (D : nth 1 t 0 - nth 0 t 0 = step (kw_tmin s k) (kw_tmax s k) (or_N s N) (kw_end s k)) by (rewrite T0, T1; ring).
    assert (Hn : 8 <= n) by (unfold n; apply IZR_le in HN; lra).
    assert (Hs : 0 <= step (kw_tmin s k) (kw_tmax s k) (or_N s N) (kw_end s k) <= / (n - 1)).
    { unfold step. assert (Hd : n - 1 <= IZR (if kw_end s k then or_N s N - 1 else or_N s N)) by (unfold n; destruct (kw_end s k); rewrite ?minus_IZR; lra).
      set (d := IZR (if kw_end s k then _ else _)) in *. set (w := kw_tmax s k - kw_tmin s k) in *.
      assert (0 < / d) by (apply Rinv_0_lt_compat; lra). assert (/ d <= / (n - 1)) by (apply Rinv_le_contravar; lra).
      unfold Rdiv. split; [nra|]. nra. }
    rewrite <- D in Hs. set (u := nth 1 t 0 - nth 0 t 0) in *.
    assert (Hu : u * (n - 1) <= 1). { assert (/ (n - 1) * (n - 1) = 1) by (apply Rinv_l; lra). nra. }
    assert (B : forall f, 0 <= f -> f * u <= 1 / 2 -> below_nyquist f t) by (intros f F0 F1; unfold below_nyquist; now rewrite Rabs_right by lra).
    clear - B Hn Hs Hu. clearbody u n.
    repeat (apply Forall_cons; [apply B; [lra|nra]|]); apply Forall_nil.
  - intros HNo. rewrite <- EF. pose proof (packed_spec _ _ _ _ _ _ _ E) as V. cbv zeta in V.
    replace (INR (length t)) with n in V by (unfold n; rewrite INR_IZR_INZ, Hl, Z2Nat.id by lia; reflexivity). fold No in V.
    rewrite EF in V |- *. exact (V HNo).
Qed.
