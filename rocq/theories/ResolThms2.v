(** Odd lengths, scaling by formula, time resolution, and the witnesses. *)
From Coq Require Import Reals Lra Permutation.
From Verif Require Import Py Cplx CplxProofs Squeeze BinProofs Scales Freqs Buffer BufferProofs ShiftProofs Cwt
  Wavelets WaveletProofs Integral GmwOrders GmwThms GmwThms3 Resol ResolProofs ResolThms.
Local Open Scope R_scope.

(** ** five samples: the root of a negative number *)
Lemma bin_eq N k M j : (1 <= N)%nat -> (1 <= M)%nat -> bin N k = bin M j -> (k * M = j * N)%nat.
Proof.
  intros HN HM E. apply INR_eq. rewrite !mult_INR. unfold bin in E. pose proof PI_RGT_0.
  pose proof (lt_0_INR N HN). pose proof (lt_0_INR M HM).
  apply (Rmult_eq_reg_l (2 * PI)); [|lra].
  replace (2 * PI * (INR k * INR M)) with (2 * PI * INR k / INR N * (INR N * INR M)) by (field; lra).
  rewrite E. field. lra.
Qed.
Lemma bin_positive N k : (1 <= N)%nat -> (1 <= k)%nat -> 0 < bin N k.
Proof.
  intros HN Hk. pose proof PI_RGT_0. pose proof (lt_0_INR k Hk). unfold bin. apply Rdiv_lt_0_compat; [nra|]. now apply lt_0_INR.
Qed.
Definition spike (w : R) : R :=
  if Req_EM_T w (bin 1024 1) then 1 else if Req_EM_T w (bin 5 1) then 1
  else if Req_EM_T w (bin 5 2) then 1 / 3 else 0.
Definition spike_wavelet : wfun := WF (fun w => RtoC (spike w)) false NotGmw.
Lemma spike_real : real_wavelet spike_wavelet spike.
Proof. intros w. reflexivity. Qed.
Lemma spike_analytic : analytic spike.
Proof.
  intros w Hw. unfold spike.
  pose proof (bin_positive 1024 1 ltac:(lia) ltac:(lia)). pose proof (bin_positive 5 1 ltac:(lia) ltac:(lia)).
  pose proof (bin_positive 5 2 ltac:(lia) ltac:(lia)).
  destruct (Req_EM_T w (bin 1024 1)); [lra|]. destruct (Req_EM_T w (bin 5 1)); [lra|].
  destruct (Req_EM_T w (bin 5 2)); [lra|reflexivity].
Qed.
Lemma spike_1024 : spike (bin 1024 1) = 1.
Proof. unfold spike. destruct (Req_EM_T (bin 1024 1) (bin 1024 1)); [reflexivity|congruence]. Qed.
Lemma spike_other k : (2 <= k <= 512)%nat -> spike (bin 1024 k) = 0.
Proof.
  intros Hk. unfold spike.
  destruct (Req_EM_T _ _) as [E|_]; [apply bin_eq in E; lia|].
  destruct (Req_EM_T _ _) as [E|_]; [apply bin_eq in E; lia|].
  destruct (Req_EM_T _ _) as [E|_]; [apply bin_eq in E; lia|reflexivity].
Qed.
Lemma spike_5_1 : spike (bin 5 1) = 1.
Proof.
  unfold spike. destruct (Req_EM_T _ _) as [E|_]; [reflexivity|].
  destruct (Req_EM_T _ _) as [E|E]; [reflexivity|congruence].
Qed.
Lemma spike_5_2 : spike (bin 5 2) = 1 / 3.
Proof.
  unfold spike. destruct (Req_EM_T _ _) as [E|_]; [apply bin_eq in E; lia|].
  destruct (Req_EM_T _ _) as [E|_]; [apply bin_eq in E; lia|].
  destruct (Req_EM_T _ _) as [E|E]; [reflexivity|congruence].
Qed.
Lemma spike_seen : seen spike 1 1024.
Proof. exists 1%nat. split; [lia|]. rewrite Rmult_1_l. fold (bin 1024 1). rewrite spike_1024. lra. Qed.
Lemma spike_mean : spec_mean spike 1 1024 = bin 1024 1.
Proof.
  assert (W : forall u, wsum spike 1 1024 u = u (bin 1024 1)).
  { intros u. unfold wsum. change (1024 / 2)%nat with 512%nat.
    rewrite (Rsum_single 512 _ 0); [|lia|].
    - unfold bin_weight. change (2 * 1 =? 1024)%nat with false. rewrite !Rmult_1_l, spike_1024. ring.
    - intros i Hi Hne. unfold bin_weight. rewrite (Rmult_1_l (bin _ _)), spike_other by lia. ring. }
  unfold spec_mean. rewrite !W. field.
Qed.
Lemma cf_w_5 : cf_w 5 = [bin 5 2; - bin 5 2; - bin 5 1; 0; bin 5 1].
Proof.
  unfold cf_w, aifftshift, ifftshift, xifn, tab, bin. cbn [length seq map Nat.modulo Nat.div Nat.divmod fst snd
    Nat.eqb skipn firstn app Nat.sub]. unfold xi_bin. cbn [Nat.ltb Nat.leb Nat.add Nat.div Nat.divmod fst snd Z.of_nat Z.sub Z.add
    Pos.of_succ_nat Z.opp Z.pos_sub Pos.succ Pos.pred_double Z.pred_double Z.double Z.succ_double].
  simpl INR. repeat (f_equal; [lra|]). f_equal. lra.
Qed.
Lemma freq_res_five ct : freq_resolution spike_wavelet ct 1 5 false true = Ok None.
Proof.
  unfold freq_resolution. rewrite use_formula_true. cbn [bind Nat.eqb].
  rewrite (energy_even spike_wavelet spike) by (apply spike_real || apply spike_analytic || apply spike_seen || lra || reflexivity).
  cbn [bind obind]. rewrite spike_mean.
  set (c := bin 1024 1).
  assert (A : apsih2 spike_wavelet 1 5 = [1 / 9; 0; 0; 0; 1]).
  { apply (nth_ext _ _ 0 0); rewrite length_apsih2; [reflexivity|]. intros n Hn.
    rewrite (nth_apsih2 spike_wavelet spike) by (auto using spike_real). rewrite cf_w_5, Rmult_1_l.
    pose proof (bin_positive 5 1 ltac:(lia) ltac:(lia)). pose proof (bin_positive 5 2 ltac:(lia) ltac:(lia)).
    destruct n as [|[|[|[|[|n]]]]]; cbn [nth]; try lia.
    - rewrite spike_5_2. field.
    - rewrite spike_analytic by lra. ring.
    - rewrite spike_analytic by lra. ring.
    - rewrite spike_analytic by lra. ring.
    - rewrite spike_5_1. ring. }
  unfold var_w. rewrite A, cf_w_5. unfold trapzx, lmul.
  cbn [map combine length Nat.sub Rsum nth].
  assert (B2 : bin 5 2 = 2 * bin 5 1) by (unfold bin; simpl INR; field).
  assert (Bc : c = 5 / 1024 * bin 5 1).
  { unfold c, bin. change (INR 1) with 1. replace (INR 1024) with 1024 by (rewrite INR_IZR_INZ; reflexivity).
    replace (INR 5) with 5 by (rewrite INR_IZR_INZ; reflexivity). field. }
  pose proof (bin_positive 5 1 ltac:(lia) ltac:(lia)) as Hb. rewrite B2, Bc. set (b := bin 5 1) in *.
  unfold npdiv. destruct (Req_EM_T _ 0) as [Z|Z]; cbn [obind]; [reflexivity|].
  unfold npsqrt. destruct (Rlt_dec _ 0) as [L|L]; [reflexivity|]. exfalso. apply L.
  match goal with |- ?n / ?d < 0 => assert (D : 0 < d) by nra; assert (N : n < 0) end.
  - assert (0 < b ^ 3) by (apply pow_lt; exact Hb). match goal with |- ?n < 0 =>
      replace n with (b ^ 3 * (-4 * ((2 - 5 / 1024) ^ 2 * (1 / 9)) / 2 + (1 - 5 / 1024) ^ 2 / 2)) by field end.
    nra.
  - unfold Rdiv at 1. apply Rmult_lt_reg_r with (1 := D). rewrite Rmult_assoc, Rinv_l by lra. lra.
Qed.

(** ** [force_int=False] *)
Lemma force_int_ignored f inst ct scale N kind b b' :
  center_frequency f inst ct scale N kind b = center_frequency f inst ct scale N kind b'.
Proof. unfold center_frequency. destruct b as [[]|], b' as [[]|]; reflexivity. Qed.
(** [scale * wc] differs between scale 1 and scale 1024, whatever the wavelet *)
Lemma energy_not_inverse f g inst ct force (Hf : real_wavelet f g) : analytic g -> (forall w, 0 < w -> 0 < g w) ->
  exists v1 v2, center_frequency f inst ct (Some 1) 1024 KEnergy force = Ok (Some v1) /\
    center_frequency f inst ct (Some 1024) 1024 KEnergy force = Ok (Some v2) /\ 1 * v1 < 1024 * v2.
Proof.
  intros Ha Hg.
  pose proof (positive_seen g 1 1024 Hg ltac:(lra) ltac:(lia)) as S1.
  pose proof (positive_seen g 1024 1024 Hg ltac:(lra) ltac:(lia)) as S2.
  exists (spec_mean g 1 1024), (spec_mean g 1024 1024).
  split; [apply (energy_even f g); auto; lra|]. split; [apply (energy_even f g); auto; lra|].
  pose proof (mean_lt_pi g 1 1024 Hg ltac:(lra) ltac:(lia)) as B1.
  assert (B2 : 2 * PI / 1024 <= spec_mean g 1024 1024).
  { unfold spec_mean, wsum. change (1024 / 2)%nat with 512%nat.
    rewrite (Rsum_ext 512 (fun k => bin_weight g 1024 1024 (S k) * 1) (fun k => bin_weight g 1024 1024 (S k))) by (intros; ring).
    refine (proj1 (wmean_bounds 512 (fun k => bin_weight g 1024 1024 (S k)) (fun k => bin 1024 (S k)) (2 * PI / 1024) PI _ _ _)).
    - intros; apply bw_nonneg.
    - intros i Hi _. destruct (bin_bounds 1024 (S i)) as [L U]; [change (1024 / 2)%nat with 512%nat; lia|].
      split; [|exact U]. eapply Rle_trans; [|exact L]. unfold bin. change (INR 1) with 1.
      rewrite (INR_IZR_INZ 1024). change (Z.of_nat 1024) with 1024%Z. right. field.
    - pose proof (wsum_pos g 1024 1024 S2) as P. unfold wsum in P. change (1024 / 2)%nat with 512%nat in P.
      rewrite (Rsum_ext 512 _ (fun k => bin_weight g 1024 1024 (S k))) in P by (intros; ring). exact P. }
  pose proof PI_RGT_0. lra.
Qed.
(** the widths do scale *)
Lemma obind_scale (o : option R) a b v1 v2 : b <> 0 -> a <> 0 ->
  obind o (fun v => Some (v * a)) = Some v1 -> obind o (fun v => Some (v * b)) = Some v2 -> v1 / a = v2 / b.
Proof. intros Hb Ha. destruct o as [v|]; cbn; intros E1 E2; [|discriminate]. injection E1 as <-. injection E2 as <-. field. auto. Qed.
Lemma bind_ok {A B} (r : res A) (k : A -> res B) b : bind r k = Ok b -> exists a, r = Ok a /\ k a = Ok b.
Proof. destruct r; cbn; intros E; [eauto|discriminate]. Qed.
Lemma freq_res_formula f c s1 s2 N v1 v2 : 0 < c -> 0 < s1 -> 0 < s2 ->
  s1 < 4 \/ INR N / 5 < s1 -> s2 < 4 \/ INR N / 5 < s2 ->
  freq_resolution f (Ok c) s1 N false false = Ok (Some v1) ->
  freq_resolution f (Ok c) s2 N false false = Ok (Some v2) -> s1 * v1 = s2 * v2.
Proof.
  intros Hc H1 H2 F1 F2 E1 E2. unfold freq_resolution in *.
  assert (U : forall s, s < 4 \/ INR N / 5 < s -> use_formula s N false = true).
  { intros s F. unfold use_formula, Rltb'. destruct (Rlt_dec s 4); destruct (Rlt_dec (INR N / 5) s); try reflexivity. lra. }
  rewrite (U s1 F1) in E1. rewrite (U s2 F2) in E2. cbn [bind] in *.
  destruct (N =? 0)%nat; [discriminate|].
  destruct (center_frequency f true (Ok c) (Some (well_scale c)) 1024 KEnergy (Some false)) as [wce|]; [|discriminate].
  cbn [bind] in *. apply Ok_inj in E1. apply Ok_inj in E2.
  assert (W : 0 < well_scale c).
  { unfold well_scale. pose proof PI_RGT_0. apply Rmult_lt_0_compat; [apply Rdiv_lt_0_compat; lra|exact Hc]. }
  assert (well_scale c / s1 <> 0 /\ well_scale c / s2 <> 0).
  { split; apply Rgt_not_eq, Rdiv_lt_0_compat; lra. }
  pose proof (obind_scale _ _ _ _ _ (proj2 H) (proj1 H) E1 E2) as Q.
  apply (Rmult_eq_reg_l (/ well_scale c)); [|apply Rinv_neq_0_compat; lra].
  replace (/ well_scale c * (s1 * v1)) with (v1 / (well_scale c / s1)) by (field; lra).
  replace (/ well_scale c * (s2 * v2)) with (v2 / (well_scale c / s2)) by (field; lra). exact Q.
Qed.
Lemma time_res_formula f c s1 s2 N d mx mn v1 v2 : 0 < c -> 0 < s1 -> 0 < s2 ->
  s1 < 4 \/ INR N / 5 < s1 -> s2 < 4 \/ INR N / 5 < s2 ->
  time_resolution f (Ok c) s1 N d mx mn false false = Ok (Some v1) ->
  time_resolution f (Ok c) s2 N d mx mn false false = Ok (Some v2) -> v1 / s1 = v2 / s2.
Proof.
  intros Hc H1 H2 F1 F2 E1 E2. unfold time_resolution in *.
  assert (U : forall s, s < 4 \/ INR N / 5 < s -> use_formula s N false = true).
  { intros s F. unfold use_formula, Rltb'. destruct (Rlt_dec s 4); destruct (Rlt_dec (INR N / 5) s); try reflexivity. lra. }
  rewrite (U s1 F1) in E1. rewrite (U s2 F2) in E2. cbn [bind] in *.
  destruct (find_mult f (well_scale c) N d mn (S mx - mn)) as [m|]; [|discriminate].
  cbn [bind] in *. apply Ok_inj in E1. apply Ok_inj in E2.
  assert (W : 0 < well_scale c).
  { unfold well_scale. pose proof PI_RGT_0. apply Rmult_lt_0_compat; [apply Rdiv_lt_0_compat; lra|exact Hc]. }
  assert (s1 / well_scale c <> 0 /\ s2 / well_scale c <> 0).
  { split; apply Rgt_not_eq, Rdiv_lt_0_compat; lra. }
  pose proof (obind_scale _ _ _ _ _ (proj2 H) (proj1 H) E1 E2) as Q.
  apply (Rmult_eq_reg_l (well_scale c)); [|lra].
  replace (well_scale c * (v1 / s1)) with (v1 / (s1 / well_scale c)) by (field; lra).
  replace (well_scale c * (v2 / s2)) with (v2 / (s2 / well_scale c)) by (field; lra). exact Q.
Qed.

(** ** time resolution *)
Lemma lsum_Rsum l : lsum l = Rsum (length l) (fun i => nth i l 0).
Proof.
  induction l as [|y l IH]; [reflexivity|]. cbn [length]. rewrite Rsum_first.
  change (lsum (y :: l)) with (y + lsum l). rewrite IH. reflexivity.
Qed.
(** squared modulus of sample [i] of the [n]-point wavelet *)
Definition energy_at (g : R -> R) (s : R) (n i : nat) : R :=
  Cnorm2 (idft n (fun k => RtoC (halved g s n k * (-1) ^ k)) i).
(** the decay test: the largest sample exceeds [d] times the mean of the leading ones *)
Definition decayed (g : R -> R) (s : R) (n : nat) (d : R) : Prop :=
  let k := Nat.min (Nat.max 10 (n / 100)) n in
  exists i, (i < n)%nat /\ d * (Rsum k (energy_at g s n) / INR k) < energy_at g s n i.
Lemma sgn1_pow k : sgn1 k = (-1) ^ k.
Proof.
  induction k as [|k IH]; [reflexivity|]. cbn [pow]. rewrite <- IH. unfold sgn1.
  rewrite Nat.even_succ, <- Nat.negb_even. destruct (Nat.even k); cbn; ring.
Qed.
Lemma length_apsi2 f s n : length (apsi2 f s n) = n.
Proof. unfold apsi2. rewrite map_length. apply length_psifn. Qed.
Lemma nth_apsi2 f g s n i (Hf : real_wavelet f g) : (i < n)%nat -> nth i (apsi2 f s n) 0 = energy_at g s n i.
Proof.
  intros Hi. unfold apsi2. replace 0 with (Cnorm2 C0) by (unfold Cnorm2; cbn; ring). rewrite map_nth.
  rewrite (nth_psifn f g) by auto. unfold energy_at. f_equal. apply idft_ext. intros k _. now rewrite sgn1_pow.
Qed.
Lemma energy_nonneg g s n i : 0 <= energy_at g s n i.
Proof. apply Cnorm2_nonneg. Qed.
Lemma energy_sym g s n i : (1 <= i < n)%nat -> energy_at g s n (n - i) = energy_at g s n i.
Proof.
  intros Hi. unfold energy_at. rewrite idft_real_sym by lia. unfold Cnorm2, Cconj. cbn [fst snd]. ring.
Qed.
Lemma decays_iff f g s n d (Hf : real_wavelet f g) : (1 <= n)%nat -> decays (apsi2 f s n) d = true <-> decayed g s n d.
Proof.
  intros Hn. unfold decays, decayed. rewrite length_apsi2. cbv zeta.
  set (k := Nat.min (Nat.max 10 (n / 100)) n).
  assert (Hk : (1 <= k <= n)%nat) by (unfold k; lia).
  assert (M : mean (firstn (Nat.max 10 (n / 100)) (apsi2 f s n)) = Rsum k (energy_at g s n) / INR k).
  { unfold mean. rewrite firstn_length, length_apsi2. fold k. f_equal. rewrite lsum_Rsum, firstn_length, length_apsi2.
    fold k. apply Rsum_ext. intros i Hi. rewrite nth_firstn_lt by lia. apply nth_apsi2; auto. lia. }
  rewrite M. set (m := Rsum k (energy_at g s n) / INR k).
  assert (Hm : 0 <= m).
  { unfold m. apply Rmult_le_pos; [apply Rsum_nonneg; intros; apply energy_nonneg|].
    left. apply Rinv_0_lt_compat, lt_0_INR. lia. }
  assert (Hne : apsi2 f s n <> []).
  { intros Z. pose proof (length_apsi2 f s n) as L. rewrite Z in L. cbn in L. lia. }
  destruct (argmax_spec _ Hne) as (H1 & H2 & _). rewrite length_apsi2 in *. set (q := argmax (apsi2 f s n)) in *.
  rewrite (nth_apsi2 f g) by auto.
  assert (T : (exists i, (i < n)%nat /\ d * m < energy_at g s n i) <-> d * m < energy_at g s n q).
  { split; [|intros; exists q; auto]. intros (i & Hi & L). specialize (H2 i Hi).
    rewrite !(nth_apsi2 f g) in H2 by auto. lra. }
  rewrite T. unfold Rltb'. destruct (Req_EM_T m 0) as [->|Hz].
  - rewrite Rmult_0_r. destruct (Rlt_dec 0 _); split; intros; auto; try discriminate; lra.
  - assert (0 < m) by lra.
    assert (E : d < energy_at g s n q / m <-> d * m < energy_at g s n q).
    { split; intros L.
      - apply (Rmult_lt_compat_r m) in L; [|lra]. unfold Rdiv in L. rewrite Rmult_assoc, Rinv_l in L by lra. lra.
      - apply (Rmult_lt_reg_r m); [lra|]. unfold Rdiv. rewrite Rmult_assoc, Rinv_l by lra. lra. }
    rewrite <- E. destruct (Rlt_dec d _); split; intros; auto; try discriminate; contradiction.
Qed.
Lemma find_mult_spec f g s N d (Hf : real_wavelet f g) : (1 <= N)%nat -> forall left m, (1 <= m)%nat ->
  (find_mult f s N d m left = Err PlainException /\
     forall q, (m <= q < m + left)%nat -> ~ decayed g s (q * N) d) \/
  (exists mult, find_mult f s N d m left = Ok mult /\ (m <= mult < m + left)%nat /\ decayed g s (mult * N) d /\
     forall q, (m <= q < mult)%nat -> ~ decayed g s (q * N) d).
Proof.
  intros HN. induction left as [|n IH]; intros m Hm; cbn [find_mult].
  - left. split; [reflexivity|]. intros q Hq. lia.
  - replace (m * N =? 0)%nat with false by nia.
    destruct (decays (apsi2 f s (m * N)) d) eqn:E.
    + right. exists m. split; [reflexivity|]. split; [lia|]. split; [|lia].
      apply (decays_iff f g) in E; [exact E|exact Hf|nia].
    + assert (ND : ~ decayed g s (m * N) d).
      { intros Z. apply (decays_iff f g) in Z; [congruence|exact Hf|nia]. }
      destruct (IH (S m) ltac:(lia)) as [[E1 H]|(mult & E1 & H1 & H2 & H3)].
      * left. split; [exact E1|]. intros q Hq. destruct (Nat.eq_dec q m) as [->|]; [exact ND|]. apply H. lia.
      * right. exists mult. split; [exact E1|]. split; [lia|]. split; [exact H2|].
        intros q Hq. destruct (Nat.eq_dec q m) as [->|]; [exact ND|]. apply H3. lia.
Qed.
(** times relative to the centre of the [n]-point wavelet *)
Definition time_at (n i : nat) : R := INR i - INR n / 2.
Lemma nth_integration_t m N i : (i < m * N)%nat -> nth i (integration_t m N) 0 = time_at (m * N) i.
Proof. intros Hi. unfold integration_t. rewrite nth_tab by exact Hi. unfold time_at. rewrite mult_INR. lra. Qed.
Lemma first_moment_zero g s n : (1 <= n)%nat ->
  Rsum (n - 1) (fun i => time_at n (S i) * energy_at g s n (S i)) = 0.
Proof.
  intros Hn. set (S0 := Rsum _ _). assert (E : S0 = - S0); [|lra].
  unfold S0 at 1. rewrite Rsum_rev. unfold S0.
  replace (- Rsum (n - 1) (fun i => time_at n (S i) * energy_at g s n (S i)))
    with (-1 * Rsum (n - 1) (fun i => time_at n (S i) * energy_at g s n (S i))) by ring.
  rewrite <- Rsum_scal. apply Rsum_ext. intros i Hi.
  replace (S (n - 1 - 1 - i)) with (n - S i)%nat by lia.
  rewrite energy_sym by lia. unfold time_at. rewrite minus_INR by lia. field.
Qed.
Lemma trapzx_unit y t : length t = length y -> (forall i, (S i < length y)%nat -> nth (S i) t 0 - nth i t 0 = 1) ->
  trapzx y t = trapz y.
Proof. intros L H. unfold trapzx, trapz. apply Rsum_ext. intros i Hi. rewrite H by lia. field. Qed.
Lemma var_t_val f g s m N d (Hf : real_wavelet f g) : (2 <= m * N)%nat -> 0 <= d -> decayed g s (m * N) d ->
  let n := (m * N)%nat in
  let W := Rsum n (fun i => tzw n i * energy_at g s n i) in
  0 < W /\ var_t f s (integration_t m N) =
    Some (Rsum n (fun i => tzw n i * energy_at g s n i * time_at n i ^ 2) / W).
Proof.
  intros Hn Hd (q & Hq & HD). cbv zeta. set (n := (m * N)%nat) in *.
  assert (Hpos : 0 < energy_at g s n q).
  { eapply Rle_lt_trans; [|exact HD]. apply Rmult_le_pos; [exact Hd|].
    apply Rmult_le_pos; [apply Rsum_nonneg; intros; apply energy_nonneg|].
    left. apply Rinv_0_lt_compat, lt_0_INR. lia. }
  assert (W : 0 < Rsum n (fun i => tzw n i * energy_at g s n i)).
  { apply Rlt_le_trans with (tzw n q * energy_at g s n q).
    - apply Rmult_lt_0_compat; [now apply tzw_pos|exact Hpos].
    - apply (Rsum_pos_term n (fun i => tzw n i * energy_at g s n i) q Hq).
      intros i Hi. apply Rmult_le_pos; [left; now apply tzw_pos|apply energy_nonneg]. }
  split; [exact W|].
  assert (Lt : length (integration_t m N) = n) by (unfold integration_t; apply tab_length).
  unfold var_t. rewrite Lt. fold (psifn f s n). fold (apsi2 f s n).
  assert (Ht : forall i, (S i < n)%nat -> nth (S i) (integration_t m N) 0 - nth i (integration_t m N) 0 = 1).
  { intros i Hi. rewrite !nth_integration_t by (fold n; lia). unfold time_at. rewrite S_INR. lra. }
  rewrite !trapzx_unit; rewrite ?length_lmul, ?map_length, ?length_apsi2, ?Lt, ?Nat.min_id; auto.
  rewrite !trapz_weights, !length_lmul, !map_length, !length_apsi2, !Lt, !Nat.min_id.
  rewrite (Rsum_ext n (fun i => tzw n i * nth i (apsi2 f s n) 0) (fun i => tzw n i * energy_at g s n i)).
  2:{ intros i Hi. now rewrite (nth_apsi2 f g). }
  unfold npdiv. destruct (Req_EM_T _ 0) as [Z|Z]; [lra|]. do 2 f_equal. apply Rsum_ext. intros i Hi.
  rewrite nth_lmul by (rewrite ?map_length, ?length_apsi2, ?Lt; exact Hi).
  rewrite (nth_apsi2 f g) by auto. rewrite (nth_indep _ 0 (0 ^ 2)) by (rewrite map_length, Lt; exact Hi).
  rewrite (map_nth (fun x => x ^ 2)). rewrite nth_integration_t by exact Hi. fold n. ring.
Qed.
Lemma time_res_spec f g ct s N d mx mn (Hf : real_wavelet f g) : (2 <= N)%nat -> (1 <= mn)%nat -> 0 <= d ->
  (time_resolution f ct s N d mx mn true false = Err PlainException /\
     forall q, (mn <= q <= mx)%nat -> ~ decayed g s (q * N) d) \/
  (exists mult v, time_resolution f ct s N d mx mn true false = Ok (Some v) /\
     (mn <= mult <= mx)%nat /\ decayed g s (mult * N) d /\
     let n := (mult * N)%nat in
     0 <= v <= INR n / 2 /\
     v ^ 2 * Rsum n (fun i => tzw n i * energy_at g s n i) =
       Rsum n (fun i => tzw n i * energy_at g s n i * time_at n i ^ 2) /\
     0 < Rsum n (fun i => tzw n i * energy_at g s n i) /\
     Rsum (n - 1) (fun i => time_at n (S i) * energy_at g s n (S i)) = 0).
Proof.
  intros HN Hm Hd. unfold time_resolution. rewrite use_formula_true. cbn [bind].
  destruct (find_mult_spec f g s N d Hf ltac:(lia) (S mx - mn) mn Hm) as [[E H]|(mult & E & H1 & H2 & H3)]; rewrite E; cbn [bind].
  - left. split; [reflexivity|]. intros q Hq. apply H. lia.
  - right. destruct (var_t_val f g s mult N d Hf ltac:(nia) Hd H2) as [W V]. cbv zeta in *. rewrite V. cbn [obind].
    set (n := (mult * N)%nat) in *.
    assert (B : 0 <= Rsum n (fun i => tzw n i * energy_at g s n i * time_at n i ^ 2) /
                    Rsum n (fun i => tzw n i * energy_at g s n i) <= (INR n / 2) ^ 2).
    { apply (wmean_bounds n (fun i => tzw n i * energy_at g s n i) (fun i => time_at n i ^ 2)).
      - intros i Hi. apply Rmult_le_pos; [left; apply tzw_pos; unfold n in *; nia|apply energy_nonneg].
      - intros i Hi _. split; [apply sq_nonneg|]. unfold time_at. pose proof (pos_INR i). apply lt_INR in Hi. nra.
      - exact W. }
    unfold npsqrt. destruct (Rlt_dec _ 0) as [L|L]; [lra|].
    exists mult. eexists. split; [reflexivity|]. split; [lia|]. split; [exact H2|].
    cbv zeta. fold n. split; [split|].
    + apply sqrt_pos.
    + pose proof (pos_INR n). rewrite <- (sqrt_pow2 (INR n / 2)) by lra. apply sqrt_le_1_alt. lra.
    + split; [|split; [exact W|apply first_moment_zero; unfold n; nia]].
      rewrite <- Rsqr_pow2, Rsqr_sqrt by lra. field. lra.
Qed.

(** ** the default GMW *)
Lemma gmw_analytic gamma beta f : 0 < gamma -> 0 < beta -> gmw_l1 gamma beta false = Ok f ->
  analytic f /\ (forall w, 0 < w -> 0 < f w).
Proof.
  intros Hg Hb E. destruct (gmw_l1_peaks gamma beta f Hg Hb E) as (_ & _ & P & Z). split; [|exact P].
  intros w Hw. apply Z. lra.
Qed.
Lemma peak_ct_const f inst ct scale scale' N N' force : (1 <= N)%nat -> (1 <= N')%nat ->
  center_frequency f inst ct scale N KPeakCt force = center_frequency f inst ct scale' N' KPeakCt force.
Proof.
  intros HN HN'. unfold center_frequency. replace (N =? 0)%nat with false by lia. replace (N' =? 0)%nat with false by lia.
  destruct scale, scale'; reflexivity.
Qed.
Lemma gmw_default : exists g, gmw_l1 3 60 false = Ok g /\ analytic g /\ (forall w, 0 < w -> 0 < g w).
Proof.
  pose proof (gmw_l1_ok 3 60 false ltac:(lra) ltac:(lra)) as E. eexists. split; [exact E|].
  exact (gmw_analytic 3 60 _ ltac:(lra) ltac:(lra) E).
Qed.
Lemma gmw_not_inverse : exists g, gmw_l1 3 60 false = Ok g /\
  forall inst ct, exists v1 v2,
    center_frequency (WF (fun w => RtoC (g w)) false GmwL1) inst ct (Some 1) 1024 KEnergy (Some false) = Ok (Some v1) /\
    center_frequency (WF (fun w => RtoC (g w)) false GmwL1) inst ct (Some 1024) 1024 KEnergy (Some false) = Ok (Some v2) /\
    1 * v1 <> 1024 * v2.
Proof.
  destruct gmw_default as (g & E & A & P). exists g. split; [exact E|]. intros inst ct.
  destruct (energy_not_inverse (WF (fun w => RtoC (g w)) false GmwL1) g inst ct (Some false) ltac:(intros w; reflexivity) A P)
    as (v1 & v2 & E1 & E2 & L).
  exists v1, v2. split; [exact E1|]. split; [exact E2|]. lra.
Qed.
Lemma gmw_two : exists g, gmw_l1 3 60 false = Ok g /\
  forall ct, exists v, freq_resolution (WF (fun w => RtoC (g w)) false GmwL1) ct 10 2 false true = Ok (Some v) /\
    0 < v /\ spec_msd g 10 2 (spec_mean g 10 2) = 0.
Proof.
  destruct gmw_default as (g & E & A & P). exists g. split; [exact E|]. intros ct.
  apply freq_res_two; auto; [intros w; reflexivity|lra].
Qed.
Lemma odd_length : exists f g, real_wavelet f g /\ (forall w, w <= 0 -> g w = 0) /\
  (exists k, (1 <= k <= 5 / 2)%nat /\ g (1 * (2 * PI * INR k / INR 5)) <> 0) /\
  (exists k, (1 <= k <= 1024 / 2)%nat /\ g (1 * (2 * PI * INR k / INR 1024)) <> 0) /\
  forall ct, freq_resolution f ct 1 5 false true = Ok None.
Proof.
  exists spike_wavelet, spike. split; [exact spike_real|]. split; [exact spike_analytic|]. split; [|split].
  - exists 1%nat. split; [cbn; lia|]. rewrite Rmult_1_l. fold (bin 5 1). rewrite spike_5_1. lra.
  - exact spike_seen.
  - exact freq_res_five.
Qed.
Lemma formula_case : exists c : R, 0 < c /\ 0 < 3 < 4 /\ INR 1024 / 5 < 300 /\
  exists v, freq_resolution (WF (fun w => RtoC (gmw_l1_entry 3 60 (morsefreq 3 60) w)) false GmwL1) (Ok c) 3 1024 false false = Ok (Some v).
Proof.
  pose proof (gmw_l1_ok 3 60 false ltac:(lra) ltac:(lra)) as E.
  destruct (gmw_analytic 3 60 _ ltac:(lra) ltac:(lra) E) as [A P]. cbv beta iota in A, P.
  set (g := fun w => gmw_l1_entry 3 60 (morsefreq 3 60) w) in *.
  exists 1. split; [lra|]. split; [lra|]. split; [rewrite (INR_IZR_INZ 1024); change (Z.of_nat 1024) with 1024%Z; lra|].
  assert (W : 0 < well_scale 1).
  { unfold well_scale. pose proof PI_RGT_0. apply Rmult_lt_0_compat; [apply Rdiv_lt_0_compat; lra|lra]. }
  set (f := WF _ _ _). assert (Hf : real_wavelet f g) by (intros w; reflexivity).
  pose proof (positive_seen g (well_scale 1) 1024 P W ltac:(lia)) as Hn.
  unfold freq_resolution.
  replace (use_formula 3 1024 false) with true.
  2:{ unfold use_formula, Rltb'. destruct (Rlt_dec 3 4); [reflexivity|lra]. }
  cbn [bind]. change (1024 =? 0)%nat with false. cbv iota.
  rewrite (energy_even f g) by auto. cbn [bind obind]. rewrite (var_even f g) by auto. cbn [obind].
  unfold npsqrt. pose proof (msd_nonneg g (well_scale 1) 1024 (spec_mean g (well_scale 1) 1024) Hn).
  destruct (Rlt_dec _ 0); [lra|]. cbn [obind]. eexists. reflexivity.
Qed.
Lemma time_raises : exists f g, real_wavelet f g /\
  time_resolution f (Ok 1) 1 2 1000 2 2 true false = Err PlainException.
Proof.
  exists (WF (fun _ => RtoC 0) false NotGmw), (fun _ => 0).
  assert (Hf : real_wavelet (WF (fun _ => RtoC 0) false NotGmw) (fun _ => 0)) by (intros w; reflexivity).
  split; [exact Hf|].
  destruct (time_res_spec _ _ (Ok 1) 1 2 1000 2 2 Hf ltac:(lia) ltac:(lia) ltac:(lra)) as [[E _]|(m & v & _ & _ & D & _)]; [exact E|].
  exfalso. destruct D as (i & Hi & L).
  assert (Z : forall n i, energy_at (fun _ => 0) 1 n i = 0).
  { intros n q. unfold energy_at. replace (idft n _ q) with C0; [unfold Cnorm2; cbn; ring|].
    unfold idft. rewrite Csum_0; [apply C_eq; cbn; ring|]. intros k _. unfold halved.
    destruct (_ =? _)%nat; apply C_eq; cbn; unfold Rdiv; ring. }
  rewrite Z in L. rewrite Rsum_0 in L by (intros; apply Z). unfold Rdiv in L. rewrite Rmult_0_l in L. lra.
Qed.
Lemma time_returns : exists f g v, real_wavelet f g /\
  time_resolution f (Ok 1) 1 2 0 2 2 true false = Ok (Some v).
Proof.
  set (g := fun w => if Rlt_dec 0 w then 1 else 0).
  assert (Hf : real_wavelet (WF (fun w => RtoC (g w)) false NotGmw) g) by (intros w; reflexivity).
  destruct (time_res_spec _ _ (Ok 1) 1 2 0 2 2 Hf ltac:(lia) ltac:(lia) ltac:(lra)) as [[_ H]|(m & v & E & _)].
  - exfalso. apply (H 2%nat ltac:(lia)). change (2 * 2)%nat with 4%nat. exists 2%nat. split; [lia|].
    rewrite Rmult_0_l.
    assert (Q : nth 2 (psifn (WF (fun w => RtoC (g w)) false NotGmw) 1 4) C0 = RtoC (/ INR 4 * Rsum 4 (halved g 1 4))).
    { apply (psi_center _ g 1 4 Hf); [lia|reflexivity]. }
    rewrite (nth_psifn _ g) in Q by (auto; lia).
    assert (E : energy_at g 1 4 2 = (/ INR 4 * Rsum 4 (halved g 1 4)) ^ 2).
    { unfold energy_at. rewrite (idft_ext 4 _ (fun k => RtoC (halved g 1 4 k * sgn1 k))), Q.
      - unfold Cnorm2, RtoC. cbn [fst snd]. ring.
      - intros k _. now rewrite sgn1_pow. }
    rewrite E. apply sq_pos.
    assert (0 < Rsum 4 (halved g 1 4)).
    { apply Rlt_le_trans with (halved g 1 4 1).
      - unfold halved. change (2 * 1 =? 4)%nat with false. cbv iota zeta. change (xi_bin 4 1) with 1%Z.
        unfold g. destruct (Rlt_dec _ _) as [L|L]; [lra|]. exfalso. apply L. pose proof PI_RGT_0. simpl INR. lra.
      - apply (Rsum_pos_term 4 (halved g 1 4)); [lia|]. intros i _. apply halved_nonneg.
        intros w. unfold g. destruct (Rlt_dec 0 w); lra. }
    apply Rgt_not_eq, Rmult_lt_0_compat; [apply Rinv_0_lt_compat; simpl; lra|exact H0].
  - eauto.
Qed.
