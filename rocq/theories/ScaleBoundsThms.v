(** Theorems about the scale bounds. *)
From Coq Require Import Reals Lra ZifyBool ZifyNat.
From Verif Require Import Py Round Cplx CplxProofs Padding PaddingProofs Freqs ShiftProofs Squeeze BinProofs SqueezeThms3
  Scales ScaleThms Resol Search SearchProofs Wavelets WaveletProofs SearchGmw ScaleBounds ScaleBoundsProofs.
Local Open Scope R_scope.

(** ** find_min_scale *)
Lemma used_range s lim k i : s <= lim -> (i < NS)%nat -> s <= used (fargs s lim) k i <= lim.
Proof.
  intros H Hi. assert (G : s <= sample (fargs s lim) (k * NS + i)).
  { rewrite fargs_sample. pose proof (pos_INR (k * NS + i)). lra. }
  unfold used. rewrite fargs_steps. fold NS. unfold clipped, Rltb'. cbn [sa_limit fargs].
  destruct (Rlt_dec lim (lmax (inputs (fargs s lim) k))) as [L|L].
  - split; [now apply Rmin_glb|apply Rmin_r].
  - split; [auto|]. apply Rle_trans with (lmax (inputs (fargs s lim) k)); [|lra].
    assert (Hs : (0 < n_steps (fargs s lim))%Z) by (rewrite fargs_steps; lia).
    pose proof (inputs_nth (fargs s lim) Hs k i) as V. rewrite fargs_steps in V. fold NS in V. rewrite <- V by auto.
    apply lmax_ge. rewrite inputs_length by auto. rewrite fargs_steps. exact Hi.
Qed.
Lemma first_range g v s lim fuel x y : s <= lim -> first_of g v s lim fuel = Some (Ok (x, y)) -> s <= x <= lim.
Proof.
  intros H E. assert (Hs : (1 < n_steps (fargs s lim))%Z) by (rewrite fargs_steps; lia).
  destruct (find_first_ok (absf g) v (fargs s lim) Hs _ _ _ E) as (K & j & Hj & -> & _).
  rewrite fargs_steps in Hj. now apply used_range.
Qed.
Lemma peak_nonneg g fuel wp pk : peak_of g fuel = Some (Ok (wp, pk)) -> 0 <= wp /\ pk = Rabs (g wp).
Proof.
  intros E. destruct (peak_grid _ _ _ _ E) as (i0 & -> & -> & _). split; [pose proof (pos_INR i0); lra|reflexivity].
Qed.
Theorem min_side g c fuel s : find_min_scale g c fuel = Some (Ok s) ->
  exists wp, peak_of g fuel = Some (Ok (wp, Rabs (g wp))) /\
    (c <= 0 -> 0 <= s * PI <= wp) /\ (0 < c -> wp <= s * PI <= 10 * wp).
Proof.
  unfold find_min_scale. destruct (peak_of g fuel) as [[[wp pk]|]|] eqn:Ep; try discriminate. cbn [rbind].
  destruct (peak_nonneg _ _ _ _ Ep) as [W0 Ek]. intros E. exists wp. rewrite <- Ek. split; [reflexivity|].
  pose proof PI_RGT_0 as Hpi.
  destruct (Rlt_dec 0 c) as [Hc|Hc].
  - destruct (first_of _ _ wp _ fuel) as [[[x y]|]|] eqn:Ef; try discriminate. cbn [rbind] in E. injection E as <-.
    apply first_range in Ef; [|lra]. split; [lra|]. intros _. replace (x / PI * PI) with x by (field; lra). exact Ef.
  - destruct (first_of _ _ 0 _ fuel) as [[[x y]|]|] eqn:Ef; try discriminate. cbn [rbind] in E. injection E as <-.
    apply first_range in Ef; [|lra]. split; [|lra]. intros _. replace (x / PI * PI) with x by (field; lra). exact Ef.
Qed.
Lemma peak_fuel g fuel r : peak_of g fuel = Some (Ok r) -> exists k, fuel = S k.
Proof. intros E. destruct fuel; [|eauto]. unfold peak_of, find_maximum in E. rewrite default_steps in E. discriminate. Qed.
Lemma div_PI x : x / PI * PI = x.
Proof. field. apply PI_neq0. Qed.

Section Min.
Variables (g : R -> R) (p : R) (fuel : nat) (wp pk : R).
Hypotheses (HP : one_peak g p) (E : peak_of g fuel = Some (Ok (wp, pk))).
Let f := absf g.
Let Hwp := wp_pos g p fuel wp pk HP E.
Let Hpk := wp_pk g fuel wp pk E.
Let Hpk0 := pk_nonneg g fuel wp pk E.
Lemma min_left c : -1 <= c <= 0 -> wp < 10 -> f 0 <= Rabs c * pk -> exists j, first_min f (Rabs c * pk) 0 wp j /\
  find_min_scale g c fuel = Some (Ok (pt 0 wp j / PI)).
Proof.
  intros Hc Hw H0. destruct (peak_fuel _ _ _ E) as [k Ek].
  destruct (first_crosses f 1 0 wp (or_introl eq_refl) ltac:(lra) (Rabs c * pk) k) as (j & Hj & Ej).
  - fold f. lra.
  - rewrite (left_end g fuel wp pk E Hw). fold f in Hpk. rewrite <- Hpk. rewrite Rabs_left1 by lra. nra.
  - exists j. split; [exact Hj|]. unfold find_min_scale. rewrite E. cbn [rbind].
    destruct (Rlt_dec 0 c); [lra|]. unfold first_of. fold (fargs 0 wp). rewrite Ek. fold f. rewrite Ej. reflexivity.
Qed.
Lemma min_right c : 0 < c <= 1 -> f (pt wp (10 * wp) (NS - 1)) <= c * pk ->
  exists j, first_min f (c * pk) wp (10 * wp) j /\
  find_min_scale g c fuel = Some (Ok (pt wp (10 * wp) j / PI)).
Proof.
  intros Hc H0. destruct (peak_fuel _ _ _ E) as [k Ek].
  destruct (first_crosses f (-1) wp (10 * wp) (or_intror eq_refl) ltac:(lra) (c * pk) k) as (j & Hj & Ej).
  - fold f in Hpk. rewrite <- Hpk. nra.
  - lra.
  - exists j. split; [exact Hj|]. unfold find_min_scale. rewrite E. cbn [rbind].
    destruct (Rlt_dec 0 c); [|lra]. rewrite Rabs_right by lra.
    unfold first_of. fold (fargs wp (10 * wp)). rewrite Ek. fold f. rewrite Ej. reflexivity.
Qed.
Theorem min_left_near c w : -1 <= c <= 0 -> wp < 10 -> 0 <= w <= p -> f w = Rabs c * pk ->
  exists s, find_min_scale g c fuel = Some (Ok s) /\ Rabs (s * PI - w) <= 1 / 1000.
Proof.
  intros Hc Hw Hr Ew. assert (Hv : f w <= pk) by (rewrite Ew, Rabs_left1 by lra; nra).
  destruct (min_left c Hc Hw) as (j & Hj & Ej).
  - rewrite <- Ew. pose proof HP as (_ & Hu & _). destruct (Req_dec w 0) as [->|]; [lra|]. left. apply Hu; lra.
  - exists (pt 0 wp j / PI). split; [exact Ej|]. rewrite div_PI, <- (Rplus_0_r (1 / 1000)).
    apply (first_min_near f 1 0 wp 0 (or_introl eq_refl)) with (v := Rabs c * pk); auto; try lra.
    + intros i q _ _ H. rewrite Rplus_0_r in H. now apply (left_mono g p fuel wp pk).
    + rewrite (left_end g fuel wp pk E Hw). split; [lra|]. now apply (left_below g p fuel wp pk).
    + intros i Hi H. rewrite <- Ew. now apply (left_order g p fuel wp pk HP E w i).
    + intros i Hi H. rewrite <- Ew. now apply (left_order g p fuel wp pk HP E w i).
Qed.
Theorem min_right_near c w : 0 < c <= 1 -> p <= w <= Rmin (wp + 9999 / 1000) (10 * wp) -> f w = c * pk ->
  exists s, find_min_scale g c fuel = Some (Ok s) /\ Rabs (s * PI - w) <= 2 / 1000.
Proof.
  intros Hc [Hr Hr'] Ew. assert (Hv : f w <= pk) by (rewrite Ew; nra).
  assert (Hend : pt wp (10 * wp) (NS - 1) = Rmin (wp + 9999 / 1000) (10 * wp)).
  { unfold pt. f_equal. rewrite (INR_IZR_INZ (NS - 1)). replace (Z.of_nat (NS - 1)) with 9999%Z by nlia. reflexivity. }
  rewrite <- Hend in Hr'.
  destruct (min_right c Hc) as (j & Hj & Ej).
  - pose proof (proj2 (right_order g p fuel wp pk HP E w (NS - 1) Hr Hv)) as Q. fold f in Q. rewrite <- Ew. specialize (Q Hr'). lra.
  - exists (pt wp (10 * wp) j / PI). split; [exact Ej|]. rewrite div_PI. replace (2 / 1000) with (1 / 1000 + 1 / 1000) by field.
    apply (first_min_near f (-1) wp (10 * wp) (1 / 1000) (or_intror eq_refl)) with (v := c * pk); auto; try lra.
    + intros i q _ _ H. now apply (right_mono_strict g p fuel wp pk).
    + split; [|lra]. now apply (right_above g p fuel wp pk).
    + intros i Hi H. rewrite <- Ew. now apply (right_order g p fuel wp pk HP E w i).
    + intros i Hi H. rewrite <- Ew. now apply (right_order g p fuel wp pk HP E w i).
Qed.
(** the peak itself *)
Theorem min_at_peak : wp < 10 -> find_min_scale g (-1) fuel = Some (Ok (wp / PI)).
Proof.
  intros Hw. assert (A1 : Rabs (-1) = 1) by (rewrite Rabs_left by lra; lra).
  destruct (min_left (-1) ltac:(lra) Hw) as (j & Hj & Ej).
  - rewrite A1, Rmult_1_l. destruct (peak_grid _ _ _ _ E) as (i0 & W & Ek & A & _). specialize (A O ltac:(lia)).
    cbn [INR] in A. unfold f. replace (0 / 1000) with 0 in A by field. exact A.
  - rewrite Ej. do 3 f_equal. rewrite A1, Rmult_1_l in Hj.
    assert (H : Rabs (pt 0 wp j - pt 0 wp (NS - 1)) <= 0).
    { apply (first_min_hit f 1 0 wp 0) with (v := pk); auto; try lra.
      - intros i q _ _ H. rewrite Rplus_0_r in H. now apply (left_mono g p fuel wp pk).
      - rewrite (left_end g fuel wp pk E Hw). symmetry. exact Hpk. }
    rewrite (left_end g fuel wp pk E Hw) in H. unfold Rabs in H. destruct (Rcase_abs _) in H; lra.
Qed.
Theorem min_at_peak_right : 0 < pk -> find_min_scale g 1 fuel = Some (Ok (wp / PI)).
Proof.
  intros Hp. destruct (min_right 1 ltac:(lra)) as (j & Hj & Ej).
  - rewrite Rmult_1_l. assert (M : pt wp (10 * wp) 0 < pt wp (10 * wp) (NS - 1)).
    { apply Rlt_le_trans with (pt wp (10 * wp) 1); [|apply pt_mono; nlia].
      unfold pt. cbn [INR]. rewrite !Rmin_l by lra. lra. }
    apply (right_mono g p fuel wp pk HP E) in M. rewrite pt_0 in M by lra.
    rewrite Hpk. fold f in M |- *. lra.
  - rewrite Ej. do 3 f_equal. rewrite Rmult_1_l in Hj. apply first_min_0 in Hj.
    + rewrite Hj. apply pt_0. lra.
    + rewrite pt_0 by lra. symmetry. exact Hpk.
Qed.
(** a lesser cutoff of the same sign gives a greater scale *)
Theorem min_left_antitone c1 c2 : -1 <= c1 <= c2 -> c2 <= 0 -> wp < 10 -> f 0 <= Rabs c2 * pk ->
  exists s1 s2, find_min_scale g c1 fuel = Some (Ok s1) /\ find_min_scale g c2 fuel = Some (Ok s2) /\ s2 <= s1.
Proof.
  intros Hc Hc2 Hw H0. assert (V : Rabs c2 * pk <= Rabs c1 * pk) by (rewrite !Rabs_left1 by lra; nra).
  destruct (min_left c1 ltac:(lra) Hw ltac:(lra)) as (j1 & H1 & E1).
  destruct (min_left c2 ltac:(lra) Hw H0) as (j2 & H2 & E2).
  eexists _, _. split; [exact E1|]. split; [exact E2|]. pose proof PI_RGT_0.
  apply Rmult_le_compat_r; [left; now apply Rinv_0_lt_compat|].
  apply (first_min_mono f 1 0 wp (or_introl eq_refl)) with (v1 := Rabs c2 * pk) (v2 := Rabs c1 * pk); auto; try lra.
  intros i q _ _ H'. left. now apply (left_mono g p fuel wp pk).
Qed.
Theorem min_right_antitone c1 c2 : 0 < c1 <= c2 -> c2 <= 1 -> f (Rmin (wp + 9999 / 1000) (10 * wp)) <= c1 * pk ->
  exists s1 s2, find_min_scale g c1 fuel = Some (Ok s1) /\ find_min_scale g c2 fuel = Some (Ok s2) /\ s2 <= s1.
Proof.
  intros Hc Hc2 H0. assert (Hend : pt wp (10 * wp) (NS - 1) = Rmin (wp + 9999 / 1000) (10 * wp)).
  { unfold pt. f_equal. rewrite (INR_IZR_INZ (NS - 1)). replace (Z.of_nat (NS - 1)) with 9999%Z by nlia. reflexivity. }
  rewrite <- Hend in H0. assert (V : c1 * pk <= c2 * pk) by nra.
  destruct (min_right c1 ltac:(lra) ltac:(lra)) as (j1 & H1 & E1).
  destruct (min_right c2 ltac:(lra) ltac:(lra)) as (j2 & H2 & E2).
  eexists _, _. split; [exact E1|]. split; [exact E2|]. pose proof PI_RGT_0.
  apply Rmult_le_compat_r; [left; now apply Rinv_0_lt_compat|].
  apply (first_min_mono f (-1) wp (10 * wp) (or_intror eq_refl)) with (v1 := c2 * pk) (v2 := c1 * pk); auto; try lra.
  intros i q _ _ H'. now apply (right_mono g p fuel wp pk).
Qed.
(** strictly, for a wavelet vanishing at 0 *)
Theorem min_left_strict : wp < 10 -> f 0 = 0 -> 0 < pk ->
  exists s1 s2, find_min_scale g (-1) fuel = Some (Ok s1) /\ find_min_scale g (- (5 / 10)) fuel = Some (Ok s2) /\ s2 < s1.
Proof.
  intros Hw F0 P0. assert (A1 : Rabs (- (5 / 10)) = 1 / 2) by (rewrite Rabs_left by lra; lra).
  destruct (min_left (- (5 / 10)) ltac:(lra) Hw) as (j & (Hj & _ & B) & Ej); [rewrite F0, A1; lra|].
  exists (wp / PI), (pt 0 wp j / PI). split; [now apply min_at_peak|]. split; [exact Ej|]. pose proof PI_RGT_0.
  apply Rmult_lt_compat_r; [now apply Rinv_0_lt_compat|].
  destruct (left_pt g fuel wp pk E j) as [C|[_ C]]; [exfalso|lra].
  assert (J0 : (0 < j)%nat) by (destruct j; [rewrite pt_0 in C by lra; lra|lia]).
  specialize (B O J0). rewrite C, pt_0, A1 in B by lra. fold f in Hpk. rewrite <- Hpk, F0 in B.
  rewrite (Rabs_right (pk - _)), (Rabs_left1 (0 - _)) in B by lra. lra.
Qed.
End Min.

(** ** find_max_scale *)
Lemma last_where_spec (q : nat -> bool) n :
  match last_where q n with
  | Some i => (i < n)%nat /\ q i = true /\ forall k, (i < k < n)%nat -> q k = false
  | None => forall k, (k < n)%nat -> q k = false
  end.
Proof.
  induction n as [|n IH]; cbn [last_where]; [intros; lia|]. destruct (q n) eqn:Q.
  - split; [lia|]. split; [auto|]. intros k H. lia.
  - destruct (last_where q n) as [i|].
    + destruct IH as (A & B & D). split; [lia|]. split; [auto|]. intros k H.
      destruct (Nat.eq_dec k n) as [->|]; [auto|]. apply D. lia.
    + intros k H. destruct (Nat.eq_dec k n) as [->|]; [auto|]. apply IH. lia.
Qed.
Lemma first_where_spec (q : nat -> bool) n : forall s,
  match first_where q n s with
  | Some i => (s <= i < s + n)%nat /\ q i = true /\ forall k, (s <= k < i)%nat -> q k = false
  | None => forall k, (s <= k < s + n)%nat -> q k = false
  end.
Proof.
  induction n as [|n IH]; intros s; cbn [first_where]; [intros; lia|]. destruct (q s) eqn:Q.
  - split; [lia|]. split; [auto|]. intros k H. lia.
  - specialize (IH (S s)). destruct (first_where q n (S s)) as [i|].
    + destruct IH as (A & B & D). split; [lia|]. split; [auto|]. intros k H.
      destruct (Nat.eq_dec k s) as [->|]; [auto|]. apply D. lia.
    + intros k H. destruct (Nat.eq_dec k s) as [->|]; [auto|]. apply IH. lia.
Qed.
(** frequency of bin [k], in radians per sample, and the wavelet there at a scale *)
Definition omega (N k : nat) : R := 2 * PI * INR k / INR N.
Definition at_bin (g : R -> R) (scale : R) (N k : nat) : R := g (scale * omega N k).
(** [k]'s wavelet value is the first of the largest among the non-negative bins *)
Definition first_peak (F : nat -> R) (n m : nat) : Prop :=
  (m <= n)%nat /\ (forall k, (k <= n)%nat -> F k <= F m) /\ (forall k, (k < m)%nat -> F k < F m).
Lemma first_peak_unique F n m m' : first_peak F n m -> first_peak F n m' -> m = m'.
Proof.
  intros (A & B & D) (A' & B' & D'). destruct (Nat.lt_trichotomy m m') as [H|[H|H]]; [|auto|].
  - specialize (D' m H). specialize (B m' A'). lra.
  - specialize (D m' H). specialize (B' m A). lra.
Qed.

Section Max.
Variables (g : R -> R) (c : R) (N : nat).
Hypotheses (HN : (1 <= N)%nat) (Hc : 0 < c).
Let s0 := 4 / PI * c.
Let F := at_bin g s0 N.
Let psih := firstn (N / 2 + 1) (map g (map (Rmult s0) (xifn 1 N))).
Lemma half_N : (N / 2 + 1 <= N)%nat \/ N = 0%nat.
Proof. left. pose proof (Nat.div_mod N 2 ltac:(lia)). pose proof (Nat.mod_upper_bound N 2 ltac:(lia)). lia. Qed.
Lemma s0_pos : 0 < s0.
Proof. unfold s0. pose proof PI_RGT_0. apply Rmult_lt_0_compat; [|auto]. apply Rdiv_lt_0_compat; lra. Qed.
Lemma psih_length : length psih = (N / 2 + 1)%nat.
Proof. unfold psih. rewrite firstn_length, !map_length, xifn_length. destruct half_N; lia. Qed.
Lemma xi_at s k : (k <= N / 2)%nat -> nth k (xifn s N) 0 = s * omega N k.
Proof.
  intros H. destruct half_N; [|lia]. unfold xifn. rewrite nth_tab by lia. unfold xi_bin, omega.
  replace (k <? N / 2 + 1)%nat with true by lia. rewrite <- INR_IZR_INZ. field. apply not_0_INR. lia.
Qed.
Lemma psih_at k : (k <= N / 2)%nat -> nth k psih 0 = F k.
Proof.
  intros H. destruct half_N; [|lia].
  assert (Ef : forall (l : list R) n k, (k < n)%nat -> nth k (firstn n l) 0 = nth k l 0).
  { induction l as [|x l IH]; intros [|n] [|q] Hq; cbn; try lia; auto. apply IH. lia. }
  unfold psih. rewrite Ef by lia.
  rewrite map_nth_lt by (rewrite map_length, xifn_length; lia).
  rewrite map_nth_lt by (rewrite xifn_length; lia). rewrite xi_at by auto.
  unfold F, at_bin. f_equal. ring.
Qed.
Lemma psih_peak : first_peak F (N / 2) (argmax psih) /\ lmax psih = F (argmax psih).
Proof.
  assert (Ne : psih <> []) by (intros Q; pose proof psih_length as L; rewrite Q in L; cbn in L; lia).
  destruct (argmax_spec psih Ne) as (A & B & D). rewrite psih_length in *. unfold first_peak.
  assert (M : (argmax psih <= N / 2)%nat) by lia. rewrite <- !psih_at by lia.
  split; [|reflexivity]. split; [auto|]. split; intros k Hk; rewrite <- !psih_at by lia; [apply B|apply D]; lia.
Qed.
Lemma omega_pos k : (1 <= k)%nat -> 0 < omega N k.
Proof.
  intros H. unfold omega. pose proof PI_RGT_0. apply Rdiv_lt_0_compat; [|apply lt_0_INR; lia].
  apply Rmult_lt_0_compat; [lra|apply lt_0_INR; lia].
Qed.
Theorem max_scale_spec b amp s : (1 <= b <= N / 2)%nat ->
  find_max_scale g (Ok c) N (Z.of_nat b) amp = Ok (Some s) <->
  exists m i, first_peak F (N / 2) m /\ (i < m)%nat /\ s * omega N b = s0 * omega N i /\
    F i < F m * amp /\ (forall k, (i < k < m)%nat -> F m * amp <= F k).
Proof.
  intros Hb. unfold find_max_scale. cbn [bind]. fold s0. fold psih. replace (N =? 0)%nat with false by lia.
  destruct psih_peak as [P L]. rewrite L. set (m := argmax psih) in *.
  pose proof (last_where_spec (fun i => Rltb' (nth i psih 0) (F m * amp)) m) as S0.
  destruct (half_N) as [HN2|]; [|lia]. pose proof s0_pos as Hs0. pose proof (omega_pos b ltac:(lia)) as Hob.
  pose proof P as (P1 & P2 & P3).
  assert (Q : forall k, (k < m)%nat -> Rltb' (nth k psih 0) (F m * amp) = true <-> F k < F m * amp).
  { intros k Hk. rewrite psih_at by lia. unfold Rltb'. destruct (Rlt_dec _ _); split; intros; try discriminate; try contradiction; auto. }
  assert (Q' : forall k, (k < m)%nat -> Rltb' (nth k psih 0) (F m * amp) = false <-> F m * amp <= F k).
  { intros k Hk. rewrite psih_at by lia. unfold Rltb'. destruct (Rlt_dec _ _); split; intros; try discriminate; try lra; auto. }
  destruct (last_where _ m) as [i|].
  - destruct S0 as (A & B & D). unfold py_index. replace (Z.of_nat b <? 0)%Z with false by lia.
    replace (Z.of_nat N <=? Z.of_nat b)%Z with false by lia. replace (Z.of_nat b <? 0)%Z with false by lia.
    cbn [orb bind]. rewrite Nat2Z.id. rewrite !xi_at by lia.
    unfold npdiv. destruct (Req_EM_T _ 0) as [C|_]; [exfalso; nra|]. cbn [obind].
    assert (V : s0 * (s0 * omega N i / (s0 * omega N b)) * omega N b = s0 * omega N i) by (field; split; lra).
    split.
    + intros E. injection E as <-. exists m, i. split; [auto|]. split; [auto|]. split; [exact V|].
      split; [apply Q; auto|]. intros k Hk. apply Q'; [lia|]. now apply D.
    + intros (m' & i' & P' & Hi' & E' & G1 & G2). pose proof (first_peak_unique _ _ _ _ P P') as <-.
      assert (i' = i) as ->.
      { apply Q in B; [|lia]. destruct (Nat.lt_trichotomy i i') as [H|[H|H]]; [|auto|].
        - specialize (D i' ltac:(lia)). apply Q' in D; [lra|lia].
        - specialize (G2 i ltac:(lia)). lra. }
      do 2 f_equal. apply (Rmult_eq_reg_r (omega N b)); [lra|lra].
  - split; [discriminate|]. intros (m' & i' & P' & Hi' & E' & G1 & G2).
    pose proof (first_peak_unique _ _ _ _ P P') as <-. specialize (S0 i' Hi'). apply Q' in S0; [lra|auto].
Qed.
(** it raises iff nothing left of the peak is below the requested level *)
Theorem max_scale_error b amp e : (1 <= b <= N / 2)%nat ->
  find_max_scale g (Ok c) N (Z.of_nat b) amp = Err e ->
  e = IndexError /\ exists m, first_peak F (N / 2) m /\ forall k, (k < m)%nat -> F m * amp <= F k.
Proof.
  intros Hb. unfold find_max_scale. cbn [bind]. fold s0. fold psih. replace (N =? 0)%nat with false by lia.
  destruct psih_peak as [P L]. rewrite L. set (m := argmax psih) in *.
  pose proof (last_where_spec (fun i => Rltb' (nth i psih 0) (F m * amp)) m) as S0.
  destruct (half_N) as [HN2|]; [|lia]. pose proof P as (P1 & _).
  destruct (last_where _ m) as [i|].
  - unfold py_index. replace (Z.of_nat b <? 0)%Z with false by lia.
    replace (Z.of_nat N <=? Z.of_nat b)%Z with false by lia. replace (Z.of_nat b <? 0)%Z with false by lia. discriminate.
  - intros E. injection E as <-. split; [auto|]. exists m. split; [auto|]. intros k Hk. specialize (S0 k Hk).
    rewrite psih_at in S0 by lia. unfold Rltb' in S0. destruct (Rlt_dec _ _); [discriminate|lra].
Qed.
(** with [bin_amp = 1]: the bin just before the peak *)
Theorem max_scale_one b m : (1 <= b <= N / 2)%nat -> first_peak F (N / 2) m -> (1 <= m)%nat ->
  find_max_scale g (Ok c) N (Z.of_nat b) 1 = Ok (Some (s0 * INR (m - 1) / INR b)).
Proof.
  intros Hb P Hm. apply max_scale_spec; [auto|]. exists m, (m - 1)%nat. split; [auto|]. split; [lia|].
  pose proof P as (_ & _ & D). split.
  - unfold omega. field. split; apply not_0_INR; lia.
  - split; [rewrite Rmult_1_r; apply D; lia|]. intros k Hk. lia.
Qed.
Theorem max_scale_loc b1 b2 amp s1 : (1 <= b1 <= b2)%nat -> (b2 <= N / 2)%nat ->
  find_max_scale g (Ok c) N (Z.of_nat b1) amp = Ok (Some s1) ->
  0 <= s1 /\ find_max_scale g (Ok c) N (Z.of_nat b2) amp = Ok (Some (s1 * (INR b1 / INR b2))).
Proof.
  intros Hb Hb2 E. pose proof s0_pos. apply max_scale_spec in E; [|lia]. destruct E as (m & i & P & Hi & Es & G).
  assert (B1 : 0 < INR b1) by (apply lt_0_INR; lia). assert (B2 : 0 < INR b2) by (apply lt_0_INR; lia).
  assert (BN : 0 < INR N) by (apply lt_0_INR; lia). pose proof PI_RGT_0.
  split.
  - pose proof (omega_pos b1 ltac:(lia)) as O1. assert (0 <= omega N i).
    { unfold omega. pose proof (pos_INR i). unfold Rdiv. apply Rmult_le_pos; [nra|]. left. now apply Rinv_0_lt_compat. }
    apply Rnot_lt_le. intros Q. nra.
  - apply max_scale_spec; [lia|]. exists m, i. split; [auto|]. split; [auto|]. split; [|exact G].
    rewrite <- Es. unfold omega. field. lra.
Qed.
Theorem max_scale_amp b a1 a2 s1 s2 : (1 <= b <= N / 2)%nat -> (forall k, 0 <= F k) -> a1 <= a2 ->
  find_max_scale g (Ok c) N (Z.of_nat b) a1 = Ok (Some s1) ->
  find_max_scale g (Ok c) N (Z.of_nat b) a2 = Ok (Some s2) -> s1 <= s2.
Proof.
  intros Hb HF Ha E1 E2. pose proof s0_pos. apply max_scale_spec in E1; [|lia]. apply max_scale_spec in E2; [|lia].
  destruct E1 as (m & i & P & Hi & Es & G1 & G2). destruct E2 as (m' & i' & P' & Hi' & Es' & G1' & G2').
  pose proof (first_peak_unique _ _ _ _ P P') as <-.
  assert (L : (i <= i')%nat).
  { destruct (le_lt_dec i i') as [L|L]; [auto|]. specialize (G2' i ltac:(lia)). pose proof (HF m). nra. }
  apply (Rmult_le_reg_r (omega N b)); [apply omega_pos; lia|]. rewrite Es, Es'.
  apply Rmult_le_compat_l; [lra|]. unfold omega. pose proof PI_RGT_0. apply le_INR in L.
  apply Rmult_le_compat_r; [left; apply Rinv_0_lt_compat, lt_0_INR; lia|]. nra.
Qed.
(** any [bin_loc]: the scale for bin 1 divided by the signed number of the bin; bin 0: not a number *)
Theorem max_scale_any amp s1 z j : (2 <= N)%nat -> find_max_scale g (Ok c) N 1 amp = Ok (Some s1) ->
  py_index N z = Ok j -> find_max_scale g (Ok c) N z amp =
  Ok (if (xi_bin N j =? 0)%Z then None else Some (s1 / IZR (xi_bin N j))).
Proof.
  intros H2 E Ej. unfold find_max_scale in *. cbn [bind] in *. fold s0 psih in E |- *.
  destruct (Nat.eqb_spec N 0) as [|_]; [lia|].
  destruct (last_where _ _) as [i|]; [|discriminate]. rewrite Ej. cbn [bind].
  assert (H1 : (1 <= N / 2)%nat) by (apply Nat.div_le_lower_bound; lia). destruct half_N as [HN2|]; [|lia].
  assert (P1 : py_index N 1 = Ok 1%nat).
  { unfold py_index. cbn [Z.ltb Z.compare orb]. destruct (Z.leb_spec (Z.of_nat N) 1); [lia|reflexivity]. }
  rewrite P1 in E. cbn [bind] in E. rewrite (xi_at s0 1 H1) in E.
  pose proof s0_pos as Hs0. pose proof (omega_pos 1 ltac:(lia)) as O1.
  unfold npdiv in *. destruct (Req_EM_T (s0 * omega N 1) 0) as [C|_]; [exfalso; nra|]. cbn [obind] in E. injection E as <-.
  assert (Lj : (j < N)%nat).
  { unfold py_index in Ej. destruct (_ || _) eqn:B; [discriminate|]. injection Ej as <-. lia. }
  assert (Xj : nth j (xifn s0 N) 0 = IZR (xi_bin N j) * (s0 * omega N 1)).
  { unfold xifn. rewrite nth_tab by auto. unfold omega. change (INR 1) with 1. f_equal. field. apply not_0_INR. lia. }
  rewrite Xj. destruct (Z.eqb_spec (xi_bin N j) 0) as [->|Hne].
  - rewrite Rmult_0_l. destruct (Req_EM_T 0 0); [reflexivity|lra].
  - apply not_0_IZR in Hne. destruct (Req_EM_T _ 0) as [C|_].
    + exfalso. apply Rmult_integral in C as [C|C]; [lra|nra].
    + cbn [obind]. do 2 f_equal. field. repeat split; nra.
Qed.
End Max.
