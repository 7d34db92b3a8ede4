(** [icwt] after [cwt] as a filter, for every signal. *)
From Coq Require Import Reals Lra ZifyBool ZifyNat.
From Verif Require Import Py Round Cplx CplxProofs Padding PaddingProofs Buffer Freqs Squeeze Scales IssqProofs Cwt CwtProofs CwtThms CwtThms2 CwtTone
  SsqCwt SsqCwtProofs SsqCwtInv.
Local Open Scope R_scope.

(** ** Specification: the filter's response *)
(** the wavelets at frequency [xi] (radians per sample), summed over the scales *)
Definition bank (f : wfun) (sc : list R) (xi : R) : R :=
  Rsum (length sc) (fun i => Re (wf f (nth i sc 0 * xi))).
(** bins [k] and [n - k] are one frequency; at the Nyquist bin they coincide *)
Definition bin_xi (n k : nat) : R := 2 * PI * INR (Nat.min k (n - k)) / INR n.
Definition rt_gain (f : wfun) (sc : list R) (nv : Z) (Css : R) (n k : nat) : R :=
  (if (2 * k =? n)%nat then bank f sc (bin_xi n k) else bank f sc (bin_xi n k) + bank f sc (- bin_xi n k))
  * (ln 2 / IZR nv / Css).
(** the signal with bin [k] of its DFT multiplied by [H k] *)
Definition filtered (H : nat -> R) (x : list R) (j : nat) : R :=
  let n := length x in Re (idft n (fun k => Cmul (RtoC (H k)) (dft n (fun m => RtoC (nth m x 0)) k)) j).

(** ** Reindexing *)
Lemma Csum_mirror n F : Csum n F = Csum n (fun k => F ((n - k) mod n)%nat).
Proof.
  destruct n as [|n]; [reflexivity|]. rewrite !Csum_first. f_equal.
  - f_equal. rewrite Nat.sub_0_r, Nat.mod_same by lia. reflexivity.
  - rewrite Csum_rev. apply Csum_ext. intros i Hi. f_equal. rewrite Nat.mod_small by lia. lia.
Qed.
Lemma dft_real_mirror n (x : nat -> R) k : (k < n)%nat ->
  Cconj (dft n (fun m => RtoC (x m)) ((n - k) mod n)) = dft n (fun m => RtoC (x m)) k.
Proof.
  intros Hk. destruct k as [|k].
  - rewrite Nat.sub_0_r, Nat.mod_same by lia. symmetry. pose proof (dft_real_0 n ltac:(lia) x) as H0.
    apply C_eq; cbn [Cconj fst snd]; [reflexivity|]. unfold Im in H0. rewrite H0. ring.
  - rewrite Nat.mod_small by lia. rewrite dft_real_sym by lia. apply Cconj_invol.
Qed.
Lemma Re_mirror n (c : nat -> R) (x : nat -> R) m : (0 < n)%nat ->
  Re (idft n (fun k => Cmul (RtoC (c k)) (dft n (fun m => RtoC (x m)) k)) m) =
  Re (idft n (fun k => Cmul (RtoC (c ((n - k) mod n)%nat)) (dft n (fun m => RtoC (x m)) k)) m).
Proof.
  intros Hn. rewrite <- Re_conj. f_equal. unfold idft. rewrite Cconj_mul, Cconj_RtoC. f_equal.
  rewrite Csum_conj, Csum_mirror. apply Csum_ext. intros k Hk.
  rewrite !Cconj_mul, Cconj_RtoC, dft_real_mirror by exact Hk. f_equal. rewrite <- tw_opp by lia.
  rewrite <- (tw_mod n ltac:(lia) (Z.of_nat k * Z.of_nat m)), <- (tw_mod n ltac:(lia) (- _)). f_equal.
  rewrite Nat2Z.inj_mod, Nat2Z.inj_sub by lia. rewrite <- Z.mul_opp_l.
  rewrite <- (Z.mul_mod_idemp_l (- _)) by lia. rewrite <- (Z.mul_mod_idemp_l (Z.of_nat k)) by lia. f_equal. f_equal.
  replace (- ((Z.of_nat n - Z.of_nat k) mod Z.of_nat n))%Z with
    (Z.of_nat k + (- 1 + (Z.of_nat n - Z.of_nat k) / Z.of_nat n) * Z.of_nat n)%Z.
  - apply Z_mod_plus_full.
  - pose proof (Z.div_mod (Z.of_nat n - Z.of_nat k) (Z.of_nat n) ltac:(lia)). lia.
Qed.
Lemma Re_idft_add n X Y m : Re (idft n (fun k => Cadd (X k) (Y k)) m) = Re (idft n X m) + Re (idft n Y m).
Proof. rewrite idft_add. reflexivity. Qed.
Lemma Re_fold n c (x : nat -> R) m : (0 < n)%nat ->
  2 * Re (idft n (fun k => Cmul (RtoC (c k)) (dft n (fun m => RtoC (x m)) k)) m) =
  Re (idft n (fun k => Cmul (RtoC (c k + c ((n - k) mod n)%nat)) (dft n (fun m => RtoC (x m)) k)) m).
Proof.
  intros Hn. replace (2 * Re _) with (Re (idft n (fun k => Cmul (RtoC (c k)) (dft n (fun m => RtoC (x m)) k)) m) +
    Re (idft n (fun k => Cmul (RtoC (c ((n - k) mod n)%nat)) (dft n (fun m => RtoC (x m)) k)) m)) by (rewrite <- (Re_mirror n c) by exact Hn; ring).
  rewrite <- Re_idft_add. f_equal. apply idft_ext. intros k Hk. apply C_eq; cbn; ring.
Qed.

(** ** The wavelets over DFT bins *)
Lemma psih_real f s n k : real_valued f -> psih_val f s n false k = RtoC (Re (psih_val f s n false k)).
Proof.
  intros Hr. unfold psih_val. assert (Hi : Im (wf f (s * nth k (xifn 1 n) 0)) = 0) by apply Hr. unfold Im in Hi.
  destruct (negb false && _ && _); apply C_eq; unfold Re; cbn [RtoC Cmul fst snd]; try reflexivity; rewrite Hi; ring.
Qed.
Lemma div2_spec n : (n / 2 * 2 <= n < n / 2 * 2 + 2)%nat.
Proof. pose proof (Nat.div_mod n 2 ltac:(lia)). pose proof (Nat.mod_upper_bound n 2 ltac:(lia)). lia. Qed.
Lemma psih_fold f s n k : (k < n)%nat ->
  Re (psih_val f s n false k) + Re (psih_val f s n false ((n - k) mod n)) =
  if (2 * k =? n)%nat then Re (wf f (s * bin_xi n k)) else Re (wf f (s * bin_xi n k)) + Re (wf f (s * - bin_xi n k)).
Proof.
  intros Hk. pose proof (div2_spec n) as Hd. unfold psih_val. cbn [negb andb].
  assert (Em : (n mod 2 = n - n / 2 * 2)%nat) by (pose proof (Nat.div_mod n 2 ltac:(lia)); lia).
  destruct (Nat.eq_dec k 0) as [->|Hk0].
  { rewrite Nat.sub_0_r, Nat.mod_same by lia. destruct (Nat.eqb_spec (2 * 0) n); [lia|].
    rewrite xi_low by lia. unfold bin_xi. cbn [Nat.min]. replace (2 * PI * INR 0 / INR n) with 0 by (cbn; unfold Rdiv; ring).
    rewrite Ropp_0. destruct (Nat.eqb_spec (n mod 2) 0), (Nat.eqb_spec 0 (n / 2)); cbn [andb]; try reflexivity; lia. }
  rewrite (Nat.mod_small (n - k)) by lia. unfold bin_xi.
  destruct (Nat.eqb_spec (2 * k) n) as [E|E].
  - replace (n - k)%nat with k by lia. rewrite Nat.min_id. replace (n / 2)%nat with k by lia. rewrite Nat.eqb_refl.
    destruct (Nat.eqb_spec (n mod 2) 0); [|lia]. cbn [andb]. rewrite xi_low by lia. unfold Re, Cmul, RtoC. cbn [fst snd]. field.
  - assert (N1 : forall q, (2 * q <> n)%nat -> (n mod 2 =? 0)%nat && (q =? n / 2)%nat = false).
    { intros q Hq. destruct (Nat.eqb_spec (n mod 2) 0), (Nat.eqb_spec q (n / 2)); cbn [andb]; try reflexivity. lia. }
    rewrite !N1 by lia. destruct (Nat.lt_ge_cases (2 * k) n) as [Hlt|Hge].
    + rewrite Nat.min_l by lia. rewrite xi_low, xi_high by lia. reflexivity.
    + rewrite Nat.min_r by lia. replace (nth k (xifn 1 n) 0) with (nth (n - (n - k)) (xifn 1 n) 0) by (f_equal; lia).
      rewrite xi_high, xi_low by lia. ring.
Qed.

Lemma bank_sum f sc n (x : list R) j : real_valued f -> length x = n -> (0 < n)%nat ->
  Rsum (length sc) (fun i => Re (row_val f (nth i sc 0) x j)) =
  Re (idft n (fun k => Cmul (RtoC (Rsum (length sc) (fun i => Re (psih_val f (nth i sc 0) n false k)))) (sig_dft x k)) j).
Proof.
  intros Hr Hx Hn. subst n. unfold row_val. generalize (length sc) as L. induction L as [|L IH]; cbn [Rsum].
  - symmetry. rewrite (idft_ext _ _ (fun k => Cmul C0 (sig_dft x k))) by (intros; reflexivity). rewrite idft_scal. cbn. ring.
  - rewrite IH, <- Re_idft_add. f_equal. apply idft_ext. intros k Hk. rewrite (psih_real f (nth L sc 0) _ k Hr) at 1.
    apply C_eq; cbn; ring.
Qed.

Lemma icwt_log_mean f Css W sc f64 nv x_len xm pt rp : check_gmw f true = Ok tt ->
  process_scales_arr f64 sc = Ok (KLog nv) -> length sc = nrows W ->
  icwt f Css W sc f64 None true true x_len xm pt rp =
  Ok (tab (ncols W) (fun j => Rsum (nrows W) (fun i => Re (el W i j)) * (2 / Css * (ln 2 / IZR nv)) + xm)).
Proof.
  intros Hg Hp Hl. unfold icwt. cbn [icwt_rec]. rewrite Hg, Hp. cbn [bind]. rewrite Hl, Nat.eqb_refl. cbn [negb bind].
  f_equal. unfold icwt_1int, tab. rewrite map_map. apply map_ext. intros j.
  rewrite (ln_root nv) by (apply (process_log_pos f64 sc), Hp). do 2 f_equal.
  apply Rsum_ext. intros i Hi. cbn [icwt_norm]. field.
Qed.

Theorem icwt_cwt_filter py inst f a x s W sc dW s' xp n1 f64 nv Css xl xm pt rp : real_valued f -> uncached inst a s ->
  a_l1 a = true -> a_rpadded a = false ->
  cwt py inst f a x s = (Ok (W, sc, dW), s') -> process_scales_arr f64 sc = Ok (KLog nv) ->
  pad_input (a_pad a) x = Ok (xp, n1) ->
  icwt f Css W sc f64 None true true xl xm pt rp =
  Ok (tab (length x) (fun j => filtered (rt_gain f sc nv Css (length xp)) xp (Z.to_nat n1 + j) + xm)).
Proof.
  intros Hr Hu Hl Hrp H Hsc Hpad.
  pose proof (cwt_gmw _ _ _ _ _ _ _ _ H) as Hg. rewrite Hl in Hg.
  destruct (cwt_rows _ _ _ _ _ _ _ _ _ _ Hr Hu H) as (fs & xp' & n1' & _ & Ep & Hn & HW & _). rewrite Hpad in Ep. injection Ep as <- <-.
  destruct (cwt_ncols _ _ _ _ _ _ _ _ _ _ H) as (_ & Hn2). rewrite Hrp in Hn2. cbn [andb] in Hn2.
  rewrite (icwt_log_mean f Css W sc f64 nv) by auto. f_equal.
  assert (Hc : ncols W = length x) by lia. rewrite Hc. apply tab_ext. intros j Hj. f_equal.
  assert (Hxp : (0 < length xp)%nat).
  { destruct (length xp) eqn:E; [|lia]. exfalso. destruct (a_pad a) as [p|]; cbn in Hpad.
    - destruct (pad_input_len _ _ _ _ Hpad) as (u & n2 & Eq & L & A1 & B1 & D1). lia.
    - destruct x; [discriminate|]. injection Hpad as <- <-. cbn in E. lia. }
  rewrite Hn.
  rewrite (Rsum_ext _ _ (fun i => Re (row_val f (nth i sc 0) xp (Z.to_nat n1 + j)))).
  2:{ intros i Hi. rewrite HW. unfold finish_cell. rewrite Hl, Hrp. cbn [negb andb].
      destruct (a_pad a) as [p|]; [reflexivity|]. cbn in Hpad. destruct x; [discriminate|]. injection Hpad as <- <-. reflexivity. }
  rewrite (bank_sum f sc (length xp)) by auto. unfold filtered, sig_dft.
  transitivity (2 * Re (idft (length xp) (fun k => Cmul (RtoC (Rsum (length sc) (fun i => Re (psih_val f (nth i sc 0) (length xp) false k))))
     (dft (length xp) (fun m => RtoC (nth m xp 0)) k)) (Z.to_nat n1 + j)) * (ln 2 / IZR nv / Css)).
  { unfold Rdiv. ring. }
  rewrite (Re_fold (length xp) (fun k => Rsum (length sc) (fun i => Re (psih_val f (nth i sc 0) (length xp) false k))) (fun m => nth m xp 0)) by exact Hxp.
  set (c := ln 2 / IZR nv / Css).
  rewrite <- (Rmult_comm c). replace (c * Re (idft _ _ _)) with
    (Re (Cmul (RtoC c) (idft (length xp) (fun k => Cmul (RtoC (Rsum (length sc) (fun i => Re (psih_val f (nth i sc 0) (length xp) false k)) +
        Rsum (length sc) (fun i => Re (psih_val f (nth i sc 0) (length xp) false ((length xp - k) mod length xp)))))
      (dft (length xp) (fun m => RtoC (nth m xp 0)) k)) (Z.to_nat n1 + j)))) by (unfold Re, Cmul, RtoC; cbn [fst snd]; ring).
  rewrite <- idft_scal. f_equal. apply idft_ext. intros k Hk.
  assert (E : Rsum (length sc) (fun i => Re (psih_val f (nth i sc 0) (length xp) false k)) +
     Rsum (length sc) (fun i => Re (psih_val f (nth i sc 0) (length xp) false ((length xp - k) mod length xp))) =
     if (2 * k =? length xp)%nat then bank f sc (bin_xi (length xp) k) else bank f sc (bin_xi (length xp) k) + bank f sc (- bin_xi (length xp) k)).
  { rewrite <- Rsum_plus. unfold bank. destruct (2 * k =? length xp)%nat eqn:Ek.
    - apply Rsum_ext. intros i Hi. rewrite psih_fold, Ek by exact Hk. reflexivity.
    - rewrite <- Rsum_plus. apply Rsum_ext. intros i Hi. rewrite psih_fold, Ek by exact Hk. reflexivity. }
  rewrite E. unfold rt_gain. fold c. apply C_eq; cbn [Cmul RtoC fst snd]; ring.
Qed.

(** ** The error of a filter *)
Lemma Rsum_window n a N g : (a + N <= n)%nat -> (forall i, 0 <= g i) -> Rsum N (fun j => g (a + j)%nat) <= Rsum n g.
Proof.
  intros H Hg. replace n with (a + N + (n - a - N))%nat by lia. rewrite !Rsum_app.
  pose proof (Rsum_nonneg a g (fun i _ => Hg i)). pose proof (Rsum_nonneg (n - a - N) (fun i => g (a + N + i)%nat) (fun i _ => Hg _)). lra.
Qed.
(** what padding keeps *)
Lemma pad_window pt x xp n1 : pad_input pt x = Ok (xp, n1) ->
  (Z.to_nat n1 + length x <= length xp)%nat /\ (0 < length x)%nat /\ forall j, (j < length x)%nat -> nth (Z.to_nat n1 + j) xp 0 = nth j x 0.
Proof.
  destruct pt as [pt|]; cbn [pad_input].
  - intros H. assert (Hx : x <> []) by (destruct x; [discriminate|discriminate]).
    assert (R : exists xp n_up n1 n2, padsignal 0 x pt None = Ok (xp, n_up, n1, n2) /\ Z.of_nat (length xp) = n_up /\
      (n1 + Z.of_nat (length x) + n2 = n_up)%Z /\ (0 <= n2 <= n1)%Z /\ pyslice xp n1 (n1 + Z.of_nat (length x)) = x).
    { destruct (padtype_eq_dec pt PSymmetric) as [->|Hne].
      - destruct (padsignal_sym_recover R 0 x None Hx) as (a & b & c & d & E1 & E2 & E3 & E4 & E5 & E6 & E7); [discriminate|]. exists a, b, c, d. auto.
      - destruct (padsignal_np_recover R 0 x pt None Hx Hne) as (a & b & c & d & E1 & E2 & E3 & E4 & E5 & E6 & E7); [discriminate|]. exists a, b, c, d. auto. }
    destruct R as (xp' & u & n1' & n2 & E1 & E2 & E3 & E4 & E5). rewrite E1 in H. cbn [bind] in H. injection H as <- <-.
    split; [lia|]. split; [destruct x; [congruence|cbn; lia]|]. intros j Hj. transitivity (nth j (pyslice xp' n1' (n1' + Z.of_nat (length x))) 0); [|rewrite E5; reflexivity].
    rewrite pyslice_nth by lia. reflexivity.
  - destruct x as [|x0 x']; [discriminate|]. intros H. injection H as <- <-. cbn. split; [lia|]. split; [lia|]. intros. reflexivity.
Qed.

Definition avg (x : list R) : R := Rsum (length x) (fun j => nth j x 0) / INR (length x).
Definition drop0 (n : nat) (X : nat -> C) (k : nat) : C := if (k =? 0)%nat then C0 else X k.

Lemma idft_bin0 n z j : (0 < n)%nat -> idft n (fun k => if (k =? 0)%nat then z else C0) j = Cmul (RtoC (/ INR n)) z.
Proof.
  intros Hn. unfold idft. f_equal. destruct n as [|n]; [lia|]. rewrite Csum_first. cbn [Nat.eqb Z.of_nat].
  rewrite Csum_0 by (intros i Hi; apply C_eq; cbn; ring). rewrite Z.mul_0_l, tw_0 by lia. apply C_eq; cbn; ring.
Qed.
Lemma dft_bin0 x : dft (length x) (fun m => RtoC (nth m x 0)) 0 = RtoC (Rsum (length x) (fun j => nth j x 0)).
Proof.
  rewrite <- Csum_RtoC. unfold dft. destruct (length x) as [|n]; [reflexivity|]. apply Csum_ext. intros i Hi. rewrite Z.mul_0_l. cbn [Z.opp].
  rewrite tw_0 by lia. apply C_eq; cbn; ring.
Qed.
Lemma idft_drop0 n X j : (0 < n)%nat -> idft n (drop0 n X) j = Cadd (idft n X j) (Cmul (RtoC (- / INR n)) (X 0%nat)).
Proof.
  intros Hn. rewrite (idft_ext n _ (fun k => Cadd (X k) (if (k =? 0)%nat then Cmul (RtoC (-1)) (X 0%nat) else C0))).
  - rewrite idft_add, idft_bin0 by exact Hn. f_equal. apply C_eq; cbn; ring.
  - intros k Hk. unfold drop0. destruct (Nat.eqb_spec k 0) as [->|]; apply C_eq; cbn; ring.
Qed.
Lemma energy_idft n X : (0 < n)%nat -> Rsum n (fun j => Cnorm2 (idft n X j)) = Rsum n (fun k => Cnorm2 (X k)) / INR n.
Proof.
  intros Hn. assert (0 < INR n) by (apply lt_0_INR; exact Hn).
  pose proof (parseval n ltac:(lia) (idft n X)) as P.
  rewrite (Rsum_ext n _ (fun k => Cnorm2 (X k))) in P by (intros k Hk; rewrite dft_idft by lia; reflexivity).
  rewrite P. field. lra.
Qed.

Theorem filter_error H x eps : (0 < length x)%nat -> H 0%nat = 0 -> 0 <= eps ->
  (forall k, (0 < k < length x)%nat -> dft (length x) (fun m => RtoC (nth m x 0)) k = C0 \/ Rabs (H k - 1) <= eps) ->
  Rsum (length x) (fun j => (filtered H x j - (nth j x 0 - avg x)) ^ 2) <=
  eps ^ 2 * Rsum (length x) (fun j => (nth j x 0 - avg x) ^ 2).
Proof.
  intros Hn H0 He HH. set (n := length x) in *. set (X := dft n (fun m => RtoC (nth m x 0))) in *.
  assert (Pn : 0 < INR n) by (apply lt_0_INR; exact Hn).
  set (D := drop0 n X). set (E := fun k => Cmul (RtoC (H k - 1)) (D k)).
  assert (X0 : X 0%nat = RtoC (INR n * avg x)).
  { unfold X, n. rewrite dft_bin0. unfold avg. fold n. f_equal. field. lra. }
  assert (ED : forall j, (j < n)%nat -> idft n D j = RtoC (nth j x 0 - avg x)).
  { intros j Hj. unfold D. rewrite idft_drop0, X0 by exact Hn. unfold X. rewrite idft_dft by lia. apply C_eq; cbn; field; lra. }
  assert (EE : forall j, (j < n)%nat -> Re (idft n E j) = filtered H x j - (nth j x 0 - avg x)).
  { intros j Hj. rewrite (idft_ext n E (fun k => Cadd (Cmul (RtoC (H k)) (X k)) (Cmul (RtoC (-1)) (D k)))).
    - rewrite Re_idft_add, idft_scal, ED by exact Hj. unfold filtered. fold n X. unfold Re at 2. cbn. ring.
    - intros k Hk. unfold E, D, drop0. destruct (Nat.eqb_spec k 0) as [->|]; [rewrite H0|]; apply C_eq; cbn; ring. }
  rewrite (Rsum_ext n _ (fun j => Re (idft n E j) ^ 2)) by (intros j Hj; rewrite EE by exact Hj; reflexivity).
  rewrite (Rsum_ext n (fun j => (nth j x 0 - avg x) ^ 2) (fun j => Cnorm2 (idft n D j))).
  2:{ intros j Hj. rewrite ED by exact Hj. unfold Cnorm2, RtoC. cbn. ring. }
  apply Rle_trans with (Rsum n (fun j => Cnorm2 (idft n E j))).
  - apply Rsum_le. intros j Hj. unfold Cnorm2, Re. pose proof (pow2_ge_0 (snd (idft n E j))). cbn in *. lra.
  - rewrite !energy_idft by exact Hn. unfold Rdiv. rewrite <- Rmult_assoc. apply Rmult_le_compat_r.
    + left. apply Rinv_0_lt_compat, Pn.
    + rewrite <- Rsum_scal. apply Rsum_le. intros k Hk. unfold E.
      replace (Cnorm2 (Cmul (RtoC (H k - 1)) (D k))) with ((H k - 1) ^ 2 * Cnorm2 (D k)) by (unfold Cnorm2, Cmul, RtoC; cbn; ring).
      assert (0 <= Cnorm2 (D k)) by (unfold Cnorm2; pose proof (Rle_0_sqr (fst (D k))); pose proof (Rle_0_sqr (snd (D k))); unfold Rsqr in *; lra).
      destruct (Nat.eq_dec k 0) as [->|Hk0].
      { unfold D, drop0. cbn [Nat.eqb]. unfold Cnorm2, C0. cbn. lra. }
      destruct (HH k ltac:(lia)) as [Z0|B].
      { unfold D, drop0. destruct (Nat.eqb_spec k 0); [lia|]. rewrite Z0. unfold Cnorm2, C0. cbn. lra. }
      apply Rmult_le_compat_r; [assumption|]. rewrite <- (pow2_abs (H k - 1)). apply pow_incr. split; [apply Rabs_pos|exact B].
Qed.

(** ** [icwt] after [cwt]: mean square error, unpadded and padded *)
Theorem icwt_cwt_error py inst f a x s W sc dW s' xp n1 f64 nv Css xl xm pt rp eps : real_valued f -> uncached inst a s ->
  a_l1 a = true -> a_rpadded a = false ->
  cwt py inst f a x s = (Ok (W, sc, dW), s') -> process_scales_arr f64 sc = Ok (KLog nv) ->
  pad_input (a_pad a) x = Ok (xp, n1) -> wf f 0 = C0 -> 0 <= eps ->
  (forall k, (0 < k < length xp)%nat -> dft (length xp) (fun m => RtoC (nth m xp 0)) k = C0 \/
     Rabs (rt_gain f sc nv Css (length xp) k - 1) <= eps) ->
  exists y, icwt f Css W sc f64 None true true xl xm pt rp = Ok y /\ length y = length x /\
    Rsum (length x) (fun j => (nth j y 0 - nth j x 0 - (xm - avg xp)) ^ 2) <=
    eps ^ 2 * Rsum (length xp) (fun i => (nth i xp 0 - avg xp) ^ 2).
Proof.
  intros Hr Hu Hl Hrp H Hsc Hpad Hf0 He HH. eexists. split; [eapply icwt_cwt_filter; eassumption|]. split; [apply tab_length|].
  set (G := rt_gain f sc nv Css (length xp)) in *.
  assert (G0 : G 0%nat = 0).
  { unfold G, rt_gain, bin_xi. cbn [Nat.min]. replace (2 * PI * INR 0 / INR (length xp)) with 0 by (cbn; unfold Rdiv; ring).
    assert (B0 : bank f sc 0 = 0).
    { unfold bank. apply Rsum_0. intros i _. rewrite Rmult_0_r, Hf0. reflexivity. }
    rewrite Ropp_0, B0. destruct (2 * 0 =? length xp)%nat; ring. }
  destruct (pad_window _ _ _ _ Hpad) as (W1 & W2' & W3). assert (W2 : (0 < length xp)%nat) by lia.
  apply Rle_trans with (2 := filter_error G xp eps W2 G0 He HH).
  rewrite (Rsum_ext (length x) _ (fun j => (filtered G xp (Z.to_nat n1 + j) - (nth (Z.to_nat n1 + j) xp 0 - avg xp)) ^ 2)).
  2:{ intros j Hj. rewrite nth_tab by exact Hj. rewrite <- (W3 j Hj). f_equal. ring. }
  apply (Rsum_window (length xp) (Z.to_nat n1) (length x) (fun i => (filtered G xp i - (nth i xp 0 - avg xp)) ^ 2)); [exact W1|].
  intros. apply pow2_ge_0.
Qed.
