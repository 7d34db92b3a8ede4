(** [icwt] with two integrals, after [cwt]. *)
From Coq Require Import Reals Lra ZifyBool ZifyNat.
From Verif Require Import Py Round Cplx CplxProofs Padding PaddingProofs Buffer BufferProofs Freqs Squeeze Scales IssqProofs Cwt CwtProofs CwtThms CwtThms2 CwtTone
  SsqCwt SsqCwtProofs SsqCwtInv SymmThms SymmInst RoundTrip Circular CircThms.
Local Open Scope R_scope.

(** ** The sign [(-1)^k] and [ifftshift] cancel *)
Lemma tw_sign h k : (1 <= h)%nat -> tw (2 * h) (Z.of_nat k * Z.of_nat h) = RtoC (if Nat.even k then 1 else -1).
Proof.
  intros Hh. destruct (Nat.even k) eqn:E.
  - apply Nat.even_spec in E. destruct E as (l & ->). replace (Z.of_nat (2 * l) * Z.of_nat h)%Z with (0 + Z.of_nat (2 * h) * Z.of_nat l)%Z by lia.
    rewrite tw_shift, tw_0 by lia. reflexivity.
  - assert (O : Nat.odd k = true) by (rewrite <- Nat.negb_even, E; reflexivity). apply Nat.odd_spec in O. destruct O as (l & ->).
    replace (Z.of_nat (2 * l + 1) * Z.of_nat h)%Z with (Z.of_nat h + Z.of_nat (2 * h) * Z.of_nat l)%Z by lia.
    rewrite tw_shift by lia. apply tw_halfway, Hh.
Qed.
Lemma nth_ifftshift {A} (l : list A) d j : (j < length l)%nat -> nth j (ifftshift l) d = nth ((j + length l / 2) mod length l) l d.
Proof.
  intros Hj. unfold ifftshift. set (n := length l) in *. assert (Hh : (n / 2 < n)%nat) by (apply Nat.div_lt; lia).
  destruct (Nat.lt_ge_cases j (n - n / 2)) as [H|H].
  - rewrite app_nth1 by (rewrite skipn_length; fold n; exact H). rewrite nth_skipn_add. rewrite Nat.mod_small by lia. f_equal. lia.
  - rewrite app_nth2 by (rewrite skipn_length; fold n; lia). rewrite skipn_length. fold n.
    replace (j + n / 2)%nat with ((j - (n - n / 2)) + 1 * n)%nat by lia. rewrite Nat.mod_add, Nat.mod_small by lia.
    rewrite nth_firstn_lt by lia. reflexivity.
Qed.
Lemma unshift h X j : (1 <= h)%nat -> (j < 2 * h)%nat ->
  nth j (ifftshift (tab (2 * h) (idft (2 * h) (fun k => Cmul (X k) (RtoC (if Nat.even k then 1 else -1)))))) C0 = idft (2 * h) X j.
Proof.
  intros Hh Hj. rewrite nth_ifftshift by (rewrite tab_length; exact Hj). rewrite tab_length.
  assert (2 * h / 2 = h)%nat as -> by (rewrite Nat.mul_comm; apply Nat.div_mul; lia).
  rewrite nth_tab by (apply Nat.mod_upper_bound; lia). rewrite <- idft_roll by lia. apply idft_ext. intros k Hk.
  rewrite tw_sign by exact Hh. destruct (Nat.even k); apply C_eq; cbn; ring.
Qed.

(** ** Wrapped rows *)
Lemma pad_mat_rows_wrap rows N m : N = (2 ^ m)%nat -> (forall r, In r rows -> length r = N) ->
  exists ps, pad_mat_rows PWrap rows = Ok ps /\ forall i j, (i < length rows)%nat -> (j < 2 * N)%nat ->
    nth j (nth i ps []) C0 = nth ((j + N / 2) mod N) (nth i rows []) C0.
Proof.
  intros HN. induction rows as [|r rows IH]; intros H; cbn [pad_mat_rows].
  - exists []. split; [reflexivity|]. intros i j Hi. cbn in Hi. lia.
  - assert (Hr : length r = N) by (apply H; left; reflexivity).
    destruct (pad_wrap C0 r m ltac:(lia)) as (xp & -> & HL & Hx). cbn [bind].
    destruct (IH (fun r' Hr' => H r' (or_intror Hr'))) as (ps & -> & Hps). cbn [bind]. exists (xp :: ps). split; [reflexivity|].
    intros [|i] j Hi Hj; cbn [nth length] in *; [|apply Hps; [lia|exact Hj]]. rewrite Hx by lia. rewrite Hr. reflexivity.
Qed.
Lemma pad_mat_wrap W m : ncols W = (2 ^ m)%nat -> exists V, pad_mat PWrap W = Ok (V, Z.of_nat (ncols W - ncols W / 2)) /\
  nrows V = nrows W /\ ncols V = (2 * ncols W)%nat /\
  forall i j, (i < nrows W)%nat -> (j < 2 * ncols W)%nat -> el V i j = el W i ((j + ncols W / 2) mod ncols W).
Proof.
  intros Hm. pose proof (pow2_pos m) as HN. rewrite <- Hm in HN. unfold pad_mat. destruct (Nat.eqb_spec (ncols W) 0); [lia|].
  destruct (pad_mat_rows_wrap (tab (nrows W) (fun i => tab (ncols W) (el W i))) (ncols W) m Hm) as (ps & -> & Hps).
  { intros r Hr. unfold tab in Hr. apply in_map_iff in Hr. destruct Hr as (i & <- & _). apply tab_length. }
  cbn [bind]. assert (HZ : Z.of_nat (ncols W) = (2 ^ Z.of_nat m)%Z) by (rewrite Hm, Nat2Z.inj_pow; reflexivity).
  rewrite HZ, p2up_pow2, <- HZ.
  assert (E : (Z.of_nat (ncols W) - Z.of_nat (ncols W) / 2)%Z = Z.of_nat (ncols W - ncols W / 2)).
  { pose proof (Nat.div_mod (ncols W) 2 ltac:(lia)). rewrite Nat2Z.inj_sub by lia. rewrite Nat2Z.inj_div. reflexivity. }
  rewrite E. eexists. split; [reflexivity|]. cbn [nrows ncols el]. split; [reflexivity|]. split; [lia|].
  intros i j Hi Hj. rewrite Hps by (rewrite ?tab_length; assumption). rewrite nth_tab by exact Hi. apply nth_tab, Nat.mod_upper_bound. lia.
Qed.

(** each row filtered by its own wavelet, circularly *)
Theorem two_int_wrap f W sc log l1 m : real_valued f -> ncols W = (2 ^ m)%nat -> length sc = nrows W ->
  icwt_2int f W sc log l1 (Z.of_nat (ncols W)) PWrap false =
  Ok (tab (ncols W) (fun j => Rsum (nrows W) (fun i =>
    Re (idft (ncols W) (fun k => Cmul (psih_val f (nth i sc 0) (ncols W) true k) (dft (ncols W) (el W i) k)) j) / icwt_norm log l1 (nth i sc 0)))).
Proof.
  intros Hr Hm HL. pose proof (pow2_pos m) as HN. rewrite <- Hm in HN. unfold icwt_2int.
  destruct (pad_mat_wrap W m Hm) as (V & -> & RV & CV & HV). cbn [bind]. f_equal. rewrite CV, RV, HL, Nat.min_id. set (N := ncols W) in *.
  assert (Hh : (N / 2 <= N)%nat) by (apply Nat.div_le_upper_bound; lia).
  assert (Hl : length (tab (2 * N) (fun j => Rsum (nrows W) (fun i => Re (nth j (ifftshift (tab (2 * N) (idft (2 * N) (fun k => Cmul (dft (2 * N) (el V i) k)
     (Cmul (el (wavelet_call f [nth i sc 0] (2 * N) true) 0 k) (RtoC (if Nat.even k then 1 else -1))))))) C0) / icwt_norm log l1 (nth i sc 0)))) = (2 * N)%nat) by apply tab_length.
  apply (nth_ext _ _ 0 0).
  - rewrite pyslice_length by (rewrite ?Hl; lia). rewrite tab_length. lia.
  - rewrite pyslice_length by (rewrite ?Hl; lia). intros j Hj. rewrite pyslice_nth by (rewrite ?Hl; lia). rewrite Nat2Z.id.
    rewrite nth_tab by lia. rewrite nth_tab by lia. apply Rsum_ext. intros i Hi. f_equal. f_equal.
    match goal with |- nth ?a (ifftshift (tab _ (idft _ ?F))) C0 = _ => assert (EF : forall q, idft (2 * N) F q = idft (2 * N) (fun k => Cmul (Cmul (psih_val f (nth i sc 0) (2 * N) true k)
      (dft (2 * N) (fun m => el W i ((m + N / 2) mod N)%nat) k)) (RtoC (if Nat.even k then 1 else -1))) q) end.
    { intros q. apply idft_ext. intros k Hk. rewrite wavelet_call_el by exact Hr. cbn [nth].
      rewrite (dft_ext (2 * N) (el V i) (fun m => el W i ((m + N / 2) mod N)%nat)) by (intros; apply HV; lia).
      apply C_eq; cbn [Cmul fst snd]; ring. }
    rewrite (@tab_ext _ (2 * N) _ _ (fun q _ => EF q)).
    rewrite unshift by lia.
    rewrite (circ N HN _ (psih_val f (nth i sc 0) N true) (el W i) (N / 2) _ Hh) by (intros l Hl'; apply psih_twice; assumption).
    rewrite rot_back by lia. reflexivity.
Qed.

(** ** After [cwt] *)
(** the squared wavelets at frequency [xi], summed over the scales *)
Definition bank2 (f : wfun) (sc : list R) (xi : R) : R := Rsum (length sc) (fun i => Re (wf f (nth i sc 0 * xi)) ^ 2).
Definition two_gain (f : wfun) (sc : list R) (nv : Z) (Cpsi : R) (n k : nat) : R :=
  (if (2 * k =? n)%nat then bank2 f sc (bin_xi n k) else bank2 f sc (bin_xi n k) + bank2 f sc (- bin_xi n k))
  * (ln 2 / IZR nv / Cpsi).
Lemma psih_fold2 f s n k : (k < n)%nat ->
  Re (psih_val f s n true k) * Re (psih_val f s n false k) + Re (psih_val f s n true ((n - k) mod n)) * Re (psih_val f s n false ((n - k) mod n)) =
  if (2 * k =? n)%nat then Re (wf f (s * bin_xi n k)) ^ 2 else Re (wf f (s * bin_xi n k)) ^ 2 + Re (wf f (s * - bin_xi n k)) ^ 2.
Proof.
  intros Hk. pose proof (div2_spec n) as Hd. unfold psih_val. cbn [negb andb].
  assert (Em : (n mod 2 = n - n / 2 * 2)%nat) by (pose proof (Nat.div_mod n 2 ltac:(lia)); lia).
  destruct (Nat.eq_dec k 0) as [->|Hk0].
  { rewrite Nat.sub_0_r, Nat.mod_same by lia. destruct (Nat.eqb_spec (2 * 0) n); [lia|].
    rewrite xi_low by lia. unfold bin_xi. cbn [Nat.min]. replace (2 * PI * INR 0 / INR n) with 0 by (cbn; unfold Rdiv; ring).
    rewrite Ropp_0. destruct (Nat.eqb_spec (n mod 2) 0), (Nat.eqb_spec 0 (n / 2)); cbn [andb]; try ring; lia. }
  rewrite (Nat.mod_small (n - k)) by lia. unfold bin_xi.
  destruct (Nat.eqb_spec (2 * k) n) as [E|E].
  - replace (n - k)%nat with k by lia. rewrite Nat.min_id. replace (n / 2)%nat with k by lia. rewrite Nat.eqb_refl.
    destruct (Nat.eqb_spec (n mod 2) 0); [|lia]. cbn [andb]. rewrite xi_low by lia. unfold Re, Cmul, RtoC. cbn [fst snd]. field.
  - assert (N1 : forall q, (2 * q <> n)%nat -> (n mod 2 =? 0)%nat && (q =? n / 2)%nat = false).
    { intros q Hq. destruct (Nat.eqb_spec (n mod 2) 0), (Nat.eqb_spec q (n / 2)); cbn [andb]; try reflexivity. lia. }
    rewrite !N1 by lia. destruct (Nat.lt_ge_cases (2 * k) n) as [Hlt|Hge].
    + rewrite Nat.min_l by lia. rewrite xi_low, xi_high by lia. ring.
    + rewrite Nat.min_r by lia. replace (nth k (xifn 1 n) 0) with (nth (n - (n - k)) (xifn 1 n) 0) by (f_equal; lia).
      rewrite xi_high, xi_low by lia. ring.
Qed.
Lemma psih_real_nh f s n nh k : real_valued f -> psih_val f s n nh k = RtoC (Re (psih_val f s n nh k)).
Proof.
  intros Hr. unfold psih_val. assert (Hi : Im (wf f (s * nth k (xifn 1 n) 0)) = 0) by apply Hr. unfold Im in Hi.
  destruct (negb nh && _ && _); apply C_eq; unfold Re; cbn [RtoC Cmul fst snd]; try reflexivity; rewrite Hi; ring.
Qed.
Lemma icwt_two_log f Cpsi W sc f64 nv xm pt : check_gmw f true = Ok tt ->
  process_scales_arr f64 sc = Ok (KLog nv) -> length sc = nrows W ->
  icwt f Cpsi W sc f64 None false true None xm pt false =
  bind (icwt_2int f W sc true true (Z.of_nat (ncols W)) pt false) (fun x => Ok (map (fun y => y * (2 / Cpsi * (ln 2 / IZR nv)) + xm) x)).
Proof.
  intros Hg Hp Hl. unfold icwt. cbn [icwt_rec]. rewrite Hg, Hp. cbn [bind]. rewrite Hl, Nat.eqb_refl. cbn [negb bind].
  destruct (icwt_2int _ _ _ _ _ _ _ _) as [x|]; cbn [bind]; [|reflexivity].
  rewrite (ln_root nv) by (apply (process_log_pos f64 sc), Hp). reflexivity.
Qed.
(** [W] as [cwt] of [x] has it without padding *)
Definition circular_rows (f : wfun) (x : list R) (sc : list R) (W : mat C) : Prop :=
  nrows W = length sc /\ ncols W = length x /\ forall i j, (j < length x)%nat -> el W i j = row_val f (nth i sc 0) x j.
Lemma circular_cwt py inst f a x s W sc dW s' m : real_valued f -> uncached inst a s ->
  a_l1 a = true -> a_rpadded a = false -> a_pad a = None \/ a_pad a = Some PWrap /\ length x = (2 ^ m)%nat ->
  cwt py inst f a x s = (Ok (W, sc, dW), s') -> circular_rows f x sc W.
Proof.
  intros Hr Hu Hl Hrp Hpad H. destruct (cwt_rows _ _ _ _ _ _ _ _ _ _ Hr Hu H) as (fs & xp & n1 & _ & Ep & Hn & HW & _).
  destruct (cwt_ncols _ _ _ _ _ _ _ _ _ _ H) as (_ & Hn2). rewrite Hrp in Hn2. cbn [andb] in Hn2. split; [exact Hn|]. split; [lia|].
  intros i j Hj. rewrite HW. unfold finish_cell. rewrite Hl, Hrp. cbn [negb andb]. destruct Hpad as [Hpad|(Hpad & Hm)]; rewrite Hpad in *.
  - cbn in Ep. destruct x; [discriminate|]. injection Ep as <- <-. reflexivity.
  - apply (rows_wrap f (nth i sc 0) 1 x xp n1 m Hm Ep j Hj).
Qed.
Theorem icwt_two_filter f x sc W f64 nv Cpsi xm m : real_valued f -> check_gmw f true = Ok tt -> circular_rows f x sc W ->
  length x = (2 ^ m)%nat -> process_scales_arr f64 sc = Ok (KLog nv) ->
  icwt f Cpsi W sc f64 None false true None xm PWrap false =
  Ok (tab (length x) (fun j => filtered (two_gain f sc nv Cpsi (length x)) x j + xm)).
Proof.
  intros Hr Hg (Hn & Hc & HW) Hm Hsc. rewrite (icwt_two_log f Cpsi W sc f64 nv) by auto.
  rewrite (two_int_wrap f W sc true true m Hr) by congruence. cbn [bind]. f_equal. rewrite Hc, Hn. unfold tab. rewrite map_map. apply map_ext_in. intros j Hj.
  apply in_seq in Hj. assert (Hj' : (j < length x)%nat) by lia. clear Hj. set (N := length x) in *. assert (HN : (1 <= N)%nat) by lia. f_equal.
  set (X := dft N (fun q => RtoC (nth q x 0))).
  set (c := fun k => Rsum (length sc) (fun i => Re (psih_val f (nth i sc 0) N true k) * Re (psih_val f (nth i sc 0) N false k))).
  assert (S1 : forall L, Rsum L (fun i => Re (idft N (fun k => Cmul (psih_val f (nth i sc 0) N true k) (dft N (el W i) k)) j) / icwt_norm true true (nth i sc 0)) =
    Re (idft N (fun k => Cmul (RtoC (Rsum L (fun i => Re (psih_val f (nth i sc 0) N true k) * Re (psih_val f (nth i sc 0) N false k)))) (X k)) j)).
  { induction L as [|L IH]; cbn [Rsum].
    - symmetry. rewrite (idft_ext _ _ (fun k => Cmul C0 (X k))) by (intros; reflexivity). rewrite idft_scal. cbn. ring.
    - rewrite IH. cbn [icwt_norm]. unfold Rdiv. rewrite Rinv_1, Rmult_1_r. rewrite <- Re_idft_add. f_equal. apply idft_ext. intros k Hk.
      assert (EW : dft N (el W L) k = Cmul (psih_val f (nth L sc 0) N false k) (X k)).
      { rewrite (dft_ext N _ (row_val f (nth L sc 0) x)) by (intros q Hq; apply HW; exact Hq). unfold row_val. fold N. rewrite dft_idft by assumption. reflexivity. }
      rewrite EW, (psih_real_nh f (nth L sc 0) N true k Hr), (psih_real_nh f (nth L sc 0) N false k Hr). apply C_eq; cbn; ring. }
  rewrite S1. fold (c : nat -> R). unfold filtered. fold N X.
  transitivity (2 * Re (idft N (fun k => Cmul (RtoC (c k)) (X k)) j) * (ln 2 / IZR nv / Cpsi)); [unfold c, Rdiv; ring|].
  unfold X. rewrite (Re_fold N c (fun m => nth m x 0)) by lia. fold X. set (g := ln 2 / IZR nv / Cpsi).
  transitivity (Re (Cmul (RtoC g) (idft N (fun k => Cmul (RtoC (c k + c ((N - k) mod N)%nat)) (X k)) j))); [unfold Re, Cmul, RtoC; cbn [fst snd]; ring|].
  rewrite <- idft_scal. f_equal. apply idft_ext. intros k Hk.
  assert (E : c k + c ((N - k) mod N)%nat = if (2 * k =? N)%nat then bank2 f sc (bin_xi N k) else bank2 f sc (bin_xi N k) + bank2 f sc (- bin_xi N k)).
  { unfold c. rewrite <- Rsum_plus. unfold bank2. destruct (2 * k =? N)%nat eqn:Ek.
    - apply Rsum_ext. intros i Hi. rewrite psih_fold2, Ek by exact Hk. reflexivity.
    - rewrite <- Rsum_plus. apply Rsum_ext. intros i Hi. rewrite psih_fold2, Ek by exact Hk. reflexivity. }
  rewrite E. unfold two_gain. fold g. apply C_eq; cbn [Cmul RtoC fst snd]; ring.
Qed.
Theorem icwt_two_cwt py inst f a x s W sc dW s' f64 nv Cpsi xm m : real_valued f -> uncached inst a s ->
  a_l1 a = true -> a_rpadded a = false -> a_pad a = None \/ a_pad a = Some PWrap -> length x = (2 ^ m)%nat ->
  cwt py inst f a x s = (Ok (W, sc, dW), s') -> process_scales_arr f64 sc = Ok (KLog nv) ->
  icwt f Cpsi W sc f64 None false true None xm PWrap false =
  Ok (tab (length x) (fun j => filtered (two_gain f sc nv Cpsi (length x)) x j + xm)).
Proof.
  intros Hr Hu Hl Hrp Hpad Hm H Hsc. apply (icwt_two_filter f x sc W f64 nv Cpsi xm m Hr); [| |exact Hm|exact Hsc].
  - pose proof (cwt_gmw _ _ _ _ _ _ _ _ H) as Hg. rewrite Hl in Hg. exact Hg.
  - apply (circular_cwt py inst f a x s W sc dW s' m); auto. destruct Hpad; auto.
Qed.
Theorem icwt_two_error py inst f a x s W sc dW s' f64 nv Cpsi xm m eps : real_valued f -> uncached inst a s ->
  a_l1 a = true -> a_rpadded a = false -> a_pad a = None \/ a_pad a = Some PWrap -> length x = (2 ^ m)%nat ->
  cwt py inst f a x s = (Ok (W, sc, dW), s') -> process_scales_arr f64 sc = Ok (KLog nv) -> wf f 0 = C0 -> 0 <= eps ->
  (forall k, (0 < k < length x)%nat -> dft (length x) (fun m => RtoC (nth m x 0)) k = C0 \/ Rabs (two_gain f sc nv Cpsi (length x) k - 1) <= eps) ->
  exists y, icwt f Cpsi W sc f64 None false true None xm PWrap false = Ok y /\ length y = length x /\
    Rsum (length x) (fun j => (nth j y 0 - nth j x 0 - (xm - avg x)) ^ 2) <= eps ^ 2 * Rsum (length x) (fun i => (nth i x 0 - avg x) ^ 2).
Proof.
  intros Hr Hu Hl Hrp Hpad Hm H Hsc Hf0 He HH. eexists. split; [eapply icwt_two_cwt; eassumption|]. split; [apply tab_length|].
  pose proof (pow2_pos m) as HN. rewrite <- Hm in HN. set (G := two_gain f sc nv Cpsi (length x)) in *.
  assert (G0 : G 0%nat = 0).
  { unfold G, two_gain, bin_xi. cbn [Nat.min]. replace (2 * PI * INR 0 / INR (length x)) with 0 by (cbn; unfold Rdiv; ring).
    assert (B0 : bank2 f sc 0 = 0). { unfold bank2. apply Rsum_0. intros i _. rewrite Rmult_0_r, Hf0. unfold C0, Re. cbn. ring. }
    rewrite Ropp_0, B0. destruct (2 * 0 =? length x)%nat; ring. }
  apply Rle_trans with (2 := filter_error G x eps ltac:(lia) G0 He HH). right. apply Rsum_ext. intros j Hj. rewrite nth_tab by exact Hj. ring.
Qed.
