(** The signals of [TestSignals]. *)
From Coq Require Import Reals Lra ZifyBool ZifyNat.
From Verif Require Import Py Round Cplx Squeeze SqueezeProofs BinProofs Scales SsqueezeProofs ScaleThms FreqRange Search SearchProofs
  Chirp ChirpProofs Signals.
Local Open Scope R_scope.

(** ** time vectors *)
Definition step (tmin tmax : R) (N : Z) (e : bool) : R := (tmax - tmin) / IZR (if e then N - 1 else N).
Lemma times_spec tmin tmax N e t : times tmin tmax N e = Ok t ->
  (0 <= N)%Z /\ length t = Z.to_nat N /\
  (forall k, (k < length t)%nat -> (2 <= N)%Z -> nth k t 0 = tmin + INR k * step tmin tmax N e) /\
  ((0 < N)%Z -> nth 0 t 0 = tmin).
Proof.
  unfold times. destruct (Z.ltb_spec N 0); [discriminate|]. intros E. injection E as <-.
  split; [lia|]. split; [destruct e; [apply linspace_length|apply tab_length]|]. split.
  - intros k Hk H2. unfold step. destruct e.
    + rewrite linspace_length in Hk. unfold linspace. rewrite nth_tab by exact Hk.
      destruct (Nat.eqb_spec (Z.to_nat N) 1); [lia|]. rewrite (INR_IZR_INZ (Z.to_nat N - 1)).
      replace (Z.of_nat (Z.to_nat N - 1)) with (N - 1)%Z by lia. reflexivity.
    + rewrite tab_length in Hk. now rewrite nth_tab.
  - intros Hp. destruct e; unfold linspace; rewrite nth_tab by lia; cbn [INR]; [|ring].
    destruct (Z.to_nat N =? 1)%nat; ring.
Qed.
Lemma step_pos tmin tmax N e : tmin < tmax -> (2 <= N)%Z -> 0 < step tmin tmax N e.
Proof.
  intros Ht HN. unfold step. apply Rdiv_lt_0_compat; [lra|]. apply IZR_lt. destruct e; lia.
Qed.
Lemma times_range tmin tmax N e t k : tmin < tmax -> times tmin tmax N e = Ok t -> (k < length t)%nat ->
  tmin <= nth k t 0 <= tmax.
Proof.
  intros Ht E Hk. destruct (times_spec _ _ _ _ _ E) as (H0 & Hl & Hn & H1).
  destruct (Z.leb_spec 2 N) as [H2|H2].
  - rewrite Hn by auto. pose proof (step_pos tmin tmax N e Ht H2) as Hs. pose proof (pos_INR k) as Hp.
    split; [nra|]. unfold step in *. set (d := if e then (N - 1)%Z else N) in *.
    assert (Hd : (Z.of_nat k <= d /\ 0 < d)%Z) by (unfold d; destruct e; lia).
    assert (INR k <= IZR d) by (rewrite INR_IZR_INZ; apply IZR_le; lia).
    assert (0 < IZR d) by (apply IZR_lt; lia).
    replace tmax with (tmin + IZR d * ((tmax - tmin) / IZR d)) at 2 by (field; lra). nra.
  - assert (k = 0%nat) by lia. subst k. rewrite H1 by lia. lra.
Qed.

(** ** the largest frequency of a sweep, and the length derived from it *)
Definition swept (fn : chirp_fn) (tmin tmax fmin fmax : R) (c : chirp) : Prop :=
  fn tmin tmax fmin fmax = Ok c /\ sweeps c tmin tmax fmin fmax.

Lemma fine_pos : (2 <= fine)%nat. Proof. unfold fine. lia. Qed.
Lemma sweep_max c tmin tmax fmin fmax n : (2 <= n)%nat -> tmin < tmax -> sweeps c tmin tmax fmin fmax ->
  lmax (map (snd c) (linspace tmin tmax n)) = 2 * PI * fmax.
Proof.
  intros Hn Ht (_ & _ & Hmax & _ & Hmono).
  assert (Hv : forall k, (k < n)%nat -> nth k (linspace tmin tmax n) 0 = tmin + INR k * ((tmax - tmin) / INR (n - 1))).
  { intros k Hk. unfold linspace. rewrite nth_tab by exact Hk. destruct (Nat.eqb_spec n 1); [lia|reflexivity]. }
  assert (Hd : 0 < INR (n - 1)) by (apply (lt_INR 0); lia).
  assert (Hlast : nth (n - 1) (linspace tmin tmax n) 0 = tmax) by (rewrite Hv by lia; field; lra).
  assert (Hq : 0 < (tmax - tmin) / INR (n - 1)) by (apply Rdiv_lt_0_compat; lra).
  apply Rle_antisym.
  - destruct (lmax_in (map (snd c) (linspace tmin tmax n))) as (i & Hi & <-).
    { intros E. apply (f_equal (@length R)) in E. rewrite map_length, linspace_length in E. cbn in E. lia. }
    rewrite map_length, linspace_length in Hi.
    rewrite nth_indep with (d' := snd c 0) by (rewrite map_length, linspace_length; exact Hi). rewrite map_nth.
    rewrite <- Hmax. destruct (Nat.eq_dec i (n - 1)) as [->|Hne]; [rewrite Hlast; lra|].
    left. rewrite Hv by exact Hi. pose proof (pos_INR i).
    assert (INR i < INR (n - 1)) by (apply lt_INR; lia).
    apply Hmono; [nra| |lra]. replace tmax with (tmin + INR (n - 1) * ((tmax - tmin) / INR (n - 1))) at 2 by (field; lra). nra.
  - rewrite <- Hmax, <- Hlast at 1.
    replace (snd c (nth (n - 1) (linspace tmin tmax n) 0)) with (nth (n - 1) (map (snd c) (linspace tmin tmax n)) 0).
    + apply lmax_ge. rewrite map_length, linspace_length. lia.
    + rewrite nth_indep with (d' := snd c 0) by (rewrite map_length, linspace_length; lia). apply map_nth.
Qed.
Lemma est_sweep fn tmin tmax fmin fmax c : tmin < tmax -> swept fn tmin tmax fmin fmax c ->
  est_N fn tmin tmax fmin fmax = Ok (Rceil (1 + 2 * fmax * (tmax - tmin))).
Proof.
  intros Ht (E & Hs). unfold est_N. rewrite E. cbn [bind].
  rewrite (sweep_max c tmin tmax fmin fmax fine fine_pos Ht Hs). f_equal. f_equal. pose proof PI_RGT_0. field. lra.
Qed.

(** consecutive samples of a sweep differ in phase by at most [2 pi fmax] times the step *)
Lemma sweep_increment c tmin tmax fmin fmax a b : sweeps c tmin tmax fmin fmax -> tmin <= a -> a < b -> b <= tmax ->
  2 * PI * fmin * (b - a) <= fst c b - fst c a <= 2 * PI * fmax * (b - a).
Proof.
  intros (_ & H1 & H2 & Hd & Hm) Ha Hab Hb.
  destruct (MVT_cor2 (fst c) (snd c) a b Hab) as (u & E & Hu).
  { intros u Hu. apply Hd. lra. }
  rewrite E.
  assert (2 * PI * fmin <= snd c u).
  { rewrite <- H1. destruct (Rle_lt_or_eq_dec tmin u ltac:(lra)) as [Hl|He]; [left; apply Hm; lra|subst; lra]. }
  assert (snd c u <= 2 * PI * fmax).
  { rewrite <- H2. destruct (Rle_lt_or_eq_dec u tmax ltac:(lra)) as [Hl|He]; [left; apply Hm; lra|subst; lra]. }
  split; apply Rmult_le_compat_r; lra.
Qed.

Definition kw_tmin (s : tself) (k : tkws) : R := or_default (k_tmin k) (d_tmin (ts_tkw s)).
Definition kw_tmax (s : tself) (k : tkws) : R := or_default (k_tmax k) (d_tmax (ts_tkw s)).
Definition kw_end (s : tself) (k : tkws) : bool := or_default (k_end k) (d_end (ts_tkw s)).

(** a chirp asked for without [N] but with [fmax] *)
Theorem auto_N fn s fmin fmax k c : let tmin := kw_tmin s k in let tmax := kw_tmax s k in
  tmin < tmax -> 0 <= fmin < fmax -> swept fn tmin tmax fmin fmax c ->
  exists t, generate fn s None fmin (Some fmax) k = Ok (map (fun t => cos (fst c t)) t, t) /\
    Z.of_nat (length t) = Rceil (1 + 2 * fmax * (tmax - tmin)) /\
    (2 <= length t)%nat /\
    (forall i, (i < length t)%nat -> tmin <= nth i t 0 <= tmax) /\
    (forall i, (S i < length t)%nat ->
       nth (S i) t 0 - nth i t 0 = step tmin tmax (Z.of_nat (length t)) (kw_end s k) /\
       0 <= fst c (nth (S i) t 0) - fst c (nth i t 0) <= PI) /\
    fmax <= / step tmin tmax (Z.of_nat (length t)) (kw_end s k) / 2.
Proof.
  intros tmin tmax Ht Hf Hs. pose proof (est_sweep fn tmin tmax fmin fmax c Ht Hs) as En.
  set (N := Rceil (1 + 2 * fmax * (tmax - tmin))) in *.
  assert (HN : 1 + 2 * fmax * (tmax - tmin) <= IZR N) by apply Rceil_bounds.
  assert (Hpos : 0 < 2 * fmax * (tmax - tmin)) by (apply Rmult_lt_0_compat; lra).
  assert (HN1 : (2 <= N)%Z).
  { enough (1 < N)%Z by lia. apply lt_IZR. lra. }
  assert (exists t, times tmin tmax N (kw_end s k) = Ok t) as (t & Et).
  { unfold times. destruct (Z.ltb_spec N 0); [lia|]. eauto. }
  destruct (times_spec _ _ _ _ _ Et) as (_ & Hl & Hn & _).
  assert (Hlen : Z.of_nat (length t) = N) by lia.
  exists t. destruct Hs as (Ec & Hs).
  assert (Hstep : 0 < step tmin tmax N (kw_end s k)) by (apply step_pos; auto).
  assert (Hny : 2 * fmax * step tmin tmax N (kw_end s k) <= 1).
  { unfold step. assert (Hd : 2 * fmax * (tmax - tmin) <= IZR (if kw_end s k then N - 1 else N)).
    { destruct (kw_end s k); [rewrite minus_IZR|]; lra. }
    apply Rmult_le_reg_r with (IZR (if kw_end s k then N - 1 else N)); [lra|].
    replace (2 * fmax * ((tmax - tmin) / IZR (if kw_end s k then (N - 1)%Z else N)) * IZR (if kw_end s k then (N - 1)%Z else N))
      with (2 * fmax * (tmax - tmin)) by (field; lra). lra. }
  split.
  { unfold generate, process_params. fold (kw_tmin s k) (kw_tmax s k) (kw_end s k). fold tmin tmax. rewrite En. cbn [bind].
    rewrite Et. cbn [bind]. rewrite Ec. reflexivity. }
  rewrite Hlen. split; [reflexivity|]. split; [lia|]. split; [intros i Hi; exact (times_range _ _ _ _ _ _ Ht Et Hi)|]. split.
  - intros i Hi. pose proof (times_range _ _ _ _ _ i Ht Et ltac:(lia)). pose proof (times_range _ _ _ _ _ (S i) Ht Et Hi).
    assert (D : nth (S i) t 0 - nth i t 0 = step tmin tmax N (kw_end s k)).
    { rewrite !Hn by lia. rewrite S_INR. ring. }
    split; [exact D|].
    destruct (sweep_increment c tmin tmax fmin fmax (nth i t 0) (nth (S i) t 0) Hs) as (L & U); try lra.
    rewrite D in L, U. pose proof PI_RGT_0. split.
    + apply Rle_trans with (2 := L). apply Rmult_le_pos; [|lra]. apply Rmult_le_pos; lra.
    + apply Rle_trans with (1 := U). replace (2 * PI * fmax * step tmin tmax N (kw_end s k)) with (PI * (2 * fmax * step tmin tmax N (kw_end s k))) by ring.
      rewrite <- (Rmult_1_r PI) at 2. apply Rmult_le_compat_l; lra.
  - apply Rmult_le_reg_r with (2 * step tmin tmax N (kw_end s k)); [lra|].
    replace (/ step tmin tmax N (kw_end s k) / 2 * (2 * step tmin tmax N (kw_end s k))) with 1 by (field; lra). lra.
Qed.

(** fewer samples put [fmax] beyond half the rate: [endpoint=True] *)
Theorem auto_N_least fmax tmin tmax N M : tmin < tmax -> 0 < fmax -> N = Rceil (1 + 2 * fmax * (tmax - tmin)) ->
  (2 <= M < N)%Z -> / step tmin tmax M true / 2 < fmax.
Proof.
  intros Ht Hf -> HM. destruct (Rceil_bounds (1 + 2 * fmax * (tmax - tmin))) as (_ & Hu).
  assert (IZR M + 1 <= IZR (Rceil (1 + 2 * fmax * (tmax - tmin)))) by (rewrite <- plus_IZR; apply IZR_le; lia).
  assert (2 <= IZR M) by (apply IZR_le; lia).
  unfold step. rewrite minus_IZR.
  apply Rmult_lt_reg_r with (2 * (tmax - tmin)); [lra|].
  replace (/ ((tmax - tmin) / (IZR M - 1)) / 2 * (2 * (tmax - tmin))) with (IZR M - 1) by (field; lra). lra.
Qed.

(** ... but phases may still advance by no more than [pi]: from 0 to 1 Hz in one second the
    documented minimum is 3 samples, and 2 do not alias *)
Lemma ceil_int z : Rceil (IZR z) = z.
Proof.
  destruct (Rceil_bounds (IZR z)) as (H1 & H2). apply le_IZR in H1. rewrite <- plus_IZR in H2. apply lt_IZR in H2. lia.
Qed.
Definition ts0 : tself := TS 512 default_tkw.
Theorem auto_N_more : exists x t c, generate lchirp_fn ts0 None 0 (Some 1) (TK None None None) = Ok (x, t) /\ length t = 3%nat /\
  generate lchirp_fn ts0 (Some 2%Z) 0 (Some 1) (TK None None None) = Ok (map (fun t => cos (fst c t)) [0; 1], [0; 1]) /\
  sweeps c 0 1 0 1 /\ fst c 1 - fst c 0 <= PI.
Proof.
  pose proof (lchirp_sweeps 0 1 0 1 ltac:(lra) ltac:(lra)) as Hs.
  destruct (auto_N lchirp_fn ts0 0 1 (TK None None None) (lchirp 0 1 0 1)) as (t & E & Hl & _).
  - cbn. lra.
  - lra.
  - split; [reflexivity|exact Hs].
  - do 2 eexists. exists (lchirp 0 1 0 1). split; [exact E|]. split.
    + change (kw_tmax ts0 (TK None None None)) with 1 in Hl. change (kw_tmin ts0 (TK None None None)) with 0 in Hl.
      replace (1 + 2 * 1 * (1 - 0)) with (IZR 3) in Hl by ring. rewrite ceil_int in Hl. lia.
    + split; [|split; [exact Hs|]].
      * unfold generate, process_params, times. cbn [bind ts0 ts_tkw default_tkw d_tmin d_tmax d_end or_default k_tmin k_tmax k_end Z.ltb Z.compare].
        replace (linspace 0 1 (Z.to_nat 2)) with [0; 1]; [reflexivity|].
        change (Z.to_nat 2) with 2%nat. unfold linspace, tab. cbn. apply f_equal2; [field|]. apply f_equal2; [field|reflexivity].
      * unfold lchirp. cbn [fst]. pose proof PI_RGT_0.
        replace ((0 - 1) / (0 - 1)) with 1 by field. replace ((0 * 1 - 1 * 0) / (1 - 0)) with 0 by field. lra.
Qed.
(** with [endpoint=False] one sample fewer already keeps [fmax] at half the rate *)
Theorem open_end_more : exists t, times 0 1 2 false = Ok t /\ Rceil (1 + 2 * 1 * (1 - 0)) = 3%Z /\ 1 <= / step 0 1 2 false / 2.
Proof.
  eexists. split; [reflexivity|]. split; [replace (1 + 2 * 1 * (1 - 0)) with (IZR 3) by ring; apply ceil_int|].
  unfold step. lra.
Qed.
(** negative frequencies are not counted: from -10 to 0 Hz a single sample is taken *)
Theorem negative_frequencies : exists x t, generate lchirp_fn ts0 None (Ropp 10) (Some 0) (TK None None None) = Ok (x, t) /\ length t = 1%nat.
Proof.
  pose proof (lchirp_sweeps 0 1 (Ropp 10) 0 ltac:(lra) ltac:(lra)) as Hs.
  unfold generate, process_params. cbn [ts0 ts_tkw default_tkw d_tmin d_tmax d_end or_default k_tmin k_tmax k_end].
  rewrite (est_sweep lchirp_fn 0 1 (Ropp 10) 0 (lchirp 0 1 (Ropp 10) 0) ltac:(lra) (conj eq_refl Hs)). cbn [bind].
  replace (1 + 2 * 0 * (1 - 0)) with (IZR 1) by ring. rewrite ceil_int. cbn [times Z.ltb Z.compare bind].
  do 2 eexists. split; [reflexivity|]. reflexivity.
Qed.

(** the default [fmax=N//2] is at most half the rate only for a second or less *)
Theorem default_fmax tmin tmax N : tmin < tmax -> (2 <= N)%Z -> Z.even N = true ->
  IZR (N / 2) <= / step tmin tmax N false / 2 <-> tmax - tmin <= 1.
Proof.
  intros Ht HN He. assert (E : IZR (N / 2) = IZR N / 2).
  { apply Zeven_bool_iff in He. pose proof (Zeven_div2 N He) as E.
    rewrite Z.div2_div in E. rewrite E at 2. rewrite mult_IZR. field. }
  rewrite E. unfold step. assert (0 < IZR N) by (apply IZR_lt; lia).
  replace (/ ((tmax - tmin) / IZR N) / 2) with (IZR N / 2 * / (tmax - tmin)) by (field; lra).
  split; intros H'.
  - apply Rmult_le_reg_l with (/ (tmax - tmin)); [apply Rinv_0_lt_compat; lra|]. rewrite Rinv_l by lra. nra.
  - rewrite <- (Rmult_1_r (IZR N / 2)) at 1. apply Rmult_le_compat_l; [lra|].
    rewrite <- Rinv_1. apply Rinv_le_contravar; lra.
Qed.

(** the four sweeps of [TestSignals] *)
Theorem auto_N_all fn s fmin fmax k : let tmin := kw_tmin s k in let tmax := kw_tmax s k in
  In fn [lchirp_fn; echirp_fn; echirp_pc_fn; hchirp_fn] -> fn = lchirp_fn \/ 0 < fmin -> tmax <> 0 ->
  tmin < tmax -> 0 <= fmin < fmax ->
  exists c t, fn tmin tmax fmin fmax = Ok c /\ sweeps c tmin tmax fmin fmax /\
    generate fn s None fmin (Some fmax) k = Ok (map (fun t => cos (fst c t)) t, t) /\
    Z.of_nat (length t) = Rceil (1 + 2 * fmax * (tmax - tmin)) /\
    (2 <= length t)%nat /\
    (forall i, (i < length t)%nat -> tmin <= nth i t 0 <= tmax) /\
    (forall i, (S i < length t)%nat ->
       nth (S i) t 0 - nth i t 0 = step tmin tmax (Z.of_nat (length t)) (kw_end s k) /\
       0 <= fst c (nth (S i) t 0) - fst c (nth i t 0) <= PI) /\
    fmax <= / step tmin tmax (Z.of_nat (length t)) (kw_end s k) / 2.
Proof.
  intros tmin tmax Hin Hf H0 Ht Hm.
  assert (exists c, swept fn tmin tmax fmin fmax c) as (c & Hc).
  { destruct Hf as [->|Hf].
    - exists (lchirp tmin tmax fmin fmax). split; [reflexivity|]. now apply lchirp_sweeps.
    - destruct Hin as [<-|[<-|[<-|[<-|[]]]]].
      + exists (lchirp tmin tmax fmin fmax). split; [reflexivity|]. now apply lchirp_sweeps.
      + destruct (echirp_sweeps tmin tmax fmin fmax) as (c & E & Hc); try lra. exists c. now split.
      + exists (echirp_pc tmin tmax fmin fmax). split; [reflexivity|]. apply echirp_pc_sweeps; lra.
      + exists (hchirp tmin tmax fmin fmax). split; [reflexivity|]. apply hchirp_sweeps; lra. }
  destruct (auto_N fn s fmin fmax k c Ht Hm Hc) as (t & H). exists c, t. destruct Hc as (E & Hs). auto.
Qed.
