(** The signals of [TestSignals]: parallel chirps, amplitude modulators, jumps, packed tones. *)
From Coq Require Import Reals Lra ZifyBool ZifyNat.
From Verif Require Import Py Round Cplx CplxProofs Squeeze SqueezeProofs BinProofs Scales SsqueezeProofs ScaleThms FreqRange Search SearchProofs
  ResolThms2 Chirp ChirpProofs Signals SignalsThms.
Local Open Scope R_scope.

(** ** parallel chirps *)
Theorem par_order p N fmin0 fmin1 fmax1 a1 b1 a2 b2 : (0 < N)%Z ->
  (p <> ParL -> 0 < or_default fmin1 fmin0 /\ 0 < or_default fmax1 1) ->
  match fmax1 with Some f => f < IZR N / 2 | None => True end ->
  par_freqs p N fmin0 fmin1 fmax1 None None = (a1, b1, a2, b2) ->
  a1 = or_default fmin1 fmin0 /\ (forall f, fmax1 = Some f -> b1 = f) /\ a1 < a2 /\ b1 < b2 /\ b2 <= IZR N / 2.
Proof.
  intros HN Hp Hf E. assert (0 < IZR N) by (apply IZR_lt; lia).
  unfold par_freqs in E. destruct fmax1 as [f|]; injection E as <- <- <- <-; cbn [or_default] in *.
  - split; [reflexivity|]. split; [congruence|].
    assert (f < next_up p N f) by (destruct p; cbn [next_up]; [lra|destruct Hp; [discriminate|lra]..]).
    split; [destruct p; cbn [next_up]; [lra|destruct Hp; [discriminate|lra]..]|].
    split; [apply Rmin_glb_lt; lra|apply Rmin_l].
  - split; [reflexivity|]. split; [discriminate|].
    split; [destruct p; cbn [next_up]; [lra|destruct Hp; [discriminate|lra]..]|].
    split; [destruct p; cbn [next_down]; lra|lra].
Qed.
(** all four given: all four used *)
Theorem par_explicit p N f0 a1 b1 a2 b2 : par_freqs p N f0 (Some a1) (Some b1) (Some a2) (Some b2) = (a1, b1, a2, b2).
Proof. reflexivity. Qed.
(** [fmax2] without [fmax1] is dropped *)
Theorem par_fmax2 p s f0 N a1 a2 f k : par_chirp p s f0 N a1 None a2 (Some f) k = par_chirp p s f0 N a1 None a2 None k.
Proof. reflexivity. Qed.

Lemma vadd_length a b : length a = length b -> length (vadd a b) = length a.
Proof. revert b. induction a as [|x a IH]; intros [|y b] H; cbn in *; try lia. rewrite IH; lia. Qed.
Lemma vadd_nth a b k : length a = length b -> (k < length a)%nat -> nth k (vadd a b) 0 = nth k a 0 + nth k b 0.
Proof.
  revert b k. induction a as [|x a IH]; intros [|y b] k H Hk; cbn in *; try lia. destruct k; [reflexivity|]. apply IH; lia.
Qed.
Lemma nth_map0 {A B} (g : A -> B) l k a b : (k < length l)%nat -> nth k (map g l) b = g (nth k l a).
Proof. intros H. rewrite nth_indep with (d' := g a) by (rewrite map_length; exact H). apply map_nth. Qed.

Lemma generate_N fn s N fmin fmax k c : fn (kw_tmin s k) (kw_tmax s k) fmin fmax = Ok c -> forall t,
  times (kw_tmin s k) (kw_tmax s k) N (kw_end s k) = Ok t ->
  generate fn s (Some N) fmin (Some fmax) k = Ok (map (fun t => cos (fst c t)) t, t).
Proof.
  intros Ec t Et. unfold generate, process_params. fold (kw_tmin s k) (kw_tmax s k) (kw_end s k). cbn [bind].
  rewrite Et. cbn [bind]. rewrite Ec. reflexivity.
Qed.
(** the two chirps are added, sample by sample, over the same times *)
Theorem par_sum p s f0 N u1 v1 u2 v2 k a1 b1 a2 b2 c1 c2 : let n := or_N s N in (0 <= n)%Z ->
  par_freqs p n f0 u1 v1 u2 v2 = (a1, b1, a2, b2) ->
  par_fn p (kw_tmin s k) (kw_tmax s k) a1 b1 = Ok c1 -> par_fn p (kw_tmin s k) (kw_tmax s k) a2 b2 = Ok c2 ->
  exists x t, par_chirp p s f0 N u1 v1 u2 v2 k = Ok (x, t) /\ length x = Z.to_nat n /\ length t = Z.to_nat n /\
    times (kw_tmin s k) (kw_tmax s k) n (kw_end s k) = Ok t /\
    forall i, (i < length t)%nat -> nth i x 0 = cos (fst c1 (nth i t 0)) + cos (fst c2 (nth i t 0)).
Proof.
  intros n Hn Ef E1 E2. unfold par_chirp. fold n. rewrite Ef.
  assert (exists t, times (kw_tmin s k) (kw_tmax s k) n (kw_end s k) = Ok t) as (t & Et).
  { unfold times. destruct (Z.ltb_spec n 0); [lia|]. eauto. }
  rewrite (generate_N _ _ _ _ _ _ _ E1 t Et), (generate_N _ _ _ _ _ _ _ E2 t Et). cbn [bind].
  destruct (times_spec _ _ _ _ _ Et) as (_ & Hl & _).
  do 2 eexists. split; [reflexivity|]. split; [rewrite vadd_length, map_length by (rewrite !map_length; reflexivity); exact Hl|].
  split; [exact Hl|]. split; [exact Et|]. intros i Hi.
  rewrite vadd_nth by (rewrite !map_length; auto).
  now rewrite !(nth_map0 _ t i 0) by exact Hi.
Qed.

(** ** amplitude modulators stay between [amin] and [amax] *)
Definition in_band (amin amax : R) (a : list R) : Prop := forall i, (i < length a)%nat -> amin <= nth i a 0 <= amax.
Lemma mix amin amax u : amin <= amax -> 0 <= u <= 1 -> amin <= amin + (amax - amin) * u <= amax.
Proof. nra. Qed.
Theorem am_tone_band g s N f amin amax phi k a t : (forall x, Ropp 1 <= g x <= 1) -> amin <= amax ->
  am_tone g s N f amin amax phi k = Ok (a, t) -> in_band amin amax a /\ length a = Z.to_nat (or_N s N).
Proof.
  intros Hg Ha E. unfold am_tone, tone in E.
  destruct (process_params _ _ _ _) as [[[[t' ?] ?] ?]|] eqn:Ep; [|discriminate]. cbn [bind] in E. injection E as <- <-.
  unfold process_params in Ep. cbn [bind] in Ep. destruct (times _ _ _ _) as [t''|] eqn:Et; [|discriminate].
  cbn [bind] in Ep. injection Ep as <- _ _ _. destruct (times_spec _ _ _ _ _ Et) as (_ & Hl & _).
  split; [|now rewrite !map_length].
  intros i Hi. rewrite !map_length in Hi. rewrite (nth_map0 _ _ i 0) by (now rewrite map_length).
  rewrite (nth_map0 _ _ i 0) by exact Hi. apply mix; [exact Ha|].
  specialize (Hg (2 * PI * f * nth i t'' 0 + phi)). lra.
Qed.
Theorem am_exp_band s N amin amax k a t : kw_tmin s k < kw_tmax s k -> 0 < amin < amax ->
  am_exp s N amin amax k = Ok (a, t) ->
  in_band amin amax a /\ length a = Z.to_nat (or_N s N) /\
  ((0 < or_N s N)%Z -> nth 0 a 0 = amin) /\ ((2 <= or_N s N)%Z -> kw_end s k = true -> nth (length a - 1) a 0 = amax).
Proof.
  intros Ht Ha E. unfold am_exp, process_params in E. fold (kw_tmin s k) (kw_tmax s k) (kw_end s k) in E. cbn [bind] in E.
  destruct (times _ _ _ _) as [t'|] eqn:Et; [|discriminate]. cbn [bind] in E.
  unfold echirp_fn in E. destruct (Req_EM_T (kw_tmax s k) 0) as [H0|H0].
  { rewrite echirp_fails in E by (assumption || lra). discriminate. }
  destruct (echirp_sweeps (kw_tmin s k) (kw_tmax s k) amin amax Ht ltac:(lra) ltac:(lra) H0) as (c & Ec & (_ & S1 & S2 & _ & Sm)).
  rewrite Ec in E. cbn [bind] in E. injection E as <- <-.
  destruct (times_spec _ _ _ _ _ Et) as (_ & Hl & Hn & Hz). pose proof PI_RGT_0.
  assert (R1 : snd c (kw_tmin s k) / (2 * PI) = amin) by (rewrite S1; field; lra).
  assert (R2 : snd c (kw_tmax s k) / (2 * PI) = amax) by (rewrite S2; field; lra).
  split; [|split; [now rewrite map_length|split]].
  - intros i Hi. rewrite map_length in Hi. rewrite (nth_map0 _ _ i 0) by exact Hi.
    pose proof (times_range _ _ _ _ _ i Ht Et Hi) as Hr. set (u := nth i t' 0) in *.
    assert (snd c (kw_tmin s k) <= snd c u) by (destruct (Rle_lt_or_eq_dec (kw_tmin s k) u ltac:(lra)) as [Hlt| <-]; [left; apply Sm; lra|lra]).
    assert (snd c u <= snd c (kw_tmax s k)) by (destruct (Rle_lt_or_eq_dec u (kw_tmax s k) ltac:(lra)) as [Hlt| ->]; [left; apply Sm; lra|lra]).
    rewrite <- R1, <- R2 at 1. assert (0 < / (2 * PI)) by (apply Rinv_0_lt_compat; lra).
    split; apply Rmult_le_compat_r; lra.
  - intros Hp. rewrite (nth_map0 _ _ 0%nat 0) by lia. rewrite Hz by exact Hp. exact R1.
  - intros Hp He. rewrite map_length. rewrite (nth_map0 _ _ (length t' - 1)%nat 0) by lia. rewrite <- R2. do 2 f_equal.
    rewrite Hn by lia. rewrite He. unfold step. rewrite INR_IZR_INZ, Hl. replace (Z.of_nat (Z.to_nat (or_N s N) - 1)) with (or_N s N - 1)%Z by lia.
    field. apply not_0_IZR. lia.
Qed.
Lemma lsum_app a b : lsum (a ++ b) = lsum a + lsum b.
Proof. unfold lsum. induction a as [|x a IH]; cbn; [ring|]. rewrite IH. ring. Qed.
(** the mean of evenly spaced numbers *)
Lemma lsum_arith a h n : lsum (tab n (fun k => a + INR k * h)) = INR n * a + INR n * (INR n - 1) / 2 * h.
Proof.
  induction n as [|n IH]; [cbn; field|].
  replace (tab (S n) (fun k => a + INR k * h)) with (tab n (fun k => a + INR k * h) ++ [a + INR n * h]).
  - rewrite lsum_app, IH, S_INR. unfold lsum. cbn. field.
  - unfold tab. rewrite seq_S, map_app. reflexivity.
Qed.
Theorem am_gauss_band s N amin amax k a t : amin <= amax ->
  am_gauss s N amin amax k = Ok (a, t) ->
  in_band amin amax a /\ length a = Z.to_nat (or_N s N) /\
  (forall i, (i < length a)%nat -> nth i a 0 = nth (length a - 1 - i) a 0) /\
  (forall i j, (i <= j)%nat -> (2 * j + 1 <= length a)%nat -> nth i a 0 <= nth j a 0) /\
  (forall j, length a = (2 * j + 1)%nat -> nth j a 0 = amax).
Proof.
  intros Ha E. unfold am_gauss in E. destruct (times _ _ _ _) as [t'|] eqn:Et; [|discriminate]. cbn [bind] in E. injection E as <- <-.
  destruct (times_spec _ _ _ _ _ Et) as (H0 & Hl & _ & _).
  set (n := length t') in *. rewrite map_length.
  assert (Hn : forall i, (i < n)%nat -> nth i t' 0 = -1 + INR i * (2 / INR n)).
  { intros i Hi. unfold times in Et. destruct (Z.ltb_spec (or_N s N) 0); [discriminate|]. injection Et as Et.
    assert (En : IZR (or_N s N) = INR n) by (rewrite INR_IZR_INZ; f_equal; lia).
    replace (nth i t' 0) with (-1 + INR i * ((1 - -1) / IZR (or_N s N))).
    - rewrite En. f_equal. f_equal. f_equal. ring.
    - rewrite <- Et. rewrite nth_tab by lia. reflexivity. }
  assert (Hm : (0 < n)%nat -> mean t' = - / INR n).
  { intros Hp. unfold mean. fold n. replace t' with (tab n (fun i => -1 + INR i * (2 / INR n))).
    - rewrite lsum_arith. assert (0 < INR n) by (apply (lt_INR 0); lia). field. lra.
    - apply nth_ext with 0 0; [now rewrite tab_length|]. intros i Hi. rewrite tab_length in Hi. rewrite nth_tab by exact Hi. symmetry. auto. }
  assert (Hd : forall i, (i < n)%nat -> nth i t' 0 - mean t' = (2 * INR i + 1 - INR n) / INR n).
  { intros i Hi. rewrite Hm, Hn by lia. assert (0 < INR n) by (apply (lt_INR 0); lia). field. lra. }
  assert (Hv : forall i, (i < n)%nat -> nth i (map (fun u => amin + (amax - amin) * exp (- ((u - mean t') ^ 2 * 5))) t') 0 =
    amin + (amax - amin) * exp (- (((2 * INR i + 1 - INR n) / INR n) ^ 2 * 5))).
  { intros i Hi. rewrite (nth_map0 _ _ i 0) by exact Hi. now rewrite Hd. }
  split; [|split; [exact Hl|split; [|split]]].
  - intros i Hi. rewrite map_length in Hi. rewrite Hv by exact Hi. apply mix; [exact Ha|].
    split; [left; apply exp_pos|]. set (z := (2 * INR i + 1 - INR n) / INR n). pose proof (pow2_ge_0 z). pose proof exp_0.
    destruct (Rle_lt_or_eq_dec (- (z ^ 2 * 5)) 0 ltac:(lra)) as [Hlt|Heq]; [apply exp_increasing in Hlt; lra|rewrite Heq; lra].
  - intros i Hi. rewrite !Hv by lia. rewrite !minus_INR by lia. change (INR 1) with 1.
    assert (0 < INR n) by (apply (lt_INR 0); lia).
    replace (((2 * INR i + 1 - INR n) / INR n) ^ 2) with (((2 * (INR n - 1 - INR i) + 1 - INR n) / INR n) ^ 2) by (field; lra).
    reflexivity.
  - intros i j Hij Hj. rewrite !Hv by lia. apply Rplus_le_compat_l. apply Rmult_le_compat_l; [lra|].
    assert (Hp : 0 < INR n) by (apply (lt_INR 0); lia).
    assert (INR i <= INR j) by (apply le_INR; lia). assert (2 * INR j + 1 <= INR n).
    { replace (2 * INR j + 1) with (INR (2 * j + 1)) by (rewrite plus_INR, mult_INR; cbn; ring). apply le_INR; lia. }
    assert (Hz : ((2 * INR j + 1 - INR n) / INR n) ^ 2 <= ((2 * INR i + 1 - INR n) / INR n) ^ 2).
    { replace (((2 * INR j + 1 - INR n) / INR n) ^ 2) with (((INR n - (2 * INR j + 1)) / INR n) ^ 2) by (field; lra).
      replace (((2 * INR i + 1 - INR n) / INR n) ^ 2) with (((INR n - (2 * INR i + 1)) / INR n) ^ 2) by (field; lra).
      apply pow_incr. split.
      - apply Rmult_le_pos; [lra|left; apply Rinv_0_lt_compat; lra].
      - apply Rmult_le_compat_r; [left; apply Rinv_0_lt_compat; lra|lra]. }
    destruct (Rle_lt_or_eq_dec _ _ Hz) as [Hlt|Heq]; [left; apply exp_increasing; lra|rewrite Heq; lra].
  - intros j Hj. rewrite Hv by lia.
    assert (En : INR n = 2 * INR j + 1) by (unfold n; rewrite Hj, plus_INR, mult_INR; cbn; ring).
    rewrite En. replace (2 * INR j + 1 - (2 * INR j + 1)) with 0 by ring. unfold Rdiv. rewrite Rmult_0_l.
    replace (- (0 ^ 2 * 5)) with 0 by ring. rewrite exp_0. ring.
Qed.
