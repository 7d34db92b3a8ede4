(** Window widths and areas: even lengths, symmetric windows, areas. *)
From Coq Require Import Reals Lra ZifyBool ZifyNat.
From Verif Require Import Py Buffer BufferProofs Cplx CplxProofs Squeeze SqueezeProofs Freqs ShiftProofs Resol ResolProofs ResolThms ResolThms2 WindowRes WindowResThms.
Local Open Scope R_scope.

(** ** even lengths: the highest frequency comes first *)
Theorem even_unsorted N i : (N mod 2 = 0)%nat -> (0 < i < N)%nat ->
  nth 0 (win_w N) 0 = PI /\ nth i (win_w N) 0 = wfreq N i /\ wfreq N i < PI.
Proof.
  intros E Hi. rewrite !nth_win_w by lia. replace ((0 =? 0) && (N mod 2 =? 0))%nat with true by lia.
  replace ((i =? 0) && (N mod 2 =? 0))%nat with false by lia. split; [reflexivity|]. split; [reflexivity|].
  pose proof PI_RGT_0. assert (0 < INR N) by (apply lt_0_INR; lia). pose proof (INR_pred i N ltac:(lia)).
  assert (HE : INR N = 2 * INR (N / 2)) by (rewrite <- (mult_INR 2); f_equal; lia).
  unfold wfreq. apply (Rmult_lt_reg_r (INR N)); [lra|].
  replace (2 * PI / INR N * (INR i - INR (N / 2)) * INR N) with (PI * (2 * (INR i - INR (N / 2)))) by (field; lra).
  apply Rmult_lt_compat_l; lra.
Qed.
Lemma trapzx_even_shift N y : (2 <= N)%nat -> (N mod 2 = 0)%nat -> length y = N ->
  trapzx y (win_w N) = 2 * PI / INR N * trapz y - PI * (nth 0 y 0 + nth 1 y 0).
Proof.
  intros HN E L. unfold trapzx, trapz. rewrite L. destruct N as [|[|n]]; try lia. replace (S (S n) - 1)%nat with (S n) by lia.
  rewrite !Rsum_first. assert (Hn : INR (S (S n)) <> 0) by (apply not_0_INR; lia).
  destruct (even_unsorted (S (S n)) 1 E ltac:(lia)) as (-> & -> & _).
  rewrite (Rsum_ext n (fun i => (nth (S (S i)) (win_w (S (S n))) 0 - nth (S i) (win_w (S (S n))) 0) * (nth (S i) y 0 + nth (S (S i)) y 0) / 2)
    (fun i => 2 * PI / INR (S (S n)) * ((nth (S i) y 0 + nth (S (S i)) y 0) / 2))).
  - rewrite Rsum_scal. unfold wfreq.
    assert (HE : INR (S (S n)) = 2 * INR (S (S n) / 2)) by (rewrite <- (mult_INR 2); f_equal; lia).
    replace (2 * PI / INR (S (S n)) * (INR 1 - INR (S (S n) / 2))) with (2 * PI / INR (S (S n)) - PI) by (rewrite HE in Hn |- *; change (INR 1) with 1; field; lra).
    field. exact Hn.
  - intros i Hi. destruct (even_unsorted (S (S n)) (S i) E ltac:(lia)) as (_ & -> & _). destruct (even_unsorted (S (S n)) (S (S i)) E ltac:(lia)) as (_ & -> & _).
    unfold wfreq. rewrite !S_INR. field. rewrite !S_INR in Hn. exact Hn.
Qed.
(** with nothing at the two highest frequencies the widths are what they should be *)
Theorem resolution_even x : (4 <= length x)%nat -> (length x mod 2 = 0)%nat -> nonneg x -> nonzero x ->
  power x PI = 0 -> power x (wfreq (length x) 1) = 0 ->
  exists sw st, window_resolution x = Ok (Some sw, Some st, Some (sw * st)) /\
    0 <= sw < PI /\ 0 <= st <= INR (length x) / 2 /\
    sw ^ 2 * Rsum (length x) (wweight x) = Rsum (length x) (fun i => wweight x i * wfreq (length x) i ^ 2) /\
    st ^ 2 * Rsum (length x) (tweight x) = Rsum (length x) (fun i => tweight x i * (INR i - INR (length x) / 2) ^ 2) /\
    0 < Rsum (length x) (wweight x) /\ 0 < Rsum (length x) (tweight x).
Proof.
  intros L Ev H H0 P1 P2. destruct (var_t_val x ltac:(lia) H0) as (Ht & Et). pose proof PI_RGT_0.
  set (N := length x) in *. assert (HN : 4 <= INR N) by (apply le_INR in L; cbn in L; lra).
  assert (HE : INR N = 2 * INR (N / 2)) by (rewrite <- (mult_INR 2); f_equal; lia).
  assert (P0 : power x (wfreq N 0) = 0).
  { rewrite <- P1. replace (wfreq N 0) with (- PI).
    - unfold power. f_equal.
      + f_equal. apply Rsum_ext. intros m _. replace (- PI * INR m) with (- (PI * INR m)) by ring. now rewrite cos_neg.
      + rewrite (Rsum_ext (length x) (fun m => nth m x 0 * sin (- PI * INR m)) (fun m => -1 * (nth m x 0 * sin (PI * INR m)))).
        * rewrite Rsum_scal. ring.
        * intros m _. replace (- PI * INR m) with (- (PI * INR m)) by ring. rewrite sin_neg. ring.
    - unfold wfreq. cbn [INR]. rewrite HE. field. lra. }
  assert (Sp : forall i, (i < N)%nat -> nth i (win_spec x) 0 = power x (wfreq N i)).
  { intros i Hi. rewrite nth_spec by exact Hi. destruct i as [|i].
    - rewrite nth_win_w by lia. cbn [Nat.eqb andb]. fold N. replace (N mod 2 =? 0)%nat with true by lia. now rewrite P0.
    - destruct (even_unsorted N (S i) Ev ltac:(lia)) as (_ & E & _). fold N. now rewrite E. }
  assert (W : forall i, (i < N)%nat -> weights (win_spec x) i = wweight x i).
  { intros i Hi. unfold weights, wweight. now rewrite length_spec, Sp. }
  assert (Hn : forall i, (i < length (win_spec x))%nat -> 0 <= nth i (win_spec x) 0).
  { intros i Hi. rewrite length_spec in Hi. rewrite nth_spec by exact Hi. apply power_nonneg. }
  assert (Hp : exists i, (i < length (win_spec x))%nat /\ 0 < nth i (win_spec x) 0) by (apply spec_pos; auto; lia).
  destruct (weights_pos (win_spec x)) as (Hnn & Hw); [rewrite length_spec; fold N; lia|exact Hn|exact Hp|].
  rewrite length_spec in Hw, Hnn. fold N in Hw, Hnn. rewrite (Rsum_ext N _ (wweight x)) in Hw by exact W.
  assert (Hwn : forall i, (i < N)%nat -> 0 <= wweight x i) by (intros i Hi; rewrite <- W by exact Hi; auto).
  assert (Ew : second_moment (win_spec x) (win_w N) = Some (Rsum N (fun i => wweight x i * wfreq N i ^ 2) / Rsum N (wweight x))).
  { rewrite (second_moment_val (2 * PI / INR N)).
    - rewrite length_spec. fold N. f_equal. f_equal.
      + apply Rsum_ext. intros i Hi. rewrite W by exact Hi. destruct i as [|i].
        * unfold wweight. fold N. rewrite P0. ring.
        * destruct (even_unsorted N (S i) Ev ltac:(lia)) as (_ & -> & _). reflexivity.
      + apply Rsum_ext. exact W.
    - now rewrite length_spec, length_win_w.
    - apply Rdiv_lt_0_compat; lra.
    - rewrite length_spec. fold N. lia.
    - intros i. rewrite length_spec. fold N. intros Hi. destruct i as [|i].
      + right. rewrite !Sp by lia. auto.
      + left. destruct (even_unsorted N (S i) Ev ltac:(lia)) as (_ & -> & _). destruct (even_unsorted N (S (S i)) Ev ltac:(lia)) as (_ & -> & _).
        unfold wfreq. rewrite !S_INR. ring.
    - exact Hn.
    - exact Hp. }
  set (b := 2 * PI / INR N * (INR (N / 2) - 1)).
  assert (Hb : 0 <= b < PI).
  { unfold b. split.
    - apply Rmult_le_pos; [left; apply Rdiv_lt_0_compat; lra|lra].
    - apply (Rmult_lt_reg_r (INR N)); [lra|]. replace (2 * PI / INR N * (INR (N / 2) - 1) * INR N) with (PI * (2 * (INR (N / 2) - 1))) by (field; lra).
      apply Rmult_lt_compat_l; lra. }
  assert (Bw : 0 <= Rsum N (fun i => wweight x i * wfreq N i ^ 2) / Rsum N (wweight x) <= b ^ 2).
  { apply wmean_bounds; [exact Hwn| |exact Hw]. intros i Hi Hne. split; [apply sq_nonneg|].
    rewrite <- (pow2_abs (wfreq N i)). apply pow_incr. split; [apply Rabs_pos|].
    assert (Hi0 : (0 < i)%nat) by (destruct i as [|i]; [exfalso; apply Hne; unfold wweight; fold N; rewrite P0; ring|lia]).
    unfold wfreq, b. rewrite Rabs_mult, (Rabs_pos_eq (2 * PI / INR N)) by (left; apply Rdiv_lt_0_compat; lra).
    apply Rmult_le_compat_l; [left; apply Rdiv_lt_0_compat; lra|].
    assert (1 <= INR i) by (apply (le_INR 1); lia). pose proof (INR_pred i N Hi). apply Rabs_le. lra. }
  assert (Bt : 0 <= Rsum N (fun i => tweight x i * (INR i - INR N / 2) ^ 2) / Rsum N (tweight x) <= (INR N / 2) ^ 2).
  { apply wmean_bounds; [| |exact Ht].
    - intros i Hi. unfold tweight. apply Rmult_le_pos; [left; apply tzw_pos; fold N; lia|apply sq_nonneg].
    - intros i Hi _. split; [apply sq_nonneg|]. rewrite <- (pow2_abs (INR i - INR N / 2)). apply pow_incr. split; [apply Rabs_pos|].
      assert (0 <= INR i) by apply pos_INR. pose proof (INR_pred i N Hi). apply Rabs_le. lra. }
  exists (sqrt (Rsum N (fun i => wweight x i * wfreq N i ^ 2) / Rsum N (wweight x))), (sqrt (Rsum N (fun i => tweight x i * (INR i - INR N / 2) ^ 2) / Rsum N (tweight x))).
  split.
  { unfold window_resolution. fold N. replace (N =? 0)%nat with false by lia. rewrite (proj1 (nonneg_check x) H).
    rewrite Ew, Et. cbn [obind]. rewrite !npsqrt_nonneg by apply Bw || apply Bt. reflexivity. }
  split; [split; [apply sqrt_pos|]|].
  { apply Rle_lt_trans with (sqrt (b ^ 2)); [apply sqrt_le_1_alt, Bw|rewrite sqrt_pow2; lra]. }
  split; [split; [apply sqrt_pos|]|].
  { apply Rle_trans with (sqrt ((INR N / 2) ^ 2)); [apply sqrt_le_1_alt, Bt|rewrite sqrt_pow2; lra]. }
  rewrite !pow2_sqrt by apply Bw || apply Bt. repeat split; try assumption; field; lra.
Qed.

(** ** four samples *)
Lemma power4 a b c d : power [a; b; c; d] PI = (a - b + c - d) ^ 2 /\
  power [a; b; c; d] (wfreq 4 1) = (a - c) ^ 2 + (b - d) ^ 2 /\ power [a; b; c; d] (wfreq 4 2) = (a + b + c + d) ^ 2 /\
  power [a; b; c; d] (wfreq 4 3) = (a - c) ^ 2 + (b - d) ^ 2.
Proof.
  assert (C3 : cos (PI * 3) = -1) by (replace (PI * 3) with (PI + 2 * INR 1 * PI) by (cbn; ring); rewrite cos_period; apply cos_PI).
  assert (S3 : sin (PI * 3) = 0) by (replace (PI * 3) with (PI + 2 * INR 1 * PI) by (cbn; ring); rewrite sin_period; apply sin_PI).
  assert (C2 : cos (PI * 2) = 1) by (rewrite Rmult_comm; apply cos_2PI).
  assert (S2 : sin (PI * 2) = 0) by (rewrite Rmult_comm; apply sin_2PI).
  assert (H3 : PI / 2 * 3 = 3 * (PI / 2)) by ring.
  assert (F1 : wfreq 4 1 = - (PI / 2)) by (unfold wfreq; change (4 / 2)%nat with 2%nat; cbn [INR]; field).
  assert (F2 : wfreq 4 2 = 0) by (unfold wfreq; change (4 / 2)%nat with 2%nat; cbn [INR]; field).
  assert (F3 : wfreq 4 3 = PI / 2) by (unfold wfreq; change (4 / 2)%nat with 2%nat; cbn [INR]; field).
  rewrite F1, F2, F3. unfold power. cbn [length Rsum nth INR].
  replace (1 + 1 + 1) with 3 by ring. replace (1 + 1) with 2 by ring.
  replace (PI / 2 * 2) with PI by field. rewrite !Ropp_mult_distr_l_reverse.
  replace (PI / 2 * 2) with PI by field. rewrite H3.
  rewrite !Rmult_0_r, !Rmult_0_l, !Rmult_1_r, !cos_neg, !sin_neg, ?Ropp_0, !cos_0, !sin_0, C3, S3, C2, S2, cos_PI, sin_PI, cos_PI2, sin_PI2, cos_3PI2, sin_3PI2.
  repeat split; ring.
Qed.
Lemma moment4 a b c d : let A := (a - b + c - d) ^ 2 in let B := (a - c) ^ 2 + (b - d) ^ 2 in let C := (a + b + c + d) ^ 2 in
  second_moment (win_spec [a; b; c; d]) (win_w 4) =
  npdiv (PI ^ 3 * - (3 / 4 * A + B / 16)) (PI / 2 * (C - 3 / 2 * A - B / 2)).
Proof.
  intros A B C. destruct (power4 a b c d) as (P0 & P1 & P2 & P3). fold A in P0. fold B in P1, P3. fold C in P2.
  unfold second_moment. rewrite !trapzx_even_shift by (rewrite ?length_lmul, ?map_length, ?length_win_w, ?length_spec; cbn; lia).
  assert (W : win_w 4 = [PI; wfreq 4 1; wfreq 4 2; wfreq 4 3]).
  { apply (nth_ext _ _ 0 0); [now rewrite length_win_w|]. rewrite length_win_w. intros i Hi.
    destruct i as [|i]; [now rewrite nth_win_w by lia|]. destruct (even_unsorted 4 (S i) eq_refl ltac:(lia)) as (_ & -> & _).
    do 3 (destruct i as [|i]; [reflexivity|]). lia. }
  rewrite spec_power. change (length [a; b; c; d]) with 4%nat. rewrite W. cbn [map]. rewrite P0, P1, P2, P3.
  unfold lmul, trapz, wfreq. change (4 / 2)%nat with 2%nat. cbn [map combine length Nat.sub Rsum nth INR].
  f_equal; field.
Qed.
Theorem box4 : exists st, window_resolution [1; 1; 1; 1] = Ok (Some 0, Some st, Some 0).
Proof.
  assert (Hx : nonzero [1; 1; 1; 1]) by (exists 0%nat; cbn; split; [lia|lra]).
  destruct (var_t_val [1; 1; 1; 1] ltac:(cbn; lia) Hx) as (Ht & Et).
  assert (Hn : nonneg [1; 1; 1; 1]) by (intros i Hi; do 4 (destruct i as [|i]; [cbn; lra|]); cbn in Hi; lia).
  unfold window_resolution. rewrite (proj1 (nonneg_check _) Hn). cbn [length Nat.eqb]. change (length [1; 1; 1; 1]) with 4%nat in Et. rewrite moment4, Et.
  pose proof PI_RGT_0. unfold npdiv. destruct (Req_EM_T _ 0) as [E|_]; [nra|]. cbn [obind].
  rewrite npsqrt_nonneg by (right; unfold Rdiv; ring). rewrite npsqrt_nonneg.
  - eexists. cbn [obind]. do 2 f_equal.
    + f_equal. f_equal. rewrite <- sqrt_0. f_equal. unfold Rdiv. ring.
    + f_equal. match goal with |- sqrt ?u * _ = _ => replace u with 0 by (unfold Rdiv; ring) end. rewrite sqrt_0. ring.
  - apply Rmult_le_pos; [|left; apply Rinv_0_lt_compat; exact Ht]. apply Rsum_nonneg. intros i Hi.
    apply Rmult_le_pos; [|apply sq_nonneg]. unfold tweight. apply Rmult_le_pos; [left; apply tzw_pos; cbn in *; lia|apply sq_nonneg].
Qed.
Theorem hann4 : exists st, window_resolution [0; 1 / 2; 1; 1 / 2] = Ok (None, st, None).
Proof.
  assert (Hn : nonneg [0; 1 / 2; 1; 1 / 2]) by (intros i Hi; do 4 (destruct i as [|i]; [cbn; lra|]); cbn in Hi; lia).
  unfold window_resolution. rewrite (proj1 (nonneg_check _) Hn). cbn [length Nat.eqb]. rewrite moment4.
  pose proof PI_RGT_0. assert (0 < PI ^ 3) by (apply pow_lt; lra).
  unfold npdiv. destruct (Req_EM_T _ 0) as [E|_]; [nra|]. cbn [obind].
  unfold npsqrt at 1 3. destruct (Rlt_dec _ 0) as [_|Hc].
  - eexists. reflexivity.
  - exfalso. apply Hc. match goal with |- ?u < 0 => replace u with (- (PI ^ 2 / 28)) by (field; lra) end.
    assert (0 < PI ^ 2) by (apply pow_lt; lra). lra.
Qed.
Theorem delta4 : exists sw st h, window_resolution [0; 0; 1; 0] = Ok (Some sw, Some st, h) /\ PI < sw /\ st = 0.
Proof.
  assert (Hn : nonneg [0; 0; 1; 0]) by (intros i Hi; do 4 (destruct i as [|i]; [cbn; lra|]); cbn in Hi; lia).
  assert (Hx : nonzero [0; 0; 1; 0]) by (exists 2%nat; cbn; split; [lia|lra]).
  destruct (var_t_val [0; 0; 1; 0] ltac:(cbn; lia) Hx) as (Ht & Et).
  unfold window_resolution. rewrite (proj1 (nonneg_check _) Hn). cbn [length Nat.eqb]. change (length [0; 0; 1; 0]) with 4%nat in Et. rewrite moment4, Et.
  pose proof PI_RGT_0. unfold npdiv. destruct (Req_EM_T _ 0) as [E|_]; [nra|]. cbn [obind].
  match goal with |- context [npsqrt (PI ^ 3 * ?u / ?v)] => replace (PI ^ 3 * u / v) with (PI ^ 2 * (13 / 8)) by (field; lra) end.
  assert (0 < PI ^ 2) by (apply pow_lt; lra).
  rewrite npsqrt_nonneg by lra.
  assert (E0 : Rsum 4 (fun i => tweight [0; 0; 1; 0] i * (INR i - INR 4 / 2) ^ 2) = 0).
  { apply Rsum_0. intros i Hi. unfold tweight. do 4 (destruct i as [|i]; [cbn [nth INR]; field|]). lia. }
  rewrite E0. rewrite npsqrt_nonneg by (right; unfold Rdiv; ring).
  do 3 eexists. split; [reflexivity|]. split.
  - rewrite <- (sqrt_pow2 PI) at 1 by lra. apply sqrt_lt_1_alt. lra.
  - replace (0 / _) with 0 by (unfold Rdiv; ring). apply sqrt_0.
Qed.

(** ** symmetric windows: a quarter is added to the variance in time *)
Theorem symmetric_t x : (2 <= length x)%nat -> nonzero x -> (forall i, (i < length x)%nat -> nth i x 0 = nth (length x - 1 - i) x 0) ->
  second_moment (win_energy x) (win_t (length x)) =
  Some (Rsum (length x) (fun i => tweight x i * (INR i - INR (length x - 1) / 2) ^ 2) / Rsum (length x) (tweight x) + 1 / 4).
Proof.
  intros L H0 Hs. destruct (var_t_val x L H0) as (Hp & ->). set (N := length x) in *. f_equal.
  assert (EN : INR (N - 1) = INR N - 1) by (rewrite minus_INR by lia; reflexivity).
  set (c := fun i => INR i - INR (N - 1) / 2).
  assert (Z : Rsum N (fun i => tweight x i * c i) = 0).
  { assert (E : Rsum N (fun i => tweight x i * c i) = - 1 * Rsum N (fun i => tweight x i * c i)); [|lra].
    rewrite Rsum_rev at 1. rewrite <- Rsum_scal. apply Rsum_ext. intros i Hi.
    assert (tweight x (N - 1 - i) = tweight x i) as ->.
    { unfold tweight. fold N. rewrite <- (Hs i Hi). f_equal. unfold tzw.
      destruct (Nat.ltb_spec 0 (N - 1 - i)); destruct (Nat.ltb_spec (N - 1 - i + 1) N); destruct (Nat.ltb_spec 0 i); destruct (Nat.ltb_spec (i + 1) N); lia || lra. }
    unfold c. rewrite minus_INR by lia. field. }
  apply (Rmult_eq_reg_r (Rsum N (tweight x))); [|lra]. rewrite Rmult_plus_distr_r.
  replace (Rsum N (fun i => tweight x i * (INR i - INR N / 2) ^ 2) / Rsum N (tweight x) * Rsum N (tweight x)) with (Rsum N (fun i => tweight x i * (INR i - INR N / 2) ^ 2)) by (field; lra).
  replace (Rsum N (fun i => tweight x i * (INR i - INR (N - 1) / 2) ^ 2) / Rsum N (tweight x) * Rsum N (tweight x)) with (Rsum N (fun i => tweight x i * (INR i - INR (N - 1) / 2) ^ 2)) by (field; lra).
  rewrite (Rsum_ext N (fun i => tweight x i * (INR i - INR N / 2) ^ 2) (fun i => tweight x i * c i ^ 2 + (- 1 * (tweight x i * c i) + 1 / 4 * tweight x i))).
  - rewrite !Rsum_plus, !Rsum_scal, Z. unfold c. ring.
  - intros i _. unfold c. rewrite EN. field.
Qed.
(** all the energy in the middle sample, yet half a sample wide *)
Theorem centred3 : exists sw h, window_resolution [0; 1; 0] = Ok (Some sw, Some (1 / 2), h).
Proof.
  assert (Hn : nonneg [0; 1; 0]) by (intros i Hi; do 3 (destruct i as [|i]; [cbn; lra|]); cbn in Hi; lia).
  assert (Hx : nonzero [0; 1; 0]) by (exists 1%nat; cbn; split; [lia|lra]).
  destruct (resolution_odd [0; 1; 0] ltac:(cbn; lia) eq_refl Hn Hx) as (sw & st & E & _ & Hst & _ & Ht & _).
  exists sw, (Some (sw * st)). rewrite E. do 2 f_equal. f_equal.
  assert (E1 : st ^ 2 = 1 / 4).
  { cbn [length Rsum] in Ht. unfold tweight, tzw in Ht. cbn [length nth INR Nat.ltb Nat.leb Nat.add] in Ht. lra. }
  assert ((st - 1 / 2) * (st + 1 / 2) = 0) as E2 by lra. apply Rmult_integral in E2. destruct E2; [f_equal; lra|lra].
Qed.

(** ** the widths do not depend on the window's amplitude *)
Lemma nth_scaled_list c x m : nth m (map (Rmult c) x) 0 = c * nth m x 0.
Proof.
  destruct (Nat.lt_ge_cases m (length x)) as [H|H]; [now apply nth_map_lt|].
  rewrite !nth_overflow by (rewrite ?map_length; lia). ring.
Qed.
Lemma trapzx_scaled k y x : trapzx (map (Rmult k) y) x = k * trapzx y x.
Proof.
  unfold trapzx. rewrite map_length, <- Rsum_scal. apply Rsum_ext. intros i _. rewrite !nth_scaled_list. field.
Qed.
Lemma lmul_scaled k u y : lmul u (map (Rmult k) y) = map (Rmult k) (lmul u y).
Proof.
  unfold lmul. revert y. induction u as [|v u IH]; intros [|z y]; cbn; try reflexivity. rewrite IH. f_equal. ring.
Qed.
Lemma moment_scaled k y x : k <> 0 -> second_moment (map (Rmult k) y) x = second_moment y x.
Proof.
  intros Hk. unfold second_moment. rewrite lmul_scaled, !trapzx_scaled. unfold npdiv.
  destruct (Req_EM_T (k * trapzx y x) 0) as [E|E]; destruct (Req_EM_T (trapzx y x) 0) as [E'|E']; try reflexivity.
  - apply Rmult_integral in E. destruct E; contradiction.
  - rewrite E', Rmult_0_r in E. contradiction.
  - f_equal. field. split; assumption.
Qed.
Lemma power_scaled c x w : power (map (Rmult c) x) w = c ^ 2 * power x w.
Proof.
  unfold power. rewrite map_length.
  rewrite !(Rsum_ext (length x) (fun m => nth m (map (Rmult c) x) 0 * _) (fun m => c * (nth m x 0 * _))) by (intros; rewrite nth_scaled_list; apply Rmult_assoc).
  rewrite !Rsum_scal. ring.
Qed.
Theorem resolution_scaled c x : 0 < c -> window_resolution (map (Rmult c) x) = window_resolution x.
Proof.
  intros Hc. unfold window_resolution. rewrite map_length.
  assert (existsb (fun u => if Rlt_dec u 0 then true else false) (map (Rmult c) x) = existsb (fun u => if Rlt_dec u 0 then true else false) x) as ->.
  { induction x as [|u x IH]; cbn; [reflexivity|]. rewrite IH. f_equal.
    destruct (Rlt_dec (c * u) 0); destruct (Rlt_dec u 0); try reflexivity; exfalso; nra. }
  assert (win_spec (map (Rmult c) x) = map (Rmult (c ^ 2)) (win_spec x)) as ->.
  { rewrite !spec_power, map_length, map_map. apply map_ext. intros. apply power_scaled. }
  assert (win_energy (map (Rmult c) x) = map (Rmult (c ^ 2)) (win_energy x)) as ->.
  { unfold win_energy. rewrite !map_map. apply map_ext. intros u. rewrite !pow2_abs. ring. }
  assert (c ^ 2 <> 0) by (apply pow_nonzero; lra). rewrite !moment_scaled by assumption. reflexivity.
Qed.

(** ** areas *)
Theorem area_time x : exists a, window_area x true false = Ok (AreaT a) /\ a = Rsum (length x) (tweight x).
Proof.
  eexists. split; [reflexivity|]. rewrite (trapzx_step 1).
  - rewrite trapz_weights, length_energy, Rmult_1_l. apply Rsum_ext. intros i _. unfold tweight. now rewrite nth_energy.
  - intros i. rewrite length_energy. intros. left. now apply win_t_step.
Qed.
Lemma spec_total x : (1 <= length x)%nat ->
  Rsum (length x) (fun i => power x (nth i (xifn 1 (length x)) 0)) = INR (length x) * Rsum (length x) (fun i => nth i x 0 ^ 2).
Proof.
  intros L. rewrite (Rsum_ext (length x) _ (fun k => Cnorm2 (dft (length x) (fun m => RtoC (nth m x 0)) k))) by (intros; symmetry; now apply dft_power).
  rewrite (parseval (length x) L). f_equal. apply Rsum_ext. intros. unfold Cnorm2, RtoC. cbn [fst snd]. ring.
Qed.
(** odd lengths: between 0 and the energy times 2 pi *)
Theorem area_odd x : (length x mod 2 = 1)%nat -> exists a, window_area x false true = Ok (AreaW a) /\
  a = 2 * PI / INR (length x) * Rsum (length x) (wweight x) /\ 0 <= a <= 2 * PI * Rsum (length x) (fun i => nth i x 0 ^ 2).
Proof.
  intros Ho. pose proof PI_RGT_0. assert (HN : 0 < INR (length x)) by (apply lt_0_INR; lia).
  assert (Hw : forall i, (i < length x)%nat -> nth i (win_w (length x)) 0 = wfreq (length x) i).
  { intros i Hi. rewrite nth_win_w by exact Hi. replace ((i =? 0) && (length x mod 2 =? 0))%nat with false by lia. reflexivity. }
  unfold window_area. replace (length x =? 0)%nat with false by lia. eexists. split; [reflexivity|].
  assert (E : trapzx (win_spec x) (win_w (length x)) = 2 * PI / INR (length x) * Rsum (length x) (wweight x)).
  { rewrite (trapzx_step (2 * PI / INR (length x))).
    - rewrite trapz_weights, length_spec. f_equal. apply Rsum_ext. intros i Hi. unfold wweight. now rewrite nth_spec, Hw.
    - intros i. rewrite length_spec. intros Hi. left. rewrite !Hw by lia. unfold wfreq. rewrite S_INR. ring. }
  split; [exact E|]. rewrite E.
  assert (Hh : 0 < 2 * PI / INR (length x)) by (apply Rdiv_lt_0_compat; lra).
  assert (B : 0 <= Rsum (length x) (wweight x) <= Rsum (length x) (fun i => power x (wfreq (length x) i))).
  { split; [apply Rsum_nonneg|apply Rsum_le]; intros i Hi; unfold wweight; pose proof (power_nonneg x (wfreq (length x) i)).
    - apply Rmult_le_pos; [|assumption]. unfold tzw. destruct (_ <? _)%nat; destruct (_ <? _)%nat; lra.
    - rewrite <- (Rmult_1_l (power x (wfreq (length x) i))) at 2. apply Rmult_le_compat_r; [assumption|apply tzw_le]. }
  assert (T : Rsum (length x) (fun i => power x (wfreq (length x) i)) = INR (length x) * Rsum (length x) (fun i => nth i x 0 ^ 2)).
  { rewrite <- spec_total by lia. set (N := length x) in *. set (h := (N / 2)%nat).
    assert (EN : N = (h + S h)%nat) by (unfold h; lia).
    assert (Sh : forall i, (i < N)%nat -> wfreq N i = nth (if (i <? h)%nat then i + (N - h) else i - h) (xifn 1 N) 0).
    { intros i Hi. rewrite <- Hw by exact Hi. unfold win_w. rewrite nth_fftshift by (now rewrite xifn_length). now rewrite xifn_length. }
    rewrite (Rsum_ext N (fun i => power x (wfreq N i)) (fun i => power x (nth (if (i <? h)%nat then i + (N - h) else i - h) (xifn 1 N) 0))) by (intros i Hi; now rewrite Sh).
    match goal with |- Rsum N ?F = Rsum N ?G => replace (Rsum N F) with (Rsum (h + S h) F) by (now rewrite <- EN); replace (Rsum N G) with (Rsum (S h + h) G) by (f_equal; lia) end.
    rewrite !Rsum_app, Rplus_comm. f_equal.
    - apply Rsum_ext. intros i Hi. replace (h + i <? h)%nat with false by lia. do 2 f_equal. lia.
    - apply Rsum_ext. intros i Hi. replace (i <? h)%nat with true by lia. do 2 f_equal. lia. }
  split; [apply Rmult_le_pos; lra|].
  apply Rle_trans with (2 * PI / INR (length x) * (INR (length x) * Rsum (length x) (fun i => nth i x 0 ^ 2))).
  - apply Rmult_le_compat_l; [lra|]. rewrite <- T. apply B.
  - right. field. lra.
Qed.
(** even lengths: what is at the two highest frequencies is taken away *)
Theorem area_even x : (2 <= length x)%nat -> (length x mod 2 = 0)%nat -> exists a, window_area x false true = Ok (AreaW a) /\
  a = 2 * PI / INR (length x) * Rsum (length x) (fun i => tzw (length x) i * power x (if (i =? 0)%nat then PI else wfreq (length x) i))
      - PI * (power x PI + power x (wfreq (length x) 1)).
Proof.
  intros L Ev. unfold window_area. replace (length x =? 0)%nat with false by lia. eexists. split; [reflexivity|].
  rewrite trapzx_even_shift, trapz_weights, length_spec by (rewrite ?length_spec; auto).
  assert (Hw : forall i, (i < length x)%nat -> nth i (win_spec x) 0 = power x (if (i =? 0)%nat then PI else wfreq (length x) i)).
  { intros [|i] Hi; rewrite nth_spec by exact Hi.
    - now destruct (even_unsorted (length x) 1 Ev ltac:(lia)) as (-> & _).
    - now destruct (even_unsorted (length x) (S i) Ev ltac:(lia)) as (_ & -> & _). }
  rewrite !Hw by lia. cbn [Nat.eqb]. f_equal. f_equal. apply Rsum_ext. intros i Hi. now rewrite Hw.
Qed.
Theorem area_negative : exists a, window_area [0; 0; 1; 0] false true = Ok (AreaW a) /\ a < 0.
Proof.
  destruct (area_even [0; 0; 1; 0] ltac:(cbn; lia) eq_refl) as (a & E & Ha). exists a. split; [exact E|].
  destruct (power4 0 0 1 0) as (P0 & P1 & P2 & P3). cbn [length Rsum Nat.eqb] in Ha. rewrite P0, P1, P2, P3 in Ha. unfold tzw in Ha. cbn [Nat.ltb Nat.leb Nat.add INR] in Ha.
  pose proof PI_RGT_0. replace a with (- (PI / 2)) by (rewrite Ha; field). lra.
Qed.
