(** [jumps] and [packed], exactly. *)
From Coq Require Import Reals Lra Lia ZifyBool ZifyNat.
From Verif Require Import Py Round Cplx CplxProofs Squeeze SqueezeProofs BinProofs Scales SsqueezeProofs ScaleThms FreqRange Search SearchProofs
  Chirp ChirpProofs Signals SignalsThms SignalsThms2 SignalsThms3 Tones.
Local Open Scope R_scope.

(** the time points, any [tmin], with or without the end point *)
Theorem jumps_points s N freqs k x t : jumps s N freqs k = Ok (x, t) ->
  let n := n_freqs freqs in let L := (Z.of_nat n * (or_N s N / Z.of_nat n))%Z in (2 <= L)%Z ->
  Z.of_nat (length t) = L /\
  forall q, (q < length t)%nat ->
    nth q t 0 = kw_tmin s k + INR q * ((INR n * (kw_tmax s k - kw_tmin s k) - kw_tmin s k) / IZR (if kw_end s k then L - 1 else L)).
Proof.
  intros E n L HL. unfold jumps in E. fold (n_freqs freqs) in E. fold n in E.
  unfold process_params in E. fold (kw_tmin s k) (kw_tmax s k) (kw_end s k) in E. cbn [bind] in E.
  destruct (times _ _ (or_N s N) _) as [t0|] eqn:E0; [|discriminate]. cbn [bind] in E.
  destruct (Nat.eqb_spec n 0) as [|Hn]; [discriminate|].
  rewrite (Z.mul_comm _ (Z.of_nat n)) in E. fold L in E.
  destruct (times _ _ L _) as [t1|] eqn:Et; [|discriminate]. cbn [bind] in E. injection E as _ <-.
  destruct (times_spec _ _ _ _ _ Et) as (_ & Hl & Hv & _). split; [lia|].
  intros q Hq. rewrite Hv by assumption. unfold step. rewrite (Rmult_comm (kw_tmax s k - kw_tmin s k)). reflexivity.
Qed.
(** so time runs forward exactly if [tmin] is less than the time all segments take *)
Theorem jumps_forward s N freqs k x t : jumps s N freqs k = Ok (x, t) ->
  let n := n_freqs freqs in (2 <= Z.of_nat n * (or_N s N / Z.of_nat n))%Z ->
  ((forall q, (S q < length t)%nat -> nth q t 0 < nth (S q) t 0) <-> kw_tmin s k < INR n * (kw_tmax s k - kw_tmin s k)).
Proof.
  intros E n HL. destruct (jumps_points _ _ _ _ _ _ E HL) as (Hl & V). fold n in Hl, V.
  set (L := (Z.of_nat n * (or_N s N / Z.of_nat n))%Z) in *. set (D := IZR (if kw_end s k then L - 1 else L)) in *.
  assert (HD : 0 < D) by (unfold D; apply IZR_lt; destruct (kw_end s k); lia).
  set (w := INR n * (kw_tmax s k - kw_tmin s k) - kw_tmin s k) in *.
  assert (S : forall q, (S q < length t)%nat -> nth (S q) t 0 = nth q t 0 + w / D).
  { intros q Hq. rewrite !V by lia. rewrite S_INR. ring. }
  assert (Hi : 0 < / D) by now apply Rinv_0_lt_compat.
  split.
  - intros H. specialize (H 0%nat ltac:(lia)). rewrite S in H by lia. assert (0 < w / D) by lra.
    assert (w = w / D * D) by (field; lra). assert (0 < w) by nra. unfold w in *. lra.
  - intros H q Hq. rewrite S by exact Hq. assert (0 < w) by (unfold w; lra). assert (0 < w / D) by (unfold Rdiv; nra). lra.
Qed.
(** [N] samples exactly if the number of frequencies divides [N] *)
Theorem jumps_whole s N freqs k x t : jumps s N freqs k = Ok (x, t) ->
  (Z.of_nat (length x) = or_N s N <-> (Z.of_nat (n_freqs freqs) | or_N s N)%Z).
Proof.
  intros E. destruct (jumps_shape _ _ _ _ _ _ E) as (Hn & _ & Hl & _). rewrite Hl. set (n := Z.of_nat (n_freqs freqs)) in *.
  split.
  - intros H. exists (or_N s N / n)%Z. lia.
  - intros (q & ->). rewrite Z.div_mul by lia. lia.
Qed.

(** ** an overlap of no samples: the odd tones cover everything, the even ones nothing *)
Lemma packed_loop_none freqs i t x :
  length (packed_loop freqs i 0 t x) = length x /\
  forall j, (j < length x)%nat -> nth j (packed_loop freqs i 0 t x) 0 = nth j x 0 +
    Rsum (length freqs) (fun q => if Nat.odd (i + q) then cos (2 * PI * nth q freqs 0 * nth j t 0) else 0).
Proof.
  revert i x. induction freqs as [|f freqs IH]; intros i x.
  { cbn. split; [reflexivity|]. intros. ring. }
  cbn [packed_loop length]. set (x' := if Nat.even i then _ else _).
  assert (Hl : length x' = length x) by (unfold x'; destruct (Nat.even i); apply add_tone_length).
  destruct (IH (S i) x') as (A & B). split; [now rewrite A|]. intros j Hj. rewrite B by lia.
  assert (Hx : nth j x' 0 = nth j x 0 + if Nat.odd i then cos (2 * PI * f * nth j t 0) else 0).
  { unfold x', add_tone, norm_bound. rewrite <- Nat.negb_even. destruct (Nat.even i); rewrite nth_tab by exact Hj; cbn [negb Z.opp Z.ltb Z.compare].
    - destruct (Z.leb_spec (Z.min 0 (Z.of_nat (length x))) (Z.of_nat j)), (Z.ltb_spec (Z.of_nat j) (Z.min 0 (Z.of_nat (length x)))); cbn [andb]; try lia; ring.
    - destruct (Z.ltb_spec (Z.of_nat (length x)) 0); [lia|].
      destruct (Z.leb_spec (Z.min 0 (Z.of_nat (length x))) (Z.of_nat j)); [|lia].
      destruct (Z.ltb_spec (Z.of_nat j) (Z.min (Z.of_nat (length x)) (Z.of_nat (length x)))); [|lia]. reflexivity. }
  rewrite Hx, Rplus_assoc. f_equal. rewrite Rsum_first. rewrite Nat.add_0_r. cbn [nth]. f_equal. apply Rsum_ext. intros q _. now rewrite Nat.add_succ_comm.
Qed.
Theorem packed_none s N freqs overlap k x t : packed s N freqs overlap k = Ok (x, t) ->
  let fs := packed_freqs (or_N s N) freqs in py_int (overlap * INR (length t)) = 0%Z -> length x = length t /\
  forall j, (j < length t)%nat -> nth j x 0 = Rsum (length fs) (fun i => if Nat.odd i then cos (2 * PI * nth i fs 0 * nth j t 0) else 0).
Proof.
  intros E fs HNo. unfold packed in E. destruct (process_params _ _ _ _) as [[[[t0 ?] ?] ?]|]; [|discriminate].
  cbn [bind] in E. injection E as <- Et. subst t0. fold fs. rewrite HNo.
  destruct (packed_loop_none fs 0 t (repeat 0 (length t))) as (A & B). rewrite repeat_length in *.
  split; [exact A|]. intros j Hj. rewrite B by exact Hj. rewrite nth_repeat, Rplus_0_l. reflexivity.
Qed.

(** three seconds-long segments from 1 to 2 in 12 samples; 10 samples of three do not divide *)
Definition f123 : list R := [1; 2; 3].
Lemma jumps_exact_case : exists x t x' t', jumps ts0 (Some 12%Z) (Some f123) (TK (Some 1) (Some 2) (Some false)) = Ok (x, t) /\
  nth 6 t 0 = 2 /\ (forall q, (S q < length t)%nat -> nth q t 0 < nth (S q) t 0) /\ Z.of_nat (length x) = 12%Z /\
  jumps ts0 (Some 10%Z) (Some f123) (TK None None None) = Ok (x', t') /\ Z.of_nat (length x') <> 10%Z.
Proof.
  destruct (jumps ts0 (Some 12%Z) (Some f123) (TK (Some 1) (Some 2) (Some false))) as [[x t]|] eqn:E; [|discriminate].
  destruct (jumps ts0 (Some 10%Z) (Some f123) (TK None None None)) as [[x' t']|] eqn:E'; [|discriminate].
  exists x, t, x', t'. split; [reflexivity|].
  destruct (jumps_points ts0 (Some 12%Z) (Some f123) _ x t E ltac:(cbn; lia)) as (Hl & V).
  change (Z.of_nat (n_freqs (Some f123)) * (or_N ts0 (Some 12%Z) / Z.of_nat (n_freqs (Some f123))))%Z with 12%Z in *.
  split.
  { rewrite V by lia. change (kw_tmin ts0 _) with 1. change (kw_tmax ts0 _) with 2. change (kw_end ts0 _) with false. cbn iota.
    change (n_freqs (Some f123)) with 3%nat. rewrite !INR_IZR_INZ. change (Z.of_nat 6) with 6%Z. change (Z.of_nat 3) with 3%Z. lra. }
  split. { apply (jumps_forward ts0 (Some 12%Z) (Some f123) _ x t E); [cbn; lia|].
    change (kw_tmin ts0 _) with 1. change (kw_tmax ts0 _) with 2. change (n_freqs (Some f123)) with 3%nat. rewrite INR_IZR_INZ. change (Z.of_nat 3) with 3%Z. lra. }
  split. { apply (jumps_whole ts0 (Some 12%Z) (Some f123) _ x t E). exists 4%Z. reflexivity. }
  split; [reflexivity|]. intros H. apply (jumps_whole ts0 (Some 10%Z) (Some f123) _ x' t' E') in H. destruct H as (q & H). change (10 = q * 3)%Z in H. lia.
Qed.

(** the default time range with its end point: the third frequency [jumps] chooses aliases for every [N] *)
Theorem jumps_closed_alias s N k x t : kw_tmin s k = 0 -> kw_tmax s k = 1 -> kw_end s k = true -> (4 <= or_N s N)%Z ->
  jumps s N None k = Ok (x, t) -> ~ below_nyquist (IZR (or_N s N / 4) / 2) t.
Proof.
  intros H0 H1 He HN E. assert (HM : (1 <= or_N s N / 4)%Z) by (apply Z.div_le_lower_bound; lia).
  pose proof (jumps_points _ _ _ _ _ _ E) as P. cbn [n_freqs] in P. change (Z.of_nat 4) with 4%Z in P.
  set (M := (or_N s N / 4)%Z) in *. clearbody M. destruct (P ltac:(lia)) as (Hl & V).
  unfold below_nyquist. rewrite !V by lia. rewrite H0, H1, He.
  replace (INR 4) with 4 by (rewrite INR_IZR_INZ; reflexivity). cbn [INR].
  assert (D : IZR (4 * M - 1) = 4 * IZR M - 1) by (rewrite minus_IZR, mult_IZR; reflexivity). rewrite D. apply IZR_le in HM.
  rewrite Rabs_right by lra. set (m := IZR M) in *. intros C.
  assert (Hi : 0 < / (4 * m - 1)) by (apply Rinv_0_lt_compat; lra). assert (Hr : (4 * m - 1) * / (4 * m - 1) = 1) by (apply Rinv_r; lra).
  unfold Rdiv in C. set (v := / (4 * m - 1)) in *. nra.
Qed.
Lemma closed_alias_case : exists x t, jumps ts0 None None (TK None None None) = Ok (x, t) /\ ~ below_nyquist 64 t.
Proof.
  destruct (jumps ts0 None None (TK None None None)) as [[x t]|] eqn:E; [|discriminate]. exists x, t. split; [reflexivity|].
  pose proof (jumps_closed_alias ts0 None (TK None None None) x t eq_refl eq_refl eq_refl ltac:(cbn; lia) E) as H.
  change (or_N ts0 None / 4)%Z with 128%Z in H. now replace (128 / 2) with 64 in H by lra.
Qed.
