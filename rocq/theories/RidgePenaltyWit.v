(** A ridge that hops between two rows without penalty and stays in one with it. *)
From Coq Require Import Reals Lra.
From Verif Require Import Py Parallel Cplx CplxProofs Squeeze Ssqueeze SsqueezeProofs Ridge RidgeProofs RidgeOpt RidgeThms RidgeWitness RidgeInv RidgePenalty PaddingProofs.
Local Open Scope R_scope.

(** row 0 at times 0 and 2, row 1 at time 1 *)
Definition hop : mat C := Mat 2 3 (fun f t => if Nat.eq_dec f (t mod 2) then C1 else C0).
Lemma hop_energy f t : energy hop f t = if Nat.eq_dec f (t mod 2) then 1 else 0.
Proof.
  unfold energy, hop. cbn [el]. destruct (Nat.eq_dec f (t mod 2)); [|rewrite Cabs_0; ring].
  change C1 with (RtoC 1). rewrite Cabs_RtoC, Rabs_R1. ring.
Qed.
Lemma hop_peaks : col_peaks hop (fun _ => 1).
Proof.
  intros t Ht. split; [|lra]. cbn [ncols nrows hop] in *. split.
  - exists (t mod 2)%nat. split; [apply Nat.mod_upper_bound; lia|]. rewrite hop_energy. destruct (Nat.eq_dec _ _); [reflexivity|contradiction].
  - intros f Hf. rewrite hop_energy. destruct (Nat.eq_dec _ _); lra.
Qed.
Lemma hop_free par n bw o : extract_ridges par true hop [1; 2] 0 (S n) bw false = Ok o -> sched_ok 2 par ->
  forall t, (t < 3)%nat -> first_ridge o t = (t mod 2)%nat.
Proof.
  intros H Hs t Ht. pose proof (no_penalty_peaks par true hop [1; 2] (S n) bw false o (fun _ => 1) H Hs ltac:(lia) ltac:(cbn; lia) hop_peaks t Ht) as A.
  rewrite hop_energy in A. destruct (Nat.eq_dec (first_ridge o t) (t mod 2)) as [E|N]; [exact E|]. exfalso.
  cbn [ncols hop Nat.sub] in A. change (eps_of true) with EPS64 in A. pose proof eps_small. change (INR 2) with (1 + 1) in A. nra.
Qed.
Lemma ln_eps_up : - ln EPS64 < 52.
Proof.
  unfold EPS64. rewrite ln_Rinv by lra. rewrite Ropp_involutive.
  replace 4503599627370496 with (IZR (2 ^ 52)) by reflexivity. rewrite ln_pow2 by lia.
  assert (ln 2 < 1); [|lra]. rewrite <- (ln_exp 1). apply ln_increasing; [lra|]. pose proof (exp_ineq1 1 ltac:(lra)). lra.
Qed.
Lemma hop_held par n bw o : extract_ridges par true hop [1; 2] 160 (S n) bw false = Ok o -> sched_ok 2 par ->
  forall t, (t < 3)%nat -> first_ridge o t = 0%nat.
Proof.
  intros H Hs. pose proof eps_small as E. pose proof ln_eps as L1. pose proof ln_eps_up as L2. pose proof ln_1eps as L3.
  destruct (penalty_flattens par true hop [1; 2] 160 (S n) bw false o (fun _ => 1) H Hs ltac:(lia) ltac:(cbn; lia) hop_peaks ltac:(lra)) as (f & Hf & Hc & Hb).
  - intros a b Ha Hb N. cbn [nrows ncols hop Nat.sub] in *. change (eps_of true) with EPS64. change (INR 2) with (1 + 1). change (INR 3) with (1 + 1 + 1).
    assert (jump false [1; 2] 160 a b = 160) as ->; [|lra]. unfold jump. destruct a as [|[|a]], b as [|[|b]]; try lia; cbn [nth]; ring.
  - cbn [nrows ncols hop Nat.sub] in *. intros t Ht. rewrite Hc by exact Ht. destruct f as [|[|f]]; [reflexivity| |lia]. exfalso.
    specialize (Hb 0%nat ltac:(lia)). change (INR 2) with (1 + 1) in Hb. change (eps_of true) with EPS64 in Hb. unfold row_cost, energy_cost in Hb.
    cbn [ncols hop Rsum] in Hb. rewrite !hop_energy in Hb. change (eps_of true) with EPS64 in Hb.
    change (0 mod 2)%nat with 0%nat in Hb. change (1 mod 2)%nat with 1%nat in Hb. change (2 mod 2)%nat with 0%nat in Hb.
    cbn [Nat.eq_dec nat_rec nat_rect] in Hb. 
    repeat match type of Hb with context [Nat.eq_dec ?a ?b] => destruct (Nat.eq_dec a b); try lia end.
    replace (1 / 1 + EPS64) with (1 + EPS64) in Hb by field. replace (0 / 1 + EPS64) with EPS64 in Hb by field. lra.
Qed.
Lemma hop_ok par penalty n bw : exists o, extract_ridges par true hop [1; 2] penalty n bw false = Ok o.
Proof. apply extract_ok; cbn; [lia|lia|reflexivity|discriminate]. Qed.

(** a small penalty does not hold it *)
Lemma hop_weak par penalty sc n bw o : extract_ridges par true hop sc penalty (S n) bw false = Ok o -> sched_ok 2 par ->
  0 <= penalty * (nth 0 sc 0 - nth 1 sc 0) ^ 2 <= 1 / 2 ->
  forall t, (t < 3)%nat -> first_ridge o t = (t mod 2)%nat.
Proof.
  intros H Hs Hp. pose proof eps_small as E. pose proof ln_eps as L1. pose proof ln_1eps as L3.
  assert (V : valid_path 2 3 (first_ridge o)).
  { intros u Hu. destruct (ridges_valid _ _ _ _ _ _ _ _ _ H Hs) as (_ & V). destruct (V 0%nat ltac:(lia)) as (_ & V'). exact (proj1 (V' u Hu)). }
  pose proof (ridge_k_optimal par true hop sc penalty (S n) bw false o 0 (fun _ => 1) H Hs ltac:(lia) ltac:(cbn; lia) hop_peaks (fun t => t mod 2)%nat
    ltac:(intros u _; exact (Nat.mod_upper_bound u 2 ltac:(lia)))) as A.
  change (energy_at (nrows hop) bw (firstn 0 o) (energy hop)) with (energy hop) in A.
  change (fun t => nth t (r_idx (nth 0 o ridge0)) 0%nat) with (first_ridge o) in A. cbn [ncols hop Nat.sub] in A. change (INR 2) with (1 + 1) in A.
  unfold path_cost, cost_of in A. cbn [Rsum Nat.sub] in A. rewrite !hop_energy in A. change (eps_of true) with EPS64 in A.
  change (0 mod 2)%nat with 0%nat in A. change (1 mod 2)%nat with 1%nat in A. change (2 mod 2)%nat with 0%nat in A.
  pose proof (V 0%nat ltac:(lia)) as V0. pose proof (V 1%nat ltac:(lia)) as V1. pose proof (V 2%nat ltac:(lia)) as V2.
  assert (J : jump false sc penalty 1 0 = penalty * (nth 0 sc 0 - nth 1 sc 0) ^ 2 /\ jump false sc penalty 0 1 = penalty * (nth 0 sc 0 - nth 1 sc 0) ^ 2 /\
    jump false sc penalty 0 0 = 0 /\ jump false sc penalty 1 1 = 0) by (unfold jump; repeat split; ring). destruct J as (J1 & J2 & J3 & J4).
  assert (P : forall a b, (a < 2)%nat -> (b < 2)%nat -> 0 <= jump false sc penalty a b).
  { intros [|[|a]] [|[|b]]; intros; try lia; lra. }
  pose proof (P _ _ V1 V0) as P1. pose proof (P _ _ V2 V1) as P2. rewrite J1, J2 in A.
  replace (1 / 1 + EPS64) with (1 + EPS64) in A by field. 
  destruct (Nat.eq_dec 0 0); [|lia]. destruct (Nat.eq_dec 1 1); [|lia].
  replace (1 / 1 + EPS64) with (1 + EPS64) in A by field. 
  assert (G : forall b : bool, 0 / 1 + EPS64 = EPS64) by (intros; field). pose proof (G true) as G1. pose proof (G true) as G2.
  assert (Z : first_ridge o 0 = 0%nat /\ first_ridge o 1 = 1%nat /\ first_ridge o 2 = 0%nat).
  { destruct (Nat.eq_dec (first_ridge o 0) 0) as [w0|w0], (Nat.eq_dec (first_ridge o 1) 1) as [w1|w1], (Nat.eq_dec (first_ridge o 2) 0) as [w2|w2];
      [tauto|exfalso..]; rewrite ?G1 in A; replace (1 / 1 + EPS64) with (1 + EPS64) in A by field; lra. }
  destruct Z as (Z0 & Z1 & Z2). intros [|[|[|t]]] Ht; [exact Z0|exact Z1|exact Z2|lia].
Qed.
(** [transform='stft']: the same frequencies in another unit *)
Lemma stft_unit : exists o o', extract_ridges None true hop [1; 2] 160 1 1 false = Ok o /\
  extract_ridges None true hop (map (Rmult (1 / 20)) [1; 2]) 160 1 1 false = Ok o' /\
  (forall t, (t < 3)%nat -> first_ridge o t = 0%nat) /\ forall t, (t < 3)%nat -> first_ridge o' t = (t mod 2)%nat.
Proof.
  destruct (hop_ok None 160 1 1) as (o & H).
  destruct (extract_ok None true hop (map (Rmult (1 / 20)) [1; 2]) 160 1 1 false ltac:(cbn; lia) ltac:(cbn; lia) eq_refl ltac:(discriminate)) as (o' & H').
  exists o, o'. split; [exact H|]. split; [exact H'|]. split.
  - apply (hop_held None 0 1 o H I).
  - apply (hop_weak None 160 _ 0 1 o' H' I). cbn [map nth]. lra.
Qed.
(** gains 1, 2i and 3 for the columns *)
Lemma hop_gains : exists o, extract_ridges None true hop [1; 2] 160 1 1 false = Ok o /\
  let c t := Cmul (RtoC (INR (S t))) (if Nat.eq_dec t 1 then Ci else C1) in (forall t, c t <> C0) /\
  extract_ridges None true (times_columns c hop) [1; 2] 160 1 1 false = Ok (map (amplified (fun t => Cabs (c t) ^ 2)) o) /\
  Cabs (c 1%nat) = 2.
Proof.
  destruct (hop_ok None 160 1 1) as (o & H). exists o. split; [exact H|]. cbv zeta.
  assert (A : forall t, Cabs (Cmul (RtoC (INR (S t))) (if Nat.eq_dec t 1 then Ci else C1)) = INR (S t)).
  { intros t. rewrite Cabs_mul, Cabs_RtoC. assert (Cabs (if Nat.eq_dec t 1 then Ci else C1) = 1) as ->.
    - destruct (Nat.eq_dec t 1); unfold Cabs, Cnorm2, Ci, C1; cbn [fst snd]; (transitivity (sqrt 1); [f_equal; ring|apply sqrt_1]).
    - rewrite Rabs_right by (apply Rle_ge, pos_INR). ring. }
  assert (N : forall t, Cmul (RtoC (INR (S t))) (if Nat.eq_dec t 1 then Ci else C1) <> C0).
  { intros t Q. specialize (A t). rewrite Q, Cabs_0 in A. pose proof (lt_0_INR (S t) ltac:(lia)). lra. }
  split; [exact N|]. split; [|rewrite (A 1%nat); cbn; ring].
  rewrite (extract_amplified None true hop [1; 2] 160 1 1 false _ N), H. reflexivity.
Qed.
