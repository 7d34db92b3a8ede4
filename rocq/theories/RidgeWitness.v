(** Concrete ridges: a dominant row, the modulo of the last index, the negative slice start,
    the exclusive upper end, and a tie. *)
From Coq Require Import Reals Lra.
From Verif Require Import Py Parallel Cplx CplxProofs Squeeze Ssqueeze SsqueezeProofs Ridge RidgeProofs RidgeOpt RidgeThms.
Local Open Scope R_scope.

Lemma eps_small : 0 < EPS64 < / 1000.
Proof. unfold EPS64. split; [apply Rinv_0_lt_compat; lra|]. apply Rinv_lt_contravar; lra. Qed.
Lemma ln_eps : 2 < - ln EPS64.
Proof.
  assert (ln EPS64 < Ropp 2); [|lra]. rewrite <- (ln_exp (Ropp 2)). apply ln_increasing; [apply eps_small|].
  rewrite exp_Ropp. unfold EPS64. apply Rinv_lt_contravar.
  - apply Rmult_lt_0_compat; [apply exp_pos|lra].
  - replace 2 with (1 + 1) by ring. rewrite exp_plus. pose proof exp_le_3. pose proof (exp_pos 1). nra.
Qed.
Lemma ln_1eps : 0 < ln (1 + EPS64) < / 1000.
Proof.
  pose proof eps_small as E. split; [rewrite <- ln_1; apply ln_increasing; lra|].
  apply Rlt_trans with EPS64; [|lra]. rewrite <- (ln_exp EPS64) at 2. apply ln_increasing; [lra|]. apply exp_ineq1. lra.
Qed.

(** ** A row better than every other by more than [eps] *)
Section Dominant.
Variables (F T k : nat) (er pr : nat -> nat -> R) (e : nat * nat -> fl) (pen : nat -> nat -> fl) (eps e0 : R).
Hypothesis HF : (1 <= F)%nat.
Hypothesis HT : (1 <= T)%nat.
Hypothesis Hpen : forall a b, pen a b = Num (pr a b).
Hypothesis He : forall f t, (f < F)%nat -> (t < T)%nat -> e (f, t) = Num (er f t).
Hypothesis Heps : 0 < eps.
Hypothesis Hk : (k < F)%nat.
Hypothesis Hbest : forall t, (t < T)%nat -> er k t = e0.
Hypothesis Hgap : forall f t, (f < F)%nat -> (t < T)%nat -> f <> k -> e0 + eps <= er f t.
Hypothesis Hpk : pr k k = 0.
Hypothesis Hpp : forall a b, 0 <= pr a b.

Variable pe : nat * nat -> fl.
Hypothesis Hpe : forall c, pe c = fw_serial fadd famin pen F T e c.
Notation d := (dval pe).
Lemma er_low f t : (f < F)%nat -> (t < T)%nat -> e0 <= er f t.
Proof. intros Hf Ht. destruct (Nat.eq_dec f k) as [->|N]; [rewrite Hbest by exact Ht; lra|]. pose proof (Hgap f t Hf Ht N). lra. Qed.
Lemma d_low t : (t < T)%nat -> forall f, (f < F)%nat -> INR (S t) * e0 <= d f t /\ (f <> k -> INR (S t) * e0 + eps <= d f t).
Proof.
  induction t as [|t IH]; intros Ht f Hf.
  - rewrite (dval_0 F T er pr e pen HF HT Hpen He pe Hpe f Hf). cbn [INR]. split; [pose proof (er_low f 0 Hf Ht); lra|].
    intros N. pose proof (Hgap f 0%nat Hf Ht N). lra.
  - destruct (dval_S F T er pr e pen HF HT Hpen He pe Hpe f t Hf Ht) as ((g & Hg & Eg) & _).
    destruct (IH ltac:(lia) g Hg) as (I1 & _). pose proof (Hpp f g). rewrite S_INR. split.
    + pose proof (er_low f (S t) Hf Ht). lra.
    + intros N. pose proof (Hgap f (S t) Hf Ht N). lra.
Qed.
Lemma d_k t : (t < T)%nat -> d k t = INR (S t) * e0.
Proof.
  intros Ht. apply Rle_antisym; [|apply (d_low t Ht k Hk)]. induction t as [|t IH].
  - rewrite (dval_0 F T er pr e pen HF HT Hpen He pe Hpe k Hk). rewrite Hbest by exact Ht. cbn [INR]. lra.
  - destruct (dval_S F T er pr e pen HF HT Hpen He pe Hpe k t Hk Ht) as (_ & A). specialize (A k Hk). rewrite Hbest in A by exact Ht.
    specialize (IH ltac:(lia)). rewrite (S_INR (S t)). lra.
Qed.
Lemma argmin_k t : (t < T)%nat -> fargmin (tab F (fun f => pe (f, t))) = k.
Proof.
  intros Ht. rewrite (@tab_ext _ F _ (fun f => Num (d f t))) by (intros f Hf; apply (pe_num F T er pr e pen HF HT Hpen He pe Hpe t Ht f Hf)).
  destruct (fargmin_spec F (fun f => d f t) HF) as (A & B). cbv zeta in *. set (j := fargmin _) in *.
  destruct (Nat.eq_dec j k) as [E|N]; [exact E|]. specialize (B k Hk). destruct (d_low t Ht j A) as (_ & D). specialize (D N).
  rewrite d_k in B by exact Ht. lra.
Qed.
Variable r : nat -> nat.
Hypothesis Hend : r (T - 1)%nat = fw_idx F T pe (T - 1).
Hypothesis Hset : forall t, (t < T - 1)%nat -> settled fl fadd fsub (fnear eps) pen F e pe t (fw_idx F T pe) r.
Lemma last_mod : r (T - 1)%nat = (k mod T)%nat.
Proof. rewrite Hend. unfold fw_idx. rewrite argmin_k by lia. reflexivity. Qed.
Lemma all_k : (k < T)%nat -> forall t, (t < T)%nat -> r t = k.
Proof.
  intros HkT.
  assert (G : forall m t, (t + m = T - 1)%nat -> r t = k).
  { induction m as [|m IH]; intros t Hm.
    - replace t with (T - 1)%nat by lia. rewrite last_mod. apply Nat.mod_small, HkT.
    - assert (Ht : (S t < T)%nat) by lia. specialize (IH (S t) ltac:(lia)).
      pose proof (ridge_link F T er pr e pen eps HF HT Hpen He Heps pe Hpe r Hend Hset t Ht) as L. rewrite IH in L.
      rewrite d_k, Hbest in L by exact Ht.
      destruct (Nat.eq_dec (r t) k) as [E|N]; [exact E|]. exfalso.
      assert (Hv : (r t < F)%nat) by (apply (ridge_valid F T e pen eps HF HT pe r Hend Hset); lia).
      destruct (d_low t ltac:(lia) (r t) Hv) as (_ & D). specialize (D N). pose proof (Hpp k (r t)).
      apply Rabs_def2 in L. rewrite (S_INR (S t)) in L. lra. }
  intros t Ht. apply (G (T - 1 - t)%nat). lia.
Qed.
End Dominant.

(** for [track], whatever the schedule *)
Lemma track_dominant par i F T k pen pr eps e er e0 : sched_ok F par -> (1 <= F)%nat -> (1 <= T)%nat ->
  (forall a b, pen a b = Num (pr a b)) -> (forall f t, (f < F)%nat -> (t < T)%nat -> e (f, t) = Num (er f t)) -> 0 < eps ->
  (k < F)%nat -> (forall t, (t < T)%nat -> er k t = e0) -> (forall f t, (f < F)%nat -> (t < T)%nat -> f <> k -> e0 + eps <= er f t) ->
  pr k k = 0 -> (forall a b, 0 <= pr a b) ->
  track par i F T pen eps e (T - 1)%nat = (k mod T)%nat /\
  ((k < T)%nat -> forall t, (t < T)%nat -> track par i F T pen eps e t = k).
Proof.
  intros Hs HF HT Hpen He Heps Hk Hb Hg Hpk Hpp. destruct (track_spec par i F T pen eps e Hs) as (pe & Hpe & A & B). cbv zeta in *.
  assert (Hend : track par i F T pen eps e (T - 1)%nat = fw_idx F T pe (T - 1)) by (apply A; lia). split.
  - eapply (last_mod F T k er pr e pen eps e0); try eassumption.
  - intros HkT. eapply (all_k F T k er pr e pen eps e0); try eassumption.
Qed.

(** ** A transform with given row amplitudes, constant in time *)
Definition rows (F T : nat) (a : nat -> R) : mat C := Mat F T (fun f _ => RtoC (a f)).
Lemma rows_energy F T a f t : 0 <= a f -> energy (rows F T a) f t = a f * a f.
Proof.
  intros H. unfold energy, rows. cbn [el]. assert (Cabs (RtoC (a f)) = a f) as ->; [|ring].
  unfold Cabs, Cnorm2, RtoC. cbn [fst snd]. replace (a f * a f + 0 * 0) with (a f * a f) by ring. apply sqrt_square, H.
Qed.
Lemma pen_lin a b penalty sc : pen_of penalty false sc a b = penalty * ((nth a sc 0 - nth b sc 0) * (nth a sc 0 - nth b sc 0)).
Proof. reflexivity. Qed.
Lemma pen_nonneg penalty cwt sc a b : 0 <= penalty -> 0 <= pen_of penalty cwt sc a b.
Proof. intros H. unfold pen_of. cbv zeta. apply Rmult_le_pos; [exact H|]. apply Rle_0_sqr. Qed.
Lemma pen_diag penalty cwt sc a : pen_of penalty cwt sc a a = 0.
Proof. unfold pen_of. cbv zeta. ring. Qed.

(** one row [k] of amplitude [1], the others [0] *)
Definition one_row (k f : nat) : R := if Nat.eq_dec f k then 1 else 0.
Lemma one_row_energy F T k f t : energy (rows F T (one_row k)) f t = one_row k f.
Proof. rewrite rows_energy; unfold one_row; destruct (Nat.eq_dec f k); lra. Qed.
Lemma neg_log_scaled F E k c t : (k < F)%nat -> 0 < c -> (forall f, (f < F)%nat -> E f t = c * one_row k f) ->
  forall f, (f < F)%nat -> neg_log_norm F EPS64 E (f, t) = Num (- ln (one_row k f + EPS64)).
Proof.
  intros Hk Hc H f Hf. unfold neg_log_norm. rewrite (colmax_eq F E t c).
  - destruct (Req_EM_T c 0); [lra|]. rewrite H by exact Hf. do 3 f_equal. field. lra.
  - lia.
  - split.
    + exists k. split; [exact Hk|]. rewrite H by exact Hk. unfold one_row. destruct (Nat.eq_dec k k); [ring|congruence].
    + intros g Hg. rewrite H by exact Hg. unfold one_row. destruct (Nat.eq_dec g k); lra.
Qed.
Lemma track_one_row par i F T k pen penalty sc E c : sched_ok F par -> (k < F)%nat -> (1 <= T)%nat -> 0 <= penalty -> 0 < c ->
  pen = penalty_matrix penalty sc -> (forall f t, (f < F)%nat -> (t < T)%nat -> E f t = c * one_row k f) ->
  track par i F T pen EPS64 (neg_log_norm F EPS64 E) (T - 1)%nat = (k mod T)%nat /\
  ((k < T)%nat -> forall t, (t < T)%nat -> track par i F T pen EPS64 (neg_log_norm F EPS64 E) t = k).
Proof.
  intros Hs Hk HT Hp Hc -> HE.
  apply (track_dominant par i F T k _ (pen_of penalty false sc) EPS64 _ (fun f t => - ln (one_row k f + EPS64)) (- ln (1 + EPS64))); auto.
  - lia.
  - intros f t Hf Ht. apply (neg_log_scaled F E k c t); auto.
  - apply eps_small.
  - intros t Ht. unfold one_row. destruct (Nat.eq_dec k k); [reflexivity|congruence].
  - intros f t Hf Ht N. unfold one_row. destruct (Nat.eq_dec f k); [contradiction|]. rewrite Rplus_0_l.
    pose proof ln_eps. pose proof ln_1eps. pose proof eps_small. lra.
  - apply pen_diag.
  - intros a b. apply pen_nonneg, Hp.
Qed.

(** ** C30: more rows than columns *)
Lemma mod_wrong : exists o, extract_ridges None true (rows 3 2 (one_row 2)) [1; 2; 3] 2 1 15 false = Ok o /\
  nth 1 (r_idx (nth 0 o ridge0)) 0%nat = 0%nat /\
  let e := cost_of true (energy (rows 3 2 (one_row 2))) (fun _ => 1) in
  let j := jump false [1; 2; 3] 2 in
  path_cost e j 2 (fun _ => 2%nat) + INR (2 - 1) * eps_of true < path_cost e j 2 (fun t => nth t (r_idx (nth 0 o ridge0)) 0%nat).
Proof.
  assert (X : exists o, extract_ridges None true (rows 3 2 (one_row 2)) [1; 2; 3] 2 1 15 false = Ok o).
  { apply extract_ok; cbn [nrows ncols rows]; try lia; reflexivity. }
  destruct X as (o & Ho).
  exists o. split; [exact Ho|]. pose proof (ridges_valid _ _ _ _ _ _ _ _ _ Ho I) as (_ & V). destruct (V 0%nat ltac:(lia)) as (_ & Hv).
  destruct (Hv 0%nat ltac:(cbn; lia)) as (Hv0 & _). cbv zeta in Hv0. clear V Hv.
  apply extract_inv in Ho. destruct Ho as (_ & _ & _ & _ & Eo). cbn [ridge_loop nrows ncols rows] in Eo.
  set (E0 := fun f t => Cabs (el (rows 3 2 (one_row 2)) f t) * Cabs (el (rows 3 2 (one_row 2)) f t)) in Eo.
  assert (HE : forall f t, E0 f t = 1 * one_row 2 f).
  { intros f t. transitivity (energy (rows 3 2 (one_row 2)) f t); [unfold E0, energy; ring|]. rewrite one_row_energy. ring. }
  destruct (track_one_row None 0 3 2 2 _ 2 [1; 2; 3] E0 1 I ltac:(lia) ltac:(lia) ltac:(lra) ltac:(lra) eq_refl (fun f t _ _ => HE f t)) as (A & _).
  assert (E1 : nth 1 (r_idx (nth 0 o ridge0)) 0%nat = 0%nat).
  { rewrite Eo. unfold r_idx. cbn [nth fst]. rewrite nth_tab by lia. exact A. }
  split; [exact E1|]. cbv zeta. unfold path_cost. cbn [Nat.sub INR Rsum]. rewrite E1.
  set (p0 := nth 0 (r_idx (nth 0 o ridge0)) 0%nat) in *. cbn [nrows rows] in Hv0. clearbody p0.
  unfold cost_of. rewrite !one_row_energy. unfold eps_of.
  assert (HL := ln_eps). assert (HD := ln_1eps). assert (HS := eps_small).
  assert (Hj : 0 <= jump false [1; 2; 3] 2 0 p0).
  { unfold jump. apply Rmult_le_pos; [lra|]. apply pow2_ge_0. }
  assert (Hj2 : jump false [1; 2; 3] 2 2 2 = 0) by (unfold jump; ring). rewrite Hj2.
  assert (H0 : one_row 2 0 = 0) by reflexivity. assert (H2 : one_row 2 2 = 1) by reflexivity. rewrite H0, H2.
  assert (Hp : - ln (1 + EPS64) <= - ln (one_row 2 p0 / 1 + EPS64)).
  { apply Ropp_le_contravar. unfold one_row. destruct (Nat.eq_dec p0 2).
    - replace (1 / 1) with 1 by field. lra.
    - replace (0 / 1) with 0 by field. rewrite Rplus_0_l. lra. }
  replace (0 / 1) with 0 by field. replace (1 / 1) with 1 by field. rewrite !Rplus_0_l. lra.
Qed.

Lemma single_row_raises par f64 T a sc penalty n bw : (1 <= T)%nat -> (1 <= n)%nat ->
  extract_ridges par f64 (rows 1 T a) [sc] penalty n bw false = Err TypeError.
Proof.
  intros HT Hn. unfold extract_ridges. cbn [rows nrows ncols length Nat.eqb negb orb andb].
  destruct (Nat.eqb_spec T 0); [lia|]. destruct (Nat.eqb_spec n 0); [lia|]. reflexivity.
Qed.

(** ** C31: a ridge below row [bw]: nothing is removed *)
Definition scales40 : list R := tab 40 (fun f => INR f + 1).
Lemma negative_start : exists o, extract_ridges None true (rows 40 40 (one_row 3)) scales40 2 2 15 false = Ok o /\
  nth 1 o ridge0 = nth 0 o ridge0 /\
  forall t, (t < 40)%nat -> nth t (r_idx (nth 0 o ridge0)) 0%nat = 3%nat /\ nth t (r_energy (nth 1 o ridge0)) 0 = 1.
Proof.
  assert (X : exists o, extract_ridges None true (rows 40 40 (one_row 3)) scales40 2 2 15 false = Ok o).
  { apply extract_ok; cbn [nrows ncols rows]; try lia; reflexivity. }
  destruct X as (o & Ho).
  exists o. split; [exact Ho|].
  assert (Hr : forall t, (t < 40)%nat -> nth t (r_idx (nth 0 o ridge0)) 0%nat = 3%nat).
  { pose proof Ho as Eo. apply extract_inv in Eo. destruct Eo as (_ & _ & _ & _ & Eo). cbn [ridge_loop nrows ncols rows] in Eo.
    set (E0 := fun f t => Cabs (el (rows 40 40 (one_row 3)) f t) * Cabs (el (rows 40 40 (one_row 3)) f t)) in Eo.
    assert (HE : forall f t, E0 f t = 1 * one_row 3 f).
    { intros f t. transitivity (energy (rows 40 40 (one_row 3)) f t); [unfold E0, energy; ring|]. rewrite one_row_energy. ring. }
    destruct (track_one_row None 0 40 40 3 _ 2 scales40 E0 1 I ltac:(lia) ltac:(lia) ltac:(lra) ltac:(lra) eq_refl (fun f t _ _ => HE f t)) as (_ & A).
    intros t Ht. rewrite Eo. unfold r_idx. cbn [nth fst]. rewrite nth_tab by exact Ht. apply A; lia. }
  assert (E1 : nth 1 o ridge0 = nth 0 o ridge0).
  { apply (repeated_ridge _ _ _ _ _ _ _ _ Ho); try (cbn; lia). intros t Ht. cbn [ncols rows] in Ht. rewrite Hr by exact Ht. lia. }
  split; [exact E1|]. intros t Ht. split; [apply Hr, Ht|]. rewrite E1.
  destruct (ridges_valid _ _ _ _ _ _ _ _ _ Ho I) as (_ & V). destruct (V 0%nat ltac:(lia)) as (_ & Hv).
  destruct (Hv t Ht) as (_ & _ & Ee). cbv zeta in Ee. rewrite Hr in Ee by exact Ht. rewrite Ee. cbn [firstn energy_at].
  rewrite one_row_energy. reflexivity.
Qed.

(** the row [bw] above the ridge keeps its energy *)
Definition two_rows (f : nat) : R := if Nat.eq_dec f 20 then 1 else if Nat.eq_dec f 35 then / 2 else 0.
Lemma two_rows_energy F T f t : energy (rows F T two_rows) f t = two_rows f * two_rows f.
Proof. apply rows_energy. unfold two_rows. destruct (Nat.eq_dec f 20); [lra|]. destruct (Nat.eq_dec f 35); lra. Qed.
Lemma ln_gap : ln (/ 4 + EPS64) <= - EPS64.
Proof.
  pose proof eps_small as E. rewrite <- (ln_exp (- EPS64)). apply Rlt_le, ln_increasing; [lra|].
  apply Rlt_le_trans with (1 + - EPS64); [lra|]. destruct (Req_dec (- EPS64) 0); [lra|]. left. apply exp_ineq1. assumption.
Qed.
Lemma upper_row : exists o, extract_ridges None true (rows 40 40 two_rows) scales40 2 2 15 false = Ok o /\
  forall t, (t < 40)%nat -> nth t (r_idx (nth 0 o ridge0)) 0%nat = 20%nat /\ nth t (r_idx (nth 1 o ridge0)) 0%nat = 35%nat /\
    nth t (r_energy (nth 1 o ridge0)) 0 = / 4.
Proof.
  assert (X : exists o, extract_ridges None true (rows 40 40 two_rows) scales40 2 2 15 false = Ok o).
  { apply extract_ok; cbn [nrows ncols rows]; try lia; reflexivity. }
  destruct X as (o & Ho).
  exists o. split; [exact Ho|].
  pose proof Ho as Eo. apply extract_inv in Eo. destruct Eo as (_ & _ & _ & _ & Eo). cbn [ridge_loop nrows ncols rows] in Eo.
  set (E0 := fun f t => Cabs (el (rows 40 40 two_rows) f t) * Cabs (el (rows 40 40 two_rows) f t)) in Eo.
  assert (HE : forall f t, E0 f t = two_rows f * two_rows f).
  { intros f t. transitivity (energy (rows 40 40 two_rows) f t); [unfold E0, energy; ring|]. apply two_rows_energy. }
  assert (HM : forall t, colmax 40 E0 t = 1).
  { intros t. apply colmax_eq; [lia|]. split.
    - exists 20%nat. split; [lia|]. rewrite HE. unfold two_rows. cbn. ring.
    - intros f _. rewrite HE. unfold two_rows. destruct (Nat.eq_dec f 20); [lra|]. destruct (Nat.eq_dec f 35); lra. }
  set (pen := penalty_matrix 2 scales40) in Eo.
  set (r0 := track None 0 40 40 pen EPS64 (neg_log_norm 40 EPS64 E0)) in Eo.
  assert (R0 : forall t, (t < 40)%nat -> r0 t = 20%nat).
  { destruct (track_dominant None 0 40 40 20 pen (pen_of 2 false scales40) EPS64 (neg_log_norm 40 EPS64 E0)
                (fun f t => - ln (E0 f t / 1 + EPS64)) (- ln (1 + EPS64)) I) as (_ & A); auto; try lia; try apply eps_small.
    - intros f t Hf Ht. unfold neg_log_norm. rewrite HM. destruct (Req_EM_T 1 0); [lra|reflexivity].
    - intros t Ht. rewrite HE. unfold two_rows. cbn. do 3 f_equal. lra.
    - intros f t Hf Ht N. rewrite HE. unfold two_rows. destruct (Nat.eq_dec f 20); [contradiction|].
      pose proof ln_1eps. pose proof eps_small. pose proof ln_eps. destruct (Nat.eq_dec f 35).
      + replace (/ 2 * / 2 / 1 + EPS64) with (/ 4 + EPS64) by lra. pose proof ln_gap. lra.
      + replace (0 * 0 / 1 + EPS64) with EPS64 by lra. lra.
    - apply pen_diag.
    - intros a b. apply pen_nonneg. lra.
    - intros t Ht. apply A; [lia|exact Ht]. }
  set (E1 := zero_band 40 15 r0 E0) in Eo.
  assert (HE1 : forall f t, (f < 40)%nat -> (t < 40)%nat -> E1 f t = / 4 * one_row 35 f).
  { intros f t Hf Ht. unfold E1, zero_band. rewrite R0 by exact Ht. unfold norm_bound.
    cbn [Z.of_nat Z.sub Z.ltb Z.add Z.opp Z.min].
    rewrite HE. unfold two_rows, one_row. destruct (Nat.eq_dec f 20) as [->|N1]; [cbn; ring|].
    destruct (Nat.eq_dec f 35) as [->|N2]; [cbn; field|]. destruct (_ && _); ring. }
  destruct (track_one_row None 1 40 40 35 pen 2 scales40 E1 (/ 4) I ltac:(lia) ltac:(lia) ltac:(lra) ltac:(lra) eq_refl HE1) as (_ & R1).
  intros t Ht. rewrite Eo. unfold r_idx, r_energy. cbn [nth fst snd]. rewrite !nth_tab by exact Ht.
  rewrite R0 by exact Ht. rewrite R1 by lia. rewrite HE1 by lia. unfold one_row. cbn. repeat split. ring.
Qed.

(** ** C32: two equally good predecessors *)
Definition rev_sched {Cell V} (n : nat) : scheduler Cell V := fun progs => concat (map (fun t => tag t (progs t)) (rev (seq 0 n))).
Lemma rev_sched_valid Cell V n : valid_sched n (@rev_sched Cell V n).
Proof.
  intros progs H t. unfold rev_sched.
  assert (G : forall l : list nat, NoDup l -> proj t (concat (map (fun u => tag u (progs u)) l)) = if in_dec Nat.eq_dec t l then progs t else []).
  { induction l as [|a l IH]; intros N; [reflexivity|]. inversion N as [|? ? N1 N2]. subst. cbn [map concat]. rewrite proj_app, IH by exact N2.
    destruct (in_dec Nat.eq_dec t (a :: l)) as [I1|I1].
    - destruct (Nat.eq_dec a t) as [->|N3].
      + rewrite proj_tag_same. destruct (in_dec Nat.eq_dec t l); [contradiction|]. apply app_nil_r.
      + rewrite proj_tag_other by exact N3. destruct (in_dec Nat.eq_dec t l) as [|N4]; [reflexivity|]. destruct I1; contradiction.
    - rewrite proj_tag_other by (intros ->; apply I1; left; reflexivity). destruct (in_dec Nat.eq_dec t l) as [I2|]; [|reflexivity].
      exfalso. apply I1. right. exact I2. }
  rewrite G by (apply NoDup_rev, seq_NoDup). destruct (in_dec Nat.eq_dec t (rev (seq 0 n))) as [|N]; [reflexivity|].
  symmetry. apply H. destruct (le_lt_dec n t) as [|L]; [assumption|]. exfalso. apply N. rewrite <- in_rev. apply in_seq. lia.
Qed.
Definition tie_amp (f t : nat) : R := match f, t with 0%nat, 0%nat | 2%nat, 0%nat | 1%nat, 1%nat => 1 | _, _ => 0 end.
Definition Tf_tie : mat C := Mat 3 2 (fun f t => RtoC (tie_amp f t)).
Lemma tie_sq f t : tie_amp f t = 0 \/ tie_amp f t = 1.
Proof. unfold tie_amp. destruct f as [|[|[|f]]], t as [|[|t]]; auto. Qed.
Definition tie_scheds : ridge_scheds := (fun _ _ => rev_sched 3, fun _ _ => rev_sched 3).
Lemma ties : exists o o', extract_ridges None true Tf_tie [1; 2; 3] 1 1 15 false = Ok o /\
  extract_ridges (Some tie_scheds) true Tf_tie [1; 2; 3] 1 1 15 false = Ok o' /\ sched_ok 3 (Some tie_scheds) /\
  r_idx (nth 0 o ridge0) = [2; 1]%nat /\ r_idx (nth 0 o' ridge0) = [0; 1]%nat.
Proof.
  assert (X : forall par, exists o, extract_ridges par true Tf_tie [1; 2; 3] 1 1 15 false = Ok o).
  { intros par. apply extract_ok; cbn [nrows ncols Tf_tie]; try lia; reflexivity. }
  destruct (X None) as (o & Ho). destruct (X (Some tie_scheds)) as (o' & Ho'). exists o, o'. split; [exact Ho|]. split; [exact Ho'|].
  assert (Hs : sched_ok 3 (Some tie_scheds)) by (split; intros; apply rev_sched_valid). split; [exact Hs|].
  apply extract_inv in Ho. destruct Ho as (_ & _ & _ & _ & Eo). apply extract_inv in Ho'. destruct Ho' as (_ & _ & _ & _ & Eo').
  cbn [ridge_loop nrows ncols Tf_tie] in Eo, Eo'.
  set (E0 := fun f t => Cabs (el Tf_tie f t) * Cabs (el Tf_tie f t)) in Eo, Eo'.
  assert (HE : forall f t, E0 f t = tie_amp f t).
  { intros f t. unfold E0, Tf_tie. cbn [el]. unfold Cabs, Cnorm2, RtoC. cbn [fst snd]. rewrite sqrt_def by (destruct (tie_sq f t) as [-> | ->]; lra).
    destruct (tie_sq f t) as [-> | ->]; ring. }
  set (pen := penalty_matrix 1 [1; 2; 3]) in Eo, Eo'. set (e := neg_log_norm 3 (eps_of true) E0) in Eo, Eo'.
  set (er := fun f t => - ln (tie_amp f t + EPS64)).
  assert (He : forall f t, (f < 3)%nat -> (t < 2)%nat -> e (f, t) = Num (er f t)).
  { intros f t Hf Ht. unfold e, neg_log_norm, eps_of. assert (colmax 3 E0 t = 1) as ->.
    { apply colmax_eq; [lia|]. split; [|intros g _; rewrite HE; destruct (tie_sq g t) as [-> | ->]; lra].
      destruct t as [|[|t]]; [exists 0%nat|exists 1%nat|lia]; rewrite HE; split; try lia; reflexivity. }
    destruct (Req_EM_T 1 0); [lra|]. rewrite HE. unfold er. do 3 f_equal. field. }
  set (pr := pen_of 1 false [1; 2; 3]). assert (Hpen : forall a b, pen a b = Num (pr a b)) by reflexivity.
  destruct (track_spec None 0 3 2 pen (eps_of true) e I) as (pe & Hpe & _).
  assert (D0 := dval_0 3 2 er pr e pen ltac:(lia) ltac:(lia) Hpen He pe Hpe).
  assert (DS := dval_S 3 2 er pr e pen ltac:(lia) ltac:(lia) Hpen He pe Hpe).
  assert (DN := pe_num 3 2 er pr e pen ltac:(lia) ltac:(lia) Hpen He pe Hpe).
  assert (L1 := ln_eps). assert (L2 := ln_1eps). assert (L3 := eps_small).
  assert (e00 : er 0%nat 0%nat = - ln (1 + EPS64)) by reflexivity.
  assert (e20 : er 2%nat 0%nat = - ln (1 + EPS64)) by reflexivity.
  assert (e11 : er 1%nat 1%nat = - ln (1 + EPS64)) by reflexivity.
  assert (ez : forall f t, tie_amp f t = 0 -> er f t = - ln EPS64) by (intros f t H; unfold er; rewrite H, Rplus_0_l; reflexivity).
  assert (e10 := ez 1%nat 0%nat eq_refl). assert (e01 := ez 0%nat 1%nat eq_refl). assert (e21 := ez 2%nat 1%nat eq_refl).
  assert (P : forall a b, pr a b = (nth a [1; 2; 3] 0 - nth b [1; 2; 3] 0) * (nth a [1; 2; 3] 0 - nth b [1; 2; 3] 0)).
  { intros a b. unfold pr. rewrite pen_lin. ring. }
  assert (P10 : pr 1%nat 0%nat = 1) by (rewrite P; cbn; ring). assert (P12 : pr 1%nat 2%nat = 1) by (rewrite P; cbn; ring).
  assert (P11 : pr 1%nat 1%nat = 0) by (rewrite P; cbn; ring).
  assert (PP : forall a b, 0 <= pr a b) by (intros a b; apply pen_nonneg; lra).
  assert (V1 : dval pe 1 1 - er 1%nat 1%nat = 1 - ln (1 + EPS64)).
  { destruct (DS 1%nat 0%nat ltac:(lia) ltac:(lia)) as ((g & Hg & Eg) & B). pose proof (B 0%nat ltac:(lia)) as B0. rewrite D0 in B0 by lia.
    rewrite D0 in Eg by lia. destruct g as [|[|[|g]]]; lra || lia. }
  assert (V0 : forall f, (f < 3)%nat -> f <> 1%nat -> - ln EPS64 - ln (1 + EPS64) <= dval pe f 1).
  { intros f Hf N. destruct (DS f 0%nat Hf ltac:(lia)) as ((g & Hg & Eg) & _). rewrite D0 in Eg by lia. pose proof (PP f g).
    assert (er f 1%nat = - ln EPS64) by (destruct f as [|[|[|f]]]; lra || lia || congruence).
    assert (- ln (1 + EPS64) <= er g 0%nat) by (destruct g as [|[|[|g]]]; lra || lia). lra. }
  assert (I1 : fw_idx 3 2 pe 1 = 1%nat).
  { unfold fw_idx. rewrite (@tab_ext _ 3 _ (fun f => Num (dval pe f 1))) by (intros f Hf; apply DN; lia).
    destruct (fargmin_spec 3 (fun f => dval pe f 1) ltac:(lia)) as (A & B). set (j := fargmin _) in *. specialize (B 1%nat ltac:(lia)).
    destruct (Nat.eq_dec j 1) as [->|N]; [reflexivity|]. specialize (V0 j A N). exfalso. lra. }
  assert (HH : forall r pe', (forall c, pe' c = pe c) -> r 1%nat = 1%nat -> forall f, (f = 0 \/ f = 2)%nat ->
                bw_hit fadd fsub (fnear (eps_of true)) pen e pe' r 0 f = true).
  { intros r pe' Hp Hr f Hf. unfold bw_hit. cbn [Nat.add]. rewrite Hr, !Hp. rewrite (DN 1%nat) by lia. rewrite (DN 0%nat) by lia. rewrite He by lia.
    rewrite Hpen. cbn [fadd fsub fnear]. rewrite D0 by lia.
    assert (Z : dval pe 1 1 - er 1%nat 1%nat - (er f 0%nat + pr 1%nat f) = 0) by (destruct Hf as [-> | ->]; lra). rewrite Z, Rabs_R0.
    unfold eps_of. destruct (Rlt_dec 0 EPS64); [reflexivity|lra]. }
  split.
  - rewrite Eo. unfold r_idx. cbn [nth fst]. unfold track. set (pe0 := fw_serial _ _ _ _ _ e).
    assert (Hp0 : forall c, pe0 c = pe c) by (intros c; symmetry; apply Hpe).
    destruct (bw_last 3 (eps_of true) pen e pe0 2 (fw_idx 3 2 pe0)) as (A & B). cbv zeta in *.
    set (r := bw_serial _ _ _ _ _ _ _ _ _) in *.
    assert (R1 : r 1%nat = 1%nat).
    { rewrite A by lia. rewrite (fw_idx_ext 3 2 pe0 pe 1) by (intros; apply Hp0). exact I1. }
    assert (R0 : r 0%nat = 2%nat).
    { destruct (B 0%nat ltac:(lia)) as [(B1 & _ & B2)|(B1 & _)].
      - destruct (Nat.eq_dec (r 0%nat) 2) as [->|N]; [reflexivity|]. specialize (B2 2%nat ltac:(lia)). rewrite (HH r pe0 Hp0 R1 2%nat ltac:(lia)) in B2. discriminate.
      - specialize (B1 2%nat ltac:(lia)). rewrite (HH r pe0 Hp0 R1 2%nat ltac:(lia)) in B1. discriminate. }
    unfold tab. cbn [seq map]. rewrite R0, R1. reflexivity.
  - rewrite Eo'. unfold r_idx. cbn [nth fst]. unfold track, tie_scheds. set (pe0 := fw_par _ _ _ _ _ _ e).
    assert (Hp0 : forall c, pe0 c = pe c).
    { intros c. rewrite Hpe. unfold pe0. apply fw_par_serial. intros. apply rev_sched_valid. }
    assert (I1' : fw_idx 3 2 pe0 1 = 1%nat) by (rewrite (fw_idx_ext 3 2 pe0 pe 1) by (intros; apply Hp0); exact I1).
    unfold bw_par. cbn [Nat.sub seq fold_left]. unfold bw_phase, rev_sched. cbn [seq rev app map concat].
    set (r := fw_idx 3 2 pe0) in *.
    assert (G : forall f, (f = 0 \/ f = 2)%nat -> bw_progs fadd fsub (fnear (eps_of true)) pen 3 e pe0 r 0 f = [MStore 0%nat (fun _ => f)]).
    { intros f Hf. unfold bw_progs. rewrite (HH r pe0 Hp0 I1' f Hf). destruct Hf as [-> | ->]; reflexivity. }
    rewrite (G 0%nat), (G 2%nat) by lia. clearbody r. unfold bw_progs. destruct (bw_hit fadd fsub (fnear (eps_of true)) pen e pe0 r 0 1);
      unfold tab; cbn; rewrite I1'; reflexivity.
Qed.

(** ** A case meeting the hypotheses of C32: one dominant row *)
Lemma clear_two : clear_choice true 2 2 (pen_of 1 false [1; 2]) (energy (rows 2 2 (one_row 1))).
Proof.
  exists (fun _ => 1). split.
  - intros t _. split; [|lra]. split.
    + exists 1%nat. split; [lia|]. rewrite one_row_energy. reflexivity.
    + intros f _. rewrite one_row_energy. unfold one_row. destruct (Nat.eq_dec f 1); lra.
  - intros d (D0 & DS) h f g t Hh Hf Hg Ht. destruct t as [|t]; [|lia]. rewrite !D0 by assumption.
    unfold cost_of, eps_of. rewrite !one_row_energy. set (x := d h 1%nat - _). unfold one_row, pen_of.
    assert (L1 := ln_eps). assert (L2 := ln_1eps). assert (L3 := eps_small). clearbody x. intros A B. apply Rabs_def2 in A. apply Rabs_def2 in B.
    destruct f as [|[|f]], g as [|[|g]], h as [|[|h]]; try lia; exfalso; cbn in A, B;
      replace (0 / 1 + EPS64) with EPS64 in * by field; replace (1 / 1 + EPS64) with (1 + EPS64) in * by field; lra.
Qed.
