(** [extract_ridges] stays in the bands that hold the energy. *)
From Coq Require Import Reals Lra.
From Coq Require Import ZifyBool ZifyNat.
From Verif Require Import Py Parallel Cplx CplxProofs Squeeze Ssqueeze SsqueezeProofs Ridge RidgeProofs RidgeOpt RidgeThms RidgeCurve.
Local Open Scope R_scope.

(** a nearly cheapest path does not leave bands that are cheaper than the rest by [gap] *)
Lemma band_path F T er pr p (B : nat -> nat -> bool) m gap J delta : (1 <= T)%nat -> valid_path F T p -> valid_path F T m ->
  (forall t, (t < T)%nat -> B t (m t) = true) ->
  (forall f t, (f < F)%nat -> (t < T)%nat -> B t f = false -> er (m t) t + gap <= er f t) ->
  (forall f g t, (f < F)%nat -> (g < F)%nat -> (S t < T)%nat -> B t f = true -> B (S t) g = true -> pr g f <= J) ->
  (forall f g, 0 <= pr f g) -> 0 <= J -> 0 <= delta -> 2 * J + delta < gap ->
  (forall q, valid_path F T q -> path_cost er pr T p <= path_cost er pr T q + delta) ->
  forall t, (t < T)%nat -> B t (p t) = true.
Proof.
  intros HT Hp Hm HB Hoff Hj Hpr HJ Hd Hgap Hopt t0 Ht0. destruct (B t0 (p t0)) eqn:E0; [reflexivity|exfalso].
  set (q := fun t => if B t (p t) then p t else m t). set (d := fun t => if B t (p t) then 0 else 1).
  assert (Hq : valid_path F T q) by (intros t Ht; unfold q; destruct (B t (p t)); auto).
  assert (HqB : forall t, (t < T)%nat -> B t (q t) = true) by (intros t Ht; unfold q; destruct (B t (p t)) eqn:E; auto).
  assert (Hd0 : forall t, 0 <= d t) by (intros t; unfold d; destruct (B t (p t)); lra).
  specialize (Hopt q Hq). unfold path_cost in Hopt. destruct T as [|n]; [lia|]. replace (S n - 1)%nat with n in Hopt by lia.
  assert (H1 : Rsum (S n) (fun t => er (q t) t) + gap * Rsum (S n) d <= Rsum (S n) (fun t => er (p t) t)).
  { rewrite <- Rsum_scal, <- Rsum_plus. apply Rsum_le. intros t Ht. unfold q, d. destruct (B t (p t)) eqn:E; [lra|].
    specialize (Hoff (p t) t (Hp t Ht) Ht E). lra. }
  assert (H2 : Rsum n (fun t => pr (q (S t)) (q t)) <= Rsum n (fun t => pr (p (S t)) (p t)) + J * Rsum n (fun t => d t + d (S t))).
  { rewrite <- Rsum_scal, <- Rsum_plus. apply Rsum_le. intros t Ht.
    assert (Hpq : pr (q (S t)) (q t) <= J) by (apply (Hj _ _ t); auto; try (apply Hq; lia); try lia; apply HqB; lia).
    pose proof (Hpr (p (S t)) (p t)). unfold d. unfold q in *. destruct (B t (p t)), (B (S t) (p (S t))); nra. }
  rewrite Rsum_plus in H2.
  assert (D1 : Rsum n d <= Rsum (S n) d) by (cbn [Rsum]; specialize (Hd0 n); lra).
  assert (D2 : Rsum n (fun t => d (S t)) <= Rsum (S n) d) by (rewrite Rsum_first; specialize (Hd0 0%nat); lra).
  assert (D3 : 1 <= Rsum (S n) d).
  { pose proof (Rsum_bump (S n) d 0 1 t0 Ht0 (fun t _ => Hd0 t)) as X. unfold d at 1 in X. rewrite E0 in X. specialize (X ltac:(lra)). lra. }
  assert (J * (Rsum n d + Rsum n (fun t => d (S t))) <= J * (2 * Rsum (S n) d)) by (apply Rmult_le_compat_l; lra).
  set (D := Rsum (S n) d) in *. assert ((gap - 2 * J) * 1 <= (gap - 2 * J) * D) by (apply Rmult_le_compat_l; lra). lra.
Qed.

(** the accumulated cost of a row is that of a path ending there *)
Section End.
Variables (F T : nat) (er : nat -> nat -> R) (pr : nat -> nat -> R) (e : nat * nat -> fl) (pen : nat -> nat -> fl) (eps : R).
Hypothesis HF : (1 <= F)%nat.
Hypothesis HT : (1 <= T)%nat.
Hypothesis Hpen : forall a b, pen a b = Num (pr a b).
Hypothesis He : forall f t, (f < F)%nat -> (t < T)%nat -> e (f, t) = Num (er f t).
Hypothesis Heps : 0 < eps.
Variable pe : nat * nat -> fl.
Hypothesis Hpe : forall c, pe c = fw_serial fadd famin pen F T e c.
Notation d := (dval pe).
Lemma dval_path t : (t < T)%nat -> forall f, (f < F)%nat -> exists q, valid_path F (S t) q /\ q t = f /\ prefix er pr q t = d f t.
Proof.
  induction t as [|t IH]; intros Ht f Hf.
  - exists (fun _ => f). split; [intros u Hu; exact Hf|]. split; [reflexivity|]. unfold prefix. cbn [Rsum].
    rewrite (dval_0 F T er pr e pen HF HT Hpen He pe Hpe f Hf). ring.
  - destruct (dval_S F T er pr e pen HF HT Hpen He pe Hpe f t Hf Ht) as ((g & Hg & Eg) & _).
    destruct (IH ltac:(lia) g Hg) as (q & Vq & Eq & Cq).
    exists (fun u => if (u =? S t)%nat then f else q u). split.
    + intros u Hu. destruct (Nat.eqb_spec u (S t)); [exact Hf|apply Vq; lia].
    + rewrite Nat.eqb_refl. split; [reflexivity|]. unfold prefix in *. cbn [Rsum]. cbn [Rsum] in Cq.
      rewrite !Nat.eqb_refl. destruct (Nat.eqb_spec t (S t)); [lia|]. rewrite Eq in *.
      rewrite (Rsum_ext t _ (fun u => er (q u) u)) by (intros u Hu; destruct (Nat.eqb_spec u (S t)); [lia|reflexivity]).
      rewrite (Rsum_ext t (fun u => pr _ _) (fun u => pr (q (S u)) (q u))).
      2:{ intros u Hu. destruct (Nat.eqb_spec (S u) (S t)); [lia|]. destruct (Nat.eqb_spec u (S t)); [lia|reflexivity]. }
      lra.
Qed.
Variable r : nat -> nat.
Hypothesis Hend : r (T - 1)%nat = fw_idx F T pe (T - 1).
Hypothesis Hset : forall t, (t < T - 1)%nat -> settled fl fadd fsub (fnear eps) pen F e pe t (fw_idx F T pe) r.

(** every cheapest path ends below row [T]: the modulo does nothing *)
Theorem ridge_optimal_end :
  (forall p, valid_path F T p -> (forall q, valid_path F T q -> path_cost er pr T p <= path_cost er pr T q) -> (p (T - 1) < T)%nat) ->
  forall q, valid_path F T q -> path_cost er pr T r <= path_cost er pr T q + INR (T - 1) * eps.
Proof.
  intros Hlast q Hq. assert (E : forall p, path_cost er pr T p = prefix er pr p (T - 1)).
  { intros p. unfold path_cost, prefix. replace (S (T - 1)) with T by lia. reflexivity. }
  destruct (fargmin_spec F (fun f => d f (T - 1)) HF) as (K1 & K2). set (k := fargmin _) in *.
  assert (Ek : fargmin (tab F (fun f => pe (f, (T - 1)%nat))) = k).
  { unfold k. f_equal. apply tab_ext. intros f Hf. apply (pe_num F T er pr e pen HF HT Hpen He pe Hpe); [lia|exact Hf]. }
  destruct (dval_path (T - 1) ltac:(lia) k K1) as (w & Vw & Ew & Cw). replace (S (T - 1)) with T in Vw by lia.
  assert (Hk : (k < T)%nat).
  { rewrite <- Ew. apply Hlast; [exact Vw|]. intros u Hu. rewrite !E, Cw.
    pose proof (dval_lower F T er pr e pen HF HT Hpen He pe Hpe u Hu (T - 1) ltac:(lia)) as L.
    specialize (K2 (u (T - 1)%nat) (Hu (T - 1)%nat ltac:(lia))). cbv beta in K2. lra. }
  rewrite !E. pose proof (ridge_upper F T er pr e pen eps HF HT Hpen He Heps pe Hpe r Hend Hset (T - 1) ltac:(lia)) as U.
  pose proof (dval_lower F T er pr e pen HF HT Hpen He pe Hpe q Hq (T - 1) ltac:(lia)) as L.
  assert (A : d (r (T - 1)%nat) (T - 1) <= d (q (T - 1)%nat) (T - 1)); [|lra].
  rewrite Hend. unfold fw_idx. rewrite Ek, Nat.mod_small by lia. apply K2, Hq. lia.
Qed.
End End.

(** ** One ridge *)
(** rows [B t] hold the largest energy [E (m t) t] of column [t], the others at most [rho] times that *)
Definition banded (F T : nat) (E : nat -> nat -> R) (B : nat -> nat -> bool) (m : nat -> nat) (rho : R) : Prop :=
  0 <= rho /\ valid_path F T m /\ forall t, (t < T)%nat -> B t (m t) = true /\ 0 < E (m t) t /\
  forall f, (f < F)%nat -> E f t <= E (m t) t /\ (B t f = false -> 0 <= E f t <= rho * E (m t) t).

Theorem ridge_k_band par f64 Tf scales penalty n bw cwt o k B m rho J : extract_ridges par f64 Tf scales penalty n bw cwt = Ok o ->
  sched_ok (nrows Tf) par -> (k < n)%nat -> 0 <= penalty ->
  let F := nrows Tf in let T := ncols Tf in
  banded F T (energy_at F bw (firstn k o) (energy Tf)) B m rho ->
  (forall f g t, (f < F)%nat -> (g < F)%nat -> (S t < T)%nat -> B t f = true -> B (S t) g = true -> jump cwt scales penalty g f <= J) -> 0 <= J ->
  2 * J + INR (T - 1) * eps_of f64 < ln ((1 + eps_of f64) / (rho + eps_of f64)) ->
  (forall f, (f < F)%nat -> B (T - 1)%nat f = true -> (f < T)%nat) ->
  forall t, (t < T)%nat -> B t (nth t (r_idx (nth k o ridge0)) 0%nat) = true.
Proof.
  intros H Hs Hk Hpen F0 T0 HB Hj HJ Hgap Hlast. apply extract_inv in H. destruct H as (HT & HL & HF & _ & Ho).
  specialize (HF ltac:(lia)). unfold F0, T0 in *. clear F0 T0. set (F := nrows Tf) in *. set (T := ncols Tf) in *.
  set (pen := penalty_matrix penalty (if cwt then map ln scales else scales)) in *.
  set (E0 := fun f t => Cabs (el Tf f t) * Cabs (el Tf f t)) in *.
  set (E := energy_at F bw (firstn k o) (energy Tf)) in *.
  destruct (ridge_loop_nth par n F T pen (eps_of f64) bw scales 0 E0 k Hk) as (Ek & A). cbv zeta in A. rewrite <- Ho in A. destruct A as (AE & Ai & _).
  assert (HE : forall f t, (t < T)%nat -> Ek f t = E f t).
  { intros f t Ht. rewrite AE by exact Ht. unfold E. apply energy_at_ext. intros f'. unfold E0, energy. ring. }
  set (r := track par (0 + k) F T pen (eps_of f64) (neg_log_norm F (eps_of f64) Ek)) in *.
  destruct (track_spec par (0 + k) F T pen (eps_of f64) (neg_log_norm F (eps_of f64) Ek) Hs) as (pe & Hpe & R1 & R2). cbv zeta in *. fold r in R1, R2.
  assert (Hval : valid_path F T r) by (apply track_valid; auto; lia).
  destruct HB as (Hrho & Vm & HB). pose proof (eps_pos f64) as He0. set (eps := eps_of f64) in *.
  set (er := fun f t => - ln (E f t / E (m t) t + eps)).
  assert (He : forall f t, (f < F)%nat -> (t < T)%nat -> neg_log_norm F eps Ek (f, t) = Num (er f t)).
  { intros f t Hf Ht. unfold neg_log_norm, er. destruct (HB t Ht) as (_ & M2 & M3).
    assert (colmax F Ek t = E (m t) t) as ->.
    { apply colmax_eq; [lia|]. split; [exists (m t); split; [apply Vm, Ht|]; rewrite HE by exact Ht; reflexivity|].
      intros f' Hf'. rewrite HE by exact Ht. apply M3, Hf'. }
    destruct (Req_EM_T (E (m t) t) 0); [lra|]. rewrite HE by exact Ht. reflexivity. }
  set (pr := pen_of penalty cwt scales).
  assert (Hpr : forall f g, 0 <= pr f g) by (intros f g; unfold pr, pen_of; apply Rmult_le_pos; [exact Hpen|apply Rle_0_sqr]).
  assert (Hgap' : ln ((1 + eps) / (rho + eps)) = ln (1 + eps) - ln (rho + eps)).
  { unfold Rdiv. rewrite ln_mult, ln_Rinv; try lra. apply Rinv_0_lt_compat; lra. }
  assert (Hoff : forall f t, (f < F)%nat -> (t < T)%nat -> B t f = false -> er (m t) t + ln ((1 + eps) / (rho + eps)) <= er f t).
  { intros f t Hf Ht Eb. unfold er. destruct (HB t Ht) as (_ & M2 & M3). destruct (M3 f Hf) as (_ & M4). specialize (M4 Eb).
    replace (E (m t) t / E (m t) t) with 1 by (field; lra). rewrite Hgap'.
    assert (Hle : ln (E f t / E (m t) t + eps) <= ln (rho + eps)); [|lra].
    assert (Hq : 0 <= E f t / E (m t) t <= rho).
    { split; [apply Rle_mult_inv_pos; lra|]. apply Rmult_le_reg_r with (E (m t) t); [lra|].
      unfold Rdiv. rewrite Rmult_assoc, Rinv_l by lra. lra. }
    destruct (Req_dec (E f t / E (m t) t) rho) as [ ->|Hne]; [lra|]. left. apply ln_increasing; lra. }
  assert (Hj' : forall f g t, (f < F)%nat -> (g < F)%nat -> (S t < T)%nat -> B t f = true -> B (S t) g = true -> pr g f <= J).
  { intros f g t Hf Hg Ht B1 B2. unfold pr. rewrite pen_of_jump by (rewrite HL; assumption). apply (Hj f g t); assumption. }
  assert (HBm : forall t, (t < T)%nat -> B t (m t) = true) by (intros t Ht; apply HB, Ht).
  assert (Hd : 0 <= INR (T - 1) * eps) by (apply Rmult_le_pos; [apply pos_INR|lra]).
  intros t Ht. replace (nth t (r_idx (nth k o ridge0)) 0%nat) with (r t) by (rewrite Ai; symmetry; apply nth_tab, Ht).
  apply (band_path F T er pr r B m _ J (INR (T - 1) * eps) HT Hval Vm HBm Hoff Hj' Hpr HJ Hd Hgap); [|exact Ht].
  apply (ridge_optimal_end F T er pr (neg_log_norm F eps Ek) pen eps ltac:(lia) HT (fun a b => eq_refl) He He0 pe Hpe r (R1 (T - 1)%nat ltac:(lia)) R2).
  intros p Hp Hmin. apply Hlast; [apply Hp; lia|].
  apply (band_path F T er pr p B m _ J 0 HT Hp Vm HBm Hoff Hj' Hpr HJ ltac:(lra) ltac:(lra)); [|lia].
  intros q Hq. specialize (Hmin q Hq). lra.
Qed.

(** ** Several components *)
(** row [f] is within [bw] of the [l]-th curve at time [t], as [extract_ridges] cuts bands *)
Definition near_curve (bw : Z) (c : nat -> nat -> nat) (l : nat) (t f : nat) : Prop :=
  (Z.of_nat (c l t) - bw <= Z.of_nat f < Z.of_nat (c l t) + bw)%Z.
(** curve [k] carries the most energy away from the curves before it, by a factor [rho] *)
Definition components (Tf : mat C) (bw : Z) (n : nat) (c : nat -> nat -> nat) (rho : R) : Prop :=
  0 <= rho <= 1 /\ (0 <= bw)%Z /\ forall k t, (k < n)%nat -> (t < ncols Tf)%nat ->
    (c k t < nrows Tf)%nat /\ (bw <= Z.of_nat (c k t))%Z /\ 0 < energy Tf (c k t) t /\
    (forall l, (l < k)%nat -> ~ near_curve bw c l t (c k t)) /\
    forall f, (f < nrows Tf)%nat -> f <> c k t -> (forall l, (l < k)%nat -> ~ near_curve bw c l t f) ->
      energy Tf f t <= rho * energy Tf (c k t) t.

Theorem components_found par f64 Tf scales penalty n bw cwt o c rho J : extract_ridges par f64 Tf scales penalty n bw cwt = Ok o ->
  sched_ok (nrows Tf) par -> 0 <= penalty -> components Tf bw n c rho ->
  (forall k t, (k < n)%nat -> (S t < ncols Tf)%nat -> jump cwt scales penalty (c k (S t)) (c k t) <= J) -> 0 <= J ->
  2 * J + INR (ncols Tf - 1) * eps_of f64 < ln ((1 + eps_of f64) / (rho + eps_of f64)) ->
  (forall k, (k < n)%nat -> (c k (ncols Tf - 1) < ncols Tf)%nat) ->
  forall k t, (k < n)%nat -> (t < ncols Tf)%nat ->
    nth t (r_idx (nth k o ridge0)) 0%nat = c k t /\ nth t (r_freq (nth k o ridge0)) 0 = nth (c k t) scales 0 /\
    nth t (r_energy (nth k o ridge0)) 0 = energy Tf (c k t) t.
Proof.
  intros H Hs Hpen (Hrho & Hbw & HC) Hj HJ Hgap Hlast.
  destruct (ridges_valid _ _ _ _ _ _ _ _ _ H Hs) as (HLo & HV).
  assert (Hpos : forall f t, 0 <= energy Tf f t) by (intros; unfold energy; apply pow2_ge_0).
  (* the energy left, once the earlier ridges are the earlier curves *)
  assert (Hleft : forall k t f, (k < n)%nat -> (t < ncols Tf)%nat -> (f < nrows Tf)%nat ->
    (forall l, (l < k)%nat -> nth t (r_idx (nth l o ridge0)) 0%nat = c l t) ->
    ((forall l, (l < k)%nat -> ~ near_curve bw c l t f) -> energy_at (nrows Tf) bw (firstn k o) (energy Tf) f t = energy Tf f t) /\
    ((exists l, (l < k)%nat /\ near_curve bw c l t f) -> energy_at (nrows Tf) bw (firstn k o) (energy Tf) f t = 0)).
  { intros k t f Hk Ht Hf Hprev. split.
    - intros Hfar. apply energy_at_far; [exact Hbw|exact Hf|]. intros l Hl. rewrite firstn_length in Hl. cbv zeta.
      rewrite nth_firstn_lt by lia. rewrite Hprev by lia. destruct (HC l t ltac:(lia) Ht) as (_ & Hb & _). specialize (Hfar l ltac:(lia)).
      unfold near_curve in Hfar. lia.
    - intros (l & Hl & Hnear). apply (energy_at_band _ _ _ l); [rewrite firstn_length; lia| |exact Hf|];
        rewrite nth_firstn_lt by lia; rewrite Hprev by lia; [destruct (HC l t ltac:(lia) Ht) as (_ & Hb & _); lia|exact Hnear]. }
  assert (Hdec : forall k t f, (forall l, (l < k)%nat -> ~ near_curve bw c l t f) \/ exists l, (l < k)%nat /\ near_curve bw c l t f).
  { intros k t f. induction k as [|k IH]; [left; lia|]. destruct IH as [IH|(l & Hl & Hn)]; [|right; exists l; split; [lia|exact Hn]].
    assert (D : near_curve bw c k t f \/ ~ near_curve bw c k t f) by (unfold near_curve; lia).
    destruct D as [D|D]; [right; exists k; split; [lia|exact D]|left]. intros l Hl. destruct (Nat.eq_dec l k) as [ ->|]; [exact D|apply IH; lia]. }
  assert (Hidx : forall k, (k < n)%nat -> forall t, (t < ncols Tf)%nat -> nth t (r_idx (nth k o ridge0)) 0%nat = c k t).
  { intros k. induction k as [k IH] using (well_founded_induction Wf_nat.lt_wf). intros Hk t Ht.
    apply Nat.eqb_eq.
    apply (ridge_k_band par f64 Tf scales penalty n bw cwt o k (fun t f => (f =? c k t)%nat) (c k) rho J H Hs Hk Hpen); auto.
    - split; [lra|]. split; [intros u Hu; apply (HC k u Hk Hu)|]. intros u Hu. split; [apply Nat.eqb_refl|].
      destruct (HC k u Hk Hu) as (A1 & A2 & A3 & A4 & A5).
      assert (Hp' : forall l, (l < k)%nat -> nth u (r_idx (nth l o ridge0)) 0%nat = c l u) by (intros l Hl; apply IH; lia).
      destruct (Hleft k u (c k u) Hk Hu A1 Hp') as (L1 & _). rewrite (L1 A4). split; [exact A3|].
      intros f Hf. destruct (Hleft k u f Hk Hu Hf Hp') as (M1 & M2).
      assert (Hcase : f <> c k u -> 0 <= energy_at (nrows Tf) bw (firstn k o) (energy Tf) f u <= rho * energy Tf (c k u) u).
      { intros Hne. destruct (Hdec k u f) as [D|D]; [rewrite (M1 D); split; [apply Hpos|apply A5; assumption]|].
        rewrite (M2 D). split; [lra|]. apply Rmult_le_pos; lra. }
      split.
      + destruct (Nat.eq_dec f (c k u)) as [ ->|Hne]; [rewrite (L1 A4); lra|]. specialize (Hcase Hne). nra.
      + intros Hne. apply Hcase. apply Nat.eqb_neq. exact Hne.
    - intros f g u _ _ Hu B1 B2. apply Nat.eqb_eq in B1, B2. subst. apply Hj; assumption.
    - intros f _ B1. apply Nat.eqb_eq in B1. subst. apply Hlast, Hk. }
  intros k t Hk Ht. pose proof (Hidx k Hk t Ht) as Ei. split; [exact Ei|].
  destruct (HV k Hk) as (_ & V). destruct (V t Ht) as (_ & V2 & V3). rewrite Ei in V2, V3. split; [exact V2|]. rewrite V3.
  destruct (HC k t Hk Ht) as (A1 & _ & _ & A4 & _).
  apply (Hleft k t (c k t) Hk Ht A1); [|exact A4]. intros l Hl. apply Hidx; [lia|exact Ht].
Qed.

(** ** Components some rows wide *)
Lemma energy_at_kept F bw os E : (forall f t, 0 <= E f t) -> forall f t, energy_at F bw os E f t = 0 \/ energy_at F bw os E f t = E f t.
Proof.
  revert E. induction os as [|o os IH]; intros E HE f t; cbn [energy_at]; [right; reflexivity|].
  set (E' := zero_band F bw _ E). assert (D : forall f t, E' f t = 0 \/ E' f t = E f t).
  { intros g u. unfold E', zero_band. destruct (_ && _); auto. }
  assert (HE' : forall f t, 0 <= E' f t) by (intros g u; destruct (D g u) as [ -> | -> ]; [lra|apply HE]).
  destruct (IH E' HE' f t) as [A|A]; [left; exact A|]. rewrite A. apply D.
Qed.

(** rows at most [w] apart *)
Definition close_rows (w a b : nat) : Prop := (a <= b + w /\ b <= a + w)%nat.
(** component [k]: rows within [w] of [c k t] at time [t], whose strongest outweighs, by a factor [rho], every row outside
    the components up to [k]; components further apart than the bands cut out *)
Definition bands (Tf : mat C) (bw : Z) (n : nat) (c : nat -> nat -> nat) (w : nat) (rho : R) : Prop :=
  0 <= rho <= 1 /\ (2 * Z.of_nat w < bw)%Z /\ forall k t, (k < n)%nat -> (t < ncols Tf)%nat ->
    (bw + Z.of_nat w <= Z.of_nat (c k t))%Z /\
    (forall l, (l < k)%nat -> (bw + 2 * Z.of_nat w < Z.abs (Z.of_nat (c k t) - Z.of_nat (c l t)))%Z) /\
    exists m, (m < nrows Tf)%nat /\ close_rows w m (c k t) /\ 0 < energy Tf m t /\
      (forall f, (f < nrows Tf)%nat -> close_rows w f (c k t) -> energy Tf f t <= energy Tf m t) /\
      forall f, (f < nrows Tf)%nat -> (forall l, (l <= k)%nat -> ~ close_rows w f (c l t)) -> energy Tf f t <= rho * energy Tf m t.

Theorem bands_found par f64 Tf scales penalty n bw cwt o c w rho J : extract_ridges par f64 Tf scales penalty n bw cwt = Ok o ->
  sched_ok (nrows Tf) par -> 0 <= penalty -> bands Tf bw n c w rho ->
  (forall k t f g, (k < n)%nat -> (S t < ncols Tf)%nat -> (f < nrows Tf)%nat -> (g < nrows Tf)%nat ->
     close_rows w f (c k t) -> close_rows w g (c k (S t)) -> jump cwt scales penalty g f <= J) -> 0 <= J ->
  2 * J + INR (ncols Tf - 1) * eps_of f64 < ln ((1 + eps_of f64) / (rho + eps_of f64)) ->
  (forall k, (k < n)%nat -> (c k (ncols Tf - 1) + w < ncols Tf)%nat) ->
  forall k t, (k < n)%nat -> (t < ncols Tf)%nat ->
    let p := nth t (r_idx (nth k o ridge0)) 0%nat in
    close_rows w p (c k t) /\ nth t (r_freq (nth k o ridge0)) 0 = nth p scales 0 /\ nth t (r_energy (nth k o ridge0)) 0 = energy Tf p t.
Proof.
  intros H Hs Hpen (Hrho & Hbw & HC) Hj HJ Hgap Hlast.
  destruct (ridges_valid _ _ _ _ _ _ _ _ _ H Hs) as (HLo & HV).
  assert (Hpos : forall f t, 0 <= energy Tf f t) by (intros; unfold energy; apply pow2_ge_0).
  set (B := fun k t f => (f <=? c k t + w)%nat && (c k t <=? f + w)%nat).
  assert (HB : forall k t f, B k t f = true <-> close_rows w f (c k t)) by (intros; unfold B, close_rows; lia).
  assert (Hleft : forall k t f, (k < n)%nat -> (t < ncols Tf)%nat -> (f < nrows Tf)%nat ->
    (forall l, (l < k)%nat -> close_rows w (nth t (r_idx (nth l o ridge0)) 0%nat) (c l t)) ->
    (close_rows w f (c k t) -> energy_at (nrows Tf) bw (firstn k o) (energy Tf) f t = energy Tf f t) /\
    (forall l, (l < k)%nat -> close_rows w f (c l t) -> energy_at (nrows Tf) bw (firstn k o) (energy Tf) f t = 0)).
  { intros k t f Hk Ht Hf Hprev. destruct (HC k t Hk Ht) as (_ & Hsep & _). split.
    - intros Hin. apply energy_at_far; [lia|exact Hf|]. intros l Hl. rewrite firstn_length in Hl. cbv zeta. rewrite nth_firstn_lt by lia.
      specialize (Hprev l ltac:(lia)). specialize (Hsep l ltac:(lia)). destruct (HC l t ltac:(lia) Ht) as (Hb & _). unfold close_rows in *. lia.
    - intros l Hl Hin. specialize (Hprev l Hl). destruct (HC l t ltac:(lia) Ht) as (Hb & _). unfold close_rows in *.
      apply (energy_at_band _ _ _ l); [rewrite firstn_length; lia| |exact Hf|]; rewrite nth_firstn_lt by lia; lia. }
  assert (Hidx : forall k, (k < n)%nat -> forall t, (t < ncols Tf)%nat -> close_rows w (nth t (r_idx (nth k o ridge0)) 0%nat) (c k t)).
  { intros k. induction k as [k IH] using (well_founded_induction Wf_nat.lt_wf). intros Hk.
    assert (HM : exists m : nat -> nat, forall t, (t < ncols Tf)%nat -> (m t < nrows Tf)%nat /\ close_rows w (m t) (c k t) /\ 0 < energy Tf (m t) t /\
      (forall f, (f < nrows Tf)%nat -> close_rows w f (c k t) -> energy Tf f t <= energy Tf (m t) t) /\
      forall f, (f < nrows Tf)%nat -> (forall l, (l <= k)%nat -> ~ close_rows w f (c l t)) -> energy Tf f t <= rho * energy Tf (m t) t).
    { assert (X : forall T, (T <= ncols Tf)%nat -> exists m : nat -> nat, forall t, (t < T)%nat -> (m t < nrows Tf)%nat /\ close_rows w (m t) (c k t) /\ 0 < energy Tf (m t) t /\
        (forall f, (f < nrows Tf)%nat -> close_rows w f (c k t) -> energy Tf f t <= energy Tf (m t) t) /\
        forall f, (f < nrows Tf)%nat -> (forall l, (l <= k)%nat -> ~ close_rows w f (c l t)) -> energy Tf f t <= rho * energy Tf (m t) t).
      { induction T as [|T IHT]; intros HT; [exists (fun _ => 0%nat); lia|]. destruct (IHT ltac:(lia)) as (m & Hm). destruct (HC k T Hk ltac:(lia)) as (_ & _ & x & Hx).
        exists (fun t => if (t =? T)%nat then x else m t). intros t Ht. destruct (Nat.eqb_spec t T) as [ ->|]; [exact Hx|apply Hm; lia]. }
      apply X. lia. }
    destruct HM as (m & Hm). intros t Ht. apply HB.
    apply (ridge_k_band par f64 Tf scales penalty n bw cwt o k (B k) m rho J H Hs Hk Hpen); auto.
    - split; [lra|]. split; [intros u Hu; apply (Hm u Hu)|]. intros u Hu. destruct (Hm u Hu) as (A1 & A2 & A3 & A4 & A5). split; [apply HB; exact A2|].
      assert (Hp' : forall l, (l < k)%nat -> close_rows w (nth u (r_idx (nth l o ridge0)) 0%nat) (c l u)) by (intros l Hl; apply IH; lia).
      rewrite (proj1 (Hleft k u (m u) Hk Hu A1 Hp') A2). split; [exact A3|]. intros f Hf. destruct (Hleft k u f Hk Hu Hf Hp') as (M1 & M2).
      assert (Hcase : ~ close_rows w f (c k u) -> 0 <= energy_at (nrows Tf) bw (firstn k o) (energy Tf) f u <= rho * energy Tf (m u) u).
      { intros Hne. assert (Z0 : 0 <= rho * energy Tf (m u) u) by (apply Rmult_le_pos; lra).
        assert (D : (exists l, (l < k)%nat /\ close_rows w f (c l u)) \/ forall l, (l < k)%nat -> ~ close_rows w f (c l u)).
        { clear. induction k as [|k IH]; [right; lia|]. destruct IH as [(l & L1 & L2)|IH]; [left; exists l; split; [lia|exact L2]|].
          assert (D : close_rows w f (c k u) \/ ~ close_rows w f (c k u)) by (unfold close_rows; lia).
          destruct D as [D|D]; [left; exists k; split; [lia|exact D]|right]. intros l Hl. destruct (Nat.eq_dec l k) as [ ->|]; [exact D|apply IH; lia]. }
        destruct D as [(l & L1 & L2)|D]; [rewrite (M2 l L1 L2); lra|].
        destruct (energy_at_kept (nrows Tf) bw (firstn k o) (energy Tf) Hpos f u) as [ -> | -> ]; [lra|]. split; [apply Hpos|]. apply A5; [exact Hf|].
        intros l Hl. destruct (Nat.eq_dec l k) as [ ->|]; [exact Hne|apply D; lia]. }
      split.
      + assert (D : close_rows w f (c k u) \/ ~ close_rows w f (c k u)) by (unfold close_rows; lia). destruct D as [D|D]; [rewrite (M1 D); apply A4; assumption|].
        specialize (Hcase D). nra.
      + intros Hne. apply Hcase. intros K. apply HB in K. congruence.
    - intros f g u Hf Hg Hu B1 B2. apply HB in B1, B2. apply (Hj k u); assumption.
    - intros f _ B1. apply HB in B1. pose proof (Hlast k Hk). unfold close_rows in B1. lia. }
  intros k t Hk Ht p. pose proof (Hidx k Hk t Ht) as Ei. fold p in Ei. split; [exact Ei|].
  destruct (HV k Hk) as (_ & V). destruct (V t Ht) as (V1 & V2 & V3). fold p in V1, V2, V3. split; [exact V2|]. rewrite V3.
  apply (Hleft k t p Hk Ht V1); [|exact Ei]. intros l Hl. apply Hidx; [lia|exact Ht].
Qed.
