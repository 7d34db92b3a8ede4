(** The ridge theorems: optimality, band removal, schedule independence. *)
From Coq Require Import Reals Lra.
From Verif Require Import Py Parallel Cplx CplxProofs Squeeze Ssqueeze SsqueezeProofs Ridge RidgeProofs RidgeOpt.
Local Open Scope R_scope.

(** ** The tracker only looks inside the array *)
Lemma fw_ext pen F T e e' : (forall f t, (f < F)%nat -> (t < T)%nat -> e (f, t) = e' (f, t)) ->
  forall t, (t < T)%nat -> forall f, (f < F)%nat ->
  fw_serial fadd famin pen F T e (f, t) = fw_serial fadd famin pen F T e' (f, t).
Proof.
  intros H. destruct (fw_serial_spec fl fadd famin pen F T e) as (A0 & A1).
  destruct (fw_serial_spec fl fadd famin pen F T e') as (B0 & B1).
  induction t as [|t IH]; intros Ht f Hf.
  - rewrite A0, B0. apply H; assumption.
  - rewrite A1, B1 by assumption. rewrite H by assumption. apply fw_new_ext. intros g Hg.
    replace (S t - 1)%nat with t by lia. apply IH; [lia|exact Hg].
Qed.
Lemma fw_idx_ext F T pe pe' t : (forall f, (f < F)%nat -> pe (f, t) = pe' (f, t)) -> fw_idx F T pe t = fw_idx F T pe' t.
Proof. intros H. unfold fw_idx. f_equal. f_equal. apply tab_ext. exact H. Qed.

(** the serial backward loop keeps the last match *)
Section Last.
Variables (F : nat) (eps : R) (pen : nat -> nat -> fl) (e pe : nat * nat -> fl).
Notation hit := (bw_hit fadd fsub (fnear eps) pen e pe).
Definition last_hit (t : nat) (r0 r : nat -> nat) : Prop :=
  ((r t < F)%nat /\ hit r t (r t) = true /\ forall f, (r t < f < F)%nat -> hit r t f = false) \/
  ((forall f, (f < F)%nat -> hit r t f = false) /\ r t = r0 t).
Lemma bw_last T r : let r' := bw_serial fadd fsub (fnear eps) pen F T e pe r in
  (forall u, (T - 1 <= u)%nat -> r' u = r u) /\ forall t, (t < T - 1)%nat -> last_hit t r r'.
Proof.
  unfold bw_serial. generalize (T - 1)%nat as n. clear T. intros n. revert r.
  induction n as [|n IH]; intros r; cbv zeta.
  - cbn. split; [reflexivity|intros; lia].
  - rewrite seq_S, rev_app_distr. cbn [rev app fold_left Nat.add].
    destruct (bw_inner fl fadd fsub (fnear eps) pen F e pe n r F (le_n F)) as (P0 & P1). cbv zeta in *.
    match goal with |- context [fold_left ?h (seq 0 F) r] => set (r1 := fold_left h (seq 0 F) r) in * end.
    specialize (IH r1). cbv zeta in IH.
    match goal with |- context [fold_left ?h (rev (seq 0 n)) r1] => set (r' := fold_left h (rev (seq 0 n)) r1) in * end.
    destruct IH as (I0 & I1). split.
    + intros u Hu. rewrite I0, P0 by lia. reflexivity.
    + intros t Ht. destruct (Nat.eq_dec t n) as [->|Hne].
      * assert (E : forall f, hit r' n f = hit r n f) by (intros; apply bw_hit_ext; rewrite I0, P0 by lia; reflexivity).
        unfold last_hit. rewrite (I0 n) by lia. destruct P1 as [(A & B & D)|(A & B)].
        -- left. split; [exact A|]. rewrite E. split; [exact B|]. intros f Hf. rewrite E. apply D, Hf.
        -- right. split; [|exact B]. intros f Hf. rewrite E. apply A, Hf.
      * destruct (I1 t ltac:(lia)) as [A|(A & B)]; [left; exact A|right]. split; [exact A|]. rewrite B. apply P0. lia.
Qed.
End Last.

Lemma track_ext i j F T pen eps e e' : (1 <= F)%nat -> (1 <= T)%nat ->
  (forall f t, (f < F)%nat -> (t < T)%nat -> e (f, t) = e' (f, t)) ->
  forall t, (t < T)%nat -> track None i F T pen eps e t = track None j F T pen eps e' t.
Proof.
  intros HF HT H. unfold track.
  set (pe := fw_serial fadd famin pen F T e). set (pe' := fw_serial fadd famin pen F T e').
  assert (Hp : forall t, (t < T)%nat -> forall f, (f < F)%nat -> pe (f, t) = pe' (f, t)) by (apply fw_ext, H).
  destruct (bw_last F eps pen e pe T (fw_idx F T pe)) as (A0 & A1).
  destruct (bw_last F eps pen e' pe' T (fw_idx F T pe')) as (B0 & B1). cbv zeta in *.
  set (a := bw_serial _ _ _ _ _ _ e pe _) in *. set (b := bw_serial _ _ _ _ _ _ e' pe' _) in *.
  assert (Ha : forall t, (t < T)%nat -> (a t < F)%nat).
  { intros t Ht. destruct (Nat.le_gt_cases (T - 1) t) as [G|G]; [rewrite A0 by exact G; apply fw_idx_bound, HF|].
    destruct (A1 t G) as [(A & _)|(_ & ->)]; [exact A|apply fw_idx_bound, HF]. }
  assert (G : forall k t, (T - 1 <= t + k)%nat -> (t < T)%nat -> a t = b t).
  { induction k as [|k IH]; intros t Hk Ht.
    - rewrite A0, B0 by lia. apply fw_idx_ext. intros f Hf. apply Hp; assumption.
    - destruct (Nat.le_gt_cases (T - 1) t) as [G|G]; [rewrite A0, B0 by lia; apply fw_idx_ext; intros f Hf; apply Hp; assumption|].
      assert (E1 : a (t + 1)%nat = b (t + 1)%nat) by (apply IH; lia).
      assert (E : forall f, (f < F)%nat -> bw_hit fadd fsub (fnear eps) pen e pe a t f = bw_hit fadd fsub (fnear eps) pen e' pe' b t f).
      { intros f Hf. unfold bw_hit. rewrite <- E1. assert (Ht1 : (t + 1 < T)%nat) by lia. pose proof (Ha _ Ht1) as Ha1.
        rewrite (Hp (t + 1)%nat Ht1) by exact Ha1. rewrite (Hp t Ht f Hf). rewrite (H _ (t + 1)%nat Ha1 Ht1). reflexivity. }
      destruct (A1 t G) as [(U1 & U2 & U3)|(U1 & U2)], (B1 t G) as [(W1 & W2 & W3)|(W1 & W2)].
      + destruct (Nat.lt_trichotomy (a t) (b t)) as [Q|[Q|Q]]; [|exact Q|].
        * specialize (U3 (b t) ltac:(lia)). rewrite E in U3 by exact W1. congruence.
        * specialize (W3 (a t) ltac:(lia)). rewrite <- E in W3 by exact U1. congruence.
      + specialize (W1 (a t) U1). rewrite <- E in W1 by exact U1. congruence.
      + specialize (U1 (b t) W1). rewrite E in U1 by exact W1. congruence.
      + rewrite U2, W2. apply fw_idx_ext. intros f Hf. apply Hp; assumption. }
  intros t Ht. apply (G T t); lia.
Qed.

(** ** C30 *)
Definition cost_of (f64 : bool) (E : nat -> nat -> R) (M : nat -> R) (f t : nat) : R := - ln (E f t / M t + eps_of f64).
Lemma colmax_eq F E t m : (1 <= F)%nat -> is_colmax F E t m -> colmax F E t = m.
Proof.
  intros HF ((f & Hf & Ef) & Hm). destruct (colmax_spec F E t HF) as ((g & Hg & Eg) & Hc).
  specialize (Hm g Hg). specialize (Hc f Hf). lra.
Qed.
Lemma penalty_jump (cwt : bool) scales penalty F : length scales = F -> forall a b, (a < F)%nat -> (b < F)%nat ->
  penalty_matrix penalty (if cwt then map ln scales else scales) a b = Num (jump cwt scales penalty a b).
Proof.
  intros HL a b Ha Hb. unfold penalty_matrix, jump. f_equal.
  assert (E : forall k, (k < F)%nat -> nth k (if cwt then map ln scales else scales) 0 = if cwt then ln (nth k scales 0) else nth k scales 0).
  { intros k Hk. destruct cwt; [|reflexivity]. rewrite (nth_indep _ 0 (ln 0)) by (rewrite map_length; lia). apply map_nth. }
  rewrite !E by assumption. ring.
Qed.

(** the matrix of [jump]s agrees with the model's on every row *)
Definition pen_of (penalty : R) (cwt : bool) (scales : list R) : nat -> nat -> R :=
  fun a b => let sc := if cwt then map ln scales else scales in
    penalty * ((nth a sc 0 - nth b sc 0) * (nth a sc 0 - nth b sc 0)).
Lemma pen_of_jump (cwt : bool) scales penalty a b : (a < length scales)%nat -> (b < length scales)%nat ->
  pen_of penalty cwt scales a b = jump cwt scales penalty a b.
Proof.
  intros Ha Hb. pose proof (penalty_jump cwt scales penalty _ eq_refl a b Ha Hb) as E. unfold penalty_matrix in E. injection E as E. exact E.
Qed.

Theorem ridge_k_optimal par f64 Tf scales penalty n bw cwt o k M : extract_ridges par f64 Tf scales penalty n bw cwt = Ok o ->
  sched_ok (nrows Tf) par -> (k < n)%nat -> (nrows Tf <= ncols Tf)%nat ->
  let E := energy_at (nrows Tf) bw (firstn k o) (energy Tf) in
  (forall t, (t < ncols Tf)%nat -> is_colmax (nrows Tf) E t (M t) /\ M t <> 0) ->
  let p t := nth t (r_idx (nth k o ridge0)) 0%nat in
  forall q, valid_path (nrows Tf) (ncols Tf) q ->
    path_cost (cost_of f64 E M) (jump cwt scales penalty) (ncols Tf) p <=
    path_cost (cost_of f64 E M) (jump cwt scales penalty) (ncols Tf) q + INR (ncols Tf - 1) * eps_of f64.
Proof.
  intros H Hs Hk HFT E HM p q Hq. apply extract_inv in H. destruct H as (HT & HL & HF & _ & ->).
  specialize (HF ltac:(lia)). set (F := nrows Tf) in *. set (T := ncols Tf) in *.
  set (pen := penalty_matrix penalty (if cwt then map ln scales else scales)) in *.
  set (E0 := fun f t => Cabs (el Tf f t) * Cabs (el Tf f t)) in *.
  destruct (ridge_loop_nth par n F T pen (eps_of f64) bw scales 0 E0 k Hk) as (Ek & A). cbv zeta in A. destruct A as (AE & Ai & _).
  assert (HE : forall f t, (t < T)%nat -> Ek f t = E f t).
  { intros f t Ht. rewrite AE by exact Ht. unfold E. 
    assert (G : forall os E1 E2, (forall f, E1 f t = E2 f t) -> energy_at F bw os E1 f t = energy_at F bw os E2 f t).
    { induction os as [|o' os IH]; intros E1 E2 H; cbn [energy_at]; [apply H|]. apply IH. intros f'. unfold zero_band. rewrite H. reflexivity. }
    apply G. intros f'. unfold E0, energy. ring. }
  set (r := track par (0 + k) F T pen (eps_of f64) (neg_log_norm F (eps_of f64) Ek)) in *.
  destruct (track_spec par (0 + k) F T pen (eps_of f64) (neg_log_norm F (eps_of f64) Ek) Hs) as (pe & Hpe & R1 & R2). cbv zeta in *. fold r in R1, R2.
  assert (Hval : valid_path F T r) by (apply track_valid; auto; lia).
  assert (Hp : forall t, (t < T)%nat -> p t = r t) by (intros t Ht; unfold p; rewrite Ai; apply nth_tab, Ht).
  assert (He : forall f t, (f < F)%nat -> (t < T)%nat -> neg_log_norm F (eps_of f64) Ek (f, t) = Num (cost_of f64 E M f t)).
  { intros f t Hf Ht. unfold neg_log_norm, cost_of. destruct (HM t Ht) as (M1 & M2).
    assert (colmax F Ek t = M t) as ->.
    { apply colmax_eq; [lia|]. destruct M1 as ((g & Hg & Eg) & M1). split; [exists g; split; [exact Hg|]; rewrite HE by exact Ht; exact Eg|].
      intros f' Hf'. rewrite HE by exact Ht. apply M1, Hf'. }
    destruct (Req_EM_T (M t) 0); [contradiction|]. rewrite HE by exact Ht. reflexivity. }
  assert (X : forall w, valid_path F T w -> path_cost (cost_of f64 E M) (jump cwt scales penalty) T w = path_cost (cost_of f64 E M) (pen_of penalty cwt scales) T w).
  { intros w Hw. unfold path_cost. f_equal. apply Rsum_ext. intros t Ht. symmetry. apply pen_of_jump; rewrite HL; apply Hw; lia. }
  assert (Y : path_cost (cost_of f64 E M) (jump cwt scales penalty) T p = path_cost (cost_of f64 E M) (jump cwt scales penalty) T r).
  { unfold path_cost. f_equal; apply Rsum_ext; intros t Ht; rewrite !Hp by lia; reflexivity. }
  rewrite Y, !X by assumption.
  apply (ridge_optimal F T (cost_of f64 E M) (pen_of penalty cwt scales) (neg_log_norm F (eps_of f64) Ek) pen (eps_of f64)
           ltac:(lia) HT (fun a b => eq_refl) He (eps_pos f64) pe Hpe r); auto.
Qed.

Theorem ridges_valid par f64 Tf scales penalty n bw cwt o : extract_ridges par f64 Tf scales penalty n bw cwt = Ok o ->
  sched_ok (nrows Tf) par ->
  length o = n /\ forall k, (k < n)%nat ->
    length (r_idx (nth k o ridge0)) = ncols Tf /\
    forall t, (t < ncols Tf)%nat -> let f := nth t (r_idx (nth k o ridge0)) 0%nat in
      (f < nrows Tf)%nat /\ nth t (r_freq (nth k o ridge0)) 0 = nth f scales 0 /\
      nth t (r_energy (nth k o ridge0)) 0 = energy_at (nrows Tf) bw (firstn k o) (energy Tf) f t.
Proof.
  intros H Hs. apply extract_inv in H. destruct H as (HT & HL & HF & _ & ->). split; [apply ridge_loop_length|].
  intros k Hk. specialize (HF ltac:(lia)). set (F := nrows Tf) in *. set (T := ncols Tf) in *.
  set (pen := penalty_matrix penalty (if cwt then map ln scales else scales)) in *.
  set (E0 := fun f t => Cabs (el Tf f t) * Cabs (el Tf f t)) in *.
  destruct (ridge_loop_nth par n F T pen (eps_of f64) bw scales 0 E0 k Hk) as (Ek & A). cbv zeta in A. destruct A as (AE & Ai & Af & Ae).
  rewrite Ai, Af, Ae. split; [apply tab_length|]. intros t Ht. cbv zeta. rewrite !nth_tab by exact Ht.
  split; [apply track_valid; auto; lia|]. split; [reflexivity|]. rewrite AE by exact Ht.
  assert (G : forall os E1 E2 f, (forall f, E1 f t = E2 f t) -> energy_at F bw os E1 f t = energy_at F bw os E2 f t).
  { induction os as [|o' os IH]; intros E1 E2 f H; cbn [energy_at]; [apply H|]. apply IH. intros f'. unfold zero_band. rewrite H. reflexivity. }
  apply G. intros f'. unfold E0, energy. ring.
Qed.

(** ** C31 *)
Lemma energy_at_zero F bw os E f t : (forall f, E f t = 0 \/ True) -> E f t = 0 -> energy_at F bw os E f t = 0.
Proof.
  intros _. revert E. induction os as [|o os IH]; intros E H; cbn [energy_at]; [exact H|]. apply IH.
  unfold zero_band. rewrite H. destruct (_ && _); reflexivity.
Qed.
Lemma energy_at_band F bw os k E f t : (k < length os)%nat ->
  (Z.of_nat (nth t (r_idx (nth k os ridge0)) 0%nat) >= bw)%Z -> (f < F)%nat ->
  (Z.of_nat (nth t (r_idx (nth k os ridge0)) 0%nat) - bw <= Z.of_nat f < Z.of_nat (nth t (r_idx (nth k os ridge0)) 0%nat) + bw)%Z ->
  energy_at F bw os E f t = 0.
Proof.
  revert k E. induction os as [|o os IH]; intros k E Hk H1 Hf H2; [cbn in Hk; lia|]. cbn [energy_at]. destruct k as [|k]; cbn [nth] in *.
  - apply energy_at_zero; [auto|]. unfold zero_band. set (r := nth t (r_idx o) 0%nat) in *.
    assert (norm_bound (Z.of_nat F) (Z.of_nat r - bw) <= Z.of_nat f)%Z by (unfold norm_bound; destruct (Z.ltb_spec (Z.of_nat r - bw) 0); lia).
    assert (Z.of_nat f < norm_bound (Z.of_nat F) (Z.of_nat r + bw))%Z by (unfold norm_bound; destruct (Z.ltb_spec (Z.of_nat r + bw) 0); lia).
    destruct (Z.leb_spec (norm_bound (Z.of_nat F) (Z.of_nat r - bw)) (Z.of_nat f)); [|lia].
    destruct (Z.ltb_spec (Z.of_nat f) (norm_bound (Z.of_nat F) (Z.of_nat r + bw))); [|lia]. reflexivity.
  - apply (IH k); auto. cbn [length] in Hk. lia.
Qed.
Lemma energy_at_far F bw os E f t : (0 <= bw)%Z -> (f < F)%nat ->
  (forall k, (k < length os)%nat -> let r := Z.of_nat (nth t (r_idx (nth k os ridge0)) 0%nat) in
     (bw <= r /\ (Z.of_nat f < r - bw \/ r + bw <= Z.of_nat f))%Z) ->
  energy_at F bw os E f t = E f t.
Proof.
  intros Hb Hf. revert E. induction os as [|o os IH]; intros E H; cbn [energy_at]; [reflexivity|]. rewrite IH.
  - specialize (H 0%nat ltac:(cbn; lia)). cbn [nth] in H. cbv zeta in H. unfold zero_band. set (r := nth t (r_idx o) 0%nat) in *.
    destruct (Z.leb_spec (norm_bound (Z.of_nat F) (Z.of_nat r - bw)) (Z.of_nat f)); [|reflexivity].
    destruct (Z.ltb_spec (Z.of_nat f) (norm_bound (Z.of_nat F) (Z.of_nat r + bw))); [|reflexivity].
    exfalso. unfold norm_bound in *. destruct (Z.ltb_spec (Z.of_nat r - bw) 0), (Z.ltb_spec (Z.of_nat r + bw) 0); lia.
  - intros k Hk. apply (H (S k)). cbn [length]. lia.
Qed.

Theorem band_removed par f64 Tf scales penalty n bw cwt o k l t : extract_ridges par f64 Tf scales penalty n bw cwt = Ok o ->
  sched_ok (nrows Tf) par -> (k < l)%nat -> (l < n)%nat -> (t < ncols Tf)%nat ->
  let r := Z.of_nat (nth t (r_idx (nth k o ridge0)) 0%nat) in
  let r' := Z.of_nat (nth t (r_idx (nth l o ridge0)) 0%nat) in
  (bw <= r)%Z -> (r - bw <= r' < r + bw)%Z -> nth t (r_energy (nth l o ridge0)) 0 = 0.
Proof.
  intros H Hs Hkl Hl Ht r r' H1 H2. destruct (ridges_valid _ _ _ _ _ _ _ _ _ H Hs) as (HL & HV).
  destruct (HV l Hl) as (_ & Hv). destruct (Hv t Ht) as (V1 & _ & V3). cbv zeta in *. rewrite V3.
  assert (E : nth k (firstn l o) ridge0 = nth k o ridge0) by (apply nth_firstn_lt, Hkl).
  apply (energy_at_band _ _ _ k); [rewrite firstn_length; lia| |exact V1|]; rewrite E; fold r; fold r'; lia.
Qed.
Theorem rest_kept par f64 Tf scales penalty n bw cwt o l t : extract_ridges par f64 Tf scales penalty n bw cwt = Ok o ->
  sched_ok (nrows Tf) par -> (l < n)%nat -> (t < ncols Tf)%nat -> (0 <= bw)%Z ->
  let r' := Z.of_nat (nth t (r_idx (nth l o ridge0)) 0%nat) in
  (forall k, (k < l)%nat -> let r := Z.of_nat (nth t (r_idx (nth k o ridge0)) 0%nat) in
     (bw <= r /\ (r' < r - bw \/ r + bw <= r'))%Z) ->
  nth t (r_energy (nth l o ridge0)) 0 = energy Tf (nth t (r_idx (nth l o ridge0)) 0%nat) t.
Proof.
  intros H Hs Hl Ht Hb r' H1. destruct (ridges_valid _ _ _ _ _ _ _ _ _ H Hs) as (HL & HV).
  destruct (HV l Hl) as (_ & Hv). destruct (Hv t Ht) as (V1 & _ & V3). cbv zeta in *. rewrite V3.
  apply energy_at_far; auto. intros k Hk. rewrite firstn_length in Hk. rewrite nth_firstn_lt by lia. apply H1. lia.
Qed.

(** the negative slice start: nothing is removed, and the same ridge is found again *)
Theorem repeated_ridge f64 Tf scales penalty n bw cwt o : extract_ridges None f64 Tf scales penalty n bw cwt = Ok o ->
  (2 <= n)%nat -> (0 <= bw)%Z -> (2 * bw <= Z.of_nat (nrows Tf))%Z ->
  (forall t, (t < ncols Tf)%nat -> (Z.of_nat (nth t (r_idx (nth 0 o ridge0)) 0%nat) < bw)%Z) ->
  nth 1 o ridge0 = nth 0 o ridge0.
Proof.
  intros H Hn Hb HF2 Hr. apply extract_inv in H. destruct H as (HT & HL & HF & _ & ->). specialize (HF ltac:(lia)).
  set (F := nrows Tf) in *. set (T := ncols Tf) in *.
  set (pen := penalty_matrix penalty (if cwt then map ln scales else scales)) in *.
  set (E0 := fun f t => Cabs (el Tf f t) * Cabs (el Tf f t)) in *.
  destruct n as [|[|n]]; try lia. cbn [ridge_loop nth] in *.
  set (r := track None 0 F T pen (eps_of f64) (neg_log_norm F (eps_of f64) E0)) in *.
  set (E1 := zero_band F bw r E0).
  assert (HE : forall f t, (t < T)%nat -> E1 f t = E0 f t).
  { intros f t Ht. unfold E1, zero_band. specialize (Hr t Ht). unfold r_idx in Hr. cbn [fst] in Hr. rewrite nth_tab in Hr by exact Ht.
    destruct (Z.leb_spec (norm_bound (Z.of_nat F) (Z.of_nat (r t) - bw)) (Z.of_nat f)); [|reflexivity].
    destruct (Z.ltb_spec (Z.of_nat f) (norm_bound (Z.of_nat F) (Z.of_nat (r t) + bw))); [|reflexivity].
    exfalso. unfold norm_bound in *. destruct (Z.ltb_spec (Z.of_nat (r t) - bw) 0), (Z.ltb_spec (Z.of_nat (r t) + bw) 0); lia. }
  assert (HR : forall t, (t < T)%nat -> track None 1 F T pen (eps_of f64) (neg_log_norm F (eps_of f64) E1) t = r t).
  { apply track_ext; [lia|exact HT|]. intros f t Hf Ht. unfold neg_log_norm.
    assert (colmax F E1 t = colmax F E0 t) as ->.
    { unfold colmax. rewrite HE by exact Ht. f_equal. apply tab_ext. intros; apply HE, Ht. }
    rewrite HE by exact Ht. reflexivity. }
  f_equal; [f_equal|]; apply tab_ext; intros t Ht; rewrite HR by exact Ht; auto.
Qed.

(** ** C32 *)
(** least cost of a path ending in row [f] at time [t] *)
Definition least_costs (F T : nat) (er pr : nat -> nat -> R) (d : nat -> nat -> R) : Prop :=
  (forall f, (f < F)%nat -> d f 0%nat = er f 0%nat) /\
  (forall f t, (f < F)%nat -> (S t < T)%nat ->
     (exists g, (g < F)%nat /\ d f (S t) = er f (S t) + (d g t + pr f g)) /\
     forall g, (g < F)%nat -> d f (S t) <= er f (S t) + (d g t + pr f g)).
(** no two rows are, up to [eps], equally good predecessors *)
Definition tie_free (F T : nat) (er pr : nat -> nat -> R) (eps : R) : Prop :=
  forall d, least_costs F T er pr d -> forall h f g t, (h < F)%nat -> (f < F)%nat -> (g < F)%nat -> (S t < T)%nat ->
    Rabs (d h (S t) - er h (S t) - (d f t + pr h f)) < eps -> Rabs (d h (S t) - er h (S t) - (d g t + pr h g)) < eps -> f = g.

Lemma track_tie_free par i F T pen eps e er pr : sched_ok F par -> (1 <= F)%nat -> (1 <= T)%nat ->
  (forall a b, pen a b = Num (pr a b)) -> (forall f t, (f < F)%nat -> (t < T)%nat -> e (f, t) = Num (er f t)) ->
  tie_free F T er pr eps -> forall t, track par i F T pen eps e t = track None i F T pen eps e t.
Proof.
  intros Hs HF HT Hpen He Htf.
  destruct (track_spec par i F T pen eps e Hs) as (pe & Hpe & A1 & A2).
  destruct (track_spec None i F T pen eps e I) as (pe' & Hpe' & B1 & B2). cbv zeta in *.
  set (a := track par i F T pen eps e) in *. set (b := track None i F T pen eps e) in *.
  assert (Epe : forall c, pe' c = pe c) by (intros c; rewrite Hpe, Hpe'; reflexivity).
  assert (Ei : forall u, fw_idx F T pe' u = fw_idx F T pe u) by (intros u; apply fw_idx_ext; intros; apply Epe).
  assert (Eh : forall r t f, bw_hit fadd fsub (fnear eps) pen e pe' r t f = bw_hit fadd fsub (fnear eps) pen e pe r t f) by (intros; unfold bw_hit; rewrite !Epe; reflexivity).
  assert (Va : valid_path F T a) by (apply track_valid; assumption).
  apply (settled_unique fl fadd fsub (fnear eps) pen F e pe T (fw_idx F T pe)).
  - intros u Hu. rewrite A1, B1, Ei by exact Hu. reflexivity.
  - exact A2.
  - intros t Ht. destruct (B2 t Ht) as [(U & W)|(U & W)]; [left; split; [exact U|rewrite <- Eh; exact W]|right; split; [intros f Hf; rewrite <- Eh; apply U, Hf|rewrite W; apply Ei]].
  - assert (Hd : least_costs F T er pr (dval pe)).
    { split.
      - intros f Hf. apply (dval_0 F T er pr e pen HF HT Hpen He pe Hpe f Hf).
      - intros f t Hf Ht. destruct (dval_S F T er pr e pen HF HT Hpen He pe Hpe f t Hf Ht) as ((g & Hg & Eg) & Hle). split.
        + exists g. split; [exact Hg|]. lra.
        + intros g' Hg'. specialize (Hle g' Hg'). lra. }
    intros t f g Ht Hf Hg H1 H2. assert (Ht1 : (S t < T)%nat) by lia.
    assert (Hh : forall f, (f < F)%nat -> bw_hit fadd fsub (fnear eps) pen e pe a t f =
       if Rlt_dec (Rabs (dval pe (a (S t)) (S t) - er (a (S t)) (S t) - (dval pe f t + pr (a (S t)) f))) eps then true else false).
    { intros f' Hf'. unfold bw_hit. replace (t + 1)%nat with (S t) by lia. pose proof (Va (S t) Ht1).
      rewrite (pe_num F T er pr e pen HF HT Hpen He pe Hpe (S t)), He, (pe_num F T er pr e pen HF HT Hpen He pe Hpe t), Hpen by (assumption || lia). reflexivity. }
    rewrite Hh in H1, H2 by assumption.
    apply (Htf _ Hd (a (S t)) f g t); auto; destruct (Rlt_dec _ eps) in H1; try discriminate; destruct (Rlt_dec _ eps) in H2; try discriminate; assumption.
Qed.

Theorem schedule_free par f64 Tf scales penalty bw cwt o o' : 
  extract_ridges par f64 Tf scales penalty 1 bw cwt = Ok o -> extract_ridges None f64 Tf scales penalty 1 bw cwt = Ok o' ->
  sched_ok (nrows Tf) par -> forall M, (forall t, (t < ncols Tf)%nat -> is_colmax (nrows Tf) (energy Tf) t (M t) /\ M t <> 0) ->
  tie_free (nrows Tf) (ncols Tf) (cost_of f64 (energy Tf) M) (pen_of penalty cwt scales) (eps_of f64) -> o = o'.
Proof.
  intros H H' Hs M HM Htf. apply extract_inv in H. destruct H as (HT & HL & HF & _ & ->). specialize (HF (le_n 1)).
  apply extract_inv in H'. destruct H' as (_ & _ & _ & _ & ->). cbn [ridge_loop].
  set (E0 := fun f t => Cabs (el Tf f t) * Cabs (el Tf f t)).
  assert (HR : forall t, track par 0 (nrows Tf) (ncols Tf) (penalty_matrix penalty (if cwt then map ln scales else scales)) (eps_of f64) (neg_log_norm (nrows Tf) (eps_of f64) E0) t =
                         track None 0 (nrows Tf) (ncols Tf) (penalty_matrix penalty (if cwt then map ln scales else scales)) (eps_of f64) (neg_log_norm (nrows Tf) (eps_of f64) E0) t).
  { apply (track_tie_free par 0 _ _ _ _ _ (cost_of f64 (energy Tf) M) (pen_of penalty cwt scales)); auto; [lia|].
    intros f t Hf Ht. unfold neg_log_norm, cost_of. destruct (HM t Ht) as (M1 & M2).
    assert (HE : forall f, E0 f t = energy Tf f t) by (intros; unfold E0, energy; ring).
    assert (colmax (nrows Tf) E0 t = M t) as ->.
    { apply colmax_eq; [lia|]. destruct M1 as ((g & Hg & Eg) & M1). split; [exists g; split; [exact Hg|]; rewrite HE; exact Eg|].
      intros f' Hf'. rewrite HE. apply M1, Hf'. }
    destruct (Req_EM_T (M t) 0); [contradiction|]. rewrite HE. reflexivity. }
  f_equal. f_equal; [f_equal|]; apply tab_ext; intros t Ht; rewrite HR; reflexivity.
Qed.

(** the same for any number of ridges *)
Definition clear_choice (f64 : bool) (F T : nat) (pr : nat -> nat -> R) (E : nat -> nat -> R) : Prop :=
  exists M, (forall t, (t < T)%nat -> is_colmax F E t (M t) /\ M t <> 0) /\ tie_free F T (cost_of f64 E M) pr (eps_of f64).
Lemma energy_at_ext F bw os E1 E2 f t : (forall f, E1 f t = E2 f t) -> energy_at F bw os E1 f t = energy_at F bw os E2 f t.
Proof.
  revert E1 E2. induction os as [|o os IH]; intros E1 E2 H; cbn [energy_at]; [apply H|].
  apply IH. intros f'. unfold zero_band. rewrite H. reflexivity.
Qed.
Lemma clear_choice_ext f64 F T pr E E' : (forall f t, (t < T)%nat -> E f t = E' f t) -> clear_choice f64 F T pr E -> clear_choice f64 F T pr E'.
Proof.
  intros H (M & HM & Ht). exists M. split.
  - intros t Ht'. destruct (HM t Ht') as (((g & Hg & Eg) & B) & C). split; [|exact C]. split.
    + exists g. split; [exact Hg|]. rewrite <- H by exact Ht'. exact Eg.
    + intros f Hf. rewrite <- H by exact Ht'. apply B, Hf.
  - assert (EC : forall f t, (t < T)%nat -> cost_of f64 E' M f t = cost_of f64 E M f t).
    { intros f t Ht'. unfold cost_of. rewrite H by exact Ht'. reflexivity. }
    intros d (D0 & D1) h f g t Hh Hf Hg Ht' A B. rewrite EC in A, B by exact Ht'.
    apply (Ht d) with (h := h) (t := t); auto. split.
    + intros f' Hf'. rewrite <- EC by lia. apply D0, Hf'.
    + intros f' t' Hf' Ht''. rewrite <- EC by lia. apply D1; assumption.
Qed.
Lemma loop_tie_free par f64 F T penalty (cwt : bool) bw scales n : sched_ok F par -> (1 <= F)%nat -> (1 <= T)%nat -> forall i E,
  let pen := penalty_matrix penalty (if cwt then map ln scales else scales) in
  let o := ridge_loop None i n F T pen (eps_of f64) bw scales E in
  (forall k, (k < n)%nat -> clear_choice f64 F T (pen_of penalty cwt scales) (energy_at F bw (firstn k o) E)) ->
  ridge_loop par i n F T pen (eps_of f64) bw scales E = o.
Proof.
  intros Hs HF HT. induction n as [|n IH]; intros i E; cbv zeta; intros H; [reflexivity|].
  cbn [ridge_loop] in *.
  set (pen := penalty_matrix penalty (if cwt then map ln scales else scales)) in *.
  assert (HR : track par i F T pen (eps_of f64) (neg_log_norm F (eps_of f64) E) = track None i F T pen (eps_of f64) (neg_log_norm F (eps_of f64) E)).
  { apply FunctionalExtensionality.functional_extensionality. destruct (H 0%nat ltac:(lia)) as (M & HM & Htf). cbn [firstn energy_at] in HM, Htf.
    apply (track_tie_free par i F T pen (eps_of f64) _ (cost_of f64 E M) (pen_of penalty cwt scales)); auto.
    intros f t Hf Ht. unfold neg_log_norm, cost_of. destruct (HM t Ht) as (M1 & M2). rewrite (colmax_eq F E t (M t)) by (auto; lia).
    destruct (Req_EM_T (M t) 0); [contradiction|]. reflexivity. }
  rewrite HR. f_equal. apply IH. intros k Hk. specialize (H (S k) ltac:(lia)). cbn [firstn energy_at] in H.
  eapply clear_choice_ext; [|exact H]. intros f t Ht. apply energy_at_ext. intros f'. apply zero_band_ext. unfold r_idx. cbn [fst]. apply nth_tab, Ht.
Qed.
Theorem schedule_free_all par f64 Tf scales penalty n bw cwt o o' :
  extract_ridges par f64 Tf scales penalty n bw cwt = Ok o -> extract_ridges None f64 Tf scales penalty n bw cwt = Ok o' ->
  sched_ok (nrows Tf) par ->
  (forall k, (k < n)%nat -> clear_choice f64 (nrows Tf) (ncols Tf) (pen_of penalty cwt scales)
                              (energy_at (nrows Tf) bw (firstn k o') (energy Tf))) -> o = o'.
Proof.
  intros H H' Hs HC. apply extract_inv in H. destruct H as (HT & HL & HF & _ & ->).
  apply extract_inv in H'. destruct H' as (_ & _ & _ & _ & ->). destruct n as [|n]; [reflexivity|]. specialize (HF ltac:(lia)).
  apply loop_tie_free; auto; [lia|]. intros k Hk. eapply clear_choice_ext; [|apply HC, Hk].
  intros f t Ht. apply energy_at_ext. intros f'. unfold energy. ring.
Qed.
