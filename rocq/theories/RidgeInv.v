(** What ridges do not depend on: a gain common to one column of [Tf], and the unit of the
    scales. *)
From Coq Require Import Reals Lra FunctionalExtensionality.
From Verif Require Import Py Parallel Cplx CplxProofs Squeeze Ssqueeze SsqueezeProofs Ridge RidgeProofs RidgeOpt RidgeThms.
Local Open Scope R_scope.

(** ** A gain for each column *)
Lemma fold_max_scale a l b : 0 <= a -> fold_left Rmax (map (Rmult a) l) (a * b) = a * fold_left Rmax l b.
Proof.
  intros Ha. revert b. induction l as [|x l IH]; intros b; cbn [map fold_left]; [reflexivity|].
  rewrite RmaxRmult by exact Ha. apply IH.
Qed.
Lemma colmax_scale F a E t : 0 <= a t -> colmax F (fun f t => a t * E f t) t = a t * colmax F E t.
Proof.
  intros Ha. unfold colmax. rewrite <- fold_max_scale by exact Ha. f_equal. unfold tab. rewrite map_map. reflexivity.
Qed.
Lemma neg_log_norm_scale F eps a E : (forall t, 0 < a t) ->
  neg_log_norm F eps (fun f t => a t * E f t) = neg_log_norm F eps E.
Proof.
  intros Ha. apply functional_extensionality. intros (f & t). unfold neg_log_norm. specialize (Ha t).
  rewrite colmax_scale by lra. destruct (Req_EM_T (a t * colmax F E t) 0) as [H|H], (Req_EM_T (colmax F E t) 0) as [H'|H'].
  - reflexivity.
  - exfalso. apply Rmult_integral in H. destruct H; [lra|contradiction].
  - exfalso. apply H. rewrite H'. ring.
  - do 4 f_equal. field. lra.
Qed.
Lemma zero_band_scale F bw r a E :
  zero_band F bw r (fun f t => a t * E f t) = fun f t => a t * zero_band F bw r E f t.
Proof.
  apply functional_extensionality. intros f. apply functional_extensionality. intros t. unfold zero_band.
  destruct (_ && _); ring.
Qed.
(** one ridge of the amplified transform *)
Definition amplified (a : nat -> R) (o : list nat * list R * list R) : list nat * list R * list R :=
  (r_idx o, r_freq o, tab (length (r_energy o)) (fun t => a t * nth t (r_energy o) 0)).
Lemma ridge_loop_scale par F T pen eps bw sc a : (forall t, 0 < a t) -> forall n i E,
  ridge_loop par i n F T pen eps bw sc (fun f t => a t * E f t) = map (amplified a) (ridge_loop par i n F T pen eps bw sc E).
Proof.
  intros Ha. induction n as [|n IH]; intros i E; cbn [ridge_loop map]; [reflexivity|].
  rewrite neg_log_norm_scale by exact Ha. f_equal.
  - unfold amplified, r_idx, r_freq, r_energy. cbn [fst snd]. rewrite tab_length. f_equal. apply tab_ext. intros t Ht.
    rewrite nth_tab by exact Ht. reflexivity.
  - rewrite zero_band_scale. apply IH.
Qed.
Lemma Cabs_mul_sq a b : Cabs (Cmul a b) * Cabs (Cmul a b) = Cabs a * Cabs a * (Cabs b * Cabs b).
Proof. unfold Cabs. rewrite !sqrt_sqrt by apply Cnorm2_nonneg. rewrite Cnorm2_mul. reflexivity. Qed.
Definition times_columns (c : nat -> C) (m : mat C) : mat C := Mat (nrows m) (ncols m) (fun f t => Cmul (c t) (el m f t)).
Lemma extract_amplified par f64 Tf scales penalty n bw cwt c : (forall t, c t <> C0) ->
  extract_ridges par f64 (times_columns c Tf) scales penalty n bw cwt =
  match extract_ridges par f64 Tf scales penalty n bw cwt with
  | Ok o => Ok (map (amplified (fun t => Cabs (c t) ^ 2)) o)
  | Err e => Err e
  end.
Proof.
  intros Hc. unfold extract_ridges, times_columns. cbn [nrows ncols el].
  destruct (_ || _); [reflexivity|]. destruct (n =? 0)%nat; [reflexivity|]. destruct (nrows Tf =? 0)%nat; [reflexivity|].
  destruct (nrows Tf =? 1)%nat; [reflexivity|]. f_equal. rewrite <- ridge_loop_scale.
  - f_equal. apply functional_extensionality. intros f. apply functional_extensionality. intros t.
    rewrite Cabs_mul_sq. ring.
  - intros t. pose proof (Cabs_pos (c t) (Hc t)). nra.
Qed.

(** ** Scales that give the same jumps *)
Section PenExt.
Variables (F T : nat) (pen pen' : nat -> nat -> fl).
Hypothesis Hpen : forall a b, (a < F)%nat -> (b < F)%nat -> pen a b = pen' a b.
Lemma fw_new_pen s t f : (f < F)%nat -> fw_new fadd famin pen F s t f = fw_new fadd famin pen' F s t f.
Proof.
  intros Hf. apply functional_extensionality. intros x. unfold fw_new. do 2 f_equal. apply tab_ext. intros g Hg.
  rewrite Hpen by assumption. reflexivity.
Qed.
Lemma fw_progs_pen s t : fw_progs fadd famin pen F s t = fw_progs fadd famin pen' F s t.
Proof.
  apply functional_extensionality. intros f. unfold fw_progs. destruct (Nat.ltb_spec f F); [|reflexivity].
  rewrite fw_new_pen by assumption. reflexivity.
Qed.
Lemma fold_left_ext_in {A B} (f g : A -> B -> A) l a : (forall a b, In b l -> f a b = g a b) -> fold_left f l a = fold_left g l a.
Proof.
  revert a. induction l as [|x l IH]; intros a H; cbn [fold_left]; [reflexivity|].
  rewrite H by (left; reflexivity). apply IH. intros a' b Hb. apply H. right. exact Hb.
Qed.
Lemma fw_serial_pen s : fw_serial fadd famin pen F T s = fw_serial fadd famin pen' F T s.
Proof.
  unfold fw_serial. apply fold_left_ext_in. intros s' t _. apply fold_left_ext_in. intros s'' f Hf. apply in_seq in Hf.
  rewrite fw_new_pen by lia. reflexivity.
Qed.
Lemma fw_par_pen sch s : fw_par fadd famin pen F T sch s = fw_par fadd famin pen' F T sch s.
Proof. unfold fw_par, fw_phase. apply fold_left_ext_in. intros s' t _. rewrite fw_progs_pen. reflexivity. Qed.
Variables (eps : R) (e pe : nat * nat -> fl).
Lemma bw_hit_pen r t f : (r (t + 1)%nat < F)%nat -> (f < F)%nat ->
  bw_hit fadd fsub (fnear eps) pen e pe r t f = bw_hit fadd fsub (fnear eps) pen' e pe r t f.
Proof. intros Hr Hf. unfold bw_hit. rewrite Hpen by assumption. reflexivity. Qed.
Lemma bw_progs_pen r t : (r (t + 1)%nat < F)%nat ->
  bw_progs fadd fsub (fnear eps) pen F e pe r t = bw_progs fadd fsub (fnear eps) pen' F e pe r t.
Proof.
  intros Hr. apply functional_extensionality. intros f. unfold bw_progs. destruct (Nat.ltb_spec f F) as [Hf|Hf]; cbn [andb]; [|reflexivity].
  rewrite bw_hit_pen by assumption. reflexivity.
Qed.
Lemma fold_inv_ext {A B} (P : A -> Prop) (f g : A -> B -> A) l : (forall a b, P a -> f a b = g a b /\ P (f a b)) ->
  forall a, P a -> fold_left f l a = fold_left g l a.
Proof.
  intros H. induction l as [|b l IH]; intros a Ha; cbn [fold_left]; [reflexivity|].
  destruct (H a b Ha) as (E & Hp). rewrite <- E. apply IH, Hp.
Qed.
Lemma bw_inner_pen t : forall l r, (forall f, In f l -> (f < F)%nat) -> (forall u, (r u < F)%nat) ->
  fold_left (fun r f => if bw_hit fadd fsub (fnear eps) pen e pe r t f then upd Nat.eq_dec r t f else r) l r =
  fold_left (fun r f => if bw_hit fadd fsub (fnear eps) pen' e pe r t f then upd Nat.eq_dec r t f else r) l r.
Proof.
  induction l as [|f l IH]; intros r Hl Hr; cbn [fold_left]; [reflexivity|].
  assert (Hf : (f < F)%nat) by (apply Hl; left; reflexivity). rewrite bw_hit_pen by (try apply Hr; exact Hf).
  apply IH; [intros g Hg; apply Hl; right; exact Hg|]. intros u. destruct (bw_hit _ _ _ _ _ _ _ _ _); [|apply Hr].
  unfold upd. destruct (Nat.eq_dec _ _); [exact Hf|apply Hr].
Qed.
Lemma bw_result_below t r r' : (forall u, (r u < F)%nat) -> bw_result fl fadd fsub (fnear eps) pen F e pe t r r' -> forall u, (r' u < F)%nat.
Proof.
  intros Hr (A & B) u. destruct (Nat.eq_dec u t) as [->|N]; [|rewrite A by exact N; apply Hr].
  destruct B as [(B & _)|(_ & ->)]; [exact B|apply Hr].
Qed.
Lemma bw_serial_pen r : (forall u, (r u < F)%nat) ->
  bw_serial fadd fsub (fnear eps) pen F T e pe r = bw_serial fadd fsub (fnear eps) pen' F T e pe r.
Proof.
  intros Hr. unfold bw_serial. apply (fold_inv_ext (fun r => forall u, (r u < F)%nat)); [|exact Hr]. intros r' t Hr'. split.
  - apply bw_inner_pen; [|exact Hr']. intros f Hf. apply in_seq in Hf. lia.
  - apply (bw_result_below t r' _ Hr'). apply bw_serial_result.
Qed.
Lemma bw_par_pen sch r : (forall t, valid_sched F (sch t)) -> (forall u, (r u < F)%nat) ->
  bw_par fadd fsub (fnear eps) pen F T sch e pe r = bw_par fadd fsub (fnear eps) pen' F T sch e pe r.
Proof.
  intros Hs Hr. unfold bw_par. apply (fold_inv_ext (fun r => forall u, (r u < F)%nat)); [|exact Hr]. intros r' i Hr'. cbv zeta. split.
  - unfold bw_phase. rewrite bw_progs_pen by apply Hr'. reflexivity.
  - apply (bw_result_below (T - 2 - i) r' _ Hr'). apply bw_phase_result, Hs.
Qed.
End PenExt.

Lemma track_pen par i F T pen pen' eps e : sched_ok F par -> (1 <= F)%nat ->
  (forall a b, (a < F)%nat -> (b < F)%nat -> pen a b = pen' a b) -> track par i F T pen eps e = track par i F T pen' eps e.
Proof.
  intros Hs HF Hpen. unfold track. destruct par as [(sf & sb)|].
  - rewrite (fw_par_pen F T pen pen' Hpen). apply bw_par_pen; [exact Hpen|apply Hs|]. intros u. apply fw_idx_bound, HF.
  - rewrite (fw_serial_pen F T pen pen' Hpen). apply bw_serial_pen; [exact Hpen|]. intros u. apply fw_idx_bound, HF.
Qed.
(** one ridge with other scales *)
Definition relabelled (scales : list R) (o : list nat * list R * list R) : list nat * list R * list R :=
  (r_idx o, map (fun f => nth f scales 0) (r_idx o), r_energy o).
Lemma ridge_loop_pen par F T pen pen' eps bw sc sc' : sched_ok F par -> (1 <= F)%nat ->
  (forall a b, (a < F)%nat -> (b < F)%nat -> pen a b = pen' a b) -> forall n i E,
  ridge_loop par i n F T pen' eps bw sc' E = map (relabelled sc') (ridge_loop par i n F T pen eps bw sc E).
Proof.
  intros Hs HF Hp. induction n as [|n IH]; intros i E; cbn [ridge_loop map]; [reflexivity|].
  rewrite <- (track_pen par i F T pen pen' eps _ Hs HF Hp). f_equal; [|apply IH].
  unfold relabelled, r_idx, r_energy. cbn [fst snd]. do 2 f_equal. unfold tab. rewrite map_map. reflexivity.
Qed.
Lemma extract_relabelled par f64 Tf scales scales' penalty penalty' n bw cwt o : sched_ok (nrows Tf) par ->
  extract_ridges par f64 Tf scales penalty n bw cwt = Ok o -> length scales' = length scales ->
  (cwt = true -> forall k, (k < nrows Tf)%nat -> 0 < nth k scales' 0) ->
  (forall a b, (a < nrows Tf)%nat -> (b < nrows Tf)%nat -> jump cwt scales' penalty' a b = jump cwt scales penalty a b) ->
  extract_ridges par f64 Tf scales' penalty' n bw cwt = Ok (map (relabelled scales') o).
Proof.
  intros Hs H HL Hpos Hj. destruct (extract_inv _ _ _ _ _ _ _ _ _ H) as (HT & HL0 & HF & _ & Eo).
  destruct n as [|n].
  - cbn [ridge_loop] in Eo. subst o. unfold extract_ridges. rewrite HL, HL0, Nat.eqb_refl. cbn [negb orb].
    destruct (Nat.eqb_spec (ncols Tf) 0); [lia|]. cbn [orb].
    assert (cwt && negb (forallb is_pos scales') = false) as ->; [|reflexivity].
    destruct cwt; [|reflexivity]. cbn [andb]. apply Bool.negb_false_iff, forallb_forall. intros x Hx.
    apply (In_nth _ _ 0) in Hx. destruct Hx as (k & Hk & <-). unfold is_pos. destruct (Rlt_dec 0 (nth k scales' 0)); [reflexivity|].
    exfalso. apply n0. apply Hpos; [reflexivity|lia].
  - specialize (HF ltac:(lia)).
    destruct (extract_ok par f64 Tf scales' penalty' (S n) bw cwt HT HF ltac:(lia) Hpos) as (o' & H').
    rewrite H'. f_equal. destruct (extract_inv _ _ _ _ _ _ _ _ _ H') as (_ & _ & _ & _ & ->). subst o.
    apply ridge_loop_pen; [exact Hs|lia|]. intros a b Ha Hb. rewrite !(penalty_jump cwt _ _ (nrows Tf)) by (try lia; assumption).
    f_equal. symmetry. apply Hj; assumption.
Qed.

Lemma ln_shift_scales a scales k : 0 < a -> (k < length scales)%nat -> (0 < nth k scales 0) ->
  ln (nth k (map (Rmult a) scales) 0) = ln a + ln (nth k scales 0).
Proof.
  intros Ha Hk Hp. rewrite (nth_indep _ 0 (a * 0)) by (rewrite map_length; exact Hk). rewrite (map_nth (Rmult a)). apply ln_mult; assumption.
Qed.
(** every scale multiplied by the same number, [transform='cwt'] *)
Theorem ridges_unit_free par f64 Tf scales penalty n bw o a : sched_ok (nrows Tf) par -> 0 < a ->
  extract_ridges par f64 Tf scales penalty n bw true = Ok o ->
  extract_ridges par f64 Tf (map (Rmult a) scales) penalty n bw true = Ok (map (relabelled (map (Rmult a) scales)) o).
Proof.
  intros Hs Ha H. destruct (extract_inv _ _ _ _ _ _ _ _ _ H) as (_ & HL & _ & Hpos & _). specialize (Hpos eq_refl).
  apply (extract_relabelled par f64 Tf scales _ penalty); [exact Hs|exact H|apply map_length| |].
  - intros _ k Hk. rewrite (nth_indep _ 0 (a * 0)) by (rewrite map_length; lia). rewrite (map_nth (Rmult a)).
    apply Rmult_lt_0_compat; [exact Ha|apply Hpos, Hk].
  - intros i j Hi Hj. unfold jump. rewrite !ln_shift_scales by (try lia; try apply Hpos; assumption). ring.
Qed.
(** every frequency shifted by the same number, [transform='stft'] *)
Theorem ridges_shift_free par f64 Tf scales penalty n bw o a : sched_ok (nrows Tf) par ->
  extract_ridges par f64 Tf scales penalty n bw false = Ok o ->
  extract_ridges par f64 Tf (map (Rplus a) scales) penalty n bw false = Ok (map (relabelled (map (Rplus a) scales)) o).
Proof.
  intros Hs H. destruct (extract_inv _ _ _ _ _ _ _ _ _ H) as (_ & HL & _ & _ & _).
  apply (extract_relabelled par f64 Tf scales _ penalty); [exact Hs|exact H|apply map_length|discriminate|].
  intros i j Hi Hj. unfold jump. rewrite !(nth_indep (map _ _) 0 (a + 0)) by (rewrite map_length; lia). rewrite !(map_nth (Rplus a)).
  ring.
Qed.
(** a change of frequency unit is a change of penalty, [transform='stft'] *)
Theorem ridges_unit_penalty par f64 Tf scales penalty n bw o a : sched_ok (nrows Tf) par ->
  extract_ridges par f64 Tf scales (a ^ 2 * penalty) n bw false = Ok o ->
  extract_ridges par f64 Tf (map (Rmult a) scales) penalty n bw false = Ok (map (relabelled (map (Rmult a) scales)) o).
Proof.
  intros Hs H. destruct (extract_inv _ _ _ _ _ _ _ _ _ H) as (_ & HL & _ & _ & _).
  apply (extract_relabelled par f64 Tf scales _ (a ^ 2 * penalty)); [exact Hs|exact H|apply map_length|discriminate|].
  intros i j Hi Hj. unfold jump. rewrite !(nth_indep (map _ _) 0 (a * 0)) by (rewrite map_length; lia). rewrite !(map_nth (Rmult a)).
  ring.
Qed.
