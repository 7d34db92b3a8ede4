(** Optimality of the tracked ridge, valid indices, band removal. *)
From Coq Require Import Reals Lra.
From Verif Require Import Py Parallel Cplx CplxProofs Squeeze Ssqueeze SsqueezeProofs Ridge RidgeProofs.
Local Open Scope R_scope.

(** ** [np.amin], [np.argmin], [energy.max] *)
Lemma tab_S {A} n (f : nat -> A) : tab (S n) f = f 0%nat :: tab n (fun i => f (S i)).
Proof. unfold tab. cbn [seq map]. f_equal. rewrite <- seq_shift, map_map. reflexivity. Qed.
Lemma fmin_fold l b : exists m, fold_left fmin2 (map Num l) (Num b) = Num m /\ (m = b \/ In m l) /\ m <= b /\ forall y, In y l -> m <= y.
Proof.
  revert b. induction l as [|y l IH]; intros b; cbn [map fold_left fmin2].
  - exists b. repeat split; [left; reflexivity|lra|intros y []].
  - destruct (IH (if Rlt_dec y b then y else b)) as (m & E & A & B & D). exists m. split; [exact E|].
    destruct (Rlt_dec y b) as [H|H].
    + split; [right; destruct A as [->|A]; [left; reflexivity|right; exact A]|]. split; [lra|].
      intros z [<-|Hz]; [lra|apply D, Hz].
    + split; [destruct A as [->|A]; [left; reflexivity|right; right; exact A]|]. split; [exact B|].
      intros z [<-|Hz]; [lra|apply D, Hz].
Qed.
Lemma tab_Num n h : tab n (fun g => Num (h g)) = map Num (tab n h).
Proof. unfold tab. rewrite map_map. reflexivity. Qed.
Lemma In_tab {A} n (h : nat -> A) y : In y (tab n h) <-> exists g, (g < n)%nat /\ y = h g.
Proof.
  unfold tab. rewrite in_map_iff. split; intros (g & H).
  - exists g. destruct H as (<- & H). apply in_seq in H. split; [lia|reflexivity].
  - exists g. destruct H as (H & ->). split; [reflexivity|apply in_seq; lia].
Qed.
Lemma famin_spec n h : (1 <= n)%nat -> exists m, famin (tab n (fun g => Num (h g))) = Num m /\
  (exists g, (g < n)%nat /\ m = h g) /\ forall g, (g < n)%nat -> m <= h g.
Proof.
  intros Hn. destruct n as [|n]; [lia|]. rewrite tab_Num. rewrite tab_S. cbn [map famin].
  destruct (fmin_fold (tab n (fun i => h (S i))) (h 0%nat)) as (m & E & A & B & D). exists m. split; [exact E|]. split.
  - destruct A as [->|A]; [exists 0%nat; split; [lia|reflexivity]|]. apply In_tab in A. destruct A as (g & Hg & ->). exists (S g). split; [lia|reflexivity].
  - intros [|g] Hg; [exact B|]. apply D. apply In_tab. exists g. split; [lia|reflexivity].
Qed.

Lemma fargmin_from_spec l i best b : exists v, let k := fargmin_from (map Num l) i best (Num b) in
  ((k = best /\ v = b) \/ (exists j, (j < length l)%nat /\ k = (i + j)%nat /\ v = nth j l 0)) /\
  v <= b /\ forall j, (j < length l)%nat -> v <= nth j l 0.
Proof.
  revert i best b. induction l as [|y l IH]; intros i best b; cbn [map fargmin_from].
  - exists b. cbv zeta. split; [left; split; reflexivity|]. split; [lra|]. intros j Hj. cbn in Hj. lia.
  - destruct (Rle_dec b y) as [H|H].
    + destruct (IH (S i) best b) as (v & A & B & D). exists v. cbv zeta. split; [|split; [exact B|]].
      * destruct A as [A|(j & Hj & A & A')]; [left; exact A|right]. exists (S j). cbn [length nth]. split; [lia|]. split; [lia|exact A'].
      * intros [|j] Hj; cbn [nth length] in *; [lra|apply D; lia].
    + destruct (IH (S i) i y) as (v & A & B & D). exists v. cbv zeta. split; [|split; [lra|]].
      * right. destruct A as [(A & A')|(j & Hj & A & A')].
        -- exists 0%nat. cbn [length nth]. split; [lia|]. split; [lia|exact A'].
        -- exists (S j). cbn [length nth]. split; [lia|]. split; [lia|exact A'].
      * intros [|j] Hj; cbn [nth length] in *; [exact B|apply D; lia].
Qed.
Lemma fargmin_spec n h : (1 <= n)%nat -> let k := fargmin (tab n (fun g => Num (h g))) in
  (k < n)%nat /\ forall g, (g < n)%nat -> h k <= h g.
Proof.
  intros Hn. destruct n as [|n]; [lia|]. rewrite tab_Num, tab_S. cbn [map fargmin].
  destruct (fargmin_from_spec (tab n (fun i => h (S i))) 1 0 (h 0%nat)) as (v & A & B & D). cbv zeta in *.
  set (k := fargmin_from _ _ _ _) in *. rewrite tab_length in *.
  assert (E : (k < S n)%nat /\ v = h k).
  { destruct A as [(-> & ->)|(j & Hj & -> & ->)]; [split; [lia|reflexivity]|]. split; [lia|]. rewrite nth_tab by exact Hj. reflexivity. }
  destruct E as (E1 & E2). split; [exact E1|]. intros [|g] Hg; [lra|]. rewrite <- E2. specialize (D g ltac:(lia)). rewrite nth_tab in D by lia. exact D.
Qed.
Lemma fargmin_from_bound l i best bv : (best < i)%nat -> (fargmin_from l i best bv < i + length l)%nat.
Proof.
  revert i best bv. induction l as [|y l IH]; intros i best bv H; destruct bv as [b|]; cbn [fargmin_from length]; try lia.
  destruct y as [y|]; [|lia]. destruct (Rle_dec b y).
  - specialize (IH (S i) best (Num b) ltac:(lia)). lia.
  - specialize (IH (S i) i (Num y) ltac:(lia)). lia.
Qed.
Lemma fargmin_bound l : l <> [] -> (fargmin l < length l)%nat.
Proof. destruct l as [|y l]; [congruence|]. intros _. cbn [fargmin length]. pose proof (fargmin_from_bound l 1 0 y). lia. Qed.
Lemma mod_le_self a b : (a mod b <= a)%nat.
Proof. destruct b; [cbn; lia|]. apply Nat.mod_le. lia. Qed.
Lemma fw_idx_bound F T pe t : (1 <= F)%nat -> (fw_idx F T pe t < F)%nat.
Proof.
  intros HF. unfold fw_idx. eapply Nat.le_lt_trans; [apply mod_le_self|].
  assert (tab F (fun f => pe (f, t)) <> []) by (destruct F; [lia|rewrite tab_S; discriminate]).
  pose proof (fargmin_bound _ H) as B. rewrite tab_length in B. exact B.
Qed.

Definition is_colmax (F : nat) (E : nat -> nat -> R) (t : nat) (m : R) : Prop :=
  (exists f, (f < F)%nat /\ m = E f t) /\ forall f, (f < F)%nat -> E f t <= m.
Lemma Rmax_fold l b : let m := fold_left Rmax l b in (m = b \/ In m l) /\ b <= m /\ forall y, In y l -> y <= m.
Proof.
  cbv zeta. revert b. induction l as [|y l IH]; intros b; cbn [fold_left].
  - repeat split; [left; reflexivity|lra|intros y []].
  - destruct (IH (Rmax b y)) as (A & B & D). pose proof (Rmax_l b y). pose proof (Rmax_r b y). split; [|split].
    + destruct A as [A|A]; [|right; right; exact A]. rewrite A. unfold Rmax. destruct (Rle_dec b y); [right; left; reflexivity|left; reflexivity].
    + lra.
    + intros z [<-|Hz]; [lra|apply D, Hz].
Qed.
Lemma colmax_spec F E t : (1 <= F)%nat -> is_colmax F E t (colmax F E t).
Proof.
  intros HF. destruct F as [|F]; [lia|]. unfold colmax. replace (S F - 1)%nat with F by lia.
  destruct (Rmax_fold (tab F (fun f => E (S f) t)) (E 0%nat t)) as (A & B & D). set (m := fold_left _ _ _) in *. split.
  - destruct A as [A|A]; [exists 0%nat; split; [lia|exact A]|]. apply In_tab in A. destruct A as (g & Hg & A). exists (S g). split; [lia|exact A].
  - intros [|f] Hf; [exact B|]. apply D, In_tab. exists f. split; [lia|reflexivity].
Qed.

(** ** Costs *)
Definition valid_path (F T : nat) (p : nat -> nat) : Prop := forall t, (t < T)%nat -> (p t < F)%nat.
Definition path_cost (e : nat -> nat -> R) (pr : nat -> nat -> R) (T : nat) (p : nat -> nat) : R :=
  Rsum T (fun t => e (p t) t) + Rsum (T - 1) (fun t => pr (p (S t)) (p t)).

Section Opt.
Variables (F T : nat) (er : nat -> nat -> R) (pr : nat -> nat -> R) (e : nat * nat -> fl) (pen : nat -> nat -> fl) (eps : R).
Hypothesis HF : (1 <= F)%nat.
Hypothesis HT : (1 <= T)%nat.
Hypothesis Hpen : forall a b, pen a b = Num (pr a b).
Hypothesis He : forall f t, (f < F)%nat -> (t < T)%nat -> e (f, t) = Num (er f t).
Hypothesis Heps : 0 < eps.
Variable pe : nat * nat -> fl.
Hypothesis Hpe : forall c, pe c = fw_serial fadd famin pen F T e c.

Definition dval (f t : nat) : R := match pe (f, t) with Num x => x | NaN => 0 end.
Lemma pe_zero f : (f < F)%nat -> pe (f, 0%nat) = Num (er f 0).
Proof. intros Hf. rewrite Hpe. destruct (fw_serial_spec fl fadd famin pen F T e) as (A & _). rewrite A. apply He; [exact Hf|lia]. Qed.
Lemma pe_step_gen f t : (f < F)%nat -> (S t < T)%nat -> pe (f, S t) = fadd (e (f, S t)) (famin (tab F (fun g => fadd (pe (g, t)) (pen f g)))).
Proof.
  intros Hf Ht. rewrite Hpe. destruct (fw_serial_spec fl fadd famin pen F T e) as (_ & A). rewrite A by assumption.
  unfold fw_new. replace (S t - 1)%nat with t by lia. f_equal. f_equal. apply tab_ext. intros g Hg. rewrite Hpe. reflexivity.
Qed.
Lemma pe_num t : (t < T)%nat -> forall f, (f < F)%nat -> pe (f, t) = Num (dval f t).
Proof.
  induction t as [|t IH]; intros Ht f Hf; unfold dval.
  - rewrite pe_zero by exact Hf. reflexivity.
  - rewrite pe_step_gen by assumption. rewrite He by assumption.
    rewrite (@tab_ext _ F _ (fun g => Num (dval g t + pr f g))).
    2:{ intros g Hg. rewrite IH, Hpen by (assumption || lia). reflexivity. }
    destruct (famin_spec F (fun g => dval g t + pr f g) HF) as (m & -> & _). reflexivity.
Qed.
Lemma dval_0 f : (f < F)%nat -> dval f 0 = er f 0.
Proof. intros Hf. unfold dval. rewrite pe_zero by exact Hf. reflexivity. Qed.
Lemma dval_S f t : (f < F)%nat -> (S t < T)%nat ->
  (exists g, (g < F)%nat /\ dval f (S t) - er f (S t) = dval g t + pr f g) /\
  forall g, (g < F)%nat -> dval f (S t) - er f (S t) <= dval g t + pr f g.
Proof.
  intros Hf Ht. unfold dval at 1 3. rewrite pe_step_gen, He by assumption.
  rewrite (@tab_ext _ F _ (fun g => Num (dval g t + pr f g))).
  2:{ intros g Hg. rewrite pe_num, Hpen by (assumption || lia). reflexivity. }
  destruct (famin_spec F (fun g => dval g t + pr f g) HF) as (m & -> & (g & Hg & Eg) & Hle). cbn [fadd]. split.
  - exists g. split; [exact Hg|]. lra.
  - intros g' Hg'. specialize (Hle g' Hg'). lra.
Qed.
Definition prefix (q : nat -> nat) (t : nat) : R := Rsum (S t) (fun u => er (q u) u) + Rsum t (fun u => pr (q (S u)) (q u)).
Lemma prefix_S q t : prefix q (S t) = prefix q t + er (q (S t)) (S t) + pr (q (S t)) (q t).
Proof. unfold prefix. cbn [Rsum]. ring. Qed.
Lemma dval_lower q : valid_path F T q -> forall t, (t < T)%nat -> dval (q t) t <= prefix q t.
Proof.
  intros Hq. induction t as [|t IH]; intros Ht.
  - rewrite dval_0 by (apply Hq; exact Ht). unfold prefix. cbn [Rsum]. lra.
  - rewrite prefix_S. destruct (dval_S (q (S t)) t (Hq _ Ht) Ht) as (_ & A). specialize (A (q t) (Hq t ltac:(lia))). specialize (IH ltac:(lia)). lra.
Qed.

(** the backward loop, however scheduled *)
Variable r : nat -> nat.
Hypothesis Hend : r (T - 1)%nat = fw_idx F T pe (T - 1).
Hypothesis Hset : forall t, (t < T - 1)%nat -> settled fl fadd fsub (fnear eps) pen F e pe t (fw_idx F T pe) r.

Lemma ridge_valid : valid_path F T r.
Proof using HF HT Hend Hset.
  clear Hpen He er pr. intros t Ht. destruct (Nat.eq_dec t (T - 1)) as [->|Hne]; [rewrite Hend; apply fw_idx_bound, HF|].
  destruct (Hset t ltac:(lia)) as [(A & _)|(_ & ->)]; [exact A|apply fw_idx_bound, HF].
Qed.
Lemma ridge_link t : (S t < T)%nat ->
  Rabs (dval (r (S t)) (S t) - er (r (S t)) (S t) - (dval (r t) t + pr (r (S t)) (r t))) < eps.
Proof.
  intros Ht. pose proof (ridge_valid (S t) Ht) as HV. pose proof (ridge_valid t ltac:(lia)) as HV0.
  assert (Hh : forall f, (f < F)%nat -> bw_hit fadd fsub (fnear eps) pen e pe r t f =
     if Rlt_dec (Rabs (dval (r (S t)) (S t) - er (r (S t)) (S t) - (dval f t + pr (r (S t)) f))) eps then true else false).
  { intros f Hf. unfold bw_hit. replace (t + 1)%nat with (S t) by lia. rewrite (pe_num (S t)), He, (pe_num t), Hpen by (assumption || lia). reflexivity. }
  destruct (Hset t ltac:(lia)) as [(A & B)|(A & _)].
  - rewrite Hh in B by exact A. destruct (Rlt_dec _ _) as [H|]; [exact H|discriminate].
  - exfalso. destruct (dval_S (r (S t)) t HV Ht) as ((g & Hg & Eg) & _). specialize (A g Hg). rewrite Hh in A by exact Hg.
    rewrite Eg in A. rewrite Rminus_diag_eq, Rabs_R0 in A by reflexivity. destruct (Rlt_dec 0 eps); [discriminate|contradiction].
Qed.
Lemma ridge_upper t : (t < T)%nat -> prefix r t <= dval (r t) t + INR t * eps.
Proof.
  induction t as [|t IH]; intros Ht.
  - rewrite dval_0 by (apply ridge_valid; exact Ht). unfold prefix. cbn [Rsum INR]. lra.
  - rewrite prefix_S. pose proof (ridge_link t Ht) as L. apply Rabs_def2 in L. specialize (IH ltac:(lia)). rewrite S_INR. lra.
Qed.
Hypothesis HFT : (F <= T)%nat.
Theorem ridge_optimal q : valid_path F T q -> path_cost er pr T r <= path_cost er pr T q + INR (T - 1) * eps.
Proof.
  intros Hq. assert (E : forall p, path_cost er pr T p = prefix p (T - 1)).
  { intros p. unfold path_cost, prefix. replace (S (T - 1)) with T by lia. reflexivity. }
  rewrite !E. pose proof (ridge_upper (T - 1) ltac:(lia)) as U. pose proof (dval_lower q Hq (T - 1) ltac:(lia)) as L.
  assert (A : dval (r (T - 1)%nat) (T - 1) <= dval (q (T - 1)%nat) (T - 1)); [|lra].
  rewrite Hend. unfold fw_idx. rewrite (@tab_ext _ F _ (fun f => Num (dval f (T - 1)))) by (intros f Hf; apply pe_num; [lia|exact Hf]).
  destruct (fargmin_spec F (fun f => dval f (T - 1)) HF) as (B & D). rewrite Nat.mod_small by lia. apply D, Hq. lia.
Qed.
End Opt.

(** ** [track] *)
Definition sched_ok (F : nat) (par : option ridge_scheds) : Prop :=
  match par with None => True | Some (sf, sb) => (forall i t, valid_sched F (sf i t)) /\ (forall i t, valid_sched F (sb i t)) end.
Lemma track_spec par i F T pen eps e : sched_ok F par ->
  exists pe, (forall c, pe c = fw_serial fadd famin pen F T e c) /\
    let r := track par i F T pen eps e in
    (forall u, (T - 1 <= u)%nat -> r u = fw_idx F T pe u) /\
    forall t, (t < T - 1)%nat -> settled fl fadd fsub (fnear eps) pen F e pe t (fw_idx F T pe) r.
Proof.
  intros Hs. unfold track. destruct par as [[sf sb]|].
  - destruct Hs as (H1 & H2). exists (fw_par fadd famin pen F T (sf i) e). split; [intros c; apply fw_par_serial, H1|].
    apply (bw_par_spec fl fadd fsub (fnear eps) pen F e (fw_par fadd famin pen F T (sf i) e)). apply H2.
  - exists (fw_serial fadd famin pen F T e). split; [reflexivity|].
    apply (bw_serial_spec fl fadd fsub (fnear eps) pen F e (fw_serial fadd famin pen F T e)).
Qed.
Lemma track_valid par i F T pen eps e : sched_ok F par -> (1 <= F)%nat -> (1 <= T)%nat -> valid_path F T (track par i F T pen eps e).
Proof.
  intros Hs HF HT. destruct (track_spec par i F T pen eps e Hs) as (pe & _ & A & B). cbv zeta in *.
  apply (ridge_valid F T e pen eps HF HT pe); [apply A; lia|exact B].
Qed.

(** ** [extract_ridges] *)
Definition r_idx (o : list nat * list R * list R) : list nat := fst (fst o).
Definition r_freq (o : list nat * list R * list R) : list R := snd (fst o).
Definition r_energy (o : list nat * list R * list R) : list R := snd o.
Definition ridge0 : list nat * list R * list R := ([], [], []).
Definition jump (cwt : bool) (scales : list R) (penalty : R) (a b : nat) : R :=
  let s k := if cwt then ln (nth k scales 0) else nth k scales 0 in penalty * (s a - s b) ^ 2.
Definition energy (Tf : mat C) (f t : nat) : R := Cabs (el Tf f t) ^ 2.
Definition eps_of (f64 : bool) : R := if f64 then EPS64 else EPS32.
Lemma eps_pos f64 : 0 < eps_of f64.
Proof. destruct f64; cbn; unfold EPS64, EPS32; apply Rinv_0_lt_compat; lra. Qed.

(** the state of [energy] when ridge [k] is sought *)
Fixpoint energy_at (F : nat) (bw : Z) (os : list (list nat * list R * list R)) (E : nat -> nat -> R) : nat -> nat -> R :=
  match os with
  | [] => E
  | o :: os' => energy_at F bw os' (zero_band F bw (fun t => nth t (r_idx o) 0%nat) E)
  end.
Lemma zero_band_ext F bw r r' E f t : r t = r' t -> zero_band F bw r E f t = zero_band F bw r' E f t.
Proof. intros H. unfold zero_band. rewrite H. reflexivity. Qed.

Lemma ridge_loop_length par i n F T pen eps bw sc E : length (ridge_loop par i n F T pen eps bw sc E) = n.
Proof. revert i E. induction n as [|n IH]; intros i E; cbn [ridge_loop length]; [reflexivity|]. rewrite IH. reflexivity. Qed.
Lemma extract_inv par f64 Tf scales penalty n bw cwt o : extract_ridges par f64 Tf scales penalty n bw cwt = Ok o ->
  (1 <= ncols Tf)%nat /\ length scales = nrows Tf /\ ((1 <= n)%nat -> (2 <= nrows Tf)%nat) /\
  (cwt = true -> forall k, (k < nrows Tf)%nat -> 0 < nth k scales 0) /\
  o = ridge_loop par 0 n (nrows Tf) (ncols Tf) (penalty_matrix penalty (if cwt then map ln scales else scales)) (eps_of f64) bw scales
        (fun f t => Cabs (el Tf f t) * Cabs (el Tf f t)).
Proof.
  unfold extract_ridges. destruct (Nat.eqb_spec (length scales) (nrows Tf)) as [El|]; [|discriminate].
  destruct (Nat.eqb_spec (ncols Tf) 0) as [|Ht]; [cbn; discriminate|]. cbn [negb orb].
  destruct (cwt && negb (forallb is_pos scales)) eqn:Ec; [discriminate|].
  assert (Hpos : cwt = true -> forall k, (k < nrows Tf)%nat -> 0 < nth k scales 0).
  { intros ->. cbn [andb] in Ec. apply Bool.negb_false_iff in Ec. rewrite forallb_forall in Ec. intros k Hk.
    assert (Hk' : (k < length scales)%nat) by lia. specialize (Ec (nth k scales 0) (nth_In _ _ Hk')). unfold is_pos in Ec. destruct (Rlt_dec 0 (nth k scales 0)); [assumption|discriminate]. }
  destruct (Nat.eqb_spec n 0) as [->|Hn].
  - intros H. split; [lia|]. split; [exact El|]. split; [lia|]. split; [exact Hpos|]. cbn [ridge_loop]. congruence.
  - destruct (Nat.eqb_spec (nrows Tf) 0); [discriminate|]. destruct (Nat.eqb_spec (nrows Tf) 1); [discriminate|].
    intros H. split; [lia|]. split; [exact El|]. split; [lia|]. split; [exact Hpos|]. unfold eps_of. congruence.
Qed.
Lemma extract_ok par f64 Tf scales penalty n bw cwt : (1 <= ncols Tf)%nat -> (2 <= nrows Tf)%nat -> length scales = nrows Tf ->
  (cwt = true -> forall k, (k < nrows Tf)%nat -> 0 < nth k scales 0) -> exists o, extract_ridges par f64 Tf scales penalty n bw cwt = Ok o.
Proof.
  intros H1 H2 H3 H4. unfold extract_ridges. rewrite H3, Nat.eqb_refl. cbn [negb orb].
  destruct (Nat.eqb_spec (ncols Tf) 0); [lia|]. cbn [orb].
  assert (cwt && negb (forallb is_pos scales) = false) as ->.
  { destruct cwt; [|reflexivity]. cbn [andb]. apply Bool.negb_false_iff, forallb_forall. intros x Hx.
    apply (In_nth _ _ 0) in Hx. destruct Hx as (k & Hk & <-). unfold is_pos. destruct (Rlt_dec 0 (nth k scales 0)) as [|B]; [reflexivity|].
    exfalso. apply B, H4; [reflexivity|lia]. }
  destruct (n =? 0)%nat; [eauto|]. destruct (Nat.eqb_spec (nrows Tf) 0); [lia|]. destruct (Nat.eqb_spec (nrows Tf) 1); [lia|]. eauto.
Qed.

(** ridge [k] of the loop is tracked on the energy left by the previous ones *)
Lemma ridge_loop_nth par n F T pen eps bw sc : forall i E k, (k < n)%nat ->
  exists Ek, let o := nth k (ridge_loop par i n F T pen eps bw sc E) ridge0 in
    let r := track par (i + k) F T pen eps (neg_log_norm F eps Ek) in
    (forall f t, (t < T)%nat -> Ek f t = energy_at F bw (firstn k (ridge_loop par i n F T pen eps bw sc E)) E f t) /\
    r_idx o = tab T r /\ r_freq o = tab T (fun t => nth (r t) sc 0) /\ r_energy o = tab T (fun t => Ek (r t) t).
Proof.
  induction n as [|n IH]; intros i E k Hk; [lia|]. cbn [ridge_loop]. destruct k as [|k]; cbn [nth firstn energy_at].
  - exists E. cbv zeta. rewrite Nat.add_0_r. repeat split; reflexivity.
  - destruct (IH (S i) (zero_band F bw (track par i F T pen eps (neg_log_norm F eps E)) E) k ltac:(lia)) as (Ek & A). exists Ek.
    replace (i + S k)%nat with (S i + k)%nat by lia. cbv zeta in *. destruct A as (A & B). split; [|exact B].
    intros f t Ht. rewrite (A f t Ht). clear A B IH.
    assert (G : forall os E1 E2, (forall f, E1 f t = E2 f t) -> energy_at F bw os E1 f t = energy_at F bw os E2 f t).
    { induction os as [|o os IH]; intros E1 E2 H; cbn [energy_at]; [apply H|]. apply IH. intros f'. unfold zero_band. rewrite H. reflexivity. }
    apply G. intros f'. apply zero_band_ext. unfold r_idx. cbn [fst]. rewrite nth_tab by exact Ht. reflexivity.
Qed.
