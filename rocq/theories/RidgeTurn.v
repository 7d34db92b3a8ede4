(** A clearly cheapest path is the ridge, so ridges turn round with time and with the order of
    the rows. *)
From Coq Require Import Reals Lra.
From Verif Require Import Py Parallel Cplx CplxProofs Squeeze Ssqueeze SsqueezeProofs Ridge RidgeProofs RidgeOpt RidgeThms RidgeCurve.
Local Open Scope R_scope.

(** path [b] costs less than every other by more than the tracker's tolerance *)
Definition clearly_best (f64 : bool) (F T : nat) (E : nat -> nat -> R) (jmp : nat -> nat -> R) (b : nat -> nat) : Prop :=
  valid_path F T b /\ exists M, (forall t, (t < T)%nat -> is_colmax F E t (M t) /\ M t <> 0) /\
  forall q, valid_path F T q -> (exists t, (t < T)%nat /\ q t <> b t) ->
    path_cost (cost_of f64 E M) jmp T b + INR (T - 1) * eps_of f64 < path_cost (cost_of f64 E M) jmp T q.

Lemma agree_dec (p b : nat -> nat) T : (forall t, (t < T)%nat -> p t = b t) \/ exists t, (t < T)%nat /\ p t <> b t.
Proof.
  induction T as [|T [IH|(t & Ht & H)]]; [left; lia| |right; exists t; split; [lia|exact H]].
  destruct (Nat.eq_dec (p T) (b T)) as [e|n]; [left; intros t Ht; destruct (Nat.eq_dec t T) as [->|]; [exact e|apply IH; lia]|right; exists T; split; [lia|exact n]].
Qed.
Theorem ridge_is_best par f64 Tf scales penalty n bw cwt o k b : extract_ridges par f64 Tf scales penalty n bw cwt = Ok o ->
  sched_ok (nrows Tf) par -> (k < n)%nat -> (nrows Tf <= ncols Tf)%nat ->
  clearly_best f64 (nrows Tf) (ncols Tf) (energy_at (nrows Tf) bw (firstn k o) (energy Tf)) (jump cwt scales penalty) b ->
  forall t, (t < ncols Tf)%nat -> nth t (r_idx (nth k o ridge0)) 0%nat = b t.
Proof.
  intros H Hs Hk HFT (Hb & M & HM & Hq). pose proof (ridge_k_optimal par f64 Tf scales penalty n bw cwt o k M H Hs Hk HFT HM) as Hopt. cbv zeta in Hopt.
  destruct (agree_dec (fun t => nth t (r_idx (nth k o ridge0)) 0%nat) b (ncols Tf)) as [A|A]; [exact A|exfalso].
  destruct (ridges_valid _ _ _ _ _ _ _ _ _ H Hs) as (_ & V). destruct (V k Hk) as (_ & V').
  specialize (Hq _ (fun t Ht => proj1 (V' t Ht)) A). specialize (Hopt b Hb). lra.
Qed.

(** ** backwards in time *)
Definition backwards (T : nat) (p : nat -> nat) (t : nat) : nat := p (T - 1 - t)%nat.
Lemma path_cost_back e jmp T p : (forall a b, jmp a b = jmp b a) -> path_cost (fun f t => e f (T - 1 - t)%nat) jmp T (backwards T p) = path_cost e jmp T p.
Proof.
  intros Hj. unfold path_cost, backwards. f_equal.
  - rewrite (Rsum_rev T). apply Rsum_ext. intros t Ht. replace (T - 1 - (T - 1 - t))%nat with t by lia. reflexivity.
  - rewrite (Rsum_rev (T - 1)). apply Rsum_ext. intros t Ht. rewrite Hj. f_equal; f_equal; lia.
Qed.
Lemma path_cost_ext e e' jmp jmp' F T p p' : valid_path F T p -> (forall t, (t < T)%nat -> p' t = p t) -> (forall f t, (f < F)%nat -> (t < T)%nat -> e' f t = e f t) ->
  (forall a b, (a < F)%nat -> (b < F)%nat -> jmp' a b = jmp a b) -> path_cost e' jmp' T p' = path_cost e jmp T p.
Proof.
  intros Hp Hpp He Hj. unfold path_cost. f_equal; apply Rsum_ext; intros t Ht; rewrite !Hpp by lia; [apply He|apply Hj]; try apply Hp; lia.
Qed.
Lemma jump_sym cwt scales penalty a b : jump cwt scales penalty a b = jump cwt scales penalty b a.
Proof. unfold jump. ring. Qed.
Lemma best_back f64 F T E E' jmp b : (forall a b, jmp a b = jmp b a) -> (forall f t, (f < F)%nat -> (t < T)%nat -> E' f t = E f (T - 1 - t)%nat) ->
  clearly_best f64 F T E jmp b -> clearly_best f64 F T E' jmp (backwards T b).
Proof.
  intros Hj HE (Hb & M & HM & Hq). assert (Hbk : forall q, valid_path F T q -> valid_path F T (backwards T q)) by (intros q Hv t Ht; apply Hv; lia).
  split; [apply Hbk, Hb|]. exists (fun t => M (T - 1 - t)%nat). split.
  { intros t Ht. destruct (HM (T - 1 - t)%nat ltac:(lia)) as (((f & Hf & Ef) & Hm) & Hz). split; [|exact Hz].
    split; [exists f; rewrite HE by assumption; auto|]. intros g Hg. rewrite HE by assumption. apply Hm, Hg. }
  intros q Hv (t & Ht & Hne). specialize (Hq (backwards T q) (Hbk q Hv)).
  assert (K : forall p, valid_path F T p -> path_cost (cost_of f64 E' (fun t => M (T - 1 - t)%nat)) jmp T p = path_cost (cost_of f64 E M) jmp T (backwards T p)).
  { intros p Hp. rewrite <- (path_cost_back (cost_of f64 E M) jmp T (backwards T p) Hj). apply (path_cost_ext _ _ _ _ F); [apply Hbk, Hbk, Hp| | |reflexivity].
    - intros u Hu. unfold backwards. f_equal. lia.
    - intros f u Hf Hu. unfold cost_of. rewrite HE by assumption. reflexivity. }
  rewrite (K q Hv), (K _ (Hbk b Hb)).
  replace (path_cost (cost_of f64 E M) jmp T (backwards T (backwards T b))) with (path_cost (cost_of f64 E M) jmp T b); [apply Hq|].
  - exists (T - 1 - t)%nat. split; [lia|]. unfold backwards in *. replace (T - 1 - (T - 1 - t))%nat with t by lia. exact Hne.
  - apply (path_cost_ext _ _ _ _ F); [apply Hbk, Hbk, Hb| |reflexivity|reflexivity]. intros u Hu. unfold backwards. f_equal. lia.
Qed.
Lemma energy_at_back F bw os os' E E' f t t' : length os' = length os -> E' f t = E f t' ->
  (forall i, (i < length os)%nat -> nth t (r_idx (nth i os' ridge0)) 0%nat = nth t' (r_idx (nth i os ridge0)) 0%nat) ->
  energy_at F bw os' E' f t = energy_at F bw os E f t'.
Proof.
  revert os' E E'. induction os as [|a os IH]; intros os' E E' HL HE H.
  - destruct os'; [apply HE|discriminate].
  - destruct os' as [|a' os']; [discriminate|]. cbn [energy_at]. apply IH.
    + cbn [length] in HL. lia.
    + unfold zero_band. specialize (H 0%nat ltac:(cbn; lia)). cbn [nth] in H. rewrite H, HE. reflexivity.
    + intros i Hi. apply (H (S i)). cbn [length]. lia.
Qed.

Lemma ridge_lengths par f64 Tf scales penalty n bw cwt o : extract_ridges par f64 Tf scales penalty n bw cwt = Ok o -> length o = n /\
  forall k, (k < n)%nat -> let r := nth k o ridge0 in length (r_idx r) = ncols Tf /\ length (r_freq r) = ncols Tf /\ length (r_energy r) = ncols Tf.
Proof.
  intros H. apply extract_inv in H. destruct H as (_ & _ & _ & _ & ->). split; [apply ridge_loop_length|]. intros k Hk.
  match goal with |- context [ridge_loop ?p ?i n ?F ?T ?pen ?eps bw scales ?E] => destruct (ridge_loop_nth p n F T pen eps bw scales i E k Hk) as (Ek & A) end.
  cbv zeta in *. destruct A as (_ & -> & -> & ->). rewrite !tab_length. auto.
Qed.
Lemma rev_eq {A} (l l' : list A) d T : length l = T -> length l' = T -> (forall t, (t < T)%nat -> nth t l' d = nth (T - 1 - t) l d) -> l' = rev l.
Proof.
  intros H1 H2 H. apply (nth_ext _ _ d d); [rewrite rev_length; congruence|]. intros t Ht. rewrite H by lia. rewrite rev_nth by lia. f_equal. lia.
Qed.
(** one ridge, backwards *)
Definition rev_ridge (o : list nat * list R * list R) : list nat * list R * list R := (rev (r_idx o), rev (r_freq o), rev (r_energy o)).
Theorem ridges_backwards par par' f64 Tf Tf' scales penalty n bw cwt o : extract_ridges par f64 Tf scales penalty n bw cwt = Ok o ->
  sched_ok (nrows Tf) par -> sched_ok (nrows Tf) par' -> (nrows Tf <= ncols Tf)%nat -> nrows Tf' = nrows Tf -> ncols Tf' = ncols Tf ->
  (forall f t, (f < nrows Tf)%nat -> (t < ncols Tf)%nat -> Cabs (el Tf' f t) = Cabs (el Tf f (ncols Tf - 1 - t)%nat)) ->
  (forall k, (k < n)%nat -> exists b, clearly_best f64 (nrows Tf) (ncols Tf) (energy_at (nrows Tf) bw (firstn k o) (energy Tf)) (jump cwt scales penalty) b) ->
  extract_ridges par' f64 Tf' scales penalty n bw cwt = Ok (map rev_ridge o).
Proof.
  intros H Hs Hs' HFT Hr Hc HE HB.
  assert (HO : exists o', extract_ridges par' f64 Tf' scales penalty n bw cwt = Ok o').
  { revert H. unfold extract_ridges. rewrite Hr, Hc. destruct (_ || _); [discriminate|]. destruct (n =? 0)%nat; [eexists; reflexivity|].
    destruct (nrows Tf =? 0)%nat; [discriminate|]. destruct (nrows Tf =? 1)%nat; [discriminate|]. eexists; reflexivity. }
  destruct HO as (o' & H'). rewrite H'. f_equal.
  destruct (ridge_lengths _ _ _ _ _ _ _ _ _ H) as (L1 & L2). destruct (ridge_lengths _ _ _ _ _ _ _ _ _ H') as (L1' & L2').
  destruct (ridges_valid _ _ _ _ _ _ _ _ _ H Hs) as (_ & V). destruct (ridges_valid _ _ _ _ _ _ _ _ _ H' ltac:(rewrite Hr; exact Hs')) as (_ & V').
  rewrite Hr, Hc in *. set (F := nrows Tf) in *. set (T := ncols Tf) in *.
  assert (HE2 : forall f t, (f < F)%nat -> (t < T)%nat -> energy Tf' f t = energy Tf f (T - 1 - t)%nat) by (intros f t Hf Ht; unfold energy; rewrite HE by assumption; reflexivity).
  assert (Hat : forall k, (k <= n)%nat -> (forall i t, (i < k)%nat -> (t < T)%nat -> nth t (r_idx (nth i o' ridge0)) 0%nat = nth (T - 1 - t) (r_idx (nth i o ridge0)) 0%nat) ->
     forall f t, (f < F)%nat -> (t < T)%nat -> energy_at F bw (firstn k o') (energy Tf') f t = energy_at F bw (firstn k o) (energy Tf) f (T - 1 - t)%nat).
  { intros k Hk Hi f t Hf Ht. apply energy_at_back; [rewrite !firstn_length; lia|apply HE2; assumption|].
    intros i Hil. rewrite firstn_length in Hil. rewrite !nth_firstn_lt by lia. apply Hi; [lia|exact Ht]. }
  assert (Hidx : forall k, (k <= n)%nat -> forall i t, (i < k)%nat -> (t < T)%nat -> nth t (r_idx (nth i o' ridge0)) 0%nat = nth (T - 1 - t) (r_idx (nth i o ridge0)) 0%nat).
  { induction k as [|k IH]; intros Hk i t Hi Ht; [lia|]. specialize (IH ltac:(lia)). destruct (Nat.eq_dec i k) as [->|]; [|apply IH; lia].
    destruct (HB k ltac:(lia)) as (b & Hb).
    pose proof (ridge_is_best par f64 Tf scales penalty n bw cwt o k b H Hs ltac:(lia) HFT Hb) as P1. fold T in P1.
    pose proof (best_back f64 F T _ (energy_at F bw (firstn k o') (energy Tf')) _ b (jump_sym cwt scales penalty) (Hat k ltac:(lia) IH) Hb) as Hb'.
    pose proof (ridge_is_best par' f64 Tf' scales penalty n bw cwt o' k (backwards T b) H') as P2. rewrite Hr, Hc in P2.
    rewrite (P2 Hs' ltac:(lia) HFT Hb' t Ht). rewrite P1 by lia. reflexivity. }
  apply (nth_ext _ _ ridge0 (rev_ridge ridge0)); [rewrite map_length; congruence|]. intros k Hk. rewrite map_nth. rewrite L1' in Hk.
  destruct (L2 k Hk) as (A1 & A2 & A3). destruct (L2' k Hk) as (B1 & B2 & B3). destruct (V k Hk) as (_ & W). destruct (V' k Hk) as (_ & W'). cbv zeta in *.
  assert (I : forall t, (t < T)%nat -> nth t (r_idx (nth k o' ridge0)) 0%nat = nth (T - 1 - t) (r_idx (nth k o ridge0)) 0%nat) by (intros t Ht; apply (Hidx n); lia).
  transitivity (r_idx (nth k o' ridge0), r_freq (nth k o' ridge0), r_energy (nth k o' ridge0)); [destruct (nth k o' ridge0) as [[? ?] ?]; reflexivity|].
  unfold rev_ridge. f_equal; [f_equal|].
  - apply (rev_eq _ _ 0%nat T); assumption.
  - apply (rev_eq _ _ 0 T); try assumption. intros t Ht. destruct (W' t Ht) as (_ & -> & _). destruct (W (T - 1 - t)%nat ltac:(lia)) as (_ & -> & _). rewrite I by exact Ht. reflexivity.
  - apply (rev_eq _ _ 0 T); try assumption. intros t Ht. destruct (W' t Ht) as (Z1 & _ & ->). destruct (W (T - 1 - t)%nat ltac:(lia)) as (_ & _ & ->). rewrite <- I by exact Ht.
    apply Hat; try assumption; try lia. intros i u Hi Hu. apply (Hidx n); lia.
Qed.

(** ** rows in the other order *)
Definition upside (F : nat) (p : nat -> nat) (t : nat) : nat := (F - 1 - p t)%nat.
Lemma best_upside f64 F T E E' jmp jmp' b : (forall a b, (a < F)%nat -> (b < F)%nat -> jmp' a b = jmp (F - 1 - a) (F - 1 - b))%nat ->
  (forall f t, (f < F)%nat -> (t < T)%nat -> E' f t = E (F - 1 - f)%nat t) ->
  clearly_best f64 F T E jmp b -> clearly_best f64 F T E' jmp' (upside F b).
Proof.
  intros Hj HE (Hb & M & HM & Hq). assert (Hbk : forall q, valid_path F T q -> valid_path F T (upside F q)) by (intros q Hv t Ht; specialize (Hv t Ht); unfold upside; lia).
  split; [apply Hbk, Hb|]. exists M. split.
  { intros t Ht. destruct (HM t Ht) as (((f & Hf & Ef) & Hm) & Hz). split; [|exact Hz].
    split; [exists (F - 1 - f)%nat; split; [lia|]; rewrite HE by (assumption || lia); rewrite Ef; f_equal; lia|]. intros g Hg. rewrite HE by assumption. apply Hm. lia. }
  assert (K : forall p, valid_path F T p -> path_cost (cost_of f64 E' M) jmp' T p = path_cost (cost_of f64 E M) jmp T (upside F p)).
  { intros p Hp. unfold path_cost, upside. f_equal; apply Rsum_ext; intros t Ht.
    - unfold cost_of. rewrite HE by (assumption || apply Hp, Ht). reflexivity.
    - apply Hj; apply Hp; lia. }
  intros q Hv (t & Ht & Hne). rewrite (K q Hv), (K _ (Hbk b Hb)).
  replace (path_cost (cost_of f64 E M) jmp T (upside F (upside F b))) with (path_cost (cost_of f64 E M) jmp T b).
  - apply Hq; [apply Hbk, Hv|]. exists t. split; [exact Ht|]. pose proof (Hv t Ht). pose proof (Hb t Ht). unfold upside in *. lia.
  - symmetry. apply (path_cost_ext _ _ _ _ F); [exact Hb| |reflexivity|reflexivity]. intros u Hu. pose proof (Hb u Hu). unfold upside. lia.
Qed.
Theorem ridge_upside par par' f64 Tf Tf' scales penalty n n' bw bw' cwt o b : extract_ridges par f64 Tf scales penalty n bw cwt = Ok o ->
  sched_ok (nrows Tf) par -> sched_ok (nrows Tf) par' -> (nrows Tf <= ncols Tf)%nat -> nrows Tf' = nrows Tf -> ncols Tf' = ncols Tf -> (1 <= n)%nat -> (1 <= n')%nat ->
  (forall f t, (f < nrows Tf)%nat -> (t < ncols Tf)%nat -> Cabs (el Tf' f t) = Cabs (el Tf (nrows Tf - 1 - f)%nat t)) ->
  clearly_best f64 (nrows Tf) (ncols Tf) (energy Tf) (jump cwt scales penalty) b ->
  exists o', extract_ridges par' f64 Tf' (rev scales) penalty n' bw' cwt = Ok o' /\
    let r := nth 0 o ridge0 in let r' := nth 0 o' ridge0 in
    r_freq r' = r_freq r /\ r_energy r' = r_energy r /\
    forall t, (t < ncols Tf)%nat -> (nth t (r_idx r') 0 = nrows Tf - 1 - nth t (r_idx r) 0)%nat.
Proof.
  intros H Hs Hs' HFT Hr Hc Hn Hn' HE HB. pose proof (extract_inv _ _ _ _ _ _ _ _ _ H) as (HT & HL & HF & Hpos & _). specialize (HF Hn).
  assert (Hrv : forall k, (k < nrows Tf)%nat -> nth k (rev scales) 0 = nth (nrows Tf - 1 - k) scales 0) by (intros k Hk; rewrite rev_nth by lia; f_equal; lia).
  destruct (extract_ok par' f64 Tf' (rev scales) penalty n' bw' cwt) as (o' & H').
  { lia. } { lia. } { rewrite rev_length. lia. } { intros Ec k Hk. rewrite Hrv by lia. apply Hpos; [exact Ec|lia]. }
  exists o'. split; [exact H'|].
  destruct (ridge_lengths _ _ _ _ _ _ _ _ _ H) as (_ & L). destruct (ridge_lengths _ _ _ _ _ _ _ _ _ H') as (_ & L').
  destruct (ridges_valid _ _ _ _ _ _ _ _ _ H Hs) as (_ & V). destruct (ridges_valid _ _ _ _ _ _ _ _ _ H' ltac:(rewrite Hr; exact Hs')) as (_ & V').
  pose proof (ridge_is_best par f64 Tf scales penalty n bw cwt o 0 b H Hs Hn HFT HB) as P1.
  assert (HB' : clearly_best f64 (nrows Tf) (ncols Tf) (energy Tf') (jump cwt (rev scales) penalty) (upside (nrows Tf) b)).
  { apply (best_upside f64 _ _ (energy Tf) _ (jump cwt scales penalty)); [| |exact HB].
    - intros a c Ha Hc'. unfold jump. destruct cwt; rewrite !Hrv by assumption; reflexivity.
    - intros f t Hf Ht. unfold energy. rewrite HE by assumption. reflexivity. }
  pose proof (ridge_is_best par' f64 Tf' (rev scales) penalty n' bw' cwt o' 0 (upside (nrows Tf) b) H') as P2. rewrite Hr, Hc in P2.
  specialize (P2 Hs' Hn' HFT HB'). rewrite Hr, Hc in *.
  destruct (L 0%nat Hn) as (A1 & A2 & A3). destruct (L' 0%nat Hn') as (B1 & B2 & B3). destruct (V 0%nat Hn) as (_ & W). destruct (V' 0%nat Hn') as (_ & W'). cbv zeta in *. cbn [firstn energy_at] in W, W'.
  assert (I : forall t, (t < ncols Tf)%nat -> (nth t (r_idx (nth 0 o' ridge0)) 0 = nrows Tf - 1 - nth t (r_idx (nth 0 o ridge0)) 0)%nat) by (intros t Ht; rewrite P1, P2 by exact Ht; reflexivity).
  split; [|split; [|exact I]]; (apply (nth_ext _ _ 0 0); [congruence|]); intros t Ht; rewrite ?B2, ?B3 in Ht; destruct (W t Ht) as (W1 & W2 & W3); destruct (W' t Ht) as (W1' & W2' & W3').
  - rewrite W2, W2', I by exact Ht. rewrite Hrv by lia. f_equal. lia.
  - rewrite W3, W3', I by exact Ht. unfold energy. rewrite HE by (assumption || lia). do 3 f_equal. lia.
Qed.

(** ** energy on one curve *)
Theorem curve_clear f64 Tf scales penalty cwt c : 0 <= penalty -> on_curve Tf c ->
  Rsum (ncols Tf - 1) (fun t => jump cwt scales penalty (c (S t)) (c t)) + INR (ncols Tf - 1) * eps_of f64 < ln (1 + / eps_of f64) ->
  clearly_best f64 (nrows Tf) (ncols Tf) (energy Tf) (jump cwt scales penalty) c.
Proof.
  intros Hpen (Hv & Hc) HL. split; [exact Hv|].
  pose proof (eps_pos f64) as He. set (eps := eps_of f64) in *. exists (fun t => energy Tf (c t) t). set (M := fun t => energy Tf (c t) t).
  assert (HM : forall t, (t < ncols Tf)%nat -> is_colmax (nrows Tf) (energy Tf) t (M t) /\ M t <> 0).
  { intros t Ht. assert (el Tf (c t) t <> C0) by (intros E; apply Hc in E; auto).
    assert (0 < M t) by (unfold M, energy; apply pow_lt, Cabs_pos; assumption).
    split; [|lra]. split; [exists (c t); split; [apply Hv, Ht|reflexivity]|].
    intros f Hf. destruct (Nat.eq_dec f (c t)) as [->|Hne]; [unfold M; lra|].
    unfold energy at 1. replace (el Tf f t) with C0 by (symmetry; apply Hc; assumption).
    rewrite Cabs_0. replace (0 ^ 2) with 0 by ring. left. assumption. }
  split; [exact HM|]. intros p Hp (t0 & Ht0 & Hne). set (cost := cost_of f64 (energy Tf) M).
  assert (Hon : forall t, (t < ncols Tf)%nat -> cost (c t) t = - ln (1 + eps)).
  { intros t Ht. unfold cost, cost_of. fold eps. do 2 f_equal. destruct (HM t Ht) as (_ & Hz). unfold M in *. field. exact Hz. }
  assert (Hoff : forall f t, (f < nrows Tf)%nat -> (t < ncols Tf)%nat -> f <> c t -> cost f t = - ln (1 + eps) + ln (1 + / eps)).
  { intros f t Hf Ht Hne'. unfold cost, cost_of. fold eps.
    assert (E0 : energy Tf f t = 0) by (unfold energy; replace (el Tf f t) with C0 by (symmetry; apply Hc; assumption); rewrite Cabs_0; ring).
    rewrite E0. destruct (HM t Ht) as (_ & Hz). replace (0 / M t + eps) with eps by (field; exact Hz).
    replace (1 + eps) with (eps * (1 + / eps)) by (field; lra).
    assert (0 < / eps) by (apply Rinv_0_lt_compat; exact He). rewrite ln_mult by lra. ring. }
  assert (Hinv : 0 < / eps) by (apply Rinv_0_lt_compat; exact He).
  assert (HL0 : 0 < ln (1 + / eps)) by (rewrite <- ln_1; apply ln_increasing; lra).
  unfold path_cost.
  assert (H1 : Rsum (ncols Tf) (fun t => cost (c t) t) = INR (ncols Tf) * - ln (1 + eps)) by (rewrite (Rsum_ext _ _ (fun _ => - ln (1 + eps))); [apply Rsum_const|exact Hon]).
  assert (H2 : INR (ncols Tf) * - ln (1 + eps) + ln (1 + / eps) <= Rsum (ncols Tf) (fun t => cost (p t) t)).
  { apply Rsum_bump with (t0 := t0); [exact Ht0| |].
    - intros t Ht. destruct (Nat.eq_dec (p t) (c t)) as [->|Hd]; [rewrite Hon by exact Ht; lra|]. rewrite Hoff by (auto; apply Hp, Ht). lra.
    - rewrite Hoff by (auto; apply Hp, Ht0). lra. }
  assert (H3 : 0 <= Rsum (ncols Tf - 1) (fun t => jump cwt scales penalty (p (S t)) (p t))).
  { replace 0 with (Rsum (ncols Tf - 1) (fun _ => 0)) by (rewrite Rsum_const; ring).
    apply Rsum_le. intros t Ht. unfold jump. apply Rmult_le_pos; [exact Hpen|apply pow2_ge_0]. }
  rewrite H1. lra.
Qed.
