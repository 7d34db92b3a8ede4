(** Ridge tracking: the kernels' closed forms, schedules, optimality. *)
From Coq Require Import Reals Lra.
From Verif Require Import Py Parallel Cplx CplxProofs Squeeze Ssqueeze Ridge.
Local Open Scope nat_scope.

(** ** The forward loop *)
Section Fw.
Variable V : Type.
Variable add : V -> V -> V.
Variable amin : list V -> V.
Variable pen : nat -> nat -> V.
Variable F : nat.
Notation store2 := (nat * nat -> V).
Notation fw_new := (fw_new add amin pen F).

Definition fw_cells (s : store2) (t : nat) : store2 :=
  fun c => if (snd c =? t) && (fst c <? F) then fw_new s t (fst c) (s c) else s c.

Lemma fw_new_ext s s' t f r : (forall g, g < F -> s (g, t - 1) = s' (g, t - 1)) -> fw_new s t f r = fw_new s' t f r.
Proof. intros H. unfold Ridge.fw_new. f_equal. f_equal. apply tab_ext. intros g Hg. rewrite H by auto. reflexivity. Qed.
Lemma fw_cells_ext s s' t c : (forall c, s c = s' c) -> fw_cells s t c = fw_cells s' t c.
Proof. intros H. unfold fw_cells. rewrite (fw_new_ext s s') by auto. rewrite H. reflexivity. Qed.

Lemma fw_inner s t : 1 <= t -> forall k, k <= F -> forall c,
  fold_left (fun s f => upd cell2_dec s (f, t) (fw_new s t f (s (f, t)))) (seq 0 k) s c =
  if (snd c =? t) && (fst c <? k) then fw_new s t (fst c) (s c) else s c.
Proof.
  intros Ht. induction k as [|k IH]; intros Hk c.
  - simpl. rewrite Bool.andb_false_r. reflexivity.
  - rewrite seq_S, fold_left_app. cbn [fold_left Nat.add]. unfold upd at 1.
    assert (IH' := IH ltac:(lia)). clear IH.
    set (s' := fold_left _ (seq 0 k) s) in *.
    destruct (cell2_dec (k, t) c) as [<-|Hne]; cbn [fst snd].
    + rewrite Nat.eqb_refl. destruct (Nat.ltb_spec k (S k)); [|lia]. cbn [andb].
      rewrite IH'. cbn [fst snd]. rewrite Nat.eqb_refl. destruct (Nat.ltb_spec k k); [lia|]. cbn [andb].
      apply fw_new_ext. intros g Hg. rewrite IH'. cbn [fst snd].
      destruct (Nat.eqb_spec (t - 1) t); [lia|]. reflexivity.
    + rewrite IH'. destruct c as [g u]. cbn [fst snd] in *.
      destruct (Nat.eqb_spec u t) as [->|]; [|reflexivity]. cbn [andb].
      assert (g <> k) by congruence.
      destruct (Nat.ltb_spec g k), (Nat.ltb_spec g (S k)); try lia; reflexivity.
Qed.

Lemma fw_serial_trace s t : forall k st, (forall c, snd c = t -> k <= fst c -> fst st c = s c) -> k <= F ->
  forall c, fst (exec cell2_dec (concat (map (fun f => tag f (fw_progs add amin pen F s t f)) (seq k (F - k)))) st) c =
  if (snd c =? t) && (k <=? fst c) && (fst c <? F) then fw_new s t (fst c) (s c) else fst st c.
Proof.
  intros k. remember (F - k) as m. revert k Heqm. induction m as [|m IH]; intros k Hm st Hst Hk c.
  - cbn [seq map concat exec fold_left]. destruct c as [g u]. cbn [fst snd].
    destruct (Nat.leb_spec k g), (Nat.ltb_spec g F); try lia; rewrite ?Bool.andb_false_r; reflexivity.
  - cbn [seq map concat]. rewrite exec_app. rewrite IH; [| lia | | lia].
    + unfold fw_progs at 1. destruct (Nat.ltb_spec k F); [|lia]. destruct st as [s0 r0]. cbn [tag map exec fold_left step fst snd].
      destruct c as [g u]. cbn [fst snd]. unfold upd.
      destruct (cell2_dec (k, t) (g, u)) as [E|E].
      * injection E as <- <-. rewrite Nat.eqb_refl. destruct (Nat.leb_spec (S k) k); [lia|]. cbn [andb].
        destruct (Nat.leb_spec k k), (Nat.ltb_spec k F); try lia. cbn [andb].
        destruct (Nat.eq_dec k k); [|congruence]. rewrite <- (Hst (k, t)) by (cbn; lia). reflexivity.
      * destruct (Nat.eqb_spec u t) as [->|]; [|reflexivity]. cbn [andb]. assert (g <> k) by congruence.
        destruct (Nat.leb_spec (S k) g), (Nat.leb_spec k g); try lia; reflexivity.
    + intros [g u] Hu Hg. cbn [fst snd] in *. subst u. unfold fw_progs. destruct (Nat.ltb_spec k F); [|lia].
      destruct st as [s0 r0]. cbn [tag map exec fold_left step fst]. unfold upd.
      destruct (cell2_dec (k, t) (g, t)) as [E|E]; [injection E; lia|]. apply (Hst (g, t)); cbn; lia.
Qed.

Lemma fw_progs_high s t f : F <= f -> fw_progs add amin pen F s t f = [].
Proof. intros H. unfold fw_progs. destruct (Nat.ltb_spec f F); [lia|reflexivity]. Qed.
Lemma fw_phase_cells sch t s : valid_sched F sch -> forall c, fw_phase add amin pen F sch t s c = fw_cells s t c.
Proof.
  intros Hs c. unfold fw_phase.
  rewrite (schedule_det _ _ cell2_dec (fun c => fst c) (fw_progs add amin pen F s t) _
             (serial F (fw_progs add amin pen F s t)) s (fun _ => s (0, 0)) (fun _ => s (0, 0))).
  - unfold serial. pose proof (fw_serial_trace s t 0 (s, fun _ => s (0, 0))) as E.
    rewrite Nat.sub_0_r in E. rewrite E by (cbn; auto; lia). unfold fw_cells. cbn [fst].
    rewrite Bool.andb_true_r. reflexivity.
  - intros f o Ho. unfold fw_progs in Ho. destruct (Nat.ltb_spec f F); [|destruct Ho].
    destruct Ho as [<-|[<-|[]]]; reflexivity.
  - apply Hs. apply fw_progs_high.
  - apply serial_is_schedule. apply fw_progs_high.
  - reflexivity.
Qed.
(** the cells a phase reads from the previous column hold still throughout the phase *)
Lemma fw_reads_stable s t tr1 tr2 st : 1 <= t -> schedule_of (fw_progs add amin pen F s t) (tr1 ++ tr2) ->
  forall g, fst (exec cell2_dec tr1 st) (g, t - 1) = fst st (g, t - 1).
Proof.
  intros Ht H g. assert (Hw : forall e, In e tr1 -> cell_of (snd e) <> (g, t - 1)).
  { intros e He E. assert (Hin : In e (tr1 ++ tr2)) by (apply in_app_iff; auto).
    apply (in_proj _ _ (fst e)) in Hin; [|reflexivity]. rewrite H in Hin. unfold fw_progs in Hin.
    destruct (fst e <? F); [|destruct Hin]. destruct Hin as [E'|[E'|[]]]; rewrite <- E' in E; injection E; lia. }
  clear H. revert st. induction tr1 as [|[f o] tr1 IH]; intros st; [reflexivity|].
  cbn [exec fold_left]. fold (exec cell2_dec tr1 (step cell2_dec st (f, o))). rewrite IH by (intros e He; apply Hw; right; exact He).
  specialize (Hw (f, o) (or_introl eq_refl)). cbn [snd] in Hw. destruct st as [s0 r0].
  destruct o as [c|c h]; cbn [step fst cell_of] in *; [reflexivity|]. unfold upd. destruct (cell2_dec c (g, t - 1)); [contradiction|reflexivity].
Qed.

Theorem fw_par_serial T sch s : (forall t, valid_sched F (sch t)) ->
  forall c, fw_par add amin pen F T sch s c = fw_serial add amin pen F T s c.
Proof.
  intros Hs. unfold fw_par, fw_serial.
  assert (G : forall l s s', (forall t, In t l -> 1 <= t) -> (forall c, s c = s' c) -> forall c,
     fold_left (fun s t => fw_phase add amin pen F (sch t) t s) l s c =
     fold_left (fun s t => fold_left (fun s f => upd cell2_dec s (f, t) (fw_new s t f (s (f, t)))) (seq 0 F) s) l s' c).
  { induction l as [|t l IH]; intros a b Hl E c; cbn [fold_left]; [apply E|].
    apply IH; [intros u Hu; apply Hl; right; exact Hu|]. intros d.
    rewrite fw_phase_cells by apply Hs. rewrite fw_inner by (auto; apply Hl; left; reflexivity).
    fold (fw_cells b t d). apply fw_cells_ext, E. }
  apply G; [|reflexivity]. intros t Ht. apply in_seq in Ht. lia.
Qed.

(** the cells after the loop *)
Theorem fw_serial_spec T s : let p := fw_serial add amin pen F T s in
  (forall f, p (f, 0) = s (f, 0)) /\
  (forall f t, f < F -> S t < T -> p (f, S t) = fw_new p (S t) f (s (f, S t))).
Proof.
  cbv zeta. unfold fw_serial.
  assert (G : forall n, let p := fold_left (fun s t => fold_left (fun s f => upd cell2_dec s (f, t) (fw_new s t f (s (f, t)))) (seq 0 F) s) (seq 1 n) s in
    (forall f, p (f, 0) = s (f, 0)) /\ (forall f t, f < F -> t < n -> p (f, S t) = fw_new p (S t) f (s (f, S t))) /\
    (forall f t, n <= t -> p (f, S t) = s (f, S t))).
  { induction n as [|n IH]; [cbn; repeat split; intros; try lia; auto|].
    cbv zeta in *. rewrite seq_S, fold_left_app. cbn [fold_left Nat.add].
    match goal with |- context [fold_left ?h (seq 1 n) s] => set (p := fold_left h (seq 1 n) s) in * end. destruct IH as (I0 & I1 & I2).
    assert (HI := fw_inner p (S n) ltac:(lia) F (le_n F)). match goal with |- context [fold_left ?h (seq 0 F) p] => set (p' := fold_left h (seq 0 F) p) in * end.
    split; [|split].
    - intros f. rewrite HI. cbn [fst snd]. destruct (Nat.eqb_spec 0 (S n)); [lia|]. apply I0.
    - intros f t Hf Ht. rewrite HI. cbn [fst snd]. destruct (Nat.eqb_spec (S t) (S n)) as [E|E].
      + injection E as ->. destruct (Nat.ltb_spec f F); [|lia]. cbn [andb]. rewrite I2 by lia.
        apply fw_new_ext. intros g Hg. rewrite HI. cbn [fst snd]. destruct (Nat.eqb_spec (S n - 1) (S n)); [lia|reflexivity].
      + cbn [andb]. rewrite I1 by lia. apply fw_new_ext. intros g Hg. rewrite HI. cbn [fst snd].
        destruct (Nat.eqb_spec (S t - 1) (S n)); [lia|reflexivity].
    - intros f t Ht. rewrite HI. cbn [fst snd]. destruct (Nat.eqb_spec (S t) (S n)); [lia|]. apply I2; lia. }
  destruct (G (T - 1)) as (G0 & G1 & _). split; [exact G0|]. intros f t Hf Ht. apply G1; lia.
Qed.
End Fw.

(** ** The backward loop *)
Section Bw.
Variable V : Type.
Variables add sub : V -> V -> V.
Variable near : V -> V -> bool.
Variable pen : nat -> nat -> V.
Variable F : nat.
Variables e pen_e : nat * nat -> V.
Notation hit := (bw_hit add sub near pen e pen_e).

Lemma bw_hit_ext r r' t f : r (t + 1) = r' (t + 1) -> hit r t f = hit r' t f.
Proof. intros H. unfold bw_hit. rewrite H. reflexivity. Qed.

(** outcome of the loop at time [t]: some index that matches, or no change *)
Definition bw_result (t : nat) (r r' : nat -> nat) : Prop :=
  (forall u, u <> t -> r' u = r u) /\
  ((r' t < F /\ hit r t (r' t) = true) \/ ((forall f, f < F -> hit r t f = false) /\ r' t = r t)).

Lemma bw_inner t r : forall k, k <= F ->
  let r' := fold_left (fun r f => if hit r t f then upd Nat.eq_dec r t f else r) (seq 0 k) r in
  (forall u, u <> t -> r' u = r u) /\
  ((r' t < k /\ hit r t (r' t) = true /\ forall f, r' t < f < k -> hit r t f = false) \/
   ((forall f, f < k -> hit r t f = false) /\ r' t = r t)).
Proof.
  induction k as [|k IH]; intros Hk; cbv zeta in *.
  - cbn. split; [reflexivity|]. right. split; [intros; lia|reflexivity].
  - rewrite seq_S, fold_left_app. cbn [fold_left Nat.add]. specialize (IH ltac:(lia)).
    set (r' := fold_left _ (seq 0 k) r) in *. destruct IH as (I0 & I1).
    assert (E : hit r' t k = hit r t k) by (apply bw_hit_ext, I0; lia). rewrite E.
    destruct (hit r t k) eqn:Eh.
    + split.
      * intros u Hu. unfold upd. destruct (Nat.eq_dec t u); [congruence|apply I0; exact Hu].
      * left. unfold upd. destruct (Nat.eq_dec t t); [|congruence]. split; [lia|]. split; [exact Eh|]. intros; lia.
    + split; [exact I0|]. destruct I1 as [(A & B & D)|(A & B)].
      * left. split; [lia|]. split; [exact B|]. intros f Hf. destruct (Nat.eq_dec f k) as [->|]; [exact Eh|apply D; lia].
      * right. split; [|exact B]. intros f Hf. destruct (Nat.eq_dec f k) as [->|]; [exact Eh|apply A; lia].
Qed.
Lemma bw_serial_result t r : bw_result t r (fold_left (fun r f => if hit r t f then upd Nat.eq_dec r t f else r) (seq 0 F) r).
Proof.
  destruct (bw_inner t r F (le_n F)) as (A & B). split; [exact A|]. destruct B as [(B & D & _)|B]; [left; split; assumption|right; exact B].
Qed.

Lemma bw_phase_result sch t r : valid_sched F sch -> bw_result t r (bw_phase add sub near pen F sch e pen_e t r).
Proof.
  intros Hs. unfold bw_phase. set (progs := bw_progs add sub near pen F e pen_e r t).
  assert (Hs' : schedule_of progs (sch progs)).
  { apply Hs. intros f Hf. unfold progs, bw_progs. destruct (Nat.ltb_spec f F); [lia|reflexivity]. }
  set (tr := sch progs) in *. clearbody tr. clear Hs.
  assert (HE : forall ev, In ev tr -> fst ev < F /\ hit r t (fst ev) = true /\ exists h, snd ev = MStore t h /\ forall x, h x = fst ev).
  { intros [f o] Hin. pose proof Hin as Hin'. apply (in_proj _ _ f) in Hin'; [|reflexivity]. rewrite Hs' in Hin'. unfold progs, bw_progs in Hin'.
    destruct (Nat.ltb_spec f F); [|destruct Hin']. destruct (hit r t f) eqn:Eh; [|destruct Hin']. destruct Hin' as [<-|[]].
    cbn [fst snd]. split; [assumption|]. split; [exact Eh|]. eexists. split; [reflexivity|]. reflexivity. }
  assert (G : forall tr s0, (forall ev, In ev tr -> fst ev < F /\ hit r t (fst ev) = true /\ exists h, snd ev = MStore t h /\ forall x, h x = fst ev) ->
    let s' := fst (exec Nat.eq_dec tr s0) in
    (forall u, u <> t -> s' u = fst s0 u) /\ ((s' t < F /\ hit r t (s' t) = true) \/ (tr = [] /\ s' t = fst s0 t))).
  { clear. induction tr as [|[f o] tr IH]; intros [s r0] HE; cbv zeta.
    - cbn. split; [reflexivity|right; split; reflexivity].
    - destruct (HE (f, o) (or_introl eq_refl)) as (A & B & h & E & Eh). cbn [snd fst] in E, A, B, Eh. subst o.
      cbn [exec fold_left step]. fold (exec Nat.eq_dec tr (upd Nat.eq_dec s t (h (r0 f)), r0)).
      specialize (IH (upd Nat.eq_dec s t (h (r0 f)), r0) (fun ev Hi => HE ev (or_intror Hi))). cbv zeta in IH. cbn [fst] in IH |- *.
      destruct IH as (I0 & I1). split.
      + intros u Hu. rewrite I0 by exact Hu. unfold upd. destruct (Nat.eq_dec t u); [congruence|reflexivity].
      + left. destruct I1 as [I1|(_ & I1)]; [exact I1|]. rewrite I1. unfold upd. destruct (Nat.eq_dec t t); [|congruence].
        rewrite Eh. split; assumption. }
  specialize (G tr (r, fun _ => 0) HE). cbv zeta in G. cbn [fst] in G. destruct G as (G0 & G1).
  split; [exact G0|]. destruct G1 as [G1|(En & G1)]; [left; exact G1|right]. split; [|exact G1].
  intros f Hf. destruct (hit r t f) eqn:Eh; [|reflexivity]. exfalso.
  specialize (Hs' f). rewrite En in Hs'. unfold progs, bw_progs in Hs'. rewrite Eh in Hs'. destruct (Nat.ltb_spec f F); [discriminate|lia].
Qed.

(** both loops: what is known of every entry once the loop is over *)
Definition settled (t : nat) (r0 r : nat -> nat) : Prop :=
  (r t < F /\ hit r t (r t) = true) \/ ((forall f, f < F -> hit r t f = false) /\ r t = r0 t).
Lemma bw_fold (phase : nat -> (nat -> nat) -> nat -> nat) n : (forall t r, bw_result t r (phase t r)) -> forall r,
  let r' := fold_left (fun r t => phase t r) (rev (seq 0 n)) r in
  (forall u, n <= u -> r' u = r u) /\ forall t, t < n -> settled t r r'.
Proof.
  intros HP. induction n as [|n IH]; intros r; cbv zeta.
  - cbn. split; [reflexivity|intros; lia].
  - rewrite seq_S, rev_app_distr. cbn [rev app fold_left Nat.add].
    destruct (HP n r) as (P0 & P1). specialize (IH (phase n r)). cbv zeta in IH.
    set (r' := fold_left _ (rev (seq 0 n)) (phase n r)) in *. destruct IH as (I0 & I1). split.
    + intros u Hu. rewrite I0, P0 by lia. reflexivity.
    + intros t Ht. destruct (Nat.eq_dec t n) as [->|Hne].
      * unfold settled. assert (E : forall f, hit r' n f = hit r n f) by (intros; apply bw_hit_ext; rewrite I0, P0 by lia; reflexivity).
        rewrite (I0 n) by lia. destruct P1 as [(A & B)|(A & B)].
        -- left. split; [exact A|]. rewrite E. exact B.
        -- right. split; [|exact B]. intros f Hf. rewrite E. apply A, Hf.
      * destruct (I1 t ltac:(lia)) as [A|(A & B)]; [left; exact A|right]. split; [exact A|]. rewrite B. apply P0. lia.
Qed.

Lemma rev_seq_map n : rev (seq 0 n) = map (fun i => n - 1 - i) (seq 0 n).
Proof.
  apply (nth_ext _ _ 0 0); [rewrite rev_length, map_length; reflexivity|].
  rewrite rev_length, seq_length. intros i Hi. rewrite rev_nth by (rewrite seq_length; exact Hi). rewrite seq_length.
  rewrite (nth_indep (map _ _) 0 (n - 1 - 0)) by (rewrite map_length, seq_length; exact Hi). rewrite (map_nth (fun i => n - 1 - i)).
  rewrite !seq_nth by lia. lia.
Qed.
Lemma bw_par_fold T sch r : bw_par add sub near pen F T sch e pen_e r =
  fold_left (fun r t => bw_phase add sub near pen F (sch t) e pen_e t r) (rev (seq 0 (T - 1))) r.
Proof.
  unfold bw_par. rewrite rev_seq_map. generalize (seq 0 (T - 1)) as l. intros l. revert r.
  induction l as [|i l IH]; intros r; cbn [map fold_left]; [reflexivity|]. rewrite IH. replace (T - 1 - 1 - i) with (T - 2 - i) by lia. reflexivity.
Qed.

Theorem bw_serial_spec T r : let r' := bw_serial add sub near pen F T e pen_e r in
  (forall u, T - 1 <= u -> r' u = r u) /\ forall t, t < T - 1 -> settled t r r'.
Proof. apply (bw_fold (fun t r => fold_left (fun r f => if hit r t f then upd Nat.eq_dec r t f else r) (seq 0 F) r)). intros. apply bw_serial_result. Qed.
Theorem bw_par_spec T sch r : (forall t, valid_sched F (sch t)) -> let r' := bw_par add sub near pen F T sch e pen_e r in
  (forall u, T - 1 <= u -> r' u = r u) /\ forall t, t < T - 1 -> settled t r r'.
Proof. intros H. rewrite bw_par_fold. apply (bw_fold (fun t => bw_phase add sub near pen F (sch t) e pen_e t)). intros. apply bw_phase_result, H. Qed.

(** two outcomes agree when at most one index matches at each step *)
Lemma settled_unique T r0 a b : (forall u, T - 1 <= u -> a u = b u) ->
  (forall t, t < T - 1 -> settled t r0 a) -> (forall t, t < T - 1 -> settled t r0 b) ->
  (forall t f g, t < T - 1 -> f < F -> g < F -> hit a t f = true -> hit a t g = true -> f = g) ->
  forall u, a u = b u.
Proof.
  intros Hend Ha Hb Hu.
  assert (G : forall k t, T - 1 <= t + k -> a t = b t).
  { induction k as [|k IH]; intros t Hk; [apply Hend; lia|].
    destruct (Nat.le_gt_cases (T - 1) t) as [H|H]; [apply Hend, H|].
    assert (E : forall f, hit a t f = hit b t f) by (intros; apply bw_hit_ext, IH; lia).
    destruct (Ha t H) as [(A1 & A2)|(A1 & A2)], (Hb t H) as [(B1 & B2)|(B1 & B2)].
    - apply (Hu t); auto. rewrite E. exact B2.
    - rewrite E, B1 in A2 by exact A1. discriminate.
    - rewrite <- E, A1 in B2 by exact B1. discriminate.
    - congruence. }
  intros u. apply (G T u). lia.
Qed.
End Bw.
