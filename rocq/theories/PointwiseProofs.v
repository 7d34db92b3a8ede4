From Coq Require Import FinFun.
From Verif Require Import Py Parallel Cplx CplxProofs Squeeze Pointwise.
Local Open Scope R_scope.

Section PW.
Variables Cell V : Type.
Variable dec : forall a b : Cell, {a = b} + {a <> b}.
Variable op : Cell -> list (mop Cell V).
Variable g : Cell -> V -> V.
Hypothesis touch : forall c o, In o (op c) -> cell_of o = c.
Hypothesis run : forall t c s r, fst (exec dec (tag t (op c)) (s, r)) c = g c (s c).

Lemma tag_frame t (p : list (mop Cell V)) : forall (st : pstate Cell V) c, (forall o, In o p -> cell_of o <> c) -> fst (exec dec (tag t p) st) c = fst st c.
Proof.
  induction p as [|o p IH]; intros [s r] c H; [reflexivity|].
  cbn [tag map exec fold_left]. change (fold_left (step dec) (map (pair t) p)) with (exec dec (tag t p)).
  rewrite IH by (intros; apply H; right; auto).
  destruct o as [c'|c' f]; simpl; auto. unfold upd. destruct (dec c' c); auto.
  exfalso; apply (H (MStore c' f)); simpl; auto.
Qed.

Lemma tag_app t (p q : list (mop Cell V)) : tag t (p ++ q) = tag t p ++ tag t q.
Proof. apply map_app. Qed.

Lemma run_cells t cs : NoDup cs -> forall (st : pstate Cell V) c,
  fst (exec dec (tag t (concat (map op cs))) st) c = if in_dec dec c cs then g c (fst st c) else fst st c.
Proof.
  induction 1 as [|c0 cs Hn Hd IH]; intros st c; [reflexivity|].
  cbn [map concat]. rewrite tag_app, exec_app, IH.
  destruct st as [s r].
  destruct (in_dec dec c (c0 :: cs)) as [Hi|Hi]; destruct (in_dec dec c cs) as [Hj|Hj].
  - rewrite tag_frame; [reflexivity|]. intros o Ho E. apply touch in Ho. congruence.
  - destruct Hi as [->|]; [|contradiction]. apply run.
  - exfalso; apply Hi; right; auto.
  - apply tag_frame. intros o Ho E. apply touch in Ho. apply Hi. left. congruence.
Qed.

Theorem pw_result cs own tr s r c : (forall t, NoDup (cs t)) -> (forall t c, In c (cs t) -> own c = t) ->
  schedule_of (fun t => concat (map op (cs t))) tr ->
  fst (exec dec tr (s, r)) c = if in_dec dec c (cs (own c)) then g c (s c) else s c.
Proof.
  intros Hd Ho Hs.
  assert (Hev : forall e, In e tr -> own (cell_of (snd e)) = fst e).
  { intros e He. pose proof (in_proj _ _ (fst e) e tr He eq_refl) as Hp. rewrite Hs in Hp.
    apply in_concat in Hp. destruct Hp as (l & Hl & Hi). apply in_map_iff in Hl. destruct Hl as (c' & <- & Hc').
    rewrite (touch c' _ Hi). apply Ho. exact Hc'. }
  destruct (view_exec _ _ dec own (own c) tr (s, r) (s, r) Hev (conj eq_refl (fun _ _ => eq_refl))) as [_ E].
  rewrite E by reflexivity. rewrite Hs. rewrite run_cells by auto. reflexivity.
Qed.

Theorem pw_chunks cells own tr s r c : NoDup cells -> schedule_of (pw_progs cells own op) tr ->
  fst (exec dec tr (s, r)) c = if in_dec dec c cells then g c (s c) else s c.
Proof.
  intros Hd Hs.
  rewrite (pw_result (fun q => filter (fun c => (own c =? q)%nat) cells) own tr s r c).
  - destruct (in_dec dec c cells) as [Hi|Hi], (in_dec _ _ _) as [Hj|Hj]; auto.
    + exfalso; apply Hj. apply filter_In. split; auto. apply Nat.eqb_refl.
    + exfalso; apply Hi. apply filter_In in Hj. tauto.
  - intros t. apply NoDup_filter, Hd.
  - intros t c'. rewrite filter_In, Nat.eqb_eq. tauto.
  - exact Hs.
Qed.

Lemma pw_serial_schedule cells : schedule_of (pw_progs cells (fun _ => O) op) (pw_serial cells op).
Proof.
  intros t. unfold pw_serial, pw_progs. induction cells as [|c cells IH]; [reflexivity|].
  cbn [map concat filter]. rewrite proj_app, IH. destruct (Nat.eqb_spec 0 t) as [Ht|Ht].
  - subst t. rewrite proj_tag_same. reflexivity.
  - rewrite proj_tag_other by auto. reflexivity.
Qed.
End PW.

Lemma put_touch {Cell V} (dec : forall a b : Cell, {a = b} + {a <> b}) cond (v : Cell -> V) c o :
  In o (put_op cond v c) -> cell_of o = c.
Proof. unfold put_op. destruct (cond c); simpl; [intros [<-|[]]; reflexivity|tauto]. Qed.
Lemma put_run {Cell V} (dec : forall a b : Cell, {a = b} + {a <> b}) cond (v : Cell -> V) t c s r :
  fst (exec dec (tag t (put_op cond v c)) (s, r)) c = if cond c then v c else s c.
Proof. unfold put_op. destruct (cond c); simpl; auto. unfold upd. destruct (dec c c); congruence. Qed.
Lemma own_touch {Cell V} (cond : V -> bool) v (c : Cell) o : In o (own_op cond v c) -> cell_of o = c.
Proof. simpl. intros [<-|[<-|[]]]; reflexivity. Qed.
Lemma own_run {Cell V} (dec : forall a b : Cell, {a = b} + {a <> b}) (cond : V -> bool) v t c s r :
  fst (exec dec (tag t (own_op cond v c)) (s, r)) c = if cond (s c) then v else s c.
Proof.
  simpl. unfold upd. destruct (dec c c); [|congruence]. destruct (Nat.eq_dec t t); [|congruence]. reflexivity.
Qed.

Lemma NoDup_app' {A} (l m : list A) : NoDup l -> NoDup m -> (forall x, In x l -> ~ In x m) -> NoDup (l ++ m).
Proof.
  induction 1 as [|a l Hn Hd IH]; intros Hm H; [exact Hm|]. cbn [app]. constructor.
  - rewrite in_app_iff. intros [|K]; [contradiction|]. apply (H a); simpl; auto.
  - apply IH; auto. intros x Hx. apply H. right; auto.
Qed.
Lemma NoDup_prod {A B} (l : list A) (m : list B) : NoDup l -> NoDup m -> NoDup (list_prod l m).
Proof.
  induction 1 as [|a l Hn Hd IH]; intros Hm; [constructor|]. cbn [list_prod].
  apply NoDup_app'; [|auto|].
  - apply Injective_map_NoDup; auto. intros x y E. congruence.
  - intros [x y] Hx Hy. apply in_map_iff in Hx. destruct Hx as (b & E & _). injection E as <- <-.
    apply in_prod_iff in Hy. tauto.
Qed.

Lemma NoDup_cells2 m n : NoDup (cells2 m n).
Proof. apply NoDup_prod; apply seq_NoDup. Qed.
Lemma in_cells2 m n c : In c (cells2 m n) <-> (fst c < m)%nat /\ (snd c < n)%nat.
Proof. destruct c as [i j]. unfold cells2. rewrite in_prod_iff, !in_seq. simpl. lia. Qed.
Lemma NoDup_cells3 x : NoDup (cells3 x).
Proof. apply NoDup_prod; [|apply seq_NoDup]. apply NoDup_prod; apply seq_NoDup. Qed.
Lemma in_cells3 x c : In c (cells3 x) <-> (fst (fst c) < d0 x /\ snd (fst c) < d1 x /\ snd c < d2 x)%nat.
Proof. destruct c as [[i j] k]. unfold cells3. rewrite !in_prod_iff, !in_seq. simpl. lia. Qed.

(** ** Launches (C53) *)
Lemma ceil_div_spec a b : (0 < b)%Z -> (a <= ceil_div a b * b < a + b)%Z.
Proof. unfold ceil_div. intros H. pose proof (Z.div_mod (- a) b). pose proof (Z.mod_pos_bound (- a) b H). nia. Qed.
Lemma wrap32_small k : (- 2 ^ 31 <= k < 2 ^ 31)%Z -> wrap32 k = k.
Proof. intros H. unfold wrap32. rewrite Z.mod_small by lia. lia. Qed.
Lemma wrap32_range k : (- 2 ^ 31 <= wrap32 k < 2 ^ 31)%Z.
Proof. unfold wrap32. pose proof (Z.mod_pos_bound (k + 2 ^ 31) (2 ^ 32)). lia. Qed.

Definition one_thread1 (M N j : Z) : Prop :=
  exists b t, works1 M N b t j /\ forall b' t', works1 M N b' t' j -> b' = b /\ t' = t.
Definition one_thread2 (M N i j : Z) : Prop :=
  exists bx tx byy ty, works2 M N bx tx byy ty i j /\
    forall bx' tx' by' ty', works2 M N bx' tx' by' ty' i j -> bx' = bx /\ tx' = tx /\ by' = byy /\ ty' = ty.

Theorem launch1 M N : (0 < M)%Z -> (0 < N)%Z -> (M * N <= 2 ^ 31 - 1024)%Z ->
  launch_ok (grid1 M N) 1 = true /\
  (forall j, (0 <= j < N)%Z -> one_thread1 M N j) /\
  (forall b t j, works1 M N b t j -> (0 <= j < N)%Z).
Proof.
  intros HM HN HB. pose proof (ceil_div_spec (M * N) 1024 ltac:(lia)) as Hc. fold block1 in Hc. fold (grid1 M N) in Hc.
  assert (Hs : forall b t, (0 <= b < grid1 M N)%Z -> (0 <= t < block1)%Z -> thread_index block1 b t = (b * block1 + t)%Z).
  { intros b t Hb Ht. apply wrap32_small. unfold block1 in *. nia. }
  assert (N <= M * N)%Z by nia.
  split; [|split].
  - unfold launch_ok, block1 in *. repeat (apply andb_true_intro; split); apply Z.leb_le; lia.
  - intros j Hj. exists (j / block1)%Z, (j mod block1)%Z.
    assert (0 <= j / block1 < grid1 M N)%Z by (unfold block1 in *; lia).
    assert (0 <= j mod block1 < block1)%Z by (unfold block1 in *; lia).
    split.
    + unfold works1. rewrite Hs by auto. unfold block1 in *. lia.
    + intros b' t' (Hb & Ht & E & _). rewrite Hs in E by auto. unfold block1 in *. lia.
  - intros b t j (Hb & Ht & E & Hl). rewrite Hs in E by auto. unfold block1 in *. nia.
Qed.

Theorem launch2 M N : (0 < M <= 2 ^ 31 - 32)%Z -> (0 < N <= 32 * 65535)%Z ->
  launch_ok (fst (grid2 M N)) (snd (grid2 M N)) = true /\
  (forall i j, (0 <= i < M)%Z -> (0 <= j < N)%Z -> one_thread2 M N i j) /\
  (forall bx tx byy ty i j, works2 M N bx tx byy ty i j -> (0 <= i < M)%Z /\ (0 <= j < N)%Z).
Proof.
  intros HM HN. pose proof (ceil_div_spec M 32 ltac:(lia)) as H1. pose proof (ceil_div_spec N 32 ltac:(lia)) as H2.
  fold block2 in H1, H2. unfold grid2. cbn [fst snd].
  set (gx := ceil_div M block2) in *. set (gy := ceil_div N block2) in *.
  assert (Hs : forall b t, (0 <= b < gx \/ 0 <= b < gy)%Z -> (0 <= t < block2)%Z -> thread_index block2 b t = (b * block2 + t)%Z).
  { intros b t Hb Ht. apply wrap32_small. unfold block2 in *. lia. }
  split; [|split].
  - unfold launch_ok, block2 in *. repeat (apply andb_true_intro; split); apply Z.leb_le; lia.
  - intros i j Hi Hj. exists (i / block2)%Z, (i mod block2)%Z, (j / block2)%Z, (j mod block2)%Z.
    assert (0 <= i / block2 < gx)%Z by (unfold block2 in *; lia).
    assert (0 <= i mod block2 < block2)%Z by (unfold block2 in *; lia).
    assert (0 <= j / block2 < gy)%Z by (unfold block2 in *; lia).
    assert (0 <= j mod block2 < block2)%Z by (unfold block2 in *; lia).
    split.
    + unfold works2, grid2. cbn [fst snd]. fold gx gy. rewrite !Hs by auto. unfold block2 in *. lia.
    + intros b' t' c' u' W. unfold works2, grid2 in W. cbn [fst snd] in W. fold gx gy in W.
      destruct W as (Hb & Hc & Ht & Hu & E1 & E2 & _). rewrite Hs in E1 by auto. rewrite Hs in E2 by auto.
      unfold block2 in *. lia.
  - intros bx tx byy ty i j W. unfold works2, grid2 in W. cbn [fst snd] in W. fold gx gy in W.
    destruct W as (Hb & Hc & Ht & Hu & E1 & E2 & Hl). rewrite Hs in E1 by auto. rewrite Hs in E2 by auto.
    unfold block2 in *. lia.
Qed.

(** more than 2^31 elements: a thread with a negative index gets past the bounds check *)
Theorem launch1_overflow M N : (0 < M)%Z -> (0 < N)%Z -> (M * N > 2 ^ 31)%Z ->
  exists b t j, works1 M N b t j /\ (j < 0)%Z.
Proof.
  intros HM HN HB. pose proof (ceil_div_spec (M * N) 1024 ltac:(lia)) as Hc. fold block1 in Hc. fold (grid1 M N) in Hc.
  exists 2097152%Z, 0%Z, (- 2 ^ 31)%Z. split; [|lia].
  unfold works1. repeat split; try (unfold block1 in *; lia).
Qed.
(** ... and beyond 2^32 two threads accumulate into the same column *)
Theorem launch1_twice M N : (0 < M)%Z -> (0 < N)%Z -> (M * N > 2 ^ 32)%Z ->
  exists b t b' t', works1 M N b t 0 /\ works1 M N b' t' 0 /\ b <> b'.
Proof.
  intros HM HN HB. pose proof (ceil_div_spec (M * N) 1024 ltac:(lia)) as Hc. fold block1 in Hc. fold (grid1 M N) in Hc.
  exists 0%Z, 0%Z, 4194304%Z, 0%Z.
  unfold works1. repeat split; try (unfold block1 in *; lia).
Qed.
Theorem launch2_long M N : (N > 32 * 65535)%Z -> launch_ok (fst (grid2 M N)) (snd (grid2 M N)) = false.
Proof.
  intros HN. pose proof (ceil_div_spec N 32 ltac:(lia)) as H2. unfold grid2, launch_ok, block2. cbn [fst snd].
  rewrite !andb_false_iff. right. apply Z.leb_gt. lia.
Qed.

Theorem pw_gpu V (op : nat * nat -> list (mop (nat * nat) V)) (g : nat * nat -> V -> V)
  (touch : forall c o, In o (op c) -> cell_of o = c)
  (run : forall t c s r, fst (exec cell2_dec (tag t (op c)) (s, r)) c = g c (s c)) M N tr s r i j :
  schedule_of (gpu2_progs M N op) tr ->
  (Z.of_nat M <= 2 ^ 31 - 32)%Z -> (Z.of_nat N <= 32 * 65535)%Z ->
  (i < M)%nat -> (j < N)%nat -> fst (exec cell2_dec tr (s, r)) (i, j) = g (i, j) (s (i, j)).
Proof.
  intros Hs HM HN Hi Hj.
  pose proof (ceil_div_spec (Z.of_nat M) 32 ltac:(lia)) as H1. pose proof (ceil_div_spec (Z.of_nat N) 32 ltac:(lia)) as H2.
  set (H := Z.to_nat (snd (grid2 (Z.of_nat M) (Z.of_nat N)) * block2)) in *.
  assert (HH : (N <= H)%nat) by (unfold H, grid2, block2; cbn [snd]; lia).
  assert (HU : (Z.of_nat H < 2 ^ 31)%Z) by (unfold H, grid2, block2; cbn [snd]; lia).
  assert (Hc : forall t, forall c, In c (gpu2_cells M N t) -> (t = fst c * H + snd c /\ fst c < M /\ snd c < N)%nat).
  { intros t c. unfold gpu2_cells. fold H.
    destruct (Z.ltb_spec (Z.of_nat (t / H)) (fst (grid2 (Z.of_nat M) (Z.of_nat N)) * block2)) as [Hx|]; [|simpl; tauto].
    unfold grid2, block2 in Hx. cbn [fst] in Hx.
    pose proof (Nat.mod_upper_bound t H ltac:(lia)). pose proof (Nat.div_mod t H ltac:(lia)).
    rewrite !wrap32_small by lia.
    destruct (_ || _)%bool eqn:E; simpl; [tauto|]. apply orb_false_iff in E. destruct E as [E1 E2].
    rewrite Z.geb_leb, Z.leb_gt in E1. rewrite Z.geb_leb, Z.leb_gt in E2.
    intros [<-|[]]. cbn [fst snd]. rewrite !Nat2Z.id. nia. }
  assert (Hin : In (i, j) (gpu2_cells M N (i * H + j))).
  { unfold gpu2_cells. fold H. replace ((i * H + j) / H)%nat with i by (apply Nat.div_unique with j; lia).
    replace ((i * H + j) mod H)%nat with j by (apply Nat.mod_unique with i; lia).
    destruct (Z.ltb_spec (Z.of_nat i) (fst (grid2 (Z.of_nat M) (Z.of_nat N)) * block2)) as [Hx|Hx].
    2: unfold grid2, block2 in Hx; cbn [fst] in Hx; lia.
    rewrite !wrap32_small by lia.
    destruct (_ || _)%bool eqn:E; [|rewrite !Nat2Z.id; left; reflexivity].
    apply orb_true_iff in E. destruct E as [E|E]; rewrite Z.geb_leb, Z.leb_le in E; lia. }
  assert (Hs' : schedule_of (fun t => concat (map op (gpu2_cells M N t))) tr).
  { intros t. rewrite Hs. unfold gpu2_progs. destruct (Z.eqb_spec (Z.of_nat N) 0); [lia|reflexivity]. }
  rewrite (pw_result _ _ cell2_dec op g touch run
             (gpu2_cells M N) (fun c => fst c * H + snd c)%nat tr _ _ (i, j)).
  - destruct (in_dec _ _ _) as [|Hn]; [reflexivity|]. exfalso; apply Hn; exact Hin.
  - intros t. unfold gpu2_cells. destruct (_ <? _)%Z; [|constructor]. destruct (_ || _)%bool; repeat constructor. simpl; tauto.
  - intros t c Hc'. symmetry. apply Hc. exact Hc'.
  - exact Hs'.
Qed.
(** ** Phase transforms (C27) *)
Section Phase.
Variables (ph : nat -> C -> C -> R) (gamma : R) (Wx dWx : mat C).
Let val (c : nat * nat) : fval :=
  if Rlt_dec (Cabs (el Wx (fst c) (snd c))) gamma then Inf
  else Fin (ph (fst c) (el Wx (fst c) (snd c)) (el dWx (fst c) (snd c))).
Lemma phase_touch c o : In o (phase_op ph gamma Wx dWx c) -> cell_of o = c.
Proof. simpl. intros [<-|[]]; reflexivity. Qed.
Lemma phase_run t c s r : fst (exec cell2_dec (tag t (phase_op ph gamma Wx dWx c)) (s, r)) c = val c.
Proof. simpl. unfold upd. destruct (cell2_dec c c); [reflexivity|congruence]. Qed.

Theorem phase_chunks own tr i j : schedule_of (pw_progs (cells2 (nrows Wx) (ncols Wx)) own (phase_op ph gamma Wx dWx)) tr ->
  (i < nrows Wx)%nat -> (j < ncols Wx)%nat -> el (run_phase Wx tr) i j = val (i, j).
Proof.
  intros Hs Hi Hj. unfold run_phase. cbn [el].
  rewrite (pw_chunks _ _ cell2_dec _ (fun c _ => val c) phase_touch (fun t c s r => phase_run t c s r) _ own tr _ _ (i, j) (NoDup_cells2 _ _) Hs).
  destruct (in_dec _ _ _) as [|Hn]; [reflexivity|]. exfalso; apply Hn. apply in_cells2. auto.
Qed.

Theorem phase_gpu tr i j : schedule_of (gpu2_progs (nrows Wx) (ncols Wx) (phase_op ph gamma Wx dWx)) tr ->
  (Z.of_nat (nrows Wx) <= 2 ^ 31 - 32)%Z -> (Z.of_nat (ncols Wx) <= 32 * 65535)%Z ->
  (i < nrows Wx)%nat -> (j < ncols Wx)%nat -> el (run_phase Wx tr) i j = val (i, j).
Proof.
  intros Hs HM HN Hi Hj. unfold run_phase. cbn [el].
  exact (pw_gpu _ _ (fun c _ => val c) phase_touch (fun t c s r => phase_run t c s r) _ _ tr _ _ i j Hs HM HN Hi Hj).
Qed.
End Phase.

(** the value, in terms of the quotient *)
Lemma phase_ratio_quot W dW z : W <> C0 -> Cmul z W = dW -> phase_ratio W dW = Im z / (2 * PI).
Proof.
  intros HW <-. unfold phase_ratio. destruct W as [a b], z as [c d]. unfold Re, Im, Cmul. cbn [fst snd].
  assert (a * a + b * b <> 0).
  { intros E. apply HW. assert (a = 0) by nra. assert (b = 0) by nra. subst. reflexivity. }
  pose proof PI_RGT_0. field. lra.
Qed.
Lemma Cabs_lt_zero W gamma : 0 < gamma -> ~ Cabs W < gamma -> W <> C0.
Proof. intros Hg H ->. rewrite Cabs_0 in H. lra. Qed.

(** ** Replacement helpers (C51) *)
Definition in3 (x : arr3) (c : nat * nat * nat) : Prop :=
  (fst (fst c) < d0 x /\ snd (fst c) < d1 x /\ snd c < d2 x)%nat.
Lemma replace_at_spec k x ref repl y : replace_at k x ref repl = Ok y ->
  d0 y = d0 x /\ d1 y = d1 x /\ d2 y = d2 x /\ forall c, in3 x c ->
  at3 y c = if matches k (at3 (match ref with Some r => r | None => x end) c) then repl else at3 x c.
Proof.
  unfold replace_at. destruct ref as [r|].
  - destruct (_ || _ || _)%bool; [discriminate|]. intros E. injection E as <-. cbn [d0 d1 d2 at3]. repeat split.
    intros c Hc. rewrite (pw_chunks _ _ cell3_dec _ (fun c v => if matches k (at3 r c) then repl else v)
      (put_touch cell3_dec _ _) (fun t c s q => put_run cell3_dec _ _ t c s q) (cells3 x) (fun _ => O) _ _ _ c (NoDup_cells3 x) (pw_serial_schedule _ _ _ _)).
    destruct (in_dec _ _ _) as [|Hn]; [reflexivity|]. exfalso; apply Hn, in_cells3, Hc.
  - intros E. injection E as <-. cbn [d0 d1 d2 at3]. repeat split.
    intros c Hc. rewrite (pw_chunks _ _ cell3_dec _ (fun c v => if matches k v then repl else v)
      (own_touch _ _) (fun t c s q => own_run cell3_dec _ _ t c s q) (cells3 x) (fun _ => O) _ _ _ c (NoDup_cells3 x) (pw_serial_schedule _ _ _ _)).
    destruct (in_dec _ _ _) as [|Hn]; [reflexivity|]. exfalso; apply Hn, in_cells3, Hc.
Qed.
Lemma replace_at_twice k x ref repl y z : replace_at k x ref repl = Ok y -> replace_at k y ref repl = Ok z ->
  forall c, in3 x c -> at3 z c = at3 y c.
Proof.
  intros E1 E2 c Hc. destruct (replace_at_spec _ _ _ _ _ E1) as (A1 & A2 & A3 & A).
  destruct (replace_at_spec _ _ _ _ _ E2) as (B1 & B2 & B3 & B).
  assert (Hc' : in3 y c) by (unfold in3 in *; rewrite A1, A2, A3; exact Hc).
  rewrite (B c Hc'). destruct ref as [r|].
  - rewrite (A c Hc). destruct (matches k (at3 r c)); reflexivity.
  - pose proof (A c Hc) as A'. destruct (matches k (at3 y c)) eqn:M; [|reflexivity]. rewrite A'. destruct (matches k (at3 x c)) eqn:M'; [reflexivity|congruence].
Qed.

Definition ref_abs (x : mat num) (ref : ref_arg) (i j : nat) : num :=
  match ref with
  | RNone => NaN
  | RSelf => num_abs (el x i j)
  | RNum r => num_abs (el r i j)
  | RCplx r => Num (Cabs (el r i j))
  end.
Lemma under_spec x ref value repl own tr y :
  schedule_of (pw_progs (cells2 (nrows x) (ncols x)) own (under_op ref value repl)) tr ->
  replace_under_abs x ref value repl tr = Ok y ->
  nrows y = nrows x /\ ncols y = ncols x /\ forall i j, (i < nrows x)%nat -> (j < ncols x)%nat ->
  el y i j = if num_lt (ref_abs x ref i j) value then repl else el x i j.
Proof.
  intros Hs E. unfold replace_under_abs in E. destruct ref as [| |r|r]; [discriminate| | |];
    (destruct (ref_fits _ _); [|discriminate]); injection E as <-; cbn [nrows ncols el]; (split; [reflexivity|]; split; [reflexivity|]);
    intros i j Hi Hj.
  - rewrite (pw_chunks _ _ cell2_dec _ (fun c v => if num_lt (num_abs v) value then repl else v)
      (own_touch _ _) (fun t c s q => own_run cell2_dec _ _ t c s q) _ own tr _ _ (i, j) (NoDup_cells2 _ _) Hs).
    destruct (in_dec _ _ _) as [|Hn]; [reflexivity|]. exfalso; apply Hn, in_cells2; auto.
  - rewrite (pw_chunks _ _ cell2_dec _ (fun c v => if num_lt (num_abs (el r (fst c) (snd c))) value then repl else v)
      (put_touch cell2_dec _ _) (fun t c s q => put_run cell2_dec _ _ t c s q) _ own tr _ _ (i, j) (NoDup_cells2 _ _) Hs).
    destruct (in_dec _ _ _) as [|Hn]; [reflexivity|]. exfalso; apply Hn, in_cells2; auto.
  - rewrite (pw_chunks _ _ cell2_dec _ (fun c v => if num_lt (Num (Cabs (el r (fst c) (snd c)))) value then repl else v)
      (put_touch cell2_dec _ _) (fun t c s q => put_run cell2_dec _ _ t c s q) _ own tr _ _ (i, j) (NoDup_cells2 _ _) Hs).
    destruct (in_dec _ _ _) as [|Hn]; [reflexivity|]. exfalso; apply Hn, in_cells2; auto.
Qed.
Lemma under_twice x ref value repl own tr y own' tr' z :
  schedule_of (pw_progs (cells2 (nrows x) (ncols x)) own (under_op ref value repl)) tr ->
  replace_under_abs x ref value repl tr = Ok y ->
  schedule_of (pw_progs (cells2 (nrows y) (ncols y)) own' (under_op ref value repl)) tr' ->
  replace_under_abs y ref value repl tr' = Ok z -> meq z y.
Proof.
  intros S1 E1 S2 E2. destruct (under_spec _ _ _ _ _ _ _ S1 E1) as (A1 & A2 & A).
  destruct (under_spec _ _ _ _ _ _ _ S2 E2) as (B1 & B2 & B).
  split; [exact B1|]. split; [exact B2|]. intros i j Hi Hj. rewrite B1 in Hi. rewrite B2 in Hj.
  rewrite (B i j Hi Hj). rewrite A1 in Hi. rewrite A2 in Hj.
  destruct (num_lt (ref_abs y ref i j) value) eqn:Ey; [|reflexivity].
  rewrite (A i j Hi Hj). destruct ref as [| |r|r]; cbn [ref_abs] in *; try (rewrite Ey; reflexivity).
  - rewrite (A i j Hi Hj) in Ey. destruct (num_lt (num_abs (el x i j)) value) eqn:Ex; [reflexivity|]. congruence.
Qed.
Lemma under_gpu x r value repl tr y :
  schedule_of (gpu2_progs (nrows x) (ncols x) (under_op (RCplx r) value repl)) tr ->
  (Z.of_nat (nrows x) <= 2 ^ 31 - 32)%Z -> (Z.of_nat (ncols x) <= 32 * 65535)%Z ->
  replace_under_abs x (RCplx r) value repl tr = Ok y ->
  forall i j, (i < nrows x)%nat -> (j < ncols x)%nat ->
  el y i j = if num_lt (Num (Cabs (el r i j))) value then repl else el x i j.
Proof.
  intros Hs HM HN E i j Hi Hj. unfold replace_under_abs in E. destruct (ref_fits _ _); [|discriminate]. injection E as <-.
  cbn [el]. exact (pw_gpu _ _ (fun c v => if num_lt (Num (Cabs (el r (fst c) (snd c)))) value then repl else v)
      (put_touch cell2_dec _ _) (fun t c s q => put_run cell2_dec _ _ t c s q) _ _ tr _ _ i j Hs HM HN Hi Hj).
Qed.

Lemma zd_spec tiny x own tr :
  schedule_of (pw_progs (seq 0 (length x)) own (zd_op tiny)) tr ->
  let y := zero_denormals true tiny x tr in
  length y = length x /\ forall i, (i < length x)%nat ->
  nth i y NaN = if denormal tiny (nth i x NaN) then Num 0 else nth i x NaN.
Proof.
  intros Hs. unfold zero_denormals. cbn [length]. split; [apply tab_length|]. intros i Hi. rewrite nth_tab by auto.
  rewrite (pw_chunks _ _ Nat.eq_dec _ (fun c v => if denormal tiny v then Num 0 else v)
      (own_touch _ _) (fun t c s q => own_run Nat.eq_dec _ _ t c s q) _ own tr _ _ i (seq_NoDup _ _) Hs).
  destruct (in_dec _ _ _) as [|Hn]; [reflexivity|]. exfalso; apply Hn, in_seq. lia.
Qed.

(** ** For the property file *)
Definition phase_is (quot : C -> R) (gamma : R) (W dW : C) (v : fval) : Prop :=
  match v with
  | Inf => Cabs W < gamma
  | Fin r => gamma <= Cabs W /\ 0 <= r /\ exists z, Cmul z W = dW /\ r = quot z
  end.
Lemma phase_cwt_is gamma W dW : 0 < gamma ->
  phase_is (fun z => Rabs (Im z) / (2 * PI)) gamma W dW
    (if Rlt_dec (Cabs W) gamma then Inf else Fin (phase_cwt_pt W dW)).
Proof.
  intros Hg. destruct (Rlt_dec (Cabs W) gamma) as [H|H]; simpl; [exact H|].
  pose proof (Cabs_lt_zero W gamma Hg H) as HW.
  split; [lra|]. split; [apply Rabs_pos|]. exists (Cmul dW (Cinv W)).
  assert (E : Cmul (Cmul dW (Cinv W)) W = dW).
  { transitivity (Cmul dW (Cmul W (Cinv W))); [ring|]. rewrite Cinv_r by auto. ring. }
  split; [exact E|]. unfold phase_cwt_pt. rewrite (phase_ratio_quot W dW _ HW E).
  unfold Rdiv. rewrite Rabs_mult. f_equal. apply Rabs_right. apply Rle_ge, Rlt_le, Rinv_0_lt_compat. pose proof PI_RGT_0. lra.
Qed.
Lemma phase_stft_is Sf gamma W dW : 0 < gamma ->
  phase_is (fun z => Rabs (Sf - Im z / (2 * PI))) gamma W dW
    (if Rlt_dec (Cabs W) gamma then Inf else Fin (phase_stft_pt Sf W dW)).
Proof.
  intros Hg. destruct (Rlt_dec (Cabs W) gamma) as [H|H]; simpl; [exact H|].
  pose proof (Cabs_lt_zero W gamma Hg H) as HW.
  split; [lra|]. split; [apply Rabs_pos|]. exists (Cmul dW (Cinv W)).
  assert (E : Cmul (Cmul dW (Cinv W)) W = dW).
  { transitivity (Cmul dW (Cmul W (Cinv W))); [ring|]. rewrite Cinv_r by auto. ring. }
  split; [exact E|]. unfold phase_stft_pt. rewrite (phase_ratio_quot W dW _ HW E). reflexivity.
Qed.
Theorem phase_cwt_cell gamma Wx dWx own tr i j : 0 < gamma ->
  schedule_of (pw_progs (cells2 (nrows Wx) (ncols Wx)) own (cwt_op gamma Wx dWx)) tr ->
  (i < nrows Wx)%nat -> (j < ncols Wx)%nat ->
  phase_is (fun z => Rabs (Im z) / (2 * PI)) gamma (el Wx i j) (el dWx i j) (el (run_phase Wx tr) i j).
Proof.
  intros Hg Hs Hi Hj. unfold cwt_op in Hs. rewrite (phase_chunks _ _ _ _ own tr i j Hs Hi Hj).
  apply phase_cwt_is, Hg.
Qed.
Theorem phase_stft_cell Sfs gamma Wx dWx own tr i j : 0 < gamma ->
  schedule_of (pw_progs (cells2 (nrows Wx) (ncols Wx)) own (stft_op Sfs gamma Wx dWx)) tr ->
  (i < nrows Wx)%nat -> (j < ncols Wx)%nat ->
  phase_is (fun z => Rabs (nth i Sfs 0 - Im z / (2 * PI))) gamma (el Wx i j) (el dWx i j) (el (run_phase Wx tr) i j).
Proof.
  intros Hg Hs Hi Hj. unfold stft_op in Hs. rewrite (phase_chunks _ _ _ _ own tr i j Hs Hi Hj).
  apply (phase_stft_is (nth i Sfs 0)), Hg.
Qed.
Theorem phase_agree op own tr own' tr' gtr ph gamma Wx dWx : op = phase_op ph gamma Wx dWx ->
  schedule_of (pw_progs (cells2 (nrows Wx) (ncols Wx)) own op) tr ->
  schedule_of (pw_progs (cells2 (nrows Wx) (ncols Wx)) own' op) tr' ->
  schedule_of (gpu2_progs (nrows Wx) (ncols Wx) op) gtr ->
  (Z.of_nat (nrows Wx) <= 2 ^ 31 - 32)%Z -> (Z.of_nat (ncols Wx) <= 32 * 65535)%Z ->
  meq (run_phase Wx tr) (run_phase Wx tr') /\ meq (run_phase Wx tr) (run_phase Wx gtr).
Proof.
  intros -> H1 H2 H3 HM HN. split; (split; [reflexivity|]; split; [reflexivity|]); cbn [nrows ncols run_phase]; intros i j Hi Hj;
    rewrite (phase_chunks _ _ _ _ own tr i j H1 Hi Hj); symmetry.
  - apply (phase_chunks _ _ _ _ own' tr' i j H2 Hi Hj).
  - apply (phase_gpu _ _ _ _ gtr i j H3 HM HN Hi Hj).
Qed.
(** the closed form used by the models of the callers *)
Theorem phase_cwt_closed gamma Wx dWx own tr :
  schedule_of (pw_progs (cells2 (nrows Wx) (ncols Wx)) own (cwt_op gamma Wx dWx)) tr ->
  meq (run_phase Wx tr) (phase_cwt gamma Wx dWx).
Proof.
  intros H. split; [reflexivity|]. split; [reflexivity|]. cbn [nrows ncols run_phase]. intros i j Hi Hj.
  rewrite (phase_chunks _ _ _ _ own tr i j H Hi Hj). reflexivity.
Qed.
Theorem phase_stft_closed Sfs gamma Wx dWx own tr :
  schedule_of (pw_progs (cells2 (nrows Wx) (ncols Wx)) own (stft_op Sfs gamma Wx dWx)) tr ->
  meq (run_phase Wx tr) (phase_stft Sfs gamma Wx dWx).
Proof.
  intros H. split; [reflexivity|]. split; [reflexivity|]. cbn [nrows ncols run_phase]. intros i j Hi Hj.
  rewrite (phase_chunks _ _ _ _ own tr i j H Hi Hj). reflexivity.
Qed.

Lemma phase_example :
  let W := Mat 1 2 (fun _ j => if (j =? 0)%nat then (0, 2) else (0, 0)) in
  let dW := Mat 1 2 (fun _ _ => (-3, 1)) in
  el (run_phase W (pw_serial (cells2 1 2) (cwt_op 1 W dW))) 0 0 = Fin (3 / 2 / (2 * PI)) /\
  el (run_phase W (pw_serial (cells2 1 2) (cwt_op 1 W dW))) 0 1 = Inf.
Proof.
  intros W dW.
  assert (A2 : Cabs (0, 2) = 2). { unfold Cabs, Cnorm2. cbn [fst snd]. replace (0 * 0 + 2 * 2) with (2 * 2) by ring. apply sqrt_square; lra. }
  pose proof (fun j => phase_chunks (fun _ => phase_cwt_pt) 1 W dW (fun _ => O) _ 0 j (pw_serial_schedule _ _ _ _)) as P.
  split.
  1: transitivity (if Rlt_dec (Cabs (el W 0 0)) 1 then Inf else Fin (phase_cwt_pt (el W 0 0) (el dW 0 0))); [apply P; cbn; lia|].
  2: transitivity (if Rlt_dec (Cabs (el W 0 1)) 1 then Inf else Fin (phase_cwt_pt (el W 0 1) (el dW 0 1))); [apply P; cbn; lia|].
  all: cbn [fst snd el W dW Nat.eqb].
  - destruct (Rlt_dec _ _) as [H|H]; [rewrite A2 in H; lra|]. f_equal. unfold phase_cwt_pt, phase_ratio, Re, Im. cbn [fst snd].
    pose proof PI_RGT_0. rewrite Rabs_right; [field; lra|].
    replace ((1 * 0 - -3 * 2) / ((0 * 0 + 2 * 2) * (2 * PI))) with (3 / (4 * PI)) by (field; lra).
    apply Rle_ge, Rlt_le, Rdiv_lt_0_compat; lra.
  - destruct (Rlt_dec _ _) as [H|H]; [reflexivity|]. change (0, 0) with C0 in H. rewrite Cabs_0 in H. lra.
Qed.
Lemma under_example :
  let x := Mat 1 3 (fun _ j => match j with 0 => Num 5 | 1 => NaN | _ => Num (1 / 2) end)%nat in
  exists y, replace_under_abs x RSelf (Num 1) PInf (pw_serial (cells2 1 3) (under_op RSelf (Num 1) PInf)) = Ok y /\
    el y 0 0 = Num 5 /\ el y 0 1 = NaN /\ el y 0 2 = PInf.
Proof.
  intros x. eexists. split; [reflexivity|].
  pose proof (under_spec x RSelf (Num 1) PInf (fun _ => O) _ _ (pw_serial_schedule _ _ _ _) eq_refl) as (_ & _ & H).
  rewrite !H by (cbn; lia). cbn [ref_abs el x num_abs num_lt]. unfold Rltb.
  split; [|split].
  - destruct (Rlt_dec _ _) as [K|K]; [|reflexivity]. rewrite Rabs_right in K; lra.
  - reflexivity.
  - destruct (Rlt_dec _ _) as [K|K]; [reflexivity|]. rewrite Rabs_right in K; lra.
Qed.
Lemma replace_example :
  let x := A3 3 1 1 (fun c => match fst (fst c) with 0 => Num 5 | 1 => NaN | _ => NInf end)%nat in
  exists y, replace_at AtInfOrNan x None (Num 0) = Ok y /\ at3 y (0, 0, 0)%nat = Num 5 /\ at3 y (1, 0, 0)%nat = Num 0 /\
    at3 y (2, 0, 0)%nat = Num 0.
Proof. intros x. eexists. split; [reflexivity|]. repeat split. Qed.
Lemma zd_example : zero_denormals true 1 [Num (1 / 2); Num 2; NInf] (pw_serial (seq 0 3) (zd_op 1)) = [Num 0; Num 2; NInf].
Proof.
  cbn -[denormal]. change (denormal 1 (Num (1 / 2))) with (Rltb (1 / 2) 1 && Rltb (- (1)) (1 / 2)).
  change (denormal 1 (Num 2)) with (Rltb 2 1 && Rltb (- (1)) 2).
  unfold Rltb. repeat destruct (Rlt_dec _ _); cbn; try lra; reflexivity.
Qed.
Lemma zd_copy tiny x tr : zero_denormals false tiny x tr = x.
Proof. reflexivity. Qed.
Lemma num_eq_true a b : num_eq a b = true <-> a = b /\ a <> NaN.
Proof.
  destruct a, b; cbn; try (split; [discriminate|intros [E N]; congruence]); try (split; [intros _; split; congruence|reflexivity]).
  unfold Reqb. destruct (Req_EM_T r r0) as [->|N]; split; auto; try discriminate.
  - intros _; split; congruence.
  - intros [E _]; congruence.
Qed.
Lemma replace_at_cells k x ref repl y : replace_at k x ref repl = Ok y ->
  d0 y = d0 x /\ d1 y = d1 x /\ d2 y = d2 x /\ forall a b c, (a < d0 x /\ b < d1 x /\ c < d2 x)%nat ->
  let r := at3 (match ref with Some r => r | None => x end) (a, b, c) in
  let hit := match k with
             | AtInfOrNan => r = PInf \/ r = NInf \/ r = NaN
             | AtInf => r = PInf \/ r = NInf
             | AtNan => r = NaN
             | AtValue v => r = v /\ r <> NaN
             end in
  (hit /\ at3 y (a, b, c) = repl) \/ (~ hit /\ at3 y (a, b, c) = at3 x (a, b, c)).
Proof.
  intros E. destruct (replace_at_spec _ _ _ _ _ E) as (A1 & A2 & A3 & A). split; [exact A1|]. split; [exact A2|]. split; [exact A3|].
  intros a b c H r hit. rewrite (A (a, b, c) H). fold r.
  assert (K : matches k r = true <-> hit).
  { subst hit. destruct k; cbn [matches]; [| | |apply num_eq_true];
      destruct r; cbn; intuition (try discriminate; try congruence). }
  destruct (matches k r); [left|right]; split; auto.
  - apply K; reflexivity.
  - intros Hh. apply K in Hh. discriminate.
Qed.
Lemma zd_cells tiny x own tr :
  schedule_of (pw_progs (seq 0 (length x)) own (zd_op tiny)) tr ->
  let y := zero_denormals true tiny x tr in
  length y = length x /\ forall i, (i < length x)%nat ->
  nth i y NaN = match nth i x NaN with
                | Num r => if Rlt_dec (Rabs r) tiny then Num 0 else Num r
                | v => v
                end.
Proof.
  intros Hs y. destruct (zd_spec tiny x own tr Hs) as (L & H). split; [exact L|]. intros i Hi. fold y in H. rewrite (H i Hi).
  destruct (nth i x NaN) as [r| | |]; cbn; auto.
  change (denormal tiny (Num r)) with (Rltb r tiny && Rltb (- tiny) r). unfold Rltb.
  destruct (Rlt_dec (Rabs r) tiny) as [K|K].
  - apply Rabs_def2 in K. destruct (Rlt_dec r tiny), (Rlt_dec (- tiny) r); try lra; reflexivity.
  - destruct (Rlt_dec r tiny), (Rlt_dec (- tiny) r); try reflexivity. exfalso. apply K, Rabs_def1; lra.
Qed.
Lemma zd_view : exists x tr, schedule_of (pw_progs (seq 0 (length x)) (fun _ => O) (zd_op 1)) tr /\
  nth 0 (zero_denormals true 1 x tr) NaN = Num 0 /\ nth 0 (zero_denormals false 1 x tr) NaN = Num (1 / 2).
Proof.
  exists [Num (1 / 2); Num 2; NInf], (pw_serial (seq 0 3) (zd_op 1)). split; [apply pw_serial_schedule|].
  rewrite zd_example. split; reflexivity.
Qed.
