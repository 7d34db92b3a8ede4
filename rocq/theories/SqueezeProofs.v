From Coq Require Import ZifyBool ZifyNat.
From Coq Require Import Permutation.
From Verif Require Import Py Round Parallel Cplx CplxProofs Squeeze.
Local Open Scope R_scope.
Ltac Zify.zify_post_hook ::= Z.div_mod_to_equations.

(** ** Loops *)
Definition hits (row : nat -> nat -> option Z) (k : Z) (i j : nat) : bool :=
  match row i j with Some k' => (k' =? k)%Z | None => false end.

Section Loops.
Variable V : Type.
Variable add : V -> V -> V.
Variable zero : V.
Variable row : nat -> nat -> option Z.
Variable val : nat -> nat -> V.

(** what one output cell receives: the matching rows, added in increasing order *)
Definition acc_cell (m : nat) (k : Z) (j : nat) (o : V) : V :=
  fold_left (fun a i => if hits row k i j then add a (val i j) else a) (seq 0 m) o.

Lemma exec_col j k l : forall s r,
  fst (exec cellZ_dec (tag j (concat (map (fun i => sq_body add row val i j) l))) (s, r)) (k, j)
  = fold_left (fun a i => if hits row k i j then add a (val i j) else a) l (s (k, j)).
Proof.
  induction l as [|i l IH]; intros s r; [reflexivity|].
  cbn [map concat fold_left]. unfold tag in *. rewrite map_app. rewrite exec_app.
  unfold hits at 2. remember (sq_body add row val i j) as b eqn:Eb.
  unfold sq_body in Eb. destruct (row i j) as [k'|] eqn:E; subst b.
  - match goal with |- context [exec cellZ_dec (map (pair j) [?a; ?b]) (s, r)] =>
      change (exec cellZ_dec (map (pair j) [a; b]) (s, r)) with
        (step cellZ_dec (step cellZ_dec (s, r) (j, a)) (j, b)) end.
    cbn [step]. rewrite IH. f_equal. unfold upd.
    destruct (Nat.eq_dec j j) as [_|]; [|congruence].
    destruct (cellZ_dec (k', j) (k, j)) as [Eq|Ne].
    + injection Eq as ->. rewrite Z.eqb_refl. reflexivity.
    + destruct (Z.eqb_spec k' k); [congruence|reflexivity].
  - cbn. apply IH.
Qed.

Lemma sq_owned m n : owned (fun c : Z * nat => snd c) (sq_par_progs add m n row val).
Proof.
  intros t o H. unfold sq_par_progs, nest_progs in H. destruct (t <? n)%nat; [|destruct H].
  apply in_concat in H. destruct H as (l & Hl & Ho). apply in_map_iff in Hl.
  destruct Hl as (i & <- & _). unfold sq_body in Ho.
  destruct (row i t); [|destruct Ho]. destruct Ho as [<- |[<- |[]]]; reflexivity.
Qed.

Lemma sq_cell m n tr out0 k j :
  schedule_of (sq_par_progs add m n row val) tr ->
  sq_exec zero out0 tr (k, j) = if (j <? n)%nat then acc_cell m k j (out0 (k, j)) else out0 (k, j).
Proof.
  intros Hs. unfold sq_exec.
  assert (Hev : forall e, In e tr -> snd (cell_of (snd e)) = fst e).
  { intros e He. apply (sq_owned m n). rewrite <- (Hs (fst e)).
    apply in_proj; auto. }
  assert (Hv : @same_view (Z * nat) V (fun c : Z * nat => snd c) j (out0, fun _ => zero) (out0, fun _ => zero))
    by (split; auto).
  destruct (@view_exec (Z * nat) V cellZ_dec (fun c : Z * nat => snd c) j tr _ _ Hev Hv) as [_ E].
  rewrite E by reflexivity. rewrite Hs. unfold sq_par_progs, nest_progs.
  destruct (Nat.ltb_spec j n); [|reflexivity].
  apply exec_col.
Qed.

Lemma sq_serial_schedule m n : schedule_of (sq_par_progs add m n row val) (sq_serial add m n row val).
Proof. apply nest_is_schedule. Qed.

(** every schedule leaves the same store as the serial loops *)
Lemma sq_par_serial m n tr out0 c :
  schedule_of (sq_par_progs add m n row val) tr ->
  sq_exec zero out0 tr c = sq_exec zero out0 (sq_serial add m n row val) c.
Proof.
  intros Hs. destruct c as [k j].
  rewrite (sq_cell m n tr) by exact Hs.
  rewrite (sq_cell m n (sq_serial add m n row val)) by apply sq_serial_schedule. reflexivity.
Qed.
End Loops.

(** a valid execution order of the parallel loop *)
Definition valid_order (ord : order) : Prop :=
  forall m n body, schedule_of (nest_progs m n body) (ord m n body).

Lemma serial_order_valid : valid_order serial_order.
Proof. intros m n body. apply nest_is_schedule. Qed.

Lemma squeeze_rows_el ord out row Wx cst i j : valid_order ord ->
  (i < nrows out)%nat -> (j < ncols Wx)%nat ->
  el (squeeze_rows ord out row Wx cst) i j =
  acc_cell C Cadd row (fun i j => Cmul (el Wx i j) (RtoC (nth i cst 0)))
    (nrows Wx) (Z.of_nat i) j (el out i j).
Proof.
  intros Ho Hi Hj. unfold squeeze_rows. cbn [el store_mat].
  rewrite (sq_cell C Cadd C0 row _ (nrows Wx) (ncols Wx)) by apply Ho.
  destruct (Nat.ltb_spec j (ncols Wx)); [|lia].
  unfold mat_store. cbn [fst snd]. destruct (Z.leb_spec 0 (Z.of_nat i)); [|lia].
  rewrite Nat2Z.id. reflexivity.
Qed.

Lemma squeeze_rows_out ord out row Wx cst i j : valid_order ord ->
  (ncols Wx <= j)%nat -> el (squeeze_rows ord out row Wx cst) i j = el out i j.
Proof.
  intros Ho Hj. unfold squeeze_rows. cbn [el store_mat].
  rewrite (sq_cell C Cadd C0 row _ (nrows Wx) (ncols Wx)) by apply Ho.
  destruct (Nat.ltb_spec j (ncols Wx)); [lia|].
  unfold mat_store. cbn [fst snd]. destruct (Z.leb_spec 0 (Z.of_nat i)); [|lia].
  rewrite Nat2Z.id. reflexivity.
Qed.

(** exact values: a cell is its initial value plus the sum of what hits it *)
Lemma acc_cell_sum row val m k j o :
  acc_cell C Cadd row val m k j o =
  Cadd o (Csum m (fun i => if hits row k i j then val i j else C0)).
Proof.
  unfold acc_cell. induction m as [|m IH]; [cbn; ring|].
  rewrite seq_S. rewrite fold_left_app. rewrite IH. cbn [fold_left Csum Nat.add].
  destruct (hits row k m j); ring.
Qed.

(** ** Column sums *)
Lemma Csum_hit n (row : nat -> nat -> option Z) i j (v : C) :
  (forall k, row i j = Some k -> (0 <= k < Z.of_nat n)%Z) ->
  Csum n (fun k => if hits row (Z.of_nat k) i j then v else C0) =
  match row i j with Some _ => v | None => C0 end.
Proof.
  intros H. unfold hits. destruct (row i j) as [k|] eqn:E.
  - specialize (H k eq_refl). rewrite (Csum_single n _ (Z.to_nat k)).
    + cbv beta. rewrite Z2Nat.id by lia. rewrite Z.eqb_refl. reflexivity.
    + lia.
    + intros q Hq Hne. destruct (Z.eqb_spec k (Z.of_nat q)); [lia|reflexivity].
  - apply Csum_0. auto.
Qed.

Lemma column_sum ord out row Wx cst j : valid_order ord ->
  (j < ncols Wx)%nat ->
  (forall i k, (i < nrows Wx)%nat -> row i j = Some k -> (0 <= k < Z.of_nat (nrows out))%Z) ->
  Csum (nrows out) (fun k => el (squeeze_rows ord out row Wx cst) k j) =
  Cadd (Csum (nrows out) (fun k => el out k j))
       (Csum (nrows Wx) (fun i => match row i j with
          | Some _ => Cmul (el Wx i j) (RtoC (nth i cst 0)) | None => C0 end)).
Proof.
  intros Ho Hj Hin.
  rewrite (Csum_ext _ _ (fun k => Cadd (el out k j)
     (Csum (nrows Wx) (fun i => if hits row (Z.of_nat k) i j
        then Cmul (el Wx i j) (RtoC (nth i cst 0)) else C0)))).
  2:{ intros k Hk. rewrite squeeze_rows_el by auto. apply acc_cell_sum. }
  rewrite Csum_plus. f_equal. rewrite Csum_swap. apply Csum_ext. intros i Hi.
  apply Csum_hit. intros k. apply Hin. exact Hi.
Qed.
