(** [phase_cwt_num] (C29): the finite differences. *)
From Coq Require Import Reals Lra ZifyBool ZifyNat.
From Verif Require Import Py Round Cplx CplxProofs Padding Buffer Freqs Squeeze Scales Ssqueeze Cwt SsqCwt
  Pointwise PointwiseProofs.
Local Open Scope R_scope.

Lemma nth_pyslice {A} (l : list A) a b i d :
  let n := Z.of_nat (length l) in
  (Z.of_nat i < norm_bound n b - norm_bound n a)%Z -> (0 <= norm_bound n a)%Z ->
  nth i (pyslice l a b) d = nth (Z.to_nat (norm_bound n a) + i) l d.
Proof.
  intros n Hi Ha. unfold pyslice. fold n. rewrite nth_firstn_lt by lia. apply nth_skipn_add.
Qed.
Lemma length_pyslice {A} (l : list A) a b : (length (pyslice l a b) <= length l)%nat.
Proof. unfold pyslice. rewrite firstn_length, skipn_length. lia. Qed.
Lemma length_pyslice_eq {A} (l : list A) a b : let n := Z.of_nat (length l) in
  (0 <= norm_bound n a)%Z -> (norm_bound n b <= n)%Z ->
  length (pyslice l a b) = Z.to_nat (norm_bound n b - norm_bound n a).
Proof. intros n Ha Hb. unfold pyslice. fold n. rewrite firstn_length, skipn_length. lia. Qed.

Lemma czip_nth f a b i : (i < length a)%nat -> (i < length b)%nat ->
  nth i (czip f a b) C0 = f (nth i a C0) (nth i b C0).
Proof.
  intros Ha Hb. unfold czip. revert b i Ha Hb. induction a as [|u a IH]; intros [|v b] [|i] Ha Hb; cbn in *; try lia; auto.
  apply IH; lia.
Qed.
Lemma czip_length f a b : length (czip f a b) = Nat.min (length a) (length b).
Proof. unfold czip. rewrite map_length. apply combine_length. Qed.
Lemma cscale_nth c l i : nth i (cscale c l) C0 = Cmul (RtoC c) (nth i l C0).
Proof.
  unfold cscale. rewrite <- (map_nth (Cmul (RtoC c)) l C0 i). f_equal. apply C_eq; simpl; ring.
Qed.
Lemma cscale_length c l : length (cscale c l) = length l.
Proof. apply map_length. Qed.
Lemma cneg_nth l i : nth i (cneg l) C0 = Copp (nth i l C0).
Proof. unfold cneg. rewrite <- (map_nth Copp l C0 i). f_equal. apply C_eq; simpl; ring. Qed.
Lemma cneg_length l : length (cneg l) = length l.
Proof. apply map_length. Qed.
Lemma cdiv_nth l r i : nth i (cdiv l r) C0 = Cmul (RtoC (/ r)) (nth i l C0).
Proof. apply cscale_nth. Qed.

Ltac nb := unfold norm_bound; repeat match goal with |- context [(?a <? ?b)%Z] => destruct (Z.ltb_spec a b) end; lia.

Section Rows.
Variables (r : list C) (dt : R).
Let n := length r.
Notation "r_[ k ]" := (nth k r C0).

Lemma diff1 j : (S j < n)%nat ->
  nth j (differentiate 1 dt r) C0 = Cmul (RtoC (/ dt)) (Csub r_[S j] r_[j]).
Proof.
  intros Hj. unfold differentiate. cbn [Z.eqb Pos.eqb]. rewrite cdiv_nth. f_equal.
  assert (L1 : length (pyslice_from r 1) = (n - 1)%nat).
  { unfold pyslice_from. rewrite length_pyslice_eq by nb. fold n; nb. }
  assert (L2 : length (pyslice_to r (-1)) = (n - 1)%nat).
  { unfold pyslice_to. rewrite length_pyslice_eq by nb. fold n; nb. }
  rewrite app_nth1 by (rewrite czip_length; lia). rewrite czip_nth by lia.
  unfold pyslice_from, pyslice_to. f_equal.
  - rewrite nth_pyslice by nb. f_equal. fold n; nb.
  - rewrite nth_pyslice by nb. f_equal. fold n; nb.
Qed.

Hypothesis Hn : (2 <= n)%nat.
Let wxr := pyslice_from r (-2) ++ r ++ pyslice_to r 2.
Lemma wxr_length : length wxr = (n + 4)%nat.
Proof.
  unfold wxr, pyslice_from, pyslice_to. rewrite !app_length. rewrite !length_pyslice_eq by nb. fold n; nb.
Qed.
Lemma wxr_mid k : (k < n)%nat -> nth (2 + k) wxr C0 = r_[k].
Proof.
  intros Hk. unfold wxr.
  assert (L : length (pyslice_from r (-2)) = 2%nat).
  { unfold pyslice_from. rewrite length_pyslice_eq by nb. fold n; nb. }
  rewrite app_nth2 by lia. rewrite L. rewrite app_nth1 by (fold n; lia). f_equal. lia.
Qed.
Lemma wxr_slice a b i k : (0 <= a)%Z -> (b < 0)%Z -> (Z.of_nat i < Z.of_nat n + 4 + b - a)%Z ->
  (Z.to_nat a + i = 2 + k)%nat -> (k < n)%nat -> nth i (pyslice wxr a b) C0 = r_[k].
Proof.
  intros Ha Hb Hi E Hk. pose proof wxr_length as L.
  rewrite nth_pyslice by (rewrite L; nb).
  assert (E' : norm_bound (Z.of_nat (length wxr)) a = a) by (rewrite L; nb).
  rewrite E', E. apply wxr_mid, Hk.
Qed.
Lemma wxr_from i k : (i + 4 < n + 4)%nat -> (4 + i = 2 + k)%nat -> (k < n)%nat ->
  nth i (pyslice_from wxr 4) C0 = r_[k].
Proof.
  intros Hi E Hk. pose proof wxr_length as L. unfold pyslice_from.
  rewrite nth_pyslice by (rewrite L; nb).
  assert (E' : norm_bound (Z.of_nat (length wxr)) 4 = 4%Z) by (rewrite L; nb).
  rewrite E'. change (Z.to_nat 4) with 4%nat. rewrite E. apply wxr_mid, Hk.
Qed.
Lemma len_slice a b : (0 <= a <= 4)%Z -> (- 4 <= b < 0)%Z -> (a - b = 4)%Z -> length (pyslice wxr a b) = n.
Proof.
  intros Ha Hb E. pose proof wxr_length as L. rewrite length_pyslice_eq by (rewrite L; nb).
  rewrite L. unfold norm_bound. destruct (Z.ltb_spec a 0), (Z.ltb_spec b 0); lia.
Qed.
Lemma len_from : length (pyslice_from wxr 4) = n.
Proof.
  pose proof wxr_length as L. unfold pyslice_from. rewrite length_pyslice_eq by (rewrite L; nb).
  rewrite L. nb.
Qed.
Lemma diff2 j : (j + 2 < n)%nat ->
  nth j (differentiate 2 dt r) C0 =
  Cmul (RtoC (/ (2 * dt))) (Csub (Cadd (Copp r_[j + 2]) (Cmul (RtoC 4) r_[S j])) (Cmul (RtoC 3) r_[j])).
Proof.
  intros Hj. unfold differentiate. cbn [Z.eqb Pos.eqb]. fold wxr. rewrite cdiv_nth. f_equal.
  pose proof len_from as L0. pose proof (len_slice 3 (-1) ltac:(lia) ltac:(lia) eq_refl) as L1.
  pose proof (len_slice 2 (-2) ltac:(lia) ltac:(lia) eq_refl) as L2.
  rewrite !czip_nth by (rewrite ?czip_length, ?cneg_length, ?cscale_length; lia).
  rewrite cneg_nth, !cscale_nth. rewrite (wxr_from j (j + 2)) by lia.
  rewrite (wxr_slice 3 (-1) j (S j)) by lia. rewrite (wxr_slice 2 (-2) j j) by lia. reflexivity.
Qed.
Lemma diff4 j : (2 <= j)%nat -> (j + 2 < n)%nat ->
  nth j (differentiate 4 dt r) C0 =
  Cmul (RtoC (/ (12 * dt)))
    (Cadd (Csub (Cadd (Copp r_[j + 2]) (Cmul (RtoC 8) r_[S j])) (Cmul (RtoC 8) r_[j - 1])) r_[j - 2]).
Proof.
  intros Hj0 Hj. unfold differentiate. cbn [Z.eqb Pos.eqb]. fold wxr. rewrite cdiv_nth. f_equal.
  pose proof len_from as L0. pose proof (len_slice 3 (-1) ltac:(lia) ltac:(lia) eq_refl) as L1.
  pose proof (len_slice 1 (-3) ltac:(lia) ltac:(lia) eq_refl) as L2.
  pose proof (len_slice 0 (-4) ltac:(lia) ltac:(lia) eq_refl) as L3.
  rewrite !czip_nth by (rewrite ?czip_length, ?cneg_length, ?cscale_length; lia).
  rewrite cneg_nth, !cscale_nth. rewrite (wxr_from j (j + 2)) by lia.
  rewrite (wxr_slice 3 (-1) j (S j)) by lia. rewrite (wxr_slice 1 (-3) j (j - 1)) by lia.
  rewrite (wxr_slice 0 (-4) j (j - 2)) by lia. reflexivity.
Qed.
End Rows.

(** ** Polynomials of a real variable with complex coefficients, lowest degree first *)
Fixpoint peval (p : list C) (t : R) : C :=
  match p with [] => C0 | c :: q => Cadd c (Cmul (RtoC t) (peval q t)) end.
(** [c1 + 2 c2 t + 3 c3 t^2 + ...] *)
Fixpoint pderiv_from (k : nat) (p : list C) : list C :=
  match p with [] => [] | c :: q => Cmul (RtoC (INR k)) c :: pderiv_from (S k) q end.
Definition pderiv (p : list C) : list C := match p with [] => [] | _ :: q => pderiv_from 1 q end.
Lemma peval_derivative p t : derivable_pt_lim (fun u => Re (peval p u)) t (Re (peval (pderiv p) t)) /\
  derivable_pt_lim (fun u => Im (peval p u)) t (Im (peval (pderiv p) t)).
Proof.
  assert (G : forall q k, exists A B, 
     derivable_pt_lim (fun u => Re (peval q u)) t A /\ derivable_pt_lim (fun u => Im (peval q u)) t B /\
     Re (peval (pderiv_from k q) t) = INR k * Re (peval q t) + t * A /\
     Im (peval (pderiv_from k q) t) = INR k * Im (peval q t) + t * B).
  { induction q as [|c q IH]; intros k.
    - exists 0, 0. repeat split; cbn; try ring; apply derivable_pt_lim_const.
    - destruct (IH (S k)) as (A & B & HA & HB & EA & EB).
      exists (Re (peval q t) + t * A), (Im (peval q t) + t * B).
      assert (X : forall (f : R -> R) (a D : R), derivable_pt_lim f t D ->
        derivable_pt_lim (fun u => a + u * f u) t (f t + t * D)).
      { intros f a D HD. replace (f t + t * D) with (0 + (1 * f t + t * D)) by ring.
        apply (derivable_pt_lim_plus (fun _ => a) (fun u => u * f u)); [apply derivable_pt_lim_const|].
        apply (derivable_pt_lim_mult id f); [apply derivable_pt_lim_id|exact HD]. }
      assert (Y : forall (f g : R -> R) (D : R), (forall u, f u = g u) -> derivable_pt_lim f t D -> derivable_pt_lim g t D).
      { intros f g D Hfg HD eps He. destruct (HD eps He) as (d & Hd). exists d. intros h H1 H2. rewrite <- !Hfg. apply Hd; auto. }
      split; [|split; [|split]].
      + eapply Y; [|apply (X (fun u => Re (peval q u)) (Re c) A HA)]. intros u. cbn. unfold Re. cbn. ring.
      + eapply Y; [|apply (X (fun u => Im (peval q u)) (Im c) B HB)]. intros u. cbn. unfold Im. cbn. ring.
      + cbn [pderiv_from peval]. rewrite S_INR in EA. unfold Re, Im in *. cbn [fst snd Cadd Cmul RtoC] in *. rewrite EA. ring.
      + cbn [pderiv_from peval]. rewrite S_INR in EB. unfold Re, Im in *. cbn [fst snd Cadd Cmul RtoC] in *. rewrite EB. ring. }
  destruct p as [|c q]; [cbn; split; apply derivable_pt_lim_const|].
  destruct (G q 1%nat) as (A & B & HA & HB & EA & EB). cbn [pderiv]. rewrite EA, EB. simpl (INR 1). rewrite !Rmult_1_l.
  destruct (G (c :: q) 0%nat) as (A' & B' & HA' & HB' & EA' & EB').
  cbn [pderiv_from peval] in EA', EB'.
  assert (X : forall (f : R -> R) (a D : R), derivable_pt_lim f t D ->
        derivable_pt_lim (fun u => a + u * f u) t (f t + t * D)).
  { intros f a D HD. replace (f t + t * D) with (0 + (1 * f t + t * D)) by ring.
    apply (derivable_pt_lim_plus (fun _ => a) (fun u => u * f u)); [apply derivable_pt_lim_const|].
    apply (derivable_pt_lim_mult id f); [apply derivable_pt_lim_id|exact HD]. }
  assert (Y : forall (f g : R -> R) (D : R), (forall u, f u = g u) -> derivable_pt_lim f t D -> derivable_pt_lim g t D).
  { intros f g D Hfg HD eps He. destruct (HD eps He) as (d & Hd). exists d. intros h H1 H2. rewrite <- !Hfg. apply Hd; auto. }
  split.
  - eapply Y; [|apply (X (fun u => Re (peval q u)) (Re c) A HA)]. intros u. cbn. unfold Re. cbn. ring.
  - eapply Y; [|apply (X (fun u => Im (peval q u)) (Im c) B HB)]. intros u. cbn. unfold Im. cbn. ring.
Qed.

(** samples [j] at which a difference of this order does not wrap around *)
Definition interior (d : Z) (n j : nat) : Prop :=
  if (d =? 1)%Z then (j + 1 < n)%nat else if (d =? 2)%Z then (j + 2 < n)%nat else (2 <= j /\ j + 2 < n)%nat.

Lemma short_list (p : list C) m : (length p <= m)%nat -> exists q, length q = m /\ forall t, peval q t = peval p t /\ peval (pderiv q) t = peval (pderiv p) t.
Proof.
  intros H. exists (p ++ repeat C0 (m - length p)). split; [rewrite app_length, repeat_length; lia|].
  intros t. generalize (m - length p)%nat as k. clear H. intros k.
  assert (Z : forall k, peval (repeat C0 k) t = C0).
  { clear. induction k as [|k IH]; [reflexivity|]. cbn [repeat peval]. rewrite IH. apply C_eq; simpl; ring. }
  assert (Zd : forall k m, peval (pderiv_from m (repeat C0 k)) t = C0).
  { clear. induction k as [|k IH]; intros m; [reflexivity|]. cbn [repeat pderiv_from peval]. rewrite IH. apply C_eq; simpl; ring. }
  assert (E1 : forall q, peval (q ++ repeat C0 k) t = peval q t).
  { induction q as [|c p0 IH]; [apply Z|]. cbn [app peval]. rewrite IH. reflexivity. }
  assert (E2 : forall q m, peval (pderiv_from m (q ++ repeat C0 k)) t = peval (pderiv_from m q) t).
  { clear m. induction q as [|c p0 IH]; intros m; [apply Zd|]. cbn [app pderiv_from peval]. rewrite IH. reflexivity. }
  split; [apply E1|]. destruct p as [|c p0]; [|apply E2]. cbn [app pderiv]. destruct k; [reflexivity|]. apply Zd.
Qed.

Theorem differentiate_poly d dt t0 n p j : (d = 1 \/ d = 2 \/ d = 4)%Z -> dt <> 0 ->
  (Z.of_nat (length p) <= d + 1)%Z -> interior d n j ->
  nth j (differentiate d dt (tab n (fun k => peval p (t0 + INR k * dt)))) C0 = peval (pderiv p) (t0 + INR j * dt).
Proof.
  intros Hd Hdt Hp Hj. set (r := tab n _).
  assert (Lr : length r = n) by apply tab_length.
  assert (Er : forall k, (k < n)%nat -> nth k r C0 = peval p (t0 + INR k * dt)) by (intros k Hk; apply nth_tab, Hk).
  assert (C3 : forall a b : R, a = b -> a = b) by auto.
  destruct Hd as [->|[->| ->]]; unfold interior in Hj; cbn [Z.eqb Pos.eqb] in Hj.
  - rewrite diff1 by lia. rewrite !Er by lia.
    destruct (short_list p 2 ltac:(lia)) as (q & Lq & Eq). rewrite <- !(proj1 (Eq _)), <- (proj2 (Eq _)).
    destruct q as [|a [|b [|]]]; try discriminate. rewrite S_INR.
    apply C_eq; cbn; field; exact Hdt.
  - rewrite diff2 by lia. rewrite !Er by lia.
    destruct (short_list p 3 ltac:(lia)) as (q & Lq & Eq). rewrite <- !(proj1 (Eq _)), <- (proj2 (Eq _)).
    destruct q as [|a [|b [|c [|]]]]; try discriminate. rewrite S_INR, plus_INR.
    apply C_eq; cbn; field; exact Hdt.
  - rewrite diff4 by lia. rewrite !Er by lia.
    destruct (short_list p 5 ltac:(lia)) as (q & Lq & Eq). rewrite <- !(proj1 (Eq _)), <- (proj2 (Eq _)).
    destruct q as [|a [|b [|c [|e [|g [|]]]]]]; try discriminate. rewrite S_INR, plus_INR, !minus_INR by lia.
    apply C_eq; cbn; field; exact Hdt.
Qed.

(** [np.real(-1j * w / Wx)] is [Im (w / Wx)] *)
Lemma re_mi a b : Re (Cmul (Cmul (0, -1) a) (Cinv b)) = Im (Cmul a (Cinv b)).
Proof. destruct a, b. unfold Re, Im, Cmul, Cinv. cbn [fst snd]. ring. Qed.

Theorem phase_num_poly (f64 : bool) W dt d (gamma : option R) w t0 p i j (g : R) : (d = 1 \/ d = 2 \/ d = 4)%Z -> dt <> 0 ->
  (Z.of_nat (length p) <= d + 1)%Z ->
  (forall k, (k < ncols W)%nat -> el W i k = peval p (t0 + INR k * dt)) ->
  interior d (ncols W) j -> (i < nrows W)%nat -> or_real gamma (10 * (if f64 then EPS64 else EPS32)) = g -> 0 < g ->
  phase_cwt_num f64 W dt d gamma = Ok w ->
  phase_is (fun z => Rabs (Im z) / (2 * PI)) g (el W i j) (peval (pderiv p) (t0 + INR j * dt)) (el w i j).
Proof.
  intros Hd Hdt Hp HW Hj Hi Eg Hg E.
  assert (Hjn : (j < ncols W)%nat).
  { destruct Hd as [->|[->| ->]]; unfold interior in Hj; cbn [Z.eqb Pos.eqb] in Hj; lia. }
  unfold phase_cwt_num in E. destruct (negb _); [discriminate|].
  destruct (_ && _); [discriminate|]. cbv zeta in E.
  match type of E with Ok ?m = Ok _ => assert (E' : w = m) by congruence end. rewrite E'. cbn [el].
  rewrite Eg. destruct (Rlt_dec (Cabs (el W i j)) g) as [H|H]; cbn [phase_is]; [exact H|].
  pose proof (Cabs_lt_zero _ _ Hg H) as HW0.
  split; [lra|]. split; [apply Rabs_pos|].
  assert (Er : mrow W i = tab (ncols W) (fun k => peval p (t0 + INR k * dt))).
  { unfold mrow. apply tab_ext. intros k Hk. apply HW, Hk. }
  rewrite Er, (differentiate_poly d dt t0 (ncols W) p j Hd Hdt Hp Hj). set (D := peval (pderiv p) _).
  exists (Cmul D (Cinv (el W i j))). split.
  - transitivity (Cmul D (Cmul (el W i j) (Cinv (el W i j)))); [ring|]. rewrite Cinv_r by auto. ring.
  - rewrite re_mi. unfold Rdiv. rewrite Rabs_mult. f_equal. apply Rabs_right. apply Rle_ge, Rlt_le, Rinv_0_lt_compat.
    pose proof PI_RGT_0. lra.
Qed.
