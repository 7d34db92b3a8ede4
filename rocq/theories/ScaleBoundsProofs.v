(** Proofs about the searches as the scale bounds use them. *)
From Coq Require Import Reals Lra ZifyBool ZifyNat.
From Verif Require Import Py Round Cplx CplxProofs Padding Freqs ShiftProofs Squeeze BinProofs SqueezeThms3 Scales Resol
  Search SearchProofs ScaleBounds.
Local Open Scope R_scope.

Definition fargs (s lim : R) : sargs := SA (1 / 1000) 10000 s lim.
Lemma fargs_steps s lim : n_steps (fargs s lim) = 10000%Z.
Proof. exact default_steps. Qed.
Lemma fargs_increment s lim : increment (fargs s lim) = 10%Z.
Proof. exact default_increment. Qed.
Lemma fargs_sample s lim i : sample (fargs s lim) i = s + INR i / 1000.
Proof. unfold sample. rewrite fargs_steps, fargs_increment. cbn [sa_start fargs]. field. Qed.

Definition NS : nat := Z.to_nat 10000.
Lemma NS_val : Z.of_nat NS = 10000%Z.
Proof. reflexivity. Qed.
Ltac nlia := pose proof NS_val; lia.

(** the [i]-th input of the first search *)
Definition pt (s lim : R) (i : nat) : R := Rmin (s + INR i / 1000) lim.
Lemma Rmin_l x y : x <= y -> Rmin x y = x.
Proof. intros. unfold Rmin. destruct (Rle_dec x y); lra. Qed.
Lemma Rmin_r' x y : y <= x -> Rmin x y = y.
Proof. intros. unfold Rmin. destruct (Rle_dec x y); lra. Qed.
Lemma used_pt s lim i : (i < NS)%nat -> used (fargs s lim) 0 i = pt s lim i.
Proof.
  intros Hi. unfold used, pt. unfold clipped. rewrite fargs_sample, fargs_steps. cbn [Nat.mul Nat.add sa_limit fargs].
  unfold Rltb'. destruct (Rlt_dec lim _) as [H|H]; [reflexivity|].
  rewrite (inputs_max (fargs s lim)) in H by (rewrite ?fargs_steps, ?fargs_increment; nlia).
  rewrite fargs_sample, fargs_steps in H. symmetry. apply Rmin_l.
  assert (INR i <= INR (0 * Z.to_nat 10000 + (Z.to_nat 10000 - 1))) by (apply le_INR; nlia). lra.
Qed.
Lemma pt_0 s lim : s <= lim -> pt s lim 0 = s.
Proof. intros. unfold pt. cbn [INR]. rewrite Rmin_l; lra. Qed.
Lemma pt_step s lim i : pt s lim i <= pt s lim (S i) <= pt s lim i + 1 / 1000.
Proof.
  unfold pt. rewrite S_INR. unfold Rmin.
  destruct (Rle_dec (s + INR i / 1000) lim), (Rle_dec (s + (INR i + 1) / 1000) lim); lra.
Qed.
Lemma pt_mono s lim i j : (i <= j)%nat -> pt s lim i <= pt s lim j.
Proof.
  induction 1; [lra|]. pose proof (pt_step s lim m). lra.
Qed.
Lemma pt_range s lim i : s <= lim -> s <= pt s lim i <= lim.
Proof.
  intros H. split; [rewrite <- (pt_0 s lim) at 1 by auto; apply pt_mono; nlia|]. unfold pt. apply Rmin_r.
Qed.
(** a property changing along [0 .. n] changes between two neighbours *)
Lemma bracket (u : nat -> R) w n : u O <= w -> w <= u n -> (0 < n)%nat ->
  exists i, (i < n)%nat /\ u i <= w <= u (S i).
Proof.
  intros H0. induction n as [|n IH]; intros Hn Hp; [nlia|].
  destruct (Rle_dec (u n) w) as [H|H]; [exists n; split; [nlia|lra]|].
  destruct n; [exfalso; lra|]. destruct IH as (i & Hi & H'); [lra|nlia|]. exists i. split; [nlia|auto].
Qed.

(** index [j] of the first minimum of [|f (pt i) - v|] *)
Definition first_min (f : R -> R) (v s lim : R) (j : nat) : Prop :=
  (j < NS)%nat /\
  (forall i, (i < NS)%nat -> Rabs (f (pt s lim j) - v) <= Rabs (f (pt s lim i) - v)) /\
  (forall i, (i < j)%nat -> Rabs (f (pt s lim j) - v) < Rabs (f (pt s lim i) - v)).
(** the first search answers if some value is closer than some jump *)
Lemma first_answers f v s lim i q fuel : (i < NS)%nat -> (S q < NS)%nat ->
  Rabs (f (pt s lim i) - v) <= Rabs (f (pt s lim (S q)) - f (pt s lim q)) ->
  exists j, first_min f v s lim j /\
    find_first_occurrence f v (fargs s lim) (S fuel) = Some (Ok (pt s lim j, f (pt s lim j))).
Proof.
  intros Hi Hq H. set (a := fargs s lim). assert (Hs : (1 < n_steps a)%Z) by (unfold a; rewrite fargs_steps; nlia).
  assert (En : Z.to_nat (n_steps a) = NS) by (unfold a; rewrite fargs_steps; nlia).
  assert (A : exists x y, find_first_occurrence f v a (S fuel) = Some (Ok (x, y))).
  { unfold find_first_occurrence. replace (n_steps a <=? 1)%Z with false by nlia. cbn [fo_loop].
    set (ex := Rltb' _ _). set (ins := if ex then _ else _).
    destruct (existsb _ _) eqn:B; [eauto|]. exfalso.
    assert (Li : length ins = NS).
    { unfold ins. destruct ex; rewrite ?map_length, inputs_length by nlia; exact En. }
    assert (Vi : forall i, (i < NS)%nat -> nth i ins 0 = pt s lim i).
    { intros p Hp. rewrite <- used_pt by auto. fold a. unfold ins, used. fold ex. destruct ex.
      - rewrite map_nth_lt by (rewrite inputs_length by nlia; nlia).
        rewrite inputs_nth by nlia. reflexivity.
      - apply inputs_nth; nlia. }
    set (outs := map f ins) in *. assert (Lo : length outs = NS) by (unfold outs; now rewrite map_length).
    assert (Vo : forall i, (i < NS)%nat -> nth i outs 0 = f (pt s lim i)).
    { intros p Hp. unfold outs. rewrite map_nth_lt by nlia. now rewrite Vi. }
    destruct (mxdiff_spec f v a Hs outs) as [_ M]; [nlia|]. specialize (M q ltac:(nlia)).
    rewrite !Vo in M by nlia.
    set (dist := map _ outs) in B. set (m := lmax (map Rabs (diff outs))) in *.
    assert (T : existsb (fun d => if Rle_dec d m then true else false) dist = true); [|congruence].
    apply existsb_exists. exists (Rabs (f (pt s lim i) - v)). split.
    - rewrite <- Vo by auto. apply (in_map (fun y => Rabs (y - v))), nth_In. nlia.
    - destruct (Rle_dec _ m); [auto|lra]. }
  destruct A as (x & y & A). pose proof (find_first_ok f v a Hs _ _ _ A) as (K & j & Hj & Ex & Ey & _ & C1 & C2 & C3).
  rewrite En in *. destruct K as [|K].
  - exists j. assert (P : forall i, (i < NS)%nat -> used a 0 i = pt s lim i) by (intros; now apply used_pt).
    rewrite Ey, Ex, P in * by auto. split; [|exact A]. split; [auto|].
    split; intros p Hp; rewrite <- (P p) by nlia; auto.
  - exfalso. destruct (C3 O) as (L & m & [_ M] & D); [nlia|]. specialize (D i Hi). specialize (M q ltac:(nlia)).
    assert (P : forall i, (i < NS)%nat -> sample a (0 * NS + i) = pt s lim i).
    { intros p Hp. rewrite <- used_pt by auto. fold a. unfold used, Rltb'.
      destruct (Rlt_dec (sa_limit a) (lmax (inputs a 0))); [lra|]. now rewrite En. }
    rewrite !P in * by nlia. lra.
Qed.

Lemma abs_sg sg a b : sg = 1 \/ sg = -1 -> Rabs (a - b) = Rabs (sg * a - sg * b).
Proof.
  intros Hsg. replace (sg * a - sg * b) with (sg * (a - b)) by ring. rewrite Rabs_mult. destruct Hsg as [-> | ->].
  - rewrite (Rabs_right 1) by lra. ring.
  - rewrite (Rabs_left (-1)) by lra. ring.
Qed.
(** [f] or its negative increasing along the inputs, strictly beyond a distance [e] *)
Section Cross.
Variables (f : R -> R) (sg s lim e : R).
Hypotheses (Hsg : sg = 1 \/ sg = -1) (Hlim : s <= lim) (He : 0 <= e)
  (Hm : forall i j, (i < NS)%nat -> (j < NS)%nat -> pt s lim i < pt s lim j ->
        sg * f (pt s lim i) <= sg * f (pt s lim j))
  (Hms : forall i j, (i < NS)%nat -> (j < NS)%nat -> pt s lim i + e < pt s lim j ->
        sg * f (pt s lim i) < sg * f (pt s lim j)).
(** values at and around the requested one *)
Lemma first_crosses v fuel : sg * f s <= sg * v -> sg * v <= sg * f (pt s lim (NS - 1)) ->
  exists j, first_min f v s lim j /\
    find_first_occurrence f v (fargs s lim) (S fuel) = Some (Ok (pt s lim j, f (pt s lim j))).
Proof. clear He Hm Hms.
  intros H1 H2. destruct (bracket (fun i => sg * f (pt s lim i)) (sg * v) (NS - 1)) as (i & Hi & A & B); [|auto|nlia|].
  - now rewrite pt_0.
  - cbv beta in *. apply (first_answers f v s lim i i); [nlia|nlia|].
    rewrite (abs_sg sg (f (pt s lim i)) v), (abs_sg sg (f (pt s lim (S i)))) by auto.
    rewrite (Rabs_left1 (sg * f (pt s lim i) - sg * v)) by lra.
    rewrite (Rabs_right (sg * f (pt s lim (S i)) - _)) by lra. lra.
Qed.
(** the returned point is within a step of the crossing *)
Lemma first_min_near v j w : first_min f v s lim j -> s <= w <= pt s lim (NS - 1) ->
  (forall i, (i < NS)%nat -> pt s lim i <= w -> sg * f (pt s lim i) <= sg * v) ->
  (forall i, (i < NS)%nat -> w <= pt s lim i -> sg * v <= sg * f (pt s lim i)) ->
  Rabs (pt s lim j - w) <= 1 / 1000 + e.
Proof. clear Hm.
  intros (Hj & A & _) Hw W1 W2.
  destruct (bracket (pt s lim) w (NS - 1)) as (i & Hi & B1 & B2); [rewrite pt_0; lra|lra|nlia|].
  pose proof (pt_step s lim i) as Hstep. set (x := pt s lim j) in *.
  assert (L1 : pt s lim i <= x + e).
  { apply Rnot_lt_le. intros C. specialize (A i ltac:(nlia)). rewrite !(abs_sg sg _ v Hsg) in A.
    assert (sg * f x < sg * f (pt s lim i)) by (apply Hms; auto; nlia).
    assert (sg * f (pt s lim i) <= sg * v) by (apply W1; auto; nlia).
    rewrite !Rabs_left1 in A by lra. lra. }
  assert (L2 : x <= pt s lim (S i) + e).
  { apply Rnot_lt_le. intros C. specialize (A (S i) ltac:(nlia)). rewrite !(abs_sg sg _ v Hsg) in A.
    assert (sg * f (pt s lim (S i)) < sg * f x) by (apply Hms; auto; nlia).
    assert (sg * v <= sg * f (pt s lim (S i))) by (apply W2; auto; nlia).
    rewrite !Rabs_right in A by lra. lra. }
  apply Rabs_le. lra.
Qed.
(** an exact hit among the inputs is returned *)
Lemma first_min_hit v j i : first_min f v s lim j -> (i < NS)%nat -> f (pt s lim i) = v ->
  Rabs (pt s lim j - pt s lim i) <= e.
Proof. clear Hm He Hsg Hlim.
  intros (Hj & A & _) Hi E. specialize (A i Hi). rewrite E in A. replace (v - v) with 0 in A by ring. rewrite Rabs_R0 in A.
  assert (Z : f (pt s lim j) = v).
  { pose proof (Rabs_pos (f (pt s lim j) - v)) as P.
    destruct (Req_dec (f (pt s lim j) - v) 0) as [Q|Q]; [lra|]. apply Rabs_pos_lt in Q. lra. }
  apply Rabs_le. split; apply Rnot_lt_le; intros C.
  - assert (C' : pt s lim j + e < pt s lim i) by lra. apply Hms in C'; auto. rewrite Z, E in C'. lra.
  - assert (C' : pt s lim i + e < pt s lim j) by lra. apply Hms in C'; auto. rewrite Z, E in C'. lra.
Qed.
(** further along for a value further along *)
Lemma first_min_mono v1 v2 j1 j2 : first_min f v1 s lim j1 -> first_min f v2 s lim j2 ->
  sg * v1 <= sg * v2 -> pt s lim j1 <= pt s lim j2.
Proof. clear He Hms Hlim.
  intros (H1 & A1 & B1) (H2 & A2 & B2) Hv. destruct (le_lt_dec j1 j2) as [L|L]; [now apply pt_mono|].
  exfalso. specialize (B1 j2 L). specialize (A2 j1 H1). rewrite !(abs_sg sg _ v1 Hsg) in B1. rewrite !(abs_sg sg _ v2 Hsg) in A2.
  assert (Hle : sg * f (pt s lim j2) <= sg * f (pt s lim j1)).
  { destruct (Rle_lt_or_eq_dec (pt s lim j2) (pt s lim j1)) as [C|C]; [apply pt_mono; nlia|apply Hm; auto|].
    rewrite C. lra. }
  revert B1 A2 Hle Hv. generalize (sg * f (pt s lim j1)) (sg * f (pt s lim j2)) (sg * v1) (sg * v2).
  intros a b c d. unfold Rabs. destruct (Rcase_abs (a - c)), (Rcase_abs (b - c)), (Rcase_abs (b - d)), (Rcase_abs (a - d)); lra.
Qed.
End Cross.
Lemma first_min_0 f v s lim j : first_min f v s lim j -> f (pt s lim 0) = v -> j = O.
Proof.
  intros (_ & _ & B) E. destruct j; [auto|]. specialize (B O ltac:(nlia)). rewrite E in B.
  replace (v - v) with 0 in B by ring. rewrite Rabs_R0 in B. pose proof (Rabs_pos (f (pt s lim (S j)) - v)). lra.
Qed.

(** ** one peak *)
Definition one_peak (g : R -> R) (p : R) : Prop :=
  1 / 1000 <= p /\
  (forall x y, 0 <= x -> x < y -> y <= p -> absf g x < absf g y) /\
  (forall x y, p <= x -> x < y -> absf g y < absf g x).
(** what is known of the peak found: a multiple of 1/1000 next to the true one *)
Lemma absf_nonneg g x : 0 <= absf g x.
Proof. apply Rabs_pos. Qed.
Lemma peak_grid g fuel wp pk : peak_of g fuel = Some (Ok (wp, pk)) ->
  exists i0, wp = INR i0 / 1000 /\ pk = absf g wp /\
    (forall i, (i <= S i0)%nat -> absf g (INR i / 1000) <= pk) /\
    (forall i, (i < i0)%nat -> absf g (INR i / 1000) < pk).
Proof.
  intros E. assert (Hs : (0 < n_steps default_args)%Z) by (rewrite default_steps; lia).
  destruct (find_maximum_ok default_args Hs (absf g) (-1) _ _ _ E) as (K & i0 & Hi & Ex & Ev & _ & A & B & _).
  assert (S0 : forall i, sample default_args i = INR i / 1000).
  { intros. unfold sample. rewrite default_steps, default_increment. cbn [sa_start default_args]. field. }
  exists i0. rewrite <- S0. split; [auto|]. split; [auto|].
  split; intros i H; rewrite <- S0; [apply A; nia|now apply B].
Qed.
Lemma peak_exists g p : one_peak g p -> p <= 980 -> exists fuel wp pk, peak_of g fuel = Some (Ok (wp, pk)).
Proof.
  intros (P0 & Hu & Hd) Hp. destruct (find_maximum_unimodal (absf g) default_args (-1) p) as (fuel & x & E & _); auto.
  - rewrite default_steps. lia.
  - rewrite default_increment. lia.
  - cbn. lra.
  - intros x _. pose proof (absf_nonneg g x). lra.
  - rewrite default_increment. cbn [sa_limit default_args]. lra.
  - exists fuel, x, (absf g x). exact E.
Qed.
Section Peak.
Variables (g : R -> R) (p : R) (fuel : nat) (wp pk : R).
Hypotheses (HP : one_peak g p) (E : peak_of g fuel = Some (Ok (wp, pk))).
Let f := absf g.
Lemma wp_pk : pk = f wp.
Proof. destruct (peak_grid _ _ _ _ E) as (i0 & _ & A & _). exact A. Qed.
Lemma pk_nonneg : 0 <= pk.
Proof. rewrite wp_pk. apply absf_nonneg. Qed.
Lemma wp_pos : 1 / 1000 <= wp.
Proof.
  destruct HP as (P0 & Hu & _). destruct (peak_grid _ _ _ _ E) as (i0 & W & Ek & A & _). destruct i0 as [|i0].
  - specialize (A 1%nat ltac:(lia)). rewrite Ek, W in A. cbn [INR] in A.
    assert (absf g (0 / 1000) < absf g (1 / 1000)) by (apply Hu; lra). lra.
  - rewrite W, S_INR. pose proof (pos_INR i0). lra.
Qed.
(** the true peak is within a step *)
Lemma wp_close : wp - 1 / 1000 < p < wp + 1 / 1000.
Proof.
  destruct HP as (P0 & Hu & Hd). destruct (peak_grid _ _ _ _ E) as (i0 & W & Ek & A & B). pose proof wp_pos as W0.
  split; apply Rnot_le_lt; intros C.
  - destruct i0 as [|i0]; [rewrite W in W0; cbn [INR] in W0; lra|]. specialize (B i0 ltac:(lia)).
    rewrite S_INR in W. replace (INR i0 / 1000) with (wp - 1 / 1000) in B by lra.
    assert (absf g wp < absf g (wp - 1 / 1000)) by (apply Hd; lra). lra.
  - specialize (A (S i0) ltac:(lia)). rewrite S_INR in A. replace ((INR i0 + 1) / 1000) with (wp + 1 / 1000) in A by lra.
    assert (absf g wp < absf g (wp + 1 / 1000)) by (apply Hu; lra). lra.
Qed.
(** inputs of the search on the left *)
Lemma left_pt i : pt 0 wp i = wp \/ (pt 0 wp i = INR i / 1000 /\ pt 0 wp i <= wp - 1 / 1000).
Proof.
  destruct (peak_grid _ _ _ _ E) as (i0 & W & _). destruct (le_lt_dec i0 i) as [L|L].
  - left. unfold pt. apply Rmin_r'. apply le_INR in L. lra.
  - right. assert (INR i <= INR i0 - 1) by (replace (INR i0 - 1) with (INR (i0 - 1)) by (rewrite minus_INR by lia; cbn [INR]; lra); apply le_INR; lia).
    unfold pt. rewrite Rmin_l by lra. lra.
Qed.
Lemma left_mono i j : pt 0 wp i < pt 0 wp j -> 1 * f (pt 0 wp i) < 1 * f (pt 0 wp j).
Proof.
  intros H. rewrite !Rmult_1_l. destruct HP as (P0 & Hu & _). pose proof wp_close. pose proof wp_pos.
  assert (Ri : 0 <= pt 0 wp i <= wp) by (apply pt_range; lra).
  assert (Rj : 0 <= pt 0 wp j <= wp) by (apply pt_range; lra).
  destruct (left_pt j) as [Ej|[_ Hj]].
  - destruct (left_pt i) as [Ei|[Ei _]]; [lra|]. rewrite Ej in *.
    destruct (peak_grid _ _ _ _ E) as (i0 & W & Ek & _ & B). unfold f. rewrite <- Ek, Ei. apply B.
    apply INR_lt. lra.
  - apply Hu; lra.
Qed.
Lemma left_order w i : 0 <= w <= p -> f w <= pk ->
  (pt 0 wp i <= w -> 1 * f (pt 0 wp i) <= 1 * f w) /\ (w <= pt 0 wp i -> 1 * f w <= 1 * f (pt 0 wp i)).
Proof.
  intros Hw Hv. rewrite !Rmult_1_l. destruct HP as (P0 & Hu & _). pose proof wp_close. pose proof wp_pos.
  assert (Ri : 0 <= pt 0 wp i <= wp) by (apply pt_range; lra).
  assert (Hu' : forall x y, 0 <= x -> x <= y -> y <= p -> f x <= f y).
  { intros x y Hx Hy Hz. destruct (Req_dec x y) as [->|]; [lra|]. left. apply Hu; lra. }
  split; intros H1.
  - apply Hu'; lra.
  - destruct (left_pt i) as [Ei|[_ Hi]].
    + rewrite Ei. rewrite <- wp_pk. exact Hv.
    + apply Hu'; lra.
Qed.
Lemma left_below w : 0 <= w <= p -> f w <= pk -> w <= wp.
Proof.
  intros Hw Hv. destruct HP as (P0 & Hu & _). apply Rnot_lt_le. intros C.
  assert (f wp < f w) by (pose proof wp_pos; apply Hu; lra). pose proof wp_pk. lra.
Qed.
Lemma left_end : wp < 10 -> pt 0 wp (NS - 1) = wp.
Proof.
  intros H. destruct (peak_grid _ _ _ _ E) as (i0 & W & _). unfold pt. apply Rmin_r'.
  assert (L : (i0 <= NS - 1)%nat).
  { apply Nat.lt_succ_r. apply INR_lt. replace (S (NS - 1)) with NS by nlia. rewrite (INR_IZR_INZ NS), NS_val. lra. }
  apply le_INR in L. lra.
Qed.
(** and on the right *)
Lemma right_pt i : (0 < i)%nat -> p < pt wp (10 * wp) i.
Proof.
  intros H. pose proof wp_close. pose proof wp_pos. apply Rlt_le_trans with (pt wp (10 * wp) 1); [|apply pt_mono; lia].
  unfold pt. cbn [INR]. rewrite Rmin_l by lra. lra.
Qed.
Lemma right_1 : f (pt wp (10 * wp) 1) <= pk.
Proof.
  destruct (peak_grid _ _ _ _ E) as (i0 & W & Ek & A & _). pose proof wp_pos.
  unfold pt. cbn [INR]. rewrite Rmin_l by lra. specialize (A (S i0) ltac:(lia)). rewrite S_INR in A.
  unfold f. replace (wp + 1 / 1000) with ((INR i0 + 1) / 1000) by lra. exact A.
Qed.
Lemma right_mono i j : pt wp (10 * wp) i < pt wp (10 * wp) j ->
  -1 * f (pt wp (10 * wp) i) <= -1 * f (pt wp (10 * wp) j).
Proof.
  intros H. destruct HP as (_ & _ & Hd). pose proof wp_pos.
  assert (Hd' : forall x y, p <= x -> x <= y -> f y <= f x).
  { intros x y Hx Hy. destruct (Req_dec x y) as [->|]; [lra|]. left. apply Hd; lra. }
  assert (L : (i < j)%nat).
  { destruct (le_lt_dec j i) as [L|L]; [|auto]. apply (pt_mono wp (10 * wp)) in L. lra. }
  enough (f (pt wp (10 * wp) j) <= f (pt wp (10 * wp) i)) by lra. destruct i as [|i].
  - rewrite (pt_0 wp) by lra. rewrite <- wp_pk. apply Rle_trans with (f (pt wp (10 * wp) 1)); [|apply right_1].
    apply Hd'; [left; apply right_pt; lia|apply pt_mono; lia].
  - apply Hd'; [left; apply right_pt; lia|lra].
Qed.
Lemma right_mono_strict i j : pt wp (10 * wp) i + 1 / 1000 < pt wp (10 * wp) j ->
  -1 * f (pt wp (10 * wp) i) < -1 * f (pt wp (10 * wp) j).
Proof.
  intros H. destruct HP as (_ & _ & Hd). pose proof wp_pos.
  assert (L : (i < j)%nat).
  { destruct (le_lt_dec j i) as [L|L]; [|auto]. apply (pt_mono wp (10 * wp)) in L. lra. }
  enough (f (pt wp (10 * wp) j) < f (pt wp (10 * wp) i)) by lra. destruct i as [|i].
  - pose proof (pt_step wp (10 * wp) 0) as St. rewrite (pt_0 wp) in * by lra. rewrite <- wp_pk.
    apply Rlt_le_trans with (f (pt wp (10 * wp) 1)); [|apply right_1].
    apply Hd; [left; apply right_pt; lia|lra].
  - apply Hd; [left; apply right_pt; lia|lra].
Qed.
Lemma right_order w i : p <= w -> f w <= pk ->
  (pt wp (10 * wp) i <= w -> -1 * f (pt wp (10 * wp) i) <= -1 * f w) /\
  (w <= pt wp (10 * wp) i -> -1 * f w <= -1 * f (pt wp (10 * wp) i)).
Proof.
  intros Hw Hv. destruct HP as (_ & _ & Hd). pose proof wp_pos.
  assert (Hd' : forall x y, p <= x -> x <= y -> f y <= f x).
  { intros x y Hx Hy. destruct (Req_dec x y) as [->|]; [lra|]. left. apply Hd; lra. }
  split; intros H1.
  - destruct i as [|i]; [rewrite (pt_0 wp) by lra; rewrite <- wp_pk; lra|].
    pose proof (Hd' (pt wp (10 * wp) (S i)) w). pose proof (right_pt (S i) ltac:(lia)). lra.
  - pose proof (Hd' w (pt wp (10 * wp) i)). lra.
Qed.
Lemma right_above w : p <= w -> f w <= pk -> wp <= w.
Proof.
  intros Hw Hv. destruct HP as (_ & _ & Hd). apply Rnot_lt_le. intros C.
  assert (f wp < f w) by (apply Hd; lra). pose proof wp_pk. lra.
Qed.
End Peak.
