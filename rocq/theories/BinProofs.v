(** Index computation of the squeezing kernels. *)
From Coq Require Import ZifyBool ZifyNat Psatz.
From Verif Require Import Py Round Parallel Cplx CplxProofs Squeeze SqueezeProofs.
Local Open Scope R_scope.
Ltac Zify.zify_post_hook ::= Z.div_mod_to_equations.

(** ** conversions *)
Lemma rnd_i64_ok x : 0 <= x <= IZR (2 ^ 63 - 1) -> rnd_i64 x = round_half_even x.
Proof.
  intros [H1 H2]. unfold rnd_i64.
  assert (0 <= round_half_even x)%Z by (apply rhe_lower; exact H1).
  assert (round_half_even x <= 2 ^ 63 - 1)%Z by (apply rhe_upper; exact H2).
  destruct (Z.leb_spec i64_min (round_half_even x)); [|unfold i64_min in *; lia].
  destruct (Z.ltb_spec (round_half_even x) (2 ^ 63)); [|lia]. reflexivity.
Qed.

Lemma Rabs_mono_r a x y : a <= x -> x <= y -> Rabs (a - x) <= Rabs (a - y).
Proof. intros. rewrite !Rabs_left1 by lra. lra. Qed.
Lemma Rabs_mono_l a x y : x <= a -> y <= x -> Rabs (a - x) <= Rabs (a - y).
Proof. intros. rewrite !Rabs_right by lra. lra. Qed.

Lemma clamp_nearest x omax : (0 <= omax)%Z -> x <= IZR (2 ^ 63 - 1) ->
  let k := Z.min (rnd_i64 (Rmax x 0)) omax in
  (0 <= k <= omax)%Z /\ forall q, (0 <= q <= omax)%Z -> Rabs (x - IZR k) <= Rabs (x - IZR q).
Proof.
  intros Ho Hx. cbv zeta.
  rewrite rnd_i64_ok.
  2:{ split; [apply Rmax_r|]. apply Rmax_lub; [exact Hx|]. apply IZR_le. lia. }
  destruct (Rle_dec x 0) as [H0|H0].
  - rewrite Rmax_right by exact H0.
    rewrite (rhe_IZR 0). rewrite Z.min_l by exact Ho. split; [lia|].
    intros q Hq. apply Rabs_mono_r; [exact H0|]. apply IZR_le. lia.
  - rewrite Rmax_left by lra.
    assert (0 <= round_half_even x)%Z by (apply rhe_lower; lra).
    split; [lia|]. intros q Hq.
    destruct (Z.le_gt_cases (round_half_even x) omax).
    + rewrite Z.min_l by assumption. apply rhe_nearest.
    + rewrite Z.min_r by lia. pose proof (rhe_near x) as Hn.
      assert (Hr : (omax + 1 <= round_half_even x)%Z) by lia.
      apply IZR_le in Hr. rewrite plus_IZR in Hr.
      apply Rabs_mono_l; [lra|]. apply IZR_le. lia.
Qed.

(** scaled to a grid with step [d] *)
Lemma grid_nearest d x k q : 0 < d -> Rabs (x - k) <= Rabs (x - q) ->
  forall v0 w, w = v0 + x * d -> Rabs (w - (v0 + k * d)) <= Rabs (w - (v0 + q * d)).
Proof.
  intros Hd H v0 w ->.
  replace (v0 + x * d - (v0 + k * d)) with ((x - k) * d) by ring.
  replace (v0 + x * d - (v0 + q * d)) with ((x - q) * d) by ring.
  rewrite !Rabs_mult. apply Rmult_le_compat_r; [apply Rabs_pos|exact H].
Qed.

Lemma bin_lin_ok omax vmin dv w : (0 <= omax)%Z -> 0 < dv -> (w - vmin) / dv <= IZR (2 ^ 63 - 1) ->
  let k := bin_lin omax vmin dv w in
  (0 <= k <= omax)%Z /\ forall q, (0 <= q <= omax)%Z ->
    Rabs (w - (vmin + IZR k * dv)) <= Rabs (w - (vmin + IZR q * dv)).
Proof.
  intros Ho Hd Hx k. unfold bin_lin in k.
  destruct (clamp_nearest ((w - vmin) / dv) omax Ho Hx) as [H1 H2].
  split; [exact H1|]. intros q Hq. specialize (H2 q Hq).
  eapply grid_nearest; [exact Hd|exact H2|field; lra].
Qed.

Lemma bin_log_ok omax vlmin dvl w : (0 <= omax)%Z -> 0 < dvl ->
  (log2 w - vlmin) / dvl <= IZR (2 ^ 63 - 1) ->
  let k := bin_log omax vlmin dvl w in
  (0 <= k <= omax)%Z /\
  (w <= 0 -> k = 0%Z) /\
  (0 < w -> forall q, (0 <= q <= omax)%Z ->
    Rabs (log2 w - (vlmin + IZR k * dvl)) <= Rabs (log2 w - (vlmin + IZR q * dvl))).
Proof.
  intros Ho Hd Hx k. unfold bin_log, log2e in k. subst k. destruct (Rlt_dec 0 w).
  - destruct (clamp_nearest ((log2 w - vlmin) / dvl) omax Ho Hx) as [H1 H2].
    split; [exact H1|]. split; [lra|]. intros _ q Hq. specialize (H2 q Hq).
    eapply grid_nearest; [exact Hd|exact H2|field; lra].
  - assert (E : rnd_i64 0 = 0%Z).
    { rewrite rnd_i64_ok by (split; [lra|apply IZR_le; lia]). apply (rhe_IZR 0). }
    rewrite E. rewrite Z.min_l by exact Ho. split; [lia|]. split; [reflexivity|]. lra.
Qed.

(** node [q] of a two-piece grid whose pieces share node [idx1] *)
Definition node2 (vlmin0 vlmin1 dvl0 dvl1 : R) (idx1 q : Z) : R :=
  if (q <=? idx1)%Z then vlmin0 + IZR q * dvl0 else vlmin1 + IZR (q - idx1) * dvl1.

Lemma bin_piece_ok omax v0 v1 d0 d1 idx1 w :
  (0 <= idx1 <= omax)%Z -> (omax < 2 ^ 62)%Z -> 0 < d0 -> 0 < d1 -> v1 = v0 + IZR idx1 * d0 ->
  (log2 w - v1) / d1 <= IZR (2 ^ 62) ->
  let k := bin_piece omax v0 v1 d0 d1 idx1 w in
  (0 <= k <= omax)%Z /\
  (w <= 0 -> k = 0%Z) /\
  (0 < w -> forall q, (0 <= q <= omax)%Z ->
    Rabs (log2 w - node2 v0 v1 d0 d1 idx1 k) <= Rabs (log2 w - node2 v0 v1 d0 d1 idx1 q)).
Proof.
  intros Hi Hom H0 H1 Hv Hx k. unfold bin_piece, log2e in k. subst k.
  assert (E0 : rnd_i64 0 = 0%Z).
  { rewrite rnd_i64_ok by (split; [lra|apply IZR_le; lia]). apply (rhe_IZR 0). }
  destruct (Rlt_dec 0 w) as [Hw|Hw].
  2:{ rewrite E0. split; [lia|]. split; [reflexivity|]. lra. }
  set (l := log2 w) in *.
  destruct (Rlt_dec v1 l) as [Hl|Hl].
  - set (x := (l - v1) / d1) in *.
    assert (Hx0 : 0 < x) by (unfold x; apply Rdiv_lt_0_compat; lra).
    assert (Hxb : x <= IZR (2 ^ 63 - 1)) by (eapply Rle_trans; [exact Hx|apply IZR_le; lia]).
    assert (Er : rnd_i64 x = round_half_even x) by (apply rnd_i64_ok; lra).
    assert (Hr0 : (0 <= round_half_even x)%Z) by (apply rhe_lower; lra).
    destruct (clamp_nearest x (omax - idx1) ltac:(lia) Hxb) as [HA HB].
    rewrite Rmax_left in HA, HB by lra. rewrite Er in *.
    set (k := Z.min (round_half_even x + idx1) omax).
    assert (Ek : Z.min (round_half_even x) (omax - idx1) = (k - idx1)%Z) by (unfold k; lia).
    rewrite Ek in *.
    assert (El : l = v1 + x * d1) by (unfold x; field; lra).
    split; [lia|]. split; [lra|]. intros _ q Hq.
    assert (Enode : forall p, (idx1 <= p)%Z -> node2 v0 v1 d0 d1 idx1 p = v1 + IZR (p - idx1) * d1).
    { intros p Hp. unfold node2. destruct (Z.leb_spec p idx1); [|reflexivity].
      assert (p = idx1) by lia. subst p. rewrite Z.sub_diag. rewrite Hv. simpl. ring. }
    rewrite (Enode k) by lia.
    assert (Hup : forall p, (idx1 <= p <= omax)%Z ->
       Rabs (l - (v1 + IZR (k - idx1) * d1)) <= Rabs (l - node2 v0 v1 d0 d1 idx1 p)).
    { intros p Hp. rewrite Enode by lia. apply grid_nearest with (x := x); [exact H1| |exact El].
      apply HB. lia. }
    destruct (Z.le_gt_cases idx1 q); [apply Hup; lia|].
    eapply Rle_trans; [apply (Hup idx1); lia|]. rewrite (Enode idx1) by lia.
    rewrite Z.sub_diag. unfold node2. destruct (Z.leb_spec q idx1); [|lia].
    apply Rabs_mono_l; [simpl; lra|].
    assert (IZR q <= IZR idx1) by (apply IZR_le; lia). rewrite Hv. simpl. nra.
  - set (x := (l - v0) / d0) in *.
    assert (El : l = v0 + x * d0) by (unfold x; field; lra).
    assert (Hxi : x <= IZR idx1).
    { apply Rmult_le_reg_r with d0; [exact H0|]. lra. }
    assert (Hxb : x <= IZR (2 ^ 63 - 1)) by (eapply Rle_trans; [exact Hxi|apply IZR_le; lia]).
    destruct (clamp_nearest x idx1 ltac:(lia) Hxb) as [HA HB].
    assert (Emin : Z.min (rnd_i64 (Rmax x 0)) idx1 = rnd_i64 (Rmax x 0)).
    { apply Z.min_l. assert (Hi0 : 0 <= IZR idx1) by (apply IZR_le; lia).
      rewrite rnd_i64_ok; [apply rhe_upper|split; [apply Rmax_r|]];
        apply Rmax_lub; try lra. apply IZR_le; lia. }
    rewrite Emin in *. set (k := rnd_i64 (Rmax x 0)) in *.
    split; [lia|]. split; [lra|]. intros _ q Hq.
    assert (Hlow : forall p, (0 <= p <= idx1)%Z ->
       Rabs (l - node2 v0 v1 d0 d1 idx1 k) <= Rabs (l - node2 v0 v1 d0 d1 idx1 p)).
    { intros p Hp. unfold node2. destruct (Z.leb_spec k idx1); [|lia].
      destruct (Z.leb_spec p idx1); [|lia]. apply grid_nearest with (x := x); [exact H0| |exact El].
      apply HB. lia. }
    destruct (Z.le_gt_cases q idx1); [apply Hlow; lia|].
    eapply Rle_trans; [apply (Hlow idx1); lia|].
    unfold node2. destruct (Z.leb_spec idx1 idx1); [|lia]. destruct (Z.leb_spec q idx1); [lia|].
    apply Rabs_mono_r; [lra|]. rewrite <- Hv.
    assert (0 <= IZR (q - idx1)) by (apply IZR_le; lia). nra.
Qed.

(** the fast kernel rounds before it clamps: no difference *)
Lemma bin_piece_fast_eq omax v0 v1 d0 d1 idx1 w :
  (log2 w - v0) / d0 <= IZR (2 ^ 63 - 1) \/ v1 < log2 w ->
  bin_piece_fast omax v0 v1 d0 d1 idx1 w = bin_piece omax v0 v1 d0 d1 idx1 w.
Proof.
  intros Hx. unfold bin_piece_fast, bin_piece, log2e.
  assert (E0 : rnd_i64 0 = 0%Z).
  { rewrite rnd_i64_ok by (split; [lra|apply IZR_le; lia]). apply (rhe_IZR 0). }
  destruct (Rlt_dec 0 w); [|rewrite E0; reflexivity].
  destruct (Rlt_dec v1 (log2 w)); [reflexivity|].
  destruct Hx as [Hx|Hx]; [|lra].
  set (x := (log2 w - v0) / d0) in *.
  destruct (Rle_dec x 0).
  - rewrite Rmax_right by assumption. rewrite E0. apply Z.max_r.
    unfold rnd_i64. assert (round_half_even x <= 0)%Z by (apply rhe_upper; assumption).
    unfold i64_min. destruct (_ && _); lia.
  - rewrite Rmax_left by lra. rewrite rnd_i64_ok by lra. apply Z.max_l.
    apply rhe_lower. lra.
Qed.

(** ** grids *)
Lemma nth_diff l i : (S i < length l)%nat -> nth i (diff l) 0 = nth (S i) l 0 - nth i l 0.
Proof.
  revert i. induction l as [|x [|y l] IH]; intros i Hi; [simpl in Hi; lia|simpl in Hi; lia|].
  destruct i as [|i]; [reflexivity|].
  change (diff (x :: y :: l)) with ((y - x) :: diff (y :: l)). cbn [nth].
  rewrite IH by (simpl in *; lia). reflexivity.
Qed.
Lemma diff_length l : length (diff l) = (length l - 1)%nat.
Proof.
  induction l as [|x [|y l] IH]; auto.
  change (diff (x :: y :: l)) with ((y - x) :: diff (y :: l)). cbn [length] in *. lia.
Qed.

Lemma argmax_from_spec l : forall i best bv,
  let k := argmax_from l i best bv in
  (k = best /\ (forall j, (j < length l)%nat -> nth j l 0 <= bv)) \/
  (exists j, k = (i + j)%nat /\ (j < length l)%nat /\ bv < nth j l 0 /\
     (forall q, (q < length l)%nat -> nth q l 0 <= nth j l 0) /\
     (forall q, (q < j)%nat -> nth q l 0 < nth j l 0)).
Proof.
  induction l as [|y l IH]; intros i best bv; cbv zeta.
  - left. split; [reflexivity|]. simpl. lia.
  - cbn [argmax_from]. destruct (Rlt_dec bv y) as [Hy|Hy].
    + destruct (IH (S i) i y) as [[E Hall]|(j & E & Hj & Hb & Hall & Hlt)].
      * right. exists 0%nat. split; [lia|]. cbn [length nth]. split; [lia|]. split; [exact Hy|].
        split; [|lia]. intros [|q] Hq; [lra|]. apply Hall. lia.
      * right. exists (S j). cbn [length nth]. split; [lia|]. split; [lia|]. split; [lra|].
        split; intros [|q] Hq; try lra; [apply Hall|apply Hlt]; lia.
    + destruct (IH (S i) best bv) as [[E Hall]|(j & E & Hj & Hb & Hall & Hlt)].
      * left. split; [exact E|]. intros [|q] Hq; cbn [nth]; [lra|]. cbn in Hq. apply Hall. lia.
      * right. exists (S j). cbn [length nth]. split; [lia|]. split; [lia|]. split; [lra|].
        split; intros [|q] Hq; try lra; [apply Hall|apply Hlt]; lia.
Qed.

Lemma argmax_spec l : l <> [] ->
  let k := argmax l in
  (k < length l)%nat /\ (forall q, (q < length l)%nat -> nth q l 0 <= nth k l 0) /\
  (forall q, (q < k)%nat -> nth q l 0 < nth k l 0).
Proof.
  destruct l as [|y l]; [congruence|]. intros _. cbv zeta. unfold argmax.
  destruct (argmax_from_spec l 1 0 y) as [[E Hall]|(j & E & Hj & Hb & Hall & Hlt)]; rewrite E.
  - cbn [length nth]. split; [lia|]. split; [|lia].
    intros [|q] Hq; [lra|]. apply Hall. lia.
  - change (1 + j)%nat with (S j). cbn [length nth]. split; [lia|].
    split; intros [|q] Hq; try lra; [apply Hall|apply Hlt]; lia.
Qed.

Lemma set_nth_length {A} (l : list A) i v : length (set_nth l i v) = length l.
Proof. revert i; induction l as [|y l IH]; intros [|i]; cbn; auto. Qed.
Lemma nth_set_nth {A} (l : list A) i v j d : (i < length l)%nat ->
  nth j (set_nth l i v) d = if (j =? i)%nat then v else nth j l d.
Proof.
  revert i j; induction l as [|y l IH]; intros [|i] [|j] H; cbn in *; try lia; auto.
  apply IH. lia.
Qed.

Lemma lsum_zero l : (forall i, (i < length l)%nat -> nth i l 0 = 0) -> lsum l = 0.
Proof.
  induction l as [|y l IH]; intros H; [reflexivity|].
  change (lsum (y :: l)) with (nth 0 (y :: l) 0 + lsum l).
  rewrite (H 0%nat) by (cbn; lia). rewrite IH; [ring|].
  intros i Hi. apply (H (S i)). cbn. lia.
Qed.

Lemma nth_map_R (f : R -> R) l i : (i < length l)%nat -> nth i (map f l) 0 = f (nth i l 0).
Proof. intros H. rewrite (nth_indep _ 0 (f 0)) by (rewrite map_length; exact H). apply map_nth. Qed.

Definition d2 (l : list R) (i : nat) : R :=
  ln (nth (S (S i)) l 0) - ln (nth (S i) l 0) - (ln (nth (S i) l 0) - ln (nth i l 0)).

Lemma nth_d2 v i : (S (S i) < length v)%nat ->
  nth i (map Rabs (diff (diff (map ln v)))) 0 = Rabs (d2 v i).
Proof.
  intros H. rewrite nth_map_R by (rewrite !diff_length, map_length; lia).
  rewrite nth_diff by (rewrite diff_length, map_length; lia).
  rewrite !nth_diff by (rewrite map_length; lia).
  rewrite !nth_map_R by lia. reflexivity.
Qed.

(** no bend: [None] *)
Lemma transition_none f64 v : (3 <= length v)%nat ->
  (forall i, (S (S i) < length v)%nat -> d2 v i = 0) ->
  logscale_transition_idx f64 v = Ok None.
Proof.
  intros Hn H. unfold logscale_transition_idx.
  set (D := map Rabs (diff (diff (map ln v)))).
  assert (HL : length D = (length v - 2)%nat) by (unfold D; rewrite map_length, !diff_length, map_length; lia).
  assert (HD : forall i, (i < length D)%nat -> nth i D 0 = 0).
  { intros i Hi. unfold D. rewrite nth_d2 by lia. rewrite H by lia. apply Rabs_R0. }
  assert (HDn : D <> []) by (intros E; rewrite E in HL; simpl in HL; lia).
  assert (Hfin : forall (X Y : res (option nat)), (match D with [] => X | _ => Y end) = Y).
  { intros. destruct D; [congruence|reflexivity]. }
  rewrite Hfin.
  destruct (argmax_spec D HDn) as (Ha & _).
  replace (mean _) with 0.
  - rewrite HD by exact Ha. destruct (Rlt_dec _ _); [lra|reflexivity].
  - unfold mean. rewrite lsum_zero; [unfold Rdiv; ring|].
    intros i Hi. rewrite map_length in Hi. rewrite nth_map_R by exact Hi.
    rewrite set_nth_length in Hi. rewrite nth_set_nth by lia.
    destruct (_ =? _)%nat; [apply Rabs_R0|]. rewrite HD by exact Hi. apply Rabs_R0.
Qed.

(** one bend, at [p]: [Some (p + 2)] *)
Lemma transition_some f64 v p : (S (S p) < length v)%nat ->
  d2 v p <> 0 ->
  (forall i, (S (S i) < length v)%nat -> i <> p -> d2 v i = 0) ->
  logscale_transition_idx f64 v = Ok (Some (p + 2)%nat).
Proof.
  intros Hn Hp H. unfold logscale_transition_idx.
  set (D := map Rabs (diff (diff (map ln v)))).
  assert (HL : length D = (length v - 2)%nat) by (unfold D; rewrite map_length, !diff_length, map_length; lia).
  assert (HDp : nth p D 0 = Rabs (d2 v p)) by (apply nth_d2; lia).
  assert (HD : forall i, (i < length D)%nat -> i <> p -> nth i D 0 = 0).
  { intros i Hi Hne. unfold D. rewrite nth_d2 by lia. rewrite H by lia. apply Rabs_R0. }
  assert (HDn : D <> []) by (intros E; rewrite E in HL; simpl in HL; lia).
  assert (Hfin : forall (X Y : res (option nat)), (match D with [] => X | _ => Y end) = Y).
  { intros. destruct D; [congruence|reflexivity]. }
  rewrite Hfin.
  destruct (argmax_spec D HDn) as (Ha & Hmax & _).
  pose proof (Rabs_pos_lt _ Hp) as Hpos.
  assert (Ea : argmax D = p).
  { destruct (Nat.eq_dec (argmax D) p) as [|Hne]; [assumption|].
    specialize (Hmax p ltac:(lia)). rewrite (HD _ Ha Hne) in Hmax. lra. }
  rewrite Ea. replace (p + 2 - 2)%nat with p by lia.
  assert (HR : forall i, (i < length D)%nat -> nth i (set_nth D p 0) 0 = 0).
  { intros i Hi. rewrite nth_set_nth by lia. destruct (Nat.eqb_spec i p); [reflexivity|]. auto. }
  replace (mean _) with 0.
  - rewrite HDp. destruct (Rlt_dec _ _) as [_|]; [|lra].
    replace (forallb _ _) with true; [reflexivity|]. symmetry. apply forallb_forall.
    intros y Hy. destruct (In_nth _ _ 0 Hy) as (i & Hi & <-). rewrite set_nth_length in Hi.
    rewrite HR by exact Hi. rewrite Rabs_R0.
    destruct (Rlt_dec _ _) as [|Hth]; [reflexivity|]. exfalso. apply Hth. destruct f64; lra.
  - unfold mean. rewrite lsum_zero; [unfold Rdiv; ring|].
    intros i Hi. rewrite map_length in Hi. rewrite nth_map_R by exact Hi.
    rewrite set_nth_length in Hi. rewrite HR by exact Hi. apply Rabs_R0.
Qed.

(** a single step, [argmax] of an empty second difference *)
Lemma transition_short f64 v : (length v <= 2)%nat ->
  logscale_transition_idx f64 v = Err ValueError.
Proof. destruct v as [|a [|b [|c v]]]; cbn; intros; try reflexivity; lia. Qed.
