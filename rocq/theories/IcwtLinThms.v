(** Consequences of linearity: the whole round trip is linear, and inverses move no further than the
    coefficients do. *)
From Coq Require Import Reals Lra ZifyBool ZifyNat.
From Verif Require Import Py Padding PaddingProofs Buffer Cplx CplxProofs Freqs Stft Squeeze BinProofs Scales Ssqueeze ShiftProofs Cwt CwtProofs CwtThms CwtThms2 NormThms
  AdmissThms2 SsqRoundTrip Separate IcwtLin CwtWitness CwtWitness2.
Local Open Scope R_scope.

Lemma mix_of a b X Y Z : lincomb a b X Y Z -> mix a b X Y Z.
Proof. intros (A & B & D & E & H). repeat split; auto. Qed.

Theorem round_trip_linear py inst f a s al be x y Wx sc dx s' Cpsi f64 nv one l1 xl m1 m2 pt rp u : length x = length y ->
  cwt py inst f a x s = (Ok (Wx, sc, dx), s') -> icwt f Cpsi Wx sc f64 nv one l1 xl m1 pt rp = Ok u ->
  exists Wy dy Wz dz v, cwt py inst f a y s = (Ok (Wy, sc, dy), s') /\ cwt py inst f a (lin al be x y) s = (Ok (Wz, sc, dz), s') /\
    icwt f Cpsi Wy sc f64 nv one l1 xl m2 pt rp = Ok v /\ length v = length u /\
    icwt f Cpsi Wz sc f64 nv one l1 xl (al * m1 + be * m2) pt rp = Ok (lin al be u v).
Proof.
  intros HL E I. destruct (cwt_linear py inst f a s al be x y Wx sc dx s' HL E) as (Wy & dy & Wz & dz & Ey & Ez & HM & _).
  destruct (icwt_linear f Cpsi f64 one l1 xl pt rp al be m1 m2 Wx Wy Wz sc nv u (mix_of _ _ _ _ _ HM) I) as (v & Iy & Lv & Iz).
  exists Wy, dy, Wz, dz, v. auto.
Qed.

Definition diff (X Y : mat C) : mat C := Mat (nrows X) (ncols X) (fun i j => Csub (el X i j) (el Y i j)).
Lemma diff_mix X Y : nrows Y = nrows X -> ncols Y = ncols X -> mix 1 (-1) X Y (diff X Y).
Proof. intros R K. repeat split; auto. intros i j _ _. cbn [diff el]. apply C_eq; unfold Csub, Copp, Cadd, Cmul, RtoC; cbn [fst snd]; ring. Qed.

(** ** one-integral [icwt]: the weight of row [i] *)
Lemma one_bound W sc log l1 j : (j < ncols W)%nat -> (forall i, (i < nrows W)%nat -> 0 < icwt_norm log l1 (nth i sc 0)) ->
  Rabs (nth j (icwt_1int W sc log l1) 0) <= Rsum (nrows W) (fun i => Cabs (el W i j) / icwt_norm log l1 (nth i sc 0)).
Proof.
  intros Hj P. unfold icwt_1int. rewrite nth_tab by exact Hj. eapply Rle_trans; [apply Rsum_abs|]. apply Rsum_le. intros i Hi.
  specialize (P i Hi). unfold Rdiv. rewrite Rabs_mult, (Rabs_right (/ _)) by (apply Rle_ge, Rlt_le, Rinv_0_lt_compat, P).
  apply Rmult_le_compat_r; [apply Rlt_le, Rinv_0_lt_compat, P|apply Re_le_Cabs].
Qed.

Definition icwt_step (k : scale_kind) (Cpsi : R) : R :=
  match k with KLog n => 2 / Cpsi * ln (Rpower 2 (1 / IZR n)) | _ => 2 / Cpsi * PI / 4 end.
Definition is_log (k : scale_kind) : bool := match k with KLog _ => true | _ => false end.

Theorem icwt_stable f Cpsi f64 l1 xl pt rp X Y sc nv m k x : nrows Y = nrows X -> ncols Y = ncols X ->
  process_scales_arr f64 sc = Ok k -> is_piece k = false -> (forall v, In v sc -> 0 < v) ->
  icwt f Cpsi X sc f64 nv true l1 xl m pt rp = Ok x ->
  exists y, icwt f Cpsi Y sc f64 nv true l1 xl m pt rp = Ok y /\ length y = length x /\
    forall j, (j < length x)%nat -> Rabs (nth j x 0 - nth j y 0) <=
      Rabs (icwt_step k Cpsi) * Rsum (nrows X) (fun i => Cabs (Csub (el X i j) (el Y i j)) / icwt_norm (is_log k) l1 (nth i sc 0)).
Proof.
  intros R1 K1 Ek Hk P E. destruct (icwt_linear f Cpsi f64 true l1 xl pt rp 1 (-1) m m X Y (diff X Y) sc nv x (diff_mix X Y R1 K1) E) as (y & Ey & Ly & Ez).
  exists y. split; [exact Ey|]. split; [exact Ly|]. intros j Hj.
  assert (L : length sc = nrows X /\ icwt f Cpsi (diff X Y) sc f64 nv true l1 xl (1 * m + -1 * m) pt rp =
    Ok (map (fun v => v * icwt_step k Cpsi + (1 * m + -1 * m)) (icwt_1int (diff X Y) sc (is_log k) l1))).
  { revert E. unfold icwt. cbn [icwt_rec]. destruct (check_gmw f l1); [|discriminate]. rewrite Ek. cbn [bind].
    destruct k as [n| |]; [| |discriminate Hk]; (destruct (match nv with Some m0 => _ | None => Ok tt end) as [[]|]; [|discriminate]); cbn [bind nrows diff];
    (destruct (Nat.eqb_spec (length sc) (nrows X)) as [L|L]; cbn [negb]; [|discriminate]); intros _; (split; [exact L|reflexivity]). }
  destruct L as (Lsc & Ez'). rewrite Ez in Ez'. injection Ez' as Q.
  assert (V : nth j x 0 - nth j y 0 = nth j (icwt_1int (diff X Y) sc (is_log k) l1) 0 * icwt_step k Cpsi).
  { transitivity (nth j (lin 1 (-1) x y) 0); [rewrite nth_lin by congruence; ring|]. rewrite Q.
    assert (Hl : (j < length (icwt_1int (diff X Y) sc (is_log k) l1))%nat).
    { apply (f_equal (@length R)) in Q. rewrite map_length, lin_length in Q by congruence. lia. }
    set (h := fun v => v * icwt_step k Cpsi + (1 * m + -1 * m)). rewrite (nth_indep _ 0 (h 0)) by (rewrite map_length; exact Hl).
    rewrite map_nth. unfold h. ring. }
  assert (Hc : (j < ncols (diff X Y))%nat).
  { apply (f_equal (@length R)) in Q. rewrite map_length, lin_length in Q by congruence. unfold icwt_1int in Q. rewrite tab_length in Q. lia. }
  rewrite V, Rabs_mult, Rmult_comm. apply Rmult_le_compat_l; [apply Rabs_pos|].
  apply (one_bound (diff X Y)); [exact Hc|]. cbn [diff nrows]. intros i Hi.
  assert (0 < nth i sc 0) by (apply P, nth_In; lia). assert (0 < sqrt (nth i sc 0)) by (apply sqrt_lt_R0; assumption).
  unfold icwt_norm. destruct l1, (is_log k); try lra. nra.
Qed.

(** ** [issq_cwt]: every component *)
Definition outs (o : inv_out) : list (list R) := match o with One x => [x] | Many xs => xs end.
Lemma outs_scale c o n j : nth j (nth n (outs (scale_out c o)) []) 0 = nth j (nth n (outs o) []) 0 * c.
Proof.
  destruct o as [x|xs]; cbn [outs scale_out].
  - destruct n as [|[|n]]; cbn [nth]; try (destruct j; ring). replace 0 with (0 * c) at 1 by ring. rewrite (map_nth (fun v => v * c)). reflexivity.
  - rewrite nth_map_nil. replace 0 with (0 * c) at 1 by ring. rewrite (map_nth (fun v => v * c)). reflexivity.
Qed.
Lemma invert_bound T comp o n j : invert T comp = Ok o -> Rabs (nth j (nth n (outs o) []) 0) <= Rsum (nrows T) (fun i => Cabs (el T i j)).
Proof.
  assert (S0 : 0 <= Rsum (nrows T) (fun i => Cabs (el T i j))).
  { apply Rle_trans with (Rsum (nrows T) (fun _ => 0)); [rewrite Rsum_const; lra|apply Rsum_le; intros; apply Cabs_nonneg]. }
  assert (Z0 : Rabs (nth j (@nil R) 0) <= Rsum (nrows T) (fun i => Cabs (el T i j))) by (destruct j; cbn; rewrite Rabs_R0; exact S0).
  assert (B : forall f, (forall r, f r j = el T r j \/ f r j = C0) -> Rabs (nth j (tab (ncols T) (fun m => Rsum (nrows T) (fun r => Re (f r m)))) 0) <= Rsum (nrows T) (fun i => Cabs (el T i j))).
  { intros f Hf. destruct (Nat.lt_ge_cases j (ncols T)) as [Hj|Hj].
    - rewrite nth_tab by exact Hj. eapply Rle_trans; [apply Rsum_abs|]. apply Rsum_le. intros r Hr.
      destruct (Hf r) as [-> | ->]; [apply Re_le_Cabs|]. unfold Re, C0. cbn [fst]. rewrite Rabs_R0. apply Cabs_nonneg.
    - rewrite nth_overflow by (rewrite tab_length; exact Hj). rewrite Rabs_R0. exact S0. }
  unfold invert. destruct comp as [[cc cw]|].
  - unfold invert_components. destruct (ncols cc =? 0)%nat; [discriminate|].
    destruct (_ || _)%bool; [discriminate|]. destruct (negb _); [discriminate|].
    destruct (negb _); [destruct (ncols T =? 1)%nat; discriminate|]. cbn [bind]. intros H. injection H as <-. cbn [outs].
    set (sum := fun f => tab (ncols T) (fun m => Rsum (nrows T) (fun r => Re (f r m)))) in *.
    destruct (Nat.lt_ge_cases n (ncols cc)) as [Hn|Hn].
    + rewrite app_nth1 by (rewrite map_length, seq_length; lia).
      rewrite (nth_indep _ [] (sum (masked (nrows T) cc cw T (ncols cc)))) by (rewrite map_length, seq_length; lia).
      rewrite (map_nth (fun n => sum (masked (nrows T) cc cw T n))), seq_nth by lia. apply B. intros r. unfold masked. destruct (in_band _ _ _ _ _ _); auto.
    + rewrite app_nth2 by (rewrite map_length, seq_length; lia). rewrite map_length, seq_length.
      destruct (n - ncols cc)%nat as [|[|q]]; cbn [nth]; [|exact Z0|exact Z0]. apply B. intros r. clear.
      induction (ncols cc) as [|K IH]; cbn [remainder]; [auto|]. destruct (in_band _ _ _ _ _ _); auto.
  - intros H. injection H as <-. cbn [outs]. destruct n as [|[|n]]; cbn [nth]; [|exact Z0|exact Z0].
    apply (B (fun r m => el T r m)). auto.
Qed.

Theorem issq_stable Css X Y comp x : nrows Y = nrows X -> ncols Y = ncols X -> issq_cwt Css X comp = Ok x ->
  exists y, issq_cwt Css Y comp = Ok y /\ length (outs y) = length (outs x) /\
    forall n j, (n < length (outs x))%nat ->
      Rabs (nth j (nth n (outs x) []) 0 - nth j (nth n (outs y) []) 0) <= Rabs (2 / Css) * Rsum (nrows X) (fun i => Cabs (Csub (el X i j) (el Y i j))).
Proof.
  intros R1 K1 E. destruct (issq_cwt_linear Css 1 (-1) X Y (diff X Y) comp x (diff_mix X Y R1 K1) E) as (y & z & Ey & Ez & L).
  exists y. split; [exact Ey|].
  assert (L' : length (outs y) = length (outs x) /\ forall n j, (n < length (outs x))%nat -> nth j (nth n (outs z) []) 0 = nth j (nth n (outs x) []) 0 - nth j (nth n (outs y) []) 0).
  { destruct x as [x|xs], y as [y|ys], z as [z|zs]; cbn in L; try contradiction; cbn [outs].
    - destruct L as (L & ->). split; [reflexivity|]. cbn [length]. intros n j Hn. replace n with 0%nat by lia. cbn [nth]. rewrite nth_lin by congruence. ring.
    - destruct L as (L1 & L2 & H). split; [exact L1|]. intros n j Hn. destruct (H n Hn) as (A & ->). rewrite nth_lin by congruence. ring. }
  destruct L' as (L1 & V). split; [exact L1|]. intros n j Hn. rewrite <- V by exact Hn.
  unfold issq_cwt in Ez. destruct (invert (diff X Y) comp) as [o|] eqn:Ei; [|discriminate]. cbn [bind] in Ez. injection Ez as <-.
  rewrite outs_scale, Rabs_mult, Rmult_comm. apply Rmult_le_compat_l; [apply Rabs_pos|].
  apply (invert_bound _ _ _ n j Ei).
Qed.

(** ** A case: [2 Wx - 3 Wy], two integrals or one, log scales *)
Lemma linear_case : exists x y, icwt flat_wave 1 (Mat 3 1 (fun _ _ => C1)) [1; 2; 4] true None true true None 5 PReflect false = Ok x /\
  icwt flat_wave 1 (Mat 3 1 (fun i _ => RtoC (INR i))) [1; 2; 4] true None true true None 7 PReflect false = Ok y /\
  icwt flat_wave 1 (Mat 3 1 (fun i _ => RtoC (2 - 3 * INR i))) [1; 2; 4] true None true true None (2 * 5 + -3 * 7) PReflect false = Ok (lin 2 (-3) x y) /\ x = [6 * ln 2 + 5].
Proof.
  destruct (icwt_linear flat_wave 1 true true true None PReflect false 2 (-3) 5 7 (Mat 3 1 (fun _ _ => C1)) (Mat 3 1 (fun i _ => RtoC (INR i)))
    (Mat 3 1 (fun i _ => RtoC (2 - 3 * INR i))) [1; 2; 4] None [6 * ln 2 + 5]) as (y & A & B & D).
  - repeat split. intros i j _ _. cbn [el]. apply C_eq; unfold Cadd, Cmul, RtoC, C1; cbn [fst snd]; ring.
  - apply icwt_124.
  - exists [6 * ln 2 + 5], y. split; [apply icwt_124|]. auto.
Qed.
(** two times, one component around row 1: the component, and the rest *)
Lemma component_case : exists x y, issq_cwt 2 (Mat 3 2 (fun i _ => RtoC (INR i))) (Some (Mat 2 1 (fun _ _ => 1%Z), Mat 2 1 (fun _ _ => 0%Z))) = Ok x /\
  issq_cwt 2 (Mat 3 2 (fun _ j => RtoC (INR j))) (Some (Mat 2 1 (fun _ _ => 1%Z), Mat 2 1 (fun _ _ => 0%Z))) = Ok y /\
  outs x = [[1; 1]; [2; 2]] /\ outs y = [[0; 1]; [0; 2]].
Proof.
  eexists _, _. split; [reflexivity|]. split; [reflexivity|].
  split; cbn [outs scale_out map app seq ncols nrows]; unfold tab; cbn [seq map Rsum masked remainder el ncols nrows];
  unfold in_band, in_slice, band_lower, band_upper, clip; cbn; unfold Re, RtoC, C0; cbn [fst]; repeat f_equal; lra.
Qed.
