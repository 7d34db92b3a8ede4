(** Linearity, rows, columns, state of [cwt]. *)
From Coq Require Import Reals Lra.
From Verif Require Import Py Round Cplx CplxProofs Padding PaddingProofs Buffer Freqs Squeeze Scales Cwt CwtProofs.
Local Open Scope R_scope.

(** ** Naturality of padding *)
Lemma pyslice_map {A B} (g : A -> B) l a b : pyslice (map g l) a b = map g (pyslice l a b).
Proof. unfold pyslice. rewrite map_length, skipn_map, firstn_map. reflexivity. Qed.

Lemma padsignal_unfold {A} (z : A) x pt pl : x <> [] ->
  padsignal z x pt pl =
    let '(n_up, n1, n2) := pad_widths (Z.of_nat (length x)) pl in
    match pt with
    | PSymmetric => Ok (pyslice_from (rev x) (- n1) ++ x ++ pyslice_to (rev x) n2, n_up, n1, n2)
    | _ => do xp <- np_pad z pt x n1 n2; Ok (xp, n_up, n1, n2)
    end.
Proof. intros H. destruct x; [congruence|reflexivity]. Qed.

Lemma padsignal_map {A B} (g : A -> B) zA zB x pt pl : g zA = zB ->
  padsignal zB (map g x) pt pl =
  match padsignal zA x pt pl with
  | Ok (xp, u, n1, n2) => Ok (map g xp, u, n1, n2)
  | Err e => Err e
  end.
Proof.
  intros Hz. destruct x as [|x0 x']; [reflexivity|].
  remember (x0 :: x') as x. assert (Hne : x <> []) by (subst; discriminate). clear Heqx x0 x'.
  rewrite !padsignal_unfold by (destruct x; simpl; congruence).
  rewrite map_length. destruct (pad_widths _ pl) as [[u n1] n2].
  assert (forall q, np_pad zB q (map g x) n1 n2 =
                    match np_pad zA q x n1 n2 with Ok l => Ok (map g l) | Err e => Err e end) as K.
  { intros q. unfold np_pad. rewrite map_length.
    destruct ((n1 <? 0)%Z || (n2 <? 0)%Z); [reflexivity|]. f_equal.
    unfold tab. rewrite map_map. apply map_ext. intros i.
    destruct (np_pad_index _ _ _); [|auto]. rewrite <- Hz. apply map_nth. }
  destruct pt; try (rewrite K; destruct (np_pad zA _ x n1 n2); reflexivity).
  unfold pyslice_from, pyslice_to. rewrite <- map_rev, map_length, !pyslice_map.
  f_equal. rewrite !map_app. reflexivity.
Qed.

(** ** Linearity *)
Definition lin (al be : R) (x y : list R) : list R :=
  map (fun p => al * fst p + be * snd p) (combine x y).
Definition lincomb (al be : R) (X Y Z : mat C) : Prop :=
  nrows Z = nrows X /\ nrows Y = nrows X /\ ncols Z = ncols X /\ ncols Y = ncols X /\
  forall i j, el Z i j = Cadd (Cmul (RtoC al) (el X i j)) (Cmul (RtoC be) (el Y i j)).
Definition lincomb_opt al be (X Y Z : option (mat C)) : Prop :=
  match X, Y, Z with
  | Some X, Some Y, Some Z => lincomb al be X Y Z
  | None, None, None => True
  | _, _, _ => False
  end.

Lemma map_fst_combine {A B} (x : list A) (y : list B) : length x = length y -> map fst (combine x y) = x.
Proof. revert y; induction x; destruct y; simpl; intros; try discriminate; f_equal; auto. Qed.
Lemma map_snd_combine {A B} (x : list A) (y : list B) : length x = length y -> map snd (combine x y) = y.
Proof. revert y; induction x; destruct y; simpl; intros; try discriminate; f_equal; auto. Qed.

Lemma pad_lin pt al be x y xp n1 : length x = length y -> pad_input pt x = Ok (xp, n1) ->
  exists yp, pad_input pt y = Ok (yp, n1) /\ length yp = length xp /\
             pad_input pt (lin al be x y) = Ok (lin al be xp yp, n1).
Proof.
  intros HL. unfold lin. set (z := combine x y).
  assert (Ex : x = map fst z) by (symmetry; apply map_fst_combine; auto).
  assert (Ey : y = map snd z) by (symmetry; apply map_snd_combine; auto).
  unfold pad_input. destruct pt as [pt|].
  - rewrite Ex, Ey.
    rewrite (padsignal_map fst (0, 0) 0) by reflexivity.
    rewrite (padsignal_map snd (0, 0) 0) by reflexivity.
    rewrite (padsignal_map (fun p : R * R => al * fst p + be * snd p) (0, 0) 0) by (simpl; ring).
    destruct (padsignal (0, 0) z pt None) as [[[[zp u] m1] m2]|]; [|discriminate].
    simpl. intros E. injection E as <- <-.
    exists (map snd zp). rewrite !map_length. split; [reflexivity|]. split; [reflexivity|].
    f_equal. f_equal.
    assert (combine (map fst zp) (map snd zp) = zp) as ->.
    { clear. induction zp as [|[u v] zp IH]; simpl; [reflexivity|]. f_equal. exact IH. }
    reflexivity.
  - destruct x as [|x0 x']; [discriminate|]. destruct y as [|y0 y']; [discriminate|].
    intros E. injection E as <- <-. exists (y0 :: y'). split; [reflexivity|]. split; [auto|].
    subst z. reflexivity.
Qed.

Lemma nth_lin al be x y m : length x = length y -> nth m (lin al be x y) 0 = al * nth m x 0 + be * nth m y 0.
Proof.
  revert y m; induction x as [|x0 x IH]; intros [|y0 y] m H; simpl in *; try discriminate.
  - destruct m; ring.
  - destruct m; simpl; [reflexivity|]. apply IH. lia.
Qed.

Lemma lin_length al be x y : length x = length y -> length (lin al be x y) = length x.
Proof. intros H. unfold lin. rewrite map_length, combine_length. lia. Qed.

Lemma sig_dft_lin al be xp yp k : length xp = length yp ->
  sig_dft (lin al be xp yp) k = Cadd (Cmul (RtoC al) (sig_dft xp k)) (Cmul (RtoC be) (sig_dft yp k)).
Proof.
  intros H. unfold sig_dft. rewrite lin_length by auto. rewrite <- H.
  rewrite <- !dft_scal, <- dft_add. apply Csum_ext. intros m Hm. f_equal.
  rewrite nth_lin by auto. apply C_eq; simpl; ring.
Qed.

Lemma idft_lin n al be X Y Z m : (forall k, (k < n)%nat -> Z k = Cadd (Cmul al (X k)) (Cmul be (Y k))) ->
  idft n Z m = Cadd (Cmul al (idft n X m)) (Cmul be (idft n Y m)).
Proof.
  intros H. rewrite <- !idft_scal, <- idft_add. unfold idft. f_equal. apply Csum_ext.
  intros k Hk. rewrite H by auto. reflexivity.
Qed.

Lemma finish_lincomb al be a n1 N sc X Y Z : lincomb al be X Y Z ->
  lincomb al be (finish a n1 N sc X) (finish a n1 N sc Y) (finish a n1 N sc Z).
Proof.
  intros H. unfold finish.
  set (b := negb (a_rpadded a) && _).
  assert (lincomb al be (if b then mcols X n1 (n1 + Z.of_nat N) else X)
                        (if b then mcols Y n1 (n1 + Z.of_nat N) else Y)
                        (if b then mcols Z n1 (n1 + Z.of_nat N) else Z)) as K.
  { destruct b; [|exact H]. destruct H as (E1 & E2 & E3 & E4 & E5). unfold lincomb, mcols; simpl.
    rewrite E1, E2, E3, E4. repeat split; try reflexivity. intros; apply E5. }
  destruct (a_l1 a); [exact K|].
  destruct K as (E1 & E2 & E3 & E4 & E5). unfold lincomb, scale_rows; simpl.
  repeat split; auto. intros i j. rewrite E5. generalize (RtoC (sqrt (nth i sc 0))). intros c.
  apply C_eq; simpl; ring.
Qed.

Lemma raw_lincomb al be p L xp yp : length xp = length yp ->
  lincomb al be (raw p L (length xp) (sig_dft xp)) (raw p L (length xp) (sig_dft yp))
                (raw p L (length xp) (sig_dft (lin al be xp yp))).
Proof.
  intros H. unfold raw, lincomb; simpl. repeat split. intros i j. unfold cwt_cell.
  apply idft_lin. intros k Hk. rewrite sig_dft_lin by auto. apply C_eq; simpl; ring.
Qed.
Lemma draw_lincomb al be vec p L fs xp yp : length xp = length yp ->
  lincomb al be (draw vec p L (length xp) fs (sig_dft xp)) (draw vec p L (length xp) fs (sig_dft yp))
                (draw vec p L (length xp) fs (sig_dft (lin al be xp yp))).
Proof.
  intros H. unfold draw, lincomb; simpl. repeat split. intros i j.
  destruct vec; unfold dcwt_cell; apply idft_lin; intros k Hk; rewrite sig_dft_lin by auto; apply C_eq; simpl; ring.
Qed.

Theorem cwt_linear py inst f a s al be x y Wx sc dx s' : length x = length y ->
  cwt py inst f a x s = (Ok (Wx, sc, dx), s') ->
  exists Wy dy Wz dz,
    cwt py inst f a y s = (Ok (Wy, sc, dy), s') /\
    cwt py inst f a (lin al be x y) s = (Ok (Wz, sc, dz), s') /\
    lincomb al be Wx Wy Wz /\ lincomb_opt al be dx dy dz.
Proof.
  intros HL H. destruct (cwt_ok_inv _ _ _ _ _ _ _ _ H) as ((fs & xp & n1 & scales & P) & U1 & U2).
  rewrite (cwt_run _ _ _ _ _ _ _ _ _ _ P U1 U2) in H.
  injection H as <- <- <- <-.
  destruct P as (Hfs & Hg & Hp & Hsc).
  destruct (pad_lin _ al be _ _ _ _ HL Hp) as (yp & Hpy & Ly & Hpz).
  assert (Lz : length (lin al be x y) = length x) by (apply lin_length; auto).
  assert (Py : pre f a y fs yp n1 scales) by (repeat split; try rewrite <- HL; auto).
  assert (Pz : pre f a (lin al be x y) fs (lin al be xp yp) n1 scales) by (repeat split; rewrite ?Lz; auto).
  rewrite (cwt_run _ _ _ _ _ _ _ _ _ _ Py U1 U2), (cwt_run _ _ _ _ _ _ _ _ _ _ Pz U1 U2).
  rewrite Lz, <- HL, Ly, lin_length by auto.
  eexists _, _, _, _. split; [reflexivity|]. split; [reflexivity|]. split.
  - apply finish_lincomb, raw_lincomb; auto.
  - unfold lincomb_opt. destruct (a_deriv a); [|exact I]. apply finish_lincomb, draw_lincomb; auto.
Qed.

(** ** State *)
Theorem cwt_restores py inst f a x s r s' : cwt py inst f a x s = (Ok r, s') ->
  s_N s' = s_N s /\ s_pat s' = s_pat s /\ s_lim s' = s_lim s.
Proof.
  intros H. destruct (cwt_ok_inv _ _ _ _ _ _ _ _ H) as ((fs & xp & n1 & scales & P) & U1 & U2).
  rewrite (cwt_run _ _ _ _ _ _ _ _ _ _ P U1 U2) in H. injection H as _ <-. auto.
Qed.

(** with a patience the setter accepts and the installation can serve, even a call that
    raises leaves the state *)
Theorem cwt_keeps py inst f a x s r s' : cwt py inst f a x s = (r, s') ->
  usable_arg py (a_pat a) = true ->
  s_N s' = s_N s /\ s_pat s' = s_pat s /\ s_lim s' = s_lim s.
Proof.
  intros H U2. destruct r as [r|e]; [eapply cwt_restores; eauto|].
  destruct (usable py (s_pat s)) eqn:U1.
  - assert (s' = s) as ->; [|auto].
    destruct (process_fs_and_t (a_fs a) (a_t a) (length x)) as [fs|] eqn:E1;
      [|unfold cwt, mbind, lift in H; rewrite E1 in H; congruence].
    destruct (check_gmw f (a_l1 a)) as [[]|] eqn:E2;
      [|unfold cwt, mbind, lift in H; rewrite E1, E2 in H; congruence].
    destruct (pad_input (a_pad a) x) as [[xp n1]|] eqn:E3;
      [|unfold cwt, mbind, lift in H; rewrite E1, E2, E3 in H; congruence].
    destruct (process_scales (a_scales a) (a_f64s a) (length x)) as [scales|] eqn:E4.
    + assert (P : pre f a x fs xp n1 scales) by (repeat split; auto).
      rewrite (cwt_run _ _ _ _ _ _ _ _ _ _ P U1 U2) in H. discriminate.
    + unfold cwt, mbind, lift, fft_check in H. rewrite E1, E2, E3, E4 in H.
      destruct (negb py && negb (s_pat s =? 0)%Z); congruence.
  - assert (s' = s) as ->; [|auto].
    unfold cwt, mbind, lift, fft_check in H.
    assert (negb py && negb (s_pat s =? 0)%Z = true) as E
      by (unfold usable in U1; destruct py, (s_pat s =? 0)%Z; auto; discriminate).
    destruct (process_fs_and_t _ _ _); [|congruence].
    destruct (check_gmw _ _); [|congruence].
    destruct (pad_input _ _) as [[? ?]|]; [|congruence]. rewrite E in H. congruence.
Qed.

(** a sequence of calls on one wavelet *)
Fixpoint cwt_calls (py inst : bool) (f : wfun) (calls : list (cwt_args * list R)) (s : cstate)
  : list (res (mat C * list R * option (mat C))) * cstate :=
  match calls with
  | [] => ([], s)
  | (a, x) :: cs => let '(r, s1) := cwt py inst f a x s in
                    let '(rs, s2) := cwt_calls py inst f cs s1 in (r :: rs, s2)
  end.

Theorem calls_keep py inst f calls : forall s rs s',
  (forall a x, In (a, x) calls -> usable_arg py (a_pat a) = true) ->
  cwt_calls py inst f calls s = (rs, s') ->
  s_N s' = s_N s /\ s_pat s' = s_pat s /\ s_lim s' = s_lim s.
Proof.
  induction calls as [|[a x] cs IH]; intros s rs s' U H; simpl in H.
  - injection H as _ <-. auto.
  - destruct (cwt py inst f a x s) as [r s1] eqn:E1.
    destruct (cwt_calls py inst f cs s1) as [rs2 s2] eqn:E2.
    injection H as _ <-.
    destruct (cwt_keeps _ _ _ _ _ _ _ _ E1 (U _ _ (or_introl eq_refl))) as (A & B & D).
    destruct (IH _ _ _ (fun a x Hin => U a x (or_intror Hin)) E2) as (A' & B' & D').
    rewrite A', B', D'. auto.
Qed.

(** a call whose patience needs an absent pyfftw: the global patience stays changed *)
Lemma cwt_poison f a x s fs xp n1 scales inst p : pre f a x fs xp n1 scales ->
  a_pat a = PatInt p -> (1 <= p <= 2)%Z -> s_pat s = 0%Z ->
  exists s', cwt false inst f a x s = (Err ValueError, s') /\ s_pat s' = p /\ s_N s' = length xp.
Proof.
  intros (Hfs & Hg & Hp & Hsc) Ep Hp12 E0.
  destruct s as [pat lim N0 cache]. simpl in E0. subst pat.
  unfold cwt, mbind, lift. rewrite Hfs, Hg, Hp. unfold fft_check. simpl.
  rewrite Hsc, Ep. unfold set_patience at 1.
  assert ((0 <=? p)%Z && (p <=? 2)%Z = true) as -> by (destruct (Z.leb_spec 0 p), (Z.leb_spec p 2); auto; lia).
  assert (Eq : (p =? 0)%Z = false) by (apply Z.eqb_neq; lia).
  cbn [s_pat s_lim s_N s_cache].
  destruct (a_vec a).
  - unfold vectorized, mbind, fft_check, mret.
    destruct (use_cache _ _ _).
    + unfold Psih. cbn [s_cache s_N s_pat s_lim].
      destruct cache as [[[pN ps] P]|]; [destruct (_ && allclose scales ps)|];
        cbn [s_pat s_lim s_N s_cache]; rewrite Eq; simpl; eexists; repeat split.
    + cbn [s_pat s_lim s_N s_cache]. rewrite Eq. simpl. eexists; repeat split.
  - unfold for_loop, mbind, fft_check, mret. cbn [s_pat s_lim s_N s_cache]. rewrite Eq. simpl.
    eexists; repeat split.
Qed.
Lemma cwt_poisoned inst f a x s : s_pat s <> 0%Z -> exists e, cwt false inst f a x s = (Err e, s).
Proof.
  intros Hp. unfold cwt, mbind, lift, fft_check.
  destruct (process_fs_and_t _ _ _); [|eauto]. destruct (check_gmw _ _); [|eauto].
  destruct (pad_input _ _) as [[? ?]|]; [|eauto].
  destruct (Z.eqb_spec (s_pat s) 0); [congruence|]. simpl. eauto.
Qed.

(** ** Columns *)
Definition set_rpadded (a : cwt_args) (b : bool) : cwt_args :=
  CA (a_scales a) (a_f64s a) (a_fs a) (a_t a) (a_l1 a) (a_deriv a) (a_pad a) b (a_vec a) (a_pat a) (a_cache a).

Lemma pad_input_len pt x xp n1 : pad_input (Some pt) x = Ok (xp, n1) ->
  exists n_up n2, p2up (Z.of_nat (length x)) = (n_up, n1, n2) /\ Z.of_nat (length xp) = n_up /\
                  (0 <= n1)%Z /\ (n1 + Z.of_nat (length x) + n2 = n_up)%Z /\ (0 <= n2)%Z.
Proof.
  unfold pad_input. destruct x as [|x0 x']; [discriminate|]. remember (x0 :: x') as x.
  assert (Hx : x <> []) by (subst; discriminate). clear Heqx x0 x'.
  assert (HN : (1 <= Z.of_nat (length x))%Z) by (destruct x; [congruence|simpl; lia]).
  destruct (p2up (Z.of_nat (length x))) as [[n_up m1] n2] eqn:E.
  destruct (p2up_bounds _ _ _ _ HN E) as (_ & _ & Hlt & Hsum & Hn2 & Hn1).
  destruct (p2up_pad_short _ _ _ _ HN E) as (Hs & _).
  intros H. exists n_up, n2.
  destruct (padtype_eq_dec pt PSymmetric) as [->|Hpt].
  - destruct (@padsignal_sym R 0 x None n_up m1 n2 Hx ltac:(discriminate) E) as (xq & Eq & Lq & _); [lia|].
    rewrite Eq in H. simpl in H. injection H as <- <-. repeat split; auto; lia.
  - destruct (@padsignal_np R 0 x pt None n_up m1 n2 Hx Hpt ltac:(discriminate) E) as (xq & Eq & Lq & _).
    rewrite Eq in H. simpl in H. injection H as <- <-. repeat split; auto; lia.
Qed.

Lemma pre_rpadded f a b x fs xp n1 scales : pre f a x fs xp n1 scales -> pre f (set_rpadded a b) x fs xp n1 scales.
Proof. intros H; exact H. Qed.

(** [W] is columns [n1 .. n1+N-1] of [V] *)
Definition columns_of (n1 : Z) (N : nat) (V W : mat C) : Prop :=
  ncols W = N /\ nrows W = nrows V /\
  forall i j, (j < N)%nat -> el W i j = el V i (Z.to_nat n1 + j).

Lemma mcols_columns n1 N (V : mat C) : (0 <= n1)%Z -> (n1 + Z.of_nat N <= Z.of_nat (ncols V))%Z ->
  columns_of n1 N V (mcols V n1 (n1 + Z.of_nat N)).
Proof.
  intros H0 H1. unfold columns_of, mcols, norm_bound; simpl.
  destruct (Z.ltb_spec n1 0); [lia|]. destruct (Z.ltb_spec (n1 + Z.of_nat N) 0); [lia|].
  split; [lia|]. split; [reflexivity|]. intros i j Hj. f_equal. lia.
Qed.

Lemma finish_columns a n1 N sc V : (0 <= n1)%Z -> (n1 + Z.of_nat N <= Z.of_nat (ncols V))%Z ->
  a_pad a <> None ->
  columns_of n1 N (finish (set_rpadded a true) n1 N sc V) (finish (set_rpadded a false) n1 N sc V) /\
  ncols (finish (set_rpadded a true) n1 N sc V) = ncols V.
Proof.
  intros H0 H1 Hp. unfold finish. simpl. destruct (a_pad a) eqn:Ep; [|congruence].
  pose proof (mcols_columns n1 N V H0 H1) as (A & B & D).
  destruct (a_l1 a); simpl; [split; [split; auto|reflexivity]|].
  split; [|reflexivity]. unfold columns_of, scale_rows. cbn [ncols nrows el].
  split; [exact A|]. split; [exact B|]. intros i j Hj. rewrite D by auto. reflexivity.
Qed.

Theorem cwt_columns py inst f a x s W sc dW s' pt : a_pad a = Some pt ->
  cwt py inst f (set_rpadded a false) x s = (Ok (W, sc, dW), s') ->
  exists n_up n1 n2 V dV, p2up (Z.of_nat (length x)) = (n_up, n1, n2) /\
    cwt py inst f (set_rpadded a true) x s = (Ok (V, sc, dV), s') /\
    Z.of_nat (ncols V) = n_up /\ nrows V = length sc /\ columns_of n1 (length x) V W /\
    match dV, dW with
    | Some dV, Some dW => Z.of_nat (ncols dV) = n_up /\ columns_of n1 (length x) dV dW
    | None, None => True
    | _, _ => False
    end.
Proof.
  intros Ep H. destruct (cwt_ok_inv _ _ _ _ _ _ _ _ H) as ((fs & xp & n1 & scales & P) & U1 & U2).
  rewrite (cwt_run _ _ _ _ _ _ _ _ _ _ P U1 U2) in H. injection H as <- <- <- <-.
  pose proof P as (_ & _ & Hp & _). change (a_pad (set_rpadded a false)) with (a_pad a) in Hp.
  rewrite Ep in Hp. destruct (pad_input_len _ _ _ _ Hp) as (n_up & n2 & E & L & H0 & Hs & H2).
  exists n_up, n1, n2.
  assert (P' : pre f (set_rpadded a true) x fs xp n1 scales) by exact P.
  rewrite (cwt_run _ _ _ _ _ _ _ _ _ _ P' U1 U2).
  eexists _, _. split; [exact E|]. split; [reflexivity|].
  set (p := psih_used _ _ _ _ _ _).
  assert (forall V : mat C, ncols V = length xp ->
     columns_of n1 (length x) (finish (set_rpadded a true) n1 (length x) scales V)
                              (finish (set_rpadded a false) n1 (length x) scales V) /\
     ncols (finish (set_rpadded a true) n1 (length x) scales V) = ncols V) as K.
  { intros V HV. apply finish_columns; [auto|lia|congruence]. }
  destruct (K (raw p (length scales) (length xp) (sig_dft xp)) eq_refl) as (K1 & K2).
  split; [rewrite K2; exact L|].
  split; [unfold finish; simpl; destruct (a_l1 a); reflexivity|].
  split; [exact K1|].
  change (a_deriv (set_rpadded a true)) with (a_deriv a). change (a_deriv (set_rpadded a false)) with (a_deriv a).
  destruct (a_deriv a); [|exact I].
  destruct (K (draw (a_vec (set_rpadded a true)) p (length scales) (length xp) fs (sig_dft xp)) eq_refl) as (K3 & K4).
  split; [rewrite K4; exact L|exact K3].
Qed.

(** without padding *)
Theorem cwt_columns_nopad py inst f a x s W sc dW s' : a_pad a = None ->
  cwt py inst f a x s = (Ok (W, sc, dW), s') ->
  ncols W = length x /\ nrows W = length sc /\ match dW with Some d => ncols d = length x | None => True end.
Proof.
  intros Ep H. destruct (cwt_ok_inv _ _ _ _ _ _ _ _ H) as ((fs & xp & n1 & scales & P) & U1 & U2).
  rewrite (cwt_run _ _ _ _ _ _ _ _ _ _ P U1 U2) in H. injection H as <- <- <- <-.
  destruct P as (_ & _ & Hp & _). rewrite Ep in Hp. unfold pad_input in Hp.
  destruct x as [|x0 x'] eqn:Ex; [discriminate|]. rewrite <- Ex in *. injection Hp as <- <-.
  assert (forall V, ncols (finish a 0 (length x) scales V) = ncols V /\ nrows (finish a 0 (length x) scales V) = nrows V) as K.
  { intros V. unfold finish. rewrite Ep, Bool.andb_false_r. destruct (a_l1 a); auto. }
  destruct (K (raw (psih_used inst f a scales (length x) (s_cache s)) (length scales) (length x) (sig_dft x))) as (K1 & K2).
  rewrite K1, K2. split; [reflexivity|]. split; [reflexivity|].
  destruct (a_deriv a); [|exact I]. rewrite (proj1 (K _)). reflexivity.
Qed.

(** ** Rows: real-valued wavelets *)
Definition real_valued (f : wfun) : Prop := forall w, Im (wf f w) = 0.
(** this run evaluates the wavelet rather than reading the cache *)
Definition uncached (inst : bool) (a : cwt_args) (s : cstate) : Prop :=
  s_cache s = None \/ use_cache inst (a_vec a) (a_cache a) = false.

(** sample [k] of the wavelet at scale [s] *)
Definition psih_val (f : wfun) (s : R) (n : nat) (nohalf : bool) (k : nat) : C :=
  let v := wf f (s * nth k (xifn 1 n) 0) in
  if negb nohalf && (n mod 2 =? 0)%nat && (k =? n / 2)%nat then Cmul (RtoC (/ 2)) v else v.

Lemma wavelet_call_el f sc n nohalf i k : real_valued f ->
  el (wavelet_call f sc n nohalf) i k = psih_val f (nth i sc 0) n nohalf k.
Proof.
  intros Hr. unfold wavelet_call.
  set (p0 := Mat _ _ _). set (p := if nohalf then p0 else halve_nyquist p0).
  assert (Ep : el p i k = psih_val f (nth i sc 0) n nohalf k).
  { subst p p0. unfold psih_val, halve_nyquist. cbn [ncols nrows el].
    destruct nohalf; cbn [negb andb]; [reflexivity|].
    destruct (n mod 2 =? 0)%nat; cbn [andb el]; [|reflexivity].
    destruct (k =? n / 2)%nat; reflexivity. }
  destruct (wf_cplx f && drops_imag p); [|exact Ep].
  unfold real_part. cbn [el]. rewrite Ep. unfold psih_val.
  set (v := wf f _). assert (Hv : Im v = 0) by apply Hr.
  unfold Im in Hv. destruct v as [a b]; simpl in Hv; subst b.
  destruct (negb nohalf && _ && _); apply C_eq; simpl; ring.
Qed.

Lemma psih_used_el inst f a sc n s i k : real_valued f -> uncached inst a s ->
  el (psih_used inst f a sc n (s_cache s)) i k = psih_val f (nth i sc 0) n false k.
Proof.
  intros Hr Hu. unfold psih_used.
  assert (el (if use_cache inst (a_vec a) (a_cache a) then
      match s_cache s with
      | Some (pN, ps, P) =>
          if (n =? pN)%nat && (length sc =? length ps)%nat && allclose sc ps then P
          else wavelet_call f sc n false
      | None => wavelet_call f sc n false
      end
    else wavelet_call f sc n false) i k = psih_val f (nth i sc 0) n false k) as K.
  { destruct Hu as [->| ->]; [destruct (use_cache _ _ _)|]; apply wavelet_call_el; auto. }
  destruct (a_vec a); [exact K|]. cbn [el]. rewrite wavelet_call_el by auto. reflexivity.
Qed.

Lemma draw_el vec p L n fs xh i j :
  el (draw vec p L n fs xh) i j = dcwt_cell p n fs xh i j.
Proof.
  unfold draw, dcwt_cell. cbn [el]. destruct vec; [reflexivity|].
  unfold idft. f_equal. apply Csum_ext. intros k Hk. apply C_eq; simpl; ring.
Qed.

(** the transform of row [i] as a function of its own scale only *)
Definition row_val (f : wfun) (s : R) (xp : list R) (j : nat) : C :=
  let n := length xp in idft n (fun k => Cmul (psih_val f s n false k) (sig_dft xp k)) j.
Definition drow_val (f : wfun) (s fs : R) (xp : list R) (j : nat) : C :=
  let n := length xp in
  idft n (fun k => Cmul (Cmul (psih_val f s n false k) (sig_dft xp k)) (0, nth k (xifn 1 n) 0 * fs)) j.

Definition finish_cell (a : cwt_args) (n1 : Z) (s : R) (g : nat -> C) (j : nat) : C :=
  let v := g ((if negb (a_rpadded a) && (if a_pad a then true else false) then Z.to_nat n1 else 0%nat) + j)%nat in
  if a_l1 a then v else Cmul v (RtoC (sqrt s)).

Lemma finish_el a n1 N sc V i j : (0 <= n1)%Z -> (n1 <= Z.of_nat (ncols V))%Z ->
  el (finish a n1 N sc V) i j = finish_cell a n1 (nth i sc 0) (el V i) j.
Proof.
  intros H0 H1. unfold finish, finish_cell.
  destruct (negb (a_rpadded a) && _).
  - unfold mcols, scale_rows, norm_bound. destruct (Z.ltb_spec n1 0); [lia|].
    rewrite (Z.min_l n1) by lia. destruct (a_l1 a); reflexivity.
  - destruct (a_l1 a); reflexivity.
Qed.
Lemma finish_cell_ext a n1 s g h j : (forall k, g k = h k) -> finish_cell a n1 s g j = finish_cell a n1 s h j.
Proof. intros H. unfold finish_cell. rewrite H. reflexivity. Qed.

Lemma pad_input_n1 pt x xp n1 : pad_input pt x = Ok (xp, n1) -> (0 <= n1 <= Z.of_nat (length xp))%Z.
Proof.
  destruct pt as [pt|]; intros H.
  - destruct (pad_input_len _ _ _ _ H) as (u & n2 & E & L & A & B & D). lia.
  - unfold pad_input in H. destruct x; [discriminate|]. injection H as <- <-. lia.
Qed.

Theorem cwt_rows py inst f a x s W sc dW s' : real_valued f -> uncached inst a s ->
  cwt py inst f a x s = (Ok (W, sc, dW), s') ->
  exists fs xp n1, process_fs_and_t (a_fs a) (a_t a) (length x) = Ok fs /\
    pad_input (a_pad a) x = Ok (xp, n1) /\
    nrows W = length sc /\
    (forall i j, el W i j = finish_cell a n1 (nth i sc 0) (row_val f (nth i sc 0) xp) j) /\
    match dW with
    | Some d => forall i j, el d i j = finish_cell a n1 (nth i sc 0) (drow_val f (nth i sc 0) fs xp) j
    | None => a_deriv a = false
    end.
Proof.
  intros Hr Hu H. destruct (cwt_ok_inv _ _ _ _ _ _ _ _ H) as ((fs & xp & n1 & scales & P) & U1 & U2).
  rewrite (cwt_run _ _ _ _ _ _ _ _ _ _ P U1 U2) in H. injection H as <- <- <- <-.
  destruct P as (Hfs & Hg & Hp & Hsc). exists fs, xp, n1. split; [exact Hfs|]. split; [exact Hp|].
  pose proof (pad_input_n1 _ _ _ _ Hp) as Hn1.
  split; [unfold finish; destruct (negb _ && _), (a_l1 a); reflexivity|].
  split.
  - intros i j. rewrite finish_el by (unfold raw; cbn [ncols]; lia). apply finish_cell_ext. intros k.
    unfold raw, row_val, cwt_cell. cbn [el]. unfold idft. f_equal. apply Csum_ext. intros q Hq.
    rewrite psih_used_el by auto. reflexivity.
  - destruct (a_deriv a) eqn:Ed; [|reflexivity].
    intros i j. rewrite finish_el by (unfold draw; cbn [ncols]; lia). apply finish_cell_ext. intros k.
    rewrite draw_el. unfold drow_val, dcwt_cell, idft. f_equal. apply Csum_ext. intros q Hq.
    rewrite psih_used_el by auto. reflexivity.
Qed.

(** two scale arrays agreeing in one entry *)
Theorem cwt_row_own_scale py inst f a x s sc1 sc2 W1 W2 r1 r2 d1 d2 s1 s2 i1 i2 :
  real_valued f -> uncached inst a s ->
  cwt py inst f (set_scales a sc1) x s = (Ok (W1, r1, d1), s1) ->
  cwt py inst f (set_scales a sc2) x s = (Ok (W2, r2, d2), s2) ->
  nth i1 r1 0 = nth i2 r2 0 ->
  (forall j, el W1 i1 j = el W2 i2 j) /\
  match d1, d2 with
  | Some d1, Some d2 => forall j, el d1 i1 j = el d2 i2 j
  | None, None => True
  | _, _ => False
  end.
Proof.
  intros Hr Hu H1 H2 E.
  destruct (cwt_rows _ _ _ (set_scales a sc1) _ _ _ _ _ _ Hr Hu H1) as (fs & xp & n1 & Ef & Ep & _ & A & B).
  destruct (cwt_rows _ _ _ (set_scales a sc2) _ _ _ _ _ _ Hr Hu H2) as (fs' & xp' & n1' & Ef' & Ep' & _ & A' & B').
  simpl in Ef, Ef', Ep, Ep'. rewrite Ef in Ef'. injection Ef' as <-. rewrite Ep in Ep'. injection Ep' as <- <-.
  split; [intros j; rewrite A, A', E; reflexivity|].
  destruct d1, d2; try exact I.
  - intros j. rewrite B, B', E. reflexivity.
  - simpl in B'. destruct (cwt_ok_inv _ _ _ _ _ _ _ _ H1) as ((f1 & x1 & m1 & c1 & P1) & U1 & U2).
    rewrite (cwt_run _ _ _ _ _ _ _ _ _ _ P1 U1 U2) in H1. simpl in H1. rewrite B' in H1. discriminate.
  - simpl in B. destruct (cwt_ok_inv _ _ _ _ _ _ _ _ H2) as ((f1 & x1 & m1 & c1 & P1) & U1 & U2).
    rewrite (cwt_run _ _ _ _ _ _ _ _ _ _ P1 U1 U2) in H2. simpl in H2. rewrite B in H2. discriminate.
Qed.

(** vectorized and loop implementations *)
Definition set_vec (a : cwt_args) (b : bool) : cwt_args :=
  CA (a_scales a) (a_f64s a) (a_fs a) (a_t a) (a_l1 a) (a_deriv a) (a_pad a) (a_rpadded a) b (a_pat a) (a_cache a).
Definition meq_opt (X Y : option (mat C)) : Prop :=
  match X, Y with Some X, Some Y => meq X Y | None, None => True | _, _ => False end.

Theorem cwt_vec_loop py inst f a x s W sc dW s' : real_valued f -> uncached inst (set_vec a true) s ->
  cwt py inst f (set_vec a true) x s = (Ok (W, sc, dW), s') ->
  exists W' dW' s'', cwt py inst f (set_vec a false) x s = (Ok (W', sc, dW'), s'') /\ meq W W' /\ meq_opt dW dW'.
Proof.
  intros Hr Hu H. pose proof H as H0.
  destruct (cwt_ok_inv _ _ _ _ _ _ _ _ H) as ((fs & xp & n1 & scales & P) & U1 & U2).
  assert (P' : pre f (set_vec a false) x fs xp n1 scales) by exact P.
  pose proof (cwt_run py inst _ _ _ _ _ _ _ _ P' U1 U2) as E'.
  eexists _, _, _. rewrite E'.
  assert (Esc : sc = scales) by (rewrite (cwt_run _ _ _ _ _ _ _ _ _ _ P U1 U2) in H; congruence). subst sc.
  split; [reflexivity|].
  assert (Hu' : uncached inst (set_vec a false) s).
  { right. simpl. destruct inst, (a_cache a) as [[]|]; reflexivity. }
  destruct (cwt_rows _ _ _ _ _ _ _ _ _ _ Hr Hu H0) as (fs1 & xp1 & m1 & Ef1 & Ep1 & R1 & A1 & B1).
  destruct (cwt_rows _ _ _ _ _ _ _ _ _ _ Hr Hu' E') as (fs2 & xp2 & m2 & Ef2 & Ep2 & R2 & A2 & B2).
  simpl in Ef1, Ef2, Ep1, Ep2. rewrite Ef1 in Ef2. injection Ef2 as <-. rewrite Ep1 in Ep2. injection Ep2 as <- <-.
  rewrite (cwt_run _ _ _ _ _ _ _ _ _ _ P U1 U2) in H. injection H as EW EdW _.
  assert (Cf : forall V V', ncols V = ncols V' -> ncols (finish (set_vec a true) n1 (length x) scales V) =
                            ncols (finish (set_vec a false) n1 (length x) scales V')).
  { intros V V' HV. unfold finish. simpl. destruct (negb _ && _), (a_l1 a); unfold mcols; simpl; rewrite HV; reflexivity. }
  split.
  - split; [congruence|]. split; [rewrite <- EW; apply Cf; reflexivity|].
    intros i j _ _. rewrite A1, A2. reflexivity.
  - unfold meq_opt. subst dW.
    change (a_deriv (set_vec a true)) with (a_deriv a) in *. change (a_deriv (set_vec a false)) with (a_deriv a) in *.
    destruct (a_deriv a); [|exact I].
    split; [unfold finish; simpl; destruct (negb _ && _), (a_l1 a); reflexivity|].
    split; [apply Cf; reflexivity|].
    intros i j _ _. rewrite B1, B2. reflexivity.
Qed.

(** ** Batched input *)
Lemma pad_rows_len pt xs ps : pad_rows pt xs = Ok ps -> length ps = length xs.
Proof.
  revert ps; induction xs as [|x xs IH]; intros ps H; simpl in H; [injection H as <-; reflexivity|].
  destruct (padsignal 0 x pt None) as [[[[xp u] n1] n2]|]; [|discriminate]. simpl in H.
  destruct (pad_rows pt xs) as [qs|]; [|discriminate]. simpl in H. injection H as <-. simpl. f_equal. auto.
Qed.
Lemma padsignal_n1 x pt xp u n1 n2 : padsignal 0 x pt None = Ok (xp, u, n1, n2) -> p2up (Z.of_nat (length x)) = (u, n1, n2).
Proof.
  destruct x as [|x0 x']; [discriminate|]. remember (x0 :: x') as x.
  rewrite padsignal_unfold by (subst; discriminate). cbn [pad_widths].
  destruct (p2up (Z.of_nat (length x))) as [[a b] c].
  destruct pt; try (destruct (np_pad 0 _ x b c); cbn [bind]; intros H; [injection H as _ <- <- <-; reflexivity|discriminate]).
  intros H; injection H as _ <- <- <-; reflexivity.
Qed.
Lemma pad_rows_nth pt : forall xs ps b, pad_rows pt xs = Ok ps -> (b < length xs)%nat ->
  exists u n1 n2, padsignal 0 (nth b xs []) pt None = Ok (nth b ps [], u, n1, n2) /\
                  p2up (Z.of_nat (length (nth b xs []))) = (u, n1, n2).
Proof.
  induction xs as [|x xs IH]; intros ps b H Hb; simpl in *; [lia|].
  destruct (padsignal 0 x pt None) as [[[[xp u] n1] n2]|] eqn:E; [|discriminate]. simpl in H.
  destruct (pad_rows pt xs) as [qs|]; [|discriminate]. simpl in H. injection H as <-.
  destruct b; simpl.
  - exists u, n1, n2. split; [exact E|]. eapply padsignal_n1; eauto.
  - apply IH; auto. lia.
Qed.

Definition same_length (xs : list (list R)) (N : nat) : Prop :=
  forall b, (b < length xs)%nat -> length (nth b xs []) = N.

Lemma pad_input2_item pt xs N xps n1 : same_length xs N -> pad_input2 pt xs N = Ok (xps, n1) ->
  length xps = length xs /\
  forall b, (b < length xs)%nat -> pad_input pt (nth b xs []) = Ok (nth b xps [], n1).
Proof.
  intros HL. unfold pad_input2, pad_input. destruct N; [discriminate|].
  destruct pt as [pt|].
  - destruct (pad_rows pt xs) as [ps|] eqn:E; [|discriminate]. cbn [bind].
    destruct (p2up (Z.of_nat (S N))) as [[u m1] m2] eqn:E2. intros H. injection H as <- <-.
    split; [eapply pad_rows_len; eauto|]. intros b Hb.
    destruct (pad_rows_nth _ _ _ _ E Hb) as (u' & k1 & k2 & Ep & E3). rewrite Ep. cbn [bind].
    rewrite HL in E3 by auto. rewrite E2 in E3. injection E3 as <- <- <-. reflexivity.
  - intros H. injection H as <- <-. split; [reflexivity|]. intros b Hb.
    specialize (HL b Hb). destruct (nth b xs []); [discriminate|reflexivity].
Qed.
Lemma pad_input_length_eq pt x y xp yp n1 m1 : length x = length y -> pad_input pt x = Ok (xp, n1) ->
  pad_input pt y = Ok (yp, m1) -> length xp = length yp.
Proof.
  intros HL H1 H2. destruct pt as [pt|].
  - destruct (pad_input_len _ _ _ _ H1) as (u & n2 & E & L & _). destruct (pad_input_len _ _ _ _ H2) as (u' & n2' & E' & L' & _).
    rewrite HL in E. rewrite E in E'. injection E' as <- <- <-. lia.
  - unfold pad_input in *. destruct x, y; try discriminate. injection H1 as <- <-. injection H2 as <- <-. exact HL.
Qed.

Lemma nth_map_in {A B} (g : A -> B) l k d d' : (k < length l)%nat -> nth k (map g l) d = g (nth k l d').
Proof. intros H. rewrite (nth_indep _ d (g d')) by (rewrite map_length; auto). apply map_nth. Qed.

Definition mat0 : mat C := Mat 0 0 (fun _ _ => C0).

Theorem cwt_batch_full py inst f a xs N s Ws sc dWs s' : xs <> [] -> same_length xs N ->
  cwt2 py inst f a xs s = (Ok (Ws, sc, dWs), s') ->
  length Ws = length xs /\ (forall l, dWs = Some l -> length l = length xs) /\
  forall b, (b < length xs)%nat ->
    cwt py inst f a (nth b xs []) s =
      (Ok (nth b Ws mat0, sc, opt_map (fun l => nth b l mat0) dWs), s').
Proof.
  intros Hne HL H.
  assert (Hpos : (0 < length xs)%nat) by (destruct xs; [congruence|simpl; lia]).
  assert (EN : length (nth 0 xs []) = N) by (apply HL; destruct xs; [congruence|simpl; lia]).
  unfold cwt2, mbind, lift in H. rewrite EN in H.
  destruct (process_fs_and_t (a_fs a) (a_t a) N) as [fs|] eqn:E1; [|discriminate].
  destruct (check_gmw f (a_l1 a)) as [[]|] eqn:E2; [|discriminate].
  destruct (pad_input2 (a_pad a) xs N) as [[xps n1]|] eqn:E3; [|discriminate].
  destruct (pad_input2_item _ _ _ _ _ HL E3) as (Lxp & Hitem).
  assert (Lall : forall b, (b < length xs)%nat -> length (nth b xps []) = length (nth 0 xps [])).
  { intros b Hb. eapply pad_input_length_eq with (x := nth b xs []) (y := nth 0 xs []).
    - rewrite HL, EN by auto. reflexivity.
    - apply Hitem; auto.
    - apply Hitem. exact Hpos. }
  assert (exists r, cwt py inst f a (nth 0 xs []) s = (Ok r, s')) as (r0 & H0).
  { unfold cwt, mbind, lift. rewrite EN, E1, E2, (Hitem 0%nat) by exact Hpos.
    destruct (fft_check py s) as [[[]|] s1]; [|discriminate].
    destruct (process_scales _ _ N); [|discriminate].
    cbn [set_N s_pat s_lim s_N s_cache] in H |- *.
    destruct (set_patience (a_pat a) _) as [[[]|] s2]; [|discriminate].
    destruct (a_vec a).
    - unfold vectorized2, vectorized, mbind, mret in *.
      match type of H with context [(if use_cache inst true (a_cache a) then ?u else ?v) s2] =>
        destruct ((if use_cache inst true (a_cache a) then u else v) s2) as [[p|] s3] end; [|discriminate].
      destruct (fft_check py s3) as [[[]|] s4]; [|discriminate].
      cbn [set_N s_pat s_lim s_N s_cache set_patience] in H |- *. injection H as _ _ _ <-. eauto.
    - unfold for_loop2, for_loop, mbind, mret in *.
      destruct (fft_check py s2) as [[[]|] s4]; [|discriminate].
      cbn [set_N s_pat s_lim s_N s_cache set_patience] in H |- *. injection H as _ _ _ <-. eauto. }
  destruct (cwt_ok_inv _ _ _ _ _ _ _ _ H0) as ((fs0 & xp0 & m1 & scales & P) & U1 & U2).
  pose proof P as (Pfs & _ & Pp & Psc). rewrite EN in Pfs, Psc.
  rewrite (Hitem 0%nat) in Pp by exact Hpos. injection Pp as <- <-.
  rewrite E1 in Pfs. injection Pfs as <-.
  assert (forall b, (b < length xs)%nat -> pre f a (nth b xs []) fs (nth b xps []) n1 scales) as PB.
  { intros b Hb. unfold pre. rewrite HL by auto. repeat split; auto. }
  assert (Es' : s' = CS (s_pat s) (s_lim s) (s_N s) (cache_after inst f a scales (length (nth 0 xps [])) (s_cache s))).
  { rewrite (cwt_run _ _ _ _ _ _ _ _ _ _ P U1 U2) in H0. injection H0 as _ <-. reflexivity. }
  set (p := psih_used inst f a scales (length (nth 0 xps [])) (s_cache s)).
  assert (EWs : Ws = map (fun xp => finish a n1 N scales (raw p (length scales) (length (nth 0 xps [])) (dft (length (nth 0 xps [])) (fun m => RtoC (nth m xp 0))))) xps /\
          sc = scales /\
          dWs = if a_deriv a then Some (map (fun xp => finish a n1 N scales (draw (a_vec a) p (length scales) (length (nth 0 xps [])) fs (dft (length (nth 0 xps [])) (fun m => RtoC (nth m xp 0))))) xps) else None).
  { revert H. unfold fft_check at 1.
    assert (negb py && negb (s_pat s =? 0)%Z = false) as -> by (unfold usable in U1; destruct py, (s_pat s =? 0)%Z; auto).
    rewrite Psc. set (n := length (nth 0 xps [])) in *.
    assert (exists q l, set_patience (a_pat a) (CS (s_pat s) (s_lim s) n (s_cache s)) = (Ok tt, CS q l n (s_cache s)) /\
                      negb py && negb (q =? 0)%Z = false) as (q & l & Esp & Eq).
    { unfold set_patience, usable_arg, usable in *. destruct (a_pat a) as [q|q l|]; simpl.
      - destruct ((0 <=? q)%Z && (q <=? 2)%Z) eqn:E; [|discriminate].
        exists q, (s_lim s). split; [reflexivity|]. destruct py, (q =? 0)%Z; auto.
      - exists q, l. split; [reflexivity|]. destruct py, (q =? 0)%Z; auto.
      - discriminate. }
    unfold set_N at 1. rewrite Esp.
    subst p. unfold psih_used, draw, raw.
    destruct (a_vec a) eqn:Ev.
    - unfold vectorized2, mbind, fft_check, mret.
      destruct (use_cache inst true (a_cache a)).
      + unfold Psih. cbn [s_cache s_N s_pat s_lim].
        destruct (s_cache s) as [[[pN ps] P0]|]; [destruct (_ && allclose scales ps)|];
          cbn [s_pat s_lim s_N s_cache]; rewrite Eq; cbn [set_N set_patience s_pat s_lim s_N s_cache];
          intros H; injection H as <- <- <- _;
          (split; [rewrite !map_map; reflexivity|]; split; [reflexivity|]; destruct (a_deriv a); [|reflexivity];
           unfold opt_map; rewrite !map_map; reflexivity).
      + cbn [s_pat s_lim s_N s_cache]. rewrite Eq; cbn [set_N set_patience s_pat s_lim s_N s_cache];
          intros H; injection H as <- <- <- _;
          (split; [rewrite !map_map; reflexivity|]; split; [reflexivity|]; destruct (a_deriv a); [|reflexivity];
           unfold opt_map; rewrite !map_map; reflexivity).
    - unfold for_loop2, mbind, fft_check, mret. cbn [s_pat s_lim s_N s_cache]. rewrite Eq.
      cbn [set_N set_patience s_pat s_lim s_N s_cache].
      intros H; injection H as <- <- <- _;
        (split; [rewrite !map_map; reflexivity|]; split; [reflexivity|]; destruct (a_deriv a); [|reflexivity];
         unfold opt_map; rewrite !map_map; reflexivity). }
  destruct EWs as (EW & Esc & Ed).
  split; [rewrite EW, map_length; exact Lxp|].
  split; [intros l El; rewrite Ed in El; destruct (a_deriv a); [injection El as <-; rewrite map_length; exact Lxp|discriminate]|].
  intros b Hb. rewrite (cwt_run _ _ _ _ _ _ _ _ _ _ (PB b Hb) U1 U2).
  rewrite Es', EW, Ed, Esc.
  rewrite (nth_map_in _ xps b mat0 []) by (rewrite Lxp; auto).
  rewrite HL by auto. unfold sig_dft. rewrite (Lall b Hb).
  f_equal. f_equal. f_equal.
  destruct (a_deriv a); [|reflexivity]. unfold opt_map.
  rewrite (nth_map_in _ xps b mat0 []) by (rewrite Lxp; auto). reflexivity.
Qed.

Theorem cwt_batch py inst f a xs N s Ws sc dWs s' : xs <> [] -> same_length xs N ->
  cwt2 py inst f a xs s = (Ok (Ws, sc, dWs), s') ->
  length Ws = length xs /\
  forall b, (b < length xs)%nat ->
    cwt py inst f a (nth b xs []) s =
      (Ok (nth b Ws mat0, sc, opt_map (fun l => nth b l mat0) dWs), s').
Proof. intros H1 H2 H3. destruct (cwt_batch_full _ _ _ _ _ _ _ _ _ _ _ H1 H2 H3) as (A & _ & B). split; assumption. Qed.
