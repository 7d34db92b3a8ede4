(** [icwt] and its mean, [cwt_higher_order], [trigdiff], batches. *)
From Coq Require Import Reals Lra.
From Coq Require Import ZifyBool ZifyNat.
From Verif Require Import Py Round Cplx CplxProofs Padding PaddingProofs Buffer Freqs Squeeze Scales Cwt CwtProofs CwtThms
  CwtTone.
Local Open Scope R_scope.
Ltac Zify.zify_post_hook ::= Z.div_mod_to_equations.

(** ** The mean added by [icwt] *)
Definition rmap {A B} (g : A -> B) (r : res A) : res B := match r with Ok a => Ok (g a) | Err e => Err e end.
Definition shift_by (m : R) (r : res (list R)) : res (list R) := rmap (map (fun y => y + m)) r.

Lemma ladd_shift a b x y : ladd (map (fun t => t + a) x) (map (fun t => t + b) y) = shift_by (a + b) (ladd x y).
Proof.
  unfold ladd, shift_by. rewrite !map_length. destruct (length x =? length y)%nat; [|reflexivity]. simpl. f_equal.
  revert y. induction x as [|x0 x IH]; intros [|y0 y]; simpl; try reflexivity. f_equal; [ring|apply IH].
Qed.

Definition is_piece (k : scale_kind) : bool := match k with KPiece _ => true | _ => false end.

Lemma icwt_rec_mean f Cpsi f64 one_int l1 x_len pt rpadded : forall fuel Wx scales nv,
  exists c : nat,
  (forall m, icwt_rec fuel f Cpsi Wx scales f64 nv one_int l1 x_len m pt rpadded =
             shift_by (INR c * m) (icwt_rec fuel f Cpsi Wx scales f64 nv one_int l1 x_len 0 pt rpadded)) /\
  (1 <= c)%nat /\
  (forall k, process_scales_arr f64 scales = Ok k -> if is_piece k then (2 <= c)%nat else c = 1%nat).
Proof.
  induction fuel as [|fuel IH]; intros Wx scales nv.
  - exists (if match process_scales_arr f64 scales with Ok k => is_piece k | _ => false end then 2%nat else 1%nat).
    split; [reflexivity|]. destruct (process_scales_arr f64 scales) as [k|]; [|split; [lia|discriminate]].
    split; [destruct (is_piece k); lia|]. intros k' E; injection E as <-. destruct (is_piece k); lia.
  - assert (Hsc : forall k c, process_scales_arr f64 scales = Ok k ->
       (forall m, icwt_rec (S fuel) f Cpsi Wx scales f64 nv one_int l1 x_len m pt rpadded =
             shift_by (INR c * m) (icwt_rec (S fuel) f Cpsi Wx scales f64 nv one_int l1 x_len 0 pt rpadded)) ->
       (1 <= c)%nat -> (if is_piece k then (2 <= c)%nat else c = 1%nat) ->
       exists c : nat,
       (forall m, icwt_rec (S fuel) f Cpsi Wx scales f64 nv one_int l1 x_len m pt rpadded =
             shift_by (INR c * m) (icwt_rec (S fuel) f Cpsi Wx scales f64 nv one_int l1 x_len 0 pt rpadded)) /\
       (1 <= c)%nat /\
       (forall k, process_scales_arr f64 scales = Ok k -> if is_piece k then (2 <= c)%nat else c = 1%nat)).
    { intros k c E A B D. exists c. split; [exact A|]. split; [exact B|]. intros k' E'. rewrite E in E'. injection E' as <-. exact D. }
    destruct (process_scales_arr f64 scales) as [k|e] eqn:Ek.
    + destruct (is_piece k) eqn:Ep.
      * destruct k as [n| |v]; try discriminate.
        destruct (logscale_transition_idx f64 scales) as [[idx|]|e] eqn:Ei.
        -- destruct (IH (mrows Wx 0 (Z.of_nat idx)) (firstn idx scales) None) as (c1 & A1 & B1 & _).
           destruct (IH (mrows Wx (Z.of_nat idx) (Z.of_nat (nrows Wx))) (skipn idx scales) None) as (c2 & A2 & B2 & _).
           apply (Hsc _ (c1 + c2)%nat eq_refl); [|lia|cbn [is_piece]; lia].
           intros m. cbn [icwt_rec]. destruct (check_gmw f l1); [|reflexivity]. rewrite Ek. cbn [bind].
           destruct (negb (length scales =? nrows Wx)%nat); [reflexivity|]. rewrite Ei. cbn [bind].
           rewrite (A1 m), (A2 m).
           destruct (icwt_rec fuel f Cpsi (mrows Wx 0 (Z.of_nat idx)) (firstn idx scales) f64 None one_int l1 x_len 0 pt rpadded) as [x|]; [|reflexivity].
           cbn [shift_by rmap bind].
           destruct (icwt_rec fuel f Cpsi (mrows Wx (Z.of_nat idx) (Z.of_nat (nrows Wx))) (skipn idx scales) f64 None one_int l1 x_len 0 pt rpadded) as [y|]; [|reflexivity].
           cbn [shift_by rmap bind]. rewrite ladd_shift, plus_INR. f_equal. ring.
        -- apply (Hsc _ 2%nat eq_refl); [|lia|cbn [is_piece]; lia].
           intros m. cbn [icwt_rec]. destruct (check_gmw f l1); [|reflexivity]. rewrite Ek. cbn [bind].
           destruct (negb (length scales =? nrows Wx)%nat); [reflexivity|]. rewrite Ei. reflexivity.
        -- apply (Hsc _ 2%nat eq_refl); [|lia|cbn [is_piece]; lia].
           intros m. cbn [icwt_rec]. destruct (check_gmw f l1); [|reflexivity]. rewrite Ek. cbn [bind].
           destruct (negb (length scales =? nrows Wx)%nat); [reflexivity|]. rewrite Ei. reflexivity.
      * apply (Hsc _ 1%nat eq_refl); [|lia|rewrite Ep; reflexivity].
        intros m. cbn [icwt_rec]. destruct (check_gmw f l1); [|reflexivity]. rewrite Ek. cbn [bind].
        destruct k as [n| |v]; [| |discriminate].
        -- destruct (match nv with Some m0 => _ | None => Ok tt end); [|reflexivity]. cbn [bind].
           destruct (negb (length scales =? nrows Wx)%nat); [reflexivity|].
           destruct (if one_int then _ else _) as [x|]; [|reflexivity]. cbn [bind shift_by rmap]. f_equal.
           rewrite map_map. apply map_ext. intros y. simpl. ring.
        -- destruct (match nv with Some m0 => _ | None => Ok tt end); [|reflexivity]. cbn [bind].
           destruct (negb (length scales =? nrows Wx)%nat); [reflexivity|].
           destruct (if one_int then _ else _) as [x|]; [|reflexivity]. cbn [bind shift_by rmap]. f_equal.
           rewrite map_map. apply map_ext. intros y. simpl. ring.
    + exists 1%nat. split; [|split; [lia|discriminate]].
      intros m. cbn [icwt_rec]. destruct (check_gmw f l1); [|reflexivity]. rewrite Ek. reflexivity.
Qed.

Theorem icwt_mean f Cpsi Wx scales f64 nv one_int l1 x_len m pt rpadded k :
  process_scales_arr f64 scales = Ok k -> is_piece k = false ->
  icwt f Cpsi Wx scales f64 nv one_int l1 x_len m pt rpadded =
  shift_by m (icwt f Cpsi Wx scales f64 nv one_int l1 x_len 0 pt rpadded).
Proof.
  intros Ek Ep. unfold icwt.
  destruct (icwt_rec_mean f Cpsi f64 one_int l1
     (match x_len with Some l => if (l =? 0)%Z then Z.of_nat (ncols Wx) else l | None => Z.of_nat (ncols Wx) end) pt rpadded
     (S (length scales)) Wx scales nv) as (c & A & _ & B).
  specialize (B k Ek). rewrite Ep in B. subst c. rewrite (A m). simpl INR. rewrite Rmult_1_l. reflexivity.
Qed.

(** piecewise scales: added once per part *)
Theorem icwt_mean_piece f Cpsi Wx scales f64 nv one_int l1 x_len pt rpadded v :
  process_scales_arr f64 scales = Ok (KPiece v) -> exists c, (2 <= c)%nat /\ forall m,
  icwt f Cpsi Wx scales f64 nv one_int l1 x_len m pt rpadded =
  shift_by (INR c * m) (icwt f Cpsi Wx scales f64 nv one_int l1 x_len 0 pt rpadded).
Proof.
  intros Ek. unfold icwt.
  destruct (icwt_rec_mean f Cpsi f64 one_int l1
     (match x_len with Some l => if (l =? 0)%Z then Z.of_nat (ncols Wx) else l | None => Z.of_nat (ncols Wx) end) pt rpadded
     (S (length scales)) Wx scales nv) as (c & A & _ & B).
  exists c. split; [exact (B _ Ek)|exact A].
Qed.

(** two parts, each log or linear: exactly twice *)
Theorem icwt_mean_two f Cpsi Wx scales f64 nv one_int l1 x_len pt rpadded v idx k1 k2 :
  process_scales_arr f64 scales = Ok (KPiece v) -> logscale_transition_idx f64 scales = Ok (Some idx) ->
  process_scales_arr f64 (firstn idx scales) = Ok k1 -> is_piece k1 = false ->
  process_scales_arr f64 (skipn idx scales) = Ok k2 -> is_piece k2 = false -> forall m,
  icwt f Cpsi Wx scales f64 nv one_int l1 x_len m pt rpadded =
  shift_by (2 * m) (icwt f Cpsi Wx scales f64 nv one_int l1 x_len 0 pt rpadded).
Proof.
  intros Ek Ei E1 P1 E2 P2 m. unfold icwt.
  set (xl := match x_len with Some l => _ | None => _ end).
  cbn [icwt_rec]. destruct (check_gmw f l1); [|reflexivity]. rewrite Ek. cbn [bind].
  destruct (negb (length scales =? nrows Wx)%nat); [reflexivity|]. rewrite Ei. cbn [bind].
  destruct (icwt_rec_mean f Cpsi f64 one_int l1 xl pt rpadded (length scales) (mrows Wx 0 (Z.of_nat idx)) (firstn idx scales) None) as (c1 & A1 & _ & B1).
  destruct (icwt_rec_mean f Cpsi f64 one_int l1 xl pt rpadded (length scales) (mrows Wx (Z.of_nat idx) (Z.of_nat (nrows Wx))) (skipn idx scales) None) as (c2 & A2 & _ & B2).
  specialize (B1 _ E1). rewrite P1 in B1. specialize (B2 _ E2). rewrite P2 in B2. subst c1 c2.
  rewrite (A1 m), (A2 m).
  destruct (icwt_rec (length scales) f Cpsi (mrows Wx 0 (Z.of_nat idx)) (firstn idx scales) f64 None one_int l1 xl 0 pt rpadded) as [x|]; [|reflexivity].
  cbn [shift_by rmap bind].
  destruct (icwt_rec (length scales) f Cpsi (mrows Wx (Z.of_nat idx) (Z.of_nat (nrows Wx))) (skipn idx scales) f64 None one_int l1 xl 0 pt rpadded) as [y|]; [|reflexivity].
  cbn [shift_by rmap bind]. rewrite ladd_shift. f_equal. simpl. ring.
Qed.

Lemma icwt_2int_rpadded f Cpsi Wx scales f64 nv l1 x_len m pt n : wf_norm f = NotGmw ->
  process_scales_arr f64 scales = Ok (KLog n) -> nv = None \/ nv = Some n -> length scales = nrows Wx ->
  icwt f Cpsi Wx scales f64 nv false l1 x_len m pt true = Err UnboundLocalError.
Proof.
  intros Hf Hk Hnv HL. unfold icwt. cbn [icwt_rec]. unfold check_gmw. rewrite Hf.
  destruct l1; cbn [bind]; rewrite Hk; cbn [bind];
    (destruct Hnv as [->| ->]; [|rewrite Z.eqb_refl]; cbn [bind]; rewrite HL, Nat.eqb_refl; reflexivity).
Qed.

(** ** Higher orders *)
Lemma cwt_fresh_ok py f a x s W sc dW s' : cwt_fresh py f a x s = (Ok (W, sc, dW), s') -> s' = s.
Proof.
  unfold cwt_fresh. destruct (cwt py true f a x _) as [r t] eqn:E. intros H. injection H as -> <-.
  apply cwt_restores in E. destruct E as (_ & E2 & E3). simpl in *. rewrite E2, E3. destruct s; reflexivity.
Qed.
Lemma cwt_fresh_scales py f a l x s W sc dW s' : a_scales a = ScArr l ->
  cwt_fresh py f a x s = (Ok (W, sc, dW), s') -> sc = l.
Proof.
  intros Ha. unfold cwt_fresh. destruct (cwt py true f a x _) as [r t] eqn:E. intros H. injection H as -> <-.
  destruct (cwt_ok_inv _ _ _ _ _ _ _ _ E) as ((fs & xp & n1 & scales & P) & U1 & U2).
  rewrite (cwt_run _ _ _ _ _ _ _ _ _ _ P U1 U2) in E. injection E as _ <- _ _.
  destruct P as (_ & _ & _ & P). rewrite Ha in P. unfold process_scales in P.
  destruct (process_scales_arr _ _); [|discriminate]. injection P as <-. reflexivity.
Qed.

Lemma msequence_ok {A B} (g : A -> M B) (inv : forall a b s s', g a s = (Ok b, s') -> s' = s) l : forall s r s',
  msequence (map g l) s = (Ok r, s') -> s' = s /\ Forall2 (fun a b => g a s = (Ok b, s)) l r.
Proof.
  induction l as [|a l IH]; intros s r s' H; simpl in H.
  - unfold mret in H. injection H as <- <-. split; [reflexivity|constructor].
  - unfold mbind at 1 in H. destruct (g a s) as [[b|e] s1] eqn:E; [|discriminate].
    pose proof (inv _ _ _ _ E) as ->. unfold mbind in H.
    destruct (msequence (map g l) s) as [[r'|e] s2] eqn:E2; [|discriminate].
    destruct (IH _ _ _ E2) as (-> & F). unfold mret in H. injection H as <- <-.
    split; [reflexivity|]. constructor; assumption.
Qed.
Lemma msequence_run {A B} (g : A -> M B) l s r : Forall2 (fun a b => g a s = (Ok b, s)) l r ->
  msequence (map g l) s = (Ok r, s).
Proof.
  induction 1 as [|a b l r H F IH]; simpl; [reflexivity|].
  unfold mbind at 1. rewrite H. unfold mbind. rewrite IH. reflexivity.
Qed.

(** the transform of order [k] *)
Theorem ho_mean py fam o average a x s V dV s' : ho_averages o average = true ->
  cwt_higher_order py fam o average a x s = (Ok (V, dV), s') ->
  s' = s /\ exists sc outs M, ho_scales a (length x) = Ok (ScArr sc) /\ V = HOOne M /\
    length outs = length (ho_list o) /\
    (forall q, (q < length (ho_list o))%nat -> exists dW,
       cwt_fresh py (fam (nth q (ho_list o) 0%nat)) (set_scales a (ScArr sc)) x s =
         (Ok (nth q outs mat0, sc, dW), s)) /\
    (ho_list o <> [] -> nrows M = nrows (nth 0 outs mat0) /\ ncols M = ncols (nth 0 outs mat0)) /\
    forall i j, el M i j = Cmul (RtoC (/ INR (length (ho_list o))))
                             (Csum (length (ho_list o)) (fun q => el (nth q outs mat0) i j)).
Proof.
  intros Havg H. unfold cwt_higher_order in H. unfold mbind at 1, lift in H.
  destruct (ho_scales a (length x)) as [sa|] eqn:Es; [|discriminate].
  assert (exists sc, sa = ScArr sc) as (sc & ->).
  { unfold ho_scales in Es. destruct (a_scales a) as [l|mk]; [injection Es as <-; eauto|].
    destruct (mk (length x)); [|discriminate]. injection Es as <-. eauto. }
  unfold mbind in H.
  destruct (msequence _ s) as [[outs|e] s1] eqn:Em; [|discriminate].
  apply (msequence_ok (fun k => cwt_fresh py (fam k) (set_scales a (ScArr sc)) x)) in Em.
  2:{ intros k [[W' sc'] d'] t t' E. eapply cwt_fresh_ok; exact E. }
  destruct Em as (-> & F). unfold mret in H. rewrite Havg in H. cbn [ho_collect] in H. injection H as <- _ <-.
  split; [reflexivity|].
  set (Ws := map (fun r => fst (fst r)) outs). assert (HL : length (ho_list o) = length outs) by (clear -F; induction F; simpl; lia).
  exists sc, Ws, (mmean Ws). split; [reflexivity|]. split; [reflexivity|].
  assert (HLW : length Ws = length (ho_list o)) by (unfold Ws; rewrite map_length; lia).
  split; [exact HLW|]. split.
  - intros q Hq. clear -F Hq. revert q Hq. induction F as [|k r l rs H F IH]; intros q Hq; [simpl in Hq; lia|].
    destruct q as [|q].
    + destruct r as [[W c] d]. pose proof (cwt_fresh_scales py (fam k) (set_scales a (ScArr sc)) sc x s W c d s eq_refl H) as ->.
      exists d. exact H.
    + simpl in *. apply (IH q). lia.
  - unfold mmean. rewrite HLW. fold mat0. destruct Ws as [|W0 Ws'] eqn:EW.
    + split; [destruct (ho_list o); [congruence|discriminate]|]. intros i j. simpl in HLW. rewrite <- HLW. reflexivity.
    + split; [intros _; split; reflexivity|]. intros i j. cbn [el]. f_equal. apply Csum_ext. intros q Hq.
      rewrite <- EW. rewrite (nth_indep _ _ mat0); [reflexivity|]. rewrite EW. lia.
Qed.

(** ** Batches: success *)
Lemma pad_rows_ok pt : forall xs N xp n1, same_length xs N -> N <> 0%nat ->
  (exists x, length x = N /\ pad_input (Some pt) x = Ok (xp, n1)) -> exists ps, pad_rows pt xs = Ok ps.
Proof.
  induction xs as [|y xs IH]; intros N xp n1 HL HN (x & Hx & Hp); [exists []; reflexivity|].
  assert (HLy : length y = N) by (specialize (HL 0%nat ltac:(simpl; lia)); exact HL).
  destruct (pad_lin (Some pt) 1 1 x y xp n1 ltac:(lia) Hp) as (yp & Hyp & _).
  destruct (IH N xp n1) as (ps & E).
  { intros b Hb. apply (HL (S b)). simpl. lia. } { exact HN. } { eauto. }
  simpl. unfold pad_input in Hyp. destruct (padsignal 0 y pt None) as [[[[yq u] m1] m2]|]; [|discriminate].
  cbn [bind]. rewrite E. cbn [bind]. eauto.
Qed.

Theorem cwt2_ok py inst f a xs N s W sc dW s' : xs <> [] -> same_length xs N ->
  cwt py inst f a (nth 0 xs []) s = (Ok (W, sc, dW), s') ->
  exists Ws dWs, cwt2 py inst f a xs s = (Ok (Ws, sc, dWs), s').
Proof.
  intros Hne HL H. pose proof H as H0.
  destruct (cwt_ok_inv _ _ _ _ _ _ _ _ H) as ((fs & xp & n1 & scales & P) & U1 & U2).
  rewrite (cwt_run _ _ _ _ _ _ _ _ _ _ P U1 U2) in H. injection H as _ Hsc _ Hs'.
  destruct P as (Hfs & Hg & Hp & Hscl).
  assert (Hlen : length (nth 0 xs []) = N) by (apply HL; destruct xs; [congruence|simpl; lia]).
  assert (HN : N <> 0%nat).
  { intros E. rewrite E in Hlen. destruct (nth 0 xs []); [|discriminate].
    unfold pad_input in Hp. destruct (a_pad a); discriminate. }
  assert (exists xps, pad_input2 (a_pad a) xs N = Ok (xps, n1)) as (xps & E2).
  { unfold pad_input2. destruct N as [|N']; [congruence|]. destruct (a_pad a) as [pt|].
    - destruct (pad_rows_ok pt xs (S N') xp n1 HL HN) as (ps & E); [eauto|]. rewrite E. cbn [bind].
      destruct (pad_input_len _ _ _ _ Hp) as (u & n2 & Eu & _). rewrite Hlen in Eu. rewrite Eu. eauto.
    - unfold pad_input in Hp. destruct (nth 0 xs []); [discriminate|]. injection Hp as _ <-. eauto. }
  destruct (pad_input2_item _ _ _ _ _ HL E2) as (HLx & Hit).
  assert (Ex0 : nth 0 xps [] = xp).
  { specialize (Hit 0%nat ltac:(destruct xs; [congruence|simpl; lia])). rewrite Hp in Hit. injection Hit as <-. reflexivity. }
  destruct s as [pat lim N0 cache]. simpl in U1, Hs'.
  unfold cwt2, mbind, lift. rewrite Hlen. rewrite Hlen in Hfs, Hscl. rewrite Hfs, Hg, E2. unfold fft_check. cbn [s_pat].
  assert (negb py && negb (pat =? 0)%Z = false) as -> by (unfold usable in U1; destruct py, (pat =? 0)%Z; auto).
  rewrite Hscl, Ex0.
  unfold set_N. cbn [s_pat s_lim s_N s_cache].
  assert (exists q l, set_patience (a_pat a) (CS pat lim (length xp) cache) = (Ok tt, CS q l (length xp) cache) /\
                      negb py && negb (q =? 0)%Z = false) as (q & l & -> & Eq).
  { unfold set_patience, usable_arg, usable in *. destruct (a_pat a) as [q|q l|]; simpl.
    - destruct ((0 <=? q)%Z && (q <=? 2)%Z) eqn:E; [|discriminate].
      exists q, lim. split; [reflexivity|]. destruct py, (q =? 0)%Z; auto.
    - exists q, l. split; [reflexivity|]. destruct py, (q =? 0)%Z; auto.
    - discriminate. }
  rewrite <- Hs', <- Hsc. unfold cache_after.
  destruct (a_vec a) eqn:Ev.
  - unfold vectorized2, mbind, fft_check, mret.
    destruct (use_cache inst true (a_cache a)).
    + unfold Psih. cbn [s_cache s_N s_pat s_lim].
      destruct cache as [[[pN ps] PP]|]; [destruct (_ && allclose scales ps)|];
        cbn [s_pat s_lim s_N s_cache]; rewrite Eq; simpl; eauto.
    + cbn [s_pat s_lim s_N s_cache]. rewrite Eq; simpl; eauto.
  - unfold for_loop2, mbind, fft_check, mret. cbn [s_pat s_lim s_N s_cache]. rewrite Eq.
    replace (use_cache inst false (a_cache a)) with false
      by (destruct inst, (a_cache a) as [[]|]; reflexivity).
    simpl. eauto.
Qed.

(** ** [trigdiff] *)
(** row [i] of [A] is a complex tone of bin [k] *)
Definition tone_row (A : mat C) (i k : nat) (c : C) : Prop :=
  forall j, (j < ncols A)%nat -> el A i j = Cmul c (tw (ncols A) (Z.of_nat k * Z.of_nat j)).

Lemma dft_tone n k c q g : (k < n)%nat -> (q < n)%nat ->
  (forall j, (j < n)%nat -> g j = Cmul c (tw n (Z.of_nat k * Z.of_nat j))) ->
  dft n g q = if (k =? q)%nat then Cmul c (RtoC (INR n)) else C0.
Proof.
  intros Hk Hq Hg. unfold dft.
  rewrite (Csum_ext n _ (fun j => Cmul c (tw n ((Z.of_nat k - Z.of_nat q) * Z.of_nat j)))).
  - rewrite Csum_scal, roots_delta by lia. destruct (k =? q)%nat; [reflexivity|]. apply C_eq; simpl; ring.
  - intros j Hj. rewrite Hg by auto.
    replace ((Z.of_nat k - Z.of_nat q) * Z.of_nat j)%Z with (Z.of_nat k * Z.of_nat j + - (Z.of_nat q * Z.of_nat j))%Z by ring.
    rewrite tw_add by lia. apply C_eq; simpl; ring.
Qed.

(** angular frequency of bin [k], from [-pi] to [pi] *)
Definition bin_freq (k n : nat) : R :=
  2 * PI * (if (k <=? n / 2)%nat then INR k else INR k - INR n) / INR n.
Lemma xi_bin_freq n k : (k < n)%nat -> nth k (xifn 1 n) 0 = bin_freq k n.
Proof.
  intros Hk. unfold xifn, bin_freq. rewrite nth_tab by auto. unfold xi_bin.
  assert (INR n <> 0) by (apply not_0_INR; lia).
  destruct (Nat.ltb_spec k (n / 2 + 1)); destruct (Nat.leb_spec k (n / 2)); try lia.
  - rewrite <- INR_IZR_INZ. field. auto.
  - rewrite minus_IZR, <- !INR_IZR_INZ. field. auto.
Qed.

Theorem trigdiff_tone A fs N n1 i k c : (k < ncols A)%nat -> tone_row A i k c ->
  (0 <= n1)%Z -> (0 <= N)%Z -> (n1 + N <= Z.of_nat (ncols A))%Z ->
  exists D, trigdiff A fs None (Some true) (Some N) (Some n1) = Ok D /\
    nrows D = nrows A /\ Z.of_nat (ncols D) = N /\
    forall j, (Z.of_nat j < N)%Z ->
      el D i j = Cmul (0, bin_freq k (ncols A) * fs) (el A i (Z.to_nat n1 + j)).
Proof.
  intros Hk Ht H1 H2 H3. unfold trigdiff. cbn [bind orb]. eexists. split; [reflexivity|].
  unfold mcols, norm_bound. cbn [nrows ncols el].
  destruct (Z.ltb_spec n1 0); [lia|]. destruct (Z.ltb_spec (n1 + N) 0); [lia|].
  split; [reflexivity|]. split; [lia|]. intros j Hj. rewrite Z.min_l by lia.
  set (n := ncols A) in *. assert (HnR : INR n <> 0) by (apply not_0_INR; lia).
  rewrite (idft_single n (dft n (el A i)) (fun q => nth q (xifn 1 n) 0 * fs) k).
  - rewrite xi_bin_freq by auto. rewrite idft_dft by lia. reflexivity.
  - intros q Hq Hne. rewrite (dft_tone n k c q (el A i)) by auto. destruct (Nat.eqb_spec k q); [congruence|reflexivity].
Qed.

Lemma pad_mat_ok pt A : (0 < ncols A)%nat -> exists B n_up n1 n2,
  p2up (Z.of_nat (ncols A)) = (n_up, n1, n2) /\ pad_mat pt A = Ok (B, n1) /\
  nrows B = nrows A /\ Z.of_nat (ncols B) = n_up /\ (0 <= n1)%Z /\ (0 <= n2)%Z /\ (n1 + Z.of_nat (ncols A) + n2 = n_up)%Z.
Proof.
  intros Hc. unfold pad_mat. destruct (Nat.eqb_spec (ncols A) 0); [lia|].
  assert (forall rows, (forall r, In r rows -> length r = ncols A) -> exists ps, pad_mat_rows pt rows = Ok ps) as K.
  { induction rows as [|r rows IH]; intros HL; [exists []; reflexivity|].
    destruct IH as (ps & E); [intros; apply HL; right; auto|].
    simpl. assert (Hr : length r = ncols A) by (apply HL; left; reflexivity).
    assert (exists q, padsignal C0 r pt None = Ok q) as ([[[xp u] m1] m2] & ->).
    { destruct r as [|r0 r']; [simpl in Hr; lia|]. rewrite padsignal_unfold by discriminate.
      remember (r0 :: r') as r. cbn [pad_widths]. destruct (p2up (Z.of_nat (length r))) as [[u m1] m2] eqn:Ep.
      assert (Hm : (0 <= m1)%Z /\ (0 <= m2)%Z).
      { apply p2up_bounds in Ep; lia. }
      assert (exists xq, np_pad C0 pt r m1 m2 = Ok xq) as (xq & Eq).
      { unfold np_pad. destruct (Z.ltb_spec m1 0); [lia|]. destruct (Z.ltb_spec m2 0); [lia|]. simpl. eauto. }
      destruct pt; rewrite ?Eq; cbn [bind]; eauto. }
    cbn [bind]. rewrite E. cbn [bind]. eauto. }
  destruct (K (tab (nrows A) (fun i => tab (ncols A) (el A i)))) as (ps & ->).
  { intros r Hr. apply In_nth with (d := []) in Hr. destruct Hr as (k & Hk & <-). rewrite tab_length in Hk.
    rewrite nth_tab by auto. apply tab_length. }
  cbn [bind]. destruct (p2up (Z.of_nat (ncols A))) as [[u m1] m2] eqn:Ep.
  pose proof Ep as H. apply p2up_bounds in H; [|lia].
  do 4 eexists. split; [reflexivity|]. split; [reflexivity|]. cbn [nrows ncols]. repeat split; lia.
Qed.

(** default arguments: [n_up - n1] columns, more than [A] has *)
Theorem trigdiff_default_cols A fs : (2 <= ncols A)%nat -> exists D n_up n1 n2,
  p2up (Z.of_nat (ncols A)) = (n_up, n1, n2) /\ trigdiff A fs None None None None = Ok D /\
  (Z.of_nat (ncols D) = Z.of_nat (ncols A) + n2 /\ 1 <= n2)%Z.
Proof.
  intros Hc. destruct (pad_mat_ok PReflect A ltac:(lia)) as (B & u & n1 & n2 & Ep & E & Hr & HB & H1 & H2 & Hs).
  unfold trigdiff. cbn [bind]. rewrite E. cbn [bind orb]. exists (mcols (Mat (nrows B) (ncols B) (fun i => idft (ncols B) (fun k =>
               Cmul (dft (ncols B) (el B i) k) (0, nth k (xifn 1 (ncols B)) 0 * fs)))) n1 (n1 + Z.of_nat (ncols B))), u, n1, n2.
  split; [exact Ep|]. split; [reflexivity|].
  unfold mcols, norm_bound. cbn [ncols]. destruct (Z.ltb_spec n1 0); [lia|]. destruct (Z.ltb_spec (n1 + Z.of_nat (ncols B)) 0); [lia|].
  split; [lia|].
  pose proof (p2up_bounds (Z.of_nat (ncols A)) u n1 n2 ltac:(lia) Ep) as (_ & (Hb & _) & _ & Hs' & Hn & Hn').
  destruct (Z_le_gt_dec 1 n2) as [|Hgt]; [lia|exfalso]. assert (E0 : n2 = 0%Z) by (clear - Hgt Hn; lia). subst n2.
  assert (u <= Z.of_nat (ncols A) + 1)%Z by (clear - Hs Hn'; lia).
  set (m := Z.of_nat (ncols A)) in *. assert (2 <= m)%Z by (subst m; clear - Hc; lia). 
  assert (Em : (m = 2)%Z) by nia. rewrite Em in *. vm_compute in Ep. discriminate Ep.
Qed.

(** with the length passed: as many columns as [A] *)
Theorem trigdiff_given_N A fs pt : (1 <= ncols A)%nat -> exists D,
  trigdiff A fs pt None (Some (Z.of_nat (ncols A))) None = Ok D /\ ncols D = ncols A /\ nrows D = nrows A.
Proof.
  intros Hc. destruct (pad_mat_ok (match pt with Some p => p | None => PReflect end) A ltac:(lia))
    as (B & u & n1 & n2 & Ep & E & Hr & HB & H1 & H2 & Hs).
  assert (trigdiff A fs pt None (Some (Z.of_nat (ncols A))) None = Ok (mcols (Mat (nrows B) (ncols B) (fun i => idft (ncols B) (fun k =>
               Cmul (dft (ncols B) (el B i) k) (0, nth k (xifn 1 (ncols B)) 0 * fs)))) n1 (n1 + Z.of_nat (ncols A)))) as ->.
  { unfold trigdiff. destruct pt as [p|]; cbn [bind]; rewrite E; reflexivity. }
  eexists. split; [reflexivity|].
  unfold mcols, norm_bound. cbn [ncols nrows]. destruct (Z.ltb_spec n1 0); [lia|]. destruct (Z.ltb_spec (n1 + Z.of_nat (ncols A)) 0); [lia|].
  split; [lia|exact Hr].
Qed.
