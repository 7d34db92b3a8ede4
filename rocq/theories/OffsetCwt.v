(** [cwt] and [ssq_cwt] of a signal raised by a constant: the very same results. *)
From Coq Require Import Reals Lra Lia List ZifyBool ZifyNat FunctionalExtensionality.
Import ListNotations.
From Verif Require Import Py Round Parallel Padding PaddingProofs Cplx CplxProofs Freqs Stft Squeeze Scales Ssqueeze Cwt CwtProofs CwtThms CwtTone SsqCwt SsqCwtProofs RoundTrip CwtEnergy CwtEnergyWitness Offset.
Local Open Scope R_scope.
Ltac Zify.zify_post_hook ::= Z.div_mod_to_equations.

Lemma mat_eq {A} (V W : mat A) : nrows V = nrows W -> ncols V = ncols W -> (forall i j, el V i j = el W i j) -> V = W.
Proof.
  destruct V as [r c e], W as [r' c' e']. cbn [nrows ncols el]. intros -> -> H. f_equal. apply functional_extensionality. intros i. apply functional_extensionality. intros j. apply H.
Qed.
Lemma const_terms f s n xp c k : wf f 0 = C0 -> (1 <= n)%nat -> length xp = n -> (forall i, (i < n)%nat -> nth i xp 0 = c) -> (k < n)%nat ->
  Cmul (psih_val f s n false k) (sig_dft xp k) = C0.
Proof.
  intros H0 Hn Hl Hc Hk. destruct (Nat.eq_dec k 0) as [ ->|Hk0].
  - unfold psih_val. rewrite xi_low by lia. cbn [INR].
    replace (s * (2 * PI * 0 / INR n)) with 0 by (unfold Rdiv; ring). rewrite H0.
    destruct (negb false && _ && _); ring.
  - replace (sig_dft xp k) with C0; [ring|]. unfold sig_dft. rewrite Hl.
    rewrite (dft_ext n _ (fun _ => Cmul (RtoC c) C1)) by (intros m Hm; rewrite Hc by exact Hm; ring).
    rewrite (dft_scal n (RtoC c) (fun _ => C1)). unfold dft.
    rewrite (Csum_ext n _ (fun m => tw n (- Z.of_nat k * Z.of_nat m))).
    + rewrite (roots_sum n Hn). replace (- Z.of_nat k mod Z.of_nat n =? 0)%Z with false; [ring|].
      symmetry. apply Z.eqb_neq. rewrite (Z.mod_opp_l_nz) by (try lia; rewrite Z.mod_small; lia). rewrite Z.mod_small; lia.
    + intros m _. replace (- (Z.of_nat k * Z.of_nat m))%Z with (- Z.of_nat k * Z.of_nat m)%Z by ring. ring.
Qed.
Lemma const_drows f s fs n xp c : wf f 0 = C0 -> (1 <= n)%nat -> length xp = n -> (forall i, (i < n)%nat -> nth i xp 0 = c) ->
  forall j, drow_val f s fs xp j = C0.
Proof.
  intros H0 Hn Hl Hc j. unfold drow_val. rewrite Hl. unfold idft. rewrite Csum_0; [apply C_eq; cbn; ring|].
  intros k Hk. rewrite (const_terms f s n xp c k) by assumption. ring.
Qed.

Theorem cwt_blind py inst f a x s r s' c : real_valued f -> uncached inst a s -> wf f 0 = C0 -> a_pad a <> Some PZero ->
  cwt py inst f a x s = (Ok r, s') -> cwt py inst f a (raised c x) s = (Ok r, s').
Proof.
  destruct r as [[W sc] dW]. intros Hr Hu H0 Hz E. assert (HL : length x = length (repeat 1 (length x))) by (rewrite repeat_length; reflexivity).
  destruct (cwt_linear _ _ _ _ _ 1 c _ _ _ _ _ _ HL E) as (U & dU & Z & dZ & EU & EZ & (Hr1 & _ & Hc & Hc' & Hel) & Hd).
  destruct (cwt_rows _ _ _ _ _ _ _ _ _ _ Hr Hu EU) as (fs & xp & n1 & _ & Hp & _ & HU & HdU).
  destruct (pad_window _ _ _ _ Hp) as (Hwin & Hx & _).
  replace (raised c x) with (lin 1 c x (repeat 1 (length x))).
  2:{ unfold raised, lin. clear. induction x as [|v x IH]; [reflexivity|]. cbn [length repeat combine map fst snd]. rewrite IH. f_equal. ring. }
  rewrite EZ. replace Z with W.
  2:{ apply mat_eq; [symmetry; exact Hr1|symmetry; exact Hc|]. intros i j. rewrite Hel.
      replace (el U i j) with C0; [apply C_eq; unfold Cadd, Cmul, RtoC, C0; cbn; ring|].
      rewrite HU. unfold finish_cell.
      rewrite (const_rows f (nth i sc 0) (length xp) xp 1 H0 ltac:(lia) eq_refl (pad_const _ _ _ _ _ Hz Hp)).
      destruct (a_l1 a); [reflexivity|ring]. }
  replace dZ with dW; [reflexivity|]. destruct dW as [dW|], dU as [dU|], dZ as [dZ|]; cbn [lincomb_opt] in Hd; try contradiction; [|reflexivity].
  f_equal. destruct Hd as (D1 & _ & D2 & _ & D3). apply mat_eq; [symmetry; exact D1|symmetry; exact D2|]. intros i j. rewrite D3.
  replace (el dU i j) with C0; [apply C_eq; unfold Cadd, Cmul, RtoC, C0; cbn; ring|].
  rewrite HdU. unfold finish_cell.
  rewrite (const_drows f (nth i sc 0) fs (length xp) xp 1 H0 ltac:(lia) eq_refl (pad_const _ _ _ _ _ Hz Hp)).
  destruct (a_l1 a); [reflexivity|ring].
Qed.

Theorem ssq_blind ord py f fam q x s r s' c : q_order q = None -> real_valued f -> wf f 0 = C0 -> s_cache s = None \/ use_cache true (q_vec q) (q_cache q) = false ->
  q_pad q <> Some PZero -> ssq_cwt ord py f fam q x s = (Ok r, s') -> ssq_cwt ord py f fam q (raised c x) s = (Ok r, s').
Proof.
  intros Hq Hr H0 Hu Hz E. destruct (ssq_cwt_inv _ _ _ _ _ _ _ _ _ Hq E) as (k & fs & sc & kind & W & dW & E1 & E2 & E3 & E4 & E5).
  apply (cwt_blind _ _ _ _ _ _ _ _ c Hr) in E4; [|exact Hu|exact H0|exact Hz].
  unfold ssq_cwt. unfold raised in *. rewrite map_length. unfold mbind at 1. unfold lift at 1. rewrite E1. unfold mbind at 1. unfold lift at 1. rewrite E2, Hq. unfold mbind at 1. unfold lift at 1. rewrite E3.
  unfold mbind. fold (numeric q). rewrite E4. unfold lift. rewrite E5. reflexivity.
Qed.

(** higher orders: averaged or not *)
Lemma fresh_blind py f a x s r s' c : real_valued f -> wf f 0 = C0 -> a_pad a <> Some PZero ->
  cwt_fresh py f a x s = (Ok r, s') -> cwt_fresh py f a (raised c x) s = (Ok r, s').
Proof.
  intros Hr H0 Hz. unfold cwt_fresh. destruct (cwt py true f a x _) as [[r0|e] s0] eqn:E; intros H; [|discriminate H].
  assert (Hu : uncached true a (CS (s_pat s) (s_lim s) 1024 None)) by (left; reflexivity). rewrite (cwt_blind _ _ _ _ _ _ _ _ c Hr Hu H0 Hz E). injection H as <- <-. reflexivity.
Qed.
Lemma sequence_blind py (fam : nat -> wfun) a x c (l : list nat) : (forall k, In k l -> real_valued (fam k) /\ wf (fam k) 0 = C0) -> a_pad a <> Some PZero -> forall s r s',
  msequence (map (fun k => cwt_fresh py (fam k) a x) l) s = (Ok r, s') -> msequence (map (fun k => cwt_fresh py (fam k) a (raised c x)) l) s = (Ok r, s').
Proof.
  intros Hf Hz. induction l as [|k l IH]; cbn [map msequence]; intros s r s' H; [exact H|].
  destruct (Hf k (or_introl eq_refl)) as [Hr H0]. unfold mbind in *.
  destruct (cwt_fresh py (fam k) a x s) as [[w|e] s1] eqn:E1; [|discriminate H]. rewrite (fresh_blind _ _ _ _ _ _ _ c Hr H0 Hz E1).
  destruct (msequence (map (fun k => cwt_fresh py (fam k) a x) l) s1) as [[ws|e] s2] eqn:E2; [|discriminate H].
  rewrite (IH (fun k Hk => Hf k (or_intror Hk)) _ _ _ E2). exact H.
Qed.
Theorem higher_blind py (fam : nat -> wfun) o average a x s r s' c : (forall k, In k (ho_list o) -> real_valued (fam k) /\ wf (fam k) 0 = C0) -> a_pad a <> Some PZero ->
  cwt_higher_order py fam o average a x s = (Ok r, s') -> cwt_higher_order py fam o average a (raised c x) s = (Ok r, s').
Proof.
  intros Hf Hz. unfold cwt_higher_order. unfold raised at 1. rewrite map_length. unfold mbind, lift. destruct (ho_scales a (length x)) as [sc|e]; [|discriminate].
  cbv zeta. destruct (msequence (map (fun k => cwt_fresh py (fam k) (set_scales a sc) x) (ho_list o)) s) as [[ws|e] s1] eqn:E; [|discriminate].
  rewrite (sequence_blind py fam (set_scales a sc) x c _ Hf Hz _ _ _ E). intros H. exact H.
Qed.
Theorem ssq_higher_blind ord py f fam q o x s r s' c : q_order q = Some o -> (forall k, In k (ho_list o) -> real_valued (fam k) /\ wf (fam k) 0 = C0) ->
  q_pad q <> Some PZero -> ssq_cwt ord py f fam q x s = (Ok r, s') -> ssq_cwt ord py f fam q (raised c x) s = (Ok r, s').
Proof.
  intros Hq Hf Hz. assert (Hl : length (raised c x) = length x) by apply map_length.
  assert (Hh : forall fs s r s', ssq_higher py f fam q fs o x s = (Ok r, s') -> ssq_higher py f fam q fs o (raised c x) s = (Ok r, s')).
  { intros fs s0 r0 s0'. unfold ssq_higher. rewrite Hl. cbv zeta.
    set (a := inner q fs _ _ _ _ _).
    assert (H : forall k1 : scales_arg -> M (mat C * mat C * list R * bool), forall (u : scales_arg -> ho_out (mat C) -> M (mat C * mat C * list R * bool)),
      (mdo sc <- lift (ho_scales a (length x)); mdo (W, _) <- cwt_higher_order py fam o (Some (is_tuple o)) a x; u sc W) s0 = (Ok r0, s0') ->
      (mdo sc <- lift (ho_scales a (length x)); mdo (W, _) <- cwt_higher_order py fam o (Some (is_tuple o)) a (raised c x); u sc W) s0 = (Ok r0, s0')).
    { intros _ u. unfold mbind, lift. destruct (ho_scales a (length x)) as [sc|e]; [|discriminate].
      destruct (cwt_higher_order py fam o (Some (is_tuple o)) a x s0) as [[w|e] s1] eqn:E; [|discriminate].
      rewrite (higher_blind py fam o (Some (is_tuple o)) a x s0 w s1 c Hf Hz E). intros H; exact H. }
    destruct (p2up (Z.of_nat (length x))) as [[u n1] n2].
    destruct (wf_norm f); [| |]; try (intros H'; exact H'); destruct o as [k|[|k l]]; try (intros H'; exact H'); apply (H (fun _ => lift (Err NotModelled))). }
  unfold ssq_cwt. rewrite Hl, Hq. cbv zeta. unfold mbind, lift. destruct (check_diff q) as [d|e]; [|discriminate].
  destruct (process_fs_and_t (q_fs q) (q_t q) (length x)) as [fs|e]; [|discriminate].
  destruct (ssq_higher py f fam q fs o x s) as [[w|e] s1] eqn:E; [|discriminate]. rewrite (Hh _ _ _ _ E). intros H; exact H.
Qed.
