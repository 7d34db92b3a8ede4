(** [cwt] does not see constants; generalized Morse wavelets meet the hypotheses of [CwtEnergy]. *)
From Coq Require Import ZifyBool ZifyNat.
From Verif Require Import Py Padding PaddingProofs Cplx CplxProofs Freqs Stft Squeeze Scales Ssqueeze Cwt CwtProofs CwtThms CwtTone SsqCwtProofs RoundTrip
  CwtWitness SsqCwtWitness SymmInst Wavelets WaveletProofs GmwRoundTrip Admiss AdmissThms3 DefaultRoundTrip CwtEnergy.
Local Open Scope R_scope.
Ltac Zify.zify_post_hook ::= Z.div_mod_to_equations.

(** padding a constant, other than with zeros *)
Lemma pad_const pt c N xp n1 : pt <> Some PZero -> pad_input pt (repeat c N) = Ok (xp, n1) ->
  forall i, (i < length xp)%nat -> nth i xp 0 = c.
Proof.
  intros Hz Hp. assert (Hrep : forall k, (k < N)%nat -> nth k (repeat c N) 0 = c).
  { intros k Hk. rewrite (nth_indep _ 0 c) by (rewrite repeat_length; exact Hk). apply nth_repeat. }
  destruct pt as [pt|].
  2:{ unfold pad_input in Hp. remember (repeat c N) as l eqn:El. destruct l as [|v l]; [discriminate Hp|]. injection Hp as <- <-. rewrite El in *.
      intros i Hi. rewrite repeat_length in Hi. apply Hrep. exact Hi. }
  destruct (pad_input_len _ _ _ _ Hp) as (n_up & n2 & Eu & L & H1 & H2 & H3). rewrite repeat_length in *.
  assert (HN : (0 < N)%nat) by (destruct N; [discriminate Hp|lia]).
  assert (Hx : repeat c N <> []) by (destruct N; [lia|discriminate]).
  unfold pad_input in Hp. intros i Hi.
  destruct (padtype_eq_dec pt PSymmetric) as [ ->|Hs].
  - destruct (p2up_pad_short (Z.of_nat N) _ _ _ ltac:(lia) Eu) as (Hsh & _).
    destruct (p2up_bounds (Z.of_nat N) _ _ _ ltac:(lia) Eu) as (_ & _ & Hlt & Hsum & Hn2 & Hn1).
    destruct (@padsignal_sym R 0 (repeat c N) None n_up n1 n2 Hx ltac:(discriminate)) as (xq & Eq & Lq & Hat);
      rewrite ?repeat_length; try exact Eu; try lia.
    rewrite Eq in Hp. cbn [bind] in Hp. injection Hp as <-. rewrite <- (Nat2Z.id i), Hat by lia. rewrite repeat_length.
    destruct (Z.ltb_spec (Z.of_nat i) n1); [apply Hrep; lia|].
    destruct (Z.ltb_spec (Z.of_nat i) (n1 + Z.of_nat N)); apply Hrep; lia.
  - destruct (@padsignal_np R 0 (repeat c N) pt None n_up n1 n2 Hx Hs ltac:(discriminate)) as (xq & Eq & Lq & Hat);
      rewrite ?repeat_length; try exact Eu.
    rewrite Eq in Hp. cbn [bind] in Hp. injection Hp as <-. rewrite <- (Nat2Z.id i), Hat by lia.
    unfold pad_at. rewrite repeat_length. destruct (np_pad_index pt (Z.of_nat N) (Z.of_nat i - n1)) as [k|] eqn:Ek.
    + assert (Hk : (0 <= k < Z.of_nat N)%Z).
      { destruct (pad_index_rev pt (Z.of_nat N) (Z.of_nat i - n1) ltac:(lia) Hs) as [_ Hk]. rewrite Ek in Hk. exact Hk. }
      apply Hrep. lia.
    + exfalso. revert Ek. unfold np_pad_index. destruct ((0 <=? Z.of_nat i - n1) && (Z.of_nat i - n1 <? Z.of_nat N))%Z; [discriminate|].
      destruct pt; try discriminate; try congruence. destruct (Z.of_nat N =? 1)%Z; discriminate.
Qed.

Lemma const_rows f s n xp c : wf f 0 = C0 -> (1 <= n)%nat -> length xp = n -> (forall i, (i < n)%nat -> nth i xp 0 = c) ->
  forall j, row_val f s xp j = C0.
Proof.
  intros H0 Hn Hl Hc j. unfold row_val. rewrite Hl. unfold idft. rewrite Csum_0; [apply C_eq; cbn; ring|].
  intros k Hk. replace (Cmul (psih_val f s n false k) (sig_dft xp k)) with C0; [ring|].
  destruct (Nat.eq_dec k 0) as [ ->|Hk0].
  - unfold psih_val. rewrite xi_low by lia. cbn [INR].
    replace (s * (2 * PI * 0 / INR n)) with 0 by (unfold Rdiv; ring). rewrite H0.
    destruct (negb false && _ && _); ring.
  - replace (sig_dft xp k) with C0; [ring|]. unfold sig_dft. rewrite Hl.
    rewrite (dft_ext n _ (fun _ => Cmul (RtoC c) C1)) by (intros m Hm; rewrite Hc by exact Hm; ring).
    rewrite (dft_scal n (RtoC c) (fun _ => C1)). unfold dft.
    rewrite (Csum_ext n _ (fun m => tw n (- Z.of_nat k * Z.of_nat m))).
    + rewrite (roots_sum n Hn). replace (- Z.of_nat k mod Z.of_nat n =? 0)%Z with false; [ring|].
      symmetry. apply Z.eqb_neq. rewrite (Z.mod_opp_l_nz) by (try lia; rewrite Z.mod_small; lia). rewrite Z.mod_small; lia.
    + intros m _. replace (- (Z.of_nat k * Z.of_nat m))%Z with (- Z.of_nat k * Z.of_nat m)%Z by ring. ring.
Qed.

Theorem cwt_const py inst f a x s W sc dW s' c : real_valued f -> uncached inst a s -> wf f 0 = C0 -> a_pad a <> Some PZero ->
  cwt py inst f a x s = (Ok (W, sc, dW), s') ->
  exists V dV, cwt py inst f a (map (fun v => v + c) x) s = (Ok (V, sc, dV), s') /\
    nrows V = nrows W /\ ncols V = ncols W /\ forall i j, el V i j = el W i j.
Proof.
  intros Hr Hu H0 Hz E. assert (HL : length x = length (repeat 1 (length x))) by (rewrite repeat_length; reflexivity).
  destruct (cwt_linear _ _ _ _ _ 1 c _ _ _ _ _ _ HL E) as (U & dU & Z & dZ & EU & EZ & (Hr1 & _ & Hc & Hc' & Hel) & _).
  exists Z, dZ. split.
  { rewrite <- EZ. f_equal. unfold lin. clear. induction x as [|v x IH]; [reflexivity|].
    cbn [length repeat combine map fst snd]. rewrite IH. f_equal. ring. }
  split; [exact Hr1|]. split; [exact Hc|]. intros i j. rewrite Hel.
  destruct (cwt_rows _ _ _ _ _ _ _ _ _ _ Hr Hu EU) as (fs & xp & n1 & _ & Hp & _ & HU & _).
  destruct (pad_window _ _ _ _ Hp) as (Hwin & Hx & _).
  replace (el U i j) with C0; [apply C_eq; unfold Cadd, Cmul, RtoC, C0; cbn; ring|].
  rewrite HU. unfold finish_cell.
  rewrite (const_rows f (nth i sc 0) (length xp) xp 1 H0 ltac:(lia) eq_refl (pad_const _ _ _ _ _ Hz Hp)).
  destruct (a_l1 a); [reflexivity|ring].
Qed.

(** ** Generalized Morse wavelets *)
Section Gmw.
Variables (gamma beta : R) (g : R -> R).
Hypothesis (Hg : 0 < gamma) (Hb : 0 < beta) (Ef : gmw_l1 gamma beta false = Ok g).

Lemma gmw_real : real_valued (gmw_wave g). Proof. intros w. reflexivity. Qed.
Lemma gmw_dc : wf (gmw_wave g) 0 = C0.
Proof. destruct (gmw_l1_peaks gamma beta g Hg Hb Ef) as (_ & _ & _ & P4). cbn [wf gmw_wave]. rewrite P4 by lra. reflexivity. Qed.
Lemma gmw_peak w : Cabs (wf (gmw_wave g) w) <= 2.
Proof.
  destruct (gmw_l1_peaks gamma beta g Hg Hb Ef) as (P1 & P2 & P3 & P4). cbn [wf gmw_wave]. rewrite Cabs_RtoC.
  destruct (Rle_dec w 0); [rewrite P4, Rabs_R0 by assumption; lra|]. rewrite Rabs_right by (apply Rle_ge, Rlt_le, P3; lra).
  destruct (Req_dec w (Rpower (beta / gamma) (1 / gamma))) as [ ->|N]; [rewrite P1; lra|]. left. apply P2, N.
Qed.
Lemma gmw_covers sc n : sc <> [] -> (forall i, (i < length sc)%nat -> 0 < nth i sc 0) -> covers (gmw_wave g) sc n.
Proof.
  intros Hne Hpos k Hk. assert (0 < length sc)%nat by (destruct sc; [congruence|cbn; lia]).
  exists 0%nat. split; [assumption|]. split; [apply Hpos; assumption|]. cbn [wf gmw_wave].
  destruct (gmw_l1_peaks gamma beta g Hg Hb Ef) as (_ & _ & P3 & _). pose proof PI_RGT_0. specialize (Hpos 0%nat ltac:(lia)).
  assert (Hp : 0 < g (nth 0 sc 0 * (2 * PI * INR k / INR n))).
  { apply P3. apply Rmult_lt_0_compat; [exact Hpos|]. apply Rdiv_lt_0_compat; [|apply lt_0_INR; lia].
    apply Rmult_lt_0_compat; [lra|apply lt_0_INR; lia]. }
  intros E. apply (f_equal fst) in E. cbn in E. lra.
Qed.

(** the transform with any of them, at any positive scales *)
Theorem gmw_kernel py inst a x y s W V sc dW dV s' s'' : uncached inst a s -> length x = length y ->
  cwt py inst (gmw_wave g) a x s = (Ok (W, sc, dW), s') -> cwt py inst (gmw_wave g) a y s = (Ok (V, sc, dV), s'') -> whole a ->
  sc <> [] -> (forall i, (i < length sc)%nat -> 0 < nth i sc 0) -> a_pad a <> Some PZero ->
  ((forall i j, (i < nrows W)%nat -> (j < ncols W)%nat -> el W i j = el V i j) <->
   exists c, forall j, (j < length x)%nat -> nth j x 0 = nth j y 0 + c).
Proof.
  intros Hu HL E EV Hw Hne Hpos Hz. split.
  - intros H. apply (cwt_kernel _ _ _ _ _ _ _ _ _ _ _ _ _ _ gmw_real Hu HL E EV Hw); [|exact H].
    intros xp n1 _. apply gmw_covers; assumption.
  - intros [c H] i j _ _.
    destruct (cwt_const _ _ _ _ _ _ _ _ _ _ c gmw_real Hu gmw_dc Hz EV) as (U & dU & EU & _ & _ & HU).
    replace (map (fun v => v + c) y) with x in EU.
    + rewrite E in EU. injection EU as <- _ _. symmetry. symmetry. apply HU.
    + apply (nth_ext _ _ 0 0); [rewrite map_length; exact HL|]. intros k Hk. rewrite H by exact Hk.
      rewrite (nth_map_in (fun v => v + c) y k 0 0) by lia. reflexivity.
Qed.
End Gmw.

(** the default wavelet, four samples, three scales *)
Lemma default_kernel_case : exists W dW V dV s',
  cwt false true (gmw_wave gmw60) (arg_c None false) [1; 2; 4; 3] st0 = (Ok (W, [1; 2; 4], Some dW), s') /\
  cwt false true (gmw_wave gmw60) (arg_c None false) [2; 3; 5; 4] st0 = (Ok (V, [1; 2; 4], Some dV), s') /\
  (forall i j, el V i j = el W i j) /\
  exists V' dV' i j, cwt false true (gmw_wave gmw60) (arg_c None false) [2; 3; 5; 5] st0 = (Ok (V', [1; 2; 4], Some dV'), s') /\
    el V' i j <> el W i j.
Proof.
  destruct (cwt_c_ok (gmw_wave gmw60) None false [1; 2; 4; 3] [1; 2; 4; 3] 0 ltac:(discriminate) eq_refl) as (W & dW & s' & E).
  assert (Hu : uncached true (arg_c None false) st0) by (left; reflexivity).
  pose proof default_gmw as Eg. assert (H3 : 0 < 3) by lra. assert (H60 : 0 < 60) by lra.
  assert (Hz : a_pad (arg_c None false) <> Some PZero) by discriminate.
  destruct (cwt_const _ _ _ _ _ _ _ _ _ _ 1 (gmw_real gmw60) Hu (gmw_dc 3 60 gmw60 H3 H60 Eg) Hz E) as (V & dV & EV & _ & _ & HV).
  assert (Ex : map (fun v => v + 1) [1; 2; 4; 3] = [2; 3; 5; 4]) by (cbn [map]; repeat (f_equal; try lra)).
  rewrite Ex in EV.
  destruct (cwt_linear _ _ _ _ _ 0 1 [1; 2; 4; 3] [2; 3; 5; 5] _ _ _ _ eq_refl E) as (V' & dV' & _ & _ & EV' & _ & (_ & HrV & _ & HcV & _) & _).
  assert (D : exists d, dV = Some d).
  { destruct dV as [d|]; [exists d; reflexivity|]. destruct (cwt_rows _ _ _ _ _ _ _ _ _ _ (gmw_real gmw60) Hu EV) as (? & ? & ? & _ & _ & _ & _ & D).
    discriminate D. }
  destruct D as [d ->].
  assert (D : exists d, dV' = Some d).
  { destruct dV' as [d'|]; [exists d'; reflexivity|]. destruct (cwt_rows _ _ _ _ _ _ _ _ _ _ (gmw_real gmw60) Hu EV') as (? & ? & ? & _ & _ & _ & _ & D).
    discriminate D. }
  destruct D as [d' ->].
  exists W, dW, V, d, s'. split; [exact E|]. split; [exact EV|]. split; [exact HV|].
  exists V', d'.
  assert (Hs : forall i, (i < length [1; 2; 4])%nat -> 0 < nth i [1; 2; 4] 0) by (intros [|[|[|i]]] Hi; cbn in *; lra || lia).
  destruct (gmw_kernel 3 60 gmw60 H3 H60 Eg false true (arg_c None false) [1; 2; 4; 3] [2; 3; 5; 5] st0 _ _ _ _ _ _ _ Hu eq_refl E EV' (or_introl eq_refl) ltac:(discriminate) Hs Hz) as [K _].
  (* a finite search *)
  assert (Hdec : (forall i j, (i < nrows W)%nat -> (j < ncols W)%nat -> el W i j = el V' i j) \/ exists i j, el V' i j <> el W i j).
  { assert (Hd : forall z z' : C, z = z' \/ z <> z').
    { intros [p q] [p' q']. destruct (Req_EM_T p p') as [ ->|N]; [|right; congruence].
      destruct (Req_EM_T q q') as [ ->|N]; [left; reflexivity|right; congruence]. }
    assert (Hcol : forall i n, (forall j, (j < n)%nat -> el W i j = el V' i j) \/ exists j, el V' i j <> el W i j).
    { intros i n. induction n as [|n [IH|IH]]; [left; intros; lia| |right; exact IH].
      destruct (Hd (el W i n) (el V' i n)) as [Ed|Nd]; [|right; exists n; congruence].
      left. intros j Hj. destruct (Nat.eq_dec j n); [subst; exact Ed|apply IH; lia]. }
    generalize (nrows W). intros m. induction m as [|m [IH|IH]]; [left; intros; lia| |right; exact IH].
    destruct (Hcol m (ncols W)) as [Hm|[j Hm]]; [|right; exists m, j; exact Hm].
    left. intros i j Hi Hj. destruct (Nat.eq_dec i m); [subst; apply Hm; exact Hj|apply IH; [lia|exact Hj]]. }
  destruct Hdec as [Hall|[i [j Hij]]].
  - destruct (K Hall) as [c Hc]. pose proof (Hc 0%nat ltac:(cbn; lia)) as C0'. pose proof (Hc 3%nat ltac:(cbn; lia)) as C3. cbn [nth] in *. lra.
  - exists i, j. split; [exact EV'|exact Hij].
Qed.

(** its rows have at most four times the energy of the signal *)
Lemma default_energy_case : exists W dW s',
  cwt false true (gmw_wave gmw60) (arg_c None false) [1; 2; 4; 3] st0 = (Ok (W, [1; 2; 4], Some dW), s') /\
  forall i, (i < 3)%nat -> row_energy W i <= 120.
Proof.
  destruct (cwt_c_ok (gmw_wave gmw60) None false [1; 2; 4; 3] [1; 2; 4; 3] 0 ltac:(discriminate) eq_refl) as (W & dW & s' & E).
  exists W, dW, s'. split; [exact E|]. intros i Hi.
  assert (Hu : uncached true (arg_c None false) st0) by (left; reflexivity).
  assert (H3 : 0 < 3) by lra. assert (H60 : 0 < 60) by lra.
  destruct (cwt_bounded _ _ _ _ _ _ _ _ _ _ 2 (gmw_real gmw60) Hu E ltac:(intros E1; discriminate E1) ltac:(lra) (gmw_peak 3 60 gmw60 H3 H60 default_gmw))
    as (xp & n1 & Hp & H). injection Hp as <- <-. specialize (H i Hi). cbn [norm_gain a_l1 arg_c length Rsum nth] in H. lra.
Qed.
