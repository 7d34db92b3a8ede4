(** More concrete runs: a complex wavelet, a failing call, higher orders, [trigdiff], [icwt]. *)
From Coq Require Import Reals Lra.
From Coq Require Import ZifyBool ZifyNat.
From Verif Require Import Py Round Cplx CplxProofs Padding PaddingProofs Buffer Freqs Squeeze SqueezeThms SqueezeThms2 SqueezeThms3
  FreqRange Scales Cwt CwtProofs CwtThms CwtTone CwtThms2 SsqWitness ScaleThms BinProofs CwtWitness.
Local Open Scope R_scope.

(** ** A complex-valued wavelet whose imaginary part changes sign *)
Definition bad_im (w : R) : R := if Rlt_dec PI w then 1 else if Rlt_dec 0 w then -1 else 0.
Definition bad_wave : wfun := WF (fun w => (1, bad_im w)) true NotGmw.
Definition delta3 : list R := [1; 0; 0].

Lemma bad_im_lo w : 0 < w <= PI -> bad_im w = -1.
Proof. intros. unfold bad_im. destruct (Rlt_dec PI w); [lra|]. destruct (Rlt_dec 0 w); [reflexivity|lra]. Qed.
Lemma bad_im_hi w : PI < w -> bad_im w = 1.
Proof. intros. unfold bad_im. destruct (Rlt_dec PI w); [reflexivity|lra]. Qed.
Lemma bad_im_neg w : w <= 0 -> bad_im w = 0.
Proof. intros. pose proof PI_RGT_0. unfold bad_im. destruct (Rlt_dec PI w); [lra|]. destruct (Rlt_dec 0 w); [lra|reflexivity]. Qed.
Lemma xi3 : xifn 1 3 = [0; 2 * PI / 3; - (2 * PI / 3)].
Proof.
  unfold xifn, tab. cbn [seq map]. unfold xi_bin. cbn [Nat.div Nat.divmod fst Nat.add Nat.ltb Nat.leb Z.of_nat Nat.sub].
  repeat (apply (f_equal2 cons); [cbn; field|]). reflexivity.
Qed.

(** is the imaginary part of the array for scales [sc] dropped *)
Definition bad_sum (sc : list R) : R := Rsum (length sc) (fun i => bad_im (nth i sc 0 * (2 * PI / 3))).
Lemma bad_drops sc : sc <> [] -> (forall i, (i < length sc)%nat -> 0 < nth i sc 0) ->
  drops_imag (Mat (length sc) 3 (fun i j => wf bad_wave (nth i sc 0 * nth j (xifn 1 3) 0))) =
  Rltb' (bad_sum sc / (INR (length sc) * 3)) imag_th.
Proof.
  intros Hne Hpos. unfold drops_imag, msum. cbn [nrows ncols el wf bad_wave]. unfold Re, Im. cbn [fst snd].
  assert (HL : 0 < INR (length sc)) by (apply lt_0_INR; destruct sc; [congruence|cbn; lia]).
  assert (ER : Rsum (length sc) (fun _ => Rsum 3 (fun _ => 1)) = INR (length sc) * 3)
    by (rewrite Rsum_const; cbn [Rsum]; ring).
  rewrite ER. destruct (Req_EM_T (INR (length sc) * 3) 0); [lra|]. f_equal. f_equal.
  unfold bad_sum. apply Rsum_ext. intros i Hi. specialize (Hpos i Hi). pose proof PI_RGT_0. rewrite xi3. cbn [Rsum nth].
  rewrite (bad_im_neg (nth i sc 0 * 0)) by lra. rewrite (bad_im_neg (nth i sc 0 * - (2 * PI / 3))) by nra. ring.
Qed.

Lemma bad_call sc i k : sc <> [] -> (forall i, (i < length sc)%nat -> 0 < nth i sc 0) ->
  el (wavelet_call bad_wave sc 3 false) i k =
  if Rltb' (bad_sum sc / (INR (length sc) * 3)) imag_th then C1
  else (1, bad_im (nth i sc 0 * nth k (xifn 1 3) 0)).
Proof.
  intros Hne Hpos. unfold wavelet_call. unfold halve_nyquist. cbn [ncols Nat.modulo Nat.divmod snd Nat.sub Nat.eqb].
  change (wf_cplx bad_wave) with true. cbn [andb]. rewrite bad_drops by auto.
  destruct (Rltb' _ _); reflexivity.
Qed.

Lemma bad_cell (p : mat C) i : el p i 0 = C1 \/ el p i 0 = (1, 0) ->
  el p i 2 = (1, 0) -> Im (el (raw p 3 3 (sig_dft delta3)) i 0) = Im (el p i 1) / 3.
Proof.
  intros H0 H2. unfold raw, cwt_cell. cbn [el]. unfold idft. cbn [Csum]. rewrite !Z.mul_0_r. rewrite tw_0 by lia.
  assert (D : forall q, sig_dft delta3 q = C1) by (intros q; apply (dft_delta 3 q); lia).
  rewrite !D, H2. destruct H0 as [-> | ->]; unfold Im, C1; cbn; field.
Qed.

Lemma pos124 i : (i < 3)%nat -> 0 < nth i [1; 2; 4] 0.
Proof. intros Hi. cbn in Hi. destruct i as [|[|[|i]]]; cbn; lra || lia. Qed.
Lemma pos122 i : (i < 3)%nat -> 0 < nth i [1; rt2; 2] 0.
Proof. pose proof rt2_bounds. intros Hi. cbn in Hi. destruct i as [|[|[|i]]]; cbn; lra || lia. Qed.
Lemma sum124 : bad_sum [1; 2; 4] = 1.
Proof. pose proof PI_RGT_0. unfold bad_sum. cbn [length Rsum nth]. rewrite bad_im_lo, !bad_im_hi by lra. ring. Qed.
Lemma sum122 : bad_sum [1; rt2; 2] = -1.
Proof.
  pose proof PI_RGT_0. pose proof rt2_bounds. unfold bad_sum. cbn [length Rsum nth].
  rewrite (bad_im_lo (1 * _)), (bad_im_lo (rt2 * _)), (bad_im_hi (2 * _)) by (lra || nra). ring.
Qed.
Lemma sum1 : bad_sum [1] = -1.
Proof. pose proof PI_RGT_0. unfold bad_sum. cbn [length Rsum nth]. rewrite bad_im_lo by lra. ring. Qed.

Lemma finish_arg0 sc d v N W : finish (arg0 sc d v) 0 N sc W = W.
Proof. reflexivity. Qed.

Lemma bad_vec124 : exists W s', cwt false false bad_wave (arg0 [1; 2; 4] false true) delta3 st0 = (Ok (W, [1; 2; 4], None), s') /\
  Im (el W 0 0) = -1 / 3.
Proof.
  destruct (run0 false false bad_wave [1; 2; 4] false true delta3 (KLog 1) eq_refl (scales124 true) ltac:(discriminate)) as (s' & E).
  do 2 eexists. split; [exact E|]. rewrite finish_arg0. unfold psih_used. cbn [arg0 a_vec a_cache use_cache andb].
  change (length [1; 2; 4]) with 3%nat. change (length delta3) with 3%nat.
  assert (K : forall k, el (wavelet_call bad_wave [1; 2; 4] 3 false) 0 k = (1, bad_im (1 * nth k (xifn 1 3) 0))).
  { intros k. rewrite bad_call by (discriminate || apply pos124). rewrite sum124. cbn [length nth INR].
    rewrite Rltb'_false; [reflexivity|]. unfold imag_th. lra. }
  pose proof PI_RGT_0. rewrite bad_cell; rewrite ?K, xi3; cbn [nth].
  - unfold Im. cbn [snd]. rewrite bad_im_lo by lra. reflexivity.
  - right. rewrite bad_im_neg by lra. reflexivity.
  - rewrite bad_im_neg by lra. reflexivity.
Qed.
Lemma bad_vec122 : exists W s', cwt false false bad_wave (arg0 [1; rt2; 2] false true) delta3 st0 = (Ok (W, [1; rt2; 2], None), s') /\
  Im (el W 0 0) = 0.
Proof.
  destruct (run0 false false bad_wave [1; rt2; 2] false true delta3 (KLog 2) eq_refl (scales122 true) ltac:(discriminate)) as (s' & E).
  do 2 eexists. split; [exact E|]. rewrite finish_arg0. unfold psih_used. cbn [arg0 a_vec a_cache use_cache andb].
  change (length [1; rt2; 2]) with 3%nat. change (length delta3) with 3%nat.
  assert (K : forall k, el (wavelet_call bad_wave [1; rt2; 2] 3 false) 0 k = C1).
  { intros k. rewrite bad_call by (discriminate || apply pos122). rewrite sum122. cbn [length nth INR].
    rewrite Rltb'_true; [reflexivity|]. unfold imag_th. lra. }
  rewrite bad_cell; rewrite ?K; [unfold Im, C1; cbn; field|left; reflexivity|reflexivity].
Qed.
Lemma bad_loop124 : exists W s', cwt false false bad_wave (arg0 [1; 2; 4] false false) delta3 st0 = (Ok (W, [1; 2; 4], None), s') /\
  Im (el W 0 0) = 0.
Proof.
  destruct (run0 false false bad_wave [1; 2; 4] false false delta3 (KLog 1) eq_refl (scales124 true) ltac:(discriminate)) as (s' & E).
  do 2 eexists. split; [exact E|]. rewrite finish_arg0. unfold psih_used. cbn [arg0 a_vec a_cache use_cache andb].
  change (length [1; 2; 4]) with 3%nat. change (length delta3) with 3%nat.
  assert (K : forall k, el (wavelet_call bad_wave [1] 3 false) 0 k = C1).
  { intros k. rewrite bad_call; [|discriminate|intros i Hi; cbn in Hi; destruct i; cbn; lra || lia]. rewrite sum1. cbn [length nth INR].
    rewrite Rltb'_true; [reflexivity|]. unfold imag_th. lra. }
  rewrite bad_cell; cbn [el nth]; rewrite ?K; [unfold Im, C1; cbn; field|left; reflexivity|reflexivity].
Qed.

(** ** A call that raises *)
Lemma raising_call : exists s1, 
  cwt false true pos_wave (CA (ScArr [1; 2; 4]) true None None true false None false true (PatInt 1) None) delta3 st0 = (Err ValueError, s1) /\
  (exists e, cwt false true pos_wave (arg0 [1; 2; 4] false true) delta3 s1 = (Err e, s1)) /\
  (exists r s2, cwt false true pos_wave (arg0 [1; 2; 4] false true) delta3 st0 = (Ok r, s2)) /\
  s_N s1 <> s_N st0 /\ s_pat s1 <> s_pat st0.
Proof.
  set (a := CA (ScArr [1; 2; 4]) true None None true false None false true (PatInt 1) None).
  destruct (cwt_poison pos_wave a delta3 st0 1 delta3 0 [1; 2; 4] true 1) as (s1 & E & Hp & HN).
  - unfold pre. cbn [a a_fs a_t a_l1 a_pad a_scales a_f64s]. repeat split. unfold process_scales. rewrite scales124. reflexivity.
  - reflexivity.
  - lia.
  - reflexivity.
  - exists s1. split; [exact E|]. split; [apply cwt_poisoned; rewrite Hp; discriminate|]. split.
    + destruct (run0 false true pos_wave [1; 2; 4] false true delta3 (KLog 1) eq_refl (scales124 true) ltac:(discriminate)) as (s2 & E2).
      eauto.
    + rewrite Hp, HN. split; discriminate.
Qed.

(** ** Higher orders *)
Definition auto_scales (n : nat) : res (list R) := Ok (if (n =? 3)%nat then [1; 2; 4] else [1; rt2; 2]).
Definition arg_auto : cwt_args := CA (ScAuto auto_scales) true None None true false None false true (PatInt 0) None.
(** [w] for positive frequencies *)
Definition ramp_wave : wfun := WF (fun w => if Rlt_dec 0 w then RtoC w else C0) false NotGmw.
Definition fam0 (k : nat) : wfun := ramp_wave.
Lemma ramp_real : real_valued ramp_wave.
Proof. intros w. cbn. destruct (Rlt_dec 0 w); reflexivity. Qed.
Definition batch2 : list (list R) := [delta3; [0; 1; 0]].

Lemma fresh_ok l k f x : wf_norm f = NotGmw -> process_scales_arr true l = Ok k -> x <> [] ->
  exists W, cwt_fresh false f (set_scales arg_auto (ScArr l)) x st0 = (Ok (W, l, None), st0) /\
  W = raw (psih_used true f (arg0 l false true) l (length x) None) (length l) (length x) (sig_dft x).
Proof.
  intros Hf Hk Hx. destruct (run0 false true f l false true x k Hf Hk Hx) as (s' & E).
  eexists. split; [|reflexivity]. unfold cwt_fresh. change (CS (s_pat st0) (s_lim st0) 1024 None) with st0.
  change (set_scales arg_auto (ScArr l)) with (arg0 l false true). rewrite E.
  destruct (cwt_restores _ _ _ _ _ _ _ _ E) as (_ & E2 & E3). rewrite E2, E3, finish_arg0. reflexivity.
Qed.

(** sample 0 of the row of scale [c] *)
Lemma ramp_cell l i : 0 < nth i l 0 ->
  el (raw (psih_used true ramp_wave (arg0 l false true) l 3 None) (length l) 3 (sig_dft delta3)) i 0 =
  RtoC (nth i l 0 * (2 * PI / 9)).
Proof.
  intros Hp. unfold raw, cwt_cell. cbn [el]. unfold idft. cbn [Csum]. rewrite !Z.mul_0_r. rewrite tw_0 by lia.
  assert (D : forall q, sig_dft delta3 q = C1) by (intros q; apply (dft_delta 3 q); lia). rewrite !D.
  assert (K : forall k, el (psih_used true ramp_wave (arg0 l false true) l 3 None) i k = psih_val ramp_wave (nth i l 0) 3 false k).
  { intros k. apply (psih_used_el true ramp_wave (arg0 l false true) l 3 st0 i k ramp_real). left; reflexivity. }
  rewrite !K. unfold psih_val. rewrite xi3. pose proof PI_RGT_0. cbn [nth negb andb Nat.modulo Nat.divmod snd Nat.sub Nat.eqb wf ramp_wave].
  destruct (Rlt_dec 0 (nth i l 0 * 0)); [lra|]. destruct (Rlt_dec 0 (nth i l 0 * (2 * PI / 3))); [|nra].
  destruct (Rlt_dec 0 (nth i l 0 * - (2 * PI / 3))); [nra|]. apply C_eq; simpl; field.
Qed.

(** single signal: three octave scales; the same signal in a batch of two: other scales *)
Lemma ho_single : exists V, cwt_higher_order false fam0 (HOTuple [0; 1]%nat) (Some true) arg_auto delta3 st0 = (Ok (HOOne V, None), st0) /\
  ho_scales arg_auto (length delta3) = Ok (ScArr [1; 2; 4]) /\ el V 2 0 = RtoC (4 * (2 * PI / 9)).
Proof.
  destruct (fresh_ok [1; 2; 4] _ ramp_wave delta3 eq_refl (scales124 true) ltac:(discriminate)) as (W & E & EW).
  eexists. split; [|split; [reflexivity|]].
  - unfold cwt_higher_order. unfold mbind at 1, lift. cbn [ho_scales arg_auto a_scales auto_scales length Nat.eqb bind].
    change (CA (ScAuto auto_scales) true None None true false None false true (PatInt 0) None) with arg_auto.
    unfold mbind. rewrite (msequence_run (fun k => cwt_fresh false (fam0 k) (set_scales arg_auto (ScArr [1; 2; 4])) delta3) _ st0 [(W, [1; 2; 4], None); (W, [1; 2; 4], None)]).
    + reflexivity.
    + repeat constructor; exact E.
  - assert (EC : el W 2 0 = RtoC (4 * (2 * PI / 9))) by (rewrite EW; apply (ramp_cell [1; 2; 4] 2); cbn; lra).
    cbn [mmean map fst length el nth Csum]. rewrite !EC. apply C_eq; simpl; field.
Qed.

(** [cwt_higher_order] of a batch with array scales: each signal as if alone *)
Theorem ho_batch py fam o average a l xs N s Vs dVs s' b : a_scales a = ScArr l -> xs <> [] -> same_length xs N ->
  ho_list o <> [] -> ho_averages o average = true ->
  cwt_higher_order2 py fam o average a xs s = (Ok (HOOne Vs, dVs), s') -> (b < length xs)%nat ->
  s' = s /\ length Vs = length xs /\
  exists dV, cwt_higher_order py fam o average a (nth b xs []) s = (Ok (HOOne (nth b Vs mat0), dV), s).
Proof.
  intros Ha Hne HL Ho Havg H Hb. unfold cwt_higher_order2 in H. unfold mbind at 1, lift in H.
  unfold ho_scales in H. rewrite Ha in H. unfold mbind in H.
  destruct (msequence _ s) as [[outs|e] s1] eqn:Em; [|discriminate].
  apply (msequence_ok (fun k => cwt_fresh2 py (fam k) (set_scales a (ScArr l)) xs)) in Em.
  2:{ intros k [[W' sc'] d'] t t' E. unfold cwt_fresh2 in E.
      destruct (cwt2 py true (fam k) (set_scales a (ScArr l)) xs _) as [r u] eqn:E2. injection E as -> <-.
      destruct (cwt_batch _ _ _ _ _ _ _ _ _ _ _ Hne HL E2) as (_ & Hit).
      specialize (Hit 0%nat ltac:(destruct xs; [congruence|cbn; lia])). apply cwt_restores in Hit.
      destruct Hit as (_ & E3 & E4). cbn in E3, E4. rewrite E3, E4. destruct t; reflexivity. }
  destruct Em as (-> & F). unfold mret in H. rewrite Havg in H. cbn [ho_collect] in H. injection H as <- _ <-.
  split; [reflexivity|].
  set (pick := fun out : list (mat C) * list R * option (list (mat C)) =>
     (nth b (fst (fst out)) mat0, snd (fst out), opt_map (fun l => nth b l mat0) (snd out))).
  assert (HLo : forall out, In out outs -> length (fst (fst out)) = length xs).
  { clear -F Hne HL. induction F as [|k out ks rs H F IH]; intros o' Hin; [destruct Hin|]. destruct Hin as [<-|Hin]; [|auto].
    unfold cwt_fresh2 in H. destruct (cwt2 py true (fam k) _ xs _) as [r u] eqn:E2. injection H as -> _.
    destruct out as [[W sc] d]. destruct (cwt_batch _ _ _ _ _ _ _ _ _ _ _ Hne HL E2) as (HW & _). exact HW. }
  assert (Hlen0 : length (nth 0 (map (fun r => fst (fst r)) outs) []) = length xs).
  { destruct outs as [|o0 outs']; [inversion F as [E|]; congruence|]. cbn. apply HLo. left; reflexivity. }
  split; [unfold mmean2; rewrite tab_length; exact Hlen0|].
  unfold cwt_higher_order. unfold mbind at 1, lift. unfold ho_scales. rewrite Ha. unfold mbind.
  rewrite (msequence_run (fun k => cwt_fresh py (fam k) (set_scales a (ScArr l)) (nth b xs [])) _ s (map pick outs)).
  - unfold mret. rewrite Havg. cbn [ho_collect]. eexists. f_equal. f_equal. f_equal.
    + f_equal. unfold mmean2. rewrite Hlen0, nth_tab by auto. f_equal. rewrite !map_map. reflexivity.
  - clear -F Hne HL Hb. induction F as [|k out ks rs H F IH]; cbn [map]; constructor; [|exact IH].
    unfold cwt_fresh2 in H. unfold cwt_fresh.
    destruct (cwt2 py true (fam k) _ xs _) as [r u] eqn:E2. injection H as -> Hu.
    destruct out as [[W sc] d]. destruct (cwt_batch _ _ _ _ _ _ _ _ _ _ _ Hne HL E2) as (_ & Hit).
    rewrite (Hit b Hb). rewrite Hu. reflexivity.
Qed.

Lemma ho_batched : exists Vs, cwt_higher_order2 false fam0 (HOTuple [0; 1]%nat) (Some true) arg_auto batch2 st0 = (Ok (HOOne Vs, None), st0) /\
  el (nth 0 Vs mat0) 2 0 = RtoC (2 * (2 * PI / 9)).
Proof.
  set (a1 := arg0 [1; rt2; 2] false true).
  destruct (run0 false true ramp_wave [1; rt2; 2] false true delta3 (KLog 2) eq_refl (scales122 true) ltac:(discriminate)) as (s' & E).
  assert (HL : same_length batch2 3) by (intros b Hb; cbn in Hb; destruct b as [|[|b]]; [reflexivity|reflexivity|lia]).
  destruct (cwt2_ok false true ramp_wave a1 batch2 3 st0 _ _ _ _ ltac:(discriminate) HL E) as (Ws & dWs & E2).
  destruct (cwt_batch false true ramp_wave a1 batch2 3 st0 Ws _ dWs s' ltac:(discriminate) HL E2) as (HW & Hit).
  specialize (Hit 0%nat ltac:(cbn; lia)). cbn [nth batch2] in Hit. fold a1 in E. rewrite E in Hit. injection Hit as Hit _.
  assert (E3 : cwt_fresh2 false ramp_wave a1 batch2 st0 = (Ok (Ws, [1; rt2; 2], dWs), st0)).
  { unfold cwt_fresh2. change (CS (s_pat st0) (s_lim st0) 1024 None) with st0. rewrite E2.
    destruct (cwt_restores _ _ _ _ _ _ _ _ E) as (_ & K2 & K3). rewrite K2, K3. reflexivity. }
  eexists. split.
  - unfold cwt_higher_order2. unfold mbind at 1, lift. cbn [ho_scales arg_auto a_scales auto_scales length batch2 Nat.eqb bind].
    change (CA (ScAuto auto_scales) true None None true false None false true (PatInt 0) None) with arg_auto.
    unfold mbind. rewrite (msequence_run (fun k => cwt_fresh2 false (fam0 k) (set_scales arg_auto (ScArr [1; rt2; 2])) batch2) _ st0 [(Ws, [1; rt2; 2], dWs); (Ws, [1; rt2; 2], dWs)]).
    + reflexivity.
    + repeat constructor; exact E3.
  - unfold mmean2. cbn [map fst nth]. rewrite nth_tab by (rewrite HW; cbn; lia).
    assert (EC : el (nth 0 Ws mat0) 2 0 = RtoC (2 * (2 * PI / 9))) by (rewrite <- Hit; apply (ramp_cell [1; rt2; 2] 2); cbn; lra).
    fold mat0. cbn [mmean map fst length el nth Csum]. rewrite !EC. apply C_eq; simpl; field.
Qed.

(** ** Tones and [trigdiff] with its default padding *)
Lemma tw8 z : tw 8 z = nth (Z.to_nat (z mod 8)) [ (1, 0); (/ sqrt 2, / sqrt 2); (0, 1); (- / sqrt 2, / sqrt 2);
                              (-1, 0); (- / sqrt 2, - / sqrt 2); (0, -1); (/ sqrt 2, - / sqrt 2) ] C0.
Proof.
  rewrite <- (tw_mod 8) by lia. change (Z.of_nat 8) with 8%Z.
  assert (H : (0 <= z mod 8 < 8)%Z) by (apply Z.mod_pos_bound; lia).
  assert (E1 : tw 8 1 = (/ sqrt 2, / sqrt 2)).
  { unfold tw, cis. replace (2 * PI * 1 / INR 8) with (PI / 4) by (simpl; field).
    rewrite cos_PI4, sin_PI4. f_equal; field; apply Rgt_not_eq, sqrt_lt_R0; lra. }
  assert (Hs : / sqrt 2 * / sqrt 2 = / 2).
  { rewrite <- Rinv_mult. rewrite sqrt_sqrt by lra. reflexivity. }
  set (h := / sqrt 2) in *.
  assert (E2 : tw 8 2 = (0, 1)).
  { change 2%Z with (1 + 1)%Z. rewrite tw_add, E1 by lia. apply C_eq; cbn; rewrite ?Hs; lra. }
  assert (E3 : tw 8 3 = (- h, h)).
  { change 3%Z with (2 + 1)%Z. rewrite tw_add, E1, E2 by lia. apply C_eq; cbn; lra. }
  assert (E4 : tw 8 4 = (-1, 0)).
  { change 4%Z with (2 + 2)%Z. rewrite tw_add, E2 by lia. apply C_eq; cbn; lra. }
  assert (E5 : tw 8 5 = (- h, - h)).
  { change 5%Z with (4 + 1)%Z. rewrite tw_add, E1, E4 by lia. apply C_eq; cbn; lra. }
  assert (E6 : tw 8 6 = (0, -1)).
  { change 6%Z with (4 + 2)%Z. rewrite tw_add, E2, E4 by lia. apply C_eq; cbn; lra. }
  assert (E7 : tw 8 7 = (h, - h)).
  { change 7%Z with (4 + 3)%Z. rewrite tw_add, E3, E4 by lia. apply C_eq; cbn; lra. }
  assert (z mod 8 = 0 \/ z mod 8 = 1 \/ z mod 8 = 2 \/ z mod 8 = 3 \/ z mod 8 = 4 \/ z mod 8 = 5 \/ z mod 8 = 6 \/ z mod 8 = 7)%Z as D by lia.
  destruct D as [->|[->|[->|[->|[->|[->|[->| ->]]]]]]]; cbn [Z.to_nat Pos.to_nat Pos.iter_op Nat.add nth]; auto.
  apply tw_0. lia.
Qed.

Ltac tw8s := rewrite !tw8;
  repeat match goal with |- context [Z.to_nat (?a mod 8)] =>
    let v := eval vm_compute in (Z.to_nat (a mod 8)) in change (Z.to_nat (a mod 8)) with v end;
  cbn [nth].
Definition quarter : mat C := Mat 1 4 (fun _ j => nth j [(1, 0); (0, 1); (-1, 0); (0, -1)] C0).
Lemma quarter_tone : tone_row quarter 0 1 C1.
Proof.
  intros j Hj. cbn [ncols quarter] in *.
  assert (T : forall z, tw 4 z = tw 8 (2 * z)).
  { intros z. unfold tw. f_equal. rewrite mult_IZR. simpl. field. }
  rewrite T. cbn [el quarter].
  destruct j as [|[|[|[|j]]]]; [..|lia]; tw8s; apply C_eq; cbn; ring.
Qed.
Lemma pad4 {A} (z a b c d : A) : padsignal z [a; b; c; d] PReflect None = Ok ([c; b; a; b; c; d; c; b], 8%Z, 2%Z, 2%Z).
Proof. vm_compute. reflexivity. Qed.

Definition pad8 (j : nat) : C := nth j [(-1, 0); (0, 1); (1, 0); (0, 1); (-1, 0); (0, -1); (-1, 0); (0, 1)] C0.
Lemma quarter_trigdiff : exists D, trigdiff quarter 1 None None None None = Ok D /\
  el D 0 0 = idft 8 (fun k => Cmul (dft 8 pad8 k) (0, nth k (xifn 1 8) 0 * 1)) 2.
Proof.
  eexists. split.
  - unfold trigdiff. cbn [bind]. unfold pad_mat. change (ncols quarter) with 4%nat. change (nrows quarter) with 1%nat.
    cbn [Nat.eqb]. unfold tab at 1. cbn [seq map pad_mat_rows]. unfold tab. cbn [seq map quarter el nth]. rewrite pad4. cbn [bind].
    change (p2up (Z.of_nat 4)) with (8, 2, 2)%Z. cbn [bind orb]. reflexivity.
  - cbn [el mcols ncols nrows]. reflexivity.
Qed.
Lemma quarter_value : fst (idft 8 (fun k => Cmul (dft 8 pad8 k) (0, nth k (xifn 1 8) 0 * 1)) 2) = PI / 4.
Proof.
  unfold idft, dft. cbn [Csum]. unfold xifn. rewrite !nth_tab by lia.
  unfold xi_bin. cbn [Nat.div Nat.divmod fst Nat.add Nat.ltb Nat.leb Z.of_nat].
  tw8s. unfold pad8. cbn [nth]. 
  assert (Hs : / sqrt 2 * / sqrt 2 = / 2) by (rewrite <- Rinv_mult, sqrt_sqrt by lra; reflexivity).
  set (h := / sqrt 2) in *. cbn -[Rinv Rdiv PI INR]. simpl INR. field.
Qed.

Lemma trigdiff_default_tone : exists D, trigdiff quarter 1 None None None None = Ok D /\
  el D 0 0 <> Cmul (0, bin_freq 1 4 * 1) (el quarter 0 0).
Proof.
  destruct quarter_trigdiff as (D & E & HD). exists D. split; [exact E|]. intros H. rewrite HD in H.
  apply (f_equal fst) in H. rewrite quarter_value in H. cbn in H. pose proof PI_RGT_0. lra.
Qed.

(** ** [icwt] on piecewise scales *)
Lemma icwt_piece6 : exists x, x <> [] /\
  icwt flat_wave 1 (Mat 6 1 (fun _ _ => C1)) piece6 true None true true None 0 PReflect false = Ok x /\
  icwt flat_wave 1 (Mat 6 1 (fun _ _ => C1)) piece6 true None true true None 1 PReflect false = Ok (map (fun y => y + 2) x).
Proof.
  destruct piece6_kind as (v & Hk).
  assert (exists x0, icwt flat_wave 1 (Mat 6 1 (fun _ _ => C1)) piece6 true None true true None 0 PReflect false = Ok [x0]) as (x0 & E).
  { unfold icwt. cbn [length piece6]. fold piece6. cbn [icwt_rec]. unfold check_gmw. cbn [wf_norm flat_wave bind]. rewrite Hk. cbn [bind].
    cbn [length piece6 nrows Nat.eqb negb]. fold piece6. rewrite piece6_trans. cbn [bind].
    set (M1 := mrows _ 0 _). set (M2 := mrows _ _ _).
    change (firstn 3 piece6) with [1; rt2; 2]. change (skipn 3 piece6) with [4; 8; 16]. rewrite scales122, scales4816. cbn [bind].
    change (nrows M1) with 3%nat. change (nrows M2) with 3%nat. cbn [length Nat.eqb negb bind].
    unfold icwt_1int. change (ncols M1) with 1%nat. change (ncols M2) with 1%nat. unfold tab. cbn [seq map ladd length Nat.eqb combine].
    unfold ladd. cbn [length Nat.eqb combine map]. eauto. }
  exists [x0]. split; [discriminate|]. split; [exact E|].
  rewrite (icwt_mean_two flat_wave 1 _ piece6 true None true true None PReflect false v 3 (KLog 2) (KLog 1) Hk (piece6_trans true)
            (scales122 true) eq_refl (scales4816 true) eq_refl 1).
  rewrite E. cbn. do 3 f_equal. ring.
Qed.

(** ** Put together for the property file *)
Lemma complex_tone_cast py inst f a k n :
  cwt_complex py inst f a (tab n (fun m => cis (2 * PI * INR k * INR m / INR n))) = cwt py inst f a (tone 1 0 k n).
Proof.
  unfold cwt_complex. f_equal. unfold tone, tab. rewrite map_map. apply map_ext. intros m. cbn [Re cis fst].
  rewrite Rplus_0_r, Rmult_1_l. reflexivity.
Qed.
Lemma pos_wave_phase : exists W dW s',
  cwt false false pos_wave (arg0 [1; 2; 4] true true) (tone 1 0 1 4) st0 = (Ok (W, [1; 2; 4], Some dW), s') /\
  1 / 4 <= Cabs (el W 1 3) /\ el (phase_cwt (1 / 4) W dW) 1 3 = Fin (1 * Rabs 1 / INR 4).
Proof.
  destruct pos_wave_tone as (W & dW & s' & E & H). exists W, dW, s'. split; [exact E|]. split; [exact H|].
  apply (tone_phase false false pos_wave (arg0 [1; 2; 4] true true) st0 1 0 1 4 1 W [1; 2; 4] dW s'); try lia; try reflexivity; try exact E; try lra.
  - left; reflexivity.
  - intros _. cbn [nth wf pos_wave]. pose proof PI_RGT_0. destruct (Rlt_dec _ _); [|reflexivity]. simpl INR in *. lra.
Qed.
Lemma pos_wave_run : real_valued pos_wave /\ uncached false (arg0 [1; 2; 4] true true) st0 /\ exists W dW s',
  cwt false false pos_wave (arg0 [1; 2; 4] true true) (tone 1 0 1 4) st0 = (Ok (W, [1; 2; 4], Some dW), s') /\
  el W 1 3 <> C0.
Proof.
  split; [intros w; cbn; destruct (Rlt_dec 0 w); reflexivity|]. split; [left; reflexivity|].
  destruct pos_wave_tone as (W & dW & s' & E & H). exists W, dW, s'. split; [exact E|].
  intros E0. rewrite E0, Cabs_0 in H. lra.
Qed.
Lemma icwt_124 m : icwt flat_wave 1 (Mat 3 1 (fun _ _ => C1)) [1; 2; 4] true None true true None m PReflect false = Ok [6 * ln 2 + m].
Proof.
  unfold icwt. cbn [icwt_rec check_gmw wf_norm flat_wave bind]. rewrite scales124. cbn [bind length nrows Nat.eqb negb ncols].
  unfold icwt_1int, tab. cbn [seq map ncols nrows Rsum el nth icwt_norm]. do 2 f_equal.
  replace (1 / 1) with 1 by field. rewrite Rpower_1 by lra. unfold Re, C1. cbn [fst]. field.
Qed.
Lemma complex_vec_loop : exists f x W W' s' s'',
  cwt false false f (arg0 [1; 2; 4] false true) x st0 = (Ok (W, [1; 2; 4], None), s') /\
  cwt false false f (arg0 [1; 2; 4] false false) x st0 = (Ok (W', [1; 2; 4], None), s'') /\
  el W 0 0 <> el W' 0 0.
Proof.
  destruct bad_vec124 as (W & s' & E & H). destruct bad_loop124 as (W' & s'' & E' & H').
  exists bad_wave, delta3, W, W', s', s''. split; [exact E|]. split; [exact E'|]. intros K. rewrite K in H. lra.
Qed.
Lemma complex_rows : exists f x l W W' s' s'',
  cwt false false f (arg0 [1; 2; 4] false true) x st0 = (Ok (W, [1; 2; 4], None), s') /\
  cwt false false f (arg0 (1 :: l) false true) x st0 = (Ok (W', 1 :: l, None), s'') /\
  el W 0 0 <> el W' 0 0.
Proof.
  destruct bad_vec124 as (W & s' & E & H). destruct bad_vec122 as (W' & s'' & E' & H').
  exists bad_wave, delta3, [rt2; 2], W, W', s', s''. split; [exact E|]. split; [exact E'|]. intros K. rewrite K in H. lra.
Qed.
Lemma delta_run : exists W s', cwt false true pos_wave (arg0 [1; 2; 4] false true) delta3 st0 = (Ok W, s').
Proof. destruct raising_call as (_ & _ & _ & H & _). exact H. Qed.
Lemma padded_run pt : exists W s',
  cwt false false pos_wave (CA (ScArr [1; 2; 4]) true None None true false (Some pt) false true (PatInt 0) None) [3; 1; 2; 5; 4] st0 =
  (Ok (W, [1; 2; 4], None), s') /\ ncols W = 5%nat.
Proof.
  set (a := CA _ _ _ _ _ _ _ _ _ _ _). set (x := [3; 1; 2; 5; 4]).
  assert (exists xp n1, pad_input (Some pt) x = Ok (xp, n1)) as (xp & n1 & Ep) by (destruct pt; cbn; eauto).
  assert (P : pre pos_wave a x 1 xp n1 [1; 2; 4]).
  { unfold pre. cbn [a a_fs a_t a_l1 a_pad a_scales a_f64s]. repeat split; [exact Ep|]. unfold process_scales. rewrite scales124. reflexivity. }
  pose proof (cwt_run false false pos_wave a x st0 1 xp n1 [1; 2; 4] P eq_refl eq_refl) as E. cbv zeta in E.
  change (a_deriv a) with false in E. cbv iota in E. do 2 eexists. split; [exact E|].
  destruct (cwt_columns false false pos_wave a x st0 _ _ _ _ pt eq_refl E) as (u & m1 & m2 & V & dV & _ & _ & _ & _ & (Hc & _) & _).
  exact Hc.
Qed.
Lemma default_tone : exists A D, tone_row A 0 1 C1 /\ ncols A = 4%nat /\
  trigdiff A 1 None None None None = Ok D /\ el D 0 0 <> Cmul (0, bin_freq 1 4 * 1) (el A 0 0).
Proof.
  destruct trigdiff_default_tone as (D & E & H). exists quarter, D. repeat split; [exact quarter_tone|exact E|exact H].
Qed.
Lemma ho_batch_differs : exists a xs V Vs,
  cwt_higher_order false fam0 (HOTuple [0; 1]%nat) (Some true) a (nth 0 xs []) st0 = (Ok (HOOne V, None), st0) /\
  cwt_higher_order2 false fam0 (HOTuple [0; 1]%nat) (Some true) a xs st0 = (Ok (HOOne Vs, None), st0) /\
  same_length xs 3 /\ el (nth 0 Vs mat0) 2 0 <> el V 2 0.
Proof.
  destruct ho_single as (V & E & _ & HV). destruct ho_batched as (Vs & E2 & HVs).
  exists arg_auto, batch2, V, Vs. split; [exact E|]. split; [exact E2|]. split.
  - intros b Hb; cbn in Hb; destruct b as [|[|b]]; [reflexivity|reflexivity|lia].
  - rewrite HV, HVs. intros K. apply RtoC_inj in K. pose proof PI_RGT_0. lra.
Qed.
