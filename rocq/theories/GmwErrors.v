(** Which exception [gmw] raises. *)
From Coq Require Import Reals Lra Lia.
From Verif Require Import Py Cplx Freqs Pointwise Comb Wavelets GmwOrders GmwThms.
Local Open Scope R_scope.

Theorem gmw_errors G gamma beta norm order centered f32 :
  (forall e, gmw G gamma beta norm order centered f32 = Err e -> e = ValueError \/ e = TypeError) /\
  (gmw G gamma beta norm order centered f32 = Err TypeError <->
   0 < gamma /\ 0 <= beta /\ norm <> OtherNorm /\
   (order = OOther \/ exists r, order = OFloat r /\
     ((forall z, r <> IZR z) \/ (exists z, r = IZR z) /\ 0 < r /\ 0 < beta /\ ~ (norm = Energy /\ f32 = true)))).
Proof.
  unfold gmw, check_beta0_args.
  destruct (Rle_dec gamma 0) as [Hg|Hg].
  { cbn [bind]. split; [intros e H; injection H as <-; now left|]. split; [discriminate|]. intros (H & _). lra. }
  destruct (Rlt_dec beta 0) as [Hb|Hb].
  { cbn [bind]. split; [intros e H; injection H as <-; now left|]. split; [discriminate|]. intros (_ & H & _). lra. }
  assert (Hint : forall r, Reqb r (IZR (Int_part r)) = true <-> exists z, r = IZR z).
  { intros r. unfold Reqb. destruct (Req_EM_T r _) as [H|H]; split; intros K; try reflexivity; try discriminate; [eauto|].
    destruct K as (z & ->). elim H. unfold Int_part. rewrite <- (tech_up (IZR z) (z + 1)); [f_equal; lia| |]; rewrite plus_IZR; lra. }
  assert (Hchk : check_gmw_args gamma beta = if Rle_dec beta 0 then Err ValueError else Ok tt).
  { unfold check_gmw_args. destruct (Rle_dec gamma 0); [contradiction|reflexivity]. }
  assert (L1 : forall G gamma beta c, gmw_l1 gamma beta c <> Err TypeError /\ gmw_l2 G gamma beta c <> Err TypeError /\
    (forall k, gmw_l1_k G gamma beta k c <> Err TypeError) /\ (forall k, gmw_l2_k G gamma beta k c <> Err TypeError)).
  { intros. unfold gmw_l1, gmw_l2, gmw_l1_k, gmw_l2_k, check_gmw_args.
    destruct (Rle_dec gamma0 0); [|destruct (Rle_dec beta0 0)]; cbn [bind]; repeat split; discriminate. }
  assert (L2 : forall e, (gmw_l1 gamma beta centered = Err e -> e = ValueError) /\ (gmw_l2 G gamma beta centered = Err e -> e = ValueError) /\
    (forall k, gmw_l1_k G gamma beta k centered = Err e -> e = ValueError) /\ (forall k, gmw_l2_k G gamma beta k centered = Err e -> e = ValueError)).
  { intros e. unfold gmw_l1, gmw_l2, gmw_l1_k, gmw_l2_k, check_gmw_args.
    destruct (Rle_dec gamma 0); [|destruct (Rle_dec beta 0)]; cbn [bind]; repeat split; intros; congruence. }
  specialize (L1 G gamma beta centered). destruct L1 as (A1 & A2 & A3 & A4).
  assert (Go : forall (o0 ok : res (R -> R)), (forall e, o0 = Err e -> e = ValueError) -> (forall e, ok = Err e -> e = ValueError) ->
    let res := match order with OInt 0%Z => o0 | OInt _ => ok
      | OFloat r => if Reqb r 0 then o0 else do _ <- check_gmw_args gamma beta; Err TypeError | OOther => Err TypeError end in
    forall b : bool, let out := (do _ <- check_order order; if b then Err ValueError else res) in
    (forall e, out = Err e -> e = ValueError \/ e = TypeError) /\
    (out = Err TypeError <-> order = OOther \/ exists r, order = OFloat r /\ ((forall z, r <> IZR z) \/ (exists z, r = IZR z) /\ 0 < r /\ 0 < beta /\ b = false))).
  { intros o0 ok H0 Hk res b out. destruct order as [z|r|].
    - unfold out. cbn [check_order]. destruct (z <? 0)%Z; cbn [bind].
      { split; [intros e H; injection H as <-; now left|]. split; [discriminate|]. intros [H|(r & H & _)]; discriminate. }
      assert (K : forall e, res = Err e -> e = ValueError) by (unfold res; destruct z; assumption).
      destruct b; (split; [intros e H; left; first [now apply K|congruence]|]); (split; [intros H|intros [H|(r & H & _)]; discriminate]);
        [discriminate|apply K in H; discriminate].
    - unfold out. cbn [check_order]. destruct (Reqb r (IZR (Int_part r))) eqn:Ei; cbn [negb].
      + apply Hint in Ei. destruct (Rlt_dec r 0) as [Hr|Hr]; cbn [bind].
        { split; [intros e H; injection H as <-; now left|]. split; [discriminate|]. intros [H|(r' & H & [K|(_ & K & _)])]; [discriminate| |];
          injection H as <-; [destruct Ei as (z & ->); now elim (K z)|lra]. }
        destruct b.
        { split; [intros e H; injection H as <-; now left|]. split; [discriminate|]. intros [H|(r' & H & [K|(_ & _ & _ & K)])]; [discriminate| |discriminate].
          injection H as <-. destruct Ei as (z & ->). now elim (K z). }
        unfold res. unfold Reqb. destruct (Req_EM_T r 0) as [Er|Er].
        { split; [intros e H; left; now apply H0|]. split; [intros H; apply H0 in H; discriminate|]. intros [H|(r' & H & [K|(_ & K & _)])]; [discriminate| |];
          injection H as <-; [destruct Ei as (z & ->); now elim (K z)|lra]. }
        rewrite Hchk. destruct (Rle_dec beta 0) as [Hb0|Hb0]; cbn [bind].
        { split; [intros e H; injection H as <-; now left|]. split; [discriminate|]. intros [H|(r' & H & [K|(_ & _ & K & _)])]; [discriminate| |lra].
          injection H as <-. destruct Ei as (z & ->). now elim (K z). }
        split; [intros e H; injection H as <-; now right|]. split; [|reflexivity]. intros _. right. exists r. split; [reflexivity|]. right. repeat split; [exact Ei|lra|lra].
      + cbn [bind]. split; [intros e H; injection H as <-; now right|]. split; [|reflexivity]. intros _. right. exists r. split; [reflexivity|]. left.
        intros z Hz. assert (Reqb r (IZR (Int_part r)) = true) by (apply Hint; eauto). congruence.
    - unfold out. cbn [check_order bind]. split; [intros e H; injection H as <-; now right|]. split; [now left|reflexivity]. }
  clear Hint. destruct norm; cbn [bind].
  - destruct (Go (gmw_l1 gamma beta centered) (match order with OInt k => gmw_l1_k G gamma beta (Z.to_nat k) centered | _ => Err ValueError end)
      (fun e => proj1 (L2 e)) ltac:(intros e; destruct order; [apply L2|congruence|congruence]) false) as (P & Q).
    split; [intros e H; apply P; refine (eq_trans _ H); destruct (check_order order); [|reflexivity]; destruct f32, order as [[]| |]; reflexivity|].
    split.
    + intros H. split; [lra|]. split; [lra|]. split; [discriminate|].
      destruct (proj1 Q) as [K|(r & K & [K1|(K1 & K2 & K3 & _)])]; [refine (eq_trans _ H); destruct (check_order order); [|reflexivity]; destruct f32, order as [[]| |]; reflexivity|now left| |];
        right; exists r; split; auto. right. repeat split; auto. intros (C & _). discriminate.
    + intros (_ & _ & _ & H).
      refine (eq_trans _ (proj2 Q _)); [destruct (check_order order); [|reflexivity]; destruct f32, order as [[]| |]; reflexivity|].
      destruct H as [H|(r & H & [K1|(K1 & K2 & K3 & _)])]; [now left| |]; right; exists r; split; auto.
  - destruct (Go (gmw_l2 G gamma beta centered) (match order with OInt k => gmw_l2_k G gamma beta (Z.to_nat k) centered | _ => Err ValueError end)
      (fun e => proj1 (proj2 (L2 e))) ltac:(intros e; destruct order; [apply L2|congruence|congruence]) f32) as (P & Q).
    split; [intros e H; apply P; refine (eq_trans _ H); destruct (check_order order); [|reflexivity]; destruct f32, order as [[]| |]; reflexivity|].
    split.
    + intros H. split; [lra|]. split; [lra|]. split; [discriminate|].
      destruct (proj1 Q) as [K|(r & K & [K1|(K1 & K2 & K3 & K4)])]; [refine (eq_trans _ H); destruct (check_order order); [|reflexivity]; destruct f32, order as [[]| |]; reflexivity|now left| |];
        right; exists r; split; auto. right. repeat split; auto. intros (_ & C). congruence.
    + intros (_ & _ & _ & H).
      refine (eq_trans _ (proj2 Q _)); [destruct (check_order order); [|reflexivity]; destruct f32, order as [[]| |]; reflexivity|].
      destruct H as [H|(r & H & [K1|(K1 & K2 & K3 & K4)])]; [now left| |]; right; exists r; split; auto.
      right. repeat split; auto. destruct f32; [elim K4; split; reflexivity|reflexivity].
  - split; [intros e H; injection H as <-; now left|]. split; [discriminate|]. intros (_ & _ & H & _). now elim H.
Qed.
(** the energy norm in single precision, every order *)
Theorem energy_single G gamma beta k centered : gmw G gamma beta Energy (OInt k) centered true = Err ValueError.
Proof.
  destruct (gmw_errors G gamma beta Energy (OInt k) centered true) as (P & Q).
  destruct (gmw G gamma beta Energy (OInt k) centered true) as [f|e] eqn:E.
  - exfalso. destruct (proj1 (gmw_accepts G gamma beta Energy (OInt k) centered true) (ex_intro _ f E)) as (_ & _ & [H|(_ & H)] & _); discriminate.
  - destruct (P e eq_refl) as [-> | ->]; [reflexivity|]. destruct (proj1 Q eq_refl) as (_ & _ & _ & [H|(r & H & _)]); discriminate.
Qed.
Lemma gmw_errors_case : gmw (fun _ => 1) 3 60 Energy (OInt 2) false true = Err ValueError /\ gmw (fun _ => 1) 3 60 Bandpass (OFloat (1 / 2)) false true = Err TypeError.
Proof.
  split; [apply energy_single|]. apply gmw_errors. split; [lra|]. split; [lra|]. split; [discriminate|]. right. exists (1 / 2). split; [reflexivity|]. left.
  intros z Hz. assert (H : 1 = IZR (2 * z)) by (rewrite mult_IZR; lra). apply eq_IZR in H. lia.
Qed.
