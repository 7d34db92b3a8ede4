(** Scaling, shifting and reversing the signal (C113, C114): how [ssq_cwt] follows. *)
From Coq Require Import Reals Lra Lia List ZifyBool ZifyNat.
Import ListNotations.
From Verif Require Import Py Round Parallel Cplx CplxProofs Padding Freqs Stft Squeeze SqueezeProofs BinProofs
  SqueezeThms SqueezeThms2 SqueezeThms3 Scales Ssqueeze SsqueezeProofs FreqRange Cwt CwtProofs CwtThms Pointwise SsqCwt DiffProofs
  SsqCwtProofs Transport RateThms.
Local Open Scope R_scope.

(** options with another threshold *)
Definition with_gamma (g : option R) (o : ssq_opts) : ssq_opts :=
  SO (o_tr o) (o_freqs o) (o_scales o) (o_f64s o) (o_f64v o) (o_fs o) (o_sq o) (o_mr o) g (o_flip o) (o_Sfs o).
Definition set_gamma (g : option R) (q : ssq_args) : ssq_args :=
  SQ (q_scales q) (q_kind q) (q_nv q) (q_f64s q) (q_f64 q) (q_f64v q) (q_fs q) (q_t q) (q_freqs q) (q_pad q) (q_sq q)
     (q_mr q) (q_diff q) (q_difforder q) g (q_vec q) (q_order q) (q_pat q) (q_flip q) (q_cache q) (q_get_w q).

(** cells of [B] in the columns [P] are those of [A], column [sigma j], mapped by [phi] *)
Definition related {X Y} (phi : X -> Y) (P : nat -> Prop) (sigma : nat -> nat) (A : mat X) (B : mat Y) : Prop :=
  nrows B = nrows A /\ ncols B = ncols A /\
  forall j, (j < ncols A)%nat -> P j ->
    (sigma j < ncols A)%nat /\ forall i, (i < nrows A)%nat -> el B i j = phi (el A i (sigma j)).

Lemma has_negative_false w : (forall i j r, el w i j = Fin r -> 0 <= r) -> has_negative w = false.
Proof.
  intros H. unfold has_negative. destruct (existsb _ _) eqn:E; [|reflexivity]. exfalso.
  apply existsb_exists in E. destruct E as (i & _ & E). apply existsb_exists in E. destruct E as (j & _ & E).
  destruct (el w i j) eqn:Ew; [|discriminate E]. apply H in Ew. unfold Rltb' in E. destruct (Rlt_dec r 0); [lra|discriminate E].
Qed.

Theorem ssqueeze_map ord o W W' w w' d d' T f psi a P sigma : valid_order ord -> o_Sfs o = None ->
  0 < a -> real_linear psi -> (forall z, Cabs (psi z) = a * Cabs z) ->
  let V := squeeze_input (o_sq o) (nrows W) W in let V' := squeeze_input (o_sq o) (nrows W') W' in
  nrows W' = nrows W -> ncols W' = ncols W -> related psi P sigma V V' ->
  opt_rel (fun w w' => forall i j, (i < nrows V)%nat -> (j < ncols V)%nat -> P j -> el w' i j = el w i (sigma j)) w w' ->
  match w' with Some w' => has_negative w' = false | None => True end ->
  opt_rel (fun d d' => forall i j, (i < nrows V)%nat -> (j < ncols V)%nat -> P j ->
    phase_cwt_pt (el V' i j) (el d' i j) = phase_cwt_pt (el V i (sigma j)) (el d i (sigma j))) d d' ->
  ssqueeze ord o W w d = Ok (T, f) ->
  exists T', ssqueeze ord (with_gamma (opt_map (Rmult a) (o_gamma o)) o) W' w' d' = Ok (T', f) /\
    nrows T' = nrows V /\ ncols T' = ncols V /\ related psi P sigma T T'.
Proof.
  intros Ho Hn Ha Hpsi Hab V V' Hr Hc (R1 & R2 & R3) Hw Hneg Hd E.
  destruct (ssqueeze_inv _ _ _ _ _ _ _ E) as (k & v & ls & Ev & -> & E1). fold V in E1.
  destruct (one_cells _ _ _ _ _ _ _ _ _ Ho E1) as (A1 & A2 & cst & ca & g & _ & _ & Eg & _).
  set (o' := with_gamma (opt_map (Rmult a) (o_gamma o)) o).
  destruct (one_transport ord o o' k v v ls V V' w w' d d' T psi P sigma g g Ho E1 Eg Hpsi R1 R2) as (T' & ET & N1 & N2 & N3); auto.
  - intros j Hj HP. apply (R3 j Hj HP).
  - split; [|split].
    + destruct w, w'; cbn [opt_rel] in Hw; try contradiction; [split; discriminate|tauto].
    + destruct d, d'; cbn [opt_rel] in Hd; try contradiction; [split; discriminate|tauto].
    + cbn [o' with_gamma o_gamma]. destruct (o_gamma o); cbn [opt_map]; split; congruence.
  - intros i j Hi Hj HP. apply (R3 j Hj HP). exact Hi.
  - intros i j Hi Hj HP omax. destruct (R3 j Hj HP) as [R4 R5']. pose proof (R5' i Hi) as R5.
    unfold freq_at. cbn [o' with_gamma o_gamma o_Sfs]. rewrite Hn.
    destruct w as [w|], w' as [w'|]; cbn [opt_rel] in Hw; try contradiction.
    + rewrite (Hw i j Hi Hj HP). destruct (el w i (sigma j)); [reflexivity|exact I].
    + destruct d as [d|], d' as [d'|]; cbn [opt_rel] in Hd; try contradiction; [|exact I].
      destruct (o_gamma o) as [gm|]; cbn [opt_map]; [|exact I]. rewrite R5, Hab.
      destruct (Rlt_dec gm (Cabs (el V i (sigma j)))), (Rlt_dec (a * gm) (a * Cabs (el V i (sigma j)))); cbn [same_bin]; try exact I; try nra.
      rewrite <- R5, (Hd i j Hi Hj HP). reflexivity.
  - exists T'. split.
    + unfold ssqueeze. cbn [o' with_gamma o_gamma o_sq]. change (o_sq o') with (o_sq o). rewrite Hc.
      change (ssq_freqs_of o' (ncols W)) with (ssq_freqs_of o (ncols W)). rewrite Ev. cbn [bind]. fold V'. 
      assert (Hbad : match w', d', opt_map (Rmult a) (o_gamma o) with
         | None, None, _ | None, _, None => true | Some w, _, _ => has_negative w | _, _, _ => false end = false).
      { unfold ssqueeze in E. destruct w as [w|], w' as [w'|]; cbn [opt_rel] in Hw; try contradiction; [exact Hneg|].
        destruct d as [d|], d' as [d'|]; cbn [opt_rel] in Hd; try contradiction; [|discriminate E].
        destruct (o_gamma o); [reflexivity|discriminate E]. }
      rewrite Hbad. rewrite ET. reflexivity.
    + split; [congruence|]. split; [congruence|]. split; [congruence|]. split; [congruence|]. intros j Hj HP. split.
      * rewrite A2 in Hj |- *. apply (R3 j Hj HP).
      * intros i Hi. apply N3; assumption.
Qed.

(** how the squeezed array follows a map [phi] of [Wx] and [chi] of [dWx] *)
Definition compatible (sq : squeezing) (phi chi psi : C -> C) : Prop :=
  match sq with
  | SqSum => forall z, psi z = phi z
  | SqAbs => (forall z, psi (RtoC (Cabs z)) = RtoC (Cabs (phi z))) /\
             (forall z d, phase_cwt_pt (RtoC (Cabs (phi z))) (chi d) = phase_cwt_pt (RtoC (Cabs z)) d)
  | _ => False
  end.
Lemma compatible_shape sq phi chi psi : compatible sq phi chi psi -> shape_keeping sq.
Proof. destruct sq; cbn; auto; contradiction. Qed.
Lemma squeeze_input_related sq phi chi psi P sigma W W' : compatible sq phi chi psi -> related phi P sigma W W' ->
  related psi P sigma (squeeze_input sq (nrows W) W) (squeeze_input sq (nrows W') W').
Proof.
  intros Hc (H1 & H2 & H3). destruct sq; cbn [compatible squeeze_input] in *; try contradiction.
  - split; [exact H1|]. split; [exact H2|]. intros j Hj HP. destruct (H3 j Hj HP) as [H4 H5]. split; [exact H4|].
    intros i Hi. rewrite Hc. apply H5, Hi.
  - split; [exact H1|]. split; [exact H2|]. cbn [nrows ncols el]. intros j Hj HP. destruct (H3 j Hj HP) as [H4 H5]. split; [exact H4|].
    intros i Hi. rewrite (proj1 Hc), H5 by exact Hi. reflexivity.
Qed.

(** the inner transform follows the change of the signal *)
Definition follows (py : bool) (f : wfun) (q : ssq_args) (phi chi : C -> C) P sigma (x x' : list R) (s s' : cstate) : Prop :=
  forall aa W sc dW, a_pad aa = q_pad q -> a_rpadded aa = false -> a_l1 aa = true -> a_vec aa = q_vec q -> a_cache aa = q_cache q ->
    a_deriv aa = true -> cwt py true f aa x s = (Ok (W, sc, Some dW), s') ->
    exists W' dW', cwt py true f aa x' s = (Ok (W', sc, Some dW'), s') /\ related phi P sigma W W' /\ related chi P sigma dW dW'.

Lemma finish_dims a n1 N sc V U : nrows V = nrows U -> ncols V = ncols U ->
  nrows (finish a n1 N sc V) = nrows (finish a n1 N sc U) /\ ncols (finish a n1 N sc V) = ncols (finish a n1 N sc U).
Proof.
  intros H1 H2. unfold finish. destruct (negb _ && _), (a_l1 a); cbn [mcols scale_rows nrows ncols]; rewrite ?H1, ?H2; auto.
Qed.
Lemma cwt_dims py inst f a x s W sc dW s' : cwt py inst f a x s = (Ok (W, sc, Some dW), s') ->
  nrows dW = nrows W /\ ncols dW = ncols W.
Proof.
  intros H. destruct (cwt_ok_inv _ _ _ _ _ _ _ _ H) as ((fs & xp & n1 & scales & P) & U1 & U2).
  rewrite (cwt_run _ _ _ _ _ _ _ _ _ _ P U1 U2) in H. cbv zeta in H.
  injection H as <- <- H _. destruct (a_deriv a); [|discriminate H]. injection H as <-. apply finish_dims; reflexivity.
Qed.

Theorem ssq_cwt_map ord py f fam q g x x' s r s' phi chi psi a P sigma : valid_order ord -> q_order q = None -> q_diff q = DTrig ->
  length x' = length x -> 0 < a -> real_linear psi -> (forall z, Cabs (psi z) = a * Cabs z) -> (forall z, Cabs (phi z) = a * Cabs z) ->
  (forall z d, phase_cwt_pt (phi z) (chi d) = phase_cwt_pt z d) -> compatible (q_sq q) phi chi psi ->
  ssq_gamma (set_gamma g q) = a * ssq_gamma q -> follows py f q phi chi P sigma x x' s s' ->
  ssq_cwt ord py f fam q x s = (Ok r, s') ->
  exists r', ssq_cwt ord py f fam (set_gamma g q) x' s = (Ok r', s') /\ r_freqs r' = r_freqs r /\ r_scales r' = r_scales r /\
    related psi P sigma (r_Tx r) (r_Tx r') /\ related phi P sigma (r_Wx r) (r_Wx r') /\ related chi P sigma (r_dWx r) (r_dWx r') /\
    opt_rel (related (fun w => w) P sigma) (r_w r) (r_w r').
Proof.
  intros Ho Hq Hd Hx Ha Hpsi Hpa Hfa Hph Hcomp Hg Hfol E.
  destruct (ssq_cwt_inv _ _ _ _ _ _ _ _ _ Hq E) as (k & fs & sc & kind & W & dW & E1 & E2 & E3 & E4 & E5).
  destruct (step_inv _ _ _ _ _ _ _ _ _ _ _ E1 E5) as (w & T & F1 & F2 & F3 & F4 & F5 & F6 & F7).
  assert (En : numeric q = false) by (unfold numeric; rewrite Hd; reflexivity).
  assert (Es : squeezed q (length x) W = W) by (unfold squeezed; rewrite En; reflexivity). rewrite Es in *.
  destruct (Hfol (inner q fs (ScArr sc) (match q_scales q with ScArr _ => q_f64s q | ScAuto _ => true end) true (numeric q) (q_pat q)) W sc dW eq_refl En eq_refl eq_refl eq_refl eq_refl E4) as (W' & dW' & E4' & RW & RD).
  set (V := squeeze_input (q_sq q) (nrows W) W).
  assert (HVr : nrows V = nrows W /\ ncols V = ncols W) by (apply squeeze_input_shape, (compatible_shape _ _ _ _ Hcomp)).
  pose proof (squeeze_input_related _ _ _ _ _ _ _ _ Hcomp RW) as RV. fold V in RV.
  set (w' := if q_get_w q then Some (phase_cwt (a * ssq_gamma q) W' dW') else None).
  assert (Hw : w = if q_get_w q then Some (phase_cwt (ssq_gamma q) W dW) else None).
  { destruct (q_get_w q); [|tauto]. destruct F7 as (w0 & -> & F7). rewrite Hd in F7. unfold phase_transform in F7. injection F7 as <-. reflexivity. }
  assert (RWW : forall i j, (i < nrows W)%nat -> (j < ncols W)%nat -> P j ->
     el (phase_cwt (a * ssq_gamma q) W' dW') i j = el (phase_cwt (ssq_gamma q) W dW) i (sigma j)).
  { intros i j Hi Hj HP. cbn [phase_cwt el]. destruct RW as (_ & _ & RW). destruct (RW j Hj HP) as [_ RW1]. rewrite RW1, Hfa by exact Hi.
    destruct RD as (D1 & D2 & RD). 
    destruct (cwt_dims _ _ _ _ _ _ _ _ _ _ E4) as (G1 & G2).
    destruct (RD j ltac:(congruence) HP) as [_ RD1]. rewrite RD1, Hph by congruence.
    destruct (Rlt_dec (a * Cabs (el W i (sigma j))) (a * ssq_gamma q)), (Rlt_dec (Cabs (el W i (sigma j))) (ssq_gamma q)); reflexivity || nra. }
  edestruct (ssqueeze_map ord) with (W' := W') (w' := w') (d' := if q_get_w q then @None (mat C) else Some dW') (psi := psi) (a := a) (P := P) (sigma := sigma) (12 := F1)
    as (T' & G1 & G2 & G3 & G4); [exact Ho|reflexivity|exact Ha|exact Hpsi|exact Hpa|apply RW|apply RW|exact RV| | | |].
  all: cbn [o_sq].
  - fold V. destruct HVr as [V1 V2]. rewrite V1, V2, Hw. unfold w'. destruct (q_get_w q); [exact RWW|exact I].
  - unfold w'. destruct (q_get_w q); [|exact I]. apply has_negative_false. intros i j r0. cbn [phase_cwt el].
    destruct (Rlt_dec _ _); [discriminate|]. intros K. injection K as <-. apply Rabs_pos.
  - fold V. destruct HVr as [V1 V2]. rewrite V1, V2. destruct (q_get_w q); [exact I|]. cbn [opt_rel]. intros i j Hi Hj HP.
    destruct (cwt_dims _ _ _ _ _ _ _ _ _ _ E4) as (K1 & K2).
    destruct RD as (D1 & D2 & RD). destruct (RD j ltac:(congruence) HP) as [_ RD1]. rewrite RD1 by congruence.
    destruct RW as (_ & _ & RW). destruct (RW j Hj HP) as [_ RW1].
    unfold V. destruct (q_sq q); cbn [compatible squeeze_input el] in *; try contradiction; rewrite RW1 by exact Hi; [apply Hph|apply Hcomp].
  - exists (SQO T' W' (r_freqs r) sc w' dW').
    destruct RW as (RW1 & RW2 & RW3).
    split.
    + unfold ssq_cwt. cbn [set_gamma q_order q_scales q_kind q_f64s q_pat q_diff q_f64 q_fs q_t]. rewrite Hq, Hx.
      change (check_diff (set_gamma g q)) with (check_diff q). rewrite E1.
      change (ssq_nv (set_gamma g q)) with (ssq_nv q).
      unfold mbind at 1, lift at 1. unfold mbind at 1, lift at 1. rewrite E2.
      unfold mbind at 1, lift at 1. rewrite E3. unfold mbind at 1. unfold numeric in E4'.
      change (inner (set_gamma g q)) with (inner q). rewrite E4'.
      unfold lift. f_equal. unfold squeeze_step. rewrite Hg. cbn [set_gamma q_get_w q_f64 q_diff q_f64v q_sq q_mr q_flip].
      change (ssq_freqs (set_gamma g q)) with (ssq_freqs q).
      unfold with_gamma in G1. cbn [o_tr o_freqs o_scales o_f64s o_f64v o_fs o_sq o_mr o_gamma o_flip o_Sfs opt_map] in G1.
      unfold w' in *. rewrite Hd. destruct (q_get_w q); cbn [phase_transform bind]; rewrite G1; reflexivity.
    + cbn [r_Tx r_Wx r_freqs r_scales r_w r_dWx]. rewrite F2, F3, F4, F5, F6, Hd. cbn [crop].
      split; [reflexivity|]. split; [reflexivity|]. split; [exact G4|]. split; [split; [exact RW1|]; split; [exact RW2|exact RW3]|]. split; [exact RD|].
      rewrite Hw. unfold w'. destruct (q_get_w q); cbn [opt_map opt_rel]; [|exact I].
      split; [exact RW1|]. split; [exact RW2|]. intros j Hj HP. cbn [phase_cwt ncols nrows] in *. split; [apply (RW3 j Hj HP)|].
      intros i Hi. apply (RWW i j Hi Hj HP).
Qed.

(** ** From the padded signal to the transform *)
Lemma follows_padded py f q phi chi (P : nat -> Prop) sigma tau x x' xp xp' n1 s s' : length x' = length x ->
  pad_input (q_pad q) x = Ok (xp, n1) -> pad_input (q_pad q) x' = Ok (xp', n1) -> length xp' = length xp ->
  (forall aa sc fs i j, a_vec aa = q_vec q -> a_cache aa = q_cache q -> (j < length xp)%nat ->
     let p := psih_used true f aa sc (length xp) (s_cache s) in
     (tau j < length xp)%nat /\
     cwt_cell p (length xp) (sig_dft xp') i j = phi (cwt_cell p (length xp) (sig_dft xp) i (tau j)) /\
     dcwt_cell p (length xp) fs (sig_dft xp') i j = chi (dcwt_cell p (length xp) fs (sig_dft xp) i (tau j))) ->
  let off := if q_pad q then Z.to_nat n1 else 0%nat in
  (forall j, (j < length x)%nat -> P j -> (sigma j < length x)%nat /\ (off + sigma j = tau (off + j))%nat) ->
  follows py f q phi chi P sigma x x' s s'.
Proof.
  intros Hx Hp Hp' Hl Hcell off Hoff aa W sc dW A1 A2 A3 A4 A5 A6 H.
  destruct (cwt_ncols _ _ _ _ _ _ _ _ _ _ H) as (Hrow & Hcol). rewrite A2 in Hcol. cbn [andb] in Hcol.
  destruct (cwt_dims _ _ _ _ _ _ _ _ _ _ H) as (Dr & Dc).
  destruct (cwt_ok_inv _ _ _ _ _ _ _ _ H) as ((fs & xp0 & n0 & scales & Pr) & U1 & U2).
  pose proof H as H0. rewrite (cwt_run _ _ _ _ _ _ _ _ _ _ Pr U1 U2) in H0. cbv zeta in H0.
  destruct Pr as (P1 & P2 & P3 & P4). rewrite A1, Hp in P3. injection P3 as <- <-.
  assert (Pr' : pre f aa x' fs xp' n1 scales) by (unfold pre; rewrite Hx, A1; auto).
  pose proof (cwt_run py true f aa x' s fs xp' n1 scales Pr' U1 U2) as H'. cbv zeta in H'. rewrite A6 in *. rewrite Hl in H'.
  destruct (pad_input_n1 _ _ _ _ Hp) as (B1 & B2).
  assert (Hlen : (length xp = if q_pad q then length xp else length x)%nat).
  { destruct (q_pad q); [reflexivity|]. unfold pad_input in Hp. destruct x; [discriminate Hp|]. injection Hp as <- _. reflexivity. }
  assert (Hle : forall j, (j < length x)%nat -> (off + j < length xp)%nat).
  { intros j Hj. unfold off. destruct (q_pad q) as [pt|] eqn:Eq; [|lia].
    destruct (pad_input_len _ _ _ _ Hp) as (u & m2 & K1 & K2 & K3). lia. }
  injection H0 as <- <- <- <-.
  do 2 eexists. split; [exact H'|].
  assert (Hn : forall V, ncols V = length xp -> nrows V = length scales ->
     ncols (finish aa n1 (length x) scales V) = length x /\ nrows (finish aa n1 (length x) scales V) = length scales).
  { intros V HV HVr. destruct (finish_dims aa n1 (length x) scales V
       (raw (psih_used true f aa scales (length xp) (s_cache s)) (length scales) (length xp) (sig_dft xp))) as [F1 F2]; [exact HVr|exact HV|].
    rewrite F1, F2. split; [lia|exact Hrow]. }
  assert (Hnc := fun V A B => proj1 (Hn V A B)). assert (Hnr := fun V A B => proj2 (Hn V A B)). cbv beta in Hnc, Hnr.
  assert (Hfin : forall V i j, ncols V = length xp -> el (finish aa n1 (length x) scales V) i j = el V i (off + j)).
  { intros V i j HV. rewrite finish_el by lia. unfold finish_cell. rewrite A2, A3, A1. cbn [negb andb]. unfold off. destruct (q_pad q); reflexivity. }
  rewrite Hx. split.
  - split; [rewrite !Hnr by reflexivity; reflexivity|].
    split; [rewrite !Hnc by reflexivity; reflexivity|].
    rewrite Hnc by reflexivity. intros j Hj HP. destruct (Hoff j Hj HP) as [O1 O2]. split; [exact O1|].
    intros i _. rewrite !Hfin by reflexivity. rewrite O2. cbn [raw el]. apply Hcell; auto.
  - split; [rewrite !Hnr by reflexivity; reflexivity|].
    split; [rewrite !Hnc by reflexivity; reflexivity|].
    rewrite Hnc by reflexivity. intros j Hj HP. destruct (Hoff j Hj HP) as [O1 O2]. split; [exact O1|].
    intros i _. rewrite !Hfin by reflexivity. rewrite O2, !draw_el. apply Hcell; auto.
Qed.
