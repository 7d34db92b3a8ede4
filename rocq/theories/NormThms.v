(** [l1_norm=False] against [l1_norm=True], through [cwt] and [icwt]. *)
From Coq Require Import Reals Lra ZifyBool ZifyNat.
From Verif Require Import Py Round Cplx CplxProofs Padding PaddingProofs Buffer BufferProofs Freqs Squeeze Scales Cwt CwtProofs CwtThms.
Local Open Scope R_scope.

(** row [i] of [W'] is row [i] of [W] times [c i] *)
Definition weighted (c : nat -> R) (W W' : mat C) : Prop :=
  nrows W' = nrows W /\ ncols W' = ncols W /\
  forall i j, (i < nrows W)%nat -> (j < ncols W)%nat ->
    el W' i j = (c i * Re (el W i j), c i * Im (el W i j)).
Definition weighted_opt (c : nat -> R) (W W' : option (mat C)) : Prop :=
  match W, W' with Some W, Some W' => weighted c W W' | None, None => True | _, _ => False end.
Definition root_of (scales : list R) (i : nat) : R := sqrt (nth i scales 0).

Definition set_l1 (a : cwt_args) (b : bool) : cwt_args :=
  CA (a_scales a) (a_f64s a) (a_fs a) (a_t a) b (a_deriv a) (a_pad a) (a_rpadded a) (a_vec a) (a_pat a) (a_cache a).

Lemma Cmul_real c z : Cmul (RtoC c) z = (c * Re z, c * Im z).
Proof. unfold Cmul, RtoC, Re, Im. cbn. f_equal; ring. Qed.
Lemma Cmul_real_r c z : Cmul z (RtoC c) = (c * Re z, c * Im z).
Proof. unfold Cmul, RtoC, Re, Im. cbn. f_equal; ring. Qed.

Lemma finish_l1 a n1 N sc V : weighted (root_of sc) (finish (set_l1 a true) n1 N sc V) (finish (set_l1 a false) n1 N sc V).
Proof.
  unfold finish. cbn [set_l1 a_rpadded a_pad a_l1]. destruct (negb _ && _); (split; [reflexivity|split; [reflexivity|]]);
    intros i j _ _; cbn [scale_rows mcols el]; apply Cmul_real_r.
Qed.

Definition l1_agree (A B : res (mat C * list R * option (mat C)) * cstate) : Prop :=
  match A with
  | (Ok (W, sc, dW), s') => exists W' dW', B = (Ok (W', sc, dW'), s') /\
      weighted (root_of sc) W W' /\ weighted_opt (root_of sc) dW dW'
  | (Err e, s') => B = (Err e, s')
  end.

Theorem cwt_l2 py inst f a x s : wf_norm f = NotGmw ->
  l1_agree (cwt py inst f (set_l1 a true) x s) (cwt py inst f (set_l1 a false) x s).
Proof.
  intros Hf. unfold cwt, mbind, lift. cbn [set_l1 a_vec a_cache a_fs a_t a_l1 a_pad a_scales a_f64s a_pat a_deriv].
  destruct (process_fs_and_t _ _ _) as [fs|]; [|reflexivity].
  unfold check_gmw. rewrite Hf.
  destruct (pad_input _ _) as [[xp n1]|]; [|reflexivity].
  destruct (fft_check py s) as [[[]|] s1]; [|reflexivity].
  destruct (process_scales _ _ _) as [sc|]; [|reflexivity].
  destruct (set_N _ s1) as [[[]|] s2]; [|reflexivity].
  destruct (set_patience _ s2) as [[[]|] s3]; [|reflexivity].
  match goal with |- context [match ?X s3 with _ => _ end] => destruct (X s3) as [[[V dV]|] s4]; [|reflexivity] end.
  destruct (set_N _ s4) as [[[]|] s5]; [|reflexivity].
  destruct (set_patience _ s5) as [[[]|] s6]; [|reflexivity].
  cbn. eexists _, _. split; [reflexivity|]. split; [apply (finish_l1 a)|].
  destruct dV as [d|]; [apply (finish_l1 a)|exact I].
Qed.

(** ** [icwt] *)
Lemma icwt_1int_l2 W W' sc log : weighted (root_of sc) W W' -> length sc = nrows W -> (forall v, In v sc -> 0 < v) ->
  icwt_1int W' sc log false = icwt_1int W sc log true.
Proof.
  intros (R1 & K1 & E) L P. unfold icwt_1int. rewrite R1, K1. apply tab_ext. intros j Hj. apply Rsum_ext. intros i Hi.
  rewrite E by assumption. unfold root_of, icwt_norm. cbn [Re fst].
  assert (0 < nth i sc 0) by (apply P, nth_In; lia). assert (0 < sqrt (nth i sc 0)) by (apply sqrt_lt_R0; assumption).
  destruct log; field; lra.
Qed.

Lemma pad_rows_weighted pt (c : nat -> R) (r : nat -> list C) l :
  pad_mat_rows pt (map (fun i => map (Cmul (RtoC (c i))) (r i)) l) =
  match pad_mat_rows pt (map r l) with
  | Ok ps => Ok (map (fun p => map (Cmul (RtoC (c (fst p)))) (snd p)) (combine l ps))
  | Err e => Err e
  end.
Proof.
  induction l as [|i l IH]; [reflexivity|]. cbn [map pad_mat_rows].
  rewrite (padsignal_map (Cmul (RtoC (c i))) C0 C0) by (rewrite Cmul_real; unfold C0, Re, Im; cbn; f_equal; ring).
  destruct (padsignal C0 (r i) pt None) as [[[[xp u] n1] n2]|]; [|reflexivity]. cbn [bind].
  rewrite IH. destruct (pad_mat_rows pt (map r l)); reflexivity.
Qed.
Lemma pad_mat_rows_len pt rows ps : pad_mat_rows pt rows = Ok ps -> length ps = length rows.
Proof.
  revert ps; induction rows as [|x xs IH]; intros ps H; cbn in H; [injection H as <-; reflexivity|].
  destruct (padsignal C0 x pt None) as [[[[xp u] n1] n2]|]; [|discriminate]. cbn in H.
  destruct (pad_mat_rows pt xs); [|discriminate]. injection H as <-. cbn. f_equal. apply IH. reflexivity.
Qed.

Lemma pad_mat_weighted pt c W W' : weighted c W W' ->
  match pad_mat pt W with
  | Ok (V, n1) => exists V', pad_mat pt W' = Ok (V', n1) /\ nrows V = nrows W /\ weighted c V V'
  | Err e => pad_mat pt W' = Err e
  end.
Proof.
  intros (R1 & K1 & E). unfold pad_mat. rewrite R1, K1. destruct (ncols W =? 0)%nat; [reflexivity|].
  assert (X : tab (nrows W) (fun i => tab (ncols W) (el W' i)) =
              map (fun i => map (Cmul (RtoC (c i))) (tab (ncols W) (el W i))) (seq 0 (nrows W))).
  { unfold tab at 1. apply map_ext_in. intros i Hi. apply in_seq in Hi. unfold tab. rewrite map_map. apply map_ext_in.
    intros j Hj. apply in_seq in Hj. rewrite E by lia. symmetry. apply Cmul_real. }
  rewrite X, pad_rows_weighted. unfold tab at 1. destruct (pad_mat_rows pt _) as [ps|] eqn:Ep; [|reflexivity].
  cbn [bind]. destruct (p2up _) as [[u n1] n2]. eexists. split; [reflexivity|]. split; [reflexivity|].
  apply pad_mat_rows_len in Ep. rewrite map_length, seq_length in Ep.
  split; [reflexivity|]. split; [reflexivity|]. cbn [nrows ncols el]. intros i j Hi Hj.
  set (g := fun p : nat * list C => map (Cmul (RtoC (c (fst p)))) (snd p)).
  change (@nil C) with (g (0%nat, [])) at 1. rewrite map_nth, combine_nth by (rewrite seq_length; lia).
  unfold g. cbn [fst snd]. rewrite seq_nth by lia. cbn [Nat.add].
  assert (Z0 : Cmul (RtoC (c i)) C0 = C0) by (rewrite Cmul_real; unfold C0, Re, Im; cbn; f_equal; ring).
  rewrite <- Z0 at 1. rewrite map_nth, Cmul_real. reflexivity.
Qed.

Lemma ifftshift_map {A B} (g : A -> B) l : ifftshift (map g l) = map g (ifftshift l).
Proof. unfold ifftshift. rewrite map_length, map_app, skipn_map, firstn_map. reflexivity. Qed.

Lemma icwt_2int_l2 f W W' sc log xl pt rp : weighted (root_of sc) W W' -> length sc = nrows W -> (forall v, In v sc -> 0 < v) ->
  icwt_2int f W' sc log false xl pt rp = icwt_2int f W sc log true xl pt rp.
Proof.
  intros Hw L P. unfold icwt_2int. destruct rp; [reflexivity|].
  pose proof (pad_mat_weighted pt _ _ _ Hw) as X. destruct (pad_mat pt W) as [[V n1]|]; [|rewrite X; reflexivity].
  destruct X as (V' & -> & RV & R1 & K1 & E). cbn [bind]. rewrite R1, K1. do 2 f_equal. apply tab_ext. intros j Hj.
  apply Rsum_ext. intros i Hi. assert (i < nrows V /\ i < length sc)%nat as [Hi1 Hi2] by lia.
  set (n := ncols V) in *. set (ps := fun k => Cmul (el (wavelet_call f [nth i sc 0] n true) 0 k) (RtoC (if Nat.even k then 1 else -1))).
  change (fun k => Cmul (dft n (el V' i) k) _) with (fun k => Cmul (dft n (el V' i) k) (ps k)).
  change (fun k => Cmul (dft n (el V i) k) _) with (fun k => Cmul (dft n (el V i) k) (ps k)).
  assert (X : tab n (idft n (fun k => Cmul (dft n (el V' i) k) (ps k))) =
              map (Cmul (RtoC (root_of sc i))) (tab n (idft n (fun k => Cmul (dft n (el V i) k) (ps k))))).
  { unfold tab. rewrite map_map. apply map_ext_in. intros m Hm. apply in_seq in Hm.
    rewrite <- idft_scal. apply idft_ext. intros k Hk.
    rewrite (dft_ext n _ (fun m => Cmul (RtoC (root_of sc i)) (el V i m))).
    - rewrite dft_scal. unfold Cmul. cbn. f_equal; ring.
    - intros q Hq. rewrite E by (unfold n in Hq; lia). symmetry. apply Cmul_real. }
  rewrite X, ifftshift_map.
  assert (Z0 : Cmul (RtoC (root_of sc i)) C0 = C0) by (rewrite Cmul_real; unfold C0, Re, Im; cbn; f_equal; ring).
  rewrite <- Z0 at 1. rewrite map_nth, Cmul_real. unfold root_of, icwt_norm. cbn [Re fst].
  assert (0 < nth i sc 0) by (apply P, nth_In; lia). assert (0 < sqrt (nth i sc 0)) by (apply sqrt_lt_R0; assumption).
  destruct log; field; lra.
Qed.

Lemma mrows_weighted c W W' a b : (0 <= a)%Z -> weighted c W W' ->
  weighted (fun i => c (Z.to_nat (norm_bound (Z.of_nat (nrows W)) a) + i)%nat) (mrows W a b) (mrows W' a b).
Proof.
  intros Ha (R1 & K1 & E). unfold mrows, weighted. cbn [nrows ncols el]. rewrite R1. split; [reflexivity|]. split; [exact K1|].
  intros i j Hi Hj. apply E; [|exact Hj].
  assert (norm_bound (Z.of_nat (nrows W)) b <= Z.of_nat (nrows W))%Z by (unfold norm_bound; destruct (b <? 0)%Z eqn:Eb; lia). lia.
Qed.
Lemma weighted_ext c d W W' : weighted c W W' -> (forall i, (i < nrows W)%nat -> c i = d i) -> weighted d W W'.
Proof. intros (A & B & E) H. split; [exact A|]. split; [exact B|]. intros i j Hi Hj. rewrite <- H by exact Hi. auto. Qed.

Lemma icwt_rec_l2 fuel f Cpsi f64 one_int xl xm pt rp : wf_norm f = NotGmw -> forall W W' sc nv,
  weighted (root_of sc) W W' -> (forall v, In v sc -> 0 < v) ->
  icwt_rec fuel f Cpsi W' sc f64 nv one_int false xl xm pt rp = icwt_rec fuel f Cpsi W sc f64 nv one_int true xl xm pt rp.
Proof.
  intros Hf. induction fuel as [|fuel IH]; [reflexivity|]. intros W W' sc nv Hw P. cbn [icwt_rec].
  unfold check_gmw. rewrite Hf. cbn [bind].
  destruct (process_scales_arr f64 sc) as [k|]; [|reflexivity]. cbn [bind].
  destruct (match k with KLog _ => _ | _ => _ end) as [[]|]; [|reflexivity]. cbn [bind].
  destruct Hw as (R1 & K1 & E) eqn:Ew. rewrite R1. destruct (Nat.eqb_spec (length sc) (nrows W)) as [L|L]; cbn [negb]; [|reflexivity].
  assert (Hw' : weighted (root_of sc) W W') by (split; auto).
  destruct k as [n| |].
  - destruct one_int; [rewrite (icwt_1int_l2 W W') by assumption; reflexivity|].
    rewrite (icwt_2int_l2 f W W') by assumption. reflexivity.
  - destruct one_int; [rewrite (icwt_1int_l2 W W') by assumption; reflexivity|].
    rewrite (icwt_2int_l2 f W W') by assumption. reflexivity.
  - destruct (logscale_transition_idx f64 sc) as [[idx|]|]; [|reflexivity|reflexivity]. cbn [bind].
    rewrite (IH (mrows W 0 (Z.of_nat idx)) (mrows W' 0 (Z.of_nat idx))).
    + rewrite (IH (mrows W (Z.of_nat idx) (Z.of_nat (nrows W))) (mrows W' (Z.of_nat idx) (Z.of_nat (nrows W)))).
      * reflexivity.
      * eapply weighted_ext; [apply mrows_weighted; [lia|exact Hw']|]. intros i Hi. cbn [mrows nrows] in Hi. unfold root_of. f_equal.
        unfold norm_bound in *. rewrite <- L in *. destruct (Z.of_nat idx <? 0)%Z eqn:?, (Z.of_nat (length sc) <? 0)%Z eqn:?; try lia.
        rewrite nth_skipn_add. f_equal. lia.
      * intros v Hv. apply P. rewrite <- (firstn_skipn idx sc). apply in_or_app. auto.
    + eapply weighted_ext; [apply mrows_weighted; [lia|exact Hw']|]. intros i Hi. cbn [mrows nrows] in Hi. unfold root_of. f_equal.
      unfold norm_bound in *. rewrite <- L in *. destruct (Z.of_nat idx <? 0)%Z eqn:?; try lia. cbn [Z.ltb Z.compare] in *.
      rewrite nth_firstn_lt by lia. f_equal. lia.
    + intros v Hv. apply P. rewrite <- (firstn_skipn idx sc). apply in_or_app. auto.
Qed.

Theorem icwt_l2 f Cpsi W W' sc f64 nv one_int xl xm pt rp : wf_norm f = NotGmw ->
  weighted (root_of sc) W W' -> (forall v, In v sc -> 0 < v) ->
  icwt f Cpsi W' sc f64 nv one_int false xl xm pt rp = icwt f Cpsi W sc f64 nv one_int true xl xm pt rp.
Proof.
  intros Hf Hw P. unfold icwt. pose proof Hw as (_ & K1 & _). rewrite K1. apply icwt_rec_l2; assumption.
Qed.

Theorem l2_round_trip py inst f a x s W sc dW s' Cpsi f64 nv one_int xl xm pt rp : wf_norm f = NotGmw ->
  cwt py inst f (set_l1 a true) x s = (Ok (W, sc, dW), s') -> (forall v, In v sc -> 0 < v) ->
  exists W' dW', cwt py inst f (set_l1 a false) x s = (Ok (W', sc, dW'), s') /\
    icwt f Cpsi W' sc f64 nv one_int false xl xm pt rp = icwt f Cpsi W sc f64 nv one_int true xl xm pt rp.
Proof.
  intros Hf H P. pose proof (cwt_l2 py inst f a x s Hf) as L. rewrite H in L. destruct L as (W' & dW' & E & E1 & _).
  exists W', dW'. split; [exact E|]. apply icwt_l2; assumption.
Qed.

(** A GMW is tied to its own norm *)
Theorem gmw_norm_checked py inst f a x s fs : process_fs_and_t (a_fs a) (a_t a) (length x) = Ok fs ->
  wf_norm f = (if a_l1 a then GmwL2 else GmwL1) -> cwt py inst f a x s = (Err ValueError, s).
Proof.
  intros Hfs H. unfold cwt, mbind, lift. rewrite Hfs. unfold check_gmw. rewrite H. destruct (a_l1 a); reflexivity.
Qed.
