(** Proofs about the [Psih] cache and the cached time-frequency properties. *)
From Coq Require Import Reals Lra.
From Verif Require Import Py Cplx CplxProofs Freqs Scales Cwt Wavelets.
Local Open Scope R_scope.

(** ** Psih *)
(** the [N] in force after a history: the last one assigned *)
Definition current_N (h : list pop) (n0 : nat) : nat :=
  fold_left (fun n o => match o with PSetN m => m | _ => n end) h n0.
(** the length asked for: [N], or the one in force when it is [None] or 0 *)
Definition asked_N (N : option nat) (n : nat) : nat :=
  match N with Some (S m) => S m | _ => n end.
Definition no_write (h : list pop) : Prop := forall i j z, ~ In (PWrite i j z) h.
(** [np.allclose] in words *)
Definition near (a b : list R) : Prop :=
  length a = length b /\
  forall i, (i < length a)%nat -> Rabs (nth i a 0 - nth i b 0) <= / 10 ^ 8 + / 10 ^ 5 * Rabs (nth i b 0).

Lemma close_iff a b : close a b = true <-> Rabs (a - b) <= / 10 ^ 8 + / 10 ^ 5 * Rabs b.
Proof.
  unfold close. replace (10 ^ 8) with 100000000 by ring. replace (10 ^ 5) with 100000 by ring.
  destruct (Rle_dec _ _); split; intros; auto; try discriminate; contradiction.
Qed.
Lemma allclose_iff a b : length a = length b ->
  (allclose a b = true <->
   forall i, (i < length a)%nat -> Rabs (nth i a 0 - nth i b 0) <= / 10 ^ 8 + / 10 ^ 5 * Rabs (nth i b 0)).
Proof.
  unfold allclose. revert b. induction a as [|x a IH]; intros [|y b] L; try discriminate; cbn [combine forallb].
  - split; auto. intros _ i Hi. cbn in Hi. lia.
  - cbn [length] in L. injection L as L. rewrite Bool.andb_true_iff. cbn [fst snd].
    rewrite close_iff, (IH b L). split.
    + intros [H1 H2] [|i] Hi; cbn [nth]; [auto|]. apply H2. cbn [length] in Hi. lia.
    + intros H. split.
      * apply (H 0%nat). cbn; lia.
      * intros i Hi. apply (H (S i)). cbn; lia.
Qed.
Lemma near_iff a b : ((length a =? length b)%nat && allclose a b)%bool = true <-> near a b.
Proof.
  unfold near. rewrite Bool.andb_true_iff, Nat.eqb_eq. split.
  - intros [L H]. split; auto. now apply allclose_iff.
  - intros [L H]. split; auto. now apply allclose_iff.
Qed.
Lemma near_refl a : near a a.
Proof.
  split; auto. intros i _. rewrite Rminus_diag_eq, Rabs_R0 by auto.
  pose proof (Rabs_pos (nth i a 0)). assert (0 < / 10 ^ 8) by (apply Rinv_0_lt_compat; lra).
  assert (0 <= / 10 ^ 5 * Rabs (nth i a 0)) by (apply Rmult_le_pos; [left; apply Rinv_0_lt_compat|]; lra). lra.
Qed.

Lemma asked_eq N n : match N with Some m => if (m =? 0)%nat then n else m | None => n end = asked_N N n.
Proof. destruct N as [[|m]|]; reflexivity. Qed.

Lemma prun_app f h1 h2 s : prun f (h1 ++ h2) s = prun f h2 (prun f h1 s).
Proof. apply fold_left_app. Qed.
Lemma psih_N f sc N nh s : s_N (snd (Psih f sc N nh s)) = s_N s.
Proof.
  unfold Psih. destruct (s_cache s) as [[[pN ps] P]|]; [|reflexivity]. destruct (_ && _)%bool; reflexivity.
Qed.
Lemma prun_N f h s : s_N (prun f h s) = current_N h (s_N s).
Proof.
  revert s. induction h as [|o h IH]; intros s; [reflexivity|].
  change (prun f (o :: h) s) with (prun f h (pstep f s o)). rewrite IH. unfold current_N; cbn [fold_left].
  f_equal. destruct o; cbn [pstep]; [reflexivity|apply psih_N|reflexivity].
Qed.
Lemma cache_inv f h s n sc P : s_cache s = None -> no_write h -> s_cache (prun f h s) = Some (n, sc, P) ->
  exists N nh, In (PCall sc N nh) h /\ P = wavelet_call f sc n nh.
Proof.
  intros E. revert n sc P. induction h as [|o h IH] using rev_ind; intros n sc P W H.
  - cbn in H. congruence.
  - rewrite prun_app in H. cbn in H.
    assert (W' : no_write h) by (intros i j z I; apply (W i j z), in_or_app; auto).
    assert (K : forall n sc P, s_cache (prun f h s) = Some (n, sc, P) ->
                exists N nh, In (PCall sc N nh) (h ++ [o]) /\ P = wavelet_call f sc n nh).
    { intros n' sc' P' H'. destruct (IH n' sc' P' W' H') as (N & nh & I & Q).
      exists N, nh. split; auto. apply in_or_app; auto. }
    destruct o as [m|sc0 N0 nh0|i j z]; cbn [pstep] in H.
    + cbn in H. now apply K.
    + unfold Psih in H. rewrite asked_eq in H.
      assert (F : forall s', s_cache (snd (Ok (wavelet_call f sc0 (asked_N N0 (s_N (prun f h s))) nh0),
                   CS (s_pat s') (s_lim s') (s_N s') (Some (asked_N N0 (s_N (prun f h s)), sc0,
                     wavelet_call f sc0 (asked_N N0 (s_N (prun f h s))) nh0)))) = Some (n, sc, P) ->
                  exists N nh, In (PCall sc N nh) (h ++ [PCall sc0 N0 nh0]) /\ P = wavelet_call f sc n nh).
      { intros s' Q. cbn [snd s_cache] in Q. injection Q as <- <- <-. exists N0, nh0. split; auto.
        apply in_or_app. right. left. reflexivity. }
      destruct (s_cache (prun f h s)) as [[[pN ps] P0]|] eqn:C.
      * destruct (_ && _)%bool.
        -- cbn [snd] in H. apply K. congruence.
        -- eapply F. exact H.
      * eapply F. exact H.
    + exfalso. apply (W i j z), in_or_app. right. left. reflexivity.
Qed.

(** every answer is a fresh evaluation for this or for an earlier, nearly equal request *)
Theorem psih_reuse f h s sc N nh : s_cache s = None -> no_write h ->
  let n := asked_N N (current_N h (s_N s)) in
  exists sc' nh', fst (Psih f sc N nh (prun f h s)) = Ok (wavelet_call f sc' n nh') /\
    ((sc' = sc /\ nh' = nh) \/ (near sc sc' /\ exists N', In (PCall sc' N' nh') h)).
Proof.
  intros E W n. unfold Psih. rewrite asked_eq, prun_N. fold n.
  destruct (s_cache (prun f h s)) as [[[pN ps] P]|] eqn:C.
  - destruct ((n =? pN)%nat && (length sc =? length ps)%nat && allclose sc ps)%bool eqn:B; cbn [fst].
    + apply Bool.andb_true_iff in B as [B B3]. apply Bool.andb_true_iff in B as [B1 B2].
      apply Nat.eqb_eq in B1. subst pN.
      destruct (cache_inv f h s _ _ _ E W C) as (N' & nh' & I & ->).
      exists ps, nh'. split; auto. right. split; [|eauto]. apply near_iff. now rewrite B2, B3.
    + exists sc, nh. auto.
  - exists sc, nh. cbn [fst]. auto.
Qed.
Theorem psih_fresh f h s sc N nh : s_cache s = None -> no_write h ->
  (forall sc' N' nh', In (PCall sc' N' nh') h -> near sc sc' -> sc' = sc /\ nh' = nh) ->
  fst (Psih f sc N nh (prun f h s)) = Ok (wavelet_call f sc (asked_N N (current_N h (s_N s))) nh).
Proof.
  intros E W H. destruct (psih_reuse f h s sc N nh E W) as (sc' & nh' & -> & [[-> ->]|[Nr [N' I]]]); auto.
  destruct (H _ _ _ I Nr) as [-> ->]. reflexivity.
Qed.

(** ** witnesses *)
Definition wone : wfun := WF (fun _ => C1) false NotGmw.
Definition wid : wfun := WF (fun w => RtoC w) false NotGmw.
Definition fresh_state : cstate := CS 0 None 2 None.
Lemma call_real g sc n nh : wf_cplx g = false ->
  wavelet_call g sc n nh =
  (let p := Mat (length sc) n (fun i j => wf g (nth i sc 0 * nth j (xifn 1 n) 0)) in
   if nh then p else halve_nyquist p).
Proof. intros E. unfold wavelet_call. now rewrite E. Qed.

Lemma psih_first f sc N nh s : s_cache s = None ->
  prun f [PCall sc N nh] s = CS (s_pat s) (s_lim s) (s_N s)
    (Some (asked_N N (s_N s), sc, wavelet_call f sc (asked_N N (s_N s)) nh)).
Proof. intros E. cbn. unfold Psih. rewrite asked_eq, E. reflexivity. Qed.
Lemma psih_hit f sc N nh s pN ps P : s_cache s = Some (pN, ps, P) -> asked_N N (s_N s) = pN ->
  near sc ps -> fst (Psih f sc N nh s) = Ok P.
Proof.
  intros C A Nr. unfold Psih. rewrite asked_eq, C, A, Nat.eqb_refl.
  apply near_iff in Nr. apply Bool.andb_true_iff in Nr as [-> ->]. reflexivity.
Qed.

Theorem nohalf_refuted :
  exists P, fst (Psih wone [1] (Some 2%nat) false (prun wone [PCall [1] (Some 2%nat) true] fresh_state)) = Ok P /\
            el P 0 1 = RtoC 1 /\ el (wavelet_call wone [1] 2 false) 0 1 = RtoC (1 / 2).
Proof.
  exists (wavelet_call wone [1] 2 true). split; [|split].
  - rewrite psih_first by reflexivity. eapply psih_hit; [reflexivity|reflexivity|apply near_refl].
  - rewrite call_real by reflexivity. reflexivity.
  - rewrite call_real by reflexivity. cbn. unfold Cmul, RtoC, C1; cbn. f_equal; field.
Qed.
Lemma near_1 : near [1 + / 10 ^ 6] [1].
Proof.
  split; [reflexivity|]. intros [|i] Hi; [|cbn in Hi; lia]. cbn [nth].
  assert (0 < / 10 ^ 8) by (apply Rinv_0_lt_compat; lra).
  replace (1 + / 10 ^ 6 - 1) with (/ 10 ^ 6) by ring. rewrite !Rabs_right; lra.
Qed.
Theorem allclose_refuted :
  exists P, fst (Psih wid [1 + / 10 ^ 6] (Some 2%nat) true (prun wid [PCall [1] (Some 2%nat) true] fresh_state)) = Ok P /\
            el P 0 1 <> el (wavelet_call wid [1 + / 10 ^ 6] 2 true) 0 1.
Proof.
  exists (wavelet_call wid [1] 2 true). split.
  - rewrite psih_first by reflexivity. eapply psih_hit; [reflexivity|reflexivity|apply near_1].
  - rewrite !call_real by reflexivity. cbn [el nth wf wid]. unfold xifn. rewrite nth_tab by lia.
    unfold xi_bin, RtoC. cbn -[IZR]. intros E. injection E as E. pose proof PI_RGT_0.
    replace (1 * (1 * (1 * (2 * PI) / (1 + 1)))) with PI in E by field.
    replace ((1 + / 10 ^ 6) * (1 * (1 * (2 * PI) / (1 + 1)))) with (PI + / 10 ^ 6 * PI) in E by field.
    assert (0 < / 10 ^ 6 * PI) by (apply Rmult_lt_0_compat; [apply Rinv_0_lt_compat|]; lra). lra.
Qed.
Theorem write_refuted :
  exists P, fst (Psih wone [1] (Some 2%nat) true
                   (prun wone [PCall [1] (Some 2%nat) true; PWrite 0 0 C0] fresh_state)) = Ok P /\
            el P 0 0 = C0 /\ el (wavelet_call wone [1] 2 true) 0 0 = C1.
Proof.
  exists (mset (wavelet_call wone [1] 2 true) 0 0 C0). split; [|split; [reflexivity|]].
  - change (prun wone [PCall [1] (Some 2%nat) true; PWrite 0 0 C0] fresh_state)
      with (pstep wone (prun wone [PCall [1] (Some 2%nat) true] fresh_state) (PWrite 0 0 C0)).
    rewrite psih_first by reflexivity. eapply psih_hit; [reflexivity|reflexivity|apply near_refl].
  - rewrite call_real by reflexivity. reflexivity.
Qed.

(** ** time-frequency properties *)
(** value of a property computed from scratch at length [n] *)
Definition fresh_tf (w : tf_fns) (n : nat) (p : tfprop) : res R :=
  let sc := 4 / PI * tf_peak w in
  match p with
  | WcCt => Ok (tf_peak w)
  | ScalecCt => Ok sc
  | Wc => tf_energy w sc n
  | StdT => tf_time w true sc n
  | StdW => tf_freq w true sc n
  | StdTD => tf_time w false sc n
  | StdWD => tf_freq w false sc n
  end.
Definition is_ct (p : tfprop) : bool := match p with WcCt | ScalecCt => true | _ => false end.
(** the two properties that do not depend on [N] are right whenever they are set *)
Definition ct_ok (w : tf_fns) (s : tfstate) : Prop :=
  forall p v, is_ct p = true -> t_val s p = Some v -> fresh_tf w 0 p = Ok v.
Lemma fresh_ct w p n m : is_ct p = true -> fresh_tf w n p = fresh_tf w m p.
Proof. destruct p; discriminate || reflexivity. Qed.
Lemma eqb_tf a b : tfprop_eqb a b = true <-> a = b.
Proof. destruct a, b; cbn; split; intros; congruence. Qed.
Lemma eqb_tf_refl a : tfprop_eqb a a = true.
Proof. now apply eqb_tf. Qed.

(** what a getter does *)
Definition got (w : tf_fns) (p : tfprop) (s : tfstate) (r : res R) (s' : tfstate) : Prop :=
  ct_ok w s' /\ t_N s' = t_N s /\
  (r = match t_val s p with Some v => Ok v | None => fresh_tf w (t_N s) p end) /\
  (forall v, r = Ok v -> t_val s' p = Some v) /\
  (forall q, q <> p -> is_ct q = false -> t_val s' q = t_val s q) /\
  (forall q v, t_val s q = Some v -> t_val s' q = Some v).

Lemma ct_put w s p v : ct_ok w s -> (is_ct p = true -> fresh_tf w 0 p = Ok v) -> ct_ok w (tput p (Some v) s).
Proof.
  intros H Hp q u Hq E. cbn in E. destruct (tfprop_eqb q p) eqn:X.
  - apply eqb_tf in X as ->. injection E as <-. auto.
  - now apply H.
Qed.
Lemma cached_got w p compute s : ct_ok w s ->
  (t_val s p = None -> forall r s', compute s = (r, s') ->
     r = fresh_tf w (t_N s) p /\ ct_ok w s' /\ t_N s' = t_N s /\
     (forall q, q <> p -> is_ct q = false -> t_val s' q = t_val s q) /\
     (forall q v, t_val s q = Some v -> t_val s' q = Some v)) ->
  let (r, s') := cached p compute s in got w p s r s'.
Proof.
  intros K H. unfold cached. destruct (t_val s p) as [v|] eqn:E.
  - split; [auto|]. split; [auto|]. rewrite E. split; [auto|]. split; [intros u Q; congruence|]. auto.
  - destruct (compute s) as [r s'] eqn:Cs. destruct (H eq_refl _ _ eq_refl) as (Hr & K' & HN & Ho & Hk).
    destruct r as [v|e].
    + unfold got. rewrite E, <- Hr. cbn [t_N tput t_val].
      split. { apply ct_put; auto. intros Hc. rewrite (fresh_ct w p 0 (t_N s)); auto. }
      split; [auto|]. split; [reflexivity|].
      split. { intros u Q. injection Q as <-. now rewrite eqb_tf_refl. }
      split.
      * intros q Hq Hc. destruct (tfprop_eqb q p) eqn:X; [apply eqb_tf in X; congruence|]. auto.
      * intros q u Q. destruct (tfprop_eqb q p) eqn:X; [apply eqb_tf in X; congruence|]. auto.
    + unfold got. rewrite E, <- Hr. split; [auto|]. split; [auto|]. split; [auto|].
      split; [discriminate|]. auto.
Qed.
Lemma got_wc_ct w s : ct_ok w s -> let (r, s') := get_wc_ct w s in got w WcCt s r s'.
Proof.
  intros K. apply cached_got; auto. intros _ r s' E. injection E as <- <-. repeat split; auto.
Qed.
Lemma got_scalec w s : ct_ok w s -> let (r, s') := get_scalec w s in got w ScalecCt s r s'.
Proof.
  intros K. apply cached_got; auto. intros _ r s' E.
  pose proof (got_wc_ct w s K) as G. destruct (get_wc_ct w s) as [r0 s0].
  destruct G as (K0 & N0 & R0 & P0 & O0 & S0).
  assert (R1 : r0 = Ok (tf_peak w)).
  { rewrite R0. destruct (t_val s WcCt) as [v|] eqn:V; [|reflexivity].
    symmetry. exact (K WcCt v eq_refl V). }
  rewrite R1 in E. injection E as <- <-. split; [reflexivity|]. split; [auto|]. split; [auto|]. split; [|auto].
  intros q Hq Hc. apply O0; auto. intros ->. discriminate.
Qed.
Lemma got_from w p g s : ct_ok w s -> is_ct p = false ->
  (forall n, fresh_tf w n p = g (4 / PI * tf_peak w) n) ->
  let (r, s') := get_from_scalec w p g s in got w p s r s'.
Proof.
  intros K Hp Hg. apply cached_got; auto. intros _ r s' E.
  pose proof (got_scalec w s K) as G. destruct (get_scalec w s) as [r0 s0].
  destruct G as (K0 & N0 & R0 & P0 & O0 & S0).
  assert (R1 : r0 = Ok (4 / PI * tf_peak w)).
  { rewrite R0. destruct (t_val s ScalecCt) as [v|] eqn:V; [|reflexivity].
    symmetry. exact (K ScalecCt v eq_refl V). }
  rewrite R1 in E. injection E as <- <-. rewrite Hg, N0. repeat split; auto.
  intros q Hq Hc. apply O0; auto. intros ->. discriminate.
Qed.
Theorem tget_got w p s : ct_ok w s -> let (r, s') := tget w p s in got w p s r s'.
Proof.
  intros K. destruct p; cbn [tget];
    [apply got_from|apply got_wc_ct|apply got_scalec|apply got_from|apply got_from|apply got_from|apply got_from];
    auto.
Qed.

Definition up_to_date (w : tf_fns) (s : tfstate) (p : tfprop) : Prop :=
  exists v, fresh_tf w (t_N s) p = Ok v /\ t_val s p = Some v.
Lemma ct_drop w s p : ct_ok w s -> ct_ok w (tput p None s).
Proof.
  intros H q u Hq E. cbn in E. destruct (tfprop_eqb q p); [discriminate|]. now apply H.
Qed.
(** one round of the loop *)
Lemma reset_step w p s : ct_ok w s ->
  let (r, s') := tget w p (tput p None s) in
  ct_ok w s' /\ t_N s' = t_N s /\ r = fresh_tf w (t_N s) p /\
  (forall v, r = Ok v -> up_to_date w s' p) /\ (forall q, q <> p -> up_to_date w s q -> up_to_date w s' q).
Proof.
  intros K. pose proof (tget_got w p (tput p None s) (ct_drop w s p K)) as G.
  destruct (tget w p (tput p None s)) as [r s']. destruct G as (K' & N' & R' & P' & O' & S').
  cbn [tput t_N t_val] in *. rewrite eqb_tf_refl in R'.
  split; [auto|]. split; [auto|]. split; [auto|]. split.
  - intros v E. exists v. rewrite N', <- R'. split; auto.
  - intros q Hq (v & F & V). exists v. rewrite N'. split; auto. apply S'.
    destruct (tfprop_eqb q p) eqn:X; [apply eqb_tf in X; congruence|auto].
Qed.
Lemma treset_spec w order : forall s, ct_ok w s ->
  let (r, s') := treset w order s in
  ct_ok w s' /\ t_N s' = t_N s /\
  (r = Ok tt <-> forall p, In p order -> exists v, fresh_tf w (t_N s) p = Ok v) /\
  (r = Ok tt -> forall p, In p order \/ up_to_date w s p -> up_to_date w s' p).
Proof.
  induction order as [|p order IH]; intros s K; cbn [treset].
  - split; [auto|]. split; [auto|]. split.
    + split; auto. intros _ p [].
    + intros _ p [[]|H]; auto.
  - pose proof (reset_step w p s K) as G. destruct (tget w p (tput p None s)) as [r0 s0].
    destruct G as (K0 & N0 & R0 & U0 & O0). destruct r0 as [v|e].
    + pose proof (IH s0 K0) as G. destruct (treset w order s0) as [r s'].
      destruct G as (K1 & N1 & I1 & U1). split; [auto|]. split; [congruence|]. split.
      * rewrite I1, N0. split.
        -- intros H q [<-|Hq]; [eauto|auto].
        -- intros H q Hq. apply H. now right.
      * intros E q Hq. apply U1; auto.
        assert (Dec : q = p \/ q <> p) by (destruct (tfprop_eqb q p) eqn:X; [left; now apply eqb_tf|right; intros ->; rewrite eqb_tf_refl in X; discriminate]).
        destruct Dec as [->|Ne].
        -- right. now apply (U0 v).
        -- destruct Hq as [[->|Hq]|Hq]; [congruence|auto|right; auto].
    + split; [auto|]. split; [auto|]. split; [|discriminate]. split; [discriminate|].
      intros H. destruct (H p (or_introl eq_refl)) as [v E]. congruence.
Qed.
Lemma trun_ok w h : forall s, ct_ok w s -> ct_ok w (trun w h s).
Proof.
  induction h as [|o h IH]; intros s K; [exact K|]. cbn. apply IH. destruct o as [p|n|ord]; cbn [tstep].
  - pose proof (tget_got w p s K) as G. destruct (tget w p s). apply G.
  - exact K.
  - pose proof (treset_spec w ord s K) as G. destruct (treset w ord s). apply G.
Qed.
Lemma tinit_ok w n : ct_ok w (tinit n).
Proof. intros p v _ E. discriminate. Qed.

Definition all_props : list tfprop := [Wc; WcCt; ScalecCt; StdT; StdW; StdTD; StdWD].
Theorem reset_ok w h n0 order : (forall p, In p all_props -> In p order) ->
  let s := trun w h (tinit n0) in
  (fst (treset w order s) = Ok tt <-> forall p, exists v, fresh_tf w (t_N s) p = Ok v) /\
  (fst (treset w order s) = Ok tt -> forall p, exists v,
     fresh_tf w (t_N s) p = Ok v /\ t_val (snd (treset w order s)) p = Some v /\
     fst (tget w p (snd (treset w order s))) = Ok v).
Proof.
  intros A s. assert (A' : forall p, In p order) by (intros p; apply A; destruct p; cbn; tauto).
  pose proof (treset_spec w order s (trun_ok w h _ (tinit_ok w n0))) as G.
  destruct (treset w order s) as [r s']. cbn [fst snd]. destruct G as (K & N & I & U). split.
  - rewrite I. split; auto.
  - intros E p. destruct (U E p (or_introl (A' p))) as (v & F & V). exists v.
    rewrite <- N. split; [auto|]. split; [auto|].
    pose proof (tget_got w p s' K) as T. destruct (tget w p s') as [r1 s1]. destruct T as (_ & _ & R & _).
    cbn [fst]. now rewrite R, V.
Qed.
Theorem reset_any_order w h n0 o1 o2 : (forall p, In p all_props -> In p o1) ->
  (forall p, In p all_props -> In p o2) ->
  let s := trun w h (tinit n0) in
  fst (treset w o1 s) = Ok tt ->
  fst (treset w o2 s) = Ok tt /\ forall p, t_val (snd (treset w o1 s)) p = t_val (snd (treset w o2 s)) p.
Proof.
  intros A1 A2 s E. destruct (reset_ok w h n0 o1 A1) as [I1 U1]. destruct (reset_ok w h n0 o2 A2) as [I2 U2].
  fold s in I1, U1, I2, U2. assert (E2 : fst (treset w o2 s) = Ok tt) by (apply I2, I1, E). split; auto.
  intros p. destruct (U1 E p) as (v & F & V & _). destruct (U2 E2 p) as (v' & F' & V' & _). congruence.
Qed.
(** without a reset, assigning [N] changes no property already read *)
Theorem set_N_keeps w h n0 p n v : let s := trun w h (tinit n0) in
  fst (tget w p s) = Ok v -> fst (tget w p (trun w (h ++ [TGet p; TSetN n]) (tinit n0))) = Ok v.
Proof.
  intros s E. unfold trun. rewrite fold_left_app. fold (trun w h (tinit n0)). fold s. cbn [fold_left tstep].
  pose proof (trun_ok w h _ (tinit_ok w n0)) as K. fold s in K.
  pose proof (tget_got w p s K) as G. destruct (tget w p s) as [r s1]. cbn [fst snd] in *.
  destruct G as (K1 & _ & _ & P & _). subst r.
  assert (K2 : ct_ok w (TS n (t_val s1))) by exact K1.
  pose proof (tget_got w p _ K2) as T. destruct (tget w p (TS n (t_val s1))) as [r2 s2].
  destruct T as (_ & _ & R & _). cbn [fst]. rewrite R. cbn [t_val]. now rewrite (P v eq_refl).
Qed.
