(** [preserve_transform] of [ssq_stft] and [ssq_cwt], from the caller's side. *)
From Coq Require Import Reals List Arith ZArith Lia Bool ZifyBool ZifyNat.
Import ListNotations.
From Verif Require Import Py Round Parallel Cplx Padding Buffer Freqs Stft Squeeze Scales Ssqueeze Cwt SsqCwt Preserve PreserveThms.
Local Open Scope R_scope.

(** the [stft] that [ssq_stft] runs *)
Definition own_stft (x : list R) (a : stft_args) (fs : option R) (t : option (list R)) : res (mat C * mat C) :=
  do fs <- process_fs_and_t fs t (length x);
  stft x (SA fs (a_window a) (a_n_fft a) (a_win_len a) (a_hop a) (a_modulated a) (a_padtype a) (a_f32 a)).

Lemma stft_mem_ok ord x a fs t s q preserve tensor v m : view_of v m ->
  match ssq_stft ord x a fs t (seen s q v m) with
  | Err e => ssq_stft_mem ord x a fs t s q preserve tensor v m = Err e
  | Ok (Tx, Sx, f, Sfs) => exists dSx m' T S F B w D,
      own_stft x a fs t = Ok (Sx, dSx) /\
      ssq_stft_mem ord x a fs t s q preserve tensor v m = Ok (m', T, S, F, B, w, D) /\
      mat_at m' T = Tx /\ mat_at m' S = (if keeps preserve tensor then Sx else left_by q Sx) /\ mat_at m' D = dSx /\
      vec_at m' F = f /\ vec_at m' B = Sfs /\ intact m m' /\
      ~ held_mat m T /\ ~ held_mat m S /\ ~ held_mat m D /\ NoDup [T; S; D] /\
      ~ held_vec m B /\ v_at F = (match v with Some r => v_at r | None => v_at B end) /\ held_vec m' F /\ held_vec m' B
  end.
Proof.
  intros Hv. unfold ssq_stft, ssq_stft_mem, own_stft. cbn [seen s_freqs s_sq s_gamma s_flip s_get_w s_f64v].
  destruct (process_fs_and_t fs t (length x)) as [fs'|e]; cbn [bind]; [|reflexivity].
  assert (Ec : match opt_map (vec_at m) v with
          | Some v => do k <- infer_scaletype (s_f64v s) v; match k with KLinear => Ok tt | _ => Err ValueError end
          | None => Ok tt end =
     match v with
          | Some r => do k <- infer_scaletype (s_f64v s) (vec_at m r); match k with KLinear => Ok tt | _ => Err ValueError end
          | None => Ok tt end) by (destruct v; reflexivity).
  rewrite Ec. destruct (match v with Some r => _ | None => Ok tt end) as [[]|e]; cbn [bind]; [|reflexivity].
  destruct (stft x _) as [[Sx dSx]|e]; cbn [bind]; [|reflexivity].
  set (gamma := match s_gamma s with Some g => g | None => _ end).
  pose proof (ssq_stft_tail_ok ord s q (keeps preserve tensor) fs' gamma v Sx dSx m Hv) as H. cbv zeta in H.
  destruct (ssqueeze ord _ Sx _ _) as [[Tx f]|e]; cbn [bind]; [|exact H].
  destruct H as (m' & T & S & F & B & D & E & H1 & H2 & H3 & H4 & H5 & H6 & H7 & H8 & H9 & H10 & H11 & H12 & H13 & H14).
  eexists dSx, m', T, S, F, B, _, D. split; [reflexivity|]. split; [exact E|].
  repeat (split; [first [assumption | unfold held_mat, held_vec; lia]|]).
  split; [repeat constructor; cbn; lia|]. split; [unfold held_vec; lia|]. auto.
Qed.

(** Tx does not depend on [preserve_transform], on whether the squeezing function works in
    place, or on anything else in memory *)
Theorem stft_preserve ord x a fs t s q p1 t1 p2 t2 v m m1 T1 S1 F1 B1 w1 D1 : view_of v m ->
  ssq_stft_mem ord x a fs t s q p1 t1 v m = Ok (m1, T1, S1, F1, B1, w1, D1) ->
  exists m2 T2 S2 F2 B2 w2 D2, ssq_stft_mem ord x a fs t s q p2 t2 v m = Ok (m2, T2, S2, F2, B2, w2, D2) /\
    mat_at m2 T2 = mat_at m1 T1 /\ vec_at m2 F2 = vec_at m1 F1 /\ vec_at m2 B2 = vec_at m1 B1 /\ mat_at m2 D2 = mat_at m1 D1.
Proof.
  intros Hv E1.
  pose proof (stft_mem_ok ord x a fs t s q p1 t1 v m Hv) as H1. pose proof (stft_mem_ok ord x a fs t s q p2 t2 v m Hv) as H2.
  destruct (ssq_stft ord x a fs t (seen s q v m)) as [[[[Tx Sx] f] Sfs]|e]; [|rewrite E1 in H1; discriminate].
  destruct H1 as (dSx & m1' & T1' & S1' & F1' & B1' & w1' & D1' & G1 & G2 & H3 & _ & H4 & H5 & H6 & _).
  rewrite E1 in G2. injection G2 as <- <- <- <- <- <- <-.
  destruct H2 as (dSx2 & m2 & T2 & S2 & F2 & B2 & w2 & D2 & G3 & G4 & K3 & _ & K4 & K5 & K6 & _).
  rewrite G1 in G3. injection G3 as <-.
  exists m2, T2, S2, F2, B2, w2, D2. split; [exact G4|]. repeat split; congruence.
Qed.

(** the values are those of the model without memory; Sx is [stft]'s when it is kept or the
    squeezing function writes nothing *)
Theorem stft_values ord x a fs t s q p tn v m m' T S F B w D : view_of v m ->
  ssq_stft_mem ord x a fs t s q p tn v m = Ok (m', T, S, F, B, w, D) ->
  exists Sx dSx, own_stft x a fs t = Ok (Sx, dSx) /\
    ssq_stft ord x a fs t (seen s q v m) = Ok (mat_at m' T, Sx, vec_at m' F, vec_at m' B) /\
    mat_at m' D = dSx /\
    (keeps p tn = true -> mat_at m' S = Sx) /\
    (keeps p tn = false -> mat_at m' S = match q with MFun u => u_left u Sx | _ => Sx end).
Proof.
  intros Hv E1. pose proof (stft_mem_ok ord x a fs t s q p tn v m Hv) as H1.
  destruct (ssq_stft ord x a fs t (seen s q v m)) as [[[[Tx Sx] f] Sfs]|e]; [|rewrite E1 in H1; discriminate].
  destruct H1 as (dSx & m1' & T1' & S1' & F1' & B1' & w1' & D1' & G1 & G2 & H3 & Hs & H4 & H5 & H6 & _).
  rewrite E1 in G2. injection G2 as <- <- <- <- <- <- <-.
  exists Sx, dSx. split; [exact G1|]. split; [congruence|]. split; [exact H4|].
  split; intros Hk; rewrite Hk in Hs; exact Hs.
Qed.

(** nothing that existed is written; Tx, Sx and dSx are three new arrays *)
Theorem stft_fresh ord x a fs t s q p tn v m m' T S F B w D : view_of v m ->
  ssq_stft_mem ord x a fs t s q p tn v m = Ok (m', T, S, F, B, w, D) ->
  intact m m' /\ ~ held_mat m T /\ ~ held_mat m S /\ ~ held_mat m D /\ NoDup [T; S; D] /\ ~ held_vec m B.
Proof.
  intros Hv E1. pose proof (stft_mem_ok ord x a fs t s q p tn v m Hv) as H1.
  destruct (ssq_stft ord x a fs t (seen s q v m)) as [[[[Tx Sx] f] Sfs]|e]; [|rewrite E1 in H1; discriminate].
  destruct H1 as (dSx & m1' & T1' & S1' & F1' & B1' & w1' & D1' & G1 & G2 & H3 & Hs & H4 & H5 & H6 & H7 & H8 & H9 & H10 & H11 & H12 & _).
  rewrite E1 in G2. injection G2 as <- <- <- <- <- <- <-. auto 10.
Qed.

Lemma write_seen m r r' l : held_vec m r -> v_at r' = v_at r ->
  vec_at (write_vec m r l) r' = if Bool.eqb (v_rev r') (v_rev r) then l else rev l.
Proof.
  intros H E. unfold vec_at, write_vec; cbn [vecs]. rewrite E, put_same by exact H.
  destruct (v_rev r'), (v_rev r); cbn; rewrite ?rev_involutive; reflexivity.
Qed.

(** ssq_freqs is no array of its own: without an argument it is Sfs, with one the caller's,
    read backwards with [flipud]; whatever is written into the one is seen in the other *)
Theorem stft_shared ord x a fs t s q p tn v m m' T S F B w D : view_of v m ->
  ssq_stft_mem ord x a fs t s q p tn v m = Ok (m', T, S, F, B, w, D) ->
  let other := match v with Some r => r | None => B end in
  (forall l, vec_at (write_vec m' F l) other = l \/ vec_at (write_vec m' F l) other = rev l) /\
  (forall l, vec_at (write_vec m' other l) F = l \/ vec_at (write_vec m' other l) F = rev l).
Proof.
  intros Hv E1 other. pose proof (stft_mem_ok ord x a fs t s q p tn v m Hv) as H1.
  destruct (ssq_stft ord x a fs t (seen s q v m)) as [[[[Tx Sx] f] Sfs]|e]; [|rewrite E1 in H1; discriminate].
  destruct H1 as (dSx & m1' & T1' & S1' & F1' & B1' & w1' & D1' & G1 & G2 & H3 & Hs & H4 & H5 & H6 & H7 & H8 & H9 & H10 & H11 & H12 & H13 & H14 & H15).
  rewrite E1 in G2. injection G2 as <- <- <- <- <- <- <-.
  assert (Ho : v_at F = v_at other) by (unfold other; destruct v; exact H13).
  assert (Hh : held_vec m' other) by (unfold held_vec; rewrite <- Ho; exact H14).
  split; intros l; rewrite write_seen by (auto; congruence); destruct (Bool.eqb _ _); auto.
Qed.

(** ** [ssq_cwt] *)
Lemma step_mem_ok ord q sq keep fs difforder N v W dW sc f64s kind m : view_of v m -> held_vec m sc -> q_diff q <> DNumeric ->
  match squeeze_step ord (seen_cwt q sq v m) fs difforder N W dW (vec_at m sc) f64s kind with
  | Err e => squeeze_step_mem ord q sq keep fs difforder N v W dW sc f64s kind m = Err e
  | Ok r => exists m' T A F w D,
      squeeze_step_mem ord q sq keep fs difforder N v W dW sc f64s kind m = Ok (m', T, A, F, sc, w, D) /\
      mat_at m' T = r_Tx r /\ vec_at m' F = r_freqs r /\ w = r_w r /\ mat_at m' D = r_dWx r /\ vec_at m' sc = r_scales r /\
      r_Wx r = W /\ mat_at m' A = (if keep then W else left_by sq W) /\ intact m m' /\
      ~ held_mat m T /\ ~ held_mat m A /\ ~ held_mat m D /\ NoDup [T; A; D] /\
      (match v with Some r0 => v_at F = v_at r0 | None => ~ held_vec m F end) /\ held_vec m' F
  end.
Proof.
  intros Hv Hsc Hdf. unfold squeeze_step, squeeze_step_mem.
  change (q_get_w (seen_cwt q sq v m)) with (q_get_w q). change (q_f64 (seen_cwt q sq v m)) with (q_f64 q).
  change (q_diff (seen_cwt q sq v m)) with (q_diff q). change (ssq_gamma (seen_cwt q sq v m)) with (ssq_gamma q).
  change (q_f64v (seen_cwt q sq v m)) with (q_f64v q). change (q_sq (seen_cwt q sq v m)) with (value_sq sq).
  change (q_mr (seen_cwt q sq v m)) with (q_mr q). change (q_flip (seen_cwt q sq v m)) with (q_flip q).
  set (gamma := ssq_gamma q). set (fr := ssq_freqs (seen_cwt q sq v m) kind).
  unfold new_mat. cbv zeta. cbn [mats vecs]. rewrite <- app_assoc; cbn [app].
  set (a := length (mats m)). set (d := length (mats m ++ [W])).
  assert (Ed : d = S a) by (unfold d; rewrite app_length; cbn; unfold a; lia).
  set (m1 := Mem (mats m ++ [W; dW]) (vecs m)).
  assert (Hl1 : length (mats m1) = S (S a)) by (unfold m1; cbn; rewrite app_length; cbn; unfold a; lia).
  assert (Ha1 : mat_at m1 a = W) by (unfold mat_at, m1; cbn [mats]; rewrite app_nth2 by (unfold a; lia); unfold a; now rewrite Nat.sub_diag).
  assert (Hd1 : mat_at m1 d = dW).
  { unfold mat_at, m1; cbn [mats]; rewrite app_nth2 by (unfold a in *; lia). replace (d - length (mats m))%nat with 1%nat by (unfold a in *; lia). reflexivity. }
  assert (Hold1 : forall c, held_mat m c -> mat_at m1 c = mat_at m c) by (intros c Hc; unfold mat_at, m1; cbn [mats]; now apply app_nth1).
  destruct (working keep m1 a) as [m2 a'] eqn:Ew.
  assert (Hh1 : held_mat m1 a) by (unfold held_mat; lia).
  pose proof (working_ok keep m1 a m2 a' Hh1 Ew) as (Ev2 & Hl2 & Ha2 & Hav2 & Hold2 & Hk).
  assert (Ev : vecs m2 = vecs m) by (rewrite Ev2; reflexivity).
  assert (Hv2 : forall s0, vec_at m2 s0 = vec_at m s0) by (intros; unfold vec_at; now rewrite Ev).
  rewrite Ha1 in Hav2. rewrite Hav2, (Hold2 d), Hd1, Hv2 by (unfold held_mat; lia).
  set (pw := if q_get_w q then do (_, w) <- phase_transform (q_f64 q) W dW (Z.of_nat N) (1 / fs) gamma (q_diff q) difforder; Ok (Some w) else Ok None).
  assert (Epw : (if q_get_w q then do (W', w) <- phase_transform (q_f64 q) W dW (Z.of_nat N) (1 / fs) gamma (q_diff q) difforder; Ok (W', Some w) else Ok (W, None))
     = do w <- pw; Ok (W, w)).
  { unfold pw. destruct (q_get_w q); [|reflexivity]. unfold phase_transform. destruct (q_diff q); [reflexivity| |congruence].
    destruct (phase_phase gamma W); reflexivity. }
  rewrite Epw. destruct pw as [w|e]; cbn [bind]; [|reflexivity].
  set (vv := match v with Some r => inr r | None => inl (ssq_freqs q kind) end).
  assert (Hvv : freqs_val m2 vv = fr).
  { unfold vv, fr, ssq_freqs, seen_cwt, freqs_val; cbn [q_freqs]. destruct v as [r|]; [now rewrite Hv2 | reflexivity]. }
  assert (Hhf : held_freqs m2 vv).
  { unfold vv, held_freqs. destruct v as [r|]; [|exact I]. unfold held_vec. rewrite Ev. exact Hv. }
  set (o := SO TCwt FNone (Some (vec_at m sc)) f64s (q_f64v q) fs SqSum (q_mr q) (Some gamma) (q_flip q) None).
  assert (Had : d <> a') by (destruct keep; [rewrite Hk, Hl1; lia | lia]).
  assert (Hd3 : held_opt m2 (if q_get_w q then None else Some d) a').
  { unfold held_opt. destruct (q_get_w q); [exact I|]. split; [unfold held_mat; lia | exact Had]. }
  pose proof (ssqueeze_mem_ok ord o sq vv m2 a' w (if q_get_w q then None else Some d) Ha2 Hd3 Hhf) as HS.
  assert (Eo : opt_map (mat_at m2) (if q_get_w q then None else Some d) = if q_get_w q then None else Some dW).
  { destruct (q_get_w q); cbn [opt_map]; [reflexivity|]. f_equal. rewrite (Hold2 d), Hd1 by (unfold held_mat; lia). reflexivity. }
  rewrite Eo, Hav2, Hvv in HS. unfold put_freqs, o in HS; cbn [o_tr o_scales o_f64s o_f64v o_fs o_mr o_gamma o_flip o_Sfs] in HS. fold o in HS.
  destruct (ssqueeze ord _ W w _) as [[Tx f]|e].
  2:{ rewrite HS. reflexivity. }
  destruct HS as (m' & t & r & -> & Ht & Hf & Htl & Hl & Ho & Hvw & Hat & Hlt & Hvl). cbn [bind].
  exists m', t, a, r, w, d. split; [reflexivity|].
  assert (Hcrop : forall (A : Type) (X : mat A), crop (q_diff q) X = X) by (intros A X; destruct (q_diff q); [reflexivity|reflexivity|congruence]).
  cbn [r_Tx r_freqs r_w r_dWx r_scales r_Wx]. rewrite !Hcrop.
  assert (Hsm : forall s0, held_vec m s0 -> vec_at m' s0 = vec_at m s0) by (intros s0 Hs0; rewrite Hvw; [apply Hv2 | unfold held_vec; now rewrite Ev]).
  split; [exact Ht|]. split; [exact Hf|].
  split; [destruct w as [w|]; cbn [opt_map]; rewrite ?Hcrop; reflexivity|].
  split; [rewrite Ho; [rewrite (Hold2 d), Hd1 by (unfold held_mat; lia); reflexivity | unfold held_mat; lia | exact Had]|].
  split; [now apply Hsm|]. split; [reflexivity|].
  split.
  { destruct keep.
    - rewrite Ho; [rewrite (Hold2 a Hh1); exact Ha1 | unfold held_mat; lia | rewrite Hk; lia].
    - rewrite <- Hk at 1. exact Hl. }
  split.
  { split; [|exact Hsm]. intros c Hc. unfold held_mat in Hc. fold a in Hc.
    rewrite Ho; [rewrite Hold2 by (unfold held_mat; lia); apply Hold1; exact Hc | unfold held_mat; lia |].
    destruct keep; [rewrite Hk; lia | lia]. }
  unfold held_mat. fold a. split; [lia|]. split; [lia|]. split; [lia|].
  split; [repeat constructor; cbn; lia|].
  split; [|exact Hlt]. unfold held_vec. destruct v as [r0|]; unfold vv in Hat; [exact Hat | rewrite Hat, Ev; lia].
Qed.

Theorem cwt_preserve ord q sq k1 k2 fs difforder N v W dW sc f64s kind m m1 T1 A1 F1 sc1 w1 D1 :
  view_of v m -> held_vec m sc -> q_diff q <> DNumeric ->
  squeeze_step_mem ord q sq k1 fs difforder N v W dW sc f64s kind m = Ok (m1, T1, A1, F1, sc1, w1, D1) ->
  exists m2 T2 A2 F2 D2, squeeze_step_mem ord q sq k2 fs difforder N v W dW sc f64s kind m = Ok (m2, T2, A2, F2, sc1, w1, D2) /\
    mat_at m2 T2 = mat_at m1 T1 /\ vec_at m2 F2 = vec_at m1 F1 /\ mat_at m2 D2 = mat_at m1 D1.
Proof.
  intros Hv Hs Hd E1.
  pose proof (step_mem_ok ord q sq k1 fs difforder N v W dW sc f64s kind m Hv Hs Hd) as H1.
  pose proof (step_mem_ok ord q sq k2 fs difforder N v W dW sc f64s kind m Hv Hs Hd) as H2.
  destruct (squeeze_step _ _ _ _ _ _ _ _ _ _) as [r|e]; [|rewrite E1 in H1; discriminate].
  destruct H1 as (m1' & T1' & A1' & F1' & w1' & D1' & G1 & K1 & K2 & K3 & K4 & _).
  rewrite E1 in G1. injection G1 as <- <- <- <- -> <- <-.
  destruct H2 as (m2 & T2 & A2 & F2 & w2 & D2 & G2 & L1 & L2 & L3 & L4 & _).
  exists m2, T2, A2, F2, D2. rewrite K3, <- L3. split; [exact G2|]. repeat split; congruence.
Qed.

Theorem cwt_values ord q sq k fs difforder N v W dW sc f64s kind m m' T A F sc' w D :
  view_of v m -> held_vec m sc -> q_diff q <> DNumeric ->
  squeeze_step_mem ord q sq k fs difforder N v W dW sc f64s kind m = Ok (m', T, A, F, sc', w, D) ->
  squeeze_step ord (seen_cwt q sq v m) fs difforder N W dW (vec_at m sc) f64s kind =
    Ok (SQO (mat_at m' T) W (vec_at m' F) (vec_at m' sc') w (mat_at m' D)) /\
  mat_at m' A = (if k then W else match sq with MFun u => u_left u W | _ => W end) /\
  intact m m' /\ ~ held_mat m T /\ ~ held_mat m A /\ ~ held_mat m D /\ NoDup [T; A; D].
Proof.
  intros Hv Hs Hd E1. pose proof (step_mem_ok ord q sq k fs difforder N v W dW sc f64s kind m Hv Hs Hd) as H1.
  destruct (squeeze_step _ _ _ _ _ _ _ _ _ _) as [r|e]; [|rewrite E1 in H1; discriminate].
  destruct H1 as (m1' & T1' & A1' & F1' & w1' & D1' & G1 & K1 & K2 & K3 & K4 & K5 & K6 & K7 & K8 & K9 & K10 & K11 & K12 & _).
  rewrite E1 in G1. injection G1 as <- <- <- <- -> <- <-.
  split; [destruct r; cbn in *; subst; reflexivity|]. split; [exact K7|]. auto 10.
Qed.

(** the caller's [scales] array comes back itself, and a caller's [ssq_freqs] comes back as a
    view (backwards, unless [flipud] is off and on again): later writes are seen by both *)
Theorem cwt_shared ord q sq k fs difforder N v W dW sc f64s kind m m' T A F sc' w D :
  view_of v m -> held_vec m sc -> q_diff q <> DNumeric ->
  squeeze_step_mem ord q sq k fs difforder N v W dW sc f64s kind m = Ok (m', T, A, F, sc', w, D) ->
  sc' = sc /\
  match v with
  | Some r => forall l, (vec_at (write_vec m' F l) r = l \/ vec_at (write_vec m' F l) r = rev l)
  | None => forall r l, held_vec m r -> vec_at (write_vec m' F l) r = vec_at m r
  end.
Proof.
  intros Hv Hs Hd E1. pose proof (step_mem_ok ord q sq k fs difforder N v W dW sc f64s kind m Hv Hs Hd) as H1.
  destruct (squeeze_step _ _ _ _ _ _ _ _ _ _) as [r|e]; [|rewrite E1 in H1; discriminate].
  destruct H1 as (m1' & T1' & A1' & F1' & w1' & D1' & G1 & K1 & K2 & K3 & K4 & K5 & K6 & K7 & K8 & K9 & K10 & K11 & K12 & K13 & K14).
  rewrite E1 in G1. injection G1 as <- <- <- <- -> <- <-.
  split; [reflexivity|]. destruct v as [r0|].
  - intros l. rewrite write_seen by (auto; congruence). destruct (Bool.eqb _ _); auto.
  - intros r0 l Hr. unfold vec_at, write_vec; cbn [vecs]. rewrite put_other by (unfold held_vec in *; lia).
    exact (proj2 K8 r0 Hr).
Qed.
