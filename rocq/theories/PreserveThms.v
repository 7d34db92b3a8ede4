(** What [preserve_transform] changes and what the returned arrays share. *)
From Coq Require Import Reals List Arith ZArith Lia Bool ZifyBool ZifyNat.
Import ListNotations.
From Verif Require Import Py Round Parallel Cplx Padding Buffer Freqs Stft Squeeze Scales Ssqueeze Cwt SsqCwt Preserve.
Local Open Scope R_scope.

(** what a call leaves in the array it squeezes *)
Definition left_by (q : msq) (W : mat C) : mat C := match q with MFun u => u_left u W | _ => W end.
(** references into [m] *)
Definition held_vec (m : mem) (r : vref) : Prop := (v_at r < length (vecs m))%nat.
Definition held_mat (m : mem) (a : nat) : Prop := (a < length (mats m))%nat.
(** every array of [m] is the same in [m'] *)
Definition intact (m m' : mem) : Prop :=
  (forall a, held_mat m a -> mat_at m' a = mat_at m a) /\ (forall r, held_vec m r -> vec_at m' r = vec_at m r).

Lemma put_length {A} (l : list A) a y : length (put l a y) = length l.
Proof. revert a; induction l; intros [|a']; cbn; auto. Qed.
Lemma put_same {A} (l : list A) a y d : (a < length l)%nat -> nth a (put l a y) d = y.
Proof. revert a; induction l; intros [|a']; cbn; intros; try lia; [reflexivity|]. apply IHl; lia. Qed.
Lemma put_other {A} (l : list A) a b y d : a <> b -> nth b (put l a y) d = nth b l d.
Proof. revert a b; induction l; intros [|a'] [|b']; cbn; intros; try lia; auto. Qed.

Lemma new_mat_old m W a : held_mat m a -> mat_at (fst (new_mat m W)) a = mat_at m a.
Proof. intros H; unfold mat_at; cbn. apply app_nth1, H. Qed.
Lemma new_mat_new m W : mat_at (fst (new_mat m W)) (snd (new_mat m W)) = W.
Proof. unfold mat_at; cbn. rewrite app_nth2 by lia. now rewrite Nat.sub_diag. Qed.
Lemma new_vec_old m v r : held_vec m r -> vec_at (fst (new_vec m v)) r = vec_at m r.
Proof. intros H; unfold vec_at; cbn. now rewrite app_nth1. Qed.
Lemma new_vec_new m v : vec_at (fst (new_vec m v)) (snd (new_vec m v)) = v.
Proof. unfold vec_at; cbn. rewrite app_nth2 by lia. now rewrite Nat.sub_diag. Qed.

Lemma vec_flipped m r : vec_at m (flipped r) = rev (vec_at m r).
Proof. unfold vec_at, flipped; cbn. destruct (v_rev r); cbn; [now rewrite rev_involutive | reflexivity]. Qed.

(** ssqueezing.py:197-202 on memory *)
Lemma squeeze_mem_ok q m a m' b : held_mat m a -> squeeze_mem q m a = (m', b) ->
  vecs m' = vecs m /\ (length (mats m) <= length (mats m'))%nat /\ held_mat m' b /\
  mat_at m' b = squeeze_input (value_sq q) (nrows (mat_at m a)) (mat_at m a) /\
  mat_at m' a = left_by q (mat_at m a) /\
  (forall c, held_mat m c -> c <> a -> mat_at m' c = mat_at m c).
Proof.
  intros Ha. unfold squeeze_mem, held_mat in *.
  assert (Hn : forall W, (m', b) = new_mat m W ->
    vecs m' = vecs m /\ (length (mats m) <= length (mats m'))%nat /\ (b < length (mats m'))%nat /\ mat_at m' b = W /\
    mat_at m' a = mat_at m a /\ (forall c, (c < length (mats m))%nat -> c <> a -> mat_at m' c = mat_at m c)).
  { intros W E. pose proof (new_mat_new m W) as H1. pose proof (fun c => new_mat_old m W c) as H2.
    unfold held_mat in *. rewrite <- E in *; cbn [fst snd] in *.
    unfold new_mat in E; injection E as -> ->; cbn [mats vecs] in *. rewrite app_length; cbn [length].
    repeat split; try lia; auto. }
  destruct q as [| | |u]; cbn [value_sq left_by squeeze_input].
  - intros [= <- <-]. repeat split; auto.
  - intros E; symmetry in E; apply Hn in E; exact E.
  - intros E; symmetry in E; apply Hn in E; exact E.
  - assert (H1 : mat_at (write_mat m a (u_left u (mat_at m a))) a = u_left u (mat_at m a)) by (apply put_same; exact Ha).
    assert (H2 : forall c, c <> a -> mat_at (write_mat m a (u_left u (mat_at m a))) c = mat_at m c)
      by (intros c Hc; apply put_other; auto).
    assert (H3 : length (mats (write_mat m a (u_left u (mat_at m a)))) = length (mats m)) by apply put_length.
    set (m1 := write_mat m a (u_left u (mat_at m a))) in *. change (vecs m) with (vecs m1). clearbody m1.
    unfold u_value. destruct (u_new u) as [g|] eqn:Eg.
    + intros E. pose proof (new_mat_new m1 (g (mat_at m a))) as G1. pose proof (fun c => new_mat_old m1 (g (mat_at m a)) c) as G2.
      rewrite E in G1, G2. cbn [fst snd] in G1, G2. unfold held_mat in G2.
      unfold new_mat in E; injection E as <- <-; cbn [mats vecs] in *. rewrite app_length; cbn [length].
      repeat split; try lia; auto.
      * rewrite G2 by lia. exact H1.
      * intros c Hc Hca. rewrite G2 by lia. now apply H2.
    + intros [= <- <-]. repeat split; try lia; auto.
Qed.

Definition held_opt (m : mem) (d : option nat) (a : nat) : Prop :=
  match d with Some d => held_mat m d /\ d <> a | None => True end.
Definition held_freqs (m : mem) (v : freqs_arg + vref) : Prop :=
  match v with inl _ => True | inr r => held_vec m r end.
Definition freqs_val (m : mem) (v : freqs_arg + vref) : freqs_arg :=
  match v with inl f => f | inr r => FArray (vec_at m r) end.

(** [ssqueeze] on memory computes what it computes on values, in new arrays *)
Lemma ssqueeze_mem_ok ord o q v m a w d : held_mat m a -> held_opt m d a -> held_freqs m v ->
  match ssqueeze ord (put_freqs o (freqs_val m v) (value_sq q)) (mat_at m a) w (opt_map (mat_at m) d) with
  | Err e => ssqueeze_mem ord o q v m a w d = Err e
  | Ok (Tx, f) => exists m' t r, ssqueeze_mem ord o q v m a w d = Ok (m', t, r) /\
      mat_at m' t = Tx /\ vec_at m' r = f /\ (length (mats m) <= t < length (mats m'))%nat /\
      mat_at m' a = left_by q (mat_at m a) /\
      (forall c, held_mat m c -> c <> a -> mat_at m' c = mat_at m c) /\
      (forall s, held_vec m s -> vec_at m' s = vec_at m s) /\
      v_at r = match v with inl _ => length (vecs m) | inr r0 => v_at r0 end /\
      (v_at r < length (vecs m'))%nat /\ (length (vecs m) <= length (vecs m'))%nat
  end.
Proof.
  intros Ha Hd Hv. unfold ssqueeze, ssqueeze_mem. fold (freqs_val m v).
  set (o' := put_freqs o (freqs_val m v) (value_sq q)).
  replace (match w, opt_map (mat_at m) d, o_gamma o' with
     | None, None, _ | None, _, None => true | Some w, _, _ => has_negative w | _, _, _ => false end)
    with (match w, d, o_gamma o' with
     | None, None, _ | None, _, None => true | Some w, _, _ => has_negative w | _, _, _ => false end)
    by (destruct w, d, (o_gamma o'); reflexivity).
  destruct (match w, d, o_gamma o' with
     | None, None, _ | None, _, None => true | Some w, _, _ => has_negative w | _, _, _ => false end); [reflexivity|].
  destruct (ssq_freqs_of o' (ncols (mat_at m a))) as [[[k l] ls]|e] eqn:Ef; cbn [bind]; [|reflexivity].
  assert (Hl : exists m1 r1, match v with inl _ => new_vec m l | inr r => (m, r) end = (m1, r1) /\
     mats m1 = mats m /\ (forall s, held_vec m s -> vec_at m1 s = vec_at m s) /\ vec_at m1 r1 = l /\
     v_at r1 = match v with inl _ => length (vecs m) | inr r0 => v_at r0 end /\ (v_at r1 < length (vecs m1))%nat /\
     (length (vecs m) <= length (vecs m1))%nat).
  { destruct v as [f|r].
    - exists (fst (new_vec m l)), (snd (new_vec m l)). split; [apply surjective_pairing|].
      split; [reflexivity|]. split; [intros; now apply new_vec_old|]. split; [apply new_vec_new|].
      cbn. rewrite app_length; cbn. repeat split; lia.
    - exists m, r. split; [reflexivity|]. split; [reflexivity|]. split; [auto|]. split; [|split; [reflexivity|split; [exact Hv|lia]]].
      unfold ssq_freqs_of in Ef. subst o'; cbn [put_freqs o_tr o_freqs o_scales o_f64s o_f64v freqs_val] in Ef.
      destruct (o_tr o); [destruct (o_scales o); [|discriminate]|].
      + destruct (process_scales_arr _ _); cbn [bind] in Ef; [|discriminate].
        destruct (infer_scaletype _ _); cbn [bind] in Ef; [|discriminate]. congruence.
      + congruence. }
  destruct Hl as (m1 & r1 & -> & Em & Hm1 & Hr1 & Hat & Hlt & Hvl).
  destruct (squeeze_mem q m1 a) as [m2 b] eqn:Es.
  assert (Ha1 : held_mat m1 a) by (unfold held_mat; now rewrite Em).
  assert (E1 : forall c, mat_at m1 c = mat_at m c) by (intros; unfold mat_at; now rewrite Em).
  pose proof (squeeze_mem_ok q m1 a m2 b Ha1 Es) as (Ev2 & Hlen & Hb & Hbv & Hav & Ho).
  rewrite E1 in Hbv, Hav.
  assert (Ed : opt_map (mat_at m2) d = opt_map (mat_at m) d).
  { destruct d as [d|]; cbn; [|reflexivity]. destruct Hd as [Hd1 Hd2]. f_equal. rewrite Ho; [apply E1|unfold held_mat; now rewrite Em|exact Hd2]. }
  rewrite Ed, Hbv. change (o_sq o') with (value_sq q).
  destruct (ssqueeze_one ord o' k l ls (squeeze_input (value_sq q) (nrows (mat_at m a)) (mat_at m a)) w (opt_map (mat_at m) d)) as [Tx|e];
    cbn [bind]; [|reflexivity].
  unfold new_mat. eexists _, _, _. split; [reflexivity|].
  assert (Hmm : (length (mats m) <= length (mats m2))%nat) by (rewrite <- Em; exact Hlen).
  assert (Hv2 : forall s, vec_at (Mem (mats m2 ++ [Tx]) (vecs m2)) s = vec_at m1 s).
  { intros s. unfold vec_at; cbn [vecs]. now rewrite Ev2. }
  assert (Ho2 : forall c, (c < length (mats m2))%nat -> mat_at (Mem (mats m2 ++ [Tx]) (vecs m2)) c = mat_at m2 c).
  { intros c Hc. unfold mat_at; cbn [mats]. now apply app_nth1. }
  unfold held_mat in Ha.
  split; [unfold mat_at; cbn [mats]; rewrite app_nth2, Nat.sub_diag by lia; reflexivity|].
  split.
  { rewrite Hv2. unfold flip_freqs. destruct (o_tr o'), (o_flip o'); rewrite ?vec_flipped, Hr1; reflexivity. }
  split; [cbn [mats]; rewrite app_length; cbn [length]; lia|].
  split; [rewrite Ho2 by lia; exact Hav|].
  split.
  { intros c Hc Hca. unfold held_mat in Hc. rewrite Ho2 by lia. rewrite Ho; [apply E1|unfold held_mat; now rewrite Em|exact Hca]. }
  split; [intros s Hs; rewrite Hv2; now apply Hm1|].
  cbn [vecs]. rewrite Ev2.
  destruct (o_tr o'), (o_flip o'); cbn [flipped v_at]; auto.
Qed.

(** ** [ssq_stft] *)
Lemma working_ok keep m a m' b : held_mat m a -> working keep m a = (m', b) ->
  vecs m' = vecs m /\ (length (mats m) <= length (mats m'))%nat /\ held_mat m' b /\ mat_at m' b = mat_at m a /\
  (forall c, held_mat m c -> mat_at m' c = mat_at m c) /\
  (if keep then b = length (mats m) else b = a).
Proof.
  intros Ha. unfold working. destruct keep.
  - intros E. pose proof (new_mat_new m (mat_at m a)) as G1. pose proof (fun c => new_mat_old m (mat_at m a) c) as G2.
    rewrite E in G1, G2. cbn [fst snd] in G1, G2. unfold held_mat in *.
    unfold new_mat in E; injection E as <- <-. cbn [mats vecs] in *. rewrite app_length; cbn [length].
    repeat split; try lia; auto.
  - intros [= <- <-]. repeat split; auto.
Qed.

Definition view_of (v : option vref) (m : mem) : Prop := match v with Some r => held_vec m r | None => True end.

Lemma ssq_stft_tail_ok ord s q keep fs gamma v Sx dSx m : view_of v m ->
  let Sfs := make_Sfs (nrows Sx) fs in
  match ssqueeze ord (SO TStft (FArray (match opt_map (vec_at m) v with Some l => l | None => Sfs end)) None true (s_f64v s) 1
                        (value_sq q) MRMaximal (Some gamma) (s_flip s) (Some Sfs)) Sx
          (if s_get_w s then Some (phase_stft Sfs gamma Sx dSx) else None) (if s_get_w s then None else Some dSx) with
  | Err e => ssq_stft_tail ord s q keep fs gamma v Sx dSx m = Err e
  | Ok (Tx, f) => exists m' t a r rS d, 
      ssq_stft_tail ord s q keep fs gamma v Sx dSx m =
        Ok (m', t, a, r, rS, (if s_get_w s then Some (phase_stft Sfs gamma Sx dSx) else None), d) /\
      mat_at m' t = Tx /\ vec_at m' r = f /\ vec_at m' rS = Sfs /\ mat_at m' d = dSx /\
      mat_at m' a = (if keep then Sx else left_by q Sx) /\
      intact m m' /\ (length (mats m) <= a)%nat /\ (a < d)%nat /\ (d < t)%nat /\ (t < length (mats m'))%nat /\
      (length (vecs m) <= v_at rS)%nat /\ v_at r = (match v with Some r0 => v_at r0 | None => v_at rS end) /\
      held_vec m' r /\ held_vec m' rS
  end.
Proof.
  intros Hv Sfs. unfold ssq_stft_tail.
  unfold new_mat. cbv zeta. cbn [mats vecs]. rewrite <- app_assoc; cbn [app].
  set (a := length (mats m)). set (d := length (mats m ++ [Sx])).
  assert (Ed : d = S a) by (unfold d; rewrite app_length; cbn; unfold a; lia).
  set (m1 := Mem (mats m ++ [Sx; dSx]) (vecs m)).
  assert (Hl1 : length (mats m1) = S (S a)) by (unfold m1; cbn; rewrite app_length; cbn; unfold a; lia).
  assert (Ha1 : mat_at m1 a = Sx) by (unfold mat_at, m1; cbn [mats]; rewrite app_nth2 by (unfold a; lia); unfold a; now rewrite Nat.sub_diag).
  assert (Hd1 : mat_at m1 d = dSx).
  { unfold mat_at, m1; cbn [mats]; rewrite app_nth2 by (unfold a in *; lia). replace (d - length (mats m))%nat with 1%nat by (unfold a in *; lia). reflexivity. }
  assert (Hold1 : forall c, held_mat m c -> mat_at m1 c = mat_at m c) by (intros c Hc; unfold mat_at, m1; cbn [mats]; now apply app_nth1).
  destruct (working keep m1 a) as [m2 a'] eqn:Ew.
  assert (Hh1 : held_mat m1 a) by (unfold held_mat; lia).
  pose proof (working_ok keep m1 a m2 a' Hh1 Ew) as (Ev2 & Hl2 & Ha2 & Hav2 & Hold2 & Hk).
  assert (Ev : vecs m2 = vecs m) by (rewrite Ev2; reflexivity).
  rewrite (Hold2 a Hh1), Ha1. rewrite Ha1 in Hav2. fold Sfs.
  unfold new_vec. cbv zeta. set (m3 := Mem (mats m2) (vecs m2 ++ [Sfs])). set (rS := VR (length (vecs m2)) false).
  assert (Em3 : forall c, mat_at m3 c = mat_at m2 c) by reflexivity.
  assert (HrS : vec_at m3 rS = Sfs) by apply (new_vec_new m2 Sfs).
  assert (Hv3 : forall s0, held_vec m s0 -> vec_at m3 s0 = vec_at m s0).
  { intros s0 Hs. unfold vec_at at 1, m3; cbn [vecs]. rewrite app_nth1 by (rewrite Ev; exact Hs). unfold vec_at. now rewrite Ev. }
  assert (HhS : held_vec m3 rS) by (unfold held_vec, m3, rS; cbn; rewrite app_length; cbn; lia).
  rewrite !Em3, Hav2, (Hold2 d), Hd1, HrS by (unfold held_mat; lia).
  set (r0 := match v with Some r => r | None => rS end).
  assert (Hr0 : vec_at m3 r0 = match opt_map (vec_at m) v with Some l => l | None => Sfs end).
  { unfold r0. destruct v as [r|]; cbn [opt_map]; [now apply Hv3 | exact HrS]. }
  assert (Hh0 : held_vec m3 r0).
  { unfold r0. destruct v as [r|]; [|exact HhS]. unfold held_vec, m3; cbn [vecs]. rewrite app_length, Ev. unfold view_of, held_vec in Hv. lia. }
  set (o := SO TStft FNone None true (s_f64v s) 1 SqSum MRMaximal (Some gamma) (s_flip s) (Some Sfs)).
  set (w := if s_get_w s then Some (phase_stft Sfs gamma Sx dSx) else None).
  assert (Had : d <> a').
  { destruct keep; [rewrite Hk, Hl1; lia | lia]. }
  assert (Ha3 : held_mat m3 a') by exact Ha2.
  assert (Hd3 : held_opt m3 (if s_get_w s then None else Some d) a').
  { unfold held_opt. destruct (s_get_w s); [exact I|]. split; [unfold held_mat, m3; cbn [mats]; lia | exact Had]. }
  pose proof (ssqueeze_mem_ok ord o q (inr r0) m3 a' w (if s_get_w s then None else Some d) Ha3 Hd3 Hh0) as HS.
  assert (Eo : opt_map (mat_at m3) (if s_get_w s then None else Some d) = if s_get_w s then None else Some dSx).
  { destruct (s_get_w s); cbn [opt_map]; [reflexivity|]. f_equal. rewrite Em3, (Hold2 d), Hd1 by (unfold held_mat; lia). reflexivity. }
  rewrite Eo, Em3, Hav2 in HS. unfold freqs_val in HS. rewrite Hr0 in HS. unfold put_freqs, o in HS; cbn [o_tr o_scales o_f64s o_f64v o_fs o_mr o_gamma o_flip o_Sfs] in HS.
  fold o in HS.
  destruct (ssqueeze ord _ Sx w _) as [[Tx f]|e].
  2:{ rewrite HS. reflexivity. }
  destruct HS as (m' & t & r & -> & Ht & Hf & Htl & Hl & Ho & Hvv & Hat & Hlt & Hvl). cbn [bind].
  exists m', t, a, r, rS, d. split; [reflexivity|].
  assert (Hlen3 : length (mats m3) = length (mats m2)) by reflexivity.
  split; [exact Ht|]. split; [exact Hf|]. split; [rewrite Hvv by exact HhS; exact HrS|].
  split.
  { rewrite Ho; [rewrite Em3, (Hold2 d), Hd1 by (unfold held_mat; lia); reflexivity | unfold held_mat; lia | exact Had]. }
  split.
  { destruct keep.
    - rewrite Ho; [rewrite Em3, (Hold2 a Hh1); exact Ha1 | unfold held_mat; lia | rewrite Hk; lia].
    - rewrite <- Hk at 1. exact Hl. }
  split.
  { split.
    - intros c Hc. unfold held_mat in Hc. fold a in Hc. rewrite Ho; [rewrite Em3, Hold2 by (unfold held_mat; lia); apply Hold1; exact Hc | unfold held_mat; lia |].
      destruct keep; [rewrite Hk; lia | lia].
    - intros r1 Hr1. rewrite Hvv; [now apply Hv3 | unfold held_vec, m3; cbn [vecs]; rewrite app_length, Ev; unfold held_vec in Hr1; lia]. }
  fold a. split; [lia|]. split; [lia|]. split; [lia|]. split; [lia|].
  split; [unfold rS; cbn [v_at]; rewrite Ev; lia|].
  split; [rewrite Hat; unfold r0; destruct v; reflexivity|].
  split; [exact Hlt|].
  unfold held_vec in *. lia.
Qed.
