From Coq Require Import ZifyBool ZifyNat.
From Verif Require Import Py Parallel Buffer.
Local Open Scope Z_scope.
Ltac Zify.zify_post_hook ::= Z.div_mod_to_equations.

(** ** shifts *)
Lemma ifftshift_length A (l : list A) : length (ifftshift l) = length l.
Proof. unfold ifftshift. rewrite app_length, skipn_length, firstn_length. lia. Qed.
Lemma fftshift_length A (l : list A) : length (fftshift l) = length l.
Proof. unfold fftshift. rewrite app_length, skipn_length, firstn_length. lia. Qed.

Lemma skipn_app_exact A (l1 l2 : list A) : skipn (length l1) (l1 ++ l2) = l2.
Proof. induction l1; simpl; auto. Qed.
Lemma firstn_app_exact A (l1 l2 : list A) : firstn (length l1) (l1 ++ l2) = l1.
Proof. induction l1; simpl; [destruct l2; reflexivity|f_equal; auto]. Qed.

Lemma fftshift_ifftshift A (l : list A) : fftshift (ifftshift l) = l.
Proof.
  unfold fftshift. rewrite ifftshift_length. unfold ifftshift.
  assert (E : (length l - length l / 2)%nat = length (skipn (length l / 2) l))
    by (rewrite skipn_length; reflexivity).
  rewrite E, skipn_app_exact, firstn_app_exact. apply firstn_skipn.
Qed.

Lemma ifftshift_fftshift A (l : list A) : ifftshift (fftshift l) = l.
Proof.
  unfold ifftshift. rewrite fftshift_length. unfold fftshift.
  remember (length l / 2)%nat as k eqn:Hk.
  assert (E : k = length (skipn (length l - k) l)) by (rewrite skipn_length; lia).
  assert (E1 : forall l2, skipn k (skipn (length l - k) l ++ l2) = l2)
    by (intros; rewrite E at 1; apply skipn_app_exact).
  assert (E2 : forall l2, firstn k (skipn (length l - k) l ++ l2) = skipn (length l - k) l)
    by (intros; rewrite E at 1; apply firstn_app_exact).
  rewrite E1, E2. apply firstn_skipn.
Qed.

Lemma nth_ifftshift A (l : list A) d i : (i < length l)%nat ->
  nth i (ifftshift l) d = nth ((i + length l / 2) mod length l) l d.
Proof.
  intros H. unfold ifftshift.
  destruct (Nat.lt_ge_cases i (length l - length l / 2)) as [Hc|Hc].
  - rewrite app_nth1 by (rewrite skipn_length; lia).
    rewrite nth_skipn_add. f_equal. rewrite Nat.mod_small; lia.
  - rewrite app_nth2 by (rewrite skipn_length; lia).
    rewrite skipn_length, nth_firstn_lt by lia. f_equal.
    replace (i + length l / 2)%nat with ((i + length l / 2 - length l) + 1 * length l)%nat by lia.
    rewrite Nat.mod_add by lia. rewrite Nat.mod_small; lia.
Qed.

(** ** parameters *)
Lemma buffer_params_ok xlen seg ov p :
  0 <= ov < seg -> seg <= xlen -> buffer_params xlen seg ov = Ok p ->
  hop p = seg - ov /\ 1 <= hop p /\
  n_segs p = (xlen - seg) / (seg - ov) + 1 /\ 1 <= n_segs p /\
  s20 p + s21 p = seg /\ s21 p = seg / 2 /\
  (forall i, 0 <= i < n_segs p -> hop p * i + seg <= xlen) /\
  hop p * n_segs p + seg > xlen.
Proof.
  intros Hov Hseg E. unfold buffer_params in E.
  destruct (Z.eqb_spec (seg - ov) 0); [lia|].
  injection E as <-. simpl.
  assert (Hdiv : 0 <= (xlen - seg) / (seg - ov)) by (apply Z.div_pos; lia).
  assert (Hmul : (seg - ov) * ((xlen - seg) / (seg - ov)) <= xlen - seg)
    by (apply Z.mul_div_le; lia).
  assert (Hgt : xlen - seg < (seg - ov) * ((xlen - seg) / (seg - ov)) + (seg - ov)).
  { pose proof (Z.mod_pos_bound (xlen - seg) (seg - ov) ltac:(lia)).
    pose proof (Z.div_mod (xlen - seg) (seg - ov) ltac:(lia)). lia. }
  set (q := (xlen - seg) / (seg - ov)) in *.
  split; [lia|]. split; [lia|]. split; [lia|]. split; [lia|].
  split; [destruct (Z.eqb_spec (seg mod 2) 1); lia|].
  split; [destruct (Z.eqb_spec (seg mod 2) 1); lia|].
  split; [intros i Hi; nia|nia].
Qed.

(** hop > seg_len (negative overlap) also occurs, from [stft] with hop_len > n_fft *)
Lemma buffer_params_hop xlen seg hopl p :
  1 <= seg -> 1 <= hopl -> seg <= xlen -> buffer_params xlen seg (seg - hopl) = Ok p ->
  hop p = hopl /\
  n_segs p = (xlen - seg) / hopl + 1 /\ 1 <= n_segs p /\
  s20 p + s21 p = seg /\ s21 p = seg / 2 /\
  (forall i, 0 <= i < n_segs p -> hopl * i + seg <= xlen) /\
  hopl * n_segs p + seg > xlen.
Proof.
  intros Hs1 Hh Hseg E. unfold buffer_params in E.
  replace (seg - (seg - hopl)) with hopl in E by lia.
  destruct (Z.eqb_spec hopl 0); [lia|].
  injection E as <-. simpl.
  assert (Hdiv : 0 <= (xlen - seg) / hopl) by (apply Z.div_pos; lia).
  assert (Hmul : hopl * ((xlen - seg) / hopl) <= xlen - seg) by (apply Z.mul_div_le; lia).
  assert (Hgt : xlen - seg < hopl * ((xlen - seg) / hopl) + hopl).
  { pose proof (Z.mod_pos_bound (xlen - seg) hopl ltac:(lia)).
    pose proof (Z.div_mod (xlen - seg) hopl ltac:(lia)). lia. }
  set (q := (xlen - seg) / hopl) in *.
  split; [lia|]. split; [lia|]. split; [lia|].
  split; [destruct (Z.eqb_spec (seg mod 2) 1); lia|].
  split; [destruct (Z.eqb_spec (seg mod 2) 1); lia|].
  split; [intros i Hi; nia|nia].
Qed.

Section Buf.
Variable A : Type.
Variable zero : A.
Variable x : list A.
Variable seg : Z.
Variable p : bparams.
Variable modulated : bool.
Hypothesis Hseg : 1 <= seg.
Hypothesis Hs : s20 p + s21 p = seg.
Hypothesis Hs21 : s21 p = seg / 2.

(** value the kernels put at row [r] of column [i] *)
Definition cell_val (r i : Z) : A :=
  if modulated then
    if r <? s20 p then rd zero x (hop p * i + s21 p + r) else rd zero x (hop p * i + r - s20 p)
  else rd zero x (hop p * i + r).

(** CPU program and CUDA program of one column are the same list of stores. *)
Lemma store_rows_tab i r0 k0 n :
  store_rows zero x i r0 k0 n =
  map (fun r => MStore (Z.to_nat (r0 + Z.of_nat r), i) (fun _ => rd zero x (k0 + Z.of_nat r)))
      (seq 0 (Z.to_nat n)).
Proof. reflexivity. Qed.

Lemma seq_split2 a n m : seq a (n + m) = seq a n ++ map (fun i => (n + i)%nat) (seq a m).
Proof.
  rewrite seq_app. f_equal. revert a; induction m as [|m IH]; intros a; cbn [seq map]; auto.
  f_equal; [lia|]. rewrite <- IH. reflexivity.
Qed.

Lemma buffer_body_norm i :
  buffer_body zero x seg p modulated i =
  map (fun r => MStore (r, i) (fun _ => cell_val (Z.of_nat r) (Z.of_nat i)))
      (seq 0 (Z.to_nat seg)).
Proof.
  unfold buffer_body, cell_val. destruct modulated.
  - assert (Hn : Z.to_nat seg = (Z.to_nat (s20 p) + Z.to_nat (s21 p))%nat) by lia.
    rewrite Hn, seq_split2, map_app, map_map. unfold store_rows. f_equal.
    + apply map_ext_in. intros r Hr. apply in_seq in Hr.
      replace (Z.to_nat (0 + Z.of_nat r)) with r by lia.
      destruct (Z.ltb_spec (Z.of_nat r) (s20 p)); [reflexivity|lia].
    + apply map_ext_in. intros r Hr. apply in_seq in Hr.
      replace (Z.to_nat (s20 p + Z.of_nat r)) with (Z.to_nat (s20 p) + r)%nat by lia.
      destruct (Z.ltb_spec (Z.of_nat (Z.to_nat (s20 p) + r)) (s20 p)); [lia|].
      replace (hop p * Z.of_nat i + Z.of_nat (Z.to_nat (s20 p) + r) - s20 p)
        with (hop p * Z.of_nat i + Z.of_nat r) by lia. reflexivity.
  - unfold store_rows. apply map_ext_in. intros r Hr.
    replace (Z.to_nat (0 + Z.of_nat r)) with r by lia. reflexivity.
Qed.

Lemma buffer_progs_eq i :
  buffer_progs zero x seg p modulated i = buffer_gpu_progs zero x seg p modulated i.
Proof.
  unfold buffer_progs, buffer_gpu_progs. rewrite buffer_body_norm.
  destruct (Z.ltb_spec (Z.of_nat i) (n_segs p)), (Z.of_nat i >=? n_segs p) eqn:E; try lia; auto.
  apply map_ext_in. intros r Hr. apply in_seq in Hr. unfold cell_val.
  replace (Z.to_nat (hop p * Z.of_nat i + Z.of_nat r - hop p * Z.of_nat i)) with r by lia.
  destruct modulated; [|reflexivity].
  destruct (Z.ltb_spec (Z.of_nat r) (s20 p)),
    (Z.ltb_spec (hop p * Z.of_nat i + Z.of_nat r) (hop p * Z.of_nat i + s20 p)); try lia.
  - replace (hop p * Z.of_nat i + Z.of_nat r + s21 p)
      with (hop p * Z.of_nat i + s21 p + Z.of_nat r) by lia. reflexivity.
  - reflexivity.
Qed.

Lemma buffer_owned : owned snd (buffer_progs zero x seg p modulated).
Proof.
  intros i o Ho. unfold buffer_progs in Ho. rewrite buffer_body_norm in Ho.
  destruct (Z.of_nat i <? n_segs p); [|destruct Ho].
  apply in_map_iff in Ho. destruct Ho as (r & <- & _). reflexivity.
Qed.

(** running one column's stores *)
Lemma exec_stores_col i (f : nat -> A) l s rg r c :
  fst (exec cell2_dec (tag i (map (fun r => MStore (r, i) (fun _ => f r)) l)) (s, rg)) (r, c) =
  if (c =? i)%nat && existsb (Nat.eqb r) l then f r else s (r, c).
Proof.
  revert s; induction l as [|a l IH]; intros s; simpl.
  - rewrite andb_false_r. reflexivity.
  - rewrite IH. unfold upd. destruct (cell2_dec (a, i) (r, c)) as [E|E].
    + assert (Ea : a = r) by congruence. assert (Ei : i = c) by congruence. subst a i.
      rewrite !Nat.eqb_refl. simpl. destruct (existsb (Nat.eqb r) l); reflexivity.
    + destruct (Nat.eqb_spec c i) as [Ec|]; [|reflexivity]. simpl.
      destruct (Nat.eqb_spec r a) as [Er|]; [congruence|]. reflexivity.
Qed.

Lemma existsb_seq r n : existsb (Nat.eqb r) (seq 0 n) = (r <? n)%nat.
Proof.
  destruct (Nat.ltb_spec r n) as [H|H].
  - apply existsb_exists. exists r. split; [apply in_seq; lia|apply Nat.eqb_refl].
  - destruct (existsb _ _) eqn:E; auto. apply existsb_exists in E.
    destruct E as (y & Hy & E). apply in_seq in Hy. apply Nat.eqb_eq in E. lia.
Qed.

(** the final cell, for any schedule *)
Lemma buffer_cell tr r i :
  schedule_of (buffer_progs zero x seg p modulated) tr ->
  (r < Z.to_nat seg)%nat -> Z.of_nat i < n_segs p ->
  fst (exec cell2_dec tr (fun _ => zero, fun _ => zero)) (r, i) =
  cell_val (Z.of_nat r) (Z.of_nat i).
Proof.
  intros Hsch Hr Hi.
  assert (Hev : forall e, In e tr -> snd (cell_of (snd e)) = fst e).
  { intros e He. apply buffer_owned. rewrite <- (Hsch (fst e)). apply in_proj; auto. }
  destruct (view_exec _ _ cell2_dec snd i tr (fun _ => zero, fun _ => zero)
              (fun _ => zero, fun _ => zero) Hev) as [_ E]; [split; auto|].
  rewrite E by reflexivity. rewrite Hsch. unfold buffer_progs.
  destruct (Z.ltb_spec (Z.of_nat i) (n_segs p)); [|lia].
  rewrite buffer_body_norm, (exec_stores_col i (fun r => cell_val (Z.of_nat r) (Z.of_nat i))).
  rewrite Nat.eqb_refl, existsb_seq.
  destruct (Nat.ltb_spec r (Z.to_nat seg)); [reflexivity|lia].
Qed.

Lemma serial_sched :
  schedule_of (buffer_progs zero x seg p modulated)
    (serial (Z.to_nat (n_segs p)) (buffer_progs zero x seg p modulated)).
Proof.
  apply serial_is_schedule. intros t Ht. unfold buffer_progs.
  destruct (Z.ltb_spec (Z.of_nat t) (n_segs p)); [lia|reflexivity].
Qed.
End Buf.

(** column as a list *)
Definition col {A} (m : mat A) (i : nat) : list A := tab (nrows m) (fun r => el m r i).

Lemma run_buffer_spec A (zero : A) x seg hopl modulated tr :
  1 <= seg -> 1 <= hopl -> seg <= Z.of_nat (length x) ->
  (forall p, buffer_params (Z.of_nat (length x)) seg (seg - hopl) = Ok p ->
     schedule_of (buffer_progs zero x seg p modulated) (tr p)) ->
  exists m, run_buffer zero x seg (seg - hopl) tr = Ok m /\
    nrows m = Z.to_nat seg /\
    Z.of_nat (ncols m) = (Z.of_nat (length x) - seg) / hopl + 1 /\
    (forall i, (i < ncols m)%nat -> hopl * Z.of_nat i + seg <= Z.of_nat (length x)) /\
    hopl * Z.of_nat (ncols m) + seg > Z.of_nat (length x) /\
    forall i, (i < ncols m)%nat ->
      col m i =
      let s := pyslice x (hopl * Z.of_nat i) (hopl * Z.of_nat i + seg) in
      if modulated then ifftshift s else s.
Proof.
  intros Hs1 Hh Hseg Htr. unfold run_buffer.
  destruct (buffer_params (Z.of_nat (length x)) seg (seg - hopl)) as [p|e] eqn:E.
  2:{ unfold buffer_params in E.
      destruct (Z.eqb_spec (seg - (seg - hopl)) 0); [lia|discriminate]. }
  destruct (buffer_params_hop _ _ _ _ Hs1 Hh Hseg E)
    as (Ehop & Hn & Hn1 & Hss & Hs21 & Hfit & Hmax).
  cbn [bind].
  destruct (Z.ltb_spec (n_segs p) 0); [lia|].
  assert (Hall : forallb (column_fits x seg p) (seq 0 (Z.to_nat (n_segs p))) = true).
  { apply forallb_forall. intros i Hi. apply in_seq in Hi. unfold column_fits.
    specialize (Hfit (Z.of_nat i)). rewrite Ehop. lia. }
  rewrite Hall. eexists; split; [reflexivity|]. cbn [nrows ncols el].
  split; [reflexivity|]. split; [rewrite Z2Nat.id by lia; exact Hn|].
  split; [intros i Hi; apply Hfit; lia|].
  split; [rewrite Z2Nat.id by lia; exact Hmax|].
  intros i Hi. specialize (Hfit (Z.of_nat i) ltac:(lia)).
  assert (Hlen : length (pyslice x (hopl * Z.of_nat i) (hopl * Z.of_nat i + seg)) = Z.to_nat seg)
    by (rewrite pyslice_length; nia).
  apply list_eq_nth with (d := zero).
  - unfold col. rewrite tab_length. cbv zeta. cbn [nrows].
    destruct modulated; rewrite ?ifftshift_length; lia.
  - unfold col at 1 2. rewrite tab_length. cbn [nrows el]. intros r Hr.
    rewrite nth_tab by exact Hr.
    rewrite (buffer_cell _ _ _ seg p modulated Hs1 Hss Hs21 (tr p) r i (Htr p eq_refl)); try lia.
    unfold cell_val, rd. rewrite Ehop. destruct modulated; cbv zeta.
    + rewrite nth_ifftshift by lia. rewrite Hlen.
      assert (Hmod : ((r + Z.to_nat seg / 2) mod Z.to_nat seg)%nat =
                     if (Z.of_nat r <? s20 p) then (r + Z.to_nat seg / 2)%nat
                     else (r + Z.to_nat seg / 2 - Z.to_nat seg)%nat).
      { destruct (Z.ltb_spec (Z.of_nat r) (s20 p)).
        - apply Nat.mod_small. lia.
        - replace (r + Z.to_nat seg / 2)%nat
            with ((r + Z.to_nat seg / 2 - Z.to_nat seg) + 1 * Z.to_nat seg)%nat at 1 by lia.
          rewrite Nat.mod_add by lia. apply Nat.mod_small. lia. }
      rewrite Hmod.
      destruct (Z.ltb_spec (Z.of_nat r) (s20 p)).
      * rewrite pyslice_nth by lia. f_equal. lia.
      * rewrite pyslice_nth by lia. f_equal. lia.
    + rewrite pyslice_nth by lia. f_equal. lia.
Qed.

Lemma buffer_spec A (zero : A) x seg hopl modulated :
  1 <= seg -> 1 <= hopl -> seg <= Z.of_nat (length x) ->
  exists m, buffer zero x seg (seg - hopl) modulated = Ok m /\
    nrows m = Z.to_nat seg /\
    Z.of_nat (ncols m) = (Z.of_nat (length x) - seg) / hopl + 1 /\
    (forall i, (i < ncols m)%nat -> hopl * Z.of_nat i + seg <= Z.of_nat (length x)) /\
    hopl * Z.of_nat (ncols m) + seg > Z.of_nat (length x) /\
    forall i, (i < ncols m)%nat ->
      col m i =
      let s := pyslice x (hopl * Z.of_nat i) (hopl * Z.of_nat i + seg) in
      if modulated then ifftshift s else s.
Proof.
  intros. apply run_buffer_spec; auto. intros p Hp.
  destruct (buffer_params_hop _ _ _ _ H H0 H1 Hp) as (_ & _ & _ & Hss & Hs21 & _).
  apply serial_sched; auto.
Qed.

(** Every schedule of the CPU iterations or of the CUDA threads gives the serial array. *)
Theorem buffer_schedules A (zero : A) x seg hopl modulated tr :
  1 <= seg -> 1 <= hopl -> seg <= Z.of_nat (length x) ->
  (forall p, buffer_params (Z.of_nat (length x)) seg (seg - hopl) = Ok p ->
     schedule_of (buffer_progs zero x seg p modulated) (tr p) \/
     schedule_of (buffer_gpu_progs zero x seg p modulated) (tr p)) ->
  exists m m', buffer zero x seg (seg - hopl) modulated = Ok m /\
    run_buffer zero x seg (seg - hopl) tr = Ok m' /\ meq m m'.
Proof.
  intros Hs1 Hh Hseg Htr.
  destruct (buffer_spec A zero x seg hopl modulated Hs1 Hh Hseg)
    as (m & E & Hr & Hc & Hf & Hm & Hcol).
  assert (Htr' : forall p, buffer_params (Z.of_nat (length x)) seg (seg - hopl) = Ok p ->
     schedule_of (buffer_progs zero x seg p modulated) (tr p)).
  { intros p Hp. destruct (Htr p Hp) as [H|H]; [exact H|].
    destruct (buffer_params_hop _ _ _ _ Hs1 Hh Hseg Hp) as (_ & _ & _ & Hss & Hs21 & _).
    intros t. rewrite H. symmetry. apply buffer_progs_eq; auto. }
  destruct (run_buffer_spec A zero x seg hopl modulated tr Hs1 Hh Hseg Htr')
    as (m' & E' & Hr' & Hc' & Hf' & Hm' & Hcol').
  exists m, m'. split; [exact E|]. split; [exact E'|].
  split; [lia|]. split; [lia|].
  intros i j Hi Hj.
  assert (Ecol : col m j = col m' j) by (rewrite Hcol, Hcol' by lia; reflexivity).
  assert (En : nth i (col m j) zero = nth i (col m' j) zero) by (rewrite Ecol; reflexivity).
  unfold col in En. rewrite !nth_tab in En by lia. exact En.
Qed.
