From Coq Require Import ZifyBool ZifyNat.
From Verif Require Import Py Round Parallel Cplx CplxProofs Stft Squeeze SqueezeProofs BinProofs
  SqueezeThms SqueezeThms2 SqueezeThms3 Scales Ssqueeze.
Local Open Scope R_scope.
Ltac Zify.zify_post_hook ::= Z.div_mod_to_equations.

(** ** Grids with the nearest-bin property *)
Inductive bin_grid (v : list R) : bool -> (R -> Prop) -> Prop :=
| bg_lin d : (2 <= length v)%nat -> EPS64 <= d ->
    (forall k, (k < length v)%nat -> nth k v 0 = nth 0 v 0 + INR k * d) ->
    bin_grid v false (reach_lin v)
| bg_log d : geometric v d -> EPS64 <= d -> bin_grid v true (reach_log v 0)
| bg_piece p a b : geometric2 v p a b -> EPS64 <= a -> EPS64 <= b ->
    bin_grid v true (reach_log v (S p)).

(** entry [k] of [f] is nearest to frequency [r], in frequency or in log-frequency; a
    frequency [<= 0] on a log grid goes to the lowest entry *)
Definition nearest (ls : bool) (f : list R) (r : R) (k : nat) : Prop :=
  (k < length f)%nat /\ forall q, (q < length f)%nat ->
    if ls then (0 < r -> Rabs (log2 r - log2 (nth k f 0)) <= Rabs (log2 r - log2 (nth q f 0))) /\
               (r <= 0 -> log2 (nth k f 0) <= log2 (nth q f 0))
    else Rabs (r - nth k f 0) <= Rabs (r - nth q f 0).

Lemma nearest_rev ls f r k : nearest ls f r k -> nearest ls (rev f) r (length f - 1 - k).
Proof.
  intros [Hk H]. split; [rewrite rev_length; lia|]. intros q Hq. rewrite rev_length in Hq.
  rewrite !nth_rev_lt by lia.
  replace (length f - 1 - (length f - 1 - k))%nat with k by lia.
  apply H. lia.
Qed.

Lemma lg_least_geometric v d : geometric v d -> 0 <= d -> forall q, (q < length v)%nat -> lg v 0 <= lg v q.
Proof. intros [_ H] Hd q Hq. rewrite (H q Hq). pose proof (pos_INR q). nra. Qed.
Lemma lg_least_geometric2 v p a b : geometric2 v p a b -> 0 <= a -> 0 <= b ->
  forall q, (q < length v)%nat -> lg v 0 <= lg v q.
Proof.
  intros (H0 & _ & _ & H1 & H2) Ha Hb q Hq.
  destruct (le_lt_dec q (S p)).
  - rewrite (H1 q) by lia. pose proof (pos_INR q). nra.
  - rewrite (H2 q) by lia. rewrite (H1 (S p)) by lia. pose proof (pos_INR (S p)).
    assert (INR (S p) <= INR q) by (apply le_INR; lia). nra.
Qed.

Lemma grid_nearest_any f64 v ls reach : bin_grid v ls reach ->
  exists g, get_grid f64 ls v = Ok g /\ forall r, reach r ->
    let b := bin_onfly (Z.of_nat (length v) - 1) g r in
    (0 <= b)%Z /\ bin_fast (Z.of_nat (length v) - 1) g r = b /\ nearest ls v r (Z.to_nat b).
Proof.
  pose proof EPS64_pos as He.
  intros [d Hn Hd Hv|d Hg Hd|p a b Hg Ha Hb].
  - destruct (nearest_lin f64 v d _ Hn Hd Hv eq_refl) as (g & Eg & H). exists g. split; [exact Eg|].
    intros r Hr. destruct (H r Hr) as (A & B & D & E). cbv zeta. repeat split; auto.
  - destruct (nearest_log f64 v d _ Hg Hd eq_refl) as (g & Eg & H). exists g. split; [exact Eg|].
    intros r Hr. destruct (H r Hr) as (A & B & D & E & F). cbv zeta. split; [exact A|]. split; [exact B|].
    split; [exact D|]. intros q Hq. split.
    + intros Hr0. apply (F Hr0 q Hq).
    + intros Hr0. rewrite (E Hr0). apply (lg_least_geometric v d Hg); [lra|exact Hq].
  - destruct (nearest_piece f64 v p a b _ Hg Ha Hb eq_refl) as (g & Eg & H). exists g. split; [exact Eg|].
    intros r Hr. destruct (H r Hr) as (A & B & D & E & F). cbv zeta. split; [exact A|]. split; [exact B|].
    split; [exact D|]. intros q Hq. split.
    + intros Hr0. apply (F Hr0 q Hq).
    + intros Hr0. rewrite (E Hr0). apply (lg_least_geometric2 v p a b Hg); [lra|lra|exact Hq].
Qed.

(** ** The cells computed by [ssqueeze] *)
(** the frequency assigned to a coefficient: the given [w], or computed on the fly from the
    (transformed) array and [dWx] *)
Definition freq_at (o : ssq_opts) (W : mat C) (w : option (mat fval)) (dWx : option (mat C))
  (i j : nat) : fval :=
  match w with
  | Some w => el w i j
  | None =>
      match dWx, o_gamma o with
      | Some d, Some g =>
          if Rlt_dec g (Cabs (el W i j)) then
            Fin (match o_Sfs o with
                 | None => phase_cwt_pt (el W i j) (el d i j)
                 | Some s => phase_stft_pt (nth i s 0) (el W i j) (el d i j) end)
          else Inf
      | _, _ => Inf
      end
  end.

Lemma one_cells ord o k v ls W w dWx Tx : valid_order ord ->
  ssqueeze_one ord o k v ls W w dWx = Ok Tx ->
  nrows Tx = nrows W /\ ncols Tx = ncols W /\
  exists cst ca g, ssq_const o k v = Ok cst /\ const_arr (nrows W) cst = Ok ca /\
    get_grid (o_f64v o) ls v = Ok g /\
    let omax := (Z.of_nat (nrows W) - 1)%Z in
    let bin := match w with Some _ => bin_onfly omax g | None => bin_fast omax g end in
    forall q j, (q < nrows W)%nat -> (j < ncols W)%nat ->
      el Tx q j = Csum (nrows W) (fun i => match freq_at o W w dWx i j with
        | Inf => C0
        | Fin r => if (flip_row (o_flip o) omax (bin r) =? Z.of_nat q)%Z
                   then Cmul (el W i j) (RtoC (nth i ca 0)) else C0 end).
Proof.
  intros Ho E. unfold ssqueeze_one in E.
  destruct (ssq_const o k v) as [cst|] eqn:Ec; [|discriminate]. cbn [bind] in E.
  set (out := Mat (nrows W) (ncols W) (fun _ _ => C0)) in *.
  destruct w as [w|].
  - pose proof E as E0. unfold indexed_sum_onfly in E0.
    destruct (const_arr (nrows W) cst) as [ca|] eqn:Ea; [|discriminate].
    destruct (get_grid (o_f64v o) ls v) as [g|] eqn:Eg; [|discriminate]. clear E0.
    destruct (onfly_sum ord (o_f64v o) W w v cst ls (o_flip o) out ca g Ho Ea Eg) as (T & ET & H1 & H2 & H3).
    rewrite ET in E. injection E as ->. split; [exact H1|]. split; [exact H2|].
    exists cst, ca, g. repeat split; auto. cbv zeta. intros q j Hq Hj. rewrite (H3 q j Hq Hj).
    cbn [out el nrows]. rewrite Cadd_0_l. reflexivity.
  - destruct dWx as [d|]; [|discriminate]. destruct (o_gamma o) as [gm|] eqn:Egm; [|discriminate].
    pose proof E as E0. unfold ssqueeze_fast in E0.
    destruct (const_arr (nrows W) cst) as [ca|] eqn:Ea; [|discriminate].
    destruct (get_grid (o_f64v o) ls v) as [g|] eqn:Eg; [|discriminate]. cbn [bind] in E0.
    assert (Hs : o_Sfs o = None \/ ls = false) by (destruct (o_Sfs o), ls; auto; discriminate).
    clear E0.
    destruct (fast_sum ord (o_f64v o) W d v cst ls (o_flip o) gm (o_Sfs o) out ca g Ho Ea Eg Hs) as (T & ET & H1 & H2 & H3).
    rewrite ET in E. injection E as ->. split; [exact H1|]. split; [exact H2|].
    exists cst, ca, g. repeat split; auto. cbv zeta. intros q j Hq Hj. rewrite (H3 q j Hq Hj).
    cbn [out el nrows]. rewrite Cadd_0_l. apply Csum_ext. intros i Hi.
    unfold freq_at. rewrite Egm. destruct (Rlt_dec gm (Cabs (el W i j))); reflexivity.
Qed.

Lemma ssqueeze_inv ord o Wx w dWx Tx f : ssqueeze ord o Wx w dWx = Ok (Tx, f) ->
  exists k v ls, ssq_freqs_of o (ncols Wx) = Ok (k, v, ls) /\ f = flip_freqs o v /\
    ssqueeze_one ord o k v ls (squeeze_input (o_sq o) (nrows Wx) Wx) w dWx = Ok Tx.
Proof.
  unfold ssqueeze. destruct (match w with Some _ => _ | None => _ end); [discriminate|].
  destruct (ssq_freqs_of o (ncols Wx)) as [[[k v] ls]|] eqn:Ef; [|discriminate]. cbn [bind].
  destruct (ssqueeze_one _ _ _ _ _ _ _ _) as [T|] eqn:E1; [|discriminate]. cbn [bind].
  intros H. injection H as <- <-. exists k, v, ls. auto.
Qed.

(** ** Shapes (C24) *)
Definition shape_keeping (sq : squeezing) : Prop :=
  match sq with SqFun f => forall W, nrows (f W) = nrows W /\ ncols (f W) = ncols W | _ => True end.

Lemma squeeze_input_shape sq n0 W : shape_keeping sq ->
  nrows (squeeze_input sq n0 W) = nrows W /\ ncols (squeeze_input sq n0 W) = ncols W.
Proof. destruct sq; cbn; auto. Qed.

Lemma ssqueeze_shape ord o Wx w dWx Tx f : valid_order ord -> shape_keeping (o_sq o) ->
  ssqueeze ord o Wx w dWx = Ok (Tx, f) -> nrows Tx = nrows Wx /\ ncols Tx = ncols Wx.
Proof.
  intros Ho Hs E. destruct (ssqueeze_inv _ _ _ _ _ _ _ E) as (k & v & ls & _ & _ & E1).
  destruct (one_cells _ _ _ _ _ _ _ _ _ Ho E1) as (H1 & H2 & _).
  destruct (squeeze_input_shape (o_sq o) (nrows Wx) Wx Hs). split; congruence.
Qed.

Lemma linspace_length a b n : length (linspace a b n) = n.
Proof. apply tab_length. Qed.
Lemma log_freqs_length a b n : length (log_freqs a b n) = n.
Proof. apply tab_length. Qed.
Lemma exp_fm_length t a b : length (exp_fm t a b) = length t.
Proof. apply map_length. Qed.
Lemma removelast_length {A} (l : list A) : length (removelast l) = (length l - 1)%nat.
Proof.
  induction l as [|x l IH]; [reflexivity|]. destruct l as [|y l]; [reflexivity|].
  change (removelast (x :: y :: l)) with (x :: removelast (y :: l)). cbn [length] in *. rewrite IH. lia.
Qed.

Lemma associated_length f64s sc N st mr dt tr v :
  associated_frequencies f64s sc N st mr dt tr = Ok v -> length v = length sc.
Proof.
  unfold associated_frequencies. destruct (ssq_freqrange mr dt N sc) as [fm fM].
  destruct st.
  - intros E. injection E as <-. apply log_freqs_length.
  - destruct (logscale_transition_idx f64s sc) as [[idx|]|] eqn:Et; cbn [bind]; [|intros E; injection E as <-; apply log_freqs_length|discriminate].
    destruct mr; try discriminate.
    destruct (logscale_transition_idx true _) as [[s|]|]; cbn [bind]; try discriminate.
    destruct (Z.eqb _ _); [|discriminate]. intros E. injection E as <-.
    apply transition_bound in Et.
    rewrite app_length, removelast_length, !exp_fm_length, app_length, !map_length, !seq_length.
    cbn [length]. lia.
  - destruct tr; intros E; injection E as <-; [apply linspace_length|].
    rewrite map_length. apply linspace_length.
Qed.

(** frequencies chosen by the library: one per scale *)
Lemma auto_freqs_length o N k v ls sc : o_scales o = Some sc ->
  (forall u, o_freqs o <> FArray u) ->
  ssq_freqs_of o N = Ok (k, v, ls) -> length v = length sc.
Proof.
  intros Hsc Hf. unfold ssq_freqs_of. rewrite Hsc.
  assert (A : forall st (k0 : option scale_kind),
    match st, o_mr o with
    | SPiece, MRTuple _ _ | SPiece, MRMaximal => Err ValueError
    | _, _ => do v <- associated_frequencies (o_f64s o) sc N st (o_mr o) (1 / o_fs o) (o_tr o);
              Ok (k0, v, is_log st)
    end = Ok (k, v, ls) -> length v = length sc).
  { intros st k0 E.
    assert (E' : (do v <- associated_frequencies (o_f64s o) sc N st (o_mr o) (1 / o_fs o) (o_tr o);
              Ok (k0, v, is_log st)) = Ok (k, v, ls)) by (destruct st, (o_mr o); congruence).
    destruct (associated_frequencies _ _ _ _ _ _ _) as [u|] eqn:Ea; [|discriminate].
    cbn [bind] in E'. injection E' as _ <- _. eapply associated_length; eassumption. }
  destruct (o_tr o).
  - destruct (process_scales_arr _ _) as [k0|]; [|discriminate]. cbn [bind].
    destruct (o_freqs o) as [u|st|]; [exfalso; eapply Hf; reflexivity|apply A|apply A].
  - destruct (o_freqs o) as [u|st|]; [exfalso; eapply Hf; reflexivity|apply A|discriminate].
Qed.

Lemma flip_freqs_length o v : length (flip_freqs o v) = length v.
Proof. unfold flip_freqs. destruct (o_tr o), (o_flip o); rewrite ?rev_length; reflexivity. Qed.

Lemma default_rows ord o Wx w dWx Tx f sc : valid_order ord -> shape_keeping (o_sq o) ->
  o_scales o = Some sc -> (forall u, o_freqs o <> FArray u) -> length sc = nrows Wx ->
  ssqueeze ord o Wx w dWx = Ok (Tx, f) -> nrows Tx = length f.
Proof.
  intros Ho Hs Hsc Hf Hl E. destruct (ssqueeze_shape _ _ _ _ _ _ _ Ho Hs E) as [H1 _].
  destruct (ssqueeze_inv _ _ _ _ _ _ _ E) as (k & v & ls & Ev & -> & _).
  rewrite flip_freqs_length. rewrite (auto_freqs_length o _ k v ls sc Hsc Hf Ev). congruence.
Qed.

(** ** Row order (C23) *)
Lemma ssqueeze_rows ord o Wx w dWx Tx f k v ls reach : valid_order ord ->
  ssq_freqs_of o (ncols Wx) = Ok (k, v, ls) -> bin_grid v ls reach ->
  let W := squeeze_input (o_sq o) (nrows Wx) Wx in
  length v = nrows W ->
  (forall i j r, (i < nrows W)%nat -> (j < ncols W)%nat -> freq_at o W w dWx i j = Fin r -> reach r) ->
  ssqueeze ord o Wx w dWx = Ok (Tx, f) ->
  exists (kap : nat -> nat -> nat) ca,
    (forall i j r, (i < nrows W)%nat -> (j < ncols W)%nat -> freq_at o W w dWx i j = Fin r ->
       nearest ls (if o_flip o then rev v else v) r (kap i j)) /\
    (exists cst, ssq_const o k v = Ok cst /\ const_arr (nrows W) cst = Ok ca) /\
    forall q j, (q < nrows W)%nat -> (j < ncols W)%nat ->
      el Tx q j = Csum (nrows W) (fun i => match freq_at o W w dWx i j with
        | Inf => C0
        | Fin _ => if (kap i j =? q)%nat then Cmul (el W i j) (RtoC (nth i ca 0)) else C0 end).
Proof.
  intros Ho Ev Hg W Hl Hr E.
  destruct (ssqueeze_inv _ _ _ _ _ _ _ E) as (k' & v' & ls' & Ev' & _ & E1).
  rewrite Ev in Ev'. injection Ev' as <- <- <-. fold W in E1.
  destruct (one_cells _ _ _ _ _ _ _ _ _ Ho E1) as (_ & _ & cst & ca & g & Ec & Ea & Eg & Hel).
  cbv zeta in Hel.
  destruct (grid_nearest_any (o_f64v o) v ls reach Hg) as (g' & Eg' & Hn).
  rewrite Eg in Eg'. injection Eg' as <-. rewrite Hl in Hn. cbv zeta in Hn.
  set (omax := (Z.of_nat (nrows W) - 1)%Z) in *.
  exists (fun i j => match freq_at o W w dWx i j with
            | Fin r => Z.to_nat (flip_row (o_flip o) omax (bin_onfly omax g r)) | Inf => 0%nat end), ca.
  split; [|split; [exists cst; auto|]].
  - intros i j r Hi Hj Er. rewrite Er. destruct (Hn r (Hr i j r Hi Hj Er)) as (A & _ & B).
    unfold flip_row. destruct (o_flip o); [|exact B].
    pose proof (nearest_rev _ _ _ _ B) as Hrev. destruct B as [B _].
    replace (Z.to_nat (omax - bin_onfly omax g r)) with (length v - 1 - Z.to_nat (bin_onfly omax g r))%nat
      by (unfold omax in *; lia). exact Hrev.
  - intros q j Hq Hj. rewrite (Hel q j Hq Hj). apply Csum_ext. intros i Hi.
    destruct (freq_at o W w dWx i j) as [r|] eqn:Er; [|reflexivity].
    destruct (Hn r (Hr i j r Hi Hj Er)) as (A & B & [D _]).
    replace (match w with Some _ => bin_onfly omax g | None => bin_fast omax g end r) with (bin_onfly omax g r)
      by (destruct w; auto).
    assert (0 <= flip_row (o_flip o) omax (bin_onfly omax g r))%Z
      by (unfold flip_row; destruct (o_flip o); unfold omax in *; lia).
    destruct (Z.eqb_spec (flip_row (o_flip o) omax (bin_onfly omax g r)) (Z.of_nat q)),
      (Nat.eqb_spec (Z.to_nat (flip_row (o_flip o) omax (bin_onfly omax g r))) q); try reflexivity; lia.
Qed.

(** the returned frequencies label the rows, unless [transform='cwt'] and not [flipud] *)
Lemma flip_freqs_rows o v : (o_tr o = TCwt -> o_flip o = true) ->
  flip_freqs o v = if o_flip o then rev v else v.
Proof. intros H. unfold flip_freqs. destruct (o_tr o), (o_flip o); auto. discriminate H. reflexivity. Qed.

Theorem rows_labelled ord o Wx w dWx Tx f k v ls reach : valid_order ord ->
  (o_tr o = TCwt -> o_flip o = true) ->
  ssq_freqs_of o (ncols Wx) = Ok (k, v, ls) -> bin_grid v ls reach ->
  let W := squeeze_input (o_sq o) (nrows Wx) Wx in
  length v = nrows W ->
  (forall i j r, (i < nrows W)%nat -> (j < ncols W)%nat -> freq_at o W w dWx i j = Fin r -> reach r) ->
  ssqueeze ord o Wx w dWx = Ok (Tx, f) ->
  exists (kap : nat -> nat -> nat) ca,
    (forall i j r, (i < nrows W)%nat -> (j < ncols W)%nat -> freq_at o W w dWx i j = Fin r ->
       nearest ls f r (kap i j)) /\
    (exists cst, ssq_const o k v = Ok cst /\ const_arr (nrows W) cst = Ok ca) /\
    forall q j, (q < nrows W)%nat -> (j < ncols W)%nat ->
      el Tx q j = Csum (nrows W) (fun i => match freq_at o W w dWx i j with
        | Inf => C0
        | Fin _ => if (kap i j =? q)%nat then Cmul (el W i j) (RtoC (nth i ca 0)) else C0 end).
Proof.
  intros Ho Hf Ev Hg W Hl Hr E.
  destruct (ssqueeze_inv _ _ _ _ _ _ _ E) as (k' & v' & ls' & Ev' & -> & _).
  rewrite Ev in Ev'. injection Ev' as <- <- <-.
  rewrite flip_freqs_rows by exact Hf.
  eapply ssqueeze_rows; eassumption.
Qed.

(** with [transform='cwt'] and [flipud=False] they are listed the other way round *)
Theorem rows_mislabelled ord o Wx w dWx Tx f k v ls reach : valid_order ord ->
  o_tr o = TCwt -> o_flip o = false ->
  ssq_freqs_of o (ncols Wx) = Ok (k, v, ls) -> bin_grid v ls reach ->
  let W := squeeze_input (o_sq o) (nrows Wx) Wx in
  length v = nrows W ->
  (forall i j r, (i < nrows W)%nat -> (j < ncols W)%nat -> freq_at o W w dWx i j = Fin r -> reach r) ->
  ssqueeze ord o Wx w dWx = Ok (Tx, f) ->
  exists (kap : nat -> nat -> nat) ca,
    (forall i j r, (i < nrows W)%nat -> (j < ncols W)%nat -> freq_at o W w dWx i j = Fin r ->
       nearest ls f r (length f - 1 - kap i j)) /\
    forall q j, (q < nrows W)%nat -> (j < ncols W)%nat ->
      el Tx q j = Csum (nrows W) (fun i => match freq_at o W w dWx i j with
        | Inf => C0
        | Fin _ => if (kap i j =? q)%nat then Cmul (el W i j) (RtoC (nth i ca 0)) else C0 end).
Proof.
  intros Ho Ht Hf Ev Hg W Hl Hr E.
  destruct (ssqueeze_inv _ _ _ _ _ _ _ E) as (k' & v' & ls' & Ev' & -> & _).
  rewrite Ev in Ev'. injection Ev' as <- <- <-.
  destruct (ssqueeze_rows ord o Wx w dWx Tx _ k v ls reach Ho Ev Hg Hl Hr E) as (kap & ca & H1 & _ & H2).
  exists kap, ca. split; [|exact H2]. intros i j r Hi Hj Er. rewrite flip_freqs_length.
  unfold flip_freqs. rewrite Ht, Hf. apply nearest_rev.
  specialize (H1 i j r Hi Hj Er). rewrite Hf in H1. exact H1.
Qed.

(** ** get_w (C25) *)
Definition res_meq2 (a b : res (mat C * list R)) : Prop :=
  match a, b with
  | Ok (T, f), Ok (T', f') => meq T T' /\ f = f'
  | Err e, Err e' => e = e'
  | _, _ => False
  end.

Lemma bin_fast_onfly f64 v ls reach g omax r : freq_grid f64 v ls reach ->
  get_grid f64 ls v = Ok g -> bin_fast omax g r = bin_onfly omax g r.
Proof.
  intros Hg Eg. destruct Hg as [Hn|Ht|p Ht Hp2 Hv].
  - rewrite grid_lin in Eg by exact Hn. injection Eg as <-. reflexivity.
  - unfold get_grid, get_params_log in Eg. rewrite Ht in Eg. cbn [bind] in Eg. injection Eg as <-. reflexivity.
  - unfold get_grid, get_params_log in Eg. rewrite Ht in Eg. cbn [bind] in Eg.
    apply (f_equal (fun r => match r with Ok g => g | _ => GLin 0 0 end)) in Eg. cbv beta iota in Eg. subst g.
    cbn [bin_fast bin_onfly]. unfold bin_piece_fast, bin_piece.
    replace (S (S p) - 1)%nat with (S p) by lia.
    change (log2 (nth 0 v 0)) with (lg v 0). change (log2 (nth 1 v 0)) with (lg v 1).
    change (log2 (nth (S p) v 0)) with (lg v (S p)).
    destruct (log2e r) as [wl|].
    2:{ rewrite rnd_i64_ok by (split; [lra|apply IZR_le; lia]). rewrite (rhe_IZR 0). reflexivity. }
    destruct (Rlt_dec (lg v (S p)) wl) as [|Hw]; [reflexivity|].
    set (d := ensure_nonzero_nonnegative (lg v 1 - lg v 0)).
    assert (Hd : 0 < d) by apply ensure_pos.
    assert (Hx : (wl - lg v 0) / d <= IZR (2 ^ 62)).
    { apply div_le; [exact Hd|].
      assert (Hle : INR (S p) <= IZR (2 ^ 62)) by (rewrite INR_IZR_INZ; apply IZR_le; apply transition_bound in Ht; lia).
      unfold d in *. rewrite ensure_Rmax in *. nra. }
    set (x := (wl - lg v 0) / d) in *.
    assert (H63 : IZR (2 ^ 62) <= IZR (2 ^ 63 - 1)) by (apply IZR_le; lia).
    destruct (Rle_dec 0 x) as [H0|H0].
    + rewrite Rmax_left by lra. rewrite rnd_i64_ok by lra.
      pose proof (rhe_lower x 0 H0). lia.
    + rewrite Rmax_right by lra. rewrite (rnd_i64_ok 0) by lra. rewrite (rhe_IZR 0).
      unfold rnd_i64. cbv zeta. pose proof (rhe_upper x 0 ltac:(lra)) as Hu.
      destruct ((i64_min <=? round_half_even x)%Z && (round_half_even x <? 2 ^ 63)%Z)%bool; unfold i64_min in *; lia.
Qed.

Lemma squeeze_rows_row_ext ord out row row' Wx cst : valid_order ord -> ncols out = ncols Wx ->
  (forall i j, (i < nrows Wx)%nat -> (j < ncols Wx)%nat -> row i j = row' i j) ->
  meq (squeeze_rows ord out row Wx cst) (squeeze_rows ord out row' Wx cst).
Proof.
  intros Ho Hn H. split; [reflexivity|]. split; [reflexivity|]. intros i j Hi Hj.
  change (nrows (squeeze_rows ord out row Wx cst)) with (nrows out) in Hi.
  change (ncols (squeeze_rows ord out row Wx cst)) with (ncols out) in Hj.
  rewrite !squeeze_rows_el by (auto; lia).
  rewrite !acc_cell_sum. f_equal. apply Csum_ext. intros q Hq. unfold hits. rewrite H by lia. reflexivity.
Qed.

(** _ssq_cwt.py:255-281 / _ssq_stft.py:103-121, from the computed transform on: the phase
    transform is computed first, or left to the squeezing kernel *)
Definition squeeze_stage (ord : order) (o : ssq_opts) (gamma : R) (get_w : bool) (Wx dWx : mat C)
  : res (mat C * list R) :=
  let w := match o_Sfs o with
           | None => phase_cwt gamma Wx dWx
           | Some s => phase_stft s gamma Wx dWx
           end in
  if get_w then ssqueeze ord o Wx (Some w) None else ssqueeze ord o Wx None (Some dWx).

Lemma existsb_false {A} (f : A -> bool) l : (forall x, In x l -> f x = false) -> existsb f l = false.
Proof.
  intros H. destruct (existsb f l) eqn:E; [|reflexivity]. apply existsb_exists in E.
  destruct E as (x & Hx & Ef). rewrite H in Ef; auto.
Qed.
Lemma phase_not_negative o gamma Wx dWx :
  has_negative (match o_Sfs o with
           | None => phase_cwt gamma Wx dWx
           | Some s => phase_stft s gamma Wx dWx
           end) = false.
Proof.
  unfold has_negative. apply existsb_false. intros i _. apply existsb_false. intros j _.
  destruct (o_Sfs o); cbn [el phase_cwt phase_stft]; destruct (Rlt_dec _ gamma); try reflexivity;
    unfold Rltb', phase_cwt_pt, phase_stft_pt;
    match goal with |- context [Rlt_dec (Rabs ?a) 0] => destruct (Rlt_dec (Rabs a) 0) as [H|]; [pose proof (Rabs_pos a); lra|reflexivity] end.
Qed.

Theorem get_w_same ord o gamma Wx dWx k v ls reach : valid_order ord ->
  o_sq o = SqSum -> o_gamma o = Some gamma ->
  ssq_freqs_of o (ncols Wx) = Ok (k, v, ls) -> freq_grid (o_f64v o) v ls reach ->
  (o_Sfs o = None \/ ls = false) ->
  (forall i j, (i < nrows Wx)%nat -> (j < ncols Wx)%nat -> Cabs (el Wx i j) <> gamma) ->
  res_meq2 (squeeze_stage ord o gamma true Wx dWx) (squeeze_stage ord o gamma false Wx dWx).
Proof.
  intros Ho Hsq Hgm Ev Hfg Hs Hne. unfold squeeze_stage, ssqueeze. rewrite phase_not_negative, Hgm, Hsq, Ev.
  cbn [bind squeeze_input]. unfold ssqueeze_one. rewrite Hgm.
  destruct (ssq_const o k v) as [cst|]; cbn [bind]; [|reflexivity].
  unfold indexed_sum_onfly, ssqueeze_fast.
  destruct (const_arr (nrows Wx) cst) as [ca|]; cbn [bind]; [|reflexivity].
  destruct (get_grid (o_f64v o) ls v) as [g|] eqn:Eg; cbn [bind]; [|reflexivity].
  set (out := Mat (nrows Wx) (ncols Wx) (fun _ _ => C0)).
  assert (E : match o_Sfs o, ls with
    | Some _, true => Err TypeError
    | _, _ => Ok (squeeze_rows ord out (fun i j => fast_row (Z.of_nat (nrows out) - 1) g (o_flip o) gamma
         (match o_Sfs o with None => phase_cwt_pt | Some s => phase_stft_pt (nth i s 0) end)
         (el Wx i j) (el dWx i j)) Wx ca) end =
    Ok (squeeze_rows ord out (fun i j => fast_row (Z.of_nat (nrows out) - 1) g (o_flip o) gamma
         (match o_Sfs o with None => phase_cwt_pt | Some s => phase_stft_pt (nth i s 0) end)
         (el Wx i j) (el dWx i j)) Wx ca)).
  { destruct (o_Sfs o), ls; try reflexivity. destruct Hs; discriminate. }
  rewrite E. cbn [bind res_meq2]. split; [|reflexivity].
  apply squeeze_rows_row_ext; [exact Ho|reflexivity|]. intros i j Hi Hj.
  unfold onfly_row, fast_row. rewrite (bin_fast_onfly _ _ _ _ _ _ _ Hfg Eg). specialize (Hne i j Hi Hj).
  destruct (o_Sfs o); cbn [phase_stft phase_cwt el];
    destruct (Rlt_dec (Cabs (el Wx i j)) gamma), (Rlt_dec gamma (Cabs (el Wx i j))); try reflexivity; lra.
Qed.

(** ** Batches (C26) *)
Definition nth_opt {A} (g : option (list A)) (d : A) (i : nat) : option A :=
  match g with Some l => Some (nth i l d) | None => None end.
Definition opt_list {A} (n : nat) (g : option (list A)) : list (option A) :=
  match g with Some l => map Some l | None => repeat None n end.

Lemma zip_squeeze_nth ord o k v ls : forall Ws ws ds Ts,
  length ws = length Ws -> length ds = length Ws ->
  zip_squeeze ord o k v ls Ws ws ds = Ok Ts ->
  length Ts = length Ws /\ forall i dW dT, (i < length Ws)%nat ->
    ssqueeze_one ord o k v ls (nth i Ws dW) (nth i ws None) (nth i ds None) = Ok (nth i Ts dT).
Proof.
  induction Ws as [|W Ws IH]; intros [|w ws] [|d ds] Ts H1 H2 E; cbn in H1, H2; try discriminate.
  - cbn in E. injection E as <-. split; [reflexivity|]. cbn. intros; lia.
  - cbn in E. destruct (ssqueeze_one ord o k v ls W w d) as [T|] eqn:E1; [|discriminate]. cbn in E.
    destruct (zip_squeeze ord o k v ls Ws ws ds) as [Ts'|] eqn:E2; [|discriminate]. cbn in E. injection E as <-.
    destruct (IH ws ds Ts' ltac:(lia) ltac:(lia) E2) as [HL HN]. split; [cbn; lia|].
    intros [|i] dW dT Hi; cbn [nth]; [exact E1|]. apply HN. cbn in Hi. lia.
Qed.
Lemma zip_squeeze_ok ord o k v ls : forall Ws ws ds,
  length ws = length Ws -> length ds = length Ws ->
  (forall i dW, (i < length Ws)%nat ->
     exists T, ssqueeze_one ord o k v ls (nth i Ws dW) (nth i ws None) (nth i ds None) = Ok T) ->
  exists Ts, zip_squeeze ord o k v ls Ws ws ds = Ok Ts.
Proof.
  induction Ws as [|W Ws IH]; intros [|w ws] [|d ds] H1 H2 H; cbn in H1, H2; try discriminate.
  - eexists; reflexivity.
  - destruct (H 0%nat W ltac:(cbn; lia)) as [T ET]. cbn [nth] in ET.
    destruct (IH ws ds ltac:(lia) ltac:(lia)) as [Ts ETs].
    { intros i dW Hi. apply (H (S i) dW). cbn; lia. }
    cbn. rewrite ET. cbn. rewrite ETs. cbn. eexists; reflexivity.
Qed.

Lemma nth_opt_list {A} (d : A) n g i : (forall l, g = Some l -> length l = n) -> (i < n)%nat ->
  nth i (opt_list n g) None = nth_opt g d i.
Proof.
  intros Hl Hi. destruct g as [l|]; cbn.
  - rewrite (nth_indep _ None (Some d)) by (rewrite map_length, (Hl l eq_refl); exact Hi). apply map_nth.
  - rewrite nth_repeat. reflexivity.
Qed.
Lemma opt_list_length {A} n (g : option (list A)) : (forall l, g = Some l -> length l = n) ->
  length (opt_list n g) = n.
Proof. intros H. destruct g; cbn; [rewrite map_length; auto|apply repeat_length]. Qed.

Definition args_bad (o : ssq_opts) (w : option (mat fval)) (dWx : option (mat C)) : bool :=
  match w, dWx, o_gamma o with
     | None, None, _ | None, _, None => true
     | Some w, _, _ => has_negative w
     | _, _, _ => false
  end.
Definition args_bad_batch (o : ssq_opts) (ws : option (list (mat fval))) (dWxs : option (list (mat C))) : bool :=
  match ws, dWxs, o_gamma o with
     | None, None, _ | None, _, None => true
     | Some ws, _, _ => existsb has_negative ws
     | _, _, _ => false
  end.

(** squeezing options that do not look at the length of the first axis *)
Definition not_lebesgue (sq : squeezing) : Prop := match sq with SqLebesgue => False | _ => True end.

Section Batch.
Variables (ord : order) (o : ssq_opts) (Wxs : list (mat C)).
Variables (ws : option (list (mat fval))) (dWxs : option (list (mat C))).
Variables (N : nat) (dW : mat C) (dw : mat fval).
Hypothesis Hsq : not_lebesgue (o_sq o).
Hypothesis HN : forall i, (i < length Wxs)%nat -> ncols (nth i Wxs dW) = N.
Hypothesis Hws : forall l, ws = Some l -> length l = length Wxs.
Hypothesis Hds : forall l, dWxs = Some l -> length l = length Wxs.
Let item i := ssqueeze ord o (nth i Wxs dW) (nth_opt ws dw i) (nth_opt dWxs dW i).

Lemma batch_item Ts f : ssqueeze_batch ord o Wxs ws dWxs = Ok (Ts, f) ->
  length Ts = length Wxs /\ forall i dT, (i < length Wxs)%nat -> item i = Ok (nth i Ts dT, f).
Proof.
  unfold ssqueeze_batch. fold (args_bad_batch o ws dWxs).
  destruct (args_bad_batch o ws dWxs) eqn:Hbad; [discriminate|]. cbv zeta.
  fold (@opt_list (mat fval) (length Wxs) ws). fold (@opt_list (mat C) (length Wxs) dWxs).
  assert (HW : Wxs = [] \/ match Wxs with [] => 0%nat | W :: _ => ncols W end = N).
  { clear Hbad. destruct Wxs as [|W0 Wr]; [left; reflexivity|right]. apply (HN 0%nat). cbn; lia. }
  destruct HW as [HW|HW].
  { rewrite HW. destruct (ssq_freqs_of o 0) as [[[k v] ls]|]; [|discriminate]. cbn. intros E. injection E as <- <-.
    split; [reflexivity|]. cbn; intros; lia. }
  rewrite HW. destruct (ssq_freqs_of o N) as [[[k v] ls]|] eqn:Ev; [|discriminate]. cbn [bind].
  destruct (zip_squeeze _ _ _ _ _ _ _ _) as [Ts'|] eqn:Ez; [|discriminate]. cbn [bind].
  intros E. injection E as <- <-.
  apply zip_squeeze_nth in Ez; [|rewrite map_length; apply opt_list_length; exact Hws|rewrite map_length; apply opt_list_length; exact Hds].
  rewrite map_length in Ez. destruct Ez as [HL Hn]. split; [exact HL|].
  intros i dT Hi. unfold item, ssqueeze. fold (args_bad o (nth_opt ws dw i) (nth_opt dWxs dW i)).
  assert (Hb : args_bad o (nth_opt ws dw i) (nth_opt dWxs dW i) = false).
  { unfold args_bad, args_bad_batch in *. unfold nth_opt. destruct ws as [l|].
    - destruct (has_negative (nth i l dw)) eqn:En; [|destruct dWxs, (o_gamma o); reflexivity].
      assert (Hx : existsb has_negative l = true).
      { apply existsb_exists. exists (nth i l dw). split; [|exact En]. apply nth_In. rewrite (Hws l eq_refl). exact Hi. }
      rewrite Hx in Hbad. destruct dWxs, (o_gamma o); discriminate.
    - destruct dWxs, (o_gamma o); try discriminate; reflexivity. }
  rewrite Hb. rewrite (HN i Hi), Ev. cbn [bind].
  specialize (Hn i (squeeze_input (o_sq o) (length Wxs) dW) dT Hi). rewrite map_nth in Hn.
  rewrite (nth_opt_list dw) in Hn by assumption. rewrite (nth_opt_list dW) in Hn by assumption.
  assert (Hin : squeeze_input (o_sq o) (length Wxs) (nth i Wxs dW) = squeeze_input (o_sq o) (nrows (nth i Wxs dW)) (nth i Wxs dW))
    by (destruct (o_sq o); cbn in *; auto; contradiction).
  rewrite <- Hin, Hn. reflexivity.
Qed.

Lemma batch_ok : Wxs <> [] -> (forall i, (i < length Wxs)%nat -> exists r, item i = Ok r) ->
  exists r, ssqueeze_batch ord o Wxs ws dWxs = Ok r.
Proof.
  intros Hne H. unfold ssqueeze_batch. fold (args_bad_batch o ws dWxs). cbv zeta.
  fold (@opt_list (mat fval) (length Wxs) ws). fold (@opt_list (mat C) (length Wxs) dWxs).
  assert (Hpos : (0 < length Wxs)%nat) by (destruct Wxs; [congruence|cbn; lia]).
  assert (HI : forall i, (i < length Wxs)%nat -> args_bad o (nth_opt ws dw i) (nth_opt dWxs dW i) = false /\
    exists k v ls T, ssq_freqs_of o N = Ok (k, v, ls) /\
      ssqueeze_one ord o k v ls (squeeze_input (o_sq o) (length Wxs) (nth i Wxs dW)) (nth_opt ws dw i) (nth_opt dWxs dW i) = Ok T).
  { intros i Hi. destruct (H i Hi) as [[T f] E]. split.
    - unfold item, ssqueeze in E. fold (args_bad o (nth_opt ws dw i) (nth_opt dWxs dW i)) in E.
      destruct (args_bad _ _ _); [discriminate|reflexivity].
    - unfold item in E. apply ssqueeze_inv in E. destruct E as (k & v & ls & Ev & _ & E1).
      rewrite (HN i Hi) in Ev. exists k, v, ls, T. split; [exact Ev|].
      replace (squeeze_input (o_sq o) (length Wxs) (nth i Wxs dW)) with (squeeze_input (o_sq o) (nrows (nth i Wxs dW)) (nth i Wxs dW))
        by (destruct (o_sq o); cbn in *; auto; contradiction). exact E1. }
  destruct (HI 0%nat Hpos) as (_ & k & v & ls & _ & Ev & _).
  assert (Hbad : args_bad_batch o ws dWxs = false).
  { destruct (HI 0%nat Hpos) as [Hb _]. unfold args_bad, args_bad_batch, nth_opt in *.
    destruct ws as [l|]; [|destruct dWxs, (o_gamma o); try discriminate; reflexivity].
    assert (Hx : existsb has_negative l = false).
    { apply existsb_false. intros w Hw. apply (In_nth _ _ dw) in Hw. destruct Hw as (i & Hi & <-).
      rewrite (Hws l eq_refl) in Hi. destruct (HI i Hi) as [Hb' _]. destruct dWxs, (o_gamma o); exact Hb'. }
    rewrite Hx. destruct dWxs, (o_gamma o); reflexivity. }
  rewrite Hbad.
  replace (match Wxs with [] => 0%nat | W :: _ => ncols W end) with N.
  2:{ specialize (HN 0%nat Hpos). destruct Wxs; [congruence|]. cbn in HN. auto. }
  rewrite Ev. cbn [bind].
  destruct (zip_squeeze_ok ord o k v ls (map (squeeze_input (o_sq o) (length Wxs)) Wxs)
     (opt_list (length Wxs) ws) (opt_list (length Wxs) dWxs)) as [Ts ETs].
  - rewrite map_length. apply opt_list_length; exact Hws.
  - rewrite map_length. apply opt_list_length; exact Hds.
  - intros i dW' Hi. rewrite map_length in Hi.
    rewrite (nth_indep _ dW' (squeeze_input (o_sq o) (length Wxs) dW)) by (rewrite map_length; exact Hi).
    rewrite map_nth. rewrite (nth_opt_list dw), (nth_opt_list dW) by assumption.
    destruct (HI i Hi) as (_ & k' & v' & ls' & T & Ev' & E1). rewrite Ev in Ev'. injection Ev' as <- <- <-.
    exists T. exact E1.
  - rewrite ETs. cbn. eexists; reflexivity.
Qed.
End Batch.
