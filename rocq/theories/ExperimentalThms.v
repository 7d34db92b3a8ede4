From Coq Require Import Reals Lra ZifyBool ZifyNat.
From Verif Require Import Py Round Parallel Cplx CplxProofs Padding PaddingProofs Buffer Freqs Stft StftProofs Squeeze SqueezeProofs
  Scales Ssqueeze SsqueezeProofs Cwt CwtProofs CwtThms CwtThms2 SsqCwt DiffProofs SsqCwtProofs SsqCwtInv Experimental.
Local Open Scope R_scope.

(** ** against [ssq_cwt] *)
(** the shapes of [cwt]'s two results agree *)
Lemma cwt_same_shape py inst f a x s W sc dW s' : cwt py inst f a x s = (Ok (W, sc, Some dW), s') ->
  nrows dW = nrows W /\ ncols dW = ncols W.
Proof.
  intros H. destruct (cwt_ok_inv _ _ _ _ _ _ _ _ H) as ((fs & xp & n1 & scales & P) & U1 & U2).
  rewrite (cwt_run _ _ _ _ _ _ _ _ _ _ P U1 U2) in H. destruct (a_deriv a); [|discriminate].
  injection H as <- _ <- _. unfold finish, draw, raw.
  destruct (negb (a_rpadded a) && _), (a_l1 a), (a_vec a); cbn [mcols scale_rows nrows ncols]; auto.
Qed.
Lemma cwt_rate py inst f a x s r s' : cwt py inst f a x s = (Ok r, s') ->
  exists fs, process_fs_and_t (Cwt.a_fs a) (a_t a) (length x) = Ok fs.
Proof.
  intros H. destruct (cwt_ok_inv _ _ _ _ _ _ _ _ H) as ((fs & xp & n1 & scales & P) & U1 & U2).
  exists fs. exact (proj1 P).
Qed.

(** [dWx] does not matter once [w] is there *)
Lemma ssqueeze_w ord o W w d1 d2 : ssqueeze ord o W (Some w) d1 = ssqueeze ord o W (Some w) d2.
Proof. reflexivity. Qed.
Lemma freqs_default tr sc f64s f64v fs sq mr g fl S k N : process_scales_arr f64s sc = Ok k ->
  ssq_freqs_of (SO TCwt FNone (Some sc) f64s f64v fs sq mr g fl S) N =
  ssq_freqs_of (SO tr (FKind (skind_of k)) (Some sc) f64s f64v fs sq mr g fl S) N \/ tr = TStft.
Proof. intros E. destruct tr; [left|right; reflexivity]. unfold ssq_freqs_of. cbn [o_tr o_scales o_f64s o_freqs]. rewrite E. reflexivity. Qed.
Lemma ssqueeze_default ord sc f64s f64v fs sq mr g fl S k W w d : process_scales_arr f64s sc = Ok k ->
  ssqueeze ord (SO TCwt FNone (Some sc) f64s f64v fs sq mr g fl S) W w d =
  ssqueeze ord (SO TCwt (FKind (skind_of k)) (Some sc) f64s f64v fs sq mr g fl S) W w d.
Proof.
  intros E. unfold ssqueeze. destruct (freqs_default TCwt sc f64s f64v fs sq mr g fl S k (ncols W) E) as [->|]; [|discriminate].
  reflexivity.
Qed.

Lemma px_transform_cwt a W dW : x_tr a = TCwt -> x_rpadded a = false \/ x_N a <> None -> nrows dW = nrows W -> ncols dW = ncols W ->
  x_get_w a = true -> forall d, x_diff a = Some d -> d <> DNumeric ->
  px_transform a None W (Some dW) =
  do w <- match d with DTrig => Ok (phase_cwt (px_gamma a) W dW) | _ => phase_phase (px_gamma a) W end;
  Ok (Some w, W, dW, None, px_gamma a).
Proof.
  intros Ht Hr H1 H2 Hw d Hd Hn. unfold px_transform, px_cwt. rewrite Ht, Hw, Hd.
  assert (G : x_rpadded a && match x_N a with None => true | _ => false end = false).
  { destruct Hr as [->|Hr]; [reflexivity|]. destruct (x_N a); [apply andb_false_r|congruence]. }
  rewrite G. assert (exists n, match x_N a with None => if x_rpadded a then None else Some (Z.of_nat (ncols W)) | Some z => Some z end = Some n) as (n & ->).
  { destruct (x_N a); [eauto|]. destruct (x_rpadded a); [|eauto]. destruct Hr; [discriminate|congruence]. }
  cbn [bind]. destruct d; try congruence.
  - replace ((nrows dW <? nrows W)%nat || (ncols dW <? ncols W)%nat) with false by lia. reflexivity.
  - destruct (phase_phase _ _); reflexivity.
Qed.
Lemma px_transform_plain a W dW : x_tr a = TCwt -> x_rpadded a = false \/ x_N a <> None ->
  x_get_w a = false -> px_transform a None W (Some dW) = Ok (None, W, dW, None, px_gamma a).
Proof.
  intros Ht Hr Hw. unfold px_transform, px_cwt. rewrite Ht, Hw.
  assert (G : x_rpadded a && match x_N a with None => true | _ => false end = false).
  { destruct Hr as [->|Hr]; [reflexivity|]. destruct (x_N a); [apply andb_false_r|congruence]. }
  rewrite G. assert (exists n, match x_N a with None => if x_rpadded a then None else Some (Z.of_nat (ncols W)) | Some z => Some z end = Some n) as (n & ->).
  { destruct (x_N a); [eauto|]. destruct (x_rpadded a); [|eauto]. destruct Hr; [discriminate|congruence]. }
  reflexivity.
Qed.

Lemma rate_again fs t N fs' : process_fs_and_t (Some fs) t N = Ok fs' -> t = None -> fs' = fs /\ 0 < fs.
Proof. intros E ->. cbn in E. destruct (Rle_dec fs 0); [discriminate|]. injection E as <-. lra. Qed.

Theorem like_ssq_cwt ord py f fam q x s r s' fs sc kind : q_order q = None -> q_diff q <> DNumeric ->
  ssq_cwt ord py f fam q x s = (Ok r, s') ->
  process_fs_and_t (q_fs q) (q_t q) (length x) = Ok fs ->
  ssq_scales (q_f64s q) (q_scales q) (q_kind q) (ssq_nv q) (length x) = Ok (sc, kind) ->
  forall Sfs pk rp pt N n1 k gd, rp = false \/ N <> None ->
  phase_ssqueeze ord (PX TCwt (ssq_freqs q kind) (Some sc) Sfs fs None (q_sq q) (Some (q_mr q)) pk (q_gamma q)
      (q_flip q) rp pt N n1 (Some (q_diff q)) k (q_get_w q) gd (q_f64 q) (q_f64 q) (q_f64v q))
    (r_Wx r) (Some (r_dWx r)) =
  Ok (PXO (r_Tx r) (r_Wx r) (r_freqs r) (Some sc) None (r_w r)
        (if q_get_w q && negb gd then None else Some (r_dWx r))).
Proof.
  intros Ho Hd E Hfs Hsc Sfs pk rp pt N n1 k gd Hr.
  destruct (ssq_cwt_inv _ _ _ _ _ _ _ _ _ Ho E) as (k' & fs' & sc' & kind' & W & dW & Ek & Ef & Es & Ec & Eq).
  rewrite Hfs in Ef. injection Ef as <-. rewrite Hsc in Es. injection Es as <- <-.
  destruct (cwt_same_shape _ _ _ _ _ _ _ _ _ _ Ec) as (S1 & S2).
  destruct (cwt_rate _ _ _ _ _ _ _ _ Ec) as (fs2 & R2). cbn [inner Cwt.a_fs a_t] in R2.
  destruct (rate_again _ _ _ _ R2 eq_refl) as (_ & Hpos).
  assert (En : numeric q = false) by (unfold numeric; destruct (q_diff q); auto; congruence).
  destruct (step_inv _ _ _ _ _ _ _ _ _ _ _ Ek Eq) as (w & Tx & Eq1 & T1 & T2 & T3 & T4 & T5 & Tw).
  assert (Cr : forall A (m : mat A), crop (q_diff q) m = m) by (intros; destruct (q_diff q); try reflexivity; congruence).
  unfold squeezed in Eq1, Tw. rewrite En in Eq1, Tw. rewrite Cr in T1, T2. rewrite T1, T2, T5.
  assert (Ew : r_w r = w) by (rewrite T4; destruct w; cbn [opt_map]; [rewrite Cr|]; reflexivity). rewrite Ew.
  set (a := PX _ _ _ _ _ _ _ _ _ _ _ _ _ _ _ _ _ _ _ _ _ _).
  assert (Fs : process_fs_and_t (Some fs) None (ncols W) = Ok fs).
  { cbn. destruct (Rle_dec fs 0); [lra|reflexivity]. }
  unfold phase_ssqueeze. destruct (q_get_w q) eqn:Gw.
  - destruct Tw as (w' & -> & Ep).
    rewrite (px_transform_cwt a W dW eq_refl Hr S1 S2 eq_refl (q_diff q) eq_refl Hd).
    assert (Eg : px_gamma a = ssq_gamma q) by reflexivity. rewrite Eg.
    assert (Ew' : match q_diff q with DTrig => Ok (phase_cwt (ssq_gamma q) W dW) | _ => phase_phase (ssq_gamma q) W end = Ok w').
    { unfold phase_transform in Ep. destruct (q_diff q); [congruence| |congruence].
      destruct (phase_phase _ _); [|discriminate]. cbn [bind] in Ep. congruence. }
    rewrite Ew'. cbn [bind]. cbn [a x_fs x_t x_tr x_freqs x_scales x_f64s x_f64v x_sq x_mr x_flip x_get_dWx]. rewrite Fs. cbn [bind].
    rewrite (ssqueeze_w _ _ _ _ _ None), Eq1. cbn [bind]. destruct gd; reflexivity.
  - destruct Tw as (-> & _). rewrite (px_transform_plain a W dW eq_refl Hr eq_refl).
    assert (Eg : px_gamma a = ssq_gamma q) by reflexivity. rewrite Eg.
    cbn [bind]. cbn [a x_fs x_t x_tr x_freqs x_scales x_f64s x_f64v x_sq x_mr x_flip x_get_dWx]. rewrite Fs. cbn [bind].
    replace ((nrows dW <? nrows W)%nat || (ncols dW <? ncols W)%nat) with false by lia. cbn [bind].
    rewrite Eq1. cbn [bind]. reflexivity.
Qed.

(** the default [ssq_freqs] *)
Theorem like_default ord py f fam q x s r s' fs sc kind : q_order q = None -> q_diff q <> DNumeric -> q_freqs q = FNone ->
  (exists l, q_scales q = ScArr l) -> q_f64s q = q_f64 q ->
  ssq_cwt ord py f fam q x s = (Ok r, s') ->
  process_fs_and_t (q_fs q) (q_t q) (length x) = Ok fs ->
  ssq_scales (q_f64s q) (q_scales q) (q_kind q) (ssq_nv q) (length x) = Ok (sc, kind) ->
  forall Sfs pk rp pt N n1 k gd, rp = false \/ N <> None ->
  phase_ssqueeze ord (PX TCwt FNone (Some sc) Sfs fs None (q_sq q) (Some (q_mr q)) pk (q_gamma q)
      (q_flip q) rp pt N n1 (Some (q_diff q)) k (q_get_w q) gd (q_f64 q) (q_f64 q) (q_f64v q))
    (r_Wx r) (Some (r_dWx r)) =
  Ok (PXO (r_Tx r) (r_Wx r) (r_freqs r) (Some sc) None (r_w r)
        (if q_get_w q && negb gd then None else Some (r_dWx r))).
Proof.
  intros Ho Hd Hf (l & Hl) H64 E Hfs Hsc Sfs pk rp pt N n1 k gd Hr.
  rewrite <- (like_ssq_cwt ord py f fam q x s r s' fs sc kind Ho Hd E Hfs Hsc Sfs pk rp pt N n1 k gd Hr).
  unfold ssq_freqs. rewrite Hf. rewrite Hl in Hsc. cbn [ssq_scales] in Hsc.
  assert (P : exists kk, process_scales_arr (q_f64 q) sc = Ok kk /\ kind = skind_of kk).
  { unfold process_scales_nv in Hsc. rewrite H64 in Hsc. unfold process_scales_arr.
    destruct (infer_scaletype (q_f64 q) l) as [kk|] eqn:EI; [|discriminate]. cbn [bind] in Hsc.
    destruct kk as [n| |v], (ssq_nv q) as [m|]; cbn [bind] in Hsc.
    1: destruct (negb (n =? m)%Z); [discriminate|].
    1,2: destruct (n <=? 0)%Z eqn:EN; [discriminate|].
    3: destruct (m <=? 0)%Z; [discriminate|].
    all: cbn [bind] in Hsc; injection Hsc as <- <-; rewrite EI; cbn [bind]; try rewrite EN; eauto. }
  destruct P as (kk & P & ->).
  unfold phase_ssqueeze.
  assert (T : forall fr1 fr2, px_transform (PX TCwt fr1 (Some sc) Sfs fs None (q_sq q) (Some (q_mr q)) pk (q_gamma q)
      (q_flip q) rp pt N n1 (Some (q_diff q)) k (q_get_w q) gd (q_f64 q) (q_f64 q) (q_f64v q)) None (r_Wx r) (Some (r_dWx r)) =
    px_transform (PX TCwt fr2 (Some sc) Sfs fs None (q_sq q) (Some (q_mr q)) pk (q_gamma q)
      (q_flip q) rp pt N n1 (Some (q_diff q)) k (q_get_w q) gd (q_f64 q) (q_f64 q) (q_f64v q)) None (r_Wx r) (Some (r_dWx r)))
    by reflexivity.
  rewrite (T FNone (FKind (skind_of kk))). destruct (px_transform _ _ _ _) as [[[[[w W] dW] S0] g]|]; [|reflexivity].
  cbn [bind]. cbn [x_fs x_t x_tr x_freqs x_scales x_f64s x_f64v x_sq x_mr x_flip x_get_dWx].
  clear Hfs E. destruct (process_fs_and_t (Some fs) None (ncols W)) as [fs0|]; [|reflexivity]. cbn [bind].
  match goal with |- (do _ <- ?m; _) = _ => destruct m; [|reflexivity] end. cbn [bind].
  rewrite (ssqueeze_default _ sc (q_f64 q) _ _ _ _ _ _ _ kk _ _ _ P). reflexivity.
Qed.

(** 'numeric': [cwt]'s padded result goes in; [phase_ssqueeze] leaves the margins of four *)
Theorem like_numeric ord q fs k N W dW sc f64s kind r : q_diff q = DNumeric -> check_diff q = Ok k -> 0 < fs ->
  squeeze_step ord q fs k N W dW sc f64s kind = Ok r ->
  forall Sfs pk pt gd, exists p,
  phase_ssqueeze ord (PX TCwt (ssq_freqs q kind) (Some sc) Sfs fs None (q_sq q) (Some (q_mr q)) pk (q_gamma q)
      (q_flip q) true pt (Some (Z.of_nat N)) None (Some DNumeric) (Some k) true gd (q_f64 q) f64s (q_f64v q))
    W (Some dW) = Ok p /\
  r_Tx r = mcols (p_Tx p) 4 (-4) /\ r_w r = opt_map (fun w => mcols w 4 (-4)) (p_w p) /\ r_freqs r = p_freqs p /\
  p_Wx p = let '(_, n1, _) := p2up (Z.of_nat N) in mcols W (n1 - 4) (n1 + Z.of_nat N + 4).
Proof.
  intros Hd Hk Hfs E Sfs pk pt gd.
  destruct (step_inv _ _ _ _ _ _ _ _ _ _ _ Hk E) as (w & Tx & Eq1 & T1 & T2 & T3 & T4 & T5 & Tw).
  assert (En : numeric q = true) by (unfold numeric; rewrite Hd; reflexivity).
  rewrite En in Tw. destruct (q_get_w q) eqn:Gw; [|destruct Tw; discriminate].
  destruct Tw as (w' & -> & Ep). unfold squeezed in *. rewrite En in *.
  rewrite Hd in *. cbn [phase_transform] in Ep. destruct (p2up (Z.of_nat N)) as [[u n1] n2] eqn:Eu.
  destruct (phase_cwt_num _ _ _ _ _) as [w''|] eqn:Ew; [|discriminate]. cbn [bind] in Ep. injection Ep as ->.
  eexists. unfold phase_ssqueeze, px_transform, px_cwt.
  cbn [x_tr x_rpadded x_N andb x_n1 x_get_w x_diff x_difforder x_f64 x_fs].
  rewrite Eu. cbn [bind]. match goal with |- context [px_gamma ?a] => change (px_gamma a) with (ssq_gamma q) end. rewrite Ew. cbn [bind].
  cbn [x_fs x_t x_tr x_freqs x_scales x_f64s x_f64v x_sq x_mr x_flip x_get_dWx].
  cbn [process_fs_and_t]. destruct (Rle_dec fs 0) as [Hle|_]; [exfalso; exact (Rlt_not_le _ _ Hfs Hle)|]. cbn [bind].
  rewrite (ssqueeze_w _ _ _ _ _ None), Eq1. cbn [bind]. split; [reflexivity|].
  cbn [p_Tx p_w p_freqs p_Wx]. split; [exact T1|]. split; [exact T4|]. split; reflexivity.
Qed.

(** ** against [ssq_stft] *)
Lemma stft_same_shape x a W dW : stft x a = Ok (W, dW) -> nrows dW = nrows W /\ ncols dW = ncols W.
Proof.
  unfold stft. destruct (stft_n_fft a _); [|discriminate]. cbn [bind]. destruct (_ <=? 0)%Z; [discriminate|].
  destruct (get_window _ _ _); [|discriminate]. cbn [bind]. destruct (check_NOLA _ _ _); [|discriminate]. cbn [bind].
  destruct (padsignal _ _ _ _) as [[[[xp ?] ?] ?]|]; [|discriminate]. cbn [bind].
  destruct (buffer _ _ _ _ _); [|discriminate]. cbn [bind]. destruct (bcast_ok _ _); [|discriminate].
  intros E. injection E as <- <-. split; reflexivity.
Qed.
Theorem like_ssq_stft ord x a fs t s Tx Sx v Sfs W dW fs' : 0 < fs' ->
  ssq_stft ord x a fs t s = Ok (Tx, Sx, v, Sfs) -> process_fs_and_t fs t (length x) = Ok fs' ->
  stft x (SA fs' (a_window a) (a_n_fft a) (a_win_len a) (a_hop a) (a_modulated a) (a_padtype a) (a_f32 a)) = Ok (W, dW) ->
  forall uSfs mr pk n1 d k gd, exists p,
  phase_ssqueeze ord (PX TStft (FArray (match s_freqs s with Some v => v | None => Sfs end)) None uSfs fs' None (s_sq s) mr pk
      (s_gamma s) (s_flip s) false None None n1 d k (s_get_w s) gd (negb (a_f32 a)) true (s_f64v s)) W (Some dW) = Ok p /\
  p_Tx p = Tx /\ p_Wx p = Sx /\ p_freqs p = v /\ p_Sfs p = Some Sfs.
Proof.
  intros Hpos E Ef Es uSfs mr pk n1 d k gd. unfold ssq_stft in E. rewrite Ef in E. cbn [bind] in E.
  destruct (match s_freqs s with Some v => _ | None => Ok tt end) as [u|]; [|discriminate]. cbn [bind] in E.
  rewrite Es in E. cbn [bind] in E. destruct (stft_same_shape _ _ _ _ Es) as (S1 & S2).
  set (g := match s_gamma s with Some g => g | None => _ end) in E.
  destruct (ssqueeze _ _ _ _ _) as [[T f]|] eqn:Eq; [|discriminate]. cbn [bind] in E. injection E as <- <- <- <-.
  destruct (s_get_w s).
  - eexists. unfold phase_ssqueeze, px_transform, px_stft.
  cbn [x_tr x_rpadded x_N andb x_n1 x_get_w x_diff x_difforder x_f64 x_fs bind].
  match goal with |- context [px_gamma ?b] => change (px_gamma b) with (match s_gamma s with Some g => g | None => 10 * (if negb (a_f32 a) then EPS64 else EPS32) end) end.
  assert (Eg : match s_gamma s with Some g => g | None => 10 * (if negb (a_f32 a) then EPS64 else EPS32) end = g).
  { unfold g. destruct (s_gamma s), (a_f32 a); reflexivity. }
  rewrite Eg. cbn [x_fs x_t x_tr x_freqs x_scales x_f64s x_f64v x_sq x_mr x_flip x_get_dWx].
  cbn [process_fs_and_t]. destruct (Rle_dec fs' 0) as [Hle|_]; [exfalso; exact (Rlt_not_le _ _ Hpos Hle)|]. cbn [bind].
    cbn [bind]. rewrite (ssqueeze_w _ _ _ _ _ None).
    match goal with |- context [ssqueeze ord ?o W ?w None] => change (ssqueeze ord o W w None) with
      (ssqueeze ord (SO TStft (FArray (match s_freqs s with Some v => v | None => make_Sfs (nrows W) fs' end)) None true (s_f64v s) 1 (s_sq s) MRMaximal (Some g)
                           (s_flip s) (Some (make_Sfs (nrows W) fs'))) W w None) end.
    rewrite Eq. cbn [bind]. split; [reflexivity|]. repeat (split; [reflexivity|]). reflexivity.
  - eexists. unfold phase_ssqueeze, px_transform, px_stft.
  cbn [x_tr x_rpadded x_N andb x_n1 x_get_w x_diff x_difforder x_f64 x_fs bind].
  match goal with |- context [px_gamma ?b] => change (px_gamma b) with (match s_gamma s with Some g => g | None => 10 * (if negb (a_f32 a) then EPS64 else EPS32) end) end.
  assert (Eg : match s_gamma s with Some g => g | None => 10 * (if negb (a_f32 a) then EPS64 else EPS32) end = g).
  { unfold g. destruct (s_gamma s), (a_f32 a); reflexivity. }
  rewrite Eg. cbn [x_fs x_t x_tr x_freqs x_scales x_f64s x_f64v x_sq x_mr x_flip x_get_dWx].
  cbn [process_fs_and_t]. destruct (Rle_dec fs' 0) as [Hle|_]; [exfalso; exact (Rlt_not_le _ _ Hpos Hle)|]. cbn [bind].
    replace ((nrows dW <? nrows W)%nat || (ncols dW <? ncols W)%nat) with false by lia. cbn [bind].
    match goal with |- context [ssqueeze ord ?o W ?w ?d] => change (ssqueeze ord o W w d) with
      (ssqueeze ord (SO TStft (FArray (match s_freqs s with Some v => v | None => make_Sfs (nrows W) fs' end)) None true (s_f64v s) 1 (s_sq s) MRMaximal (Some g)
                           (s_flip s) (Some (make_Sfs (nrows W) fs'))) W w d) end.
    rewrite Eq. cbn [bind]. split; [reflexivity|]. repeat (split; [reflexivity|]). reflexivity.
Qed.

(** ** what the documentation promises and the code does not do *)
(** [get_w] with the default [difftype=None] *)
Theorem no_difftype ord a W dW : x_tr a = TCwt -> x_rpadded a = false \/ x_N a <> None ->
  x_get_w a = true -> x_diff a = None -> phase_ssqueeze ord a W (Some dW) = Err UnboundLocalError.
Proof.
  intros Ht Hr Hw Hd. unfold phase_ssqueeze, px_transform, px_cwt. rewrite Ht, Hw, Hd.
  assert (G : x_rpadded a && match x_N a with None => true | _ => false end = false).
  { destruct Hr as [->|Hr]; [reflexivity|]. destruct (x_N a); [apply andb_false_r|congruence]. }
  rewrite G. assert (exists n, match x_N a with None => if x_rpadded a then None else Some (Z.of_nat (ncols W)) | Some z => Some z end = Some n) as (n & ->).
  { destruct (x_N a); [eauto|]. destruct (x_rpadded a); [|eauto]. destruct Hr; [discriminate|congruence]. }
  reflexivity.
Qed.
(** 'numeric' with the default [difforder=None] *)
Theorem no_difforder ord a W dW : x_tr a = TCwt -> x_rpadded a = false \/ x_N a <> None ->
  x_get_w a = true -> x_diff a = Some DNumeric -> x_difforder a = None ->
  phase_ssqueeze ord a W (Some dW) = Err ValueError.
Proof.
  intros Ht Hr Hw Hd Ho. unfold phase_ssqueeze, px_transform, px_cwt. rewrite Ht, Hw, Hd, Ho.
  assert (G : x_rpadded a && match x_N a with None => true | _ => false end = false).
  { destruct Hr as [->|Hr]; [reflexivity|]. destruct (x_N a); [apply andb_false_r|congruence]. }
  rewrite G. assert (exists n, match x_N a with None => if x_rpadded a then None else Some (Z.of_nat (ncols W)) | Some z => Some z end = Some n) as (n & ->).
  { destruct (x_N a); [eauto|]. destruct (x_rpadded a); [|eauto]. destruct Hr; [discriminate|congruence]. }
  reflexivity.
Qed.
(** STFT without [ssq_freqs] always raises *)
Theorem stft_no_freqs ord a W dW p : x_tr a = TStft -> x_freqs a = FNone ->
  phase_ssqueeze ord a W dW <> Ok p.
Proof.
  intros Ht Hf. unfold phase_ssqueeze, px_transform. rewrite Ht. destruct dW as [dW|]; [|discriminate].
  destruct (x_rpadded a && _); [discriminate|]. unfold px_stft. cbn [bind].
  destruct (process_fs_and_t _ _ _) as [fs|]; [|discriminate]. cbn [bind].
  match goal with |- (do _ <- ?m; _) <> _ => destruct m; [|discriminate] end. cbn [bind].
  unfold ssqueeze. rewrite Hf. destruct (match _ with Some _ => _ | None => _ end); [discriminate|].
  unfold ssq_freqs_of. cbn [o_tr o_freqs o_scales]. destruct (x_scales a); discriminate.
Qed.
Definition with_Sfs (a : px_args) (s : option (list R)) : px_args :=
  PX (x_tr a) (x_freqs a) (x_scales a) s (x_fs a) (x_t a) (x_sq a) (x_mr a) (x_peak a) (x_gamma a) (x_flip a)
     (x_rpadded a) (x_pad a) (x_N a) (x_n1 a) (x_diff a) (x_difforder a) (x_get_w a) (x_get_dWx a) (x_f64 a) (x_f64s a) (x_f64v a).
Theorem Sfs_ignored ord a s W dW : phase_ssqueeze ord (with_Sfs a s) W dW = phase_ssqueeze ord a W dW.
Proof. reflexivity. Qed.
(** [t] does not enter the frequencies of the STFT's rows: they are those of [fs] *)
Theorem t_ignored ord a W dW p : x_tr a = TStft -> phase_ssqueeze ord a W dW = Ok p ->
  p_Sfs p = Some (linspace 0 (x_fs a / 2) (nrows W)).
Proof.
  intros Ht. unfold phase_ssqueeze, px_transform. rewrite Ht. destruct dW as [dW|]; [|discriminate].
  destruct (x_rpadded a && _); [discriminate|]. unfold px_stft. cbn [bind].
  destruct (process_fs_and_t _ _ _) as [fs|]; [|discriminate]. cbn [bind].
  match goal with |- (do _ <- ?m; _) = _ -> _ => destruct m; [|discriminate] end. cbn [bind].
  destruct (ssqueeze _ _ _ _ _) as [[T f]|]; [|discriminate]. cbn [bind]. intros E. injection E as <-. reflexivity.
Qed.
(** [rpadded=True] leaves [Wx] padded *)
Theorem rpadded_kept ord a W dW p : x_tr a = TCwt -> x_diff a <> Some DNumeric \/ x_get_w a = false ->
  phase_ssqueeze ord a W dW = Ok p -> p_Wx p = W.
Proof.
  intros Ht Hn. unfold phase_ssqueeze, px_transform. rewrite Ht. destruct (x_rpadded a && _); [discriminate|].
  destruct (px_cwt a (px_gamma a) W dW) as [[[w W'] d']|] eqn:Ec; [|discriminate]. cbn [bind].
  assert (W' = W) as ->.
  { unfold px_cwt in Ec. destruct (match x_N a with Some _ => _ | None => _ end); [|discriminate].
    cbv zeta in Ec. match type of Ec with (do _ <- ?m; _) = _ => destruct m as [d|]; [|discriminate] end. cbn [bind] in Ec.
    destruct (x_get_w a); [|congruence]. destruct (x_diff a) as [[]|]; [| | |discriminate].
    - destruct (_ || _); congruence.
    - destruct (phase_phase _ _); cbn [bind] in Ec; congruence.
    - destruct Hn; congruence. }
  destruct (process_fs_and_t _ _ _) as [fs|]; [|discriminate]. cbn [bind].
  match goal with |- (do _ <- ?m; _) = _ -> _ => destruct m; [|discriminate] end. cbn [bind].
  destruct (ssqueeze _ _ _ _ _) as [[T f]|]; [|discriminate]. cbn [bind]. intros E. injection E as <-. reflexivity.
Qed.
(** and without [dWx] the derivative is unpadded: fewer columns than [Wx] *)
Theorem rpadded_shapes a W w W' dW N n1 S g : x_tr a = TCwt -> x_rpadded a = true -> x_pad a = None ->
  x_N a = Some N -> x_n1 a = Some n1 -> x_get_w a = false -> (0 <= n1)%Z -> (0 <= N)%Z -> (n1 + N < Z.of_nat (ncols W))%Z ->
  px_transform a None W None = Ok (w, W', dW, S, g) -> W' = W /\ Z.of_nat (ncols dW) = N /\ (ncols dW < ncols W)%nat.
Proof.
  intros Ht Hr Hp HN Hn1 Hw H1 H2 H3. unfold px_transform, px_cwt. rewrite Ht, Hr, Hp, HN, Hn1, Hw. cbn [andb].
  unfold trigdiff. cbn [bind orb]. intros E. injection E as _ <- <- _ _.
  unfold mcols, norm_bound. cbn [ncols]. split; [reflexivity|]. destruct (Z.ltb_spec n1 0), (Z.ltb_spec (n1 + N) 0); split; lia.
Qed.
(** [padtype] is used also when [rpadded=True], and [n1] then is not *)
Theorem rpadded_pads W fs p N n1 : trigdiff W fs (Some p) (Some true) (Some N) n1 = trigdiff W fs (Some p) (Some false) (Some N) None.
Proof. unfold trigdiff. cbn [orb]. destruct (pad_mat p W) as [[A k]|]; reflexivity. Qed.
(** without [padtype] an unpadded [Wx] is padded all the same, by reflection *)
Theorem always_pads W fs N n1 : trigdiff W fs None (Some false) N n1 = trigdiff W fs (Some PReflect) (Some false) N n1.
Proof. reflexivity. Qed.
