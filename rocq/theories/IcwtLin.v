(** [icwt], [issq_cwt] and [issq_stft] are linear in the transform they invert. *)
From Coq Require Import Reals Lra ZifyBool ZifyNat.
From Verif Require Import Py Padding Buffer PaddingProofs Cplx CplxProofs Freqs Stft Squeeze BinProofs Scales Ssqueeze ShiftProofs Cwt CwtProofs CwtThms CwtThms2 NormThms.
Local Open Scope R_scope.

(** [Z = a X + b Y], of the same shape *)
Definition mix (a b : R) (X Y Z : mat C) : Prop :=
  nrows Y = nrows X /\ ncols Y = ncols X /\ nrows Z = nrows X /\ ncols Z = ncols X /\
  forall i j, (i < nrows X)%nat -> (j < ncols X)%nat -> el Z i j = Cadd (Cmul (RtoC a) (el X i j)) (Cmul (RtoC b) (el Y i j)).

(** three results: the same error, or lists the third of which is the combination of the others *)
Definition cmb (a b : R) (p : R * R) : R := a * fst p + b * snd p.
Definition tri (a b : R) (r1 r2 r : res (list R)) : Prop :=
  (exists z, r1 = Ok (map fst z) /\ r2 = Ok (map snd z) /\ r = Ok (map (cmb a b) z)) \/
  (exists e, r1 = Err e /\ r2 = Err e /\ r = Err e).

Lemma tri_tab a b n g1 g2 g : (forall j, (j < n)%nat -> g j = a * g1 j + b * g2 j) -> tri a b (Ok (tab n g1)) (Ok (tab n g2)) (Ok (tab n g)).
Proof.
  intros H. left. exists (tab n (fun j => (g1 j, g2 j))). unfold tab. rewrite !map_map. cbn [fst snd].
  split; [reflexivity|]. split; [reflexivity|]. f_equal. apply map_ext_in. intros j Hj. apply in_seq in Hj. apply H. lia.
Qed.
Lemma tri_map a b c m1 m2 r1 r2 r : tri a b r1 r2 r ->
  tri a b (do x <- r1; Ok (map (fun y => y * c + m1) x)) (do x <- r2; Ok (map (fun y => y * c + m2) x))
    (do x <- r; Ok (map (fun y => y * c + (a * m1 + b * m2)) x)).
Proof.
  intros [(z & -> & -> & ->)|(e & -> & -> & ->)]; cbn [bind]; [|right; exists e; auto].
  left. exists (map (fun p => (fst p * c + m1, snd p * c + m2)) z). rewrite !map_map. cbn [fst snd].
  split; [reflexivity|]. split; [reflexivity|]. f_equal. apply map_ext. intros p. unfold cmb. cbn [fst snd]. ring.
Qed.
Lemma map_combine {A B X Y} (f : A -> X) (g : B -> Y) : forall (x : list A) (y : list B),
  combine (map f x) (map g y) = map (fun p => (f (fst p), g (snd p))) (combine x y).
Proof. induction x; destruct y; cbn; try reflexivity. f_equal. apply IHx. Qed.
Lemma ladd_map (h : R * R -> R) z z' : (forall p q, h (fst p + fst q, snd p + snd q) = h p + h q) ->
  ladd (map h z) (map h z') = if (length z =? length z')%nat then Ok (map h (map (fun p => (fst (fst p) + fst (snd p), snd (fst p) + snd (snd p))) (combine z z'))) else Err ValueError.
Proof.
  intros H. unfold ladd. rewrite !map_length. destruct (length z =? length z')%nat; [|reflexivity]. f_equal.
  rewrite map_combine, !map_map. apply map_ext. intros [p q]. cbn [fst snd]. rewrite H. reflexivity.
Qed.
Lemma tri_ladd a b r1 r2 r q1 q2 q : tri a b r1 r2 r -> tri a b q1 q2 q ->
  tri a b (do x <- r1; do y <- q1; ladd x y) (do x <- r2; do y <- q2; ladd x y) (do x <- r; do y <- q; ladd x y).
Proof.
  intros [(z & -> & -> & ->)|(e & -> & -> & ->)] [(z' & -> & -> & ->)|(e' & -> & -> & ->)]; cbn [bind]; try (right; eexists; repeat split; reflexivity).
  rewrite (ladd_map fst), (ladd_map snd), (ladd_map (cmb a b)) by (intros; unfold cmb; cbn [fst snd]; ring).
  destruct (length z =? length z')%nat; [left; eexists; repeat split; reflexivity|right; eexists; repeat split; reflexivity].
Qed.
Lemma tri_slice a b x1 x2 x lo hi : tri a b (Ok x1) (Ok x2) (Ok x) -> tri a b (Ok (pyslice x1 lo hi)) (Ok (pyslice x2 lo hi)) (Ok (pyslice x lo hi)).
Proof.
  intros [(z & E1 & E2 & E)|(e & E1 & _)]; [|discriminate]. injection E1 as ->. injection E2 as ->. injection E as ->.
  left. exists (pyslice z lo hi). rewrite !pyslice_map. auto.
Qed.

Lemma one_mix a b X Y Z sc log l1 : mix a b X Y Z -> tri a b (Ok (icwt_1int X sc log l1)) (Ok (icwt_1int Y sc log l1)) (Ok (icwt_1int Z sc log l1)).
Proof.
  intros (R1 & K1 & R2 & K2 & E). unfold icwt_1int. rewrite R1, K1, R2, K2. apply tri_tab. intros j Hj.
  rewrite <- !Rsum_scal, <- Rsum_plus. apply Rsum_ext. intros i Hi. rewrite E by assumption.
  unfold Cadd, Cmul, RtoC, Re, Rdiv. cbn [fst snd]. ring.
Qed.

(** padding of rows, through rows of pairs *)
Definition cmbC (a b : R) (p : C * C) : C := Cadd (Cmul (RtoC a) (fst p)) (Cmul (RtoC b) (snd p)).
Fixpoint pad_pairs (pt : padtype) (rows : list (list (C * C))) : res (list (list (C * C))) :=
  match rows with
  | [] => Ok []
  | r :: rs => do p <- padsignal (C0, C0) r pt None; do ps <- pad_pairs pt rs; let '(xp, _, _, _) := p in Ok (xp :: ps)
  end.
Lemma pad_pairs_map pt (h : C * C -> C) rows : h (C0, C0) = C0 ->
  pad_mat_rows pt (map (map h) rows) = match pad_pairs pt rows with Ok ps => Ok (map (map h) ps) | Err e => Err e end.
Proof.
  intros H0. induction rows as [|r rows IH]; [reflexivity|]. cbn [map pad_mat_rows pad_pairs].
  rewrite (padsignal_map h (C0, C0) C0) by exact H0. destruct (padsignal (C0, C0) r pt None) as [[[[xp u] n1] n2]|]; [|reflexivity].
  cbn [bind]. rewrite IH. destruct (pad_pairs pt rows); reflexivity.
Qed.
Lemma cmbC_0 a b : cmbC a b (C0, C0) = C0.
Proof. apply C_eq; unfold cmbC, Cadd, Cmul, RtoC, C0; cbn [fst snd]; ring. Qed.

Lemma nth_map_nil {A B} (h : A -> B) i (ps : list (list A)) : nth i (map (map h) ps) [] = map h (nth i ps []).
Proof. change (@nil B) with (map h []). apply map_nth. Qed.
Lemma pad_mix pt a b X Y Z : mix a b X Y Z ->
  (exists e, pad_mat pt X = Err e /\ pad_mat pt Y = Err e /\ pad_mat pt Z = Err e) \/
  (exists X' Y' Z' n1, pad_mat pt X = Ok (X', n1) /\ pad_mat pt Y = Ok (Y', n1) /\ pad_mat pt Z = Ok (Z', n1) /\ mix a b X' Y' Z').
Proof.
  intros (R1 & K1 & R2 & K2 & E). unfold pad_mat. rewrite R1, K1, R2, K2. destruct (ncols X =? 0)%nat; [left; eexists; repeat split; reflexivity|].
  set (P := tab (nrows X) (fun i => tab (ncols X) (fun j => (el X i j, el Y i j)))).
  assert (EX : tab (nrows X) (fun i => tab (ncols X) (el X i)) = map (map fst) P).
  { unfold P, tab. rewrite !map_map. apply map_ext. intros i. rewrite map_map. reflexivity. }
  assert (EY : tab (nrows X) (fun i => tab (ncols X) (el Y i)) = map (map snd) P).
  { unfold P, tab. rewrite !map_map. apply map_ext. intros i. rewrite map_map. reflexivity. }
  assert (EZ : tab (nrows X) (fun i => tab (ncols X) (el Z i)) = map (map (cmbC a b)) P).
  { unfold P, tab. rewrite !map_map. apply map_ext_in. intros i Hi. apply in_seq in Hi. rewrite map_map. apply map_ext_in. intros j Hj. apply in_seq in Hj. apply E; lia. }
  rewrite EX, EY, EZ, !pad_pairs_map by (reflexivity || apply cmbC_0).
  destruct (pad_pairs pt P) as [ps|e]; cbn [bind]; [|left; exists e; auto].
  destruct (p2up (Z.of_nat (ncols X))) as [[u n1] n2]. right. eexists _, _, _, n1. split; [reflexivity|]. split; [reflexivity|]. split; [reflexivity|].
  unfold mix. cbn [nrows ncols el]. repeat split. intros i j _ _.
  rewrite !nth_map_nil. change (nth j (map fst (nth i ps [])) C0) with (nth j (map fst (nth i ps [])) (fst (C0, C0))).
  change (nth j (map snd (nth i ps [])) C0) with (nth j (map snd (nth i ps [])) (snd (C0, C0))).
  rewrite <- (cmbC_0 a b) at 1. rewrite !map_nth. reflexivity.
Qed.

Lemma two_mix f a b X Y Z sc log l1 xl pt rp : mix a b X Y Z ->
  tri a b (icwt_2int f X sc log l1 xl pt rp) (icwt_2int f Y sc log l1 xl pt rp) (icwt_2int f Z sc log l1 xl pt rp).
Proof.
  intros H. unfold icwt_2int. destruct rp; [right; eexists; auto|].
  destruct (pad_mix pt _ _ _ _ _ H) as [(e & -> & -> & ->)|(X' & Y' & Z' & n1 & -> & -> & -> & R1 & K1 & R2 & K2 & E)]; cbn [bind]; [right; exists e; auto|].
  apply tri_slice. rewrite R1, K1, R2, K2. set (n := ncols X') in *. apply tri_tab. intros j Hj.
  rewrite <- !Rsum_scal, <- Rsum_plus. apply Rsum_ext. intros i Hi. assert (i < nrows X')%nat by lia.
  set (ps := fun k => Cmul (el (wavelet_call f [nth i sc 0] n true) 0 k) (RtoC (if Nat.even k then 1 else -1))).
  change (fun k => Cmul (dft n (el X' i) k) _) with (fun k => Cmul (dft n (el X' i) k) (ps k)).
  change (fun k => Cmul (dft n (el Y' i) k) _) with (fun k => Cmul (dft n (el Y' i) k) (ps k)).
  change (fun k => Cmul (dft n (el Z' i) k) _) with (fun k => Cmul (dft n (el Z' i) k) (ps k)).
  set (P := tab n (fun m => (idft n (fun k => Cmul (dft n (el X' i) k) (ps k)) m, idft n (fun k => Cmul (dft n (el Y' i) k) (ps k)) m))).
  assert (EX : tab n (idft n (fun k => Cmul (dft n (el X' i) k) (ps k))) = map fst P) by (unfold P, tab; rewrite map_map; reflexivity).
  assert (EY : tab n (idft n (fun k => Cmul (dft n (el Y' i) k) (ps k))) = map snd P) by (unfold P, tab; rewrite map_map; reflexivity).
  assert (EZ : tab n (idft n (fun k => Cmul (dft n (el Z' i) k) (ps k))) = map (cmbC a b) P).
  { unfold P, tab. rewrite map_map. apply map_ext_in. intros m Hm. unfold cmbC. cbn [fst snd].
    apply idft_lin. intros k Hk. rewrite (dft_ext n _ (fun q => Cadd (Cmul (RtoC a) (el X' i q)) (Cmul (RtoC b) (el Y' i q)))) by (intros q Hq; apply E; assumption).
    rewrite dft_add, !dft_scal. ring. }
  rewrite EX, EY, EZ, !ifftshift_map.
  change (nth j (map fst (ifftshift P)) C0) with (nth j (map fst (ifftshift P)) (fst (C0, C0))).
  change (nth j (map snd (ifftshift P)) C0) with (nth j (map snd (ifftshift P)) (snd (C0, C0))).
  rewrite <- (cmbC_0 a b) at 1. rewrite !map_nth. unfold cmbC, Cadd, Cmul, RtoC, Re, Rdiv. cbn [fst snd]. ring.
Qed.

Lemma mrows_mix a b X Y Z lo hi : mix a b X Y Z -> mix a b (mrows X lo hi) (mrows Y lo hi) (mrows Z lo hi).
Proof.
  intros (R1 & K1 & R2 & K2 & E). unfold mrows, mix. cbn [nrows ncols el]. rewrite R1, R2, K1, K2. repeat split. intros i j Hi Hj.
  apply E; [|exact Hj]. assert (norm_bound (Z.of_nat (nrows X)) hi <= Z.of_nat (nrows X))%Z by (unfold norm_bound; destruct (hi <? 0)%Z eqn:Eb; lia). lia.
Qed.

Lemma rec_mix fuel f Cpsi f64 one l1 xl pt rp a b m1 m2 : forall X Y Z sc nv, mix a b X Y Z ->
  tri a b (icwt_rec fuel f Cpsi X sc f64 nv one l1 xl m1 pt rp) (icwt_rec fuel f Cpsi Y sc f64 nv one l1 xl m2 pt rp)
    (icwt_rec fuel f Cpsi Z sc f64 nv one l1 xl (a * m1 + b * m2) pt rp).
Proof.
  assert (Err3 : forall e, tri a b (Err e) (Err e) (Err e)) by (intros e; right; exists e; auto).
  induction fuel as [|fuel IH]; intros X Y Z sc nv H; [apply Err3|]. cbn [icwt_rec].
  destruct (check_gmw f l1); [|apply Err3]. cbn [bind].
  destruct (process_scales_arr f64 sc) as [k|]; [|apply Err3]. cbn [bind].
  destruct (match k with KLog _ => _ | _ => _ end) as [[]|]; [|apply Err3]. cbn [bind].
  pose proof H as (R1 & _ & R2 & _). rewrite R1, R2. destruct (negb (length sc =? nrows X)%nat); [apply Err3|].
  destruct k as [n| |].
  - apply tri_map. destruct one; [apply one_mix; exact H|apply two_mix; exact H].
  - apply tri_map. destruct one; [apply one_mix; exact H|apply two_mix; exact H].
  - destruct (logscale_transition_idx f64 sc) as [[idx|]|]; [|apply Err3|apply Err3]. cbn [bind].
    apply tri_ladd; apply IH, mrows_mix, H.
Qed.

Theorem icwt_linear f Cpsi f64 one l1 xl pt rp a b m1 m2 X Y Z sc nv x : mix a b X Y Z ->
  icwt f Cpsi X sc f64 nv one l1 xl m1 pt rp = Ok x ->
  exists y, icwt f Cpsi Y sc f64 nv one l1 xl m2 pt rp = Ok y /\ length y = length x /\
    icwt f Cpsi Z sc f64 nv one l1 xl (a * m1 + b * m2) pt rp = Ok (lin a b x y).
Proof.
  intros H E. unfold icwt in *. pose proof H as (_ & K1 & _ & K2 & _). rewrite K1, K2.
  match type of E with icwt_rec ?n _ _ _ _ _ _ _ _ ?l _ _ _ = _ => pose proof (rec_mix n f Cpsi f64 one l1 l pt rp a b m1 m2 X Y Z sc nv H) as T end.
  destruct T as [(z & E1 & E2 & E3)|(e & E1 & _)]; [|rewrite E in E1; discriminate].
  rewrite E in E1. injection E1 as ->. exists (map snd z). split; [exact E2|]. split; [rewrite !map_length; reflexivity|].
  rewrite E3. unfold lin. rewrite map_combine. f_equal. rewrite map_map. cbn [fst snd].
  clear. induction z as [|p z IH]; [reflexivity|]. cbn. f_equal. exact IH.
Qed.
Theorem icwt_same_error f Cpsi f64 one l1 xl pt rp a b m1 m2 X Y Z sc nv e : mix a b X Y Z ->
  icwt f Cpsi X sc f64 nv one l1 xl m1 pt rp = Err e ->
  icwt f Cpsi Y sc f64 nv one l1 xl m2 pt rp = Err e /\ icwt f Cpsi Z sc f64 nv one l1 xl (a * m1 + b * m2) pt rp = Err e.
Proof.
  intros H E. unfold icwt in *. pose proof H as (_ & K1 & _ & K2 & _). rewrite K1, K2.
  match type of E with icwt_rec ?n _ _ _ _ _ _ _ _ ?l _ _ _ = _ => pose proof (rec_mix n f Cpsi f64 one l1 l pt rp a b m1 m2 X Y Z sc nv H) as T end.
  destruct T as [(z & E1 & _)|(e' & E1 & E2 & E3)]; rewrite E in E1; [discriminate|]. injection E1 as <-. auto.
Qed.

(** ** [issq_cwt], [issq_stft] *)
Definition lin_out (a b : R) (x y z : inv_out) : Prop :=
  match x, y, z with
  | One x, One y, One z => length y = length x /\ z = lin a b x y
  | Many xs, Many ys, Many zs => length ys = length xs /\ length zs = length xs /\
      forall k, (k < length xs)%nat -> length (nth k ys []) = length (nth k xs []) /\ nth k zs [] = lin a b (nth k xs []) (nth k ys [])
  | _, _, _ => False
  end.
Lemma lin_tab a b n g1 g2 : lin a b (tab n g1) (tab n g2) = tab n (fun j => a * g1 j + b * g2 j).
Proof.
  unfold lin, tab. rewrite map_combine, map_map. cbn [fst snd]. generalize (seq 0 n). intros l.
  induction l as [|q l IH]; [reflexivity|]. cbn. f_equal. exact IH.
Qed.
Lemma lin_scal a b c x y : lin a b (map (fun v => v * c) x) (map (fun v => v * c) y) = map (fun v => v * c) (lin a b x y).
Proof. unfold lin. rewrite map_combine, !map_map. apply map_ext. intros p. cbn [fst snd]. ring. Qed.
Lemma scale_lin a b c x y z : lin_out a b x y z -> lin_out a b (scale_out c x) (scale_out c y) (scale_out c z).
Proof.
  destruct x as [x|xs], y as [y|ys], z as [z|zs]; cbn; try tauto.
  - intros (L & ->). rewrite !map_length. split; [exact L|]. symmetry. apply lin_scal.
  - intros (L1 & L2 & H). rewrite !map_length. split; [exact L1|]. split; [exact L2|]. intros k Hk. destruct (H k Hk) as (A & B).
    rewrite !nth_map_nil, !map_length. split; [exact A|]. rewrite B. symmetry. apply lin_scal.
Qed.

Lemma sum_mix a b L (F G H : nat -> C) : (forall r, (r < L)%nat -> H r = Cadd (Cmul (RtoC a) (F r)) (Cmul (RtoC b) (G r))) ->
  Rsum L (fun r => Re (H r)) = a * Rsum L (fun r => Re (F r)) + b * Rsum L (fun r => Re (G r)).
Proof.
  intros E. rewrite <- !Rsum_scal, <- Rsum_plus. apply Rsum_ext. intros r Hr. rewrite E by exact Hr.
  unfold Cadd, Cmul, RtoC, Re. cbn [fst snd]. ring.
Qed.
Lemma mix_0 a b : C0 = Cadd (Cmul (RtoC a) C0) (Cmul (RtoC b) C0).
Proof. apply C_eq; unfold Cadd, Cmul, RtoC, C0; cbn [fst snd]; ring. Qed.

Lemma invert_mix a b X Y Z comp : mix a b X Y Z ->
  match invert X comp with
  | Ok x => exists y z, invert Y comp = Ok y /\ invert Z comp = Ok z /\ lin_out a b x y z
  | Err e => invert Y comp = Err e /\ invert Z comp = Err e
  end.
Proof.
  intros (R1 & K1 & R2 & K2 & E). unfold invert. destruct comp as [[cc cw]|].
  - unfold invert_components. rewrite R1, K1, R2, K2. destruct (ncols cc =? 0)%nat; [split; reflexivity|].
    destruct (_ || _)%bool; [split; reflexivity|]. destruct (negb _); [split; reflexivity|].
    destruct (negb _); [destruct (ncols X =? 1)%nat; split; reflexivity|]. cbn [bind].
    eexists _, _. split; [reflexivity|]. split; [reflexivity|]. cbn [lin_out]. rewrite !app_length, !map_length. split; [reflexivity|]. split; [reflexivity|].
    rewrite seq_length. cbn [length]. intros k Hk.
    set (sum := fun f => tab (ncols X) (fun m => Rsum (nrows X) (fun r => Re (f r m)))).
    assert (N : forall T, nth k (map (fun n => sum (masked (nrows X) cc cw T n)) (seq 0 (ncols cc)) ++ [sum (remainder (ncols cc) (nrows X) cc cw T)]) [] =
      sum (if (k <? ncols cc)%nat then masked (nrows X) cc cw T k else remainder (ncols cc) (nrows X) cc cw T)).
    { intros T. destruct (Nat.ltb_spec k (ncols cc)).
      - rewrite app_nth1 by (rewrite map_length, seq_length; lia).
        rewrite (nth_indep _ [] (sum (masked (nrows X) cc cw T (ncols cc)))) by (rewrite map_length, seq_length; lia).
        rewrite (map_nth (fun n => sum (masked (nrows X) cc cw T n))), seq_nth by lia. reflexivity.
      - rewrite app_nth2 by (rewrite map_length, seq_length; lia). rewrite map_length, seq_length. replace (k - ncols cc)%nat with 0%nat by lia. reflexivity. }
    unfold sum in N. cbv beta in N. rewrite !N. rewrite !tab_length. split; [reflexivity|]. rewrite lin_tab. apply tab_ext. intros m Hm. apply sum_mix. intros r Hr.
    destruct (k <? ncols cc)%nat.
    + unfold masked. destruct (in_band _ _ _ _ _ _); [apply E; assumption|apply mix_0].
    + clear N Hk. induction (ncols cc) as [|K IH]; cbn [remainder]; [apply E; assumption|]. destruct (in_band _ _ _ _ _ _); [apply mix_0|exact IH].
  - eexists _, _. split; [reflexivity|]. split; [reflexivity|]. cbn [lin_out]. unfold real_colsum. rewrite R1, K1, R2, K2, !tab_length. split; [reflexivity|].
    rewrite lin_tab. apply tab_ext. intros m Hm. apply sum_mix. intros r Hr. apply E; assumption.
Qed.

Theorem issq_cwt_linear Css a b X Y Z comp x : mix a b X Y Z -> issq_cwt Css X comp = Ok x ->
  exists y z, issq_cwt Css Y comp = Ok y /\ issq_cwt Css Z comp = Ok z /\ lin_out a b x y z.
Proof.
  intros H E. unfold issq_cwt in *. pose proof (invert_mix a b X Y Z comp H) as T. destruct (invert X comp) as [x0|]; [|discriminate]. cbn [bind] in E. injection E as <-.
  destruct T as (y & z & -> & -> & L). cbn [bind]. eexists _, _. split; [reflexivity|]. split; [reflexivity|]. apply scale_lin, L.
Qed.
Theorem issq_stft_linear a b X Y Z wa comp n_fft wl hop md f32 x : mix a b X Y Z -> issq_stft X wa comp n_fft wl hop md f32 = Ok x ->
  exists y z, issq_stft Y wa comp n_fft wl hop md f32 = Ok y /\ issq_stft Z wa comp n_fft wl hop md f32 = Ok z /\ lin_out a b x y z.
Proof.
  intros H E. unfold issq_stft in *. pose proof H as (R1 & _ & R2 & _). rewrite R1, R2.
  destruct (negb md); [discriminate|]. destruct (negb (hop =? 1)%Z); [discriminate|].
  destruct (get_window _ _ _) as [w|]; [|discriminate]. cbn [bind] in *. destruct (check_NOLA _ _ _); [|discriminate]. cbn [bind] in *.
  pose proof (invert_mix a b X Y Z comp H) as T. destruct (invert X comp) as [x0|]; [|discriminate]. cbn [bind] in E. injection E as <-.
  destruct T as (y & z & -> & -> & L). cbn [bind]. eexists _, _. split; [reflexivity|]. split; [reflexivity|]. apply scale_lin, L.
Qed.
