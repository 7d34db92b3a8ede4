From Coq Require Import ZifyBool ZifyNat.
From Verif Require Import Py Padding PaddingProofs Buffer BufferProofs Cplx CplxProofs Freqs Stft StftProofs.
Local Open Scope Z_scope.
Ltac Zify.zify_post_hook ::= Z.div_mod_to_equations.

(** ** the derivative window *)
Lemma xi_diff_val n k : (k < n)%nat ->
  xi_diff n k = if (2 * k =? n)%nat then 0%R
                else (IZR (xi_bin n k) * (2 * PI / INR n))%R.
Proof.
  intros Hk. unfold xi_diff.
  destruct (Nat.eqb_spec (n mod 2) 0), (Nat.eqb_spec k (n / 2)), (Nat.eqb_spec (2 * k) n);
    cbn [andb]; try reflexivity; try lia;
    unfold xifn; rewrite nth_tab by exact Hk;
    replace (1 * (2 * PI) / INR n)%R with (2 * PI / INR n)%R by (unfold Rdiv; ring); reflexivity.
Qed.

Lemma xi_diff_neg n k : (1 <= k < n)%nat -> xi_diff n (n - k) = (- xi_diff n k)%R.
Proof.
  intros Hk. rewrite !xi_diff_val by lia.
  destruct (Nat.eqb_spec (2 * (n - k)) n), (Nat.eqb_spec (2 * k) n); try lia; [ring|].
  replace (xi_bin n (n - k)) with (- xi_bin n k).
  - rewrite opp_IZR. ring.
  - unfold xi_bin. destruct (Nat.ltb_spec k (n / 2 + 1)), (Nat.ltb_spec (n - k) (n / 2 + 1)); lia.
Qed.

Lemma xi_diff_0 n : (1 <= n)%nat -> xi_diff n 0 = 0%R.
Proof.
  intros Hn. rewrite xi_diff_val by lia. destruct (Nat.eqb_spec (2 * 0) n); auto.
  unfold xi_bin. destruct (Nat.ltb_spec 0 (n / 2 + 1)); [|lia]. simpl. ring.
Qed.

Lemma diff_window_real w m : (1 <= length w)%nat -> Im (diff_window_c w m) = 0%R.
Proof.
  intros Hn. unfold diff_window_c. apply idft_herm_real; [exact Hn| |].
  - intros k Hk. rewrite xi_diff_neg by exact Hk. rewrite dft_real_sym by lia.
    rewrite !Cconj_mul, Cconj_RtoC. apply C_eq; cbn; ring.
  - rewrite xi_diff_0 by exact Hn. unfold Im. cbn. ring.
Qed.

Lemma diff_window_sum w : (1 <= length w)%nat ->
  Rsum (length w) (fun m => nth m (diff_window w) 0%R) = 0%R.
Proof.
  intros Hn. set (n := length w).
  set (F := fun k => Cmul (Cmul (dft n (fun j => RtoC (nth j w 0%R)) k) Ci) (RtoC (xi_diff n k))).
  rewrite (Rsum_ext n _ (fun m => Re (idft n F m))).
  2:{ intros m Hm. unfold diff_window. fold n. rewrite nth_tab by exact Hm. reflexivity. }
  rewrite <- Re_Csum.
  assert (E : Csum n (idft n F) = dft n (idft n F) 0).
  { unfold dft. apply Csum_ext. intros m _. rewrite Z.mul_0_l. rewrite tw_0 by lia. ring. }
  rewrite E, dft_idft by lia. unfold F. rewrite xi_diff_0 by lia. unfold Re. cbn. ring.
Qed.

(** trigonometric interpolant of the window *)
Definition interp (w : list R) (t : R) : R :=
  let n := length w in
  (/ INR n * Rsum n (fun k =>
     let W := dft n (fun j => RtoC (nth j w 0%R)) k in
     if (2 * k =? n)%nat then Re W * cos (PI * t)
     else Re W * cos (IZR (xi_bin n k) * (2 * PI / INR n) * t)
          - Im W * sin (IZR (xi_bin n k) * (2 * PI / INR n) * t)))%R.

Lemma tw_bin n k m : (1 <= n)%nat -> (k < n)%nat ->
  tw n (Z.of_nat k * m) = tw n (xi_bin n k * m).
Proof.
  intros Hn Hk. unfold xi_bin. destruct (Nat.ltb_spec k (n / 2 + 1)); [reflexivity|].
  replace ((Z.of_nat k - Z.of_nat n) * m) with (Z.of_nat k * m + Z.of_nat n * - m) by ring.
  rewrite tw_shift by exact Hn. reflexivity.
Qed.

Lemma tw_phase n b m : (1 <= n)%nat ->
  tw n (b * Z.of_nat m) = cis (IZR b * (2 * PI / INR n) * INR m).
Proof.
  intros Hn. unfold tw. f_equal. rewrite mult_IZR, <- INR_IZR_INZ.
  field. apply not_0_INR. lia.
Qed.

Lemma cos_INR_PI m : (cos (PI * INR m) = if Nat.even m then 1 else -1)%R /\ sin (PI * INR m) = 0%R.
Proof.
  induction m as [|m [IH1 IH2]].
  - simpl. rewrite Rmult_0_r, cos_0, sin_0. auto.
  - rewrite S_INR. replace (PI * (INR m + 1))%R with (PI * INR m + PI)%R by ring.
    rewrite neg_cos, neg_sin, IH1, IH2, Nat.even_succ, <- Nat.negb_even.
    destruct (Nat.even m); simpl; split; ring.
Qed.

Lemma interp_samples w m : (m < length w)%nat -> interp w (INR m) = nth m w 0%R.
Proof.
  intros Hm. set (n := length w) in *. assert (Hn : (1 <= n)%nat) by lia.
  pose proof (idft_dft n Hn (fun j => RtoC (nth j w 0%R)) m Hm) as E.
  apply (f_equal Re) in E. rewrite Re_RtoC in E. rewrite <- E.
  unfold interp. fold n. unfold idft.
  set (W := dft n (fun j => RtoC (nth j w 0%R))).
  replace (Re (Cmul (RtoC (/ INR n)) (Csum n (fun k => Cmul (W k) (tw n (Z.of_nat k * Z.of_nat m))))))
    with (/ INR n * Re (Csum n (fun k => Cmul (W k) (tw n (Z.of_nat k * Z.of_nat m)))))%R
    by (unfold Re; cbn; ring).
  rewrite Re_Csum. f_equal. apply Rsum_ext. intros k Hk. cbv zeta. fold W.
  rewrite tw_bin by auto. rewrite tw_phase by auto.
  destruct (Nat.eqb_spec (2 * k) n) as [Ek|Ek].
  - assert (HI : Im (W k) = 0%R) by (apply dft_real_nyq; auto).
    unfold Re, Cmul, cis. cbn [fst snd]. unfold Im in HI. rewrite HI.
    assert (Eb : (IZR (xi_bin n k) * (2 * PI / INR n) * INR m = PI * INR m)%R).
    { unfold xi_bin. destruct (Nat.ltb_spec k (n / 2 + 1)); [|lia].
      rewrite <- INR_IZR_INZ. rewrite <- Ek, mult_INR. simpl (INR 2).
      assert (INR k <> 0%R) by (apply not_0_INR; lia). field. auto. }
    rewrite Eb. ring.
  - reflexivity.
Qed.

Lemma derivable_Rsum n (f : nat -> R -> R) (f' : nat -> R) t :
  (forall k, (k < n)%nat -> derivable_pt_lim (f k) t (f' k)) ->
  derivable_pt_lim (fun s => Rsum n (fun k => f k s)) t (Rsum n f').
Proof.
  induction n as [|n IH]; intros H; cbn [Rsum].
  - apply derivable_pt_lim_const.
  - apply (derivable_pt_lim_plus (fun s => Rsum n (fun k => f k s)) (f n)); auto.
Qed.

Lemma derivable_lin c t : derivable_pt_lim (fun s => (c * s)%R) t c.
Proof.
  pose proof (derivable_pt_lim_scal id c t 1 (derivable_pt_lim_id t)) as H.
  rewrite Rmult_1_r in H. exact H.
Qed.
Lemma derivable_cos_lin c t : derivable_pt_lim (fun s => cos (c * s)) t (- sin (c * t) * c)%R.
Proof. apply (derivable_pt_lim_comp (fun s => c * s)%R cos); [apply derivable_lin|apply derivable_pt_lim_cos]. Qed.
Lemma derivable_sin_lin c t : derivable_pt_lim (fun s => sin (c * s)) t (cos (c * t) * c)%R.
Proof. apply (derivable_pt_lim_comp (fun s => c * s)%R sin); [apply derivable_lin|apply derivable_pt_lim_sin]. Qed.

Theorem diff_window_is_derivative w m : (m < length w)%nat ->
  derivable_pt_lim (interp w) (INR m) (nth m (diff_window w) 0%R).
Proof.
  intros Hm. set (n := length w) in *. assert (Hn : (1 <= n)%nat) by lia.
  set (W := dft n (fun j => RtoC (nth j w 0%R))).
  set (c := fun k => (IZR (xi_bin n k) * (2 * PI / INR n))%R).
  assert (Ed : nth m (diff_window w) 0%R = (/ INR n * Rsum n (fun k =>
     if (2 * k =? n)%nat then 0
     else Re (W k) * (- sin (c k * INR m) * c k) - Im (W k) * (cos (c k * INR m) * c k)))%R).
  { unfold diff_window. fold n. rewrite nth_tab by exact Hm. unfold diff_window_c. fold n. unfold idft.
    fold W.
    match goal with |- Re (Cmul (RtoC ?a) ?s) = _ =>
      replace (Re (Cmul (RtoC a) s)) with (a * Re s)%R by (unfold Re; cbn; ring) end.
    rewrite Re_Csum. f_equal. apply Rsum_ext. intros k Hk.
    rewrite xi_diff_val by exact Hk. rewrite tw_bin by auto. rewrite tw_phase by auto. fold (c k).
    destruct (Nat.eqb_spec (2 * k) n).
    - unfold Re; cbn; ring.
    - unfold Re, Im; cbn; ring. }
  rewrite Ed. unfold interp. fold n. fold W.
  apply (derivable_pt_lim_scal (fun t => Rsum n _)).
  apply derivable_Rsum. intros k Hk. cbv zeta.
  destruct (Nat.eqb_spec (2 * k) n).
  - replace 0%R with (Re (W k) * (- sin (PI * INR m) * PI))%R.
    + apply (derivable_pt_lim_scal (fun s => cos (PI * s))). apply derivable_cos_lin.
    + destruct (cos_INR_PI m) as [_ ->]. ring.
  - fold (c k).
    apply (derivable_pt_lim_minus (fun s => Re (W k) * cos (c k * s))%R (fun s => Im (W k) * sin (c k * s))%R).
    + apply (derivable_pt_lim_scal (fun s => cos (c k * s))). apply derivable_cos_lin.
    + apply (derivable_pt_lim_scal (fun s => sin (c k * s))). apply derivable_sin_lin.
Qed.

(** ** array windows whose length differs from win_len *)
Lemma get_window_array_refuted :
  exists v wl n w, get_window (WArray v) wl n = Ok w /\ Z.of_nat (length w) <> n.
Proof.
  exists [1; 1; 1; 1]%R, 2, 8. eexists. split; [reflexivity|]. vm_compute. discriminate.
Qed.

(** shorter array window, default win_len: stft pads it, istft raises *)
Lemma istft_short_window tiny Sx v n hop No modulated e f32 :
  1 <= hop -> 1 <= n -> (f32 = true -> hop <= Z.of_nat (length v)) ->
  Z.of_nat (length v) < n ->
  istft tiny Sx (WArray v) (Some n) None hop No modulated e f32 = Err ValueError.
Proof.
  intros Hh Hn Hf Hl. unfold istft.
  assert (E1 : or_default (Some n) ((Z.of_nat (nrows Sx) - 1) * 2) = n)
    by (cbn; destruct (Z.eqb_spec n 0); lia).
  rewrite E1. destruct (Z.leb_spec n 0); [lia|].
  assert (Eg : get_window (WArray v) (or_default None n) n = Ok v).
  { unfold get_window, or_default. destruct (n >? n) eqn:E; [lia|].
    replace (n - n) with 0 by lia. cbn [Z.div Z.div_eucl Z.to_nat repeat app].
    destruct (_ <? _); rewrite ?app_nil_r; reflexivity. }
  rewrite Eg. cbn [bind].
  assert (Enola : check_NOLA f32 v hop = Ok tt).
  { unfold check_NOLA. destruct (Z.leb_spec hop 0); [lia|].
    destruct f32; simpl; auto.
    destruct (hop >? Z.of_nat (length v)) eqn:Eh; auto. specialize (Hf eq_refl). lia. }
  rewrite Enola. cbn [bind]. unfold unbuffer.
  destruct (Z.eqb_spec (Z.of_nat (length v)) n); [lia|]. reflexivity.
Qed.

Lemma stft_short_window x v n fs hop modulated pt f32 :
  x <> [] -> 1 <= hop -> 1 <= n -> (f32 = true -> hop <= n) -> Z.of_nat (length v) < n ->
  pad_usable pt (Z.of_nat (length x)) n ->
  exists r, stft x (SA fs (WArray v) (Some n) None hop modulated pt f32) = Ok r.
Proof.
  intros Hx Hh Hn Hf Hl Hp.
  set (a := SA fs (WArray v) (Some n) None hop modulated pt f32).
  assert (Eg : exists w, get_window (a_window a) (stft_win_len a n) n = Ok w /\ Z.of_nat (length w) = n).
  { unfold stft_win_len, a. cbn [a_window a_win_len].
    destruct (get_window (WArray v) (Z.of_nat (length v)) n) as [w|] eqn:E.
    - exists w. split; [reflexivity|].
      apply (get_window_len (WArray v) (Z.of_nat (length v)) n w); try lia; auto.
      + intros v0 Hv. injection Hv as <-. reflexivity.
      + discriminate.
    - unfold get_window in E. destruct (Z.of_nat (length v) >? n) eqn:Eg; [lia|discriminate]. }
  destruct Eg as (w & Ew & Hlw).
  destruct (stft_spec x a n w Hx Hn Hh) as (_ & _ & _ & Sx & dSx & _ & _ & _ & Es & _); auto.
  - unfold stft_n_fft, a. cbn. destruct (Z.eqb_spec n 0); [lia|reflexivity].
  - exists (Sx, dSx). exact Es.
Qed.

(** ** scipy's NOLA criterion is not enough *)
Definition NOLA (w : list R) (hop : nat) : Prop :=
  forall r, (r < hop)%nat ->
    (/ 10000000000 < Rsum (length w) (fun j =>
       if (r + j * hop <? length w)%nat then nth (r + j * hop) w 0 * nth (r + j * hop) w 0 else 0))%R.

Definition box4 : stft_args :=
  SA 1 (WArray [1; 1; 1; 1]%R) (Some 4) None 4 true PZero false.

Lemma wsum_box4 t : (4 <= t)%nat -> wsum [1; 1; 1; 1]%R 4 1 2 t = 0%R.
Proof.
  intros Ht. unfold wsum. cbn [Rsum length].
  destruct (Nat.leb_spec (0 * 4) t), (Nat.ltb_spec t (0 * 4 + 4)); cbn [andb]; try lia; ring.
Qed.

Lemma nola_refuted tiny : (0 < tiny)%R ->
  exists x Sx dSx y, NOLA [1; 1; 1; 1]%R 4 /\
    stft x box4 = Ok (Sx, dSx) /\
    istft tiny Sx (WArray [1; 1; 1; 1]%R) (Some 4) None 4 (Some 4) true 1 false = Ok y /\
    length y = length x /\ y <> x.
Proof.
  intros Ht. set (x := [1; 2; 3; 4]%R). exists x.
  destruct (roundtrip_any x box4 4 [1; 1; 1; 1]%R (WArray [1; 1; 1; 1]%R) None (Some 4) (Some 4)
              1 tiny false) with (N' := 4) as (Sx & dSx & y & Es & Ey & Hl & Hy);
    try reflexivity; try discriminate; try lia.
  - left. discriminate.
  - left. reflexivity.
  - exists Sx, dSx, y. split; [|split; [exact Es|split; [exact Ey|split; [cbn; lia|]]]].
    + intros r Hr. cbn [length Rsum].
      assert (r = 0 \/ r = 1 \/ r = 2 \/ r = 3)%nat as [->|[->|[->| ->]]] by lia; cbn; lra.
    + intros E. specialize (Hy 2%nat ltac:(cbn; lia)). cbv zeta in Hy. destruct Hy as [_ Hy].
      change (Z.to_nat (a_hop box4)) with 4%nat in Hy.
      change (Z.to_nat ((Z.of_nat (length x) - 1) / a_hop box4 + 1)) with 1%nat in Hy.
      change (Z.to_nat (4 / 2) + 2)%nat with 4%nat in Hy.
      change (1 + 1)%nat with 2%nat in Hy.
      rewrite wsum_box4 in Hy by lia. specialize (Hy Ht). rewrite E in Hy. cbn in Hy. lra.
Qed.

(** ** negative window, simple inversion ([win_exp = 0]) *)
Lemma negative_window_refuted tiny : (0 < tiny)%R ->
  exists x v Sx dSx y, (forall r, (r < length v)%nat -> nth r v 0%R = (-1)%R) /\
    stft x (SA 1 (WArray v) (Some 4) None 1 true PZero false) = Ok (Sx, dSx) /\
    istft tiny Sx (WArray v) (Some 4) None 1 (Some 1) true 0 false = Ok y /\
    length y = length x /\ y <> x.
Proof.
  intros Ht. set (x := [1]%R). set (v := [-1; -1; -1; -1]%R). exists x, v.
  destruct (roundtrip_any x (SA 1 (WArray v) (Some 4) None 1 true PZero false) 4 v (WArray v)
              None (Some 4) (Some 1) 0 tiny false) with (N' := 1)
    as (Sx & dSx & y & Es & Ey & Hl & Hy); try reflexivity; try discriminate; try lia.
  - left. discriminate.
  - left. reflexivity.
  - exists Sx, dSx, y. split; [|split; [exact Es|split; [exact Ey|split; [cbn; lia|]]]].
    + intros r Hr. cbn in Hr. assert (r = 0 \/ r = 1 \/ r = 2 \/ r = 3)%nat as [->|[->|[->| ->]]] by lia;
        reflexivity.
    + intros E. specialize (Hy 0%nat ltac:(cbn; lia)). cbv zeta in Hy. destruct Hy as [_ Hy].
      assert (Ew : wsum v (Z.to_nat (a_hop (SA 1 (WArray v) (Some 4) None 1 true PZero false)))
         (Z.to_nat ((Z.of_nat (length x) - 1) /
            a_hop (SA 1 (WArray v) (Some 4) None 1 true PZero false) + 1)) (0 + 1)
         (Z.to_nat (4 / 2) + 0) = (-1)%R).
      { change (wsum v 1 1 1 2 = (-1)%R). unfold wsum, v. simpl. ring. }
      rewrite Ew in Hy. specialize (Hy ltac:(lra)). rewrite E in Hy. cbn in Hy. lra.
Qed.

Lemma stft_shape x a n w :
  let N := Z.of_nat (length x) in
  x <> [] -> 1 <= n -> 1 <= a_hop a -> stft_n_fft a N = Ok n ->
  get_window (a_window a) (stft_win_len a n) n = Ok w -> Z.of_nat (length w) = n ->
  (a_f32 a = true -> a_hop a <= n) ->
  a_padtype a <> PSymmetric \/ (2 <= n /\ n - 1 <= 2 * N) ->
  exists Sx dSx, stft x a = Ok (Sx, dSx) /\
    nrows Sx = (Z.to_nat n / 2 + 1)%nat /\ nrows dSx = nrows Sx /\ ncols dSx = ncols Sx /\
    Z.of_nat (ncols Sx) = (N - 1) / a_hop a + 1 /\
    (forall i, 0 <= i < N -> exists h, (h < ncols Sx)%nat /\
       a_hop a * Z.of_nat h <= i < a_hop a * Z.of_nat h + a_hop a).
Proof.
  intros N Hx Hn Hh Hnf Hw Hlw Hf Hp.
  destruct (stft_spec x a n w Hx Hn Hh Hnf Hw Hlw Hf Hp)
    as (xp & n_up & n2 & Sx & dSx & _ & _ & _ & Es & Hr & Hc & Hr' & Hc' & _).
  exists Sx, dSx. split; [exact Es|]. split; [exact Hr|]. split; [congruence|].
  split; [exact Hc'|]. split; [exact Hc|]. fold N in Hc.
  intros i Hi.
  pose proof (Z.mod_pos_bound i (a_hop a) ltac:(lia)).
  pose proof (Z.div_mod i (a_hop a) ltac:(lia)).
  assert (0 <= i / a_hop a) by (apply Z.div_pos; lia).
  assert (i / a_hop a <= (N - 1) / a_hop a) by (apply Z.div_le_mono; lia).
  exists (Z.to_nat (i / a_hop a)). split; [lia|]. rewrite Z2Nat.id by lia. lia.
Qed.

Lemma stft_formula x a n w :
  let N := Z.of_nat (length x) in
  x <> [] -> 1 <= n -> 1 <= a_hop a -> stft_n_fft a N = Ok n ->
  get_window (a_window a) (stft_win_len a n) n = Ok w -> Z.of_nat (length w) = n ->
  (a_f32 a = true -> a_hop a <= n) ->
  a_padtype a <> PSymmetric \/ (2 <= n /\ n - 1 <= 2 * N) ->
  exists xp n_up n2 Sx dSx,
    padsignal 0%R x (a_padtype a) (Some (N + n - 1)) = Ok (xp, n_up, n / 2, n2) /\
    Z.of_nat (length xp) = N + n - 1 /\
    (forall i, (i < length x)%nat -> nth (Z.to_nat (n / 2) + i) xp 0%R = nth i x 0%R) /\
    stft x a = Ok (Sx, dSx) /\
    (forall h, (h < ncols Sx)%nat -> a_hop a * Z.of_nat h + n <= Z.of_nat (length xp)) /\
    (forall k h, (h < ncols Sx)%nat -> el Sx k h = stft_val a n w xp k h) /\
    (forall k h, (h < ncols Sx)%nat -> el dSx k h =
       stft_val a n (if a_modulated a then map (fun v => (v * a_fs a)%R) (diff_window w)
            else diff_window w) xp k h).
Proof.
  intros N Hx Hn Hh Hnf Hw Hlw Hf Hp.
  destruct (stft_spec x a n w Hx Hn Hh Hnf Hw Hlw Hf Hp)
    as (xp & n_up & n2 & Sx & dSx & H1 & H2 & H3 & Es & Hr & Hc & Hr' & Hc' & H4 & H5 & H6).
  exists xp, n_up, n2, Sx, dSx. auto 10.
Qed.

Lemma dft2_case : dft 2 (fun m => RtoC (INR m)) 1 = RtoC (-1) /\
  dft 2 (fun m => RtoC (INR m)) 0 = RtoC 1.
Proof.
  assert (E : tw 2 (-1) = RtoC (-1)).
  { unfold tw. replace (2 * PI * -1 / INR 2)%R with (- PI)%R by (simpl; field).
    unfold cis. rewrite cos_neg, sin_neg, cos_PI, sin_PI. apply C_eq; cbn; ring. }
  assert (E0 : tw 2 0 = C1) by (apply tw_0; lia).
  unfold dft. cbn [Csum Z.of_nat]. split.
  - change (- (Z.pos (Pos.of_succ_nat 0) * 0)) with 0.
    change (- (Z.pos (Pos.of_succ_nat 0) * Z.pos (Pos.of_succ_nat 0))) with (-1).
    rewrite E, E0. apply C_eq; cbn; ring.
  - change (- (0 * 0)) with 0. change (- (0 * Z.pos (Pos.of_succ_nat 0))) with 0.
    rewrite E0. apply C_eq; cbn; ring.
Qed.

(** any spectrum of n_fft = 2, e.g. zeros: one sample asked for, none returned *)
Lemma istft_small_refuted tiny :
  exists Sx w n N y, 1 <= n /\ 1 <= N /\
    istft tiny Sx (WArray w) (Some n) None 1 (Some N) true 1 false = Ok y /\
    Z.of_nat (length y) <> N.
Proof.
  exists (Mat 2 1 (fun _ _ => C1)), [1; 1]%R, 2, 1.
  destruct (istft tiny (Mat 2 1 (fun _ _ => C1)) (WArray [1; 1]%R) (Some 2) None 1 (Some 1) true 1 false)
    as [y|er] eqn:E.
  - exists y. split; [lia|]. split; [lia|]. split; [reflexivity|].
    apply istft_small in E; try lia. subst y. cbn. lia.
  - exfalso. unfold istft in E. cbn in E. discriminate.
Qed.

(** derivative window of a unit impulse of 3 samples, next to the impulse *)
Lemma diff_window_impulse3 : (nth 1 (diff_window [1; 0; 0]) 0 < 0)%R.
Proof.
  unfold diff_window. rewrite nth_tab by (simpl; lia). unfold diff_window_c.
  change (length [1; 0; 0]%R) with 3%nat.
  assert (E : forall k, dft 3 (fun j => RtoC (nth j [1; 0; 0] 0)%R) k = C1).
  { intros k. unfold dft. cbn [Csum Z.of_nat nth]. rewrite Z.mul_0_r. rewrite tw_0 by lia.
    apply C_eq; cbn; ring. }
  unfold idft. cbn [Csum]. rewrite !E, !xi_diff_val by lia. cbn [Nat.eqb Nat.mul Nat.add].
  unfold xi_bin. cbn [Nat.ltb Nat.leb Nat.div Nat.divmod fst Nat.add].
  assert (E1 : tw 3 (Z.of_nat 2 * Z.of_nat 1) = Cconj (tw 3 1)).
  { change (Z.of_nat 2 * Z.of_nat 1) with (-1 + Z.of_nat 3 * 1).
    rewrite tw_shift by lia. change (-1) with (- (1)). rewrite tw_opp by lia. reflexivity. }
  rewrite E1. change (Z.of_nat 1 * Z.of_nat 1) with 1.
  change (Z.of_nat 0 * Z.of_nat 1) with 0. rewrite tw_0 by lia.
  assert (Es : (0 < Im (tw 3 1))%R).
  { unfold tw, cis, Im. cbn [snd]. apply sin_gt_0; pose proof PI_RGT_0; simpl INR; lra. }
  revert Es. generalize (tw 3 1). intros [p q] Es. pose proof PI_RGT_0 as HP.
  unfold Re, Im in *. cbn in *. 
  match goal with |- (?a < 0)%R => replace a with (- (4 * PI / 9) * q)%R by field end.
  nra.
Qed.

(** an unmodulated derivative that is nonzero and does not see fs *)
Lemma unmod_fs_refuted :
  exists x a a' dS dS' S S', a_fs a <> a_fs a' /\
    (a_window a, a_n_fft a, a_win_len a, a_hop a, a_modulated a, a_padtype a, a_f32 a) =
    (a_window a', a_n_fft a', a_win_len a', a_hop a', a_modulated a', a_padtype a', a_f32 a') /\
    stft x a = Ok (S, dS) /\ stft x a' = Ok (S', dS') /\ dS = dS' /\
    (exists k h, (k < nrows dS)%nat /\ (h < ncols dS)%nat /\ el dS k h <> C0).
Proof.
  set (v := [1; 0; 0]%R).
  set (a := SA 1 (WArray v) (Some 3) None 1 false PZero false).
  set (a' := SA 2 (WArray v) (Some 3) None 1 false PZero false).
  exists [1]%R, a, a'.
  destruct (stft_spec [1]%R a 3 v) as (xp & up & n2 & S & dS & Exp & _ & _ & Es & _ & Hc & Hr' & Hc' & _ & _ & HdS);
    try reflexivity; try discriminate; try lia.
  { left. discriminate. }
  assert (Es' : stft [1]%R a' = Ok (S, dS)) by (rewrite <- Es; reflexivity).
  exists dS, dS, S, S. split; [cbn; lra|]. split; [reflexivity|].
  split; [exact Es|]. split; [exact Es'|]. split; [reflexivity|].
  assert (Ec : ncols S = 1%nat) by (change (Z.of_nat (ncols S) = 1) in Hc; lia).
  exists 0%nat, 0%nat. split; [rewrite Hr'; cbn; lia|]. split; [lia|].
  assert (Exp' : xp = [0; 1; 0]%R).
  { cbn in Exp. injection Exp as <- _ _. reflexivity. }
  rewrite HdS by lia. cbn [a_modulated a].
  pose proof diff_window_impulse3 as Hd. fold v in Hd.
  assert (E : stft_val a 3 (diff_window v) xp 0 0 = RtoC (nth 1 (diff_window v) 0%R)).
  { unfold stft_val. rewrite Exp'. change (Z.to_nat 3) with 3%nat. cbn [Csum].
    rewrite !Z.mul_0_l. change (- 0) with 0. rewrite !tw_0 by lia.
    change (Z.to_nat (a_hop a) * 0)%nat with 0%nat. cbn [nth Nat.add].
    generalize (nth 0 (diff_window v) 0%R) (nth 1 (diff_window v) 0%R) (nth 2 (diff_window v) 0%R).
    intros. apply C_eq; cbn; ring. }
  rewrite E. intros H. apply (f_equal Re) in H. unfold Re, RtoC, C0 in H. cbn [fst] in H.
  rewrite H in Hd. lra.
Qed.

(** padtype='symmetric' with n_fft=1 (no padding needed) pads anyway: too many hops *)
Lemma stft_symmetric_refuted :
  exists x a S dS, x <> [] /\ a_n_fft a = Some 1 /\ a_hop a = 1 /\
    stft x a = Ok (S, dS) /\ Z.of_nat (ncols S) <> (Z.of_nat (length x) - 1) / 1 + 1.
Proof.
  exists [1; 2]%R, (SA 1 (WArray [1]%R) (Some 1) None 1 true PSymmetric true).
  eexists. eexists. split; [discriminate|]. split; [reflexivity|]. split; [reflexivity|].
  split; [reflexivity|]. vm_compute. discriminate.
Qed.
