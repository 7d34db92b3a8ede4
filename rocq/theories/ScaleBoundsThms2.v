(** Theorems about [find_max_scale_alt], [cwt_scalebounds] and scales given by name. *)
From Coq Require Import Reals Lra ZifyBool ZifyNat.
From Verif Require Import Py Round Cplx CplxProofs Padding PaddingProofs Freqs ShiftProofs Squeeze BinProofs SqueezeThms3
  Scales ScaleThms Resol Search SearchProofs Wavelets WaveletProofs SearchGmw ScaleBounds ScaleBoundsProofs ScaleBoundsThms.
Local Open Scope R_scope.

(** ** find_max_scale_alt *)
Lemma mod1_range x : 0 <= mod1 x < 1.
Proof. unfold mod1. destruct (base_Int_part x). lra. Qed.
Section Alt.
Variables (wc wp : R) (N : nat).
Hypotheses (HN : (1 <= N)%nat) (H0 : 0 <= wc) (Hwp : wc <= wp).
Let w := w_ltp wc N.
Let q := n_divs wc wp N.
Lemma N_pos : 0 < INR N.
Proof. apply lt_0_INR. lia. Qed.
Lemma w_step j : w (S j) = w j + / INR N.
Proof. unfold w, w_ltp. rewrite S_INR. pose proof N_pos. field. lra. Qed.
Lemma w_ge j : wc <= w j.
Proof.
  unfold w, w_ltp. pose proof N_pos. pose proof (pos_INR j).
  assert (0 <= INR j * (1 / INR N)); [|lra]. apply Rmult_le_pos; [auto|]. left. apply Rdiv_lt_0_compat; lra.
Qed.
Lemma w_lt j : (j < n_ltp wc wp N)%nat -> w j < wp.
Proof.
  intros H. unfold n_ltp in H. pose proof N_pos as Np. set (x := (wp - wc) / (1 / INR N)) in *.
  pose proof (Rceil_bounds x) as B. assert (J : INR j < x).
  { assert (IZR (Z.of_nat j) <= IZR (Rceil x - 1)) by (apply IZR_le; lia). rewrite minus_IZR in *.
    rewrite INR_IZR_INZ. lra. }
  unfold w, w_ltp. unfold x in J. replace ((wp - wc) / (1 / INR N)) with ((wp - wc) * INR N) in J by (field; lra).
  apply (Rmult_lt_reg_r (INR N)); [auto|]. replace ((wc + INR j * (1 / INR N)) * INR N) with (wc * INR N + INR j) by (field; lra).
  lra.
Qed.
Lemma q_step j : w (S j) < wp -> q (S j) - q j = wp / (2 * INR N * (wp - w j) * (wp - w (S j))).
Proof.
  intros H. pose proof N_pos as Np. pose proof (w_step j) as W. pose proof (Rinv_0_lt_compat _ Np).
  unfold q, n_divs, div_size. fold w.
  replace (w (S j) / ((wp - w (S j)) * 2) - w j / ((wp - w j) * 2))
    with (wp * (w (S j) - w j) / (2 * (wp - w j) * (wp - w (S j)))) by (field; lra).
  replace (w (S j) - w j) with (/ INR N) by lra. field. lra.
Qed.
Lemma q_nonneg j : w j < wp -> 0 <= q j.
Proof.
  intros H. unfold q, n_divs, div_size. fold w. pose proof (w_ge j). unfold Rdiv.
  apply Rmult_le_pos; [lra|]. left. apply Rinv_0_lt_compat. lra.
Qed.
(** what the search for a drop found *)
Lemma drop_found i : drop_idx wc wp N = Some i ->
  w (S i) < wp /\ mod1 (q (S i)) < 2 / 10 /\ q i < IZR (Int_part (q (S i))) <= q (S i) /\
  (1 <= Int_part (q (S i)))%Z /\
  (forall k, (k < i)%nat -> - (8 / 10) <= mod1 (q (S k)) - mod1 (q k)).
Proof.
  intros E. unfold drop_idx in E. fold q in E.
  pose proof (first_where_spec (fun i => Rltb' (mod1 (q (S i)) - mod1 (q i)) (- (8 / 10))) (n_ltp wc wp N - 2) 0) as S0.
  rewrite E in S0. destruct S0 as (A & B & D). unfold Rltb' in B. destruct (Rlt_dec _ _) as [L|]; [|discriminate].
  assert (Wlt : w (S i) < wp) by (apply w_lt; lia). split; [auto|].
  pose proof (mod1_range (q i)) as M1. pose proof (mod1_range (q (S i))) as M2. split; [lra|].
  pose proof (q_step i Wlt) as Q. pose proof (w_step i) as W. pose proof N_pos as Np. pose proof (Rinv_0_lt_compat _ Np).
  assert (Qp : q i <= q (S i)).
  { assert (0 <= wp / (2 * INR N * (wp - w i) * (wp - w (S i)))); [|lra].
    unfold Rdiv. apply Rmult_le_pos; [lra|]. left. apply Rinv_0_lt_compat.
    apply Rmult_lt_0_compat; [|lra]. apply Rmult_lt_0_compat; [|lra]. lra. }
  assert (F : (Int_part (q i) + 1 <= Int_part (q (S i)))%Z).
  { apply Z.le_succ_l. apply lt_IZR. unfold mod1 in *. lra. }
  assert (F' : IZR (Int_part (q i)) + 1 <= IZR (Int_part (q (S i)))) by (rewrite <- plus_IZR; now apply IZR_le).
  split; [unfold mod1 in *; lra|]. split.
  - assert (Q0 : 0 <= q i) by (apply q_nonneg; lra).
    assert (0 <= Int_part (q i))%Z; [|lia]. apply Z.lt_succ_r, lt_IZR. unfold Z.succ. rewrite plus_IZR. unfold mod1 in *. lra.
  - intros k Hk. specialize (D k ltac:(lia)). unfold Rltb' in D. destruct (Rlt_dec _ _); [discriminate|lra].
Qed.
(** the bin spacing [d] of [scale * xi]; the peak lies between bins [m] and [m + 1], its distance
    from their middle less than a fifth of the spacing and shrinking with the scale *)
Theorem alt_straddles s : alt_scale wc wp N = Ok s ->
  let d := s * (2 * PI / INR N) in
  0 < s /\ wc + / INR N <= wp - d / 2 /\
  exists m : Z, (1 <= m)%Z /\ IZR m * d < wp < (IZR m + 1) * d /\
    0 <= wp - (IZR m + 1 / 2) * d < 2 / 10 * d /\
    wp - (IZR m + 1 / 2) * d < wp / (PI * s + 1).
Proof.
  intros E. unfold alt_scale in E. replace (N =? 0)%nat with false in E by lia.
  destruct (drop_idx wc wp N) as [i|] eqn:Ed; [|discriminate]. injection E as E.
  destruct (drop_found i Ed) as (A & B & (C1 & C2) & D & _). pose proof N_pos as Np. pose proof PI_RGT_0 as Hpi.
  replace (i + 1)%nat with (S i) in E by lia. unfold div_size in E. fold w in E.
  assert (Ed' : s * (2 * PI / INR N) = (wp - w (S i)) * 2) by (rewrite <- E; field; split; lra).
  cbv zeta. rewrite Ed'. set (x := w (S i)) in *. set (m := Int_part (q (S i))) in *.
  assert (Hs : s = (wp - x) * INR N / PI) by (rewrite <- E; field; split; lra).
  assert (Eq : q (S i) * ((wp - x) * 2) = x) by (unfold q, n_divs, div_size; fold w; fold x; field; lra).
  split; [rewrite Hs; apply Rdiv_lt_0_compat; [apply Rmult_lt_0_compat; lra|lra]|].
  pose proof (w_ge i) as Wi. pose proof (w_step i) as Ws. fold x in Ws.
  split; [lra|]. exists m. split; [auto|].
  assert (Mr : 0 <= q (S i) - IZR m < 2 / 10) by (unfold mod1 in B; fold m in B; lra).
  assert (R1 : wp - (IZR m + 1 / 2) * ((wp - x) * 2) = (q (S i) - IZR m) * ((wp - x) * 2)) by lra.
  rewrite R1. split; [split; nra|]. split; [split; nra|].
  pose proof (q_step i A) as Q. fold x in Q. pose proof (Rinv_0_lt_compat _ Np) as Ni.
  assert (V : wp / (PI * s + 1) = (q (S i) - q i) * ((wp - x) * 2)).
  { rewrite Q, Hs. replace (PI * ((wp - x) * INR N / PI) + 1) with (INR N * (wp - w i)) by (replace (w i) with (x - / INR N) by lra; field; lra).
    field. lra. }
  rewrite V. apply Rmult_lt_compat_r; lra.
Qed.
(** with a fine enough grid no smaller number of bins below the peak would do *)
Theorem alt_fewest s m : alt_scale wc wp N = Ok s ->
  let d := s * (2 * PI / INR N) in
  IZR m * d <= wp - d / 2 < (IZR m + 1) * d -> wp < d * (PI * s + 1) ->
  m = (Int_part (wc / (2 * (wp - wc))) + 1)%Z.
Proof.
  intros E. unfold alt_scale in E. replace (N =? 0)%nat with false in E by lia.
  destruct (drop_idx wc wp N) as [i|] eqn:Ed; [|discriminate]. injection E as E.
  destruct (drop_found i Ed) as (A & B & (C1 & C2) & D & Nd). pose proof N_pos as Np. pose proof PI_RGT_0 as Hpi.
  replace (i + 1)%nat with (S i) in E by lia. unfold div_size in E. fold w in E.
  assert (Ed' : s * (2 * PI / INR N) = (wp - w (S i)) * 2) by (rewrite <- E; field; split; lra).
  cbv zeta. rewrite Ed'. set (x := w (S i)) in *.
  assert (Hs : PI * s = (wp - x) * INR N) by (rewrite <- E; field; split; lra). rewrite Hs.
  assert (Eq : q (S i) * ((wp - x) * 2) = x) by (unfold q, n_divs, div_size; fold w; fold x; field; lra).
  intros [M1 M2] Hd. pose proof (w_step i) as Ws. fold x in Ws. pose proof (Rinv_0_lt_compat _ Np) as Ni.
  assert (Em : Int_part (q (S i)) = m).
  { apply Int_part_unique. split; apply (Rmult_le_reg_r ((wp - x) * 2)) || apply (Rmult_lt_reg_r ((wp - x) * 2)); lra. }
  (* steps below i are less than 1/5 *)
  assert (Si : q (S i) - q i < 1).
  { rewrite (q_step i A). fold x. replace (w i) with (x - / INR N) by lra.
    apply (Rmult_lt_reg_r (2 * INR N * (wp - (x - / INR N)) * (wp - x))).
    - apply Rmult_lt_0_compat; [|lra]. apply Rmult_lt_0_compat; lra.
    - unfold Rdiv. rewrite Rmult_assoc, Rinv_l, Rmult_1_r, Rmult_1_l.
      + replace (2 * INR N * (wp - (x - / INR N)) * (wp - x)) with ((wp - x) * 2 * ((wp - x) * INR N + 1)) by (field; lra).
        lra.
      + apply Rgt_not_eq. apply Rmult_lt_0_compat; [|lra]. apply Rmult_lt_0_compat; lra. }
  assert (Drop : mod1 (q (S i)) - mod1 (q i) < - (8 / 10)).
  { unfold drop_idx in Ed. fold q in Ed.
    pose proof (first_where_spec (fun i => Rltb' (mod1 (q (S i)) - mod1 (q i)) (- (8 / 10))) (n_ltp wc wp N - 2) 0) as S0.
    rewrite Ed in S0. destruct S0 as (_ & Bq & _). unfold Rltb' in Bq. destruct (Rlt_dec _ _); [auto|discriminate]. }
  pose proof (mod1_range (q i)) as R0. pose proof (mod1_range (q (S i))) as R1'.
  assert (Fl : Int_part (q (S i)) = (Int_part (q i) + 1)%Z).
  { unfold mod1 in *. assert (Int_part (q (S i)) < Int_part (q i) + 2)%Z.
    { apply lt_IZR. rewrite plus_IZR. lra. }
    assert (Int_part (q i) < Int_part (q (S i)))%Z by (apply lt_IZR; lra). lia. }
  assert (Si' : q (S i) - q i < 2 / 10).
  { unfold mod1 in *. rewrite Fl, plus_IZR in *. lra. }
  assert (Wm : forall k j, (k <= j)%nat -> w k <= w j).
  { intros k j Hk. induction Hk; [lra|]. rewrite w_step. lra. }
  assert (Wlt : forall k, (k <= S i)%nat -> w k < wp) by (intros k Hk; pose proof (Wm k (S i) Hk) as Wk; fold x in Wk; lra).
  assert (Sk : forall k, (k <= i)%nat -> 0 <= q (S k) - q k < 2 / 10).
  { intros k Hk. rewrite q_step by (apply Wlt; lia). split.
    - unfold Rdiv. apply Rmult_le_pos; [lra|]. left. apply Rinv_0_lt_compat.
      pose proof (Wlt k ltac:(lia)). pose proof (Wlt (S k) ltac:(lia)).
      apply Rmult_lt_0_compat; [|lra]. apply Rmult_lt_0_compat; lra.
    - apply Rle_lt_trans with (2 := Si'). rewrite (q_step i A).
      pose proof (Wm k i Hk). pose proof (Wm (S k) (S i) ltac:(lia)). pose proof (Wlt i ltac:(lia)). pose proof (Wlt (S i) ltac:(lia)).
      unfold Rdiv. apply Rmult_le_compat_l; [lra|]. apply Rinv_le_contravar.
      + apply Rmult_lt_0_compat; [|lra]. apply Rmult_lt_0_compat; lra.
      + apply Rmult_le_compat; try lra.
        * apply Rmult_le_pos; lra.
        * apply Rmult_le_compat_l; lra. }
  assert (Fk : forall k, (k <= i)%nat -> Int_part (q k) = Int_part (q 0%nat)).
  { induction k as [|k IH]; intros Hk; [reflexivity|]. rewrite <- IH by lia.
    specialize (Nd k ltac:(lia)). specialize (Sk k ltac:(lia)).
    pose proof (mod1_range (q k)). pose proof (mod1_range (q (S k))). unfold mod1 in *.
    assert (Int_part (q k) <= Int_part (q (S k)))%Z.
    { apply Z.lt_succ_r, lt_IZR. unfold Z.succ. rewrite plus_IZR. lra. }
    destruct (Z.eq_dec (Int_part (q k)) (Int_part (q (S k)))) as [|Ne]; [auto|]. exfalso.
    assert (IZR (Int_part (q k)) + 1 <= IZR (Int_part (q (S k)))) by (rewrite <- plus_IZR; apply IZR_le; lia). lra. }
  assert (Q0 : q 0%nat = wc / (2 * (wp - wc))).
  { unfold q, n_divs, div_size, w_ltp. cbn [INR]. pose proof (Wlt 0%nat ltac:(lia)) as W0.
    unfold w, w_ltp in W0. cbn [INR] in W0. rewrite Rmult_0_l, Rplus_0_r in *. field. lra. }
  rewrite <- Em, Fl, (Fk i) by lia. rewrite Q0. reflexivity.
Qed.
End Alt.

Theorem alt_result g N mn mx fuel s : find_max_scale_alt g N mn mx fuel = Some (Ok s) ->
  0 < mn < mx /\ (1 <= N)%nat /\
  exists wp wc v, peak_of g fuel = Some (Ok (wp, Rabs (g wp))) /\
    first_of g (mn * Rabs (g wp)) 0 wp fuel = Some (Ok (wc, v)) /\ 0 <= wc <= wp /\ alt_scale wc wp N = Ok s.
Proof.
  unfold find_max_scale_alt. destruct (Rle_dec mx 0); [discriminate|]. destruct (Rle_dec mn 0); [discriminate|].
  destruct (Rle_dec mx mn); [discriminate|]. destruct (peak_of g fuel) as [[[wp pk]|]|] eqn:Ep; try discriminate. cbn [rbind].
  destruct (peak_nonneg _ _ _ _ Ep) as [W0 Ek]. destruct (first_of _ _ _ _ _) as [[[wc v]|]|] eqn:Ef; try discriminate.
  cbn [rbind]. intros E. injection E as E. split; [lra|].
  split; [unfold alt_scale in E; destruct (Nat.eqb_spec N 0); [discriminate|lia]|].
  exists wp, wc, v. rewrite Ek in *. split; [auto|]. split; [auto|]. split; [apply (first_range _ _ _ _ _ _ _ W0 Ef)|auto].
Qed.
(** the whole claim that holds *)
Theorem max_alt_straddles g N mn mx fuel s : find_max_scale_alt g N mn mx fuel = Some (Ok s) ->
  exists wp, peak_of g fuel = Some (Ok (wp, Rabs (g wp))) /\ 0 < s /\
  exists m : nat, (1 <= m)%nat /\ s * omega N m < wp < s * omega N (m + 1) /\
    let off := wp - (s * omega N m + s * omega N (m + 1)) / 2 in
    0 <= off < 2 / 10 * (s * omega N 1) /\ off < wp / (PI * s + 1).
Proof.
  intros E. destruct (alt_result _ _ _ _ _ _ E) as (_ & HN & wp & wc & v & Ep & Ef & Hw & Es).
  exists wp. split; [auto|]. destruct (alt_straddles wc wp N HN ltac:(lra) ltac:(lra) s Es) as (Hs & _ & m & Hm & A & B & D).
  split; [auto|]. exists (Z.to_nat m). assert (Np : 0 < INR N) by (apply lt_0_INR; lia).
  assert (O : forall k, s * omega N k = INR k * (s * (2 * PI / INR N))) by (intros; unfold omega; field; lra).
  assert (Mz : INR (Z.to_nat m) = IZR m) by (rewrite INR_IZR_INZ, Z2Nat.id by lia; reflexivity).
  cbv zeta. rewrite !O, plus_INR, Mz. cbn [INR]. set (d := s * (2 * PI / INR N)) in *.
  split; [lia|]. split; [lra|].
  replace (wp - (IZR m * d + (IZR m + 1) * d) / 2) with (wp - (IZR m + 1 / 2) * d) by field. lra.
Qed.
(** the left point of symmetry is not below where the wavelet attains [min_cutoff] (to a search step) *)
Theorem max_alt_lower g p N mn mx fuel s w wp : one_peak g p -> mn <= 1 ->
  find_max_scale_alt g N mn mx fuel = Some (Ok s) -> peak_of g fuel = Some (Ok (wp, Rabs (g wp))) -> wp < 10 ->
  0 <= w <= p -> Rabs (g w) = mn * Rabs (g wp) -> w - 1 / 1000 + / INR N <= wp - s * omega N 1 / 2.
Proof.
  intros HP Hmn E Ep Hw10 Hw Ew. destruct (alt_result _ _ _ _ _ _ E) as (Hc & HN & wp' & wc & v & Ep' & Ef & Hwc & Es).
  rewrite Ep in Ep'. injection Ep' as <-.
  pose proof (alt_straddles wc wp N HN ltac:(lra) ltac:(lra) s Es) as L0. cbv zeta in L0. destruct L0 as (Hs & L & _).
  assert (Np : 0 < INR N) by (apply lt_0_INR; lia).
  replace (s * omega N 1) with (s * (2 * PI / INR N)) by (unfold omega; cbn [INR]; field; lra).
  enough (Hn : Rabs (wc - w) <= 1 / 1000). { revert Hn. unfold Rabs. destruct (Rcase_abs (wc - w)); lra. }
  destruct (min_left_near g p fuel wp (Rabs (g wp)) HP Ep (- mn) w) as (s' & E' & N'); auto; try lra.
  - rewrite Rabs_Ropp, (Rabs_right mn) by lra. exact Ew.
  - unfold find_min_scale in E'. rewrite Ep in E'. cbn [rbind] in E'. destruct (Rlt_dec 0 (- mn)); [lra|].
    rewrite Rabs_Ropp, (Rabs_right mn) in E' by lra. rewrite Ef in E'. cbn [rbind] in E'. injection E' as <-.
    rewrite div_PI in N'. exact N'.
Qed.
Theorem alt_ignores_max g N mn mx1 mx2 fuel : 0 < mn < mx1 -> mn < mx2 ->
  find_max_scale_alt g N mn mx1 fuel = find_max_scale_alt g N mn mx2 fuel.
Proof.
  intros H1 H2. unfold find_max_scale_alt.
  destruct (Rle_dec mx1 0); [lra|]. destruct (Rle_dec mx2 0); [lra|]. destruct (Rle_dec mn 0); [lra|].
  destruct (Rle_dec mx1 mn); [lra|]. destruct (Rle_dec mx2 mn); [lra|]. reflexivity.
Qed.
Theorem alt_invalid g N mn mx fuel : mn <= 0 \/ mx <= mn -> find_max_scale_alt g N mn mx fuel = Some (Err ValueError).
Proof.
  intros H. unfold find_max_scale_alt. destruct (Rle_dec mx 0); [auto|]. destruct (Rle_dec mn 0); [auto|].
  destruct (Rle_dec mx mn); [auto|]. lra.
Qed.

(** a wavelet rising linearly to 1 and decaying as [1/w] *)
Definition saw (w : R) : R := if Rle_dec w 1 then w else / w.
Lemma saw_peak : one_peak saw 1.
Proof.
  assert (A : forall x, 0 <= x -> absf saw x = saw x).
  { intros x Hx. unfold absf. apply Rabs_right. unfold saw. destruct (Rle_dec x 1); [lra|]. left. apply Rinv_0_lt_compat. lra. }
  split; [lra|]. split; intros x y H1 H2.
  - intros H3. rewrite !A by lra. unfold saw. destruct (Rle_dec x 1), (Rle_dec y 1); lra.
  - rewrite !A by lra. unfold saw. destruct (Rle_dec y 1); [lra|]. destruct (Rle_dec x 1).
    + replace x with 1 by lra. rewrite <- Rinv_1. apply Rinv_lt_contravar; lra.
    + apply Rinv_lt_contravar; nra.
Qed.
Lemma saw_found : exists fuel, peak_of saw fuel = Some (Ok (1, 1)).
Proof.
  destruct (peak_exists saw 1 saw_peak ltac:(lra)) as (fuel & wp & pk & E).
  pose proof (wp_close saw 1 fuel wp pk saw_peak E) as C. destruct (peak_grid _ _ _ _ E) as (i0 & W & Ek & _).
  assert (IZR 999 < IZR (Z.of_nat i0) < IZR 1001) by (rewrite <- INR_IZR_INZ; lra).
  assert (Z.of_nat i0 = 1000%Z).
  { destruct H as [Ha Hb]. apply lt_IZR in Ha. apply lt_IZR in Hb. lia. }
  assert (wp = 1). { rewrite W, INR_IZR_INZ, H0. lra. }
  exists fuel. rewrite E, Ek, H1. unfold absf, saw. destruct (Rle_dec 1 1); [|lra]. rewrite Rabs_right by lra. reflexivity.
Qed.
Lemma saw_cutoff fuel mn i : peak_of saw fuel = Some (Ok (1, 1)) -> (i < NS)%nat -> 0 < mn <= 1 -> mn = INR i / 1000 ->
  exists y, first_of saw (mn * 1) 0 1 fuel = Some (Ok (mn, y)).
Proof.
  intros E Hi Hmn Em. destruct (min_left saw 1 fuel 1 1 saw_peak E (- mn)) as (j & Hj & Ej).
  all: try lra.
  - unfold absf, saw. destruct (Rle_dec 0 1); [|lra]. rewrite Rabs_R0. rewrite Rabs_Ropp, Rabs_right by lra. lra.
  - rewrite Rabs_Ropp, (Rabs_right mn) in Hj by lra.
    assert (P : pt 0 1 i = mn) by (unfold pt; rewrite Rmin_l; lra).
    assert (H : Rabs (pt 0 1 j - pt 0 1 i) <= 0).
    { apply (first_min_hit (absf saw) 1 0 1 0) with (v := mn * 1); auto; try lra.
      - intros a b _ _ H. rewrite Rplus_0_r in H. exact (left_mono saw 1 fuel 1 1 saw_peak E a b H).
      - rewrite P. unfold absf, saw. destruct (Rle_dec mn 1); [|lra]. rewrite Rabs_right; lra. }
    rewrite P in H. assert (Q : pt 0 1 j = mn) by (unfold Rabs in H; destruct (Rcase_abs (pt 0 1 j - mn)); lra).
    unfold find_min_scale in Ej. rewrite E in Ej. cbn [rbind] in Ej. destruct (Rlt_dec 0 (- mn)); [lra|].
    rewrite Rabs_Ropp, (Rabs_right mn) in Ej by lra. destruct (first_of saw (mn * 1) 0 1 fuel) as [[[x y]|]|]; try discriminate.
    cbn [rbind] in Ej. injection Ej as Ej. exists y. do 3 f_equal. apply (f_equal (fun z => z * PI)) in Ej.
    rewrite !div_PI in Ej. lra.
Qed.
Lemma mod1_val x z : IZR z <= x < IZR z + 1 -> mod1 x = x - IZR z.
Proof. intros H. unfold mod1. now rewrite (Int_part_unique x z H). Qed.
Lemma ceil_IZR z : Rceil (IZR z) = z.
Proof. unfold Rceil. rewrite <- opp_IZR, (Int_part_unique (IZR (- z)) (- z)); [lia|lra]. Qed.
Lemma saw_drop : drop_idx (6 / 10) 1 100 = Some 6%nat.
Proof.
  unfold drop_idx. set (q := n_divs (6 / 10) 1 100).
  assert (En : n_ltp (6 / 10) 1 100 = 40%nat).
  { unfold n_ltp. replace ((1 - 6 / 10) / (1 / INR 100)) with 40 by (rewrite INR_IZR_INZ; cbn [Z.of_nat Pos.of_succ_nat Pos.succ]; field).
    rewrite ceil_IZR. reflexivity. }
  rewrite En. assert (Q : forall j, q j = (60 + INR j) / (2 * (40 - INR j)) \/ INR j = 40).
  { intros j. destruct (Req_dec (INR j) 40) as [->|Hne]; [auto|left]. unfold q, n_divs, div_size, w_ltp.
    replace (INR 100) with 100 by (rewrite INR_IZR_INZ; reflexivity). field. split; lra. }
  assert (Q' : forall z, (0 <= z <= 7)%Z -> q (Z.to_nat z) = (60 + IZR z) / (2 * (40 - IZR z))).
  { intros z Hz. destruct (Q (Z.to_nat z)) as [C|C]; rewrite INR_IZR_INZ, Z2Nat.id in C by lia; [exact C|].
    apply eq_IZR in C. lia. }
  assert (M : forall z, (0 <= z <= 6)%Z -> mod1 (q (Z.to_nat z)) = (60 + IZR z) / (2 * (40 - IZR z))).
  { intros z Hz. rewrite (mod1_val _ 0); [rewrite Q' by lia; lra|]. rewrite Q' by lia.
    assert (0 <= IZR z <= 6) by (split; apply IZR_le; lia). split.
    - unfold Rdiv. apply Rmult_le_pos; [lra|]. left. apply Rinv_0_lt_compat. lra.
    - apply (Rmult_lt_reg_r (2 * (40 - IZR z))); [lra|]. unfold Rdiv. rewrite Rmult_assoc, Rinv_l; lra. }
  assert (M7 : mod1 (q 7%nat) = 67 / 66 - 1).
  { assert (V : q 7%nat = 67 / 66) by (change 7%nat with (Z.to_nat 7); rewrite (Q' 7%Z) by lia; field). rewrite (mod1_val _ 1); rewrite V; lra. }
  pose proof (M 0%Z ltac:(lia)) as M0. pose proof (M 1%Z ltac:(lia)) as M1. pose proof (M 2%Z ltac:(lia)) as M2.
  pose proof (M 3%Z ltac:(lia)) as M3. pose proof (M 4%Z ltac:(lia)) as M4. pose proof (M 5%Z ltac:(lia)) as M5.
  pose proof (M 6%Z ltac:(lia)) as M6.
  change (Z.to_nat 0) with 0%nat in M0. change (Z.to_nat 1) with 1%nat in M1. change (Z.to_nat 2) with 2%nat in M2.
  change (Z.to_nat 3) with 3%nat in M3. change (Z.to_nat 4) with 4%nat in M4. change (Z.to_nat 5) with 5%nat in M5.
  change (Z.to_nat 6) with 6%nat in M6.
  unfold Rltb'. cbn [first_where Nat.sub].
  rewrite M0, M1, M2, M3, M4, M5, M6, M7.
  repeat match goal with |- context [Rlt_dec ?a ?b] => destruct (Rlt_dec a b); [exfalso; lra|] end.
  destruct (Rlt_dec _ _); [reflexivity|]. exfalso. lra.
Qed.
(** both bins around the peak lie above [max_cutoff] *)
Theorem alt_above_max : exists g N mn mx fuel s m, one_peak g 1 /\ 0 < mn < mx /\ mx < 1 /\
  find_max_scale_alt g N mn mx fuel = Some (Ok s) /\ peak_of g fuel = Some (Ok (1, 1)) /\
  s * omega N m < 1 < s * omega N (m + 1) /\
  mx * 1 < g (s * omega N m) /\ mx * 1 < g (s * omega N (m + 1)).
Proof.
  destruct saw_found as (fuel & E). pose proof PI_RGT_0 as Hpi.
  assert (E6 : (6 / 10 = INR (Z.to_nat 600) / 1000)) by (rewrite INR_IZR_INZ; change (Z.of_nat (Z.to_nat 600)) with 600%Z; lra).
  destruct (saw_cutoff fuel (6 / 10) (Z.to_nat 600) E ltac:(nlia) ltac:(lra) E6) as (y & Ey).
  set (s := div_size (6 / 10) 1 100 7 / (PI / (INR 100 / 2))).
  assert (I100 : INR 100 = 100) by (rewrite INR_IZR_INZ; reflexivity).
  assert (Os : forall k, s * omega 100 k = 66 / 100 * INR k).
  { intros k. unfold s, omega, div_size, w_ltp. rewrite I100. replace (INR 7) with 7 by (rewrite INR_IZR_INZ; reflexivity). field. lra. }
  exists saw, 100%nat, (6 / 10), (65 / 100), fuel, s, 1%nat. split; [exact saw_peak|]. split; [lra|]. split; [lra|]. split.
  - unfold find_max_scale_alt. destruct (Rle_dec (65 / 100) 0); [lra|]. destruct (Rle_dec (6 / 10) 0); [lra|].
    destruct (Rle_dec (65 / 100) (6 / 10)); [lra|]. rewrite E. cbn [rbind]. rewrite Ey. cbn [rbind].
    unfold alt_scale. replace (100 =? 0)%nat with false by reflexivity. rewrite saw_drop. reflexivity.
  - split; [exact E|]. rewrite !Os. replace (INR (1 + 1)) with 2 by (cbn [Nat.add INR]; lra). change (INR 1) with 1.
    split; [lra|]. unfold saw. destruct (Rle_dec (66 / 100 * 1) 1); [|lra]. destruct (Rle_dec (66 / 100 * 2) 1); [lra|].
    split; [lra|]. replace (/ (66 / 100 * 2)) with (100 / 132) by (field). lra.
Qed.
(** few samples: no candidate, an exception *)
Theorem alt_short_raises : exists g fuel, one_peak g 1 /\
  find_max_scale_alt g 10 (6 / 10) (8 / 10) fuel = Some (Err PlainException).
Proof.
  destruct saw_found as (fuel & E).
  assert (E6 : (6 / 10 = INR (Z.to_nat 600) / 1000)) by (rewrite INR_IZR_INZ; change (Z.of_nat (Z.to_nat 600)) with 600%Z; lra).
  destruct (saw_cutoff fuel (6 / 10) (Z.to_nat 600) E ltac:(nlia) ltac:(lra) E6) as (y & Ey).
  exists saw, fuel. split; [exact saw_peak|]. unfold find_max_scale_alt.
  destruct (Rle_dec (8 / 10) 0); [lra|]. destruct (Rle_dec (6 / 10) 0); [lra|].
  destruct (Rle_dec (8 / 10) (6 / 10)); [lra|]. rewrite E. cbn [rbind]. rewrite Ey. cbn [rbind].
  unfold alt_scale. replace (10 =? 0)%nat with false by reflexivity.
  assert (D : drop_idx (6 / 10) 1 10 = None); [|now rewrite D].
  unfold drop_idx. assert (I10 : INR 10 = 10) by (rewrite INR_IZR_INZ; reflexivity).
  assert (En : n_ltp (6 / 10) 1 10 = 4%nat).
  { unfold n_ltp. rewrite I10. replace ((1 - 6 / 10) / (1 / 10)) with 4 by field. rewrite ceil_IZR. reflexivity. }
  rewrite En. set (q := n_divs _ _ _).
  assert (Q0 : q 0%nat = 3 / 4) by (unfold q, n_divs, div_size, w_ltp; rewrite I10; cbn [INR]; field).
  assert (Q1 : q 1%nat = 7 / 6) by (unfold q, n_divs, div_size, w_ltp; rewrite I10; cbn [INR]; field).
  assert (Q2 : q 2%nat = 2) by (unfold q, n_divs, div_size, w_ltp; rewrite I10; cbn [INR]; field).
  cbn [Nat.sub first_where]. rewrite (mod1_val (q 0%nat) 0), (mod1_val (q 1%nat) 1), (mod1_val (q 2%nat) 2) by lra.
  rewrite Q0, Q1, Q2. unfold Rltb'.
  repeat match goal with |- context [Rlt_dec ?a ?b] => destruct (Rlt_dec a b); [exfalso; lra|] end. reflexivity.
Qed.
