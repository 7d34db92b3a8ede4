(** The energy of [stft]. *)
From Coq Require Import Reals Lra ZifyBool ZifyNat.
From Verif Require Import Py Round Cplx CplxProofs Padding PaddingProofs Buffer Freqs Stft StftProofs CwtThms StftTone StftMap.
Import Stft.
Local Open Scope R_scope.
Ltac Zify.zify_post_hook ::= Z.div_mod_to_equations.

(** how often bin [k] of the one-sided spectrum occurs in the two-sided one *)
Definition weight (n k : nat) : R := if (k =? 0)%nat || (2 * k =? n)%nat then 1 else 2.
(** energy of all bins of column [h], and of all columns *)
Definition col_energy (n : nat) (S : mat C) (h : nat) : R := Rsum (n / 2 + 1) (fun k => weight n k * Cabs (el S k h) ^ 2).
Definition energy (n : nat) (S : mat C) : R := Rsum (ncols S) (col_energy n S).
Definition sumsq (x : list R) : R := Rsum (length x) (fun i => nth i x 0 ^ 2).

Lemma fold_half n F : (1 <= n)%nat -> (forall k, (0 < k < n)%nat -> F (n - k)%nat = F k) ->
  Rsum n F = Rsum (n / 2 + 1) (fun k => weight n k * F k).
Proof.
  intros Hn HF. replace (n / 2 + 1)%nat with (S (n / 2)) by lia. rewrite Rsum_first. unfold weight at 1. cbn [Nat.eqb orb].
  replace n with (S (n - 1)) at 1 by lia. rewrite Rsum_first. rewrite Rmult_1_l. f_equal.
  set (p := ((n - 1) / 2)%nat).
  assert (A : Rsum p (fun i => F (S i)) = Rsum p (fun i => F (n - S i)%nat)) by (apply Rsum_ext; intros i Hi; symmetry; apply HF; lia).
  destruct (Nat.eq_dec (n mod 2) 0) as [E|E].
  - (* [n - 1 = p + 1 + p], [n / 2 = p + 1] *)
    replace (n - 1)%nat with (p + S p)%nat by lia. replace (n / 2)%nat with (p + 1)%nat by lia. rewrite !Rsum_app.
    rewrite Rsum_first. cbn [Rsum]. rewrite (Rsum_rev p (fun i => F (S (p + S i)))).
    rewrite (Rsum_ext p (fun i => F (S (p + S (p - 1 - i)))) (fun i => F (n - S i)%nat)) by (intros i Hi; f_equal; lia). rewrite <- A.
    rewrite (Rsum_ext p (fun k => weight n (S k) * F (S k)) (fun k => 2 * F (S k))).
    2:{ intros i Hi. unfold weight. destruct (Nat.eqb_spec (S i) 0), (Nat.eqb_spec (2 * S i) n); cbn [orb]; try reflexivity; lia. }
    rewrite Rsum_scal. unfold weight. rewrite Nat.add_0_r.
    destruct (Nat.eqb_spec (S p) 0), (Nat.eqb_spec (2 * S p) n); cbn [orb]; try lia. ring.
  - replace (n - 1)%nat with (p + p)%nat by lia. replace (n / 2)%nat with p by lia. rewrite Rsum_app.
    rewrite (Rsum_rev p (fun i => F (S (p + i)))).
    rewrite (Rsum_ext p (fun i => F (S (p + (p - 1 - i)))) (fun i => F (n - S i)%nat)) by (intros i Hi; f_equal; lia). rewrite <- A.
    rewrite (Rsum_ext p (fun k => weight n (S k) * F (S k)) (fun k => 2 * F (S k))).
    2:{ intros i Hi. unfold weight. destruct (Nat.eqb_spec (S i) 0), (Nat.eqb_spec (2 * S i) n); cbn [orb]; try reflexivity; lia. }
    rewrite Rsum_scal. ring.
Qed.
Definition frame_at (a : stft_args) (g xp : list R) (h u : nat) : R := nth (Z.to_nat (a_hop a) * h + u) xp 0 * nth u g 0.
Lemma cell_dft a n g xp k h : (1 <= n)%nat ->
  cell a n g xp k h = Cmul (tw n (Z.of_nat k * phase_ref a (Z.of_nat n))) (dft n (fun u => RtoC (frame_at a g xp h u)) k).
Proof.
  intros Hn. unfold cell, dft. rewrite <- Csum_scal. apply Csum_ext. intros u Hu. unfold frame_at.
  replace (- (Z.of_nat k * (Z.of_nat u - phase_ref a (Z.of_nat n))))%Z with (Z.of_nat k * phase_ref a (Z.of_nat n) + - (Z.of_nat k * Z.of_nat u))%Z by ring.
  rewrite tw_add by exact Hn. apply C_eq; unfold Cmul, RtoC; cbn [fst snd]; ring.
Qed.
Lemma cell_norm a n g xp k h : (1 <= n)%nat -> Cabs (cell a n g xp k h) ^ 2 = Cnorm2 (dft n (fun u => RtoC (frame_at a g xp h u)) k).
Proof.
  intros Hn. rewrite cell_dft by exact Hn. rewrite Cabs_mul. unfold tw. rewrite Cabs_cis, Rmult_1_l, <- Cabs_sqr. ring.
Qed.
Lemma col_parseval a n g xp h : (1 <= n)%nat ->
  Rsum (n / 2 + 1) (fun k => weight n k * Cabs (cell a n g xp k h) ^ 2) = INR n * Rsum n (fun u => frame_at a g xp h u ^ 2).
Proof.
  intros Hn. rewrite (Rsum_ext _ _ (fun k => weight n k * Cnorm2 (dft n (fun u => RtoC (frame_at a g xp h u)) k))) by (intros; rewrite cell_norm by exact Hn; reflexivity).
  rewrite <- (fold_half n (fun k => Cnorm2 (dft n (fun u => RtoC (frame_at a g xp h u)) k)) Hn).
  - rewrite parseval by exact Hn. f_equal. apply Rsum_ext. intros u Hu. unfold Cnorm2, RtoC. cbn [fst snd]. ring.
  - intros k Hk. rewrite (dft_real_sym n Hn (frame_at a g xp h)) by lia. unfold Cnorm2, Cconj. cbn [fst snd]. ring.
Qed.
Lemma Rsum_window n s L G : (s + n <= L)%nat ->
  Rsum L (fun t => if (s <=? t)%nat && (t <? s + n)%nat then G t else 0) = Rsum n (fun u => G (s + u)%nat).
Proof.
  intros H. replace L with (s + (n + (L - s - n)))%nat by lia. rewrite !Rsum_app.
  rewrite (Rsum_0 s) by (intros i Hi; destruct (Nat.leb_spec s i), (Nat.ltb_spec i (s + n)); cbn [andb]; reflexivity || lia).
  rewrite (Rsum_0 (L - s - n)) by (intros i Hi; destruct (Nat.leb_spec s (s + (n + i))), (Nat.ltb_spec (s + (n + i)) (s + n)); cbn [andb]; reflexivity || lia).
  rewrite Rplus_0_l, Rplus_0_r. apply Rsum_ext. intros u Hu.
  destruct (Nat.leb_spec s (s + u)), (Nat.ltb_spec (s + u) (s + n)); cbn [andb]; reflexivity || lia.
Qed.
(** in every column, and in total: every padded sample counts with the squared windows over it *)
Theorem stft_energy x a n w : usable x a n w -> exists xp Sx dSx, padded x a n xp /\ stft x a = Ok (Sx, dSx) /\
  (forall h, (h < ncols Sx)%nat -> col_energy n Sx h = INR n * Rsum n (fun u => (nth (Z.to_nat (a_hop a) * h + u) xp 0 * nth u w 0) ^ 2)) /\
  energy n Sx = INR n * Rsum (length xp) (fun t => nth t xp 0 ^ 2 * wsum w (Z.to_nat (a_hop a)) (ncols Sx) 2 t).
Proof.
  intros Hx. pose proof Hx as (_ & Hn & Hhop & _ & _ & Hlw & _).
  destruct (stft_cells x a n w Hx) as (xp & X & dX & P1 & L1 & A1 & E1 & R1 & D1 & K1 & C1 & F1 & V1).
  exists xp, X, dX. split; [exact P1|]. split; [exact E1|].
  assert (HC : forall h, (h < ncols X)%nat -> col_energy n X h = INR n * Rsum n (fun u => (nth (Z.to_nat (a_hop a) * h + u) xp 0 * nth u w 0) ^ 2)).
  { intros h Hh. unfold col_energy. rewrite (Rsum_ext _ _ (fun k => weight n k * Cabs (cell a n w xp k h) ^ 2)) by (intros k Hk; rewrite (proj1 (V1 k h Hh)); reflexivity).
    apply col_parseval, Hn. }
  split; [exact HC|]. unfold energy. rewrite (Rsum_ext _ _ _ HC). rewrite Rsum_scal. f_equal.
  rewrite (Rsum_ext (length xp) _ (fun t => Rsum (ncols X) (fun h => if (h * Z.to_nat (a_hop a) <=? t)%nat && (t <? h * Z.to_nat (a_hop a) + n)%nat
     then (nth t xp 0 * nth (t - h * Z.to_nat (a_hop a)) w 0) ^ 2 else 0))).
  2:{ intros t Ht. unfold wsum. rewrite <- Rsum_scal. apply Rsum_ext. intros h Hh. rewrite Hlw. destruct (_ && _); ring. }
  rewrite (Rsum_swap (length xp) (ncols X)). apply Rsum_ext. intros h Hh. specialize (F1 h Hh). rewrite Rsum_window by lia. apply Rsum_ext. intros u Hu. unfold frame_at.
  replace (h * Z.to_nat (a_hop a) + u - h * Z.to_nat (a_hop a))%nat with u by lia. rewrite (Nat.mul_comm h). reflexivity.
Qed.
(** padded with zeros: a sum over the signal *)
Lemma zero_padded x a n xp : x <> [] -> (1 <= n)%nat -> a_padtype a = PZero -> padded x a n xp ->
  Z.of_nat (length xp) = (Z.of_nat (length x) + Z.of_nat n - 1)%Z /\
  forall t, (t < length xp)%nat -> nth t xp 0 = if (n / 2 <=? t)%nat && (t <? n / 2 + length x)%nat then nth (t - n / 2) x 0 else 0.
Proof.
  intros Hx Hn Hz (n_up & n2 & E). rewrite Hz in E. set (N := Z.of_nat (length x)) in *. set (p := Z.of_nat n) in *.
  assert (HN : (1 <= N)%Z) by (unfold N; destruct x; [congruence|cbn; lia]).
  destruct (padsignal_np _ 0 x PZero (Some (N + p - 1)%Z) (N + p - 1)%Z (p / 2)%Z ((p - 1) / 2)%Z Hx ltac:(discriminate)) as (xp' & E' & Hl & Hat).
  { intros q Hq. injection Hq as <-. unfold N in *. lia. }
  { unfold pad_widths. fold N. replace (N + p - 1 - N)%Z with (p - 1)%Z by lia.
    destruct (Z.eqb_spec (Z.abs (p - 1) mod 2) 0); (apply (f_equal2 pair); [apply (f_equal2 pair)|]; lia). }
  fold N in E'. rewrite E in E'. injection E' as <- _ _. split; [exact Hl|]. intros t Ht. replace t with (Z.to_nat (Z.of_nat t)) at 1 by lia. rewrite Hat by lia.
  destruct (Nat.leb_spec (n / 2) t), (Nat.ltb_spec t (n / 2 + length x)); cbn [andb]; try (apply ext_zero; unfold p, N in *; lia).
  replace (Z.of_nat t) with (p / 2 + Z.of_nat (t - n / 2))%Z by (unfold p; lia). rewrite pad_at_inside by lia. f_equal. lia.
Qed.
Theorem stft_energy_zero x a n w : usable x a n w -> a_padtype a = PZero -> exists Sx dSx, stft x a = Ok (Sx, dSx) /\
  energy n Sx = INR n * Rsum (length x) (fun i => nth i x 0 ^ 2 * wsum w (Z.to_nat (a_hop a)) (ncols Sx) 2 (n / 2 + i)).
Proof.
  intros Hx Hz. pose proof Hx as (Hx0 & Hn & _). destruct (stft_energy x a n w Hx) as (xp & Sx & dSx & P & E & _ & HE). exists Sx, dSx. split; [exact E|].
  rewrite HE. f_equal. destruct (zero_padded x a n xp Hx0 Hn Hz P) as (HL & Hat).
  rewrite (Rsum_ext (length x) _ (fun u => nth (n / 2 + u - n / 2) x 0 ^ 2 * wsum w (Z.to_nat (a_hop a)) (ncols Sx) 2 (n / 2 + u)))
    by (intros u Hu; replace (n / 2 + u - n / 2)%nat with u by lia; reflexivity).
  rewrite <- (Rsum_window (length x) (n / 2) (length xp) (fun t => nth (t - n / 2) x 0 ^ 2 * wsum w (Z.to_nat (a_hop a)) (ncols Sx) 2 t)) by lia.
  apply Rsum_ext. intros t Ht. rewrite Hat by exact Ht. destruct (_ && _); ring.
Qed.
(** between the least and the largest sum of squared windows *)
Theorem stft_frame x a n w lo hi : usable x a n w -> a_padtype a = PZero -> exists Sx dSx, stft x a = Ok (Sx, dSx) /\
  ((forall i, (i < length x)%nat -> lo <= wsum w (Z.to_nat (a_hop a)) (ncols Sx) 2 (n / 2 + i) <= hi) ->
   INR n * lo * sumsq x <= energy n Sx <= INR n * hi * sumsq x).
Proof.
  intros Hx Hz. destruct (stft_energy_zero x a n w Hx Hz) as (Sx & dSx & E & HE). exists Sx, dSx. split; [exact E|]. intros Hb. rewrite HE.
  pose proof (pos_INR n). unfold sumsq. rewrite !Rmult_assoc.
  split; apply Rmult_le_compat_l; try assumption; rewrite <- ?Rsum_scal; apply Rsum_le; intros i Hi; pose proof (Hb i Hi); pose proof (pow2_ge_0 (nth i x 0)); nra.
Qed.
