(** Changing the sign of every other sample turns [stft] upside down. *)
From Coq Require Import Reals Lra ZifyBool ZifyNat.
From Verif Require Import Py Round Parallel Cplx CplxProofs Padding PaddingProofs Buffer BufferProofs Freqs Stft StftProofs Squeeze SqueezeProofs BinProofs
  SqueezeThms SqueezeThms2 SqueezeThms3 Scales Ssqueeze SsqueezeProofs FreqRange Cwt CwtProofs CwtThms Transport RateThms SymmThms StftTone StftMap.
Import Stft.
Local Open Scope R_scope.
Ltac Zify.zify_post_hook ::= Z.div_mod_to_equations.

(** [(-1)^z] *)
Definition sg (z : Z) : R := if Z.even z then 1 else -1.
Lemma sg_add a b : sg (a + b) = sg a * sg b.
Proof. unfold sg. rewrite Z.even_add. destruct (Z.even a), (Z.even b); cbn; ring. Qed.
Lemma sg_opp a : sg (- a) = sg a.
Proof. unfold sg. rewrite Z.even_opp. reflexivity. Qed.
Lemma sg_two a b c : (a = b + 2 * c)%Z -> sg a = sg b.
Proof. intros ->. unfold sg. rewrite Z.even_add, Z.even_mul. cbn [Z.even orb]. destruct (Z.even b); reflexivity. Qed.
Lemma sg_sq a : sg a * sg a = 1.
Proof. unfold sg. destruct (Z.even a); ring. Qed.
(** every other sample with its sign changed *)
Definition alternate (x x' : list R) : Prop := length x' = length x /\ forall i, (i < length x)%nat -> nth i x' 0 = sg (Z.of_nat i) * nth i x 0.

Lemma tw_half p m : (1 <= p)%nat -> tw (2 * p) (Z.of_nat p * m) = RtoC (sg m).
Proof.
  intros Hp. assert (E0 : tw (2 * p) (Z.of_nat p) = RtoC (-1)).
  { unfold tw. rewrite mult_INR, <- INR_IZR_INZ. replace (2 * PI * INR p / (INR 2 * INR p)) with PI.
    - unfold cis, RtoC. rewrite cos_PI, sin_PI. reflexivity.
    - change (INR 2) with 2. field. apply not_0_INR. lia. }
  unfold sg. destruct (Z.even m) eqn:E.
  - apply Z.even_spec in E. destruct E as (q & ->). replace (Z.of_nat p * (2 * q))%Z with (Z.of_nat (2 * p) * q)%Z by lia. rewrite tw_mul_n by lia. reflexivity.
  - assert (O : Z.odd m = true) by (rewrite <- Z.negb_even, E; reflexivity). apply Z.odd_spec in O. destruct O as (q & ->).
    replace (Z.of_nat p * (2 * q + 1))%Z with (Z.of_nat p + Z.of_nat (2 * p) * q)%Z by lia. rewrite tw_shift by lia. exact E0.
Qed.

(** frames whose padded samples alternate with the signal *)
Definition pad_even (pt : padtype) (N : nat) : Prop := pt = PZero \/ (pt = PReflect /\ (2 <= N)%nat) \/ (pt = PWrap /\ Nat.even N = true).
Definition frame_ok (a : stft_args) (n : nat) (x : list R) (h : nat) : Prop :=
  interior n (length x) (Z.to_nat (a_hop a)) h \/ pad_even (a_padtype a) (length x).
Lemma reflect_even N m : (2 <= N)%Z -> let P := (2 * (N - 1))%Z in let p := (m mod P)%Z in
  (0 <= (if p <? N then p else P - p) < N)%Z /\ sg (if (p <? N)%Z then p else (P - p)%Z) = sg m.
Proof.
  intros HN P p. pose proof (Z.mod_pos_bound m P ltac:(lia)) as B. fold p in B. pose proof (Z.div_mod m P ltac:(lia)) as D. fold p in D.
  assert (E : sg m = sg p) by (apply (sg_two _ _ ((N - 1) * (m / P))); rewrite D at 1; unfold P; ring).
  destruct (Z.ltb_spec p N); (split; [lia|]); rewrite E; [reflexivity|].
  rewrite <- (sg_opp p). apply (sg_two _ _ (N - 1)). unfold P. ring.
Qed.
Lemma index_even pt N m k : pad_even pt N -> np_pad_index pt (Z.of_nat N) m = Some k -> (1 <= N)%nat -> (0 <= k < Z.of_nat N)%Z /\ sg k = sg m.
Proof.
  intros Hp E HN. unfold np_pad_index in E. destruct ((0 <=? m)%Z && (m <? Z.of_nat N)%Z)%bool eqn:B; [injection E as <-; split; [lia|reflexivity]|].
  destruct Hp as [->|[(-> & H2)|(-> & H2)]]; [discriminate| |].
  - destruct (Z.eqb_spec (Z.of_nat N) 1); [lia|]. cbv zeta in E. injection E as <-. apply (reflect_even (Z.of_nat N) m). lia.
  - injection E as <-. pose proof (Z.mod_pos_bound m (Z.of_nat N) ltac:(lia)). pose proof (Z.div_mod m (Z.of_nat N) ltac:(lia)) as D.
    split; [lia|]. apply Nat.even_spec in H2. destruct H2 as (c & Hc). symmetry. apply (sg_two _ _ (Z.of_nat c * (m / Z.of_nat N))).
    assert (HZ : Z.of_nat N = (2 * Z.of_nat c)%Z) by lia. set (z := Z.of_nat N) in *. set (q := (m / z)%Z) in *. set (t := (m mod z)%Z) in *. rewrite D, HZ. ring.
Qed.
Lemma pads_alternate x x' a n xp xp' h u : (1 <= n)%nat -> x <> [] -> alternate x x' -> padded x a n xp -> padded x' a n xp' ->
  (forall i, (i < length x)%nat -> nth (n / 2 + i) xp 0 = nth i x 0) -> (forall i, (i < length x)%nat -> nth (n / 2 + i) xp' 0 = nth i x' 0) ->
  frame_ok a n x h -> (u < n)%nat -> (Z.of_nat (Z.to_nat (a_hop a) * h + u) < Z.of_nat (length x) + Z.of_nat n - 1)%Z ->
  nth (Z.to_nat (a_hop a) * h + u) xp' 0 = sg (Z.of_nat (Z.to_nat (a_hop a) * h + u) - Z.of_nat (n / 2)) * nth (Z.to_nat (a_hop a) * h + u) xp 0.
Proof.
  intros Hn Hx (HL & HA) (n_up & n2 & P) (n_up' & n2' & P') S1 S2 Hf Hu Hr.
  set (i := (Z.to_nat (a_hop a) * h + u)%nat) in *. set (N := length x) in *.
  assert (HN : (1 <= N)%nat) by (unfold N; destruct x; [congruence|simpl; lia]).
  assert (IN : forall j, (n / 2 <= j)%nat -> (j < n / 2 + N)%nat -> nth j xp' 0 = sg (Z.of_nat j - Z.of_nat (n / 2)) * nth j xp 0).
  { intros j J1 J2. replace j with (n / 2 + (j - n / 2))%nat by lia. rewrite S1, S2, HA by (fold N; lia). f_equal. f_equal. lia. }
  destruct Hf as [(I1 & I2)|Hp]; [apply IN; unfold i in *; lia|].
  assert (Hs : a_padtype a <> PSymmetric) by (destruct Hp as [->|[(-> & _)|(-> & _)]]; discriminate).
  assert (Hx' : x' <> []) by (destruct x', x; [congruence|discriminate|discriminate|discriminate]).
  rewrite HL in P'. fold N in P, P'. set (pl := (Z.of_nat N + Z.of_nat n - 1)%Z) in *.
  destruct (pad_widths (Z.of_nat N) (Some pl)) as [[q1 q2] q3] eqn:EW.
  destruct (padsignal_np R 0 x (a_padtype a) (Some pl) q1 q2 q3 Hx Hs) as (yp & E1 & L1 & V1); [intros p Q; injection Q as <-; fold N; lia|exact EW|].
  destruct (padsignal_np R 0 x' (a_padtype a) (Some pl) q1 q2 q3 Hx' Hs) as (yp' & E2 & L2 & V2); [intros p Q; injection Q as <-; rewrite HL; fold N; lia|rewrite HL; exact EW|].
  rewrite P in E1. rewrite P' in E2. injection E1 as <- U1 U2 U3. injection E2 as <- _ _ _.
  destruct (pad_widths_spec (Z.of_nat N) (Some pl) _ _ _ ltac:(lia) ltac:(intros p Q; injection Q as <-; lia) EW) as (Hsum & HB1 & HB2 & Hup).
  assert (EQ : q1 = pl) by exact Hup.
  specialize (V1 (Z.of_nat i) ltac:(lia)). specialize (V2 (Z.of_nat i) ltac:(lia)). rewrite Nat2Z.id in V1, V2. rewrite V1, V2. unfold pad_at. rewrite HL. fold N.
  assert (En : Z.of_nat (n / 2) = q2) by lia. rewrite En.
  destruct (np_pad_index (a_padtype a) (Z.of_nat N) (Z.of_nat i - q2)) as [k|] eqn:EK; [|ring].
  destruct (index_even _ _ _ _ Hp EK HN) as (B & D). rewrite HA by (fold N; lia). rewrite Z2Nat.id by lia. rewrite D. reflexivity.
Qed.

(** row [n/2 - k], conjugate, with the sign of the column's middle *)
Lemma cell_flip x x' a p g xp xp' k h : let n := (2 * p)%nat in (1 <= p)%nat -> (k <= p)%nat ->
  (forall u, (u < n)%nat -> nth (Z.to_nat (a_hop a) * h + u) xp' 0 = sg (Z.of_nat (Z.to_nat (a_hop a) * h + u) - Z.of_nat p) * nth (Z.to_nat (a_hop a) * h + u) xp 0) ->
  alternate x x' ->
  cell a n g xp' k h = Cmul (RtoC (sg (Z.of_nat (Z.to_nat (a_hop a) * h) + phase_ref a (Z.of_nat n) - Z.of_nat p))) (Cconj (cell a n g xp (p - k) h)).
Proof.
  intros n Hp Hk HS _. unfold cell. rewrite Csum_conj, <- Csum_scal. apply Csum_ext. intros u Hu. rewrite HS by exact Hu.
  set (H := (Z.to_nat (a_hop a) * h)%nat). set (r := phase_ref a (Z.of_nat n)).
  rewrite Cconj_mul, Cconj_RtoC, <- (tw_opp n ltac:(unfold n; lia)).
  replace (- - (Z.of_nat (p - k) * (Z.of_nat u - r)))%Z with (Z.of_nat p * (Z.of_nat u - r) + - (Z.of_nat k * (Z.of_nat u - r)))%Z by (rewrite Nat2Z.inj_sub by exact Hk; ring).
  rewrite tw_add by (unfold n; lia). pose proof (tw_half p (Z.of_nat u - r) Hp) as T. fold n in T. rewrite T.
  replace (Z.of_nat (H + u) - Z.of_nat p)%Z with ((Z.of_nat H + r - Z.of_nat p) + (Z.of_nat u - r))%Z by lia. rewrite sg_add.
  apply C_eq; unfold Cmul, RtoC; cbn [fst snd]; ring.
Qed.

(** the sign of column [h] *)
Definition col_sign (a : stft_args) (n h : nat) : R := sg (Z.of_nat (Z.to_nat (a_hop a) * h) + (if a_modulated a then 0 else Z.of_nat (n / 2))).
Theorem stft_flip x x' a n w : usable x a n w -> Nat.even n = true -> alternate x x' ->
  exists Sx dSx Sx' dSx', stft x a = Ok (Sx, dSx) /\ stft x' a = Ok (Sx', dSx') /\ nrows Sx = (n / 2 + 1)%nat /\ nrows Sx' = nrows Sx /\ ncols Sx' = ncols Sx /\
  forall k h, (k <= n / 2)%nat -> (h < ncols Sx)%nat -> frame_ok a n x h ->
    el Sx' (n / 2 - k)%nat h = Cmul (RtoC (col_sign a n h)) (Cconj (el Sx k h)) /\ el dSx' (n / 2 - k)%nat h = Cmul (RtoC (col_sign a n h)) (Cconj (el dSx k h)).
Proof.
  intros Hx He Ha. assert (Hx' : usable x' a n w) by (apply (usable_len x); [apply Ha|exact Hx]).
  destruct (stft_cells x a n w Hx) as (xp & X & dX & P1 & L1 & A1 & E1 & R1 & D1 & K1 & N1 & F1 & V1).
  destruct (stft_cells x' a n w Hx') as (yp & Y & dY & P2 & L2 & A2 & E2 & R2 & D2 & K2 & N2 & F2 & V2).
  rewrite (proj1 Ha) in N2, A2, L2.
  exists X, dX, Y, dY. split; [exact E1|]. split; [exact E2|]. split; [exact R1|]. split; [congruence|]. assert (Ec : ncols Y = ncols X) by lia. split; [exact Ec|].
  intros k h Hk Hh Hf. destruct (V1 k h Hh) as [-> ->]. destruct (V2 (n / 2 - k)%nat h ltac:(congruence)) as [-> ->].
  apply Nat.even_spec in He. destruct He as (p & Hp). assert (Ep : (n / 2 = p)%nat) by lia. destruct Hx as (X1 & X2 & X3 & _).
  assert (Es : col_sign a n h = sg (Z.of_nat (Z.to_nat (a_hop a) * h) + phase_ref a (Z.of_nat (2 * p)) - Z.of_nat p)).
  { unfold col_sign, phase_ref. rewrite Ep. destruct (a_modulated a).
    - f_equal. lia.
    - apply (sg_two _ _ (Z.of_nat p)). lia. }
  assert (HS : forall u, (u < n)%nat -> nth (Z.to_nat (a_hop a) * h + u) yp 0 = sg (Z.of_nat (Z.to_nat (a_hop a) * h + u) - Z.of_nat p) * nth (Z.to_nat (a_hop a) * h + u) xp 0).
  { intros u Hu. rewrite <- Ep. apply (pads_alternate x x' a n xp yp h u); try assumption. specialize (F1 h Hh). lia. }
  rewrite Es, Ep. split.
  - pose proof (cell_flip x x' a p w xp yp (p - k) h ltac:(lia) ltac:(lia)) as Q. cbv zeta in Q. rewrite <- Hp in Q. rewrite Q by assumption.
    replace (p - (p - k))%nat with k by lia. rewrite Hp. reflexivity.
  - pose proof (cell_flip x x' a p (dwindow a w) xp yp (p - k) h ltac:(lia) ltac:(lia)) as Q. cbv zeta in Q. rewrite <- Hp in Q. rewrite Q by assumption.
    replace (p - (p - k))%nat with k by lia. rewrite Hp. reflexivity.
Qed.
