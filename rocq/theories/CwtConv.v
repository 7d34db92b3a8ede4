(** [cwt] in the time domain: each row is the circular convolution of the padded signal with the
    wavelet [psifn] returns; the transform of an impulse. *)
From Coq Require Import Reals Lra ZifyBool ZifyNat.
From Verif Require Import Py Padding PaddingProofs Cplx CplxProofs Freqs Stft Squeeze BinProofs Scales Ssqueeze ShiftProofs Cwt CwtProofs CwtThms CwtTone RoundTrip
  GmwOrders Resol ResolProofs SsqCwtProofs CwtEnergy SymmInst Separate.
Local Open Scope R_scope.
Ltac Zify.zify_post_hook ::= Z.div_mod_to_equations.

Lemma real_of f g : real_wavelet f g -> real_valued f.
Proof. intros H w. rewrite H. reflexivity. Qed.

Lemma psih_halved f g s n k : real_wavelet f g -> (k < n)%nat -> psih_val f s n false k = RtoC (halved g s n k).
Proof.
  intros Hf Hk. unfold psih_val, halved. rewrite nth_xifn by exact Hk. rewrite Hf.
  replace (s * (IZR (xi_bin n k) * (1 * (2 * PI) / INR n))) with (s * (2 * PI * IZR (xi_bin n k) / INR n)) by (unfold Rdiv; ring).
  cbn [negb andb]. destruct (Nat.eqb_spec (n mod 2) 0), (Nat.eqb_spec k (n / 2)), (Nat.eqb_spec (2 * k) n); cbn [andb]; try lia; try reflexivity.
  rewrite <- RtoC_mul. f_equal. unfold Rdiv. ring. all: apply Hf.
Qed.

(** the response of a row to an impulse at [0] *)
Definition kernel (g : R -> R) (s : R) (n m : nat) : C := idft n (fun k => RtoC (halved g s n k)) m.

Lemma row_conv f g s xp j : real_wavelet f g -> (1 <= length xp)%nat -> (j < length xp)%nat ->
  row_val f s xp j = Csum (length xp) (fun t => Cmul (RtoC (nth t xp 0)) (kernel g s (length xp) ((j + (length xp - t)) mod length xp))).
Proof.
  intros Hf Hn Hj. set (n := length xp) in *. unfold row_val. fold n.
  rewrite <- (conv_theorem n Hn (fun t => RtoC (nth t xp 0)) (kernel g s n) j Hj).
  apply idft_ext. intros k Hk. rewrite (psih_halved f g) by assumption.
  change (kernel g s n) with (idft n (fun q => RtoC (halved g s n q))). rewrite (dft_idft n Hn (fun q => RtoC (halved g s n q)) k Hk). unfold sig_dft. fold n. ring.
Qed.

(** [psifn] is that response, moved to the middle *)
Lemma psifn_kernel f g s n m : real_wavelet f g -> (1 <= n)%nat -> (n mod 2 = 0)%nat -> (m < n)%nat ->
  nth ((m + n / 2) mod n) (psifn f s n) C0 = kernel g s n m.
Proof.
  intros Hf Hn He Hm. rewrite (nth_psifn f g) by (auto; apply Nat.mod_upper_bound; lia).
  unfold kernel, idft. f_equal. apply Csum_ext. intros k Hk.
  assert (E : tw n (Z.of_nat k * Z.of_nat ((m + n / 2) mod n)) = Cmul (tw n (Z.of_nat k * Z.of_nat m)) (RtoC (sgn1 k))).
  { rewrite <- (tw_half n k Hn He), <- tw_add by lia.
    destruct (Nat.lt_ge_cases (m + n / 2) n) as [L|L].
    - rewrite Nat.mod_small by lia. f_equal. lia.
    - replace (m + n / 2)%nat with (m + n / 2 - n + 1 * n)%nat at 1 by lia. rewrite Nat.mod_add by lia. rewrite Nat.mod_small by lia.
      rewrite <- (tw_shift n Hn (Z.of_nat k * Z.of_nat (m + n / 2 - n)) (Z.of_nat k)). f_equal. nia. }
  rewrite E, RtoC_mul. pose proof (sgn1_sq k) as Q. apply (f_equal RtoC) in Q. rewrite RtoC_mul in Q.
  replace (RtoC (halved g s n k)) with (Cmul (RtoC (halved g s n k)) (Cmul (RtoC (sgn1 k)) (RtoC (sgn1 k)))) at 2; [ring|].
  rewrite Q. change (RtoC 1) with C1. ring.
Qed.

(** the column of the padded transform that column [j] of the result is *)
Definition origin (a : cwt_args) (n1 : Z) : nat := if negb (a_rpadded a) && (if a_pad a then true else false) then Z.to_nat n1 else 0%nat.
Definition gain (a : cwt_args) (s : R) : R := if a_l1 a then 1 else sqrt s.

Lemma finish_gain a n1 s G j : finish_cell a n1 s G j = Cmul (RtoC (gain a s)) (G (origin a n1 + j)%nat).
Proof. unfold finish_cell, gain, origin. destruct (a_l1 a); [change (RtoC 1) with C1|]; ring. Qed.

Lemma pad_even pt x xp n1 : pad_input (Some pt) x = Ok (xp, n1) -> (length xp mod 2 = 0)%nat.
Proof.
  intros H. destruct (pad_input_len _ _ _ _ H) as (u & n2 & E & L & _).
  assert (HN : (1 <= Z.of_nat (length x))%Z) by (destruct x; [discriminate H|cbn [length]; lia]).
  destruct (p2up_bounds _ _ _ _ HN E) as ((k & Hk & Eu) & _).
  replace k with (1 + (k - 1))%Z in Eu by lia. rewrite Z.pow_add_r in Eu by lia. change (2 ^ 1)%Z with 2%Z in Eu.
  set (q := (2 ^ (k - 1))%Z) in *. lia.
Qed.

Lemma cols_fit py inst f a x s W sc dW s' xp n1 : cwt py inst f a x s = (Ok (W, sc, dW), s') -> pad_input (a_pad a) x = Ok (xp, n1) ->
  (origin a n1 + ncols W <= length xp)%nat.
Proof.
  intros E Hp. destruct (cwt_ncols _ _ _ _ _ _ _ _ _ _ E) as [_ Hc]. unfold origin. destruct (a_pad a) as [pt|] eqn:Ep.
  - destruct (pad_input_len _ _ _ _ Hp) as (u & n2 & Eu & L & H1 & H2 & H3). rewrite Eu in Hc.
    destruct (a_rpadded a); cbn [andb negb] in *; lia.
  - rewrite !Bool.andb_false_r in *. unfold pad_input in Hp. destruct x; [discriminate|]. injection Hp as <- <-. lia.
Qed.

(** with padding, and without for signals of even length *)
Theorem cwt_convolves py inst f g a x s W sc dW s' : real_wavelet f g -> uncached inst a s ->
  cwt py inst f a x s = (Ok (W, sc, dW), s') -> a_pad a <> None \/ Nat.even (length x) = true ->
  exists xp n1, pad_input (a_pad a) x = Ok (xp, n1) /\
    let n := length xp in
    forall i j, (i < nrows W)%nat -> (j < ncols W)%nat ->
      el W i j = Cmul (RtoC (gain a (nth i sc 0)))
        (Csum n (fun t => Cmul (RtoC (nth t xp 0)) (nth ((origin a n1 + j + (n - t) + n / 2) mod n) (psifn f (nth i sc 0) n) C0))).
Proof.
  intros Hf Hu E Hev. destruct (cwt_rows _ _ _ _ _ _ _ _ _ _ (real_of _ _ Hf) Hu E) as (fs & xp & n1 & _ & Hp & _ & HW & _).
  exists xp, n1. split; [exact Hp|]. intros n i j Hi Hj.
  pose proof (cols_fit _ _ _ _ _ _ _ _ _ _ _ _ E Hp) as Hfit. fold n in Hfit.
  assert (He : (n mod 2 = 0)%nat).
  { destruct (a_pad a) as [pt|] eqn:Ep; [apply (pad_even _ _ _ _ Hp)|]. destruct Hev as [K|K]; [congruence|].
    unfold pad_input in Hp. destruct x; [discriminate|]. injection Hp as Q _. subst n. rewrite <- Q.
    apply Nat.even_spec in K. destruct K as (q & ->). rewrite Nat.mul_comm. apply Nat.mod_mul. lia. }
  rewrite HW, finish_gain. f_equal. rewrite (row_conv f g) by (try assumption; fold n; lia). fold n. apply Csum_ext. intros t Ht.
  f_equal. rewrite <- (psifn_kernel f g) by (try assumption; try apply Nat.mod_upper_bound; lia).
  rewrite Nat.add_mod_idemp_l by lia. reflexivity.
Qed.

(** ** an impulse *)
Definition impulse (N p : nat) (c : R) : list R := tab N (fun t => if (t =? p)%nat then c else 0).

Lemma pad_impulse pt N p c xp n1 : pt = None \/ pt = Some PZero -> (p < N)%nat -> pad_input pt (impulse N p c) = Ok (xp, n1) ->
  (Z.to_nat n1 + N <= length xp)%nat /\ forall t, (t < length xp)%nat -> nth t xp 0 = if (t =? Z.to_nat n1 + p)%nat then c else 0.
Proof.
  intros Hpt Hp H. assert (HL : length (impulse N p c) = N) by apply tab_length.
  destruct (pad_window _ _ _ _ H) as (Hw & _ & Hin). rewrite HL in *. split; [exact Hw|]. intros t Ht.
  destruct (Nat.le_gt_cases (Z.to_nat n1) t) as [L|L]; [destruct (Nat.lt_ge_cases t (Z.to_nat n1 + N)) as [L'|L']|].
  1:{ replace t with (Z.to_nat n1 + (t - Z.to_nat n1))%nat at 1 by lia. rewrite Hin by lia. unfold impulse. rewrite nth_tab by lia.
      destruct (Nat.eqb_spec (t - Z.to_nat n1) p), (Nat.eqb_spec t (Z.to_nat n1 + p)); try lia; reflexivity. }
  all: destruct (Nat.eqb_spec t (Z.to_nat n1 + p)); [lia|].
  all: destruct Hpt as [->| ->]; [unfold pad_input in H; destruct (impulse N p c) eqn:Ei; [discriminate|]; injection H as <- <-; cbn [Z.to_nat] in *; lia|].
  all: destruct (pad_input_len _ _ _ _ H) as (u & n2 & Eu & Lu & G1 & G2 & G3); rewrite HL in *.
  all: unfold pad_input in H.
  all: assert (Hx : impulse N p c <> []) by (intros K; rewrite K in HL; cbn in HL; lia).
  all: assert (Ew : pad_widths (Z.of_nat (length (impulse N p c))) None = (u, n1, n2)) by (rewrite HL; exact Eu).
  all: destruct (padsignal_np R 0 (impulse N p c) PZero None u n1 n2 Hx ltac:(discriminate) ltac:(discriminate) Ew) as (yp & Ey & Ly & Hy).
  all: rewrite Ey in H; cbn [bind] in H; destruct (impulse N p c) eqn:Ei; [congruence|]; injection H as <-.
  all: rewrite <- (Nat2Z.id t), Hy by lia; apply ext_zero; rewrite ?HL; lia.
Qed.

Lemma kernel_peak g s n m : (1 <= n)%nat -> (forall w, 0 <= g w) ->
  kernel g s n 0 = RtoC (Rsum n (halved g s n) / INR n) /\ 0 <= Rsum n (halved g s n) / INR n /\ Cabs (kernel g s n m) <= Rsum n (halved g s n) / INR n.
Proof.
  intros Hn Hg. pose proof (lt_0_INR n ltac:(lia)) as Hp. pose proof (Rinv_0_lt_compat _ Hp) as Hi.
  assert (H0 : 0 <= Rsum n (halved g s n)) by (apply Rsum_nonneg; intros; apply halved_nonneg, Hg).
  split; [|split].
  - unfold kernel, idft. unfold Rdiv. rewrite Rmult_comm, RtoC_mul, <- Csum_RtoC. f_equal. apply Csum_ext. intros k _.
    rewrite Z.mul_0_r, tw_0 by lia. ring.
  - apply Rmult_le_pos; lra.
  - unfold kernel, idft. rewrite Cabs_mul, Cabs_RtoC, Rabs_right by lra. unfold Rdiv. rewrite (Rmult_comm (Rsum _ _)).
    apply Rmult_le_compat_l; [lra|]. apply Cabs_triangle_sum; [intros; apply halved_nonneg, Hg|]. intros k. apply Cabs_tw.
Qed.

Lemma Csum_one n p (G : nat -> C) : (p < n)%nat -> Csum n (fun t => if (t =? p)%nat then G t else C0) = G p.
Proof.
  induction n as [|n IH]; intros H; [lia|]. cbn [Csum]. destruct (Nat.eqb_spec n p) as [->|Ne].
  - assert (Z0 : Csum p (fun t => if (t =? p)%nat then G t else C0) = C0).
    { clear. assert (Q : forall m, (m <= p)%nat -> Csum m (fun t => if (t =? p)%nat then G t else C0) = C0).
      { induction m as [|m IH]; intros L; [reflexivity|]. cbn [Csum]. rewrite IH by lia. destruct (Nat.eqb_spec m p); [lia|]. ring. }
      apply Q. lia. }
    rewrite Z0. ring.
  - rewrite IH by lia. ring.
Qed.

(** an impulse [c] at sample [p], unpadded or padded with zeros *)
Theorem cwt_impulse py inst f g a N p c s W sc dW s' : real_wavelet f g -> uncached inst a s -> (a_pad a = None \/ a_pad a = Some PZero) -> a_rpadded a = false ->
  (p < N)%nat -> cwt py inst f a (impulse N p c) s = (Ok (W, sc, dW), s') ->
  exists n, (N <= n)%nat /\ ncols W = N /\ forall i, (i < nrows W)%nat ->
    (forall j, (j < N)%nat -> el W i j = Cmul (RtoC (gain a (nth i sc 0) * c)) (kernel g (nth i sc 0) n ((j + (n - p)) mod n))) /\
    (forall d, (d <= p)%nat -> (p + d < N)%nat -> el W i (p - d) = Cconj (el W i (p + d))) /\
    ((forall w, 0 <= g w) -> el W i p = RtoC (gain a (nth i sc 0) * c * (Rsum n (halved g (nth i sc 0) n) / INR n)) /\
      forall j, (j < N)%nat -> Cabs (el W i j) <= Cabs (el W i p)).
Proof.
  intros Hf Hu Hpt Hrp Hp E. assert (HL : length (impulse N p c) = N) by apply tab_length.
  destruct (cwt_rows _ _ _ _ _ _ _ _ _ _ (real_of _ _ Hf) Hu E) as (fs & xp & n1 & _ & Hpad & _ & HW & _).
  destruct (pad_impulse _ _ _ _ _ _ Hpt Hp Hpad) as (Hfit & Hxp). set (n := length xp) in *. exists n. split; [lia|].
  assert (Ho : origin a n1 = Z.to_nat n1).
  { unfold origin. rewrite Hrp. cbn [negb andb]. destruct (a_pad a) eqn:Ep; [reflexivity|]. unfold pad_input in Hpad. destruct (impulse N p c); [discriminate|]. injection Hpad as _ <-. reflexivity. }
  assert (Hc : ncols W = N).
  { destruct (cwt_ncols _ _ _ _ _ _ _ _ _ _ E) as [_ Hc]. rewrite Hrp, HL in Hc. destruct (a_pad a) eqn:Ep; cbn [negb andb] in Hc; lia. }
  split; [exact Hc|]. intros i Hi.
  assert (HE : forall j, (j < N)%nat -> el W i j = Cmul (RtoC (gain a (nth i sc 0) * c)) (kernel g (nth i sc 0) n ((j + (n - p)) mod n))).
  { intros j Hj. rewrite HW, finish_gain, Ho. rewrite (row_conv f g) by (try assumption; fold n; lia). fold n.
    rewrite (Csum_ext n _ (fun t => if (t =? Z.to_nat n1 + p)%nat then Cmul (RtoC c) (kernel g (nth i sc 0) n ((Z.to_nat n1 + j + (n - t)) mod n)) else C0)).
    2:{ intros t Ht. rewrite Hxp by exact Ht. destruct (t =? _)%nat; [reflexivity|]. change (RtoC 0) with C0. ring. }
    rewrite Csum_one by lia. rewrite RtoC_mul. 
    replace ((Z.to_nat n1 + j + (n - (Z.to_nat n1 + p))) mod n)%nat with ((j + (n - p)) mod n)%nat; [ring|].
    f_equal. lia. }
  split; [exact HE|]. split.
  - intros d Hd1 Hd2. rewrite !HE by lia. rewrite Cconj_mul, Cconj_RtoC. f_equal.
    destruct (Nat.eq_dec d 0) as [->|Nz].
    + rewrite Nat.sub_0_r, Nat.add_0_r. replace (p + (n - p))%nat with (0 + 1 * n)%nat by lia. rewrite Nat.mod_add, Nat.mod_small by lia.
      unfold kernel. rewrite <- (idft_real_sym n _ 0) by lia. rewrite Nat.sub_0_r. unfold idft. f_equal. apply Csum_ext. intros k _. f_equal.
      rewrite <- (tw_shift n ltac:(lia) (Z.of_nat k * Z.of_nat 0) (Z.of_nat k)). f_equal. lia.
    + replace (p - d + (n - p))%nat with (n - d)%nat by lia. rewrite Nat.mod_small by lia.
      replace (p + d + (n - p))%nat with (d + 1 * n)%nat by lia. rewrite Nat.mod_add, Nat.mod_small by lia.
      apply idft_real_sym; lia.
  - intros Hg. destruct (kernel_peak g (nth i sc 0) n 0 ltac:(lia) Hg) as (K0 & K1 & _).
    assert (Ep : el W i p = RtoC (gain a (nth i sc 0) * c * (Rsum n (halved g (nth i sc 0) n) / INR n))).
    { rewrite HE by exact Hp. replace (p + (n - p))%nat with (0 + 1 * n)%nat by lia. rewrite Nat.mod_add, Nat.mod_small by lia. rewrite K0, <- RtoC_mul. reflexivity. }
    split; [exact Ep|]. intros j Hj. rewrite Ep, HE by exact Hj. rewrite Cabs_mul, !Cabs_RtoC, (Rabs_mult (_ * c) (Rsum _ _ / _)).
    rewrite (Rabs_right (Rsum _ _ / _)) by lra. apply Rmult_le_compat_l; [apply Rabs_pos|]. apply (kernel_peak g (nth i sc 0) n _ ltac:(lia) Hg).
Qed.
