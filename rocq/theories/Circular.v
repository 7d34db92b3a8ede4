(** Wrap padding of a power of two of samples: the circular transform. *)
From Coq Require Import Reals Lra ZifyBool ZifyNat.
From Verif Require Import Py Round Cplx CplxProofs Padding PaddingProofs Buffer Freqs Squeeze Scales Cwt CwtProofs CwtThms SymmInst.
Local Open Scope R_scope.

(** ** The DFT of a signal repeated twice *)
Lemma tw_double N z : (1 <= N)%nat -> tw (2 * N) (2 * z) = tw N z.
Proof.
  intros HN. unfold tw. f_equal. rewrite mult_INR, mult_IZR. change (INR 2) with 2. field. apply not_0_INR. lia.
Qed.
Lemma Csum_even_odd n F : Csum (2 * n) F = Cadd (Csum n (fun l => F (2 * l)%nat)) (Csum n (fun l => F (2 * l + 1)%nat)).
Proof.
  induction n as [|n IH]; [cbn; apply C_eq; cbn; ring|]. replace (2 * S n)%nat with (S (S (2 * n))) by lia.
  cbn [Csum]. cbn [Csum] in IH. rewrite IH. replace (2 * n + 1)%nat with (S (2 * n)) by lia. apply C_eq; cbn [Cadd fst snd]; ring.
Qed.
Section Periodic.
Variable N : nat.
Hypothesis HN : (1 <= N)%nat.
Lemma tw_halfway : tw (2 * N) (Z.of_nat N) = RtoC (-1).
Proof.
  unfold tw. replace (2 * PI * IZR (Z.of_nat N) / INR (2 * N)) with PI.
  - unfold cis, RtoC. rewrite cos_PI, sin_PI. reflexivity.
  - rewrite <- INR_IZR_INZ, mult_INR. change (INR 2) with 2. field. apply not_0_INR. lia.
Qed.
Lemma dft_twice y k : dft (2 * N) (fun m => y (m mod N)%nat) k =
  Cmul (Cadd C1 (tw (2 * N) (- (Z.of_nat k * Z.of_nat N)))) (Csum N (fun m => Cmul (y m) (tw (2 * N) (- (Z.of_nat k * Z.of_nat m))))).
Proof.
  unfold dft. replace (2 * N)%nat with (N + N)%nat at 1 by lia. rewrite Csum_app.
  rewrite (Csum_ext N _ (fun m => Cmul (y m) (tw (2 * N) (- (Z.of_nat k * Z.of_nat m))))) by (intros m Hm; rewrite Nat.mod_small by exact Hm; reflexivity).
  rewrite (Csum_ext N (fun i => Cmul (y ((N + i) mod N)%nat) _) (fun m => Cmul (tw (2 * N) (- (Z.of_nat k * Z.of_nat N))) (Cmul (y m) (tw (2 * N) (- (Z.of_nat k * Z.of_nat m)))))).
  - rewrite Csum_scal. apply C_eq; cbn [Cadd Cmul C1 fst snd]; ring.
  - intros m Hm. replace ((N + m) mod N)%nat with m.
    + replace (- (Z.of_nat k * Z.of_nat (N + m)))%Z with (- (Z.of_nat k * Z.of_nat N) + - (Z.of_nat k * Z.of_nat m))%Z by lia.
      rewrite tw_add by lia. apply C_eq; cbn [Cadd Cmul C1 fst snd]; ring.
    + replace (N + m)%nat with (m + 1 * N)%nat by lia. rewrite Nat.mod_add by lia. symmetry. apply Nat.mod_small, Hm.
Qed.
Lemma dft_twice_even y l : dft (2 * N) (fun m => y (m mod N)%nat) (2 * l) = Cmul (RtoC 2) (dft N y l).
Proof.
  rewrite dft_twice. replace (- (Z.of_nat (2 * l) * Z.of_nat N))%Z with (2 * (0 + Z.of_nat N * - Z.of_nat l))%Z by lia.
  rewrite tw_double, tw_shift, tw_0 by lia. unfold dft. f_equal; [apply C_eq; cbn; ring|]. apply Csum_ext. intros m Hm. f_equal.
  replace (- (Z.of_nat (2 * l) * Z.of_nat m))%Z with (2 * - (Z.of_nat l * Z.of_nat m))%Z by lia. apply tw_double, HN.
Qed.
Lemma dft_twice_odd y l : dft (2 * N) (fun m => y (m mod N)%nat) (2 * l + 1) = C0.
Proof.
  rewrite dft_twice. replace (- (Z.of_nat (2 * l + 1) * Z.of_nat N))%Z with (Z.of_nat N + Z.of_nat (2 * N) * (- Z.of_nat l - 1))%Z by lia.
  rewrite tw_shift, tw_halfway by lia. apply C_eq; cbn; ring.
Qed.
(** a filter on the repeated, rotated signal *)
Lemma circ H2 H y s j : (s <= N)%nat -> (forall l, (l < N)%nat -> H2 (2 * l)%nat = H l) ->
  idft (2 * N) (fun k => Cmul (H2 k) (dft (2 * N) (fun m => y ((m + s) mod N)%nat) k)) j =
  idft N (fun l => Cmul (H l) (dft N y l)) ((j + s) mod N).
Proof.
  intros Hs HH. rewrite <- idft_roll by exact HN. unfold idft. rewrite Csum_even_odd.
  rewrite (Csum_0 N (fun l => Cmul (Cmul (H2 (2 * l + 1)%nat) _) _)).
  2:{ intros l Hl. assert (dft (2 * N) (fun m => y ((m + s) mod N)%nat) (2 * l + 1) = C0) as ->.
      - rewrite <- (dft_twice_odd (fun q => y ((q + s) mod N)%nat) l). apply dft_ext. intros m Hm. rewrite Nat.add_mod_idemp_l by lia. reflexivity.
      - apply C_eq; cbn; ring. }
  rewrite (Csum_ext N _ (fun l => Cmul (RtoC 2) (Cmul (Cmul (tw N (Z.of_nat l * Z.of_nat s)) (Cmul (H l) (dft N y l))) (tw N (Z.of_nat l * Z.of_nat j))))).
  - rewrite Csum_scal, mult_INR. change (INR 2) with 2. assert (INR N <> 0) by (apply not_0_INR; lia).
    apply C_eq; cbn [Cadd Cmul RtoC C0 fst snd]; field; assumption.
  - intros l Hl. assert (dft (2 * N) (fun m => y ((m + s) mod N)%nat) (2 * l) = Cmul (RtoC 2) (dft N (fun q => y ((q + s) mod N)%nat) l)) as ->.
    { rewrite <- dft_twice_even. apply dft_ext. intros m Hm. rewrite Nat.add_mod_idemp_l by lia. reflexivity. }
    rewrite (dft_shift N HN y s l Hs), HH by exact Hl.
    replace (Z.of_nat (2 * l) * Z.of_nat j)%Z with (2 * (Z.of_nat l * Z.of_nat j))%Z by lia. rewrite tw_double by exact HN.
    apply C_eq; cbn [Cadd Cmul RtoC C0 fst snd]; ring.
Qed.
(** the wavelet's samples at every other bin of twice as many *)
Lemma xi_twice l : (l < N)%nat -> nth (2 * l) (xifn 1 (2 * N)) 0 = nth l (xifn 1 N) 0.
Proof.
  intros Hl. unfold xifn. rewrite !nth_tab by lia. unfold xi_bin. rewrite mult_INR. change (INR 2) with 2.
  assert (INR N <> 0) by (apply not_0_INR; lia).
  assert (D : (2 * N / 2 = N)%nat) by (rewrite Nat.mul_comm; apply Nat.div_mul; lia).
  assert (Z.of_nat (2 * N) / 2 = Z.of_nat N)%Z as DZ by lia.
  assert (DN : (Z.of_nat N / 2 * 2 <= Z.of_nat N < Z.of_nat N / 2 * 2 + 2)%Z) by lia.
  repeat match goal with |- context [if ?b then _ else _] => destruct b eqn:? end; try lia.
  - rewrite <- !INR_IZR_INZ, mult_INR. change (INR 2) with 2. field. assumption.
  - rewrite !minus_IZR, <- !INR_IZR_INZ, !mult_INR. change (INR 2) with 2. field. assumption.
Qed.
Lemma psih_twice f s nohalf l : (l < N)%nat -> psih_val f s (2 * N) nohalf (2 * l) = psih_val f s N nohalf l.
Proof.
  intros Hl. unfold psih_val. rewrite xi_twice by exact Hl.
  assert (D : (2 * N / 2 = N)%nat) by (rewrite Nat.mul_comm; apply Nat.div_mul; lia). rewrite D.
  assert ((2 * N) mod 2 = 0)%nat as -> by (rewrite Nat.mul_comm; apply Nat.mod_mul; lia). cbn [Nat.eqb].
  pose proof (Nat.div_mod N 2 ltac:(lia)) as E. pose proof (Nat.mod_upper_bound N 2 ltac:(lia)).
  destruct nohalf; cbn [negb andb]; [reflexivity|].
  destruct (Nat.eqb_spec (2 * l) N), (Nat.eqb_spec (N mod 2) 0), (Nat.eqb_spec l (N / 2)); cbn [andb]; try reflexivity; lia.
Qed.
End Periodic.

(** ** Wrap padding *)
Lemma p2up_pow2 m : p2up (2 ^ Z.of_nat m) = (2 * 2 ^ Z.of_nat m, 2 ^ Z.of_nat m - 2 ^ Z.of_nat m / 2, 2 ^ Z.of_nat m / 2)%Z.
Proof.
  unfold p2up. assert (round_log2 (2 ^ Z.of_nat m) = Z.of_nat m) as ->.
  { unfold round_log2. rewrite Z.log2_pow2 by lia. rewrite <- Z.pow_add_r by lia.
    destruct (Z.ltb_spec (2 ^ (Z.of_nat m + Z.of_nat m)) (2 ^ (2 * Z.of_nat m + 1))) as [H|H]; [reflexivity|]. exfalso.
    apply Z.pow_le_mono_r_iff in H; lia. }
  replace (2 ^ (1 + Z.of_nat m))%Z with (2 * 2 ^ Z.of_nat m)%Z by (rewrite Z.pow_add_r by lia; reflexivity).
  replace (2 * 2 ^ Z.of_nat m - 2 ^ Z.of_nat m)%Z with (2 ^ Z.of_nat m)%Z by lia. reflexivity.
Qed.
Lemma pad_wrap {A} (z : A) x m : length x = (2 ^ m)%nat -> exists xp, padsignal z x PWrap None =
    Ok (xp, Z.of_nat (2 * length x), Z.of_nat (length x - length x / 2), Z.of_nat (length x / 2)) /\
  length xp = (2 * length x)%nat /\ forall i, (i < 2 * length x)%nat -> nth i xp z = nth ((i + length x / 2) mod length x) x z.
Proof.
  intros Hm. assert (HN : (1 <= length x)%nat) by (rewrite Hm; pose proof (Nat.pow_nonzero 2 m ltac:(lia)); lia).
  unfold padsignal. destruct x as [|x0 x']; [cbn in HN; lia|]. set (x := x0 :: x') in *. unfold pad_widths.
  assert (HZ : Z.of_nat (length x) = (2 ^ Z.of_nat m)%Z) by (rewrite Hm, Nat2Z.inj_pow; reflexivity).
  rewrite HZ, p2up_pow2, <- HZ. set (N := length x) in *. unfold np_pad. fold N.
  pose proof (Nat.div_mod N 2 ltac:(lia)) as E. pose proof (Nat.mod_upper_bound N 2 ltac:(lia)).
  assert (E2 : (Z.of_nat N / 2 = Z.of_nat (N / 2))%Z) by (rewrite Nat2Z.inj_div; reflexivity). rewrite E2.
  replace (Z.of_nat N - Z.of_nat (N / 2))%Z with (Z.of_nat (N - N / 2)) by lia.
  destruct (Z.ltb_spec (Z.of_nat (N - N / 2)) 0); [lia|]. destruct (Z.ltb_spec (Z.of_nat (N / 2)) 0); [lia|]. cbn [orb bind].
  replace (Z.of_nat (N - N / 2) + Z.of_nat N + Z.of_nat (N / 2))%Z with (Z.of_nat (2 * N)) by lia. rewrite Nat2Z.id.
  replace (2 * Z.of_nat N)%Z with (Z.of_nat (2 * N)) by lia. eexists. split; [reflexivity|].
  split; [apply tab_length|]. intros i Hi. rewrite nth_tab by exact Hi.
  assert (Q : Z.to_nat ((Z.of_nat i - Z.of_nat (N - N / 2)) mod Z.of_nat N) = ((i + N / 2) mod N)%nat).
  { replace (Z.of_nat i - Z.of_nat (N - N / 2))%Z with (Z.of_nat (i + N / 2) + (-1) * Z.of_nat N)%Z by lia. rewrite Z_mod_plus_full.
    rewrite <- Nat2Z.inj_mod, Nat2Z.id. reflexivity. }
  unfold np_pad_index. destruct ((0 <=? _)%Z && _) eqn:Eb.
  - rewrite <- Q. rewrite Z.mod_small by lia. reflexivity.
  - rewrite Q. reflexivity.
Qed.
