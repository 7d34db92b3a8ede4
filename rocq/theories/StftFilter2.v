(** What the filter of [StftFilter] does to a tone of any frequency. *)
From Coq Require Import Reals Lra ZifyBool ZifyNat.
From Verif Require Import Py Cplx CplxProofs Padding Buffer BufferProofs Freqs Stft StftProofs StftMap StftEnergy StftInverse StftLsq Separate SymmInst StftFilter.
Import Stft.
Local Open Scope R_scope.
Ltac Zify.zify_post_hook ::= Z.div_mod_to_equations.

(** [A cos(omega t + phi)] for [t < N] *)
Definition wave (A omega phi : R) (N : nat) : list R := tab N (fun t => A * cos (omega * INR t + phi)).
(** the window's spectrum at the tone's distance from bin [k], squared, over what all bins get *)
Definition share (n : nat) (w : list R) (omega : R) (k : nat) : R :=
  Cnorm2 (Csum n (fun u => Cmul (RtoC (nth u w 0)) (cis (- (omega - 2 * PI * INR k / INR n) * INR u)))) / (INR n * Rsum n (fun u => nth u w 0 ^ 2)).
(** row [k] answers for bins [k] and [n - k] *)
Definition gain (n : nat) (w : list R) (M : nat -> C) (omega : R) : C := Csum n (fun k => Cmul (hermit n M k) (RtoC (share n w omega k))).

Lemma Re_RtoC_mul r z : Re (Cmul (RtoC r) z) = r * Re z.
Proof. unfold Re, Cmul, RtoC. cbn [fst snd]. ring. Qed.
Lemma wave_nth A omega phi N t : (t < N)%nat -> nth t (wave A omega phi N) 0 = Re (Cmul (RtoC A) (cis (omega * INR t + phi))).
Proof. intros H. unfold wave. rewrite nth_tab by exact H. rewrite Re_RtoC_mul. reflexivity. Qed.

Section Gain.
Variables (n : nat) (w : list R) (omega : R).
Hypothesis Hn : (1 <= n)%nat.
Let part k u := Cmul (RtoC (nth u w 0)) (cis (- (omega - 2 * PI * INR k / INR n) * INR u)).
Let Hnn : INR n <> 0.
Proof. apply not_0_INR. lia. Qed.

Lemma part_eq k u : part k u = Cmul (RtoC (nth u w 0)) (Cmul (cis (- (omega * INR u))) (tw n (Z.of_nat k * Z.of_nat u))).
Proof.
  unfold part, tw. rewrite <- cis_add. f_equal. f_equal. rewrite mult_IZR, <- !INR_IZR_INZ. field. exact Hnn.
Qed.

Lemma share_nonneg k : 0 <= share n w omega k.
Proof.
  unfold share. set (s := Rsum n (fun u => nth u w 0 ^ 2)). assert (0 <= s) by (apply Rsum_nonneg; intros; apply pow2_ge_0).
  assert (0 < INR n) by (apply lt_0_INR; lia). set (c := Cnorm2 _). assert (0 <= c) by apply Cnorm2_nonneg.
  destruct (Req_dec s 0) as [E|E]; [rewrite E; unfold Rdiv; rewrite Rmult_0_r, Rinv_0; lra|].
  apply Rmult_le_pos; [assumption|]. left. apply Rinv_0_lt_compat. nra.
Qed.
Lemma share_total : 0 < Rsum n (fun u => nth u w 0 ^ 2) -> Rsum n (share n w omega) = 1.
Proof.
  intros Hs. unfold share. set (s := Rsum n (fun u => nth u w 0 ^ 2)) in *.
  rewrite (Rsum_ext n _ (fun k => / (INR n * s) * Cnorm2 (dft n (fun u => Cmul (RtoC (nth u w 0)) (cis (omega * INR u))) k))).
  - rewrite Rsum_scal, (parseval n Hn). rewrite (Rsum_ext n _ (fun u => nth u w 0 ^ 2)).
    + fold s. field. split; [lra|exact Hnn].
    + intros u Hu. rewrite Cnorm2_mul, Cnorm2_cis. unfold Cnorm2, RtoC. cbn [fst snd]. ring.
  - intros k Hk. unfold Rdiv. rewrite Rmult_comm. f_equal.
    replace (dft n (fun u => Cmul (RtoC (nth u w 0)) (cis (omega * INR u))) k) with (Cconj (Csum n (part k))).
    + assert (CC : forall z, Cnorm2 z = Cnorm2 (Cconj z)) by (intros [zr zi]; unfold Cnorm2, Cconj; cbn [fst snd]; ring). apply CC.
    + rewrite Csum_conj. unfold dft. apply Csum_ext. intros u Hu. rewrite part_eq, !Cconj_mul, <- cis_neg, <- tw_opp by exact Hn. rewrite Ropp_involutive.
      replace (Cconj (RtoC (nth u w 0))) with (RtoC (nth u w 0)) by (apply C_eq; cbn; ring). ring.
Qed.

Lemma spread M : 0 < Rsum n (fun u => nth u w 0 ^ 2) ->
  Csum n (fun u => Csum n (fun v => Cmul (RtoC (irfft n M (Z.to_nat ((Z.of_nat u - Z.of_nat v) mod Z.of_nat n)) * (nth v w 0 * nth u w 0))) (cis (- (omega * (INR u - INR v)))))) =
  Cmul (RtoC (Rsum n (fun u => nth u w 0 ^ 2))) (gain n w M omega).
Proof.
  intros Hs. set (s := Rsum n (fun u => nth u w 0 ^ 2)) in *.
  transitivity (Cmul (RtoC (/ INR n)) (Csum n (fun k => Cmul (hermit n M k) (RtoC (Cnorm2 (Csum n (part k))))))).
  - rewrite <- Csum_scal.
    rewrite (Csum_ext n (fun k => Cmul _ _) (fun k => Csum n (fun u => Csum n (fun v => Cmul (Cmul (RtoC (/ INR n)) (hermit n M k)) (Cmul (part k u) (Cconj (part k v))))))).
    2:{ intros k Hk. rewrite Cnorm2_C, Csum_conj. rewrite <- (Csum_scal_r n _ (part k)). rewrite <- !Csum_scal. apply Csum_ext. intros u Hu. rewrite <- !Csum_scal. apply Csum_ext. intros v Hv. ring. }
    symmetry. rewrite Csum_swap. apply Csum_ext. intros u Hu. rewrite Csum_swap. apply Csum_ext. intros v Hv. symmetry.
    rewrite RtoC_mul, idft_hermit by exact Hn. unfold idft. rewrite <- Csum_scal, <- !Csum_scal_r. apply Csum_ext. intros k Hk. rewrite !part_eq, !Cconj_mul.
    replace (Cconj (RtoC (nth v w 0))) with (RtoC (nth v w 0)) by (apply C_eq; cbn; ring). rewrite <- cis_neg, <- tw_opp by exact Hn.
    replace (- (omega * (INR u - INR v))) with (- (omega * INR u) + - - (omega * INR v)) by ring. rewrite cis_add, RtoC_mul.
    rewrite Z2Nat.id by (apply Z.mod_pos_bound; lia).
    replace (tw n (Z.of_nat k * ((Z.of_nat u - Z.of_nat v) mod Z.of_nat n))) with (Cmul (tw n (Z.of_nat k * Z.of_nat u)) (tw n (- (Z.of_nat k * Z.of_nat v)))); [ring|].
    rewrite <- tw_add by exact Hn. rewrite <- (tw_mod n Hn (Z.of_nat k * _)). rewrite Z.mul_mod_idemp_r by lia. rewrite (tw_mod n Hn). f_equal. ring.
  - unfold gain. rewrite <- !Csum_scal. apply Csum_ext. intros k Hk. unfold share. fold s.
    replace (RtoC (Cnorm2 (Csum n (fun u => Cmul (RtoC (nth u w 0)) (cis (- (omega - 2 * PI * INR k / INR n) * INR u)))) / (INR n * s))) with (Cmul (RtoC (/ (INR n * s))) (RtoC (Cnorm2 (Csum n (part k))))).
    + replace (RtoC (/ INR n)) with (Cmul (RtoC s) (RtoC (/ (INR n * s)))); [ring|]. rewrite <- RtoC_mul. f_equal. field. split; first [exact Hnn|lra].
    + rewrite <- RtoC_mul. f_equal. unfold Rdiv. apply Rmult_comm.
Qed.
End Gain.

(** a tone comes out multiplied by the gain *)
Theorem filter_wave A omega phi N a n w M tiny wa wl nf No f32 : let x := wave A omega phi N in usable x a n w -> (3 <= n)%nat -> a_hop a = 1%Z ->
  get_window wa (or_default wl (Z.of_nat n)) (Z.of_nat n) = Ok w -> or_default nf (2 * Z.of_nat (n / 2))%Z = Z.of_nat n -> or_default No (Z.of_nat N) = Z.of_nat N ->
  0 <= tiny < Rsum n (fun r => nth r w 0 ^ 2) ->
  exists Sx dSx y, stft x a = Ok (Sx, dSx) /\ istft tiny (weighted_rows M Sx) wa nf wl 1 No (a_modulated a) 1 f32 = Ok y /\ length y = N /\
  forall i, (n - 1 <= i)%nat -> (i + n <= N)%nat -> nth i y 0 = Re (Cmul (gain n w M omega) (Cmul (RtoC A) (cis (omega * INR i + phi)))).
Proof.
  intros x U Hn Hhop Hwa Hnf HNo Htiny. assert (LN : length x = N) by (unfold x, wave; apply tab_length).
  destruct (filter_rows x a n w M tiny wa wl nf No 1 f32 U Hn Hhop Hwa Hnf ltac:(rewrite LN; exact HNo) Htiny) as (Sx & dSx & y & E & Ey & Ly & V).
  exists Sx, dSx, y. split; [exact E|]. split; [exact Ey|]. split; [lia|]. intros i Hi1 Hi2. rewrite V by lia. clear V Ey E Ly U.
  set (s := Rsum n (fun r => nth r w 0 ^ 2)) in *. assert (Hs : 0 < s) by lra.
  pose (G := fun d : Z => irfft n M (Z.to_nat (d mod Z.of_nat n)) * nth (Z.to_nat (Z.of_nat i - d)) x 0).
  transitivity (/ s * Rsum n (fun u => Rsum n (fun v => G (Z.of_nat u - Z.of_nat v)%Z * (nth v w 0 * nth u w 0 ^ 1)))).
  - rewrite (diff_sum n G (fun u v => nth v w 0 * nth u w 0 ^ 1)) by lia. rewrite <- Rsum_scal. apply Rsum_ext. intros j Hj. cbv zeta. unfold kernel, cross, G. cbv zeta. change (1 + 1)%nat with 2%nat. fold s. unfold Rdiv. ring.
  - set (z := Cmul (RtoC A) (cis (omega * INR i + phi))).
    replace (Re (Cmul (gain n w M omega) z)) with (/ s * Re (Cmul (Cmul (RtoC s) (gain n w M omega)) z)).
    2:{ rewrite <- Re_RtoC_mul. f_equal. replace (Cmul (RtoC (/ s)) (Cmul (Cmul (RtoC s) (gain n w M omega)) z)) with (Cmul (Cmul (RtoC (/ s)) (RtoC s)) (Cmul (gain n w M omega) z)) by ring. rewrite <- RtoC_mul, Rinv_l by lra. change (RtoC 1) with C1. ring. }
    f_equal. unfold s. rewrite <- spread by first [lia|exact Hs]. rewrite <- Csum_scal_r, Re_Csum. apply Rsum_ext. intros u Hu. rewrite <- Csum_scal_r, Re_Csum. apply Rsum_ext. intros v Hv.
    unfold G, x. rewrite wave_nth by lia.
    replace (INR (Z.to_nat (Z.of_nat i - (Z.of_nat u - Z.of_nat v)))) with (INR i + INR v - INR u).
    2:{ replace (Z.to_nat (Z.of_nat i - (Z.of_nat u - Z.of_nat v))) with (i + v - u)%nat by lia. rewrite minus_INR, plus_INR by lia. reflexivity. }
    replace (omega * (INR i + INR v - INR u) + phi) with ((omega * INR i + phi) + - (omega * (INR u - INR v))) by ring. rewrite cis_add.
    rewrite !Re_RtoC_mul. unfold z. set (q := cis (- (omega * (INR u - INR v)))). set (p := cis (omega * INR i + phi)). set (g := irfft n M _). destruct p as [pr pi], q as [qr qi]. unfold Re, Cmul, RtoC. cbn [fst snd]. ring.
Qed.

(** the gain is an average of the weights *)
Lemma hermit_real n (m : nat -> R) k : (k < n)%nat -> hermit n (fun k => RtoC (m k)) k = RtoC (m (Nat.min k (n - k))).
Proof.
  intros Hk. unfold hermit. destruct (Nat.eqb_spec k 0) as [->|E]; [rewrite Nat.min_l by lia; reflexivity|]. destruct (Nat.eqb_spec (2 * k) n) as [E2|E2]; [rewrite Nat.min_l by lia; reflexivity|].
  destruct (Nat.ltb_spec (2 * k) n); [rewrite Nat.min_l by lia; reflexivity|]. rewrite Nat.min_r by lia. apply C_eq; cbn; ring.
Qed.
Lemma gain_real n w (m : nat -> R) omega : gain n w (fun k => RtoC (m k)) omega = RtoC (Rsum n (fun k => m (Nat.min k (n - k)) * share n w omega k)).
Proof. unfold gain. rewrite <- Csum_RtoC. apply Csum_ext. intros k Hk. rewrite hermit_real by exact Hk. rewrite <- RtoC_mul. reflexivity. Qed.
Theorem gain_between n w (m : nat -> R) omega lo hi : (1 <= n)%nat -> 0 < Rsum n (fun u => nth u w 0 ^ 2) -> (forall k, (k <= n / 2)%nat -> lo <= m k <= hi) ->
  exists g, gain n w (fun k => RtoC (m k)) omega = RtoC g /\ lo <= g <= hi.
Proof.
  intros Hn Hs Hm. eexists. split; [apply gain_real|]. pose proof (share_total n w omega Hn Hs) as T.
  assert (B : forall k, (k < n)%nat -> lo <= m (Nat.min k (n - k)) <= hi) by (intros k Hk; apply Hm; lia).
  split.
  - rewrite <- (Rmult_1_r lo), <- T, <- Rsum_scal. apply Rsum_le. intros k Hk. apply Rmult_le_compat_r; [apply share_nonneg, Hn|apply B, Hk].
  - rewrite <- (Rmult_1_r hi), <- T, <- Rsum_scal. apply Rsum_le. intros k Hk. apply Rmult_le_compat_r; [apply share_nonneg, Hn|apply B, Hk].
Qed.
Lemma Cabs_hermit n M B k : (k < n)%nat -> (forall k, (k <= n / 2)%nat -> Cabs (M k) <= B) -> Cabs (hermit n M k) <= B.
Proof.
  intros Hk HB. assert (RB : forall z, Cabs z <= B -> Cabs (RtoC (Re z)) <= B).
  { intros z H. rewrite Cabs_RtoC. eapply Rle_trans; [|exact H]. unfold Cabs, Re. rewrite <- sqrt_Rsqr_abs. apply sqrt_le_1_alt. unfold Cnorm2, Rsqr. pose proof (Rle_0_sqr (snd z)). unfold Rsqr in *. lra. }
  unfold hermit. destruct (Nat.eqb_spec k 0) as [E|E]; [apply RB, HB; lia|]. destruct (Nat.eqb_spec (2 * k) n); [apply RB, HB; lia|].
  destruct (Nat.ltb_spec (2 * k) n); [apply HB; lia|]. rewrite Cabs_conj. apply HB. lia.
Qed.
Theorem gain_bound n w M omega B : (1 <= n)%nat -> 0 < Rsum n (fun u => nth u w 0 ^ 2) -> (forall k, (k <= n / 2)%nat -> Cabs (M k) <= B) -> Cabs (gain n w M omega) <= B.
Proof.
  intros Hn Hs HB. eapply Rle_trans; [apply Cabs_Csum|]. rewrite <- (Rmult_1_r B), <- (share_total n w omega Hn Hs), <- Rsum_scal. apply Rsum_le. intros k Hk.
  rewrite Cabs_mul, Cabs_RtoC, Rabs_right by (apply Rle_ge, share_nonneg, Hn). apply Rmult_le_compat_r; [apply share_nonneg, Hn|apply Cabs_hermit; assumption].
Qed.

(** real weights scale a tone without moving it *)
Theorem filter_scales A omega phi N a n w (m : nat -> R) lo hi tiny wa wl nf No f32 : let x := wave A omega phi N in usable x a n w -> (3 <= n)%nat -> a_hop a = 1%Z ->
  get_window wa (or_default wl (Z.of_nat n)) (Z.of_nat n) = Ok w -> or_default nf (2 * Z.of_nat (n / 2))%Z = Z.of_nat n -> or_default No (Z.of_nat N) = Z.of_nat N ->
  0 <= tiny < Rsum n (fun r => nth r w 0 ^ 2) -> (forall k, (k <= n / 2)%nat -> lo <= m k <= hi) ->
  exists Sx dSx y g, stft x a = Ok (Sx, dSx) /\ istft tiny (weighted_rows (fun k => RtoC (m k)) Sx) wa nf wl 1 No (a_modulated a) 1 f32 = Ok y /\
  g = Rsum n (fun k => m (Nat.min k (n - k)) * share n w omega k) /\ lo <= g <= hi /\
  forall i, (n - 1 <= i)%nat -> (i + n <= N)%nat -> nth i y 0 = g * nth i x 0.
Proof.
  intros x U Hn Hhop Hwa Hnf HNo Htiny Hm. destruct (filter_wave A omega phi N a n w (fun k => RtoC (m k)) tiny wa wl nf No f32 U Hn Hhop Hwa Hnf HNo Htiny) as (Sx & dSx & y & E & Ey & _ & V).
  destruct (gain_between n w m omega lo hi ltac:(lia) ltac:(lra) Hm) as (g & Eg & Bg).
  exists Sx, dSx, y, g. split; [exact E|]. split; [exact Ey|]. rewrite gain_real in Eg. split; [symmetry; apply RtoC_inj, Eg|]. split; [exact Bg|].
  intros i Hi1 Hi2. rewrite V by assumption. rewrite gain_real, Eg, Re_RtoC_mul. unfold x. rewrite wave_nth by lia. reflexivity.
Qed.
