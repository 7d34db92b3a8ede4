(** The short-time transform of a tone whose frequency is one of its bins.

    Away from the ends of the signal a column of [stft] is the window's spectrum moved to the
    tone's bin, plus the same thing mirrored.  When the window's spectrum is narrow enough
    for the mirror image to stay away, [phase_stft] returns the tone's frequency. *)
From Coq Require Import ZifyBool ZifyNat.
From Verif Require Import Py Round Padding Cplx CplxProofs Buffer Freqs Stft StftProofs WindowProofs
  Squeeze SqueezeProofs SqueezeThms SqueezeThms2 SqueezeThms3 Scales Ssqueeze SsqueezeProofs CwtTone IssqProofs.
Local Open Scope R_scope.
Ltac Zify.zify_post_hook ::= Z.div_mod_to_equations.

(** spectrum of a length-[n] window about its centre [n // 2] *)
Definition wspec (n : nat) (w : list R) (q : Z) : C :=
  Csum n (fun u => Cmul (RtoC (nth u w 0)) (tw n (- (q * (Z.of_nat u - Z.of_nat (n / 2)))))).

(** the spectrum vanishes more than [b] bins away from zero *)
Definition narrow (n : nat) (w : list R) (b : nat) : Prop :=
  forall q, (b < q < n - b)%nat -> wspec n w (Z.of_nat q) = C0.

(** [A cos(2 pi m t / n + phi)] for [t < N] *)
Definition bin_tone (A phi : R) (m n N : nat) : list R :=
  tab N (fun t => A * cos (2 * PI * INR m * INR t / INR n + phi)).

(** its analytic part at time [t] *)
Definition bin_phase (phi : R) (m n : nat) (t : nat) : C := cis (2 * PI * INR m * INR t / INR n + phi).

Section Spec.
Variables (n : nat) (Hn : (1 <= n)%nat).

Lemma wspec_period w q k : wspec n w (q + Z.of_nat n * k) = wspec n w q.
Proof.
  unfold wspec. apply Csum_ext. intros u _. f_equal.
  replace (- ((q + Z.of_nat n * k) * (Z.of_nat u - Z.of_nat (n / 2))))%Z
    with (- (q * (Z.of_nat u - Z.of_nat (n / 2))) + Z.of_nat n * - (k * (Z.of_nat u - Z.of_nat (n / 2))))%Z by ring.
  apply tw_shift. exact Hn.
Qed.

Lemma wspec_mod w q : wspec n w (q mod Z.of_nat n) = wspec n w q.
Proof.
  rewrite <- (wspec_period w (q mod Z.of_nat n) (q / Z.of_nat n)). f_equal.
  rewrite Z.add_comm. symmetry. apply Z.div_mod. lia.
Qed.

(** through the plain transform *)
Lemma wspec_dft w k : wspec n w (Z.of_nat k) =
  Cmul (tw n (Z.of_nat k * Z.of_nat (n / 2))) (dft n (fun u => RtoC (nth u w 0)) k).
Proof.
  unfold wspec, dft. rewrite <- Csum_scal. apply Csum_ext. intros u _.
  replace (- (Z.of_nat k * (Z.of_nat u - Z.of_nat (n / 2))))%Z
    with (Z.of_nat k * Z.of_nat (n / 2) + - (Z.of_nat k * Z.of_nat u))%Z by ring.
  rewrite (tw_add n Hn). ring.
Qed.

Lemma diff_window_dft w k : length w = n -> (k < n)%nat ->
  dft n (fun u => RtoC (nth u (diff_window w) 0)) k =
  Cmul (0, xi_diff n k) (dft n (fun u => RtoC (nth u w 0)) k).
Proof.
  intros Hl Hk.
  rewrite (dft_ext n _ (idft n (fun k => Cmul (Cmul (dft n (fun j => RtoC (nth j w 0)) k) Ci) (RtoC (xi_diff n k))))).
  - rewrite (dft_idft n Hn) by exact Hk. apply C_eq; unfold Cmul, Ci, RtoC; cbn; ring.
  - intros u Hu. unfold diff_window. rewrite nth_tab by lia.
    assert (Hr : Im (diff_window_c w u) = 0) by (apply diff_window_real; lia).
    unfold diff_window_c in *. rewrite Hl in *. apply C_eq; [reflexivity|]. symmetry. exact Hr.
Qed.

(** the spectrum of the derivative window *)
Lemma wspec_diff w q : length w = n -> (-(Z.of_nat n) < 2 * q < Z.of_nat n)%Z ->
  wspec n (diff_window w) q = Cmul (0, 2 * PI * IZR q / INR n) (wspec n w q).
Proof.
  intros Hl Hq. rewrite <- (wspec_mod _ q), <- (wspec_mod w q).
  set (k := Z.to_nat (q mod Z.of_nat n)).
  pose proof (Z.mod_pos_bound q (Z.of_nat n) ltac:(lia)) as Hb.
  replace (q mod Z.of_nat n)%Z with (Z.of_nat k) by (unfold k; lia).
  rewrite !wspec_dft, diff_window_dft by (try exact Hl; unfold k; lia).
  replace (xi_diff n k) with (2 * PI * IZR q / INR n); [ring|].
  assert (Hk : (k < n)%nat) by (unfold k; lia).
  assert (Eq : Z.of_nat k = q \/ (Z.of_nat k = q + Z.of_nat n /\ (q < 0)%Z)%Z).
  { destruct (Z_lt_dec q 0).
    - right. split; [|assumption]. unfold k. rewrite Z2Nat.id by lia. symmetry.
      apply (Z.mod_unique_pos q (Z.of_nat n) (-1)); lia.
    - left. unfold k. rewrite Z2Nat.id by lia. apply Z.mod_small. lia. }
  clearbody k. rewrite xi_diff_val by exact Hk. destruct (Nat.eqb_spec (2 * k) n) as [E|E]; [lia|].
  replace (xi_bin n k) with q; [unfold Rdiv; ring|]. unfold xi_bin.
  destruct (Nat.ltb_spec k (n / 2 + 1)); lia.
Qed.

Lemma wspec_scal w c q : wspec n (map (fun v => v * c) w) q = Cmul (RtoC c) (wspec n w q).
Proof.
  unfold wspec. rewrite <- Csum_scal. apply Csum_ext. intros u _.
  rewrite nth_map_scal, RtoC_mul. ring.
Qed.

(** all of it adds up to the centre of the window *)
Lemma wspec_sum w (m : Z) : Csum n (fun k => wspec n w (Z.of_nat k - m)) = RtoC (INR n * nth (n / 2) w 0).
Proof.
  set (c := (n / 2)%nat). assert (Hc : (c < n)%nat) by (unfold c; lia).
  rewrite (Csum_ext n _ (fun k => Csum n (fun u => Cmul (Cmul (RtoC (nth u w 0)) (tw n (m * (Z.of_nat u - Z.of_nat c))))
     (tw n ((Z.of_nat c - Z.of_nat u) * Z.of_nat k))))).
  2:{ intros k _. unfold wspec. fold c. apply Csum_ext. intros u _.
      replace (- ((Z.of_nat k - m) * (Z.of_nat u - Z.of_nat c)))%Z
        with (m * (Z.of_nat u - Z.of_nat c) + (Z.of_nat c - Z.of_nat u) * Z.of_nat k)%Z by ring.
      rewrite (tw_add n Hn). ring. }
  rewrite Csum_swap. rewrite (Csum_single n _ c Hc).
  - rewrite Csum_scal, (roots_delta n Hn) by assumption. rewrite Nat.eqb_refl, Z.sub_diag, Z.mul_0_r, (tw_0 n Hn).
    apply C_eq; cbn; ring.
  - intros u Hu Hne. rewrite Csum_scal, (roots_delta n Hn) by assumption.
    destruct (Nat.eqb_spec c u); [congruence|]. ring.
Qed.

(** a frame holding a tone *)
Lemma cos_pair A th v : RtoC (A * cos (th + v)) =
  Cadd (Cmul (RtoC (A / 2)) (Cmul (cis th) (cis v))) (Cmul (RtoC (A / 2)) (Cmul (cis (- th)) (cis (- v)))).
Proof.
  rewrite cos_plus. apply C_eq; unfold cis, Cmul, Cadd, RtoC; cbn; rewrite ?cos_neg, ?sin_neg; field.
Qed.

Lemma frame_spec g A th m k (y : nat -> R) :
  (forall u, (u < n)%nat -> y u = A * cos (th + 2 * PI * IZR (Z.of_nat m * (Z.of_nat u - Z.of_nat (n / 2))) / INR n)) ->
  Csum n (fun u => Cmul (RtoC (y u * nth u g 0)) (tw n (- (Z.of_nat k * (Z.of_nat u - Z.of_nat (n / 2)))))) =
  Cadd (Cmul (Cmul (RtoC (A / 2)) (cis th)) (wspec n g (Z.of_nat k - Z.of_nat m)))
       (Cmul (Cmul (RtoC (A / 2)) (cis (- th))) (wspec n g (Z.of_nat k + Z.of_nat m))).
Proof.
  intros Hy. unfold wspec. rewrite <- !Csum_scal, <- Csum_plus. apply Csum_ext. intros u Hu.
  rewrite RtoC_mul, (Hy u Hu), cos_pair.
  set (d := (Z.of_nat u - Z.of_nat (n / 2))%Z).
  replace (- ((Z.of_nat k - Z.of_nat m) * d))%Z with (Z.of_nat m * d + - (Z.of_nat k * d))%Z by ring.
  replace (- ((Z.of_nat k + Z.of_nat m) * d))%Z with (- (Z.of_nat m * d) + - (Z.of_nat k * d))%Z by ring.
  rewrite !(tw_add n Hn). fold (tw n (Z.of_nat m * d)).
  replace (cis (- (2 * PI * IZR (Z.of_nat m * d) / INR n))) with (tw n (- (Z.of_nat m * d))).
  - ring.
  - unfold tw. f_equal. rewrite opp_IZR. field. apply not_0_INR. lia.
Qed.
End Spec.

(** ** [stft] *)
Section Run.
Variables (x : list R) (a : stft_args) (n : nat) (w : list R) (A phi : R) (m b : nat).
Let N := length x.
Let hop := Z.to_nat (a_hop a).
Let Nz := Z.of_nat n.
Hypothesis Hn : (2 <= n)%nat.
Hypothesis Hx : x = bin_tone A phi m n N.
Hypothesis HN : (1 <= N)%nat.
Hypothesis Hhop : (1 <= a_hop a)%Z.
Hypothesis Hmod : a_modulated a = true.
Hypothesis Hnf : stft_n_fft a (Z.of_nat N) = Ok Nz.
Hypothesis Hw : get_window (a_window a) (stft_win_len a Nz) Nz = Ok w.
Hypothesis Hlw : length w = n.
Hypothesis Hf32 : a_f32 a = true -> (a_hop a <= Nz)%Z.
Hypothesis Hpad : pad_usable (a_padtype a) (Z.of_nat N) Nz.
Hypothesis Hb : narrow n w b.
Hypothesis Hm : (b < m)%nat.
Hypothesis Hm2 : (2 * m + 2 * b < n)%nat.

(** the frame of column [h] lies inside the signal *)
Definition interior (n N hop h : nat) : Prop := (n / 2 <= hop * h)%nat /\ (hop * h + n <= n / 2 + N)%nat.

Lemma tone_stft : exists Sx dSx, stft x a = Ok (Sx, dSx) /\
  nrows Sx = (n / 2 + 1)%nat /\ nrows dSx = (n / 2 + 1)%nat /\ ncols dSx = ncols Sx /\
  Z.of_nat (ncols Sx) = ((Z.of_nat N - 1) / a_hop a + 1)%Z /\
  forall h k, (h < ncols Sx)%nat -> interior n N hop h -> (k <= n / 2)%nat ->
    el Sx k h = Cmul (Cmul (RtoC (A / 2)) (bin_phase phi m n (hop * h))) (wspec n w (Z.of_nat k - Z.of_nat m)) /\
    el dSx k h = Cmul (0, 2 * PI * (a_fs a * (INR k - INR m) / INR n)) (el Sx k h).
Proof.
  assert (Hx0 : x <> []) by (destruct x; [cbn in *; unfold N in HN; cbn in HN; lia|discriminate]).
  destruct (stft_spec x a Nz w Hx0 ltac:(unfold Nz; lia) Hhop Hnf Hw ltac:(unfold Nz; lia) Hf32 Hpad)
    as (xp & n_up & n2 & Sx & dSx & _ & HL & Hxp & ES & HrS & HcS & HrD & HcD & Hfit & HS & HD).
  assert (En : Z.to_nat Nz = n) by (unfold Nz; lia). rewrite En in *.
  assert (Ep : Z.to_nat (Nz / 2) = (n / 2)%nat) by (unfold Nz; lia).
  exists Sx, dSx. split; [exact ES|]. split; [exact HrS|]. split; [exact HrD|]. split; [exact HcD|].
  split; [exact HcS|]. intros h k Hh [Hi1 Hi2] Hk.
  assert (Hfr : forall g, stft_val a Nz g xp k h =
    Cmul (Cmul (RtoC (A / 2)) (bin_phase phi m n (hop * h))) (wspec n g (Z.of_nat k - Z.of_nat m)) \/
    wspec n g (Z.of_nat k + Z.of_nat m) <> C0).
  { intros g. destruct (Req_EM_T (Cnorm2 (wspec n g (Z.of_nat k + Z.of_nat m))) 0) as [E0|E0].
    2:{ right. intros E. rewrite E in E0. apply E0. unfold Cnorm2, C0. cbn. ring. }
    apply Cnorm2_0 in E0. left. unfold stft_val. rewrite En.
    rewrite <- (Csum_ext n (fun u => Cmul (RtoC (nth (hop * h + u) xp 0 * nth u g 0))
                 (tw n (- (Z.of_nat k * (Z.of_nat u - Z.of_nat (n / 2))))))).
    - rewrite (frame_spec n ltac:(lia) g A (2 * PI * INR m * INR (hop * h) / INR n + phi) m k (fun u => nth (hop * h + u) xp 0)).
      + rewrite E0. fold (bin_phase phi m n (hop * h)). ring.
      + intros u Hu. replace (hop * h + u)%nat with (Z.to_nat (Nz / 2) + (hop * h + u - n / 2))%nat by lia.
        rewrite Hxp by (fold N; lia). rewrite Hx. unfold bin_tone. rewrite nth_tab by lia.
        f_equal. f_equal. rewrite mult_IZR, <- !INR_IZR_INZ, minus_IZR, <- !INR_IZR_INZ.
        rewrite minus_INR by lia. rewrite plus_INR. field. apply not_0_INR. lia.
    - intros u _. unfold phase_ref. rewrite Hmod. do 4 f_equal. unfold Nz. lia. }
  assert (Hmir : wspec n w (Z.of_nat k + Z.of_nat m) = C0).
  { rewrite <- Nat2Z.inj_add. apply Hb. lia. }
  assert (Hdm : wspec n (diff_window w) (Z.of_nat k + Z.of_nat m) = C0).
  { rewrite <- Nat2Z.inj_add, wspec_dft, diff_window_dft by lia.
    replace (dft n (fun u => RtoC (nth u w 0)) (k + m)) with C0; [ring|].
    rewrite <- Nat2Z.inj_add, wspec_dft in Hmir by lia. apply Cmul_integral in Hmir.
    destruct Hmir as [E|E]; [destruct (tw_neq0 n _ E)|congruence]. }
  rewrite (HS k h Hh). destruct (Hfr w) as [E|E]; [|contradiction].
  split; [exact E|]. rewrite E, (HD k h Hh), Hmod.
  destruct (Hfr (map (fun v => v * a_fs a) (diff_window w))) as [E'|E'].
  - rewrite E', wspec_scal, wspec_diff by lia.
    replace (0, 2 * PI * (a_fs a * (INR k - INR m) / INR n)) with
      (Cmul (RtoC (a_fs a)) (0, 2 * PI * IZR (Z.of_nat k - Z.of_nat m) / INR n)); [ring|].
    apply C_eq; unfold Cmul, RtoC; cbn; [ring|]. rewrite minus_IZR, <- !INR_IZR_INZ. field. apply not_0_INR. lia.
  - destruct E'. rewrite wspec_scal, Hdm. ring.
Qed.
End Run.

(** ** The phase transform *)
Lemma phase_stft_factor Sf S c : S <> C0 -> phase_stft_pt Sf S (Cmul (0, 2 * PI * c) S) = Rabs (Sf - c).
Proof.
  intros H. unfold phase_stft_pt. rewrite phase_ratio_factor by exact H. f_equal.
  pose proof PI_RGT_0. field. lra.
Qed.

Lemma make_Sfs_even n fs k : (2 <= n)%nat -> Nat.even n = true -> (k <= n / 2)%nat ->
  nth k (make_Sfs (n / 2 + 1) fs) 0 = INR k * (fs / INR n).
Proof.
  intros Hn He Hk. unfold make_Sfs, linspace. rewrite nth_tab by lia.
  destruct (Nat.eqb_spec (n / 2 + 1) 1); [lia|].
  apply Nat.even_spec in He. destruct He as [p ->].
  replace (2 * p / 2 + 1 - 1)%nat with p by lia. rewrite mult_INR. cbn [INR]. field. apply not_0_INR. lia.
Qed.

Lemma make_Sfs_odd n fs k : (2 <= n)%nat -> Nat.even n = false -> (k <= n / 2)%nat ->
  nth k (make_Sfs (n / 2 + 1) fs) 0 = INR k * (fs / (INR n - 1)).
Proof.
  intros Hn He Hk. unfold make_Sfs, linspace. rewrite nth_tab by lia.
  destruct (Nat.eqb_spec (n / 2 + 1) 1); [lia|].
  assert (Ho : Nat.odd n = true) by (unfold Nat.odd; rewrite He; reflexivity).
  apply Nat.odd_spec in Ho. destruct Ho as [p ->].
  replace ((2 * p + 1) / 2 + 1 - 1)%nat with p by lia. rewrite plus_INR, mult_INR. cbn [INR]. field.
  assert (0 < INR p) by (apply lt_0_INR; lia). split; lra.
Qed.
