(** Scaling, shifting and reversing the signal, at the level of the discrete Fourier transform. *)
From Coq Require Import Reals Lra Lia List ZifyBool ZifyNat.
Import ListNotations.
From Verif Require Import Py Round Parallel Cplx CplxProofs Padding PaddingProofs Freqs Stft Squeeze SqueezeProofs BinProofs
  SqueezeThms SqueezeThms2 SqueezeThms3 Scales Ssqueeze SsqueezeProofs FreqRange Cwt CwtProofs CwtThms Pointwise SsqCwt DiffProofs
  SsqCwtProofs Transport RateThms SymmThms.
Local Open Scope R_scope.

(** ** Circular shift *)
Lemma idft_roll n Y s j : (1 <= n)%nat ->
  idft n (fun k => Cmul (tw n (Z.of_nat k * Z.of_nat s)) (Y k)) j = idft n Y ((j + s) mod n)%nat.
Proof.
  intros Hn. unfold idft. f_equal. apply Csum_ext. intros k Hk.
  assert (E : tw n (Z.of_nat k * Z.of_nat ((j + s) mod n)) = tw n (Z.of_nat k * Z.of_nat (j + s))).
  { rewrite Nat2Z.inj_mod. rewrite <- (tw_mod n Hn), <- (tw_mod n Hn (Z.of_nat k * Z.of_nat (j + s))).
    rewrite Z.mul_mod_idemp_r by lia. reflexivity. }
  rewrite E, Nat2Z.inj_add, Z.mul_add_distr_l, tw_add by lia. apply C_eq; simpl; ring.
Qed.
Definition rolled (s : nat) (x x' : list R) : Prop :=
  length x' = length x /\ forall m, (m < length x)%nat -> nth m x' 0 = nth ((m + s) mod length x) x 0.
Lemma sig_roll s x x' k : (1 <= length x)%nat -> (s <= length x)%nat -> rolled s x x' ->
  sig_dft x' k = Cmul (tw (length x) (Z.of_nat k * Z.of_nat s)) (sig_dft x k).
Proof.
  intros Hn Hs (Hl & H). unfold sig_dft. rewrite Hl.
  rewrite <- (dft_shift (length x) Hn (fun m => RtoC (nth m x 0)) s k Hs). unfold dft. apply Csum_ext. intros m Hm. rewrite H by exact Hm. reflexivity.
Qed.
Lemma cells_roll p s x x' fs i j : (1 <= length x)%nat -> (s <= length x)%nat -> rolled s x x' -> let n := length x in
  cwt_cell p n (sig_dft x') i j = cwt_cell p n (sig_dft x) i ((j + s) mod n)%nat /\
  dcwt_cell p n fs (sig_dft x') i j = dcwt_cell p n fs (sig_dft x) i ((j + s) mod n)%nat.
Proof.
  intros Hn Hs H n. unfold cwt_cell, dcwt_cell. rewrite <- !idft_roll by exact Hn.
  split; unfold idft; f_equal; apply Csum_ext; intros k Hk; rewrite (sig_roll s x x' k Hn Hs H); fold n; ring.
Qed.

(** ** Reversal *)
Lemma sig_rev x k : (1 <= length x)%nat ->
  sig_dft (rev x) k = Cmul (tw (length x) (Z.of_nat k)) (Cconj (sig_dft x k)).
Proof.
  intros Hn. unfold sig_dft. rewrite rev_length. set (n := length x) in *. unfold dft. rewrite Csum_conj, <- Csum_scal, Csum_rev.
  apply Csum_ext. intros m Hm. rewrite rev_nth by (fold n; lia). fold n.
  replace (n - S (n - 1 - m))%nat with m by lia. rewrite Cconj_mul, Cconj_RtoC, <- tw_opp by exact Hn. rewrite Z.opp_involutive.
  replace (- (Z.of_nat k * Z.of_nat (n - 1 - m)))%Z with (Z.of_nat k + Z.of_nat k * Z.of_nat m + Z.of_nat n * (- Z.of_nat k))%Z by (rewrite !Nat2Z.inj_sub by lia; ring).
  rewrite tw_shift, tw_add by exact Hn. ring.
Qed.
Lemma idft_conj n Y j : (1 <= n)%nat -> (j < n)%nat ->
  Cconj (idft n Y (n - 1 - j)) = idft n (fun k => Cmul (tw n (Z.of_nat k)) (Cconj (Y k))) j.
Proof.
  intros Hn Hj. unfold idft. rewrite Cconj_mul, Cconj_RtoC, Csum_conj. f_equal. apply Csum_ext. intros k Hk.
  rewrite Cconj_mul, <- tw_opp by exact Hn.
  replace (- (Z.of_nat k * Z.of_nat (n - 1 - j)))%Z with (Z.of_nat k + Z.of_nat k * Z.of_nat j + Z.of_nat n * (- Z.of_nat k))%Z by (rewrite !Nat2Z.inj_sub by lia; ring).
  rewrite tw_shift, tw_add by exact Hn. ring.
Qed.
Lemma cells_rev p x fs i j : let n := length x in (forall k, Im (el p i k) = 0) -> (j < n)%nat ->
  cwt_cell p n (sig_dft (rev x)) i j = Cconj (cwt_cell p n (sig_dft x) i (n - 1 - j)) /\
  dcwt_cell p n fs (sig_dft (rev x)) i j = Copp (Cconj (dcwt_cell p n fs (sig_dft x) i (n - 1 - j))).
Proof.
  intros n Hp Hj. assert (Hn : (1 <= n)%nat) by lia. unfold cwt_cell, dcwt_cell. rewrite !idft_conj by assumption.
  assert (Hc : forall k, Cconj (el p i k) = el p i k).
  { intros k. specialize (Hp k). destruct (el p i k) as [u v]. cbn in Hp. subst v. apply C_eq; simpl; ring. }
  split.
  - unfold idft. f_equal. apply Csum_ext. intros k Hk. rewrite sig_rev by exact Hn. fold n. rewrite Cconj_mul, Hc. ring.
  - unfold idft.
    assert (E : forall a b, Copp (Cmul a b) = Cmul a (Copp b)) by (intros; ring). rewrite E. f_equal.
    assert (Es : Copp (Csum n (fun k => Cmul (Cmul (tw n (Z.of_nat k)) (Cconj (Cmul (Cmul (el p i k) (sig_dft x k)) (0, nth k (xifn 1 n) 0 * fs)))) (tw n (Z.of_nat k * Z.of_nat j))))
      = Cmul (RtoC (-1)) (Csum n (fun k => Cmul (Cmul (tw n (Z.of_nat k)) (Cconj (Cmul (Cmul (el p i k) (sig_dft x k)) (0, nth k (xifn 1 n) 0 * fs)))) (tw n (Z.of_nat k * Z.of_nat j)))))
      by (apply C_eq; simpl; ring).
    rewrite Es, <- Csum_scal. apply Csum_ext. intros k Hk. rewrite sig_rev by exact Hn. fold n. rewrite !Cconj_mul, Hc.
    assert (Ei : Cconj (0, nth k (xifn 1 n) 0 * fs) = Cmul (RtoC (-1)) (0, nth k (xifn 1 n) 0 * fs)) by (apply C_eq; simpl; ring).
    rewrite Ei.
    replace (Cmul (RtoC (-1)) (Cmul (Cmul (tw n (Z.of_nat k)) (Cmul (Cmul (el p i k) (Cconj (sig_dft x k))) (Cmul (RtoC (-1)) (0, nth k (xifn 1 n) 0 * fs)))) (tw n (Z.of_nat k * Z.of_nat j))))
      with (Cmul (Cmul (RtoC (-1)) (RtoC (-1))) (Cmul (Cmul (tw n (Z.of_nat k)) (Cmul (Cmul (el p i k) (Cconj (sig_dft x k))) (0, nth k (xifn 1 n) 0 * fs))) (tw n (Z.of_nat k * Z.of_nat j)))) by ring.
    replace (Cmul (RtoC (-1)) (RtoC (-1))) with C1 by (apply C_eq; simpl; ring). ring.
Qed.

(** padding equally on both sides commutes with reversal *)
Lemma pad_index_rev pt N m : (1 <= N)%Z -> pt <> PSymmetric ->
  np_pad_index pt N (N - 1 - m) = match np_pad_index pt N m with Some k => Some (N - 1 - k)%Z | None => None end /\
  match np_pad_index pt N m with Some k => (0 <= k < N)%Z | None => True end.
Proof.
  intros HN Hpt. unfold np_pad_index.
  destruct (Z.leb_spec 0 m), (Z.ltb_spec m N), (Z.leb_spec 0 (N - 1 - m)), (Z.ltb_spec (N - 1 - m) N); cbn [andb]; try lia; try (split; [reflexivity|lia]).
  all: destruct pt; try (split; [reflexivity|exact I]); try congruence.
  all: try (destruct (Z.ltb_spec m 0), (Z.ltb_spec (N - 1 - m) 0); try lia; split; [f_equal; lia|lia]).
  all: try (pose proof (Z.mod_pos_bound m N ltac:(lia)); split; [f_equal|lia];
       symmetry; apply (Z.mod_unique_pos _ _ (- (m / N))); [lia|]; rewrite (Z.div_mod m N) at 1 by lia; ring).
  all: destruct (Z.eqb_spec N 1); [split; [f_equal; lia|lia]|].
  all: cbv zeta; set (M := (2 * (N - 1))%Z); assert (HM : (0 < M)%Z) by lia; pose proof (Z.mod_pos_bound m M HM) as Hm; set (p := (m mod M)%Z) in *.
  all: assert (Em : (m = M * (m / M) + p)%Z) by (apply Z.div_mod; lia).
  all: destruct (Z.ltb_spec p N).
  all: try (assert (Ep : ((N - 1 - m) mod M = N - 1 - p)%Z) by (symmetry; apply (Z.mod_unique_pos _ _ (- (m / M))); lia);
            rewrite Ep; destruct (Z.ltb_spec (N - 1 - p) N); [split; [reflexivity|lia]|lia]).
  all: assert (Ep : ((N - 1 - m) mod M = N - 1 - p + M)%Z) by (symmetry; apply (Z.mod_unique_pos _ _ (- (m / M) - 1)); lia);
       rewrite Ep; destruct (Z.ltb_spec (N - 1 - p + M) N); [lia|split; [f_equal; lia|lia]].
Qed.

Lemma p2up_even N u n1 n2 : (1 <= N)%Z -> Z.even N = true -> p2up N = (u, n1, n2) -> n1 = n2.
Proof.
  intros HN He E. destruct (p2up_bounds _ _ _ _ HN E) as ((k & Hk & Hu) & _ & _ & Hs & H2 & H1).
  assert (Hu2 : (u = 2 * 2 ^ (k - 1))%Z) by (rewrite <- Z.pow_succ_r by lia; rewrite Hu; f_equal; lia).
  apply Z.even_spec in He. destruct He as (m & Hm). lia.
Qed.
Lemma pad_input_rev pt x xp n1 : pad_input (Some pt) x = Ok (xp, n1) -> Z.even (Z.of_nat (length x)) = true ->
  pad_input (Some pt) (rev x) = Ok (rev xp, n1) /\ (2 * Z.to_nat n1 + length x = length xp)%nat.
Proof.
  intros H He. assert (Hx : x <> []) by (intros ->; discriminate H).
  assert (HN : (1 <= Z.of_nat (length x))%Z) by (destruct x; [congruence|cbn [length]; lia]).
  assert (Hrx : rev x <> []) by (intros K; apply (f_equal (@length R)) in K; rewrite rev_length in K; cbn in K; lia).
  destruct (pad_input_len _ _ _ _ H) as (u & n2 & Eu & Lu & G1 & G2 & G3).
  pose proof (p2up_even _ _ _ _ HN He Eu) as <-. split; [|lia].
  assert (Ew : pad_widths (Z.of_nat (length x)) None = (u, n1, n1)) by exact Eu.
  assert (Ew' : pad_widths (Z.of_nat (length (rev x))) None = (u, n1, n1)) by (rewrite rev_length; exact Eu).
  unfold pad_input in *.
  destruct (match pt with PSymmetric => true | _ => false end) eqn:Ept.
  - destruct pt; try discriminate Ept.
    assert (Hs : (0 < n1 <= Z.of_nat (length x))%Z).
    { destruct (p2up_pad_short _ _ _ _ HN Eu). destruct (p2up_bounds _ _ _ _ HN Eu) as (_ & _ & Q & _). lia. }
    destruct (padsignal_sym R 0 x None u n1 n1 Hx ltac:(discriminate) Ew Hs) as (yp & E & Ly & Hy).
    destruct (padsignal_sym R 0 (rev x) None u n1 n1 Hrx ltac:(discriminate) Ew' ltac:(rewrite rev_length; exact Hs)) as (zp & E' & Lz & Hz).
    rewrite E in H. cbn [bind] in H. injection H as <-. rewrite E'. cbn [bind]. do 2 f_equal.
    apply list_eq_nth with (d := 0); [rewrite rev_length; lia|]. intros i Hi. rewrite rev_nth by lia.
    rewrite <- (Nat2Z.id i) at 1. rewrite Hz by lia. rewrite rev_length in *.
    replace (length yp - S i)%nat with (Z.to_nat (u - 1 - Z.of_nat i)) by lia. rewrite Hy by lia.
    set (N := Z.of_nat (length x)) in *. set (I := Z.of_nat i).
    destruct (Z.ltb_spec I n1), (Z.ltb_spec I (n1 + N)), (Z.ltb_spec (u - 1 - I) n1), (Z.ltb_spec (u - 1 - I) (n1 + N)); try lia;
      rewrite rev_nth by lia; f_equal; lia.
  - assert (Hpt : pt <> PSymmetric) by (intros ->; discriminate Ept).
    destruct (padsignal_np R 0 x pt None u n1 n1 Hx Hpt ltac:(discriminate) Ew) as (yp & E & Ly & Hy).
    destruct (padsignal_np R 0 (rev x) pt None u n1 n1 Hrx Hpt ltac:(discriminate) Ew') as (zp & E' & Lz & Hz).
    rewrite E in H. cbn [bind] in H. injection H as <-. rewrite E'. cbn [bind]. do 2 f_equal.
    apply list_eq_nth with (d := 0); [rewrite rev_length; lia|]. intros i Hi. rewrite rev_nth by lia.
    rewrite <- (Nat2Z.id i) at 1. rewrite Hz by lia.
    replace (length yp - S i)%nat with (Z.to_nat (u - 1 - Z.of_nat i)) by lia. rewrite Hy by lia.
    unfold pad_at. rewrite rev_length. set (N := Z.of_nat (length x)) in *.
    replace (u - 1 - Z.of_nat i - n1)%Z with (N - 1 - (Z.of_nat i - n1))%Z by lia.
    destruct (pad_index_rev pt N (Z.of_nat i - n1) HN Hpt) as [Q1 Q2]. rewrite Q1.
    destruct (np_pad_index pt N (Z.of_nat i - n1)) as [k|]; [|reflexivity]. rewrite rev_nth by lia. f_equal. lia.
Qed.

(** zeros moved from the end of the signal to its start *)
Lemma nth_repeat0 m k : nth m (repeat 0 k) 0 = 0.
Proof. revert m; induction k; intros [|m]; cbn; auto. Qed.
Lemma pad_zero_delay y s xp n1 : pad_input (Some PZero) (y ++ repeat 0 s) = Ok (xp, n1) ->
  exists xp', pad_input (Some PZero) (repeat 0 s ++ y) = Ok (xp', n1) /\ rolled (length xp - s) xp xp' /\ (s <= length xp)%nat.
Proof.
  intros H. set (x := y ++ repeat 0 s) in *. set (x' := repeat 0 s ++ y).
  assert (Hx : x <> []) by (intros E; rewrite E in H; discriminate H).
  assert (Hl : length x' = length x) by (unfold x, x'; rewrite !app_length; lia).
  assert (Hlx : length x = (length y + s)%nat) by (unfold x; rewrite app_length, repeat_length; reflexivity).
  assert (HN : (1 <= Z.of_nat (length x))%Z) by (destruct x; [congruence|cbn [length]; lia]).
  assert (Hx' : x' <> []) by (intros K; rewrite K in Hl; cbn in Hl; lia).
  destruct (pad_input_len _ _ _ _ H) as (u & n2 & Eu & Lu & G1 & G2 & G3).
  assert (Ew : pad_widths (Z.of_nat (length x)) None = (u, n1, n2)) by exact Eu.
  assert (Ew' : pad_widths (Z.of_nat (length x')) None = (u, n1, n2)) by (rewrite Hl; exact Eu).
  unfold pad_input in *.
  destruct (padsignal_np R 0 x PZero None u n1 n2 Hx ltac:(discriminate) ltac:(discriminate) Ew) as (yp & E & Ly & Hy).
  destruct (padsignal_np R 0 x' PZero None u n1 n2 Hx' ltac:(discriminate) ltac:(discriminate) Ew') as (zp & E' & Lz & Hz).
  rewrite E in H. cbn [bind] in H. injection H as <-. exists zp. rewrite E'. split; [reflexivity|]. split; [|lia].
  split; [lia|]. intros m Hm.
  rewrite <- (Nat2Z.id m) at 1. rewrite Hz by lia.
  set (m' := ((m + (length yp - s)) mod length yp)%nat).
  assert (Hm' : m' = if (m <? s)%nat then (m + (length yp - s))%nat else (m - s)%nat).
  { unfold m'. destruct (Nat.ltb_spec m s); [apply Nat.mod_small; lia|].
    replace (m + (length yp - s))%nat with (m - s + 1 * length yp)%nat by lia. rewrite Nat.mod_add by lia. apply Nat.mod_small. lia. }
  assert (Hb : (m' < length yp)%nat) by (unfold m'; apply Nat.mod_upper_bound; lia).
  rewrite <- (Nat2Z.id m'). rewrite Hy by lia.
  unfold pad_at. rewrite Hl. unfold np_pad_index. set (N := Z.of_nat (length x)) in *.
  assert (Ex : forall k, nth k x 0 = if (k <? length y)%nat then nth k y 0 else 0).
  { intros k. unfold x. destruct (Nat.ltb_spec k (length y)); [apply app_nth1; assumption|]. rewrite app_nth2 by assumption. apply nth_repeat0. }
  assert (Ex' : forall k, nth k x' 0 = if (k <? s)%nat then 0 else nth (k - s) y 0).
  { intros k. unfold x'. destruct (Nat.ltb_spec k s); [rewrite app_nth1 by (rewrite repeat_length; assumption); apply nth_repeat0|].
    rewrite app_nth2 by (rewrite repeat_length; assumption). rewrite repeat_length. reflexivity. }
  destruct (Nat.ltb_spec m s);
  destruct (Z.leb_spec 0 (Z.of_nat m - n1)), (Z.ltb_spec (Z.of_nat m - n1) N), (Z.leb_spec 0 (Z.of_nat m' - n1)), (Z.ltb_spec (Z.of_nat m' - n1) N);
    cbn [andb]; rewrite ?Ex, ?Ex'; try reflexivity; try lia;
    repeat match goal with |- context [(?a <? ?b)%nat] => destruct (Nat.ltb_spec a b) end; try reflexivity; try lia; f_equal; try lia;
    try (symmetry; apply nth_overflow; lia); try (apply nth_overflow; lia).
Qed.

(** ** The four symmetries of [ssq_cwt] *)
Lemma follows_pad py f q phi chi P sigma x x' s s' :
  (forall xp n1, x <> [] -> pad_input (q_pad q) x = Ok (xp, n1) -> follows py f q phi chi P sigma x x' s s') ->
  follows py f q phi chi P sigma x x' s s'.
Proof.
  intros H aa W sc dW E1 E2 E3 E4 E5 E6 E.
  destruct (cwt_ok_inv _ _ _ _ _ _ _ _ E) as ((fs & xp & n1 & scales & Pr) & _ & _).
  destruct Pr as (_ & _ & Hp & _). rewrite E1 in Hp.
  refine (H xp n1 _ Hp aa W sc dW E1 E2 E3 E4 E5 E6 E). intros ->. destruct (q_pad q); discriminate Hp.
Qed.
Lemma set_gamma_same q : set_gamma (q_gamma q) q = q.
Proof. destruct q; reflexivity. Qed.
Lemma real_linear_id : real_linear (fun z => z).
Proof. repeat split; reflexivity. Qed.
Lemma real_linear_conj : real_linear Cconj.
Proof. repeat split; intros; apply C_eq; simpl; ring. Qed.
Lemma Cabs_conj z : Cabs (Cconj z) = Cabs z.
Proof. destruct z as [a b]. unfold Cabs, Cnorm2, Cconj, Re, Im. cbn [fst snd]. f_equal. ring. Qed.
Lemma real_linear_scal a : real_linear (Cmul (RtoC a)).
Proof. repeat split; intros; apply C_eq; simpl; ring. Qed.

(** multiplying the signal *)
Definition scaled (al : R) : C -> C := Cmul (RtoC al).
Lemma phase_scaled al z d : al <> 0 -> phase_cwt_pt (scaled al z) (scaled al d) = phase_cwt_pt z d.
Proof.
  intros Ha. unfold phase_cwt_pt, phase_ratio, scaled. f_equal. destruct z as [a b], d as [c e]. cbn [Cmul RtoC Re Im fst snd].
  destruct (Req_dec (a * a + b * b) 0) as [E|E].
  - assert (a = 0) by nra. assert (b = 0) by nra. subst. unfold Rdiv. ring.
  - pose proof PI_RGT_0. field. repeat split; try lra. intros K. apply E.
    assert (al * al * (a * a + b * b) = 0) by lra. apply Rmult_integral in H0. destruct H0; [exfalso; nra|assumption].
Qed.
Lemma phase_abs_scaled al z d : al <> 0 -> phase_cwt_pt (RtoC (Cabs (scaled al z))) (scaled al d) = phase_cwt_pt (RtoC (Cabs z)) d.
Proof.
  intros Ha. unfold scaled at 1. rewrite Cabs_mul, Cabs_RtoC.
  unfold phase_cwt_pt, phase_ratio, scaled, Rdiv. set (t := Cabs z). destruct d as [c e]. cbn [Cmul RtoC Re Im fst snd].
  pose proof PI_RGT_0. destruct (Req_dec t 0) as [ ->|Ht]; [rewrite !Rmult_0_r; cbn; f_equal; ring|].
  assert (Rabs al <> 0) by (apply Rabs_no_R0; exact Ha). assert (Hq : Rabs al * Rabs al = al * al) by (rewrite <- Rabs_mult; apply Rabs_right; nra).
  assert (E : ((al * e + 0 * c) * (Rabs al * t) - (al * c - 0 * e) * 0) * / ((Rabs al * t * (Rabs al * t) + 0 * 0) * (2 * PI))
    = (al * / Rabs al) * ((e * t - c * 0) * / ((t * t + 0 * 0) * (2 * PI)))) by (field; repeat split; lra).
  rewrite E, Rabs_mult. rewrite Rabs_mult, Rabs_inv, Rabs_Rabsolu, Rinv_r by assumption. ring.
Qed.
Lemma lin_scale al x : lin al 0 x x = map (Rmult al) x.
Proof. unfold lin. induction x as [|a x IH]; [reflexivity|]. cbn. f_equal; [ring|exact IH]. Qed.
Lemma follows_scale py f q al x s s' : follows py f q (scaled al) (scaled al) (fun _ => True) (fun j => j) x (map (Rmult al) x) s s'.
Proof.
  intros aa W sc dW E1 E2 E3 E4 E5 E6 E.
  destruct (cwt_linear _ _ _ _ _ al 0 _ x _ _ _ _ eq_refl E) as (Wy & dy & Wz & dz & Ey & Ez & H1 & H2).
  rewrite E in Ey. injection Ey as <- <-. rewrite lin_scale in Ez. destruct dz as [dz|]; [|contradiction].
  assert (K : forall A B, lincomb al 0 A A B -> related (scaled al) (fun _ => True) (fun j => j) A B).
  { intros A B (K1 & _ & K2 & _ & K). split; [exact K1|]. split; [exact K2|]. intros j Hj _. split; [exact Hj|].
    intros i Hi. rewrite K. unfold scaled. apply C_eq; simpl; ring. }
  exists Wz, dz. split; [exact Ez|]. split; apply K; [exact H1|exact H2].
Qed.

Theorem ssq_cwt_scale ord py f fam q al x s r s' : valid_order ord -> q_order q = None -> q_diff q = DTrig ->
  q_sq q = SqSum \/ q_sq q = SqAbs -> al <> 0 ->
  ssq_cwt ord py f fam q x s = (Ok r, s') ->
  exists r', ssq_cwt ord py f fam (set_gamma (Some (Rabs al * ssq_gamma q)) q) (map (Rmult al) x) s = (Ok r', s') /\
    r_freqs r' = r_freqs r /\ r_scales r' = r_scales r /\
    related (scaled (match q_sq q with SqAbs => Rabs al | _ => al end)) (fun _ => True) (fun j => j) (r_Tx r) (r_Tx r') /\
    related (scaled al) (fun _ => True) (fun j => j) (r_Wx r) (r_Wx r') /\
    related (scaled al) (fun _ => True) (fun j => j) (r_dWx r) (r_dWx r') /\
    opt_rel (related (fun w => w) (fun _ => True) (fun j => j)) (r_w r) (r_w r').
Proof.
  intros Ho Hq Hd Hsq Ha H.
  refine (ssq_cwt_map ord py f fam q _ x (map (Rmult al) x) s r s' (scaled al) (scaled al)
    (scaled (match q_sq q with SqAbs => Rabs al | _ => al end)) (Rabs al) (fun _ => True) (fun j => j)
    Ho Hq Hd (map_length _ _) (Rabs_pos_lt _ Ha) (real_linear_scal _) _ _ _ _ _ (follows_scale py f q al x s s') H).
  - intros z. unfold scaled. rewrite Cabs_mul, Cabs_RtoC. destruct Hsq as [ ->| ->]; [reflexivity|]. rewrite Rabs_Rabsolu. reflexivity.
  - intros z. unfold scaled. rewrite Cabs_mul, Cabs_RtoC. reflexivity.
  - intros z d. apply phase_scaled, Ha.
  - destruct Hsq as [Hsq|Hsq]; rewrite Hsq; cbn [compatible]; [reflexivity|]. split.
    + intros z. unfold scaled. rewrite Cabs_mul, Cabs_RtoC. apply C_eq; simpl; ring.
    + intros z d. apply phase_abs_scaled, Ha.
  - reflexivity.
Qed.

(** rotating the signal, and delaying it *)
Lemma compatible_id sq : sq = SqSum \/ sq = SqAbs -> compatible sq (fun z => z) (fun z => z) (fun z => z).
Proof. intros [ ->| ->]; cbn; auto. Qed.
Lemma ssq_cwt_moves ord py f fam q x x' s r s' P sigma : valid_order ord -> q_order q = None -> q_diff q = DTrig ->
  q_sq q = SqSum \/ q_sq q = SqAbs -> length x' = length x ->
  follows py f q (fun z => z) (fun z => z) P sigma x x' s s' ->
  ssq_cwt ord py f fam q x s = (Ok r, s') ->
  exists r', ssq_cwt ord py f fam q x' s = (Ok r', s') /\ r_freqs r' = r_freqs r /\ r_scales r' = r_scales r /\
    related (fun z => z) P sigma (r_Tx r) (r_Tx r') /\ related (fun z => z) P sigma (r_Wx r) (r_Wx r') /\
    related (fun z => z) P sigma (r_dWx r) (r_dWx r') /\ opt_rel (related (fun w => w) P sigma) (r_w r) (r_w r').
Proof.
  intros Ho Hq Hd Hsq HL Hf H. replace (ssq_cwt ord py f fam q) with (ssq_cwt ord py f fam (set_gamma (q_gamma q) q)) by (rewrite set_gamma_same; reflexivity).
  refine (ssq_cwt_map ord py f fam q (q_gamma q) x x' s r s' (fun z => z) (fun z => z) (fun z => z) 1 P sigma
    Ho Hq Hd HL Rlt_0_1 real_linear_id _ _ _ (compatible_id _ Hsq) _ Hf H).
  - intros z. ring.
  - intros z. ring.
  - reflexivity.
  - rewrite set_gamma_same. ring.
Qed.

Lemma follows_roll py f q k x x' s s' : q_pad q = None -> (k <= length x)%nat -> rolled k x x' ->
  follows py f q (fun z => z) (fun z => z) (fun _ => True) (fun j => (j + k) mod length x)%nat x x' s s'.
Proof.
  intros Hp Hk Hr. apply follows_pad. intros xp n1 Hx Ep. rewrite Hp in Ep. 
  assert (Ep' : pad_input None x = Ok (x, 0%Z)) by (destruct x; [congruence|reflexivity]). rewrite Ep' in Ep. injection Ep as <- <-.
  assert (HL : (1 <= length x)%nat) by (destruct x; [congruence|cbn; lia]). destruct Hr as [Hl Hr].
  assert (Ex' : pad_input None x' = Ok (x', 0%Z)) by (destruct x'; [cbn in Hl; lia|reflexivity]).
  apply follows_padded with (tau := fun j => ((j + k) mod length x)%nat) (xp := x) (xp' := x') (n1 := 0%Z); rewrite ?Hp; auto.
  - intros aa sc fs i j _ _ Hj p. split; [apply Nat.mod_upper_bound; lia|]. apply cells_roll; auto. split; auto.
  - intros j Hj _. split; [apply Nat.mod_upper_bound; lia|]. reflexivity.
Qed.
Theorem ssq_cwt_roll ord py f fam q k x x' s r s' : valid_order ord -> q_order q = None -> q_diff q = DTrig ->
  q_sq q = SqSum \/ q_sq q = SqAbs -> q_pad q = None -> (k <= length x)%nat -> rolled k x x' ->
  ssq_cwt ord py f fam q x s = (Ok r, s') ->
  exists r', ssq_cwt ord py f fam q x' s = (Ok r', s') /\ r_freqs r' = r_freqs r /\ r_scales r' = r_scales r /\
    let by_k {X} := @related X X (fun z => z) (fun _ => True) (fun j => ((j + k) mod length x)%nat) in
    by_k (r_Tx r) (r_Tx r') /\ by_k (r_Wx r) (r_Wx r') /\ by_k (r_dWx r) (r_dWx r') /\ opt_rel by_k (r_w r) (r_w r').
Proof.
  intros Ho Hq Hd Hsq Hp Hk Hr H.
  exact (ssq_cwt_moves ord py f fam q x x' s r s' _ _ Ho Hq Hd Hsq (proj1 Hr) (follows_roll py f q k x x' s s' Hp Hk Hr) H).
Qed.

Lemma follows_delay py f q y k s s' : q_pad q = Some PZero ->
  follows py f q (fun z => z) (fun z => z) (fun j => (k <= j)%nat) (fun j => (j - k)%nat) (y ++ repeat 0 k) (repeat 0 k ++ y) s s'.
Proof.
  intros Hp. apply follows_pad. intros xp n1 Hx Ep. rewrite Hp in Ep.
  destruct (pad_zero_delay _ _ _ _ Ep) as (xp' & Ep' & Hr & Hk). destruct Hr as [Hl Hr].
  destruct (pad_input_len _ _ _ _ Ep) as (u & n2 & Eu & Lu & G1 & G2 & G3).
  assert (HN : (1 <= length (y ++ repeat 0%R k))%nat) by (destruct (y ++ repeat 0%R k); [congruence|cbn; lia]).
  apply follows_padded with (tau := fun j => ((j + (length xp - k)) mod length xp)%nat) (xp := xp) (xp' := xp') (n1 := n1); rewrite ?Hp; auto.
  - rewrite !app_length. lia.
  - intros aa sc fs i j _ _ Hj p. split; [apply Nat.mod_upper_bound; lia|]. apply cells_roll; [lia|lia|]. split; auto.
  - intros j Hj Hkj. split; [lia|].
    replace (Z.to_nat n1 + j + (length xp - k))%nat with (Z.to_nat n1 + (j - k) + 1 * length xp)%nat by lia.
    rewrite Nat.mod_add by lia. symmetry. apply Nat.mod_small. lia.
Qed.
Theorem ssq_cwt_delay ord py f fam q y k s r s' : valid_order ord -> q_order q = None -> q_diff q = DTrig ->
  q_sq q = SqSum \/ q_sq q = SqAbs -> q_pad q = Some PZero ->
  ssq_cwt ord py f fam q (y ++ repeat 0 k) s = (Ok r, s') ->
  exists r', ssq_cwt ord py f fam q (repeat 0 k ++ y) s = (Ok r', s') /\ r_freqs r' = r_freqs r /\ r_scales r' = r_scales r /\
    let by_k {X} := @related X X (fun z => z) (fun j => (k <= j)%nat) (fun j => (j - k)%nat) in
    by_k (r_Tx r) (r_Tx r') /\ by_k (r_Wx r) (r_Wx r') /\ by_k (r_dWx r) (r_dWx r') /\ opt_rel by_k (r_w r) (r_w r').
Proof.
  intros Ho Hq Hd Hsq Hp H.
  refine (ssq_cwt_moves ord py f fam q _ _ s r s' _ _ Ho Hq Hd Hsq _ (follows_delay py f q y k s s' Hp) H).
  rewrite !app_length. lia.
Qed.

(** reversing the signal *)
Lemma pad_zero_rev x xp n1 : pad_input (Some PZero) x = Ok (xp, n1) -> exists xp' e,
  pad_input (Some PZero) (rev x) = Ok (xp', n1) /\ rolled (length xp - e) (rev xp) xp' /\
  (e <= length xp)%nat /\ (2 * Z.to_nat n1 + length x = length xp + e)%nat /\ (e <= Z.to_nat n1)%nat.
Proof.
  intros H. assert (Hx : x <> []) by (intros ->; discriminate H).
  assert (HN : (1 <= Z.of_nat (length x))%Z) by (destruct x; [congruence|cbn [length]; lia]).
  assert (Hrx : rev x <> []) by (intros K; apply (f_equal (@length R)) in K; rewrite rev_length in K; cbn in K; lia).
  destruct (pad_input_len _ _ _ _ H) as (u & n2 & Eu & Lu & G1 & G2 & G3).
  assert (Ew : pad_widths (Z.of_nat (length x)) None = (u, n1, n2)) by exact Eu.
  assert (Ew' : pad_widths (Z.of_nat (length (rev x))) None = (u, n1, n2)) by (rewrite rev_length; exact Eu).
  destruct (p2up_bounds _ _ _ _ HN Eu) as (_ & _ & _ & Hs & H2 & H1).
  unfold pad_input in *.
  destruct (padsignal_np R 0 x PZero None u n1 n2 Hx ltac:(discriminate) ltac:(discriminate) Ew) as (yp & E & Ly & Hy).
  destruct (padsignal_np R 0 (rev x) PZero None u n1 n2 Hrx ltac:(discriminate) ltac:(discriminate) Ew') as (zp & E' & Lz & Hz).
  rewrite E in H. cbn [bind] in H. injection H as <-. exists zp, (Z.to_nat (n1 - n2)). rewrite E'. split; [reflexivity|].
  set (e := Z.to_nat (n1 - n2)). assert (He : (Z.of_nat e = n1 - n2)%Z) by (unfold e; lia).
  split; [|lia]. split; [rewrite rev_length; lia|]. intros m Hm. rewrite rev_length in *.
  rewrite <- (Nat2Z.id m) at 1. rewrite Hz by lia.
  set (m' := ((m + (length yp - e)) mod length yp)%nat).
  assert (Hm' : m' = if (m <? e)%nat then (m + (length yp - e))%nat else (m - e)%nat).
  { unfold m'. destruct (Nat.ltb_spec m e); [apply Nat.mod_small; lia|].
    replace (m + (length yp - e))%nat with (m - e + 1 * length yp)%nat by lia. rewrite Nat.mod_add by lia. apply Nat.mod_small. lia. }
  assert (Hb : (m' < length yp)%nat) by (unfold m'; apply Nat.mod_upper_bound; lia).
  rewrite rev_nth by exact Hb. replace (length yp - S m')%nat with (Z.to_nat (u - 1 - Z.of_nat m')) by lia. rewrite Hy by lia.
  unfold pad_at, np_pad_index. rewrite rev_length. set (N := Z.of_nat (length x)) in *.
  destruct (Nat.ltb_spec m e);
  destruct (Z.leb_spec 0 (Z.of_nat m - n1)), (Z.ltb_spec (Z.of_nat m - n1) N), (Z.leb_spec 0 (u - 1 - Z.of_nat m' - n1)), (Z.ltb_spec (u - 1 - Z.of_nat m' - n1) N);
    cbn [andb]; try reflexivity; try lia; rewrite rev_nth by lia; f_equal; lia.
Qed.
Lemma follows_rev py f q x s s' : real_valued f -> s_cache s = None \/ use_cache true (q_vec q) (q_cache q) = false ->
  q_pad q = None \/ q_pad q = Some PZero \/ Nat.even (length x) = true ->
  follows py f q Cconj (fun d => Copp (Cconj d)) (fun _ => True) (fun j => (length x - 1 - j)%nat) x (rev x) s s'.
Proof.
  intros Hf Hc Hp. apply follows_pad. intros xp n1 Hx Ep.
  assert (HN : (1 <= length x)%nat) by (destruct x; [congruence|cbn; lia]).
  set (off := if q_pad q then Z.to_nat n1 else 0%nat).
  assert (K : exists xp' e, pad_input (q_pad q) (rev x) = Ok (xp', n1) /\ rolled (length xp - e) (rev xp) xp' /\ (e <= length xp)%nat /\
    (2 * off + length x = length xp + e)%nat /\ (e <= off)%nat).
  { assert (Kr : forall l : list R, rolled (length l - 0) l l).
    { intros l. split; [reflexivity|]. intros m Hm. f_equal. replace (m + (length l - 0))%nat with (m + 1 * length l)%nat by lia.
      rewrite Nat.mod_add by lia. symmetry. apply Nat.mod_small. exact Hm. }
    unfold off in *. destruct (q_pad q) as [pt|] eqn:E.
    - assert (Hp' : pt = PZero \/ Nat.even (length x) = true) by (destruct Hp as [Hp|[Hp|Hp]]; [discriminate Hp|left; congruence|right; exact Hp]).
      destruct Hp' as [ ->|Hp']; [exact (pad_zero_rev _ _ _ Ep)|].
      exists (rev xp), 0%nat. destruct (pad_input_rev pt x xp n1 Ep) as [K1 K2].
      { apply Nat.even_spec in Hp'. destruct Hp' as (m & Hm). apply Z.even_spec. exists (Z.of_nat m). lia. }
      split; [exact K1|]. split; [rewrite <- rev_length; apply Kr|]. lia.
    - destruct x as [|x0 x1] eqn:Ex; [congruence|]. rewrite <- Ex in *. assert (Ep2 : pad_input None x = Ok (x, 0%Z)) by (rewrite Ex; reflexivity).
      rewrite Ep2 in Ep. injection Ep as <- <-. exists (rev x), 0%nat. split; [|split; [rewrite <- rev_length; apply Kr|lia]].
      destruct (rev x) eqn:Er; [apply (f_equal (@length R)) in Er; rewrite rev_length in Er; cbn in Er; lia|reflexivity]. }
  destruct K as (xp' & e & K1 & (K2 & K3) & K4 & K5 & K6). rewrite rev_length in K2, K3.
  apply follows_padded with (tau := fun j => (length xp - 1 - (j + (length xp - e)) mod length xp)%nat) (xp := xp) (xp' := xp') (n1 := n1); auto using rev_length.
  - intros aa sc fs i j E1 E2 Hj p. split; [lia|].
    assert (Hm : ((j + (length xp - e)) mod length xp < length xp)%nat) by (apply Nat.mod_upper_bound; lia).
    destruct (cells_roll p (length xp - e) (rev xp) xp' fs i j) as [R1 R2]; rewrite ?rev_length; [lia|lia|split; rewrite ?rev_length; auto|].
    rewrite rev_length in R1, R2. rewrite R1, R2. apply cells_rev; [|exact Hm].
    intros k. unfold p. rewrite psih_used_el; [|exact Hf|unfold uncached; rewrite E1, E2; exact Hc].
    unfold psih_val. specialize (Hf (nth i sc 0 * nth k (xifn 1 (length xp)) 0)). destruct (wf f _) as [a b]. cbn in Hf. subst b.
    destruct (negb false && _ && _); simpl; ring.
  - intros j Hj _. split; [lia|]. change (if q_pad q then Z.to_nat n1 else 0%nat) with off.
    replace (off + j + (length xp - e))%nat with (off + j - e + 1 * length xp)%nat by lia. rewrite Nat.mod_add by lia.
    rewrite Nat.mod_small by lia. lia.
Qed.
Lemma phase_rev z d : phase_cwt_pt (Cconj z) (Copp (Cconj d)) = phase_cwt_pt z d.
Proof.
  unfold phase_cwt_pt, phase_ratio. f_equal. destruct z as [a b], d as [c e]. cbn [Cconj Copp Re Im fst snd]. unfold Rdiv.
  f_equal; [ring|]. f_equal. ring.
Qed.
Theorem ssq_cwt_rev ord py f fam q x s r s' : valid_order ord -> q_order q = None -> q_diff q = DTrig ->
  q_sq q = SqSum \/ q_sq q = SqAbs -> real_valued f -> s_cache s = None \/ use_cache true (q_vec q) (q_cache q) = false ->
  q_pad q = None \/ q_pad q = Some PZero \/ Nat.even (length x) = true ->
  ssq_cwt ord py f fam q x s = (Ok r, s') ->
  exists r', ssq_cwt ord py f fam q (rev x) s = (Ok r', s') /\ r_freqs r' = r_freqs r /\ r_scales r' = r_scales r /\
    let mirror {X} (phi : X -> X) := @related X X phi (fun _ => True) (fun j => (length x - 1 - j)%nat) in
    mirror Cconj (r_Tx r) (r_Tx r') /\ mirror Cconj (r_Wx r) (r_Wx r') /\
    mirror (fun d => Copp (Cconj d)) (r_dWx r) (r_dWx r') /\ opt_rel (mirror (fun w => w)) (r_w r) (r_w r').
Proof.
  intros Ho Hq Hd Hsq Hf Hc Hp H. replace (ssq_cwt ord py f fam q) with (ssq_cwt ord py f fam (set_gamma (q_gamma q) q)) by (rewrite set_gamma_same; reflexivity).
  refine (ssq_cwt_map ord py f fam q (q_gamma q) x (rev x) s r s' Cconj (fun d => Copp (Cconj d)) Cconj 1 _ _
    Ho Hq Hd (rev_length _) Rlt_0_1 real_linear_conj _ _ phase_rev _ _ (follows_rev py f q x s s' Hf Hc Hp) H).
  - intros z. rewrite Cabs_conj. ring.
  - intros z. rewrite Cabs_conj. ring.
  - destruct Hsq as [Hsq|Hsq]; rewrite Hsq; cbn [compatible]; [reflexivity|]. split; intros z; [|intros d].
    + rewrite Cabs_conj. apply C_eq; simpl; ring.
    + rewrite Cabs_conj. rewrite <- (phase_rev (RtoC (Cabs z)) d). f_equal. apply C_eq; simpl; ring.
  - rewrite set_gamma_same. ring.
Qed.
