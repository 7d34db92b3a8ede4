(** Rows of [cwt] with a wavelet that vanishes at negative frequencies: analytic signals. *)
From Coq Require Import Reals Lra Lia List ZifyBool ZifyNat.
Import ListNotations.
From Verif Require Import Py Round Cplx CplxProofs Padding PaddingProofs Buffer Freqs Squeeze Scales Cwt CwtProofs CwtThms CwtThms2 RoundTripGain CwtDeriv.
Local Open Scope R_scope.

(** a length-[n] array without negative or zero frequencies, [nyq] real in bin [n/2] *)
Definition one_sided (n : nat) (v : nat -> C) : Prop :=
  dft n v 0 = C0 /\ (forall k, (k < n)%nat -> (n < 2 * k)%nat -> dft n v k = C0) /\ (forall k, (2 * k = n)%nat -> Im (dft n v k) = 0).
Lemma part_re n v k : (1 <= n)%nat -> (0 < k < n)%nat -> dft n (fun j => RtoC (fst (v j))) k = Cmul (RtoC (/ 2)) (Cadd (dft n v k) (Cconj (dft n v (n - k)))).
Proof.
  intros Hn Hk. assert (E : Cconj (dft n v (n - k)) = dft n (fun j => Cconj (v j)) k).
  { unfold dft. rewrite Csum_conj. apply Csum_ext. intros m Hm. rewrite Cconj_mul, <- tw_opp by exact Hn. f_equal.
    rewrite <- (tw_shift n Hn (- (Z.of_nat k * Z.of_nat m)) (Z.of_nat m)). f_equal. lia. }
  rewrite E, <- dft_add, <- dft_scal. apply dft_ext. intros m Hm. apply C_eq; unfold Cadd, Cmul, RtoC, Cconj; cbn [fst snd]; field.
Qed.
Lemma part_im n v k : (1 <= n)%nat -> (0 < k < n)%nat -> dft n (fun j => RtoC (snd (v j))) k = Cmul (0, - / 2) (Csub (dft n v k) (Cconj (dft n v (n - k)))).
Proof.
  intros Hn Hk. assert (E : dft n (fun j => RtoC (snd (v j))) k = dft n (fun j => RtoC (fst (Cmul (0, -1) (v j)))) k).
  { apply dft_ext. intros m Hm. apply C_eq; unfold Cmul, RtoC; cbn [fst snd]; ring. }
  rewrite E, part_re by assumption. rewrite !dft_scal. generalize (dft n v k) (dft n v (n - k)). intros [p q] [r s]. apply C_eq; unfold Csub, Copp, Cadd, Cmul, RtoC, Cconj; cbn [fst snd]; field.
Qed.
Lemma hilbert_pair n v k : one_sided n v -> (0 < k)%nat -> (2 * k < n)%nat ->
  dft n (fun j => RtoC (snd (v j))) k = Cmul (0, -1) (dft n (fun j => RtoC (fst (v j))) k).
Proof.
  intros (H0 & H1 & H2) Hk K2. rewrite part_im, part_re by lia. rewrite (H1 (n - k)%nat) by lia. apply C_eq; unfold C0, Csub, Copp, Cadd, Cmul, RtoC, Cconj; cbn [fst snd]; field.
Qed.
Lemma sum_zero n v : one_sided n v -> Csum n v = C0.
Proof.
  intros (H0 & _). rewrite <- H0. unfold dft. apply Csum_ext. intros m Hm. change (Z.of_nat 0 * Z.of_nat m)%Z with 0%Z. change (- 0)%Z with 0%Z.
  rewrite tw_0 by lia. ring.
Qed.
Lemma square_sum n v : (1 <= n)%nat -> one_sided n v ->
  Csum n (fun j => Cmul (v j) (v j)) = if (n mod 2 =? 0)%nat then RtoC (Re (dft n v (n / 2)) ^ 2 / INR n) else C0.
Proof.
  intros Hn (H0 & H1 & H2). assert (HR : INR n <> 0) by (apply not_0_INR; lia).
  assert (E : Csum n (fun j => Cmul (v j) (v j)) = Cmul (RtoC (/ INR n)) (Csum n (fun k => Cmul (dft n v k) (if (k =? 0)%nat then C0 else dft n v (n - k))))).
  { rewrite <- Csum_scal. rewrite (Csum_ext n (fun j => Cmul (v j) (v j)) (fun j => Csum n (fun k => Cmul (RtoC (/ INR n)) (Cmul (dft n v k) (Cmul (v j) (tw n (Z.of_nat k * Z.of_nat j))))))).
    2:{ intros j Hj. rewrite <- (idft_dft n Hn v j Hj) at 1. unfold idft. rewrite <- Csum_scal, <- Csum_scal_r. apply Csum_ext. intros k Hk. ring. }
    rewrite Csum_swap. apply Csum_ext. intros k Hk. rewrite !Csum_scal. destruct (Nat.eqb_spec k 0) as [ ->|Hk0]; [rewrite H0; ring|]. do 2 f_equal.
    unfold dft. apply Csum_ext. intros m Hm. f_equal. rewrite <- (tw_shift n Hn (- (Z.of_nat (n - k) * Z.of_nat m)) (Z.of_nat m)). f_equal. lia. }
  rewrite E. destruct (Nat.eqb_spec (n mod 2) 0) as [Ev|Od].
  - assert (Eh : (2 * (n / 2) = n)%nat) by (pose proof (Nat.div_mod n 2 ltac:(lia)); lia).
    rewrite (Csum_single n _ (n / 2)%nat).
    + destruct (Nat.eqb_spec (n / 2) 0); [lia|]. replace (n - n / 2)%nat with (n / 2)%nat by lia. pose proof (H2 _ Eh) as I. unfold Im in I.
      apply C_eq; unfold Cmul, RtoC, Re; cbn [fst snd]; rewrite I; field; assumption.
    + lia.
    + intros k Hk Hne. destruct (Nat.eqb_spec k 0); [ring|]. destruct (Nat.lt_ge_cases n (2 * k)); [rewrite H1 by lia|rewrite (H1 (n - k)%nat) by lia]; ring.
  - rewrite Csum_0; [ring|]. intros k Hk. destruct (Nat.eqb_spec k 0); [ring|]. pose proof (Nat.div_mod n 2 ltac:(lia)) as Dm.
    destruct (Nat.lt_ge_cases n (2 * k)); [rewrite H1 by lia; ring|]. destruct (Nat.eq_dec (2 * k) n) as [Eq|].
    + exfalso. apply Od. rewrite <- Eq, Nat.mul_comm. apply Nat.mod_mul. lia.
    + rewrite (H1 (n - k)%nat) by lia; ring.
Qed.
Lemma Csum_parts n u : Csum n u = (Rsum n (fun j => fst (u j)), Rsum n (fun j => snd (u j))).
Proof. induction n as [|n IH]; [reflexivity|]. cbn [Csum Rsum]. rewrite IH. reflexivity. Qed.
Lemma parts_orthogonal n v : (1 <= n)%nat -> one_sided n v -> Rsum n (fun j => fst (v j) * snd (v j)) = 0.
Proof.
  intros Hn H. pose proof (square_sum n v Hn H) as E. rewrite Csum_parts in E.
  assert (S2 : Rsum n (fun j => snd (Cmul (v j) (v j))) = 0) by (destruct (n mod 2 =? 0)%nat; injection E as _ E; exact E).
  assert (S3 : Rsum n (fun j => snd (Cmul (v j) (v j))) = 2 * Rsum n (fun j => fst (v j) * snd (v j))).
  { rewrite <- Rsum_scal. apply Rsum_ext. intros j Hj. unfold Cmul. cbn [snd]. ring. }
  lra.
Qed.
Lemma rsum_minus n f g : Rsum n (fun i => f i - g i) = Rsum n f - Rsum n g.
Proof. induction n as [|n IH]; cbn [Rsum]; [ring|rewrite IH; ring]. Qed.
Lemma parts_energy n v : (1 <= n)%nat -> one_sided n v ->
  Rsum n (fun j => fst (v j) ^ 2) - Rsum n (fun j => snd (v j) ^ 2) = if (n mod 2 =? 0)%nat then Re (dft n v (n / 2)) ^ 2 / INR n else 0.
Proof.
  intros Hn H. pose proof (square_sum n v Hn H) as E. rewrite Csum_parts in E.
  assert (S3 : Rsum n (fun j => fst (Cmul (v j) (v j))) = Rsum n (fun j => fst (v j) ^ 2) - Rsum n (fun j => snd (v j) ^ 2)).
  { rewrite <- rsum_minus. apply Rsum_ext. intros j Hj. unfold Cmul. cbn [fst]. ring. }
  rewrite <- S3. destruct (n mod 2 =? 0)%nat; injection E as E _; exact E.
Qed.

(** ** rows of [cwt] *)
Lemma bin_freq_neg n k : (k < n)%nat -> (n < 2 * k)%nat -> bin_freq k n < 0.
Proof.
  intros Hk H. unfold bin_freq. destruct (Nat.leb_spec k (n / 2)) as [L|L].
  - pose proof (Nat.div_mod n 2 ltac:(lia)). lia.
  - pose proof PI_RGT_0. assert (0 < INR n) by (apply lt_0_INR; lia). assert (INR k < INR n) by (apply lt_INR; lia).
    unfold Rdiv. assert (0 < / INR n) by (apply Rinv_0_lt_compat; lra). assert (0 < (INR n - INR k) * / INR n) by (apply Rmult_lt_0_compat; lra). nra.
Qed.
Theorem rows_one_sided py inst f g a x s W sc dW s' i : whole a -> uncached inst a s -> spectrum f g -> cwt py inst f a x s = (Ok (W, sc, dW), s') ->
  0 < nth i sc 0 -> (1 <= ncols W)%nat /\ one_sided (ncols W) (el W i).
Proof.
  intros Hw Hu Sp H Hpos.
  assert (Hr : real_valued f). { intros w. destruct Sp as [S1 S2]. destruct (Rle_lt_dec w 0) as [L|L]; [rewrite S2 by exact L|rewrite S1 by exact L]; reflexivity. }
  destruct (cwt_ok_inv _ _ _ _ _ _ _ _ H) as ((fs & xp & n1 & scales & P) & U1 & U2).
  rewrite (cwt_run _ _ _ _ _ _ _ _ _ _ P U1 U2) in H. injection H as <- <- <- <-. destruct P as (Hfs & Hg & Hp & Hsc).
  assert (Hn : (1 <= length xp)%nat).
  { destruct (a_pad a) as [pt|] eqn:Ep.
    - destruct (pad_input_len _ _ _ _ Hp) as (u & n2 & E & L & A & B & D). destruct x; [discriminate Hp|]. cbn [length] in B. lia.
    - unfold pad_input in Hp. destruct x; [discriminate|]. injection Hp as <- <-. cbn. lia. }
  assert (Ew : negb (a_rpadded a) && (if a_pad a then true else false) = false) by (destruct Hw as [ ->| ->]; [reflexivity|apply Bool.andb_false_r]).
  set (n := length xp) in *. set (c := if a_l1 a then 1 else sqrt (nth i scales 0)).
  unfold finish. rewrite Ew. set (W := if a_l1 a then _ else _).
  assert (Cw : ncols W = n) by (unfold W; destruct (a_l1 a); reflexivity). rewrite Cw.
  assert (V : forall k, (k < n)%nat -> dft n (el W i) k = Cmul (RtoC c) (Cmul (psih_val f (nth i scales 0) n false k) (sig_dft xp k))).
  { intros k Hk. rewrite <- (dft_idft n Hn (fun k => Cmul (psih_val f (nth i scales 0) n false k) (sig_dft xp k)) k Hk). rewrite <- dft_scal. apply dft_ext. intros m Hm.
    unfold W, c. destruct (a_l1 a); unfold scale_rows, raw, cwt_cell; cbn [el]; fold n.
    - rewrite (idft_ext n _ (fun k => Cmul (psih_val f (nth i scales 0) n false k) (sig_dft xp k))) by (intros q Hq; rewrite psih_used_el by auto; reflexivity).
      apply C_eq; unfold Cmul, RtoC; cbn [fst snd]; ring.
    - rewrite (idft_ext n _ (fun k => Cmul (psih_val f (nth i scales 0) n false k) (sig_dft xp k))) by (intros q Hq; rewrite psih_used_el by auto; reflexivity). ring. }
  assert (Z0 : forall k, (k < n)%nat -> bin_freq k n <= 0 -> dft n (el W i) k = C0).
  { intros k Hk L. rewrite V by exact Hk. unfold psih_val. rewrite xi_bin_freq by exact Hk. destruct Sp as [_ S2]. rewrite S2 by nra. match goal with |- context [if ?b then _ else _] => destruct b end; ring. }
  split; [exact Hn|]. split; [|split].
  - apply Z0; [lia|]. unfold bin_freq. cbn [Nat.leb INR]. unfold Rdiv. lra.
  - intros k Hk K2. apply Z0; [exact Hk|]. pose proof (bin_freq_neg n k Hk K2). lra.
  - intros k K2. rewrite V by lia. assert (Ip : Im (psih_val f (nth i scales 0) n false k) = 0).
    { unfold psih_val. match goal with |- context [if ?b then _ else _] => destruct b end; [|apply Hr]. pose proof (Hr (nth i scales 0 * nth k (xifn 1 n) 0)) as I. unfold Im, Cmul, RtoC in *. cbn [fst snd]. rewrite I. ring. }
    assert (Ix : Im (sig_dft xp k) = 0) by (apply (dft_real_nyq n Hn (fun m => nth m xp 0) k K2)).
    unfold Im, Cmul, RtoC in *. cbn [fst snd]. rewrite Ip, Ix. ring.
Qed.

Theorem rows_hilbert py inst f g a x s W sc dW s' i : whole a -> uncached inst a s -> spectrum f g -> cwt py inst f a x s = (Ok (W, sc, dW), s') -> 0 < nth i sc 0 ->
  forall k, (0 < k)%nat -> (2 * k < ncols W)%nat ->
  dft (ncols W) (fun j => RtoC (snd (el W i j))) k = Cmul (0, -1) (dft (ncols W) (fun j => RtoC (fst (el W i j))) k).
Proof. intros Hw Hu Sp H Hpos k K1 K2. apply hilbert_pair; [apply (rows_one_sided py inst f g a x s W sc dW s' i); assumption|exact K1|exact K2]. Qed.
Theorem rows_sums py inst f g a x s W sc dW s' i : whole a -> uncached inst a s -> spectrum f g -> cwt py inst f a x s = (Ok (W, sc, dW), s') -> 0 < nth i sc 0 ->
  Rsum (ncols W) (fun j => fst (el W i j)) = 0 /\ Rsum (ncols W) (fun j => snd (el W i j)) = 0 /\ Rsum (ncols W) (fun j => fst (el W i j) * snd (el W i j)) = 0.
Proof.
  intros Hw Hu Sp H Hpos. destruct (rows_one_sided py inst f g a x s W sc dW s' i Hw Hu Sp H Hpos) as (Hn & O). pose proof (sum_zero _ _ O) as Z. rewrite Csum_parts in Z.
  injection Z as Z1 Z2. split; [exact Z1|]. split; [exact Z2|]. apply parts_orthogonal; assumption.
Qed.
Theorem rows_energy py inst f g a x s W sc dW s' i : whole a -> uncached inst a s -> spectrum f g -> cwt py inst f a x s = (Ok (W, sc, dW), s') -> 0 < nth i sc 0 ->
  Rsum (ncols W) (fun j => fst (el W i j) ^ 2) - Rsum (ncols W) (fun j => snd (el W i j) ^ 2) =
  if (ncols W mod 2 =? 0)%nat then fst (Csum (ncols W) (fun j => Cmul (el W i j) (RtoC ((-1) ^ j)))) ^ 2 / INR (ncols W) else 0.
Proof.
  intros Hw Hu Sp H Hpos. destruct (rows_one_sided py inst f g a x s W sc dW s' i Hw Hu Sp H Hpos) as (Hn & O). rewrite parts_energy by assumption.
  destruct (Nat.eqb_spec (ncols W mod 2) 0) as [Ev|_]; [|reflexivity]. do 2 f_equal. unfold Re. f_equal. unfold dft. apply Csum_ext. intros m Hm. f_equal.
  assert (Eh : (2 * (ncols W / 2) = ncols W)%nat) by (pose proof (Nat.div_mod (ncols W) 2 ltac:(lia)); lia).
  set (h := (ncols W / 2)%nat) in *. assert (Hh : INR h <> 0) by (apply not_0_INR; lia). clear Ev Hm. rewrite <- Eh.
  assert (T : forall m, tw (2 * h) (- (Z.of_nat h * Z.of_nat m)) = RtoC ((-1) ^ m)).
  { clear m. intros m. unfold tw. replace (2 * PI * IZR (- (Z.of_nat h * Z.of_nat m)) / INR (2 * h)) with (- (INR m * PI)).
    2:{ rewrite opp_IZR, mult_IZR, <- !INR_IZR_INZ, mult_INR. change (INR 2) with 2. field. exact Hh. }
    induction m as [|m IH].
    - cbn [INR pow]. rewrite Rmult_0_l, Ropp_0. apply C_eq; unfold cis, RtoC; cbn [fst snd]; [apply cos_0|apply sin_0].
    - rewrite S_INR. replace (- ((INR m + 1) * PI)) with (- (INR m * PI) + - PI) by ring. rewrite cis_add, IH. cbn [pow].
      apply C_eq; unfold cis, Cmul, RtoC; cbn [fst snd]; rewrite cos_neg, sin_neg, cos_PI, sin_PI; ring. }
  apply T.
Qed.

(** ** a run *)
From Verif Require Import SsqWitness ScaleThms BinProofs CwtWitness CwtWitness2.
Definition step_wave : wfun := WF (fun w => if Rlt_dec 0 w then (1, 0) else C0) false NotGmw.
Lemma step_spectrum : spectrum step_wave (fun _ => 1).
Proof. split; intros w Hw; cbn [wf step_wave]; destruct (Rlt_dec 0 w); try lra; reflexivity. Qed.
Lemma analytic_case : exists W dW s', whole (arg0 [1; 2; 4] true true) /\ uncached false (arg0 [1; 2; 4] true true) st0 /\ spectrum step_wave (fun _ => 1) /\
  process_fs_and_t (a_fs (arg0 [1; 2; 4] true true)) (a_t (arg0 [1; 2; 4] true true)) (length delta3) = Ok 1 /\
  cwt false false step_wave (arg0 [1; 2; 4] true true) delta3 st0 = (Ok (W, [1; 2; 4], Some dW), s') /\ el W 0 0 = (1 / 3, 0) /\ el dW 0 0 = (0, 2 * PI / 9).
Proof.
  destruct (run0 false false step_wave [1; 2; 4] true true delta3 (KLog 1) eq_refl (scales124 true) ltac:(discriminate)) as (s' & E).
  pose proof (fun i k => psih_used_el false step_wave (arg0 [1; 2; 4] true true) [1; 2; 4] 3 st0 i k (fun w => ltac:(cbn [wf step_wave]; destruct (Rlt_dec 0 w); reflexivity)) (or_introl eq_refl)) as P.
  pose proof PI_RGT_0. do 3 eexists. split; [right; reflexivity|]. split; [left; reflexivity|]. split; [exact step_spectrum|]. split; [reflexivity|]. split; [exact E|].
  rewrite !finish_arg0. change (length [1; 2; 4]) with 3%nat. change (length delta3) with 3%nat.
  assert (D : forall q, sig_dft delta3 q = C1) by (intros q; apply (dft_delta 3 q); lia).
  change (s_cache st0) with (@None (nat * list R * mat C)) in P.
  assert (P0 : forall k, (k < 3)%nat -> psih_val step_wave (nth 0 [1; 2; 4] 0) 3 false k = if (k =? 1)%nat then (1, 0) else C0).
  { intros k Hk. unfold psih_val. rewrite xi3. cbn [wf step_wave]. destruct k as [|[|[|k]]]; [..|lia]; cbn [nth Nat.modulo Nat.divmod Nat.div fst snd Nat.sub Nat.eqb negb andb]; destruct (Rlt_dec 0 _); try lra; reflexivity. }
  split.
  - unfold raw, cwt_cell. cbn [el]. unfold idft. cbn [Csum]. rewrite !P, !P0, !D by lia. cbn [Nat.eqb]. rewrite !Z.mul_0_r, tw_0 by lia. apply C_eq; unfold C0, C1, Cadd, Cmul, RtoC; cbn; field.
  - rewrite draw_el. unfold dcwt_cell, idft. cbn [Csum]. rewrite !P, !P0, !D by lia. cbn [Nat.eqb]. rewrite !Z.mul_0_r, tw_0 by lia. rewrite xi3. apply C_eq; unfold C0, C1, Cadd, Cmul, RtoC; cbn; field.
Qed.
