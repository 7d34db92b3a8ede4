(** A sampled cosine through [cwt] and [phase_cwt]; concrete runs. *)
From Coq Require Import Reals Lra.
From Coq Require Import ZifyBool ZifyNat.
From Verif Require Import Py Round Cplx CplxProofs Padding PaddingProofs Buffer Freqs Squeeze Scales Cwt CwtProofs CwtThms
  SsqWitness.
Local Open Scope R_scope.
Ltac Zify.zify_post_hook ::= Z.div_mod_to_equations.

(** [A cos(2 pi k m / n + phi)], [m = 0 .. n-1] *)
Definition tone (A phi : R) (k n : nat) : list R :=
  tab n (fun m => A * cos (2 * PI * INR k * INR m / INR n + phi)).

Lemma tone_length A phi k n : length (tone A phi k n) = n.
Proof. apply tab_length. Qed.

Lemma cos_cis t : RtoC (cos t) = Cmul (RtoC (/ 2)) (Cadd (cis t) (cis (- t))).
Proof. unfold cis, RtoC, Cmul, Cadd. simpl. rewrite cos_neg, sin_neg. f_equal; field. Qed.

Lemma tone_dft A phi k n q : (0 < k)%nat -> (2 * k <= n)%nat -> (q < n)%nat -> q <> k -> q <> (n - k)%nat ->
  sig_dft (tone A phi k n) q = C0.
Proof.
  intros Hk H2k Hq N1 N2. unfold sig_dft. rewrite tone_length.
  assert (HnR : INR n <> 0) by (apply not_0_INR; lia).
  set (c1 := Cmul (RtoC (A / 2)) (cis phi)). set (c2 := Cmul (RtoC (A / 2)) (cis (- phi))).
  unfold dft.
  rewrite (Csum_ext n _ (fun m => Cadd (Cmul c1 (tw n ((Z.of_nat k - Z.of_nat q) * Z.of_nat m)))
                                       (Cmul c2 (tw n ((Z.of_nat (n - k) - Z.of_nat q) * Z.of_nat m))))).
  - rewrite Csum_plus, !Csum_scal, !roots_delta by lia.
    destruct (Nat.eqb_spec k q); [congruence|]. destruct (Nat.eqb_spec (n - k) q); [congruence|].
    apply C_eq; simpl; ring.
  - intros m Hm. unfold tone. rewrite nth_tab by auto.
    rewrite RtoC_mul, cos_cis.
    replace (- (2 * PI * INR k * INR m / INR n + phi))
      with (2 * PI * IZR (- (Z.of_nat k * Z.of_nat m)) / INR n + - phi)
      by (rewrite opp_IZR, mult_IZR, <- !INR_IZR_INZ; field; auto).
    replace (2 * PI * INR k * INR m / INR n + phi)
      with (2 * PI * IZR (Z.of_nat k * Z.of_nat m) / INR n + phi)
      by (rewrite mult_IZR, <- !INR_IZR_INZ; field; auto).
    rewrite !cis_add. fold (tw n (Z.of_nat k * Z.of_nat m)). fold (tw n (- (Z.of_nat k * Z.of_nat m))).
    replace ((Z.of_nat k - Z.of_nat q) * Z.of_nat m)%Z
      with (Z.of_nat k * Z.of_nat m + - (Z.of_nat q * Z.of_nat m))%Z by ring.
    replace ((Z.of_nat (n - k) - Z.of_nat q) * Z.of_nat m)%Z
      with (- (Z.of_nat k * Z.of_nat m) + - (Z.of_nat q * Z.of_nat m) + Z.of_nat n * Z.of_nat m)%Z
      by (rewrite Nat2Z.inj_sub by lia; ring).
    rewrite tw_shift, !tw_add by lia. subst c1 c2.
    generalize (tw n (Z.of_nat k * Z.of_nat m)) (tw n (- (Z.of_nat k * Z.of_nat m))) (tw n (- (Z.of_nat q * Z.of_nat m)))
      (cis phi) (cis (- phi)). intros u v w d e. apply C_eq; simpl; field.
Qed.

Lemma wavelet_call_zero f sc n nohalf i k : wf f (nth i sc 0 * nth k (xifn 1 n) 0) = C0 ->
  el (wavelet_call f sc n nohalf) i k = C0.
Proof.
  intros H0. unfold wavelet_call.
  set (p0 := Mat _ _ _). set (p := if nohalf then p0 else halve_nyquist p0).
  assert (Ep : el p i k = C0).
  { subst p p0. unfold halve_nyquist. cbn [ncols nrows el].
    destruct nohalf; cbn [el]; [exact H0|].
    destruct (n mod 2 =? 0)%nat; cbn [el]; [|exact H0].
    rewrite H0. destruct (k =? n / 2)%nat; [apply C_eq; simpl; ring|reflexivity]. }
  destruct (wf_cplx f && drops_imag p); [|exact Ep].
  unfold real_part. cbn [el]. rewrite Ep. reflexivity.
Qed.
Lemma psih_used_zero inst f a sc n s i k : uncached inst a s ->
  wf f (nth i sc 0 * nth k (xifn 1 n) 0) = C0 -> el (psih_used inst f a sc n (s_cache s)) i k = C0.
Proof.
  intros Hu H0. unfold psih_used. destruct (a_vec a) eqn:Ev.
  - destruct Hu as [->|E]; [destruct (use_cache _ _ _)|rewrite Ev in E; rewrite E]; apply wavelet_call_zero; exact H0.
  - cbn [el]. apply wavelet_call_zero. exact H0.
Qed.

Lemma idft_single n X c k j : (forall q, (q < n)%nat -> q <> k -> X q = C0) ->
  idft n (fun q => Cmul (X q) (0, c q)) j = Cmul (0, c k) (idft n X j).
Proof.
  intros H. rewrite <- idft_scal. unfold idft. f_equal. apply Csum_ext. intros q Hq.
  destruct (Nat.eq_dec q k) as [->|Hne]; [apply C_eq; simpl; ring|].
  rewrite H by auto. apply C_eq; simpl; ring.
Qed.

Lemma phase_ratio_factor W c : W <> C0 -> phase_ratio W (Cmul (0, c) W) = c / (2 * PI).
Proof.
  intros H. pose proof (Cnorm2_pos _ H) as Hp. pose proof PI_RGT_0. unfold Cnorm2 in Hp.
  unfold phase_ratio, Re, Im. destruct W as [u v]; simpl in *. field. lra.
Qed.

Lemma xi_low n k : (0 < n)%nat -> (k <= n / 2)%nat -> nth k (xifn 1 n) 0 = 2 * PI * INR k / INR n.
Proof.
  intros Hn Hk. unfold xifn. rewrite nth_tab by (assert (n / 2 <= n)%nat by (apply Nat.div_le_upper_bound; lia); lia || (destruct n; simpl in *; lia)).
  unfold xi_bin. destruct (Nat.ltb_spec k (n / 2 + 1)); [|lia].
  rewrite <- INR_IZR_INZ. field. apply not_0_INR; lia.
Qed.
Lemma xi_high n k : (0 < k)%nat -> (2 * k < n)%nat -> nth (n - k) (xifn 1 n) 0 = - (2 * PI * INR k / INR n).
Proof.
  intros Hk Hn. unfold xifn. rewrite nth_tab by lia.
  unfold xi_bin. destruct (Nat.ltb_spec (n - k) (n / 2 + 1)); [lia|].
  replace (Z.of_nat (n - k) - Z.of_nat n)%Z with (- Z.of_nat k)%Z by lia.
  rewrite opp_IZR, <- INR_IZR_INZ. field. apply not_0_INR; lia.
Qed.

(** the derivative of a tone's transform is [2 pi i k fs / n] times the transform *)
Lemma tone_derivative py inst f a s A phi k n fs W sc dW s' i j :
  (0 < k)%nat -> (2 * k <= n)%nat -> a_pad a = None -> uncached inst a s ->
  process_fs_and_t (a_fs a) (a_t a) n = Ok fs ->
  cwt py inst f a (tone A phi k n) s = (Ok (W, sc, Some dW), s') ->
  ((2 * k < n)%nat -> wf f (nth i sc 0 * - (2 * PI * INR k / INR n)) = C0) ->
  el dW i j = Cmul (0, 2 * PI * INR k / INR n * fs) (el W i j).
Proof.
  intros Hk H2k Hpad Hu Hfs H Han.
  destruct (cwt_ok_inv _ _ _ _ _ _ _ _ H) as ((fs' & xp & n1 & scales & P) & U1 & U2).
  rewrite (cwt_run _ _ _ _ _ _ _ _ _ _ P U1 U2) in H. injection H as <- <- H <-.
  destruct P as (Pfs & _ & Pp & _). rewrite tone_length in Pfs. rewrite Hfs in Pfs. injection Pfs as <-.
  rewrite Hpad in Pp. unfold pad_input in Pp.
  destruct (tone A phi k n) as [|t0 t1] eqn:Et; [discriminate|]. rewrite <- Et in *. injection Pp as <- <-.
  destruct (a_deriv a); [|discriminate]. injection H as <-.
  rewrite !finish_el by (unfold raw, draw; cbn [ncols]; lia).
  assert (forall m, el (draw (a_vec a) (psih_used inst f a scales (length (tone A phi k n)) (s_cache s)) (length scales)
             (length (tone A phi k n)) fs (sig_dft (tone A phi k n))) i m =
          Cmul (0, 2 * PI * INR k / INR n * fs)
               (el (raw (psih_used inst f a scales (length (tone A phi k n)) (s_cache s)) (length scales)
                  (length (tone A phi k n)) (sig_dft (tone A phi k n))) i m)) as K.
  { intros m. rewrite draw_el. unfold dcwt_cell, raw, cwt_cell. cbn [el]. rewrite tone_length.
    rewrite (idft_single n (fun q => Cmul (el (psih_used inst f a scales n (s_cache s)) i q) (sig_dft (tone A phi k n) q))
               (fun q => nth q (xifn 1 n) 0 * fs) k).
    - rewrite xi_low by (try lia; apply Nat.div_le_lower_bound; lia). reflexivity.
    - intros q Hq Hne. destruct (Nat.eq_dec q (n - k)) as [->|Hne2].
      + rewrite psih_used_zero; [apply C_eq; simpl; ring|exact Hu|].
        rewrite xi_high by lia. apply Han. lia.
      + rewrite tone_dft by auto. apply C_eq; simpl; ring. }
  unfold finish_cell. rewrite K. destruct (a_l1 a); [reflexivity|].
  generalize (el (raw (psih_used inst f a scales (length (tone A phi k n)) (s_cache s)) (length scales)
                  (length (tone A phi k n)) (sig_dft (tone A phi k n))) i
     ((if negb (a_rpadded a) && (if a_pad a then true else false) then Z.to_nat 0 else 0) + j)%nat).
  intros z. apply C_eq; simpl; ring.
Qed.

Theorem tone_phase py inst f a s A phi k n fs W sc dW s' gamma i j :
  (0 < k)%nat -> (2 * k <= n)%nat -> a_pad a = None -> uncached inst a s ->
  process_fs_and_t (a_fs a) (a_t a) n = Ok fs ->
  cwt py inst f a (tone A phi k n) s = (Ok (W, sc, Some dW), s') ->
  ((2 * k < n)%nat -> wf f (nth i sc 0 * - (2 * PI * INR k / INR n)) = C0) ->
  0 < gamma -> gamma <= Cabs (el W i j) ->
  el (phase_cwt gamma W dW) i j = Fin (INR k * Rabs fs / INR n).
Proof.
  intros Hk H2k Hpad Hu Hfs H Han Hg Habs.
  pose proof (tone_derivative _ _ _ _ _ _ _ _ _ _ _ _ _ _ i j Hk H2k Hpad Hu Hfs H Han) as E.
  unfold phase_cwt. cbn [el]. destruct (Rlt_dec (Cabs (el W i j)) gamma); [lra|]. f_equal.
  unfold phase_cwt_pt. rewrite E, phase_ratio_factor.
  - assert (0 < INR n) by (apply lt_0_INR; lia). assert (0 < INR k) by (apply lt_0_INR; lia). pose proof PI_RGT_0.
    replace (2 * PI * INR k / INR n * fs / (2 * PI)) with (INR k / INR n * fs) by (field; lra).
    rewrite Rabs_mult, (Rabs_right (INR k / INR n)); [field; lra|].
    apply Rle_ge. apply Rmult_le_pos; [lra|left; apply Rinv_0_lt_compat; lra].
  - intros E0. rewrite E0, Cabs_0 in Habs. lra.
Qed.
