(** [cwt]'s [dWx] against its [Wx]: the derivative of the trigonometric interpolant. *)
From Coq Require Import Reals Lra Lia List ZifyBool ZifyNat.
Import ListNotations.
From Verif Require Import Py Round Cplx CplxProofs Padding PaddingProofs Buffer Freqs Squeeze Scales Cwt CwtProofs CwtThms CwtThms2.
Local Open Scope R_scope.

(** the whole (padded) transform is returned *)
Definition whole (a : cwt_args) : Prop := a_rpadded a = true \/ a_pad a = None.

(** ** what a run returns, whatever array of wavelets it used *)
Lemma cwt_whole py inst f a x s W sc dW s' : whole a -> cwt py inst f a x s = (Ok (W, sc, dW), s') ->
  exists fs xp n1 p c, process_fs_and_t (a_fs a) (a_t a) (length x) = Ok fs /\ pad_input (a_pad a) x = Ok (xp, n1) /\ nrows W = length sc /\ ncols W = length xp /\
    (forall i j, el W i j = Cmul (RtoC (c i)) (idft (length xp) (fun k => Cmul (el p i k) (sig_dft xp k)) j)) /\
    match dW with
    | Some d => nrows d = length sc /\ ncols d = length xp /\
        forall i j, el d i j = Cmul (RtoC (c i)) (idft (length xp) (fun k => Cmul (Cmul (el p i k) (sig_dft xp k)) (0, nth k (xifn 1 (length xp)) 0 * fs)) j)
    | None => a_deriv a = false
    end.
Proof.
  intros Hw H. destruct (cwt_ok_inv _ _ _ _ _ _ _ _ H) as ((fs & xp & n1 & scales & P) & U1 & U2).
  rewrite (cwt_run _ _ _ _ _ _ _ _ _ _ P U1 U2) in H. injection H as <- <- <- <-. destruct P as (Hfs & Hg & Hp & Hsc).
  set (p := psih_used inst f a scales (length xp) (s_cache s)). exists fs, xp, n1, p, (fun i => if a_l1 a then 1 else sqrt (nth i scales 0)).
  assert (Ew : negb (a_rpadded a) && (if a_pad a then true else false) = false) by (destruct Hw as [ ->| ->]; [reflexivity|apply Bool.andb_false_r]).
  assert (F : forall V, finish a n1 (length x) scales V = if a_l1 a then V else scale_rows scales V) by (intros V; unfold finish; rewrite Ew; reflexivity).
  rewrite !F. split; [exact Hfs|]. split; [exact Hp|]. split; [destruct (a_l1 a); reflexivity|]. split; [destruct (a_l1 a); reflexivity|].
  split.
  - intros i j. destruct (a_l1 a); unfold scale_rows, raw, cwt_cell; cbn [el]; fold p; [|ring]. apply C_eq; unfold Cmul, RtoC; cbn [fst snd]; ring.
  - destruct (a_deriv a) eqn:Ed; [|reflexivity]. split; [destruct (a_l1 a); reflexivity|]. split; [destruct (a_l1 a); reflexivity|].
    intros i j. destruct (a_l1 a); unfold scale_rows; cbn [el]; rewrite draw_el; unfold dcwt_cell; [|ring]. apply C_eq; unfold Cmul, RtoC; cbn [fst snd]; ring.
Qed.

(** ** [dWx] from [Wx] *)
Lemma deriv_row py inst f a x s W sc dW s' fs : whole a -> cwt py inst f a x s = (Ok (W, sc, Some dW), s') -> process_fs_and_t (a_fs a) (a_t a) (length x) = Ok fs ->
  (1 <= ncols W)%nat /\ nrows dW = nrows W /\ ncols dW = ncols W /\
  forall i j, el dW i j = idft (ncols W) (fun k => Cmul (dft (ncols W) (el W i) k) (0, nth k (xifn 1 (ncols W)) 0 * fs)) j.
Proof.
  intros Hw H Hfs. destruct (cwt_whole _ _ _ _ _ _ _ _ _ _ Hw H) as (fs' & xp & n1 & p & c & Hfs' & Hp & Rw & Cw & VW & Rd & Cd & VD).
  rewrite Hfs in Hfs'. injection Hfs' as <-. assert (Hn : (1 <= length xp)%nat).
  { destruct (a_pad a) as [pt|] eqn:Ep.
    - destruct (pad_input_len _ _ _ _ Hp) as (u & n2 & E & L & A & B & D). destruct x; [discriminate Hp|]. cbn [length] in B. lia.
    - unfold pad_input in Hp. destruct x; [discriminate|]. injection Hp as <- <-. cbn. lia. }
  rewrite Cw, Cd, Rd, Rw. split; [exact Hn|]. split; [reflexivity|]. split; [reflexivity|].
  intros i j. rewrite VD. rewrite <- (idft_scal (length xp)). apply idft_ext. intros k Hk.
  rewrite (dft_ext (length xp) (el W i) (fun m => Cmul (RtoC (c i)) (idft (length xp) (fun k => Cmul (el p i k) (sig_dft xp k)) m))) by (intros; apply VW).
  rewrite dft_scal, dft_idft by (try exact Hk; lia). ring.
Qed.

Theorem dWx_is_trigdiff py inst f a x s W sc dW s' fs N n1 : whole a -> cwt py inst f a x s = (Ok (W, sc, Some dW), s') ->
  process_fs_and_t (a_fs a) (a_t a) (length x) = Ok fs -> (0 <= n1)%Z -> (0 <= N)%Z -> (n1 + N <= Z.of_nat (ncols W))%Z ->
  exists D, trigdiff W fs None (Some true) (Some N) (Some n1) = Ok D /\ nrows D = nrows W /\ Z.of_nat (ncols D) = N /\
    forall i j, (Z.of_nat j < N)%Z -> el D i j = el dW i (Z.to_nat n1 + j).
Proof.
  intros Hw H Hfs H1 H2 H3. destruct (deriv_row _ _ _ _ _ _ _ _ _ _ _ Hw H Hfs) as (Hn & Rd & Cd & V).
  unfold trigdiff. cbn [bind orb]. eexists. split; [reflexivity|]. unfold mcols, norm_bound. cbn [nrows ncols el].
  destruct (Z.ltb_spec n1 0); [lia|]. destruct (Z.ltb_spec (n1 + N) 0); [lia|]. split; [reflexivity|]. split; [lia|].
  intros i j Hj. rewrite V. rewrite !Z.min_l by lia. reflexivity.
Qed.

(** ** as a derivative *)
(** a sum of the [n] harmonics between [-pi*fs] and [pi*fs] *)
Definition harmonics (n : nat) (c : nat -> C) (fs t : R) : C := Csum n (fun k => Cmul (c k) (cis (bin_freq k n * fs * t))).
Definition dharmonics (n : nat) (c : nat -> C) (fs t : R) : C := Csum n (fun k => Cmul (c k) (Cmul (0, bin_freq k n * fs) (cis (bin_freq k n * fs * t)))).
Definition derives (P : R -> C) (t : R) (d : C) : Prop := derivable_pt_lim (fun u => fst (P u)) t (fst d) /\ derivable_pt_lim (fun u => snd (P u)) t (snd d).

Lemma derives_sum m (P : nat -> R -> C) (d : nat -> C) t : (forall k, (k < m)%nat -> derives (P k) t (d k)) -> derives (fun u => Csum m (fun k => P k u)) t (Csum m d).
Proof.
  induction m as [|m IH]; intros H.
  - split; cbn [Csum]; apply (derivable_pt_lim_const 0).
  - destruct (IH ltac:(intros; apply H; lia)) as [I1 I2]. destruct (H m ltac:(lia)) as [K1 K2]. cbn [Csum]. unfold Cadd. split; cbn [fst snd].
    + apply (derivable_pt_lim_plus (fun u => fst (Csum m (fun k => P k u))) (fun u => fst (P m u))); assumption.
    + apply (derivable_pt_lim_plus (fun u => snd (Csum m (fun k => P k u))) (fun u => snd (P m u))); assumption.
Qed.
Lemma lin b t : derivable_pt_lim (fun u => b * u) t b.
Proof. pose proof (derivable_pt_lim_scal id b t 1 (derivable_pt_lim_id t)) as H. rewrite Rmult_1_r in H. exact H. Qed.
Lemma cos_lin b t : derivable_pt_lim (fun u => cos (b * u)) t (- (b * sin (b * t))).
Proof.
  replace (- (b * sin (b * t))) with (- sin (b * t) * b) by ring.
  apply (derivable_pt_lim_comp (fun u => b * u) cos); [|apply derivable_pt_lim_cos].
  apply lin.
Qed.
Lemma sin_lin b t : derivable_pt_lim (fun u => sin (b * u)) t (b * cos (b * t)).
Proof.
  replace (b * cos (b * t)) with (cos (b * t) * b) by ring.
  apply (derivable_pt_lim_comp (fun u => b * u) sin); [|apply derivable_pt_lim_sin].
  apply lin.
Qed.
Lemma derives_harmonics n c fs t : derives (harmonics n c fs) t (dharmonics n c fs t).
Proof.
  unfold harmonics, dharmonics. apply (derives_sum n (fun k u => Cmul (c k) (cis (bin_freq k n * fs * u)))). intros k Hk.
  set (b := bin_freq k n * fs). destruct (c k) as [p q]. unfold Cmul, cis. cbn [fst snd]. split.
  - replace (p * (0 * cos (b * t) - b * sin (b * t)) - q * (0 * sin (b * t) + b * cos (b * t))) with (p * - (b * sin (b * t)) - q * (b * cos (b * t))) by ring.
    apply (derivable_pt_lim_minus (fun u => p * cos (b * u)) (fun u => q * sin (b * u))).
    + apply (derivable_pt_lim_scal (fun u => cos (b * u))), cos_lin.
    + apply (derivable_pt_lim_scal (fun u => sin (b * u))), sin_lin.
  - replace (p * (0 * sin (b * t) + b * cos (b * t)) + q * (0 * cos (b * t) - b * sin (b * t))) with (p * (b * cos (b * t)) + q * - (b * sin (b * t))) by ring.
    apply (derivable_pt_lim_plus (fun u => p * sin (b * u)) (fun u => q * cos (b * u))).
    + apply (derivable_pt_lim_scal (fun u => sin (b * u))), sin_lin.
    + apply (derivable_pt_lim_scal (fun u => cos (b * u))), cos_lin.
Qed.
Lemma bin_cis n k j fs : (k < n)%nat -> fs <> 0 -> cis (bin_freq k n * fs * (INR j / fs)) = tw n (Z.of_nat k * Z.of_nat j).
Proof.
  intros Hk Hf. assert (Hn : INR n <> 0) by (apply not_0_INR; lia). unfold bin_freq. destruct (k <=? n / 2)%nat.
  - unfold tw. f_equal. rewrite mult_IZR, <- !INR_IZR_INZ. field. split; assumption.
  - rewrite <- (tw_shift n ltac:(lia) (Z.of_nat k * Z.of_nat j) (- Z.of_nat j)). unfold tw. f_equal. rewrite plus_IZR, !mult_IZR, opp_IZR, <- !INR_IZR_INZ. field. split; assumption.
Qed.
Lemma through_coeffs n c fs (v : nat -> C) : (1 <= n)%nat -> fs <> 0 -> (forall j, (j < n)%nat -> harmonics n c fs (INR j / fs) = v j) ->
  forall k, (k < n)%nat -> c k = Cmul (RtoC (/ INR n)) (dft n v k).
Proof.
  intros Hn Hf H k Hk. rewrite (dft_ext n v (idft n (fun k => Cmul (RtoC (INR n)) (c k)))).
  - rewrite dft_idft by (try exact Hk; lia). apply C_eq; unfold Cmul, RtoC; cbn [fst snd]; field; apply not_0_INR; lia.
  - intros j Hj. rewrite <- (H j Hj). unfold harmonics, idft. rewrite <- Csum_scal. apply Csum_ext. intros i Hi. rewrite bin_cis by assumption.
    assert (INR n <> 0) by (apply not_0_INR; lia). apply C_eq; unfold Cmul, RtoC; cbn [fst snd]; field; assumption.
Qed.

Theorem dWx_is_derivative py inst f a x s W sc dW s' fs i : whole a -> cwt py inst f a x s = (Ok (W, sc, Some dW), s') ->
  process_fs_and_t (a_fs a) (a_t a) (length x) = Ok fs -> 0 < fs ->
  let n := ncols W in
  (exists c, forall j, (j < n)%nat -> harmonics n c fs (INR j / fs) = el W i j) /\
  forall c, (forall j, (j < n)%nat -> harmonics n c fs (INR j / fs) = el W i j) -> forall j, (j < n)%nat -> derives (harmonics n c fs) (INR j / fs) (el dW i j).
Proof.
  intros Hw H Hfs Hf n. destruct (deriv_row _ _ _ _ _ _ _ _ _ _ _ Hw H Hfs) as (Hn & Rd & Cd & V). fold n in Hn, V.
  assert (Hn0 : INR n <> 0) by (apply not_0_INR; lia). split.
  - exists (fun k => Cmul (RtoC (/ INR n)) (dft n (el W i) k)). intros j Hj. unfold harmonics.
    rewrite <- (idft_dft n Hn (el W i) j Hj) at 1. unfold idft. rewrite <- Csum_scal. apply Csum_ext. intros k Hk. rewrite bin_cis by (try assumption; lra). ring.
  - intros c Hc j Hj. pose proof (derives_harmonics n c fs (INR j / fs)) as D. replace (el dW i j) with (dharmonics n c fs (INR j / fs)); [exact D|].
    rewrite V. unfold dharmonics, idft. rewrite <- Csum_scal. apply Csum_ext. intros k Hk. rewrite bin_cis by (try assumption; lra). rewrite (through_coeffs n c fs (el W i) Hn ltac:(lra) Hc k Hk), xi_bin_freq by exact Hk. ring.
Qed.

(** the call that returns the signal's own columns: its [dWx] is [trigdiff] of the padded transform, cut to those columns *)
Theorem dWx_cut py inst f a x s W sc dW s' fs pt : a_pad a = Some pt -> cwt py inst f (set_rpadded a false) x s = (Ok (W, sc, Some dW), s') ->
  process_fs_and_t (a_fs a) (a_t a) (length x) = Ok fs ->
  exists n_up n1 n2 V dV D, p2up (Z.of_nat (length x)) = (n_up, n1, n2) /\ cwt py inst f (set_rpadded a true) x s = (Ok (V, sc, Some dV), s') /\
    trigdiff V fs None (Some true) (Some (Z.of_nat (length x))) (Some n1) = Ok D /\ nrows D = nrows dW /\ ncols D = ncols dW /\
    forall i j, (j < length x)%nat -> el D i j = el dW i j.
Proof.
  intros Ep H Hfs. destruct (cwt_columns _ _ _ _ _ _ _ _ _ _ pt Ep H) as (n_up & n1 & n2 & V & dV & Eu & HV & CV & RV & KW & KD).
  destruct dV as [dV|]; [|destruct KD]. destruct KD as (CD & KD).
  assert (Hw : whole (set_rpadded a true)) by (left; reflexivity). assert (Hfs' : process_fs_and_t (a_fs (set_rpadded a true)) (a_t (set_rpadded a true)) (length x) = Ok fs) by exact Hfs.
  destruct KW as (W1 & W2 & W3). destruct KD as (D1 & D2 & D3).
  assert (HN : (1 <= length x)%nat).
  { destruct (cwt_ok_inv _ _ _ _ _ _ _ _ H) as ((fs' & xp & n1' & scales & (_ & _ & Hp & _)) & _ & _). destruct x; [destruct (a_pad (set_rpadded a false)); discriminate Hp|cbn; lia]. }
  destruct (p2up_bounds (Z.of_nat (length x)) n_up n1 n2 ltac:(lia) Eu) as (_ & _ & Hlt & Hsum & Hn2 & Hn1).
  destruct (dWx_is_trigdiff _ _ _ _ _ _ _ _ _ _ _ (Z.of_nat (length x)) n1 Hw HV Hfs' ltac:(lia) ltac:(lia) ltac:(lia)) as (D & ED & RD & CDD & VD).
  destruct (deriv_row _ _ _ _ _ _ _ _ _ _ _ Hw HV Hfs') as (_ & Rr & _ & _).
  exists n_up, n1, n2, V, dV, D. split; [exact Eu|]. split; [exact HV|]. split; [exact ED|]. split; [congruence|]. split; [lia|].
  intros i j Hj. rewrite VD by lia. rewrite D3 by exact Hj. reflexivity.
Qed.
