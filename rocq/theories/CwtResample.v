(** One band-limited periodic signal sampled at two rates: [cwt] gives the same coefficients at the same instants and the same durations of wavelet. *)
From Coq Require Import Reals Lra Lia List ZifyBool ZifyNat.
Import ListNotations.
From Verif Require Import Py Round Parallel Cplx CplxProofs Padding PaddingProofs Buffer Freqs Squeeze SqueezeProofs Scales Cwt CwtProofs CwtThms CwtThms2 CwtTone
  RoundTripGain ToneThms ChordSep ChordSqueeze CwtDeriv.
Local Open Scope R_scope.

(** a real trigonometric polynomial of period [T] with mean [mu] *)
Definition periodic (T mu : R) (M : nat) (A phi : nat -> R) (k : nat -> nat) (t : R) : R :=
  mu + Rsum M (fun r => A r * cos (2 * PI * INR (k r) * t / T + phi r)).
(** [n] samples over one period *)
Definition samples (n : nat) (T : R) (P : R -> R) : list R := tab n (fun j => P (INR j * (T / INR n))).

Lemma samples_len n T P : length (samples n T P) = n.
Proof. apply tab_length. Qed.

(** a wavelet without response at zero frequency ignores the mean *)
Lemma mean_dft n mu (x : nat -> R) q : (0 < q < n)%nat -> dft n (fun m => RtoC (mu + x m)) q = dft n (fun m => RtoC (x m)) q.
Proof.
  intros Hq. rewrite (dft_ext n (fun m => RtoC (mu + x m)) (fun m => Cadd (Cmul (RtoC mu) (cis 0)) (RtoC (x m)))).
  - rewrite (dft_add n (fun _ => Cmul (RtoC mu) (cis 0)) (fun m => RtoC (x m))). replace (dft n (fun _ => Cmul (RtoC mu) (cis 0)) q) with C0; [ring|].
    rewrite (dft_ext n (fun _ => Cmul (RtoC mu) (cis 0)) (fun m => Cmul (RtoC mu) (tw n (Z.of_nat 0 * Z.of_nat m)))).
    + rewrite dft_scal. assert (Z0 : dft n (fun m => tw n (Z.of_nat 0 * Z.of_nat m)) q = C0); [|rewrite Z0; ring].
      rewrite (dft_ext n _ (idft n (fun k => if (k =? 0)%nat then RtoC (INR n) else C0))).
      * rewrite dft_idft by lia. destruct (Nat.eqb_spec q 0); [lia|reflexivity].
      * intros m Hm. unfold idft. rewrite (Csum_single n _ 0%nat); [|lia|intros i Hi Hne; destruct (Nat.eqb_spec i 0); [lia|ring]].
        cbn [Nat.eqb]. assert (INR n <> 0) by (apply not_0_INR; lia). apply C_eq; unfold Cmul, RtoC; cbn [fst snd]; field; assumption.
    + intros m Hm. f_equal. rewrite Z.mul_0_l. rewrite tw_0 by lia. apply C_eq; unfold cis; cbn [fst snd]; [apply cos_0|apply sin_0].
  - intros m Hm. apply C_eq; unfold Cadd, Cmul, RtoC, cis; cbn [fst snd]; rewrite ?cos_0, ?sin_0; ring.
Qed.
Lemma sig_mean n T mu M A phi k q : T <> 0 -> (0 < q < n)%nat -> sig_dft (samples n T (periodic T mu M A phi k)) q = sig_dft (chord M A phi k n) q.
Proof.
  intros HT Hq. assert (Hn : INR n <> 0) by (apply not_0_INR; lia). unfold sig_dft. rewrite samples_len, chord_length. rewrite <- (mean_dft n mu (fun m => nth m (chord M A phi k n) 0) q Hq).
  apply dft_ext. intros m Hm. unfold samples, chord. rewrite !nth_tab by exact Hm. unfold periodic. f_equal. f_equal. apply Rsum_ext. intros r _. do 2 f_equal. f_equal. field. split; assumption.
Qed.
Lemma row_mean f s n T mu M A phi k j : T <> 0 -> wf f 0 = C0 -> (0 < n)%nat -> row_val f s (samples n T (periodic T mu M A phi k)) j = row_val f s (chord M A phi k n) j.
Proof.
  intros HT H0 Hn. unfold row_val. rewrite samples_len, chord_length. apply idft_ext. intros q Hq. destruct q as [|q].
  - unfold psih_val. rewrite xi_low by lia. replace (s * (2 * PI * INR 0 / INR n)) with 0 by (cbn [INR]; unfold Rdiv; ring). rewrite H0.
    match goal with |- context [if ?b then _ else _] => destruct b end; ring.
  - rewrite sig_mean by (try assumption; lia). reflexivity.
Qed.
Lemma drow_mean f s fs n T mu M A phi k j : T <> 0 -> wf f 0 = C0 -> (0 < n)%nat -> drow_val f s fs (samples n T (periodic T mu M A phi k)) j = drow_val f s fs (chord M A phi k n) j.
Proof.
  intros HT H0 Hn. unfold drow_val. rewrite samples_len, chord_length. apply idft_ext. intros q Hq. destruct q as [|q].
  - unfold psih_val. rewrite xi_low by lia. replace (s * (2 * PI * INR 0 / INR n)) with 0 by (cbn [INR]; unfold Rdiv; ring). rewrite H0.
    match goal with |- context [if ?b then _ else _] => destruct b end; ring.
  - rewrite sig_mean by (try assumption; lia). reflexivity.
Qed.

(** ** the closed form: a function of time in periods and of scale over length *)
Definition coef (f : wfun) (M : nat) (A phi : nat -> R) (k : nat -> nat) (u v : R) : C :=
  Csum M (fun r => Cmul (RtoC (A r / 2)) (Cmul (wf f (2 * PI * INR (k r) * u)) (cis (2 * PI * INR (k r) * v + phi r)))).
Definition dcoef (f : wfun) (M : nat) (A phi : nat -> R) (k : nat -> nat) (T u v : R) : C :=
  Csum M (fun r => Cmul (0, 2 * PI * INR (k r) / T) (Cmul (RtoC (A r / 2)) (Cmul (wf f (2 * PI * INR (k r) * u)) (cis (2 * PI * INR (k r) * v + phi r))))).
Definition l_norm (a : cwt_args) (s : R) : R := if a_l1 a then 1 else sqrt s.

Lemma norm_cell a s g j : a_pad a = None -> finish_cell a 0 s g j = Cmul (RtoC (l_norm a s)) (g j).
Proof.
  intros Hp. unfold finish_cell, l_norm. rewrite Hp, Bool.andb_false_r. cbn [plus]. destruct (a_l1 a); apply C_eq; unfold Cmul, RtoC; cbn [fst snd]; ring.
Qed.

Lemma sampled_cells py inst f g a T mu M A phi k n st W sc dW st' fs i j : uncached inst a st -> a_pad a = None -> spectrum f g -> 0 < nth i sc 0 -> T <> 0 ->
  (forall r, (r < M)%nat -> (0 < k r)%nat /\ (2 * k r < n)%nat) -> (0 < n)%nat ->
  cwt py inst f a (samples n T (periodic T mu M A phi k)) st = (Ok (W, sc, Some dW), st') -> process_fs_and_t (a_fs a) (a_t a) n = Ok fs -> fs = INR n / T ->
  el W i j = Cmul (RtoC (l_norm a (nth i sc 0))) (coef f M A phi k (nth i sc 0 / INR n) (INR j / INR n)) /\
  el dW i j = Cmul (RtoC (l_norm a (nth i sc 0))) (dcoef f M A phi k T (nth i sc 0 / INR n) (INR j / INR n)).
Proof.
  intros Hu Hp Sp Hpos HT Hk Hn E Hfs EF.
  assert (Hr : real_valued f). { intros w. destruct Sp as [S1 S2]. destruct (Rle_lt_dec w 0) as [L|L]; [rewrite S2 by exact L|rewrite S1 by exact L]; reflexivity. }
  assert (H0 : wf f 0 = C0) by (apply Sp; lra). assert (HnR : 0 < INR n) by (apply lt_0_INR; lia). pose proof PI_RGT_0 as Hpi.
  destruct (cwt_rows _ _ _ _ _ _ _ _ _ _ Hr Hu E) as (fs' & xp & n1 & Hfs' & Hp' & _ & EW & ED).
  rewrite samples_len, Hfs in Hfs'. injection Hfs' as <-. set (x := samples n T (periodic T mu M A phi k)) in *.
  assert (Lx : length x = n) by apply samples_len.
  assert (xp = x /\ n1 = 0%Z) as (-> & ->).
  { rewrite Hp in Hp'. unfold pad_input in Hp'. destruct x eqn:Ex; [cbn in Lx; lia|]. injection Hp' as <- <-. auto. }
  rewrite EW, ED, !norm_cell by exact Hp. unfold x. rewrite row_mean, drow_mean by assumption. rewrite row_chord, drow_chord by lia.
  assert (N : forall r, (r < M)%nat -> wf f (nth i sc 0 * - (2 * PI * INR (k r) / INR n)) = C0).
  { intros r Hr'. apply Sp. destruct (Hk r Hr') as [K1 _]. apply lt_0_INR in K1. assert (0 < 2 * PI * INR (k r) / INR n) by (apply Rdiv_lt_0_compat; [nra|exact HnR]). nra. }
  assert (P : forall r, (r < M)%nat -> row_val f (nth i sc 0) (tone (A r) (phi r) (k r) n) j =
    Cmul (RtoC (A r / 2)) (Cmul (wf f (2 * PI * INR (k r) * (nth i sc 0 / INR n))) (cis (2 * PI * INR (k r) * (INR j / INR n) + phi r)))).
  { intros r Hr'. destruct (Hk r Hr') as [K1 K2]. rewrite row_tone by (try assumption; try lia; apply N, Hr'). unfold response, analytic.
    replace (nth i sc 0 * (2 * PI * INR (k r) / INR n)) with (2 * PI * INR (k r) * (nth i sc 0 / INR n)) by (field; lra).
    replace (2 * PI * INR (k r) * INR j / INR n) with (2 * PI * INR (k r) * (INR j / INR n)) by (field; lra).
    pose proof (Hr (2 * PI * INR (k r) * (nth i sc 0 / INR n))) as I. unfold Im in I. apply C_eq; unfold Cmul, RtoC, Re; cbn [fst snd]; rewrite I; ring. }
  split; f_equal; apply Csum_ext; intros r Hr'.
  - apply P, Hr'.
  - destruct (Hk r Hr') as [K1 K2]. rewrite drow_tone by (try assumption; try lia; apply N, Hr'). rewrite P by exact Hr'. f_equal. f_equal. rewrite EF. field. split; [exact HT|lra].
Qed.

(** ** two sampling rates *)
Definition sampled_run py inst f a T mu M A phi k n st W sc dW st' : Prop :=
  uncached inst a st /\ a_pad a = None /\ (forall r, (r < M)%nat -> (0 < k r)%nat /\ (2 * k r < n)%nat) /\ (0 < n)%nat /\
  process_fs_and_t (a_fs a) (a_t a) n = Ok (INR n / T) /\ cwt py inst f a (samples n T (periodic T mu M A phi k)) st = (Ok (W, sc, Some dW), st').

Theorem resampled py inst f g a T mu M A phi k n st W sc dW st' py' inst' a' n' stb W' sc' dW' stb' i i' j j' :
  spectrum f g -> 0 < T -> sampled_run py inst f a T mu M A phi k n st W sc dW st' -> sampled_run py' inst' f a' T mu M A phi k n' stb W' sc' dW' stb' ->
  0 < nth i sc 0 -> nth i' sc' 0 / INR n' = nth i sc 0 / INR n -> INR j' / INR n' = INR j / INR n ->
  Cmul (RtoC (/ l_norm a' (nth i' sc' 0))) (el W' i' j') = Cmul (RtoC (/ l_norm a (nth i sc 0))) (el W i j) /\
  Cmul (RtoC (/ l_norm a' (nth i' sc' 0))) (el dW' i' j') = Cmul (RtoC (/ l_norm a (nth i sc 0))) (el dW i j).
Proof.
  intros Sp HT (Hu & Hp & Hk & Hn & Hf & E) (Hu' & Hp' & Hk' & Hn' & Hf' & E') Hpos Es Ej.
  assert (HnR : 0 < INR n) by (apply lt_0_INR; lia). assert (HnR' : 0 < INR n') by (apply lt_0_INR; lia).
  assert (Hpos' : 0 < nth i' sc' 0).
  { assert (Q : 0 < nth i sc 0 / INR n) by (apply Rdiv_lt_0_compat; assumption). rewrite <- Es in Q. replace (nth i' sc' 0) with (nth i' sc' 0 / INR n' * INR n') by (field; lra). apply Rmult_lt_0_compat; assumption. }
  destruct (sampled_cells _ _ _ g _ T mu M A phi k n _ _ _ _ _ _ i j Hu Hp Sp Hpos ltac:(lra) Hk Hn E Hf eq_refl) as [V D].
  destruct (sampled_cells _ _ _ g _ T mu M A phi k n' _ _ _ _ _ _ i' j' Hu' Hp' Sp Hpos' ltac:(lra) Hk' Hn' E' Hf' eq_refl) as [V' D'].
  assert (L : forall b s, 0 < s -> l_norm b s <> 0) by (intros b s Hs; unfold l_norm; destruct (a_l1 b); [lra|apply Rgt_not_eq, sqrt_lt_R0, Hs]).
  rewrite V, V', D, D', Es, Ej.
  assert (K : forall c z, c <> 0 -> Cmul (RtoC (/ c)) (Cmul (RtoC c) z) = z) by (intros c z Hc; apply C_eq; unfold Cmul, RtoC; cbn [fst snd]; field; exact Hc).
  rewrite !K by (apply L; assumption). split; reflexivity.
Qed.
