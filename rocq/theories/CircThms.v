(** [cwt] under wrap padding, and [icwt] with two integrals as a filter. *)
From Coq Require Import Reals Lra ZifyBool ZifyNat.
From Verif Require Import Py Round Cplx CplxProofs Padding PaddingProofs Buffer Freqs Squeeze Scales IssqProofs Cwt CwtProofs CwtThms CwtThms2 CwtTone
  SsqCwt SsqCwtProofs SsqCwtInv SymmThms SymmInst RoundTrip Circular.
Local Open Scope R_scope.

(** ** [cwt] *)
Definition set_pad (a : cwt_args) (pt : option padtype) : cwt_args :=
  CA (a_scales a) (a_f64s a) (a_fs a) (a_t a) (a_l1 a) (a_deriv a) pt (a_rpadded a) (a_vec a) (a_pat a) (a_cache a).
Lemma pow2_pos m : (1 <= 2 ^ m)%nat.
Proof. pose proof (Nat.pow_nonzero 2 m ltac:(lia)). lia. Qed.
Lemma rot_back N j : (1 <= N)%nat -> (j < N)%nat -> ((N - N / 2 + j + N / 2) mod N = j)%nat.
Proof.
  intros HN Hj. pose proof (Nat.div_mod N 2 ltac:(lia)). replace (N - N / 2 + j + N / 2)%nat with (j + 1 * N)%nat by lia.
  rewrite Nat.mod_add by lia. apply Nat.mod_small, Hj.
Qed.
Lemma rows_wrap f s fs x xp n1 m : length x = (2 ^ m)%nat -> pad_input (Some PWrap) x = Ok (xp, n1) -> forall j, (j < length x)%nat ->
  row_val f s xp (Z.to_nat n1 + j) = row_val f s x j /\ drow_val f s fs xp (Z.to_nat n1 + j) = drow_val f s fs x j.
Proof.
  intros Hm H j Hj. unfold pad_input in H. destruct (pad_wrap 0 x m Hm) as (xp' & E & HL & Hx). rewrite E in H. cbn [bind] in H. injection H as <- <-.
  rewrite Nat2Z.id. pose proof (pow2_pos m) as HN. rewrite <- Hm in HN. set (N := length x) in *.
  assert (Hh : (N / 2 <= N)%nat) by (apply Nat.div_le_upper_bound; lia).
  assert (D : forall k, sig_dft xp' k = dft (2 * N) (fun i => (fun q => RtoC (nth q x 0)) ((i + N / 2) mod N)%nat) k).
  { intros k. unfold sig_dft. rewrite HL. apply dft_ext. intros i Hi. rewrite Hx by exact Hi. reflexivity. }
  split.
  - unfold row_val. rewrite HL. rewrite (idft_ext _ _ (fun k => Cmul (psih_val f s (2 * N) false k) (dft (2 * N) (fun i => (fun q => RtoC (nth q x 0)) ((i + N / 2) mod N)%nat) k)))
      by (intros k Hk; rewrite D; reflexivity).
    rewrite (circ N HN _ (psih_val f s N false) (fun q => RtoC (nth q x 0)) (N / 2) _ Hh) by (intros l Hl; apply psih_twice; assumption).
    rewrite rot_back by assumption. reflexivity.
  - unfold drow_val. rewrite HL.
    rewrite (idft_ext _ _ (fun k => Cmul (Cmul (psih_val f s (2 * N) false k) (0, nth k (xifn 1 (2 * N)) 0 * fs)) (dft (2 * N) (fun i => (fun q => RtoC (nth q x 0)) ((i + N / 2) mod N)%nat) k))).
    2:{ intros k Hk. rewrite D. apply C_eq; cbn [Cmul fst snd]; ring. }
    rewrite (circ N HN _ (fun l => Cmul (psih_val f s N false l) (0, nth l (xifn 1 N) 0 * fs)) (fun q => RtoC (nth q x 0)) (N / 2) _ Hh).
    2:{ intros l Hl. rewrite psih_twice, xi_twice by assumption. reflexivity. }
    rewrite rot_back by assumption. fold N. apply idft_ext. intros k Hk. unfold sig_dft. fold N. apply C_eq; cbn [Cmul fst snd]; ring.
Qed.

Definition same_cells (A B : mat C) : Prop :=
  nrows A = nrows B /\ ncols A = ncols B /\ forall i j, (j < ncols A)%nat -> el A i j = el B i j.
Theorem wrap_circular py inst f a x s W sc dW s' m : real_valued f -> uncached inst a s -> a_rpadded a = false -> length x = (2 ^ m)%nat ->
  cwt py inst f (set_pad a (Some PWrap)) x s = (Ok (W, sc, dW), s') ->
  exists W0 dW0 s0, cwt py inst f (set_pad a None) x s = (Ok (W0, sc, dW0), s0) /\ same_cells W W0 /\
    match dW, dW0 with Some d, Some d0 => same_cells d d0 | None, None => True | _, _ => False end.
Proof.
  intros Hr Hu Hp Hm H. pose proof (pow2_pos m) as HN. rewrite <- Hm in HN.
  destruct (cwt_ok_inv _ _ _ _ _ _ _ _ H) as ((fs & xp & n1 & scales & P) & U1 & U2).
  assert (Esc : scales = sc) by (rewrite (cwt_run _ _ _ _ _ _ _ _ _ _ P U1 U2) in H; injection H as _ E _ _; exact E). subst scales.
  assert (P0 : pre f (set_pad a None) x fs x 0 sc).
  { destruct P as (Hfs & Hg & Hpad & Hsc). split; [exact Hfs|]. split; [exact Hg|]. split; [|exact Hsc]. cbn. destruct x; [cbn in HN; lia|reflexivity]. }
  pose proof (cwt_run py inst f (set_pad a None) x s fs x 0%Z sc P0 U1 U2) as R0. cbv zeta in R0.
  match type of R0 with _ = (Ok (?w, _, ?d), ?t) => set (W0 := w) in R0; set (dW0 := d) in R0; set (s0 := t) in R0 end. clearbody W0 s0.
  exists W0, dW0, s0. split; [exact R0|].
  assert (Hu1 : uncached inst (set_pad a (Some PWrap)) s) by exact Hu. assert (Hu0 : uncached inst (set_pad a None) s) by exact Hu.
  destruct (cwt_rows _ _ _ _ _ _ _ _ _ _ Hr Hu1 H) as (fs1 & xp1 & m1 & F1 & E1 & N1 & C1 & D1).
  destruct (cwt_rows _ _ _ _ _ _ _ _ _ _ Hr Hu0 R0) as (fs2 & xp2 & m2 & F2 & E2 & N2 & C2 & D2).
  cbn [set_pad a_fs a_t] in F1, F2. rewrite F1 in F2. injection F2 as <-.
  assert (xp2 = x /\ m2 = 0%Z) as (-> & ->) by (cbn in E2; destruct x; [discriminate|]; injection E2 as <- <-; auto).
  cbn [set_pad a_pad] in E1.
  destruct (cwt_ncols _ _ _ _ _ _ _ _ _ _ H) as (_ & K1). destruct (cwt_ncols _ _ _ _ _ _ _ _ _ _ R0) as (_ & K2).
  cbn [set_pad a_rpadded a_pad] in K1, K2. rewrite Hp in K1, K2. cbn [andb] in K1, K2.
  assert (CW : same_cells W W0).
  { split; [congruence|]. split; [lia|]. intros i j Hj. rewrite C1, C2. unfold finish_cell. cbn [set_pad a_rpadded a_pad a_l1]. rewrite Hp. cbn [negb andb Nat.add].
    destruct (rows_wrap f (nth i sc 0) fs1 x xp1 m1 m Hm E1 j ltac:(lia)) as (-> & _). reflexivity. }
  split; [exact CW|]. destruct dW as [d|], dW0 as [d0|] eqn:Ed0.
  - destruct (cwt_dims _ _ _ _ _ _ _ _ _ _ H) as (G1 & G2). destruct (cwt_dims _ _ _ _ _ _ _ _ _ _ R0) as (G3 & G4).
    split; [congruence|]. split; [lia|]. intros i j Hj. rewrite D1, D2. unfold finish_cell. cbn [set_pad a_rpadded a_pad a_l1]. rewrite Hp. cbn [negb andb Nat.add].
    destruct (rows_wrap f (nth i sc 0) fs1 x xp1 m1 m Hm E1 j ltac:(lia)) as (_ & ->). reflexivity.
  - cbn [set_pad a_deriv] in D2. destruct (cwt_dims _ _ _ _ _ _ _ _ _ _ H) as (_ & _).
    destruct P as (Hfs & Hg & Hpad & Hsc). rewrite (cwt_run _ _ _ _ _ _ _ _ _ _ (conj Hfs (conj Hg (conj Hpad Hsc))) U1 U2) in H.
    cbn [set_pad a_deriv] in H. rewrite D2 in H. discriminate H.
  - cbn [set_pad a_deriv] in D1. unfold dW0 in Ed0. cbn [set_pad a_deriv] in Ed0. rewrite D1 in Ed0. discriminate Ed0.
  - exact I.
Qed.
