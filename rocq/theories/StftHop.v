(** A larger [hop_len] keeps every q-th column of [stft] and [ssq_stft]; a larger [n_fft] for the same
    window keeps the rows and adds rows between them. *)
From Coq Require Import Reals Lra ZifyBool ZifyNat.
From Verif Require Import Py Round Parallel Cplx CplxProofs Padding PaddingProofs Buffer BufferProofs Freqs Stft StftProofs Squeeze SqueezeProofs BinProofs
  SqueezeThms SqueezeThms2 SqueezeThms3 Scales Ssqueeze SsqueezeProofs FreqRange Cwt CwtProofs CwtThms Transport RateThms SymmThms SymmInst StftTone StftMap StftMap2 StftMap3.
Import Stft.
Local Open Scope R_scope.
Ltac Zify.zify_post_hook ::= Z.div_mod_to_equations.

Lemma last_col N h q : (1 <= N)%Z -> (1 <= h)%Z -> (1 <= q)%Z -> ((N - 1) / (q * h) = (N - 1) / h / q)%Z.
Proof. intros A B D. rewrite Z.mul_comm, Z.div_div by lia. reflexivity. Qed.

Definition hopped (a : stft_args) (q : Z) : stft_args :=
  SA (a_fs a) (a_window a) (a_n_fft a) (a_win_len a) (q * a_hop a) (a_modulated a) (a_padtype a) (a_f32 a).
Lemma usable_hopped x a n w q : usable x a n w -> a_n_fft a = Some (Z.of_nat n) -> (1 <= q)%Z -> (a_f32 a = true -> (q * a_hop a <= Z.of_nat n)%Z) ->
  usable x (hopped a q) n w.
Proof.
  intros (H1 & H2 & H3 & H4 & H5 & H6 & H7 & H8) Hn Hq Hf. unfold usable. cbn [hopped a_hop a_f32 a_padtype a_window].
  split; [exact H1|]. split; [exact H2|]. split; [nia|]. unfold stft_n_fft in *. cbn [hopped a_n_fft a_hop]. rewrite Hn in *.
  destruct (Z.eqb_spec (Z.of_nat n) 0); [lia|]. split; [reflexivity|]. split; [exact H5|]. split; [exact H6|]. split; [exact Hf|exact H8].
Qed.

Theorem stft_hop x a n w q : usable x a n w -> a_n_fft a = Some (Z.of_nat n) -> (1 <= q)%Z -> (a_f32 a = true -> (q * a_hop a <= Z.of_nat n)%Z) ->
  exists S dS S' dS', stft x a = Ok (S, dS) /\ stft x (hopped a q) = Ok (S', dS') /\ nrows S' = nrows S /\
    (Z.of_nat (ncols S') = (Z.of_nat (ncols S) - 1) / q + 1)%Z /\
    forall k j, (j < ncols S')%nat -> (Z.to_nat q * j < ncols S)%nat /\
      el S' k j = el S k (Z.to_nat q * j)%nat /\ el dS' k j = el dS k (Z.to_nat q * j)%nat.
Proof.
  intros Hu Hn Hq Hf. pose proof (usable_hopped x a n w q Hu Hn Hq Hf) as Hu'.
  destruct (stft_cells x a n w Hu) as (xp & Sx & dS & P & HL & _ & E & R1 & R2 & C1 & C2 & _ & V).
  destruct (stft_cells x (hopped a q) n w Hu') as (xp' & S' & dS' & P' & _ & _ & E' & R1' & R2' & C1' & C2' & _ & V').
  assert (xp' = xp) by (apply (padded_fun x a n); assumption). subst xp'.
  exists Sx, dS, S', dS'. split; [exact E|]. split; [exact E'|]. split; [congruence|].
  destruct Hu as (Hx & _ & Hh & _). assert (HN : (1 <= Z.of_nat (length x))%Z) by (destruct x; [congruence|cbn [length]; lia]).
  cbn [hopped a_hop] in C2'. rewrite last_col in C2' by assumption. set (L := ((Z.of_nat (length x) - 1) / a_hop a)%Z) in *.
  assert (HC : (Z.of_nat (ncols S') = (Z.of_nat (ncols Sx) - 1) / q + 1)%Z) by (rewrite C2', C2; f_equal; f_equal; lia).
  split; [exact HC|]. intros k j Hj.
  assert (Hb : (Z.to_nat q * j < ncols Sx)%nat).
  { assert (q * Z.of_nat j <= L)%Z; [|lia]. assert (Z.of_nat j <= L / q)%Z by lia. pose proof (Z.mul_div_le L q ltac:(lia)). nia. }
  split; [exact Hb|]. destruct (V' k j Hj) as (V1' & V2'). destruct (V k _ Hb) as (V1 & V2). rewrite V1', V2', V1, V2.
  assert (EC : forall g, cell (hopped a q) n g xp k j = cell a n g xp k (Z.to_nat q * j)).
  { intros g. unfold cell. apply Csum_ext. intros u _. cbn [hopped a_hop]. unfold phase_ref. cbn [hopped a_modulated]. do 4 f_equal. rewrite Z2Nat.inj_mul by lia. lia. }
  split; [apply EC|]. unfold dwindow. cbn [hopped a_modulated a_fs]. apply EC.
Qed.

Theorem ssq_stft_hop ord x a n w q fs t s Tx Sx f Sfs : valid_order ord -> (forall g, s_sq s <> SqFun g) -> usable x a n w -> a_n_fft a = Some (Z.of_nat n) ->
  (1 <= q)%Z -> (a_f32 a = true -> (q * a_hop a <= Z.of_nat n)%Z) -> ssq_stft ord x a fs t s = Ok (Tx, Sx, f, Sfs) ->
  exists Tx' Sx', ssq_stft ord x (hopped a q) fs t s = Ok (Tx', Sx', f, Sfs) /\ nrows Tx' = nrows Tx /\
    forall k j, (k < nrows Tx)%nat -> (j < ncols Tx')%nat -> el Tx' k j = el Tx k (Z.to_nat q * j)%nat /\ el Sx' k j = el Sx k (Z.to_nat q * j)%nat.
Proof.
  intros Ho Hsq Hu Hn Hq Hf E.
  destruct (ssq_stft_parts _ _ _ _ _ _ _ _ _ _ E) as (rate & dSx & F1 & F2 & F3 & F4 & F5 & F6).
  destruct (stft_hop x (rated a rate) n w q (usable_rated _ _ _ _ _ Hu) Hn Hq Hf) as (X & dX & Y & dY & E1 & E2 & R1 & _ & V).
  rewrite F3 in E1. injection E1 as <- <-. change (hopped (rated a rate) q) with (rated (hopped a q) rate) in E2.
  destruct (one_cells _ _ _ _ _ _ _ _ _ Ho F5) as (T1 & T2 & _).
  assert (Hsh : nrows (squeeze_input (s_sq s) (nrows Sx) Sx) = nrows Sx /\ ncols (squeeze_input (s_sq s) (nrows Sx) Sx) = ncols Sx)
    by (destruct (s_sq s) as [| | |g] eqn:Es; cbn; auto; destruct (Hsq g eq_refl)). destruct Hsh as [Hs1 Hs2].
  destruct (ssq_stft_follow ord x a fs t s Tx Sx f Sfs rate dSx x (hopped a q) fs t s rate Y dY
    (fun z => z) (fun z => z) (fun z => z) 1 1 Ho E F1 F3) as (Tx' & ET & N1 & N2 & N3); try reflexivity; try assumption; try lra.
  - rewrite map_one. unfold the_freqs. rewrite F4, R1. reflexivity.
  - eapply one_grids; eassumption.
  - unfold the_gamma. cbn [hopped a_f32]. lra.
  - repeat split; intros; reflexivity.
  - intros z. ring.
  - intros z. ring.
  - intros Sf z d. rewrite !Rmult_1_l. reflexivity.
  - unfold scompatible. destruct (s_sq s) as [| | |g] eqn:Es; [reflexivity|..|destruct (Hsq g eq_refl)].
    + repeat split. intros Sf r d. rewrite !Rmult_1_l. reflexivity.
    + repeat split. intros Sf z d. rewrite !Rmult_1_l. reflexivity.
  - exists Tx', Y. rewrite ET, !map_one. split; [reflexivity|]. split; [congruence|]. intros k j Hk Hj.
    rewrite T1, Hs1 in Hk. rewrite N2 in Hj. destruct (V k j Hj) as (Hb & V1 & _). split; [|exact V1].
    rewrite (N3 (Z.to_nat q * j)%nat j Hb Hj) by (try assumption; intros i Hi; apply (V i j Hj)). apply C_eq; unfold Cmul, RtoC; cbn [fst snd]; ring.
Qed.

(** ** a longer transform of the same window *)
Definition refined (a : stft_args) (L n m : nat) : stft_args :=
  SA (a_fs a) (a_window a) (Some (Z.of_nat (m * n))) (Some (Z.of_nat L)) (a_hop a) (a_modulated a) (a_padtype a) (a_f32 a).
(** the window before it is padded to [n_fft]: [L] samples, given or made *)
Definition raw_window (a : stft_args) (L : nat) : list R := match a_window a with WArray w => w | WGen g => g (Z.of_nat L) end.
Definition win_of (a : stft_args) (n L : nat) : Prop :=
  (1 <= L <= n)%nat /\ stft_win_len a (Z.of_nat n) = Z.of_nat L /\ length (raw_window a L) = L.

(** sample [z] of the extended signal, [0] the first sample of [x] *)
Definition extended (pt : padtype) (x : list R) (z : Z) : R :=
  match np_pad_index pt (Z.of_nat (length x)) z with Some k => nth (Z.to_nat k) x 0 | None => 0 end.
Lemma padded_at x a n xp : x <> [] -> (1 <= n)%nat -> a_padtype a <> PSymmetric -> padded x a n xp ->
  forall i, (i < length xp)%nat -> nth i xp 0 = extended (a_padtype a) x (Z.of_nat i - Z.of_nat n / 2).
Proof.
  intros Hx Hn Hs (n_up & n2 & E). set (N := Z.of_nat (length x)) in *. set (p := Z.of_nat n) in *.
  assert (HN : (1 <= N)%Z) by (unfold N; destruct x; [congruence|cbn; lia]).
  destruct (padsignal_np _ 0 x (a_padtype a) (Some (N + p - 1)%Z) (N + p - 1)%Z (p / 2)%Z ((p - 1) / 2)%Z Hx Hs) as (xp' & E' & Hl & Hat).
  { intros q Hq. injection Hq as <-. unfold N in *. lia. }
  { unfold pad_widths. fold N. replace (N + p - 1 - N)%Z with (p - 1)%Z by lia.
    destruct (Z.eqb_spec (Z.abs (p - 1) mod 2) 0); (apply (f_equal2 pair); [apply (f_equal2 pair)|]; lia). }
  fold N in E'. rewrite E in E'. injection E' as <- _ _. intros i Hi.
  replace i with (Z.to_nat (Z.of_nat i)) at 1 by lia. rewrite Hat by lia. reflexivity.
Qed.

Lemma padded_window a L M : length (raw_window a L) = L -> (L <= M)%nat ->
  get_window (a_window a) (Z.of_nat L) (Z.of_nat M) = Ok (repeat 0 ((M - L) / 2) ++ raw_window a L ++ repeat 0 (M - L - (M - L) / 2)).
Proof.
  intros HR HL. unfold get_window. destruct (Z.gtb_spec (Z.of_nat L) (Z.of_nat M)); [lia|]. fold (raw_window a L). rewrite HR.
  destruct (Z.ltb_spec (Z.of_nat L) (Z.of_nat L + (Z.of_nat M - Z.of_nat L) / 2 + (Z.of_nat M - Z.of_nat L - (Z.of_nat M - Z.of_nat L) / 2))) as [Q|Q].
  - repeat f_equal; lia.
  - assert (M = L) by lia. subst M. rewrite Nat.sub_diag. cbn [Nat.div Nat.divmod fst Nat.sub repeat app]. rewrite app_nil_r. reflexivity.
Qed.

Lemma usable_refined x a n w L m : usable x a n w -> win_of a n L -> a_padtype a <> PSymmetric -> (2 <= m)%nat ->
  w = repeat 0 ((n - L) / 2) ++ raw_window a L ++ repeat 0 (n - L - (n - L) / 2) /\
  usable x (refined a L n m) (m * n) (repeat 0 ((m * n - L) / 2) ++ raw_window a L ++ repeat 0 (m * n - L - (m * n - L) / 2)).
Proof.
  intros (H1 & H2 & H3 & H4 & H5 & H6 & H7 & H8) (HL & Hwl & HR) Hs Hm.
  assert (Hmn : (2 * n <= m * n)%nat) by nia. split.
  - rewrite Hwl, (padded_window a L n HR) in H5 by lia. injection H5 as <-. reflexivity.
  - unfold usable, stft_n_fft, stft_win_len, or_default. cbn [refined a_hop a_f32 a_padtype a_window a_n_fft a_win_len].
    set (M := (m * n)%nat) in *. destruct (Z.eqb_spec (Z.of_nat M) 0); [lia|]. destruct (Z.eqb_spec (Z.of_nat L) 0); [lia|].
    split; [exact H1|]. split; [lia|]. split; [exact H3|]. split; [reflexivity|]. split; [apply (padded_window a L M HR); lia|].
    split; [rewrite !app_length, !repeat_length, HR; lia|]. split; [intros Hf; specialize (H7 Hf); lia|]. left. exact Hs.
Qed.

Lemma Csum_zero n (G : nat -> C) : (forall i, (i < n)%nat -> G i = C0) -> Csum n G = C0.
Proof. induction n as [|n IH]; intros H; [reflexivity|]. cbn [Csum]. rewrite IH, H by (intros; try apply H; lia). ring. Qed.

Lemma tw_refine n m z : (1 <= n)%nat -> (1 <= m)%nat -> tw (m * n) (Z.of_nat m * z) = tw n z.
Proof.
  intros Hn Hm. unfold tw. f_equal. rewrite mult_IZR, <- INR_IZR_INZ, mult_INR. pose proof (lt_0_INR n ltac:(lia)). pose proof (lt_0_INR m ltac:(lia)). field. lra.
Qed.

(** row [m*k] of the longer transform is row [k]; without modulation, up to the phase of the window's new position *)
Theorem stft_refined x a n w L m : usable x a n w -> win_of a n L -> a_padtype a <> PSymmetric -> (2 <= m)%nat ->
  Nat.even n = true \/ Nat.even m = false ->
  exists S dS S' dS', stft x a = Ok (S, dS) /\ stft x (refined a L n m) = Ok (S', dS') /\ ncols S' = ncols S /\ nrows S' = (m * n / 2 + 1)%nat /\
    forall k h, (h < ncols S)%nat ->
      el S' (m * k)%nat h = Cmul (if a_modulated a then C1 else tw n (- (Z.of_nat k * ((Z.of_nat m - 1) * Z.of_nat n / 2)))) (el S k h).
Proof.
  intros Hu Hwl Hs Hm Hpar. destruct (usable_refined x a n w L m Hu Hwl Hs Hm) as (Ew & Hu').
  set (w' := repeat 0 ((m * n - L) / 2) ++ raw_window a L ++ repeat 0 (m * n - L - (m * n - L) / 2)) in *.
  destruct Hwl as (HL0 & _ & HR).
  destruct (stft_cells x a n w Hu) as (xp & Sx & dS & P & HL & _ & E & R1 & R2 & K1 & K2 & F1 & V).
  destruct (stft_cells x (refined a L n m) (m * n) w' Hu') as (xp' & S' & dS' & P' & HL' & _ & E' & R1' & R2' & K1' & K2' & F1' & V').
  exists Sx, dS, S', dS'. split; [exact E|]. split; [exact E'|]. cbn [refined a_hop] in K2'. split; [lia|]. split; [exact R1'|].
  intros k h Hh. destruct Hu as (Hx & Hn & Hh1 & _ & _ & Lw & _).
  assert (Hh' : (h < ncols S')%nat) by lia. destruct (V' (m * k)%nat h Hh') as (-> & _). destruct (V k h Hh) as (-> & _).
  specialize (F1 h Hh). specialize (F1' h Hh'). cbn [refined a_hop] in F1'.
  assert (Hmn : (2 * n <= m * n)%nat) by nia.
  set (pl := ((m * n - L) / 2 - (n - L) / 2)%nat).
  assert (Hpl : (Z.of_nat pl = Z.of_nat (m * n) / 2 - Z.of_nat n / 2)%Z /\ (Z.of_nat pl = (Z.of_nat m - 1) * Z.of_nat n / 2)%Z).
  { unfold pl. destruct Hpar as [Hpar|Hpar].
    - apply Nat.even_spec in Hpar. destruct Hpar as (b & Eb). assert (Em : (m * n = 2 * (m * b))%nat) by (rewrite Eb; lia). rewrite Em.
      assert (b <= m * b)%nat by nia. replace ((Z.of_nat m - 1) * Z.of_nat n)%Z with ((Z.of_nat (m * b) - Z.of_nat b) * 2)%Z by nia. rewrite Z.div_mul by lia.
      set (mb := (m * b)%nat) in *. clearbody mb. clear Em. lia.
    - assert (Hod : Nat.odd m = true) by (unfold Nat.odd; rewrite Hpar; reflexivity). apply Nat.odd_spec in Hod. destruct Hod as (b & Eb).
      assert (Em : (m * n = 2 * (b * n) + n)%nat) by (rewrite Eb; lia). rewrite Em.
      replace ((Z.of_nat m - 1) * Z.of_nat n)%Z with (Z.of_nat (b * n) * 2)%Z by nia. rewrite Z.div_mul by lia.
      set (bn := (b * n)%nat) in *. clearbody bn. clear Em. lia. }
  destruct Hpl as (Hpl & Hpl2).
  rewrite <- Hpl2. unfold cell at 1. cbn [refined a_hop].
  set (g := fun u => Cmul (RtoC (nth (Z.to_nat (a_hop a) * h + u) xp' 0 * nth u w' 0))
    (tw (m * n) (- (Z.of_nat (m * k) * (Z.of_nat u - phase_ref (refined a L n m) (Z.of_nat (m * n))))))).
  replace (Csum (m * n) g) with (Csum (pl + (n + (m * n - n - pl))) g) by (f_equal; unfold pl; lia).
  assert (Ew' : w' = repeat 0 pl ++ w ++ repeat 0 (m * n - n - pl)).
  { rewrite Ew. unfold w'. rewrite !app_assoc, <- repeat_app. rewrite <- (app_assoc _ (repeat 0 (n - L - (n - L) / 2))), <- repeat_app.
    f_equal; [f_equal|]; f_equal; unfold pl; lia. }
  assert (W1 : forall u, (u < pl)%nat -> nth u w' 0 = 0) by (intros u Hu; rewrite Ew', app_nth1 by (rewrite repeat_length; exact Hu); apply nth_repeat0).
  assert (W2 : forall u, (u < n)%nat -> nth (pl + u) w' 0 = nth u w 0).
  { intros u Hu. rewrite Ew', app_nth2 by (rewrite repeat_length; lia). rewrite repeat_length. replace (pl + u - pl)%nat with u by lia. apply app_nth1. lia. }
  assert (W3 : forall u, nth (pl + (n + u)) w' 0 = 0).
  { intros u. rewrite Ew', app_nth2 by (rewrite repeat_length; lia). rewrite repeat_length. replace (pl + (n + u) - pl)%nat with (n + u)%nat by lia.
    rewrite app_nth2 by lia. apply nth_repeat0. }
  clear Ew'.
  rewrite Csum_app, Csum_app. rewrite (Csum_zero pl) by (intros u Hu; unfold g; rewrite W1 by exact Hu; rewrite Rmult_0_r; change (RtoC 0) with C0; ring).
  rewrite (Csum_zero (m * n - n - pl)) by (intros u Hu; unfold g; rewrite W3; rewrite Rmult_0_r; change (RtoC 0) with C0; ring).
  transitivity (Csum n (fun i => g (pl + i)%nat)); [ring|]. unfold cell. rewrite <- Csum_scal. apply Csum_ext. intros u Hu. unfold g. rewrite W2 by exact Hu.
  assert (EX : nth (Z.to_nat (a_hop a) * h + (pl + u)) xp' 0 = nth (Z.to_nat (a_hop a) * h + u) xp 0).
  { rewrite (padded_at x a n xp Hx Hn Hs P) by lia. rewrite (padded_at x (refined a L n m) (m * n) xp' Hx ltac:(lia) Hs P') by (unfold pl; lia).
    cbn [refined a_padtype]. f_equal. lia. }
  rewrite EX.
  assert (ET : tw (m * n) (- (Z.of_nat (m * k) * (Z.of_nat (pl + u) - phase_ref (refined a L n m) (Z.of_nat (m * n))))) =
    Cmul (if a_modulated a then C1 else tw n (- (Z.of_nat k * Z.of_nat pl))) (tw n (- (Z.of_nat k * (Z.of_nat u - phase_ref a (Z.of_nat n)))))).
  { replace (- (Z.of_nat (m * k) * (Z.of_nat (pl + u) - phase_ref (refined a L n m) (Z.of_nat (m * n)))))%Z
      with (Z.of_nat m * (- (Z.of_nat k * (Z.of_nat (pl + u) - phase_ref (refined a L n m) (Z.of_nat (m * n))))))%Z by (rewrite (Nat2Z.inj_mul m k); ring).
    rewrite tw_refine by lia. unfold phase_ref. cbn [refined a_modulated]. destruct (a_modulated a).
    - transitivity (tw n (- (Z.of_nat k * (Z.of_nat u - Z.of_nat n / 2)))); [f_equal; rewrite Nat2Z.inj_add, Hpl; lia|]. unfold C1. apply C_eq; unfold Cmul; cbn [fst snd]; ring.
    - rewrite <- tw_add by exact Hn. f_equal. lia. }
  rewrite ET. destruct (a_modulated a); ring.
Qed.
