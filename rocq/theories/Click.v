(** [stft] and [ssq_stft] where the window sees one sample only: a click. *)
From Coq Require Import Reals Lra Lia List ZifyBool ZifyNat.
Import ListNotations.
From Verif Require Import Py Round Padding PaddingProofs Parallel Cplx CplxProofs Buffer BufferProofs Freqs Stft StftProofs WindowProofs Separate
  Squeeze SqueezeProofs PointwiseProofs SqueezeThms SqueezeThms2 SqueezeThms3 Scales Ssqueeze SsqueezeProofs SsqThms CwtTone IssqProofs StftTone StftToneThms StftToneWitness StftMap StftEnergy NoiseSsq.
Import Stft.
Local Open Scope R_scope.
Ltac Zify.zify_post_hook ::= Z.div_mod_to_equations.

(** the samples under the window of column [h] *)
Definition under (n hop h t : nat) : Prop := (hop * h <= t + n / 2 < hop * h + n)%nat.
(** of those, only sample [p] is not 0 *)
Definition click (x : list R) (n hop h p : nat) : Prop :=
  (p < length x)%nat /\ under n hop h p /\ forall t, (t < length x)%nat -> under n hop h t -> t <> p -> nth t x 0 = 0.
(** the window of column [h] sees no padding but zeros *)
Definition plain (x : list R) (a : stft_args) (n h : nat) : Prop :=
  a_padtype a = PZero \/ interior n (length x) (Z.to_nat (a_hop a)) h.

Lemma frame_samples x a n w xp h u : usable x a n w -> padded x a n xp -> Z.of_nat (length xp) = (Z.of_nat (length x) + Z.of_nat n - 1)%Z ->
  (forall i, (i < length x)%nat -> nth (n / 2 + i) xp 0 = nth i x 0) -> (a_hop a * Z.of_nat h + Z.of_nat n <= Z.of_nat (length xp))%Z -> plain x a n h -> (u < n)%nat ->
  let t := (Z.to_nat (a_hop a) * h + u)%nat in
  nth t xp 0 = if (n / 2 <=? t)%nat && (t <? n / 2 + length x)%nat then nth (t - n / 2) x 0 else 0.
Proof.
  intros (Hx & Hn & Hh & _) P HL Hin Hfit Hp Hu t. assert (Ht : (t < length xp)%nat) by (unfold t; nia). destruct Hp as [Hz|[I1 I2]].
  - apply (zero_padded x a n xp Hx Hn Hz P). exact Ht.
  - destruct (Nat.leb_spec (n / 2) t), (Nat.ltb_spec t (n / 2 + length x)); cbn [andb]; try (unfold t in *; lia).
    replace t with (n / 2 + (t - n / 2))%nat at 1 by lia. apply Hin. lia.
Qed.
(** the sum over the frame has one term *)
Lemma click_cell x a n w xp h p g k : usable x a n w -> padded x a n xp -> Z.of_nat (length xp) = (Z.of_nat (length x) + Z.of_nat n - 1)%Z ->
  (forall i, (i < length x)%nat -> nth (n / 2 + i) xp 0 = nth i x 0) -> (a_hop a * Z.of_nat h + Z.of_nat n <= Z.of_nat (length xp))%Z -> plain x a n h ->
  click x n (Z.to_nat (a_hop a)) h p -> let u := (p + n / 2 - Z.to_nat (a_hop a) * h)%nat in
  cell a n g xp k h = Cmul (RtoC (nth p x 0 * nth u g 0)) (tw n (- (Z.of_nat k * (Z.of_nat u - phase_ref a (Z.of_nat n))))).
Proof.
  intros U P HL Hin Hfit Hp (Hpx & Hu & Hz) u. unfold under in *. unfold cell. rewrite (Csum_single n _ u); [|unfold u; lia|].
  - rewrite (frame_samples x a n w xp h u U P HL Hin Hfit Hp) by (unfold u; lia).
    destruct (Nat.leb_spec (n / 2) (Z.to_nat (a_hop a) * h + u)), (Nat.ltb_spec (Z.to_nat (a_hop a) * h + u) (n / 2 + length x)); cbn [andb]; try (unfold u in *; lia).
    replace (Z.to_nat (a_hop a) * h + u - n / 2)%nat with p by (unfold u; lia). reflexivity.
  - intros i Hi Hne. rewrite (frame_samples x a n w xp h i U P HL Hin Hfit Hp) by exact Hi.
    set (t := (Z.to_nat (a_hop a) * h + i)%nat) in *.
    destruct (Nat.leb_spec (n / 2) t), (Nat.ltb_spec t (n / 2 + length x)); cbn [andb]; try (apply C_eq; cbn; ring).
    rewrite (Hz (t - n / 2)%nat); [apply C_eq; cbn; ring|lia|unfold t in *; lia|unfold u, t in *; lia].
Qed.

Lemma C_eq_dec z : z = C0 \/ z <> C0.
Proof.
  destruct z as [p q]. destruct (Req_dec p 0) as [->|Hp]; [destruct (Req_dec q 0) as [->|Hq]; [left; reflexivity|]|]; right; intros E; injection E; intros; congruence.
Qed.
(** in a column that sees a click, all rows are equally large, and the derivative is a real multiple *)
Theorem stft_click x a n w : usable x a n w -> exists X dX, stft x a = Ok (X, dX) /\ nrows X = (n / 2 + 1)%nat /\
  forall h p, (h < ncols X)%nat -> plain x a n h -> click x n (Z.to_nat (a_hop a)) h p -> let u := (p + n / 2 - Z.to_nat (a_hop a) * h)%nat in
    forall k, Cabs (el X k h) = Rabs (nth p x 0 * nth u w 0) /\ (nth u w 0 <> 0 -> el dX k h = Cmul (RtoC (nth u (dwindow a w) 0 / nth u w 0)) (el X k h)).
Proof.
  intros U. destruct (stft_cells x a n w U) as (xp & X & dX & P1 & L1 & A1 & E1 & R1 & D1 & K1 & C1 & F1 & V1).
  exists X, dX. split; [exact E1|]. split; [exact R1|]. intros h p Hh Hp Hc u k. destruct (V1 k h Hh) as [-> ->].
  rewrite !(click_cell x a n w xp h p _ k U P1 L1 A1 (F1 h Hh) Hp Hc). fold u. split.
  - rewrite Cabs_mul, Cabs_tw, Cabs_RtoC. ring.
  - intros Hw. apply C_eq; unfold Cmul, RtoC; cbn [fst snd]; field; exact Hw.
Qed.

Theorem ssq_click ord x a fs t s rate n w g : valid_order ord -> usable x a n w -> process_fs_and_t fs t (length x) = Ok rate ->
  EPS64 <= rate / INR n -> (2 <= n)%nat -> Nat.even n = true -> (Z.of_nat n < 2 ^ 62)%Z -> s_freqs s = None -> s_sq s = SqSum ->
  g = match s_gamma s with Some g => g | None => 10 * (if a_f32 a then EPS32 else EPS64) end ->
  exists Tx X f, ssq_stft ord x a fs t s = Ok (Tx, X, f, make_Sfs (n / 2 + 1) rate) /\ nrows Tx = (n / 2 + 1)%nat /\ ncols Tx = ncols X /\
  forall h p, (h < ncols X)%nat -> plain x a n h -> click x n (Z.to_nat (a_hop a)) h p ->
  let v := Rabs (nth p x 0 * nth (p + n / 2 - Z.to_nat (a_hop a) * h) w 0) in
  forall k, (k <= n / 2)%nat -> Cabs (el X k h) = v /\
    el Tx (if s_flip s then n / 2 - k else k)%nat h = if kept (s_get_w s) g v then Cmul (RtoC (rate / INR n)) (el X k h) else C0.
Proof.
  intros Ho U Hfs Hd Hn2 He Hn62 Hfr Hsq Hg. set (a' := rated a rate).
  assert (U' : usable x a' n w) by exact U. destruct (stft_click x a' n w U') as (X & dX & ES & HrS & V).
  destruct (near_bins ord x a fs t s rate n g X dX Ho Hfs Hd Hn2 He Hn62 ES HrS Hfr Hsq Hg) as (Tx & f & hit & ET & RT & CT & _ & _ & Huniq & Hhit & HT).
  exists Tx, X, f. split; [exact ET|]. split; [exact RT|]. split; [exact CT|]. intros h p Hh Hp Hc v k Hk.
  pose proof (V h p Hh Hp Hc) as VV. cbv zeta in VV. change (a_hop a') with (a_hop a) in VV. set (u := (p + n / 2 - Z.to_nat (a_hop a) * h)%nat) in *.
  split; [apply VV|]. set (q := (if s_flip s then n / 2 - k else k)%nat). assert (Hq : (q <= n / 2)%nat) by (unfold q; destruct (s_flip s); lia).
  rewrite HT by assumption.
  assert (Hcell : forall i, (i < n / 2 + 1)%nat ->
    (if hit i h q && kept (s_get_w s) g (Cabs (el X i h)) then Cmul (RtoC (rate / INR n)) (el X i h) else C0) =
    if (i =? k)%nat then (if kept (s_get_w s) g v then Cmul (RtoC (rate / INR n)) (el X i h) else C0) else C0).
  { intros i Hi. destruct (VV i) as [Ei Di]. rewrite Ei. fold v. destruct (Req_dec v 0) as [Hv|Hv].
    - assert (E0 : el X i h = C0) by (destruct (C_eq_dec (el X i h)) as [E|NE]; [exact E|pose proof (Cabs_pos _ NE) as HP; rewrite Ei in HP; fold v in HP; lra]). rewrite E0. replace (Cmul (RtoC (rate / INR n)) C0) with C0 by (apply C_eq; cbn; ring).
      destruct (hit i h q && kept (s_get_w s) g v), (i =? k)%nat, (kept (s_get_w s) g v); reflexivity.
    - assert (Hw : nth u w 0 <> 0) by (intros E; apply Hv; unfold v; rewrite E, Rmult_0_r; apply Rabs_R0).
      assert (NZ : el X i h <> C0) by (intros E; apply Hv; unfold v; rewrite <- Ei, E; apply Cabs_0).
      assert (Hph : phase_stft_pt (nth i (make_Sfs (n / 2 + 1) rate) 0) (el X i h) (el dX i h) = INR i * (rate / INR n)).
      { unfold phase_stft_pt. rewrite (phase_ratio_quot _ _ _ NZ (eq_sym (Di Hw))). cbn [Im RtoC snd]. rewrite make_Sfs_even by (try assumption; lia).
        replace (INR i * (rate / INR n) - 0 / (2 * PI)) with (INR i * (rate / INR n)) by (unfold Rdiv; ring). apply Rabs_right. pose proof (pos_INR i). pose proof EPS64_pos. nra. }
      assert (Hi2 : hit i h q = (q =? (if s_flip s then n / 2 - i else i))%nat).
      { apply Hhit; try lia. rewrite Hph. replace (INR i * (rate / INR n) - INR i * (rate / INR n)) with 0 by ring. rewrite Rabs_R0. pose proof EPS64_pos. lra. }
      rewrite Hi2. assert (Eb : (q =? (if s_flip s then n / 2 - i else i))%nat = (i =? k)%nat) by (unfold q; destruct (s_flip s); lia). rewrite Eb.
      destruct (i =? k)%nat; cbn [andb]; [|reflexivity]. destruct (kept (s_get_w s) g v); reflexivity. }
  rewrite (Csum_ext _ _ _ Hcell), (Csum_single _ _ k); [rewrite Nat.eqb_refl; reflexivity|lia|]. intros i Hi Hne. destruct (Nat.eqb_spec i k); [contradiction|reflexivity].
Qed.

(** a column that sees zeros only is 0 *)
Theorem ssq_silence ord x a fs t s rate n w g : valid_order ord -> usable x a n w -> process_fs_and_t fs t (length x) = Ok rate ->
  EPS64 <= rate / INR n -> (2 <= n)%nat -> Nat.even n = true -> (Z.of_nat n < 2 ^ 62)%Z -> s_freqs s = None -> s_sq s = SqSum ->
  g = match s_gamma s with Some g => g | None => 10 * (if a_f32 a then EPS32 else EPS64) end ->
  exists Tx X f, ssq_stft ord x a fs t s = Ok (Tx, X, f, make_Sfs (n / 2 + 1) rate) /\ nrows Tx = (n / 2 + 1)%nat /\ ncols Tx = ncols X /\
  forall h, (h < ncols X)%nat -> plain x a n h -> (forall i, (i < length x)%nat -> under n (Z.to_nat (a_hop a)) h i -> nth i x 0 = 0) ->
  forall k, el X k h = C0 /\ ((k <= n / 2)%nat -> el Tx k h = C0).
Proof.
  intros Ho U Hfs Hd Hn2 He Hn62 Hfr Hsq Hg. set (a' := rated a rate).
  assert (U' : usable x a' n w) by exact U. destruct (stft_cells x a' n w U') as (xp & X & dX & P1 & L1 & A1 & ES & R1 & D1 & K1 & C1 & F1 & V1).
  destruct (near_bins ord x a fs t s rate n g X dX Ho Hfs Hd Hn2 He Hn62 ES R1 Hfr Hsq Hg) as (Tx & f & hit & ET & RT & CT & _ & _ & Huniq & Hhit & HT).
  exists Tx, X, f. split; [exact ET|]. split; [exact RT|]. split; [exact CT|]. intros h Hh Hp Hz.
  assert (H0 : forall k, el X k h = C0).
  { intros k. destruct (V1 k h Hh) as [-> _]. unfold cell. apply Csum_0. intros u Hu. rewrite (frame_samples x a' n w xp h u U' P1 L1 A1 (F1 h Hh) Hp Hu).
    change (a_hop a') with (a_hop a) in *. set (i := (Z.to_nat (a_hop a) * h + u)%nat) in *.
    destruct (Nat.leb_spec (n / 2) i), (Nat.ltb_spec i (n / 2 + length x)); cbn [andb]; try (apply C_eq; cbn; ring).
    rewrite (Hz (i - n / 2)%nat); [apply C_eq; cbn; ring|lia|unfold under, i in *; lia]. }
  intros k. split; [apply H0|]. intros Hk. rewrite HT by assumption. apply Csum_0. intros i Hi. rewrite H0. destruct (_ && _); [apply C_eq; cbn; ring|reflexivity].
Qed.
