(** [ssq_stft] separates tones in bins of their own, and [issq_stft] gives each back. *)
From Coq Require Import ZifyBool ZifyNat.
From Verif Require Import Py Round Padding Parallel Cplx CplxProofs Buffer Freqs Stft StftProofs WindowProofs
  Squeeze SqueezeProofs SqueezeThms SqueezeThms2 SqueezeThms3 Scales Ssqueeze SsqueezeProofs SsqThms CwtTone IssqProofs StftTone StftToneThms StftToneWitness StftMap StftChord.
Local Open Scope R_scope.
Ltac Zify.zify_post_hook ::= Z.div_mod_to_equations.

Definition stft_chord_run (ord : order) (M : nat) (A phi : nat -> R) (m : nat -> nat) (x : list R) (a : stft_args) (fs : option R) (t : option (list R))
  (s : ssq_stft_opts) (rate : R) (n : nat) (w : list R) (b : nat) (g : R) : Prop :=
  valid_order ord /\ x = bin_chord M A phi m n (length x) /\ usable x a n w /\
  process_fs_and_t fs t (length x) = Ok rate /\ EPS64 <= rate / INR n /\
  (2 <= n)%nat /\ Nat.even n = true /\ (Z.of_nat n < 2 ^ 62)%Z /\ a_modulated a = true /\
  narrow n w b /\ bins_apart M m n b /\ s_freqs s = None /\ s_sq s = SqSum /\
  g = match s_gamma s with Some g => g | None => 10 * (if a_f32 a then EPS32 else EPS64) end /\ 0 <= g /\ (s_get_w s = true -> 0 < g) /\
  (forall r q, (r < M)%nat -> wspec n w q <> C0 -> g < Rabs (A r / 2) * Cabs (wspec n w q)).

Section Run.
Variables (ord : order) (M : nat) (A phi : nat -> R) (m : nat -> nat) (x : list R) (a : stft_args) (fs : option R) (t : option (list R))
  (s : ssq_stft_opts) (rate : R) (n : nat) (w : list R) (b : nat) (g : R).
Hypothesis Hrun : stft_chord_run ord M A phi m x a fs t s rate n w b g.
Let hop := Z.to_nat (a_hop a).
Let a' := SA rate (a_window a) (a_n_fft a) (a_win_len a) (a_hop a) (a_modulated a) (a_padtype a) (a_f32 a).
Let Sfs := make_Sfs (n / 2 + 1) rate.
Let row (r : nat) := (if s_flip s then n / 2 - m r else m r)%nat.

(** the tone whose bins include [k] *)
Definition nearb (k r : nat) : bool := (k <=? m r + b)%nat && (m r <=? k + b)%nat.
Definition owner (k : nat) : option nat := find (nearb k) (seq 0 M).
Lemma owner_some k r : owner k = Some r -> (r < M)%nat /\ (k <= m r + b)%nat /\ (m r <= k + b)%nat.
Proof. intros E. apply find_some in E. destruct E as [I B]. apply in_seq in I. unfold nearb in B. lia. Qed.
Lemma owner_none k r : owner k = None -> (r < M)%nat -> (m r + b < k)%nat \/ (k + b < m r)%nat.
Proof. intros E Hr. pose proof (find_none _ _ E r ltac:(apply in_seq; lia)) as B. unfold nearb in B. lia. Qed.
Lemma part_far r k h : (r < M)%nat -> (k <= n / 2)%nat -> (m r + b < k)%nat \/ (k + b < m r)%nat -> part A phi m a n w r k h = C0.
Proof.
  intros Hr Hk Hf. destruct Hrun as (_ & _ & _ & _ & _ & Hn & _ & _ & _ & Hb & (Hm & _) & _). destruct (Hm r Hr) as [H1 H2].
  unfold part. rewrite (narrow_far x a n w b Hn Hb); [ring|lia|lia].
Qed.
Lemma one_owner k r r' h : (k <= n / 2)%nat -> owner k = Some r -> (r' < M)%nat -> r' <> r -> part A phi m a n w r' k h = C0.
Proof.
  intros Hk E Hr' Hne. destruct (owner_some k r E) as (Hr & K1 & K2). apply part_far; [exact Hr'|exact Hk|].
  destruct Hrun as (_ & _ & _ & _ & _ & _ & _ & _ & _ & _ & (_ & Hs) & _). specialize (Hs r r' Hr Hr' ltac:(congruence)). lia.
Qed.
Lemma owner_unique k r : (r < M)%nat -> (k <= m r + b)%nat -> (m r <= k + b)%nat -> owner k = Some r.
Proof.
  intros Hr K1 K2. destruct (owner k) as [r'|] eqn:E.
  - destruct (owner_some k r' E) as (Hr' & L1 & L2). destruct (Nat.eq_dec r r') as [->|Hne]; [reflexivity|].
    destruct Hrun as (_ & _ & _ & _ & _ & _ & _ & _ & _ & _ & (_ & Hs) & _). specialize (Hs r r' Hr Hr' Hne). lia.
  - destruct (owner_none k r E Hr); lia.
Qed.

Lemma usable' : usable x a' n w.
Proof. destruct Hrun as (_ & _ & U & _). exact U. Qed.

Lemma tone_total_any r : (r < M)%nat -> Csum (n / 2 + 1) (fun k => wspec n w (Z.of_nat k - Z.of_nat (m r))) = RtoC (INR n * nth (n / 2) w 0).
Proof.
  intros Hr. destruct Hrun as (_ & _ & _ & _ & _ & Hn & He & _ & _ & Hb & (Hm & _) & _). destruct (Hm r Hr) as [H1 H2].
  rewrite <- (wspec_sum n ltac:(lia) w (Z.of_nat (m r))).
  replace (Csum n (fun k => wspec n w (Z.of_nat k - Z.of_nat (m r)))) with
    (Csum (n / 2 + 1 + (n - (n / 2 + 1))) (fun k => wspec n w (Z.of_nat k - Z.of_nat (m r)))) by (f_equal; lia).
  rewrite (Csum_app (n / 2 + 1) (n - (n / 2 + 1))). rewrite (Csum_0 (n - (n / 2 + 1))); [ring|].
  intros i Hi. rewrite <- Nat2Z.inj_sub by lia. apply Hb. lia.
Qed.

Theorem chord_ssq : exists Tx Sx f, ssq_stft ord x a fs t s = Ok (Tx, Sx, f, Sfs) /\
  nrows Tx = (n / 2 + 1)%nat /\ Z.of_nat (ncols Tx) = ((Z.of_nat (length x) - 1) / a_hop a + 1)%Z /\
  (forall r, (r < M)%nat -> nth (row r) f 0 = INR (m r) * rate / INR n) /\
  forall h, (h < ncols Tx)%nat -> clean x a n h ->
    (forall r, (r < M)%nat -> el Tx (row r) h = Cmul (RtoC (rate * nth (n / 2) w 0 * (A r / 2))) (bin_phase (phi r) (m r) n (hop * h))) /\
    (forall q, (q <= n / 2)%nat -> (forall r, (r < M)%nat -> q <> row r) -> el Tx q h = C0).
Proof.
  pose proof Hrun as (Ho & Hx & U & Hfs & Hd & Hn & He & Hn62 & Hmod & Hb & Hap & Hfr & Hsq & Hg & Hg0 & Hgw & Hall).
  destruct (chord_stft M A phi m x a' n w b usable' Hn Hx Hmod Hb (proj1 Hap)) as (Sx & dSx & ES & RS & CS & V).
  assert (Hn0 : 0 < INR n) by (apply lt_0_INR; lia). pose proof EPS64_pos.
  set (Mb := fun (k _ : nat) => match owner k with Some r => m r | None => 0%nat end).
  assert (P : forall h k, (h < ncols Sx)%nat -> clean x a n h -> (k <= n / 2)%nat ->
    el Sx k h = match owner k with Some r => part A phi m a n w r k h | None => C0 end /\
    el dSx k h = match owner k with Some r => Cmul (0, 2 * PI * (rate * (INR k - INR (m r)) / INR n)) (part A phi m a n w r k h) | None => C0 end).
  { intros h k Hh Hi Hk. destruct (V h k Hh Hi Hk) as [V1 V2]. change (part A phi m a' n w) with (part A phi m a n w) in *. change (a_fs a') with rate in *.
    rewrite V1, V2. destruct (owner k) as [r|] eqn:E.
    - destruct (owner_some k r E) as (Hr & _). split; (rewrite (Csum_single M _ r Hr); [reflexivity|]; intros r' Hr' Hne; rewrite (one_owner k r r' h Hk E Hr' Hne); ring).
    - split; apply Csum_0; intros r Hr; rewrite part_far by (try assumption; apply (owner_none k r E Hr)); ring. }
  destruct (located ord x a fs t s rate n g Sx dSx Mb (clean x a n)) as (Tx & f & ET & RT & CT & Lf & Hf & VT); try assumption.
  { intros h k Hh Hi Hk. destruct (P h k Hh Hi Hk) as [P1 P2]. unfold Mb. destruct (owner k) as [r|] eqn:E.
    - destruct (owner_some k r E) as (Hr & K1 & K2). destruct Hap as [Hm _]. destruct (Hm r Hr). split; [lia|]. intros Hnz.
      rewrite P2. rewrite <- P1. rewrite phase_stft_factor by exact Hnz. rewrite make_Sfs_even by (try exact He; lia).
      pose proof (pos_INR (m r)). replace (INR k * (rate / INR n) - rate * (INR k - INR (m r)) / INR n) with (INR (m r) * (rate / INR n)) by (field; lra).
      apply Rabs_right. nra.
    - split; [lia|]. intros Hnz. contradiction. }
  exists Tx, Sx, f. split; [exact ET|]. split; [exact RT|]. split; [rewrite CT; exact CS|].
  destruct Hap as [Hm Hs]. split; [intros r Hr; destruct (Hm r Hr); apply Hf; lia|].
  intros h Hh Hi. rewrite CT in Hh.
  assert (Kept : forall k r, (k <= n / 2)%nat -> owner k = Some r -> el Sx k h <> C0 -> kept (s_get_w s) g (Cabs (el Sx k h)) = true).
  { intros k r Hk E Hnz. destruct (P h k Hh Hi Hk) as [P1 _]. rewrite E in P1. destruct (owner_some k r E) as (Hr & _).
    assert (Ea : Cabs (el Sx k h) = Rabs (A r / 2) * Cabs (wspec n w (Z.of_nat k - Z.of_nat (m r)))) by (rewrite P1; unfold part; rewrite !Cabs_mul, bin_phase_abs, Cabs_RtoC; ring).
    assert (Hz : wspec n w (Z.of_nat k - Z.of_nat (m r)) <> C0) by (intros Ez; apply Hnz; rewrite P1; unfold part; rewrite Ez; ring).
    specialize (Hall r _ Hr Hz). rewrite <- Ea in Hall. unfold kept. destruct (s_get_w s).
    - destruct (Rlt_dec (Cabs (el Sx k h)) g); [lra|reflexivity].
    - destruct (Rlt_dec g (Cabs (el Sx k h))); [reflexivity|lra]. }
  split.
  - intros r Hr. destruct (Hm r Hr) as [M1 M2]. assert (Hrow : (row r <= n / 2)%nat) by (unfold row; destruct (s_flip s); lia). rewrite (VT h (row r) Hh Hi Hrow).
    rewrite (Csum_ext _ _ (fun k => Cmul (Cmul (RtoC (rate / INR n * (A r / 2))) (bin_phase (phi r) (m r) n (hop * h))) (wspec n w (Z.of_nat k - Z.of_nat (m r))))).
    + rewrite Csum_scal, tone_total_any by exact Hr. apply C_eq; unfold Cmul, RtoC; cbn [fst snd]; field; lra.
    + intros k Hk. destruct (P h k Hh Hi ltac:(lia)) as [P1 _]. unfold Mb. destruct (owner k) as [r'|] eqn:E.
      * destruct (owner_some k r' E) as (Hr' & K1 & K2). destruct (Nat.eq_dec r' r) as [ ->|Hne].
        -- fold (row r). rewrite Nat.eqb_refl. cbn [andb]. destruct (Req_EM_T (Cnorm2 (el Sx k h)) 0) as [E0|E0].
           ++ apply Cnorm2_0 in E0. rewrite E0. transitivity (Cmul (RtoC (rate / INR n)) (el Sx k h)); [rewrite E0; destruct (kept _ _ _); ring|]. rewrite P1. unfold part. fold hop. rewrite RtoC_mul. ring.
           ++ rewrite (Kept k r ltac:(lia) E) by (intros Ez; rewrite Ez in E0; apply E0; unfold Cnorm2, C0; cbn; ring). rewrite P1. unfold part. fold hop. rewrite RtoC_mul. ring.
        -- destruct (Hm r' Hr'). assert (Er : (row r =? (if s_flip s then n / 2 - m r' else m r'))%nat = false) by (specialize (Hs r r' Hr Hr' ltac:(congruence)); unfold row; destruct (s_flip s); lia).
           rewrite Er. cbn [andb]. rewrite (narrow_far x a n w b Hn Hb); [ring| |]; specialize (Hs r r' Hr Hr' ltac:(congruence)); lia.
      * destruct (owner_none k r E Hr) as [K|K]; rewrite (narrow_far x a n w b Hn Hb) by lia; rewrite P1; destruct (_ && _); ring.
  - intros q Hq Hne. rewrite (VT h q Hh Hi Hq). apply Csum_0. intros k Hk. destruct (P h k Hh Hi ltac:(lia)) as [P1 _]. unfold Mb. destruct (owner k) as [r|] eqn:E.
    + destruct (owner_some k r E) as (Hr & _). specialize (Hne r Hr). fold (row r). destruct (Nat.eqb_spec q (row r)); [contradiction|reflexivity].
    + rewrite P1. destruct (_ && _); [ring|reflexivity].
Qed.

(** ** the tones one by one *)
Theorem chord_issq nf wl f32 cc cw : a_hop a = 1%Z -> nth (n / 2) w 0 <> 0 -> (0 < M)%nat ->
  or_default nf (2 * Z.of_nat (n / 2))%Z = Z.of_nat n -> get_window (a_window a) (or_default wl (Z.of_nat n)) (Z.of_nat n) = Ok w ->
  nrows cc = length x -> ncols cc = M -> nrows cw = length x -> ncols cw = M ->
  (forall j r, (j < length x)%nat -> (r < M)%nat -> (0 <= el cc j r)%Z /\ (Z.abs (el cc j r - Z.of_nat (row r)) <= el cw j r)%Z) ->
  (forall j r r', (j < length x)%nat -> (r < M)%nat -> (r' < M)%nat -> r' <> r -> (el cw j r < Z.abs (el cc j r - Z.of_nat (row r')))%Z) ->
  exists Tx Sx f xs, ssq_stft ord x a fs t s = Ok (Tx, Sx, f, Sfs) /\ issq_stft Tx (a_window a) (Some (cc, cw)) nf wl 1 true f32 = Ok (Many xs) /\
    length xs = S M /\
    forall j, (j < length x)%nat -> clean x a n j ->
      (forall r, (r < M)%nat -> nth j (nth r xs []) 0 = rate * (A r * cos (2 * PI * INR (m r) * INR j / INR n + phi r))) /\ nth j (nth M xs []) 0 = 0.
Proof.
  intros H1 Hg' HM Hnf' Hw' Hc1 Hc2 Hw1 Hw2 Hband Hother. destruct chord_ssq as (Tx & Sx & f & E & RT & CT & _ & V).
  pose proof Hrun as (Ho & Hx & U & Hfs & Hd & Hn & He & Hn62 & Hmod & Hb & (Hm & Hs) & _). pose proof U as (U1 & _ & _ & _ & _ & Hlw & _).
  assert (HN : (1 <= length x)%nat) by (destruct x; [congruence|cbn; lia]).
  assert (HC : ncols Tx = length x) by (rewrite H1 in CT; lia).
  destruct (invert_components Tx cc cw) as [ys|] eqn:EI.
  2:{ exfalso. unfold invert_components in EI. rewrite Hc2, Hc1, Hw1, Hw2, HC, !Nat.ltb_irrefl, !Nat.eqb_refl in EI. destruct (Nat.eqb_spec M 0); [lia|]. cbn [orb negb] in EI. discriminate. }
  exists Tx, Sx, f, (map (map (fun y => y * (2 / nth (length w / 2) w 0))) ys). split; [exact E|]. split.
  { unfold issq_stft. cbn [negb Z.eqb Pos.eqb]. rewrite RT. replace ((Z.of_nat (n / 2 + 1) - 1) * 2)%Z with (2 * Z.of_nat (n / 2))%Z by lia. rewrite Hnf'.
    rewrite Hw'. cbn [bind]. unfold check_NOLA. destruct (Z.leb_spec 1 0); [lia|]. destruct (Z.gtb_spec 1 (Z.of_nat (length w))); [lia|].
    rewrite Bool.andb_false_r. cbn [bind invert]. rewrite EI. reflexivity. }
  assert (Hyl : length ys = S M /\ forall r, (r < S M)%nat -> length (nth r ys []) = length x).
  { unfold invert_components in EI. rewrite Hc2, Hc1, Hw1, Hw2, HC, !Nat.ltb_irrefl, !Nat.eqb_refl in EI. destruct (Nat.eqb_spec M 0); [lia|]. cbn [orb negb] in EI.
    apply (f_equal (fun r => match r with Ok l => l | _ => [] end)) in EI. rewrite <- EI. split.
    - rewrite app_length, map_length, seq_length. cbn [length]. lia.
    - intros r Hr. destruct (Nat.eq_dec r M) as [ ->|Hne].
      + rewrite app_nth2 by (rewrite map_length, seq_length; lia). rewrite map_length, seq_length, Nat.sub_diag. cbn [nth]. apply tab_length.
      + rewrite app_nth1 by (rewrite map_length, seq_length; lia).
        match goal with |- context [map ?F (seq 0 M)] => rewrite (nth_indep _ [] (F 0%nat)) by (rewrite map_length, seq_length; lia); rewrite (map_nth F) end. apply tab_length. }
  destruct Hyl as [Ly Lyr]. split; [rewrite map_length; exact Ly|].
  assert (Sc : forall r j, (r < S M)%nat -> (j < length x)%nat -> nth j (nth r (map (map (fun y => y * (2 / nth (length w / 2) w 0))) ys) []) 0 = lrow ys r j * (2 / nth (n / 2) w 0)).
  { intros r j Hr Hj. rewrite Hlw. set (fm := fun y => y * (2 / nth (n / 2) w 0)). rewrite (nth_indep _ [] (map fm [])) by (rewrite map_length; lia). rewrite (map_nth (map fm)).
    rewrite (nth_indep _ 0 (fm 0)) by (rewrite map_length, Lyr by exact Hr; exact Hj). rewrite map_nth. reflexivity. }
  assert (Hpre : forall j r, (j < ncols Tx)%nat -> (r < ncols cc)%nat -> (-1 <= el cc j r)%Z /\ (0 <= el cw j r)%Z).
  { intros j r Hj Hr. destruct (Hband j r ltac:(lia) ltac:(lia)). lia. }
  assert (Hhop1 : hop = 1%nat) by (unfold hop; rewrite H1; reflexivity).
  intros j Hj Hcl. destruct (V j ltac:(lia) Hcl) as [V1 V2].
  assert (Hrow : forall r, (r < M)%nat -> (row r < n / 2 + 1)%nat) by (intros r Hr; destruct (Hm r Hr); unfold row; destruct (s_flip s); lia).
  assert (Hinj : forall r r', (r < M)%nat -> (r' < M)%nat -> r <> r' -> row r <> row r') by (intros r r' Hr Hr' Hne; destruct (Hm r Hr), (Hm r' Hr'); specialize (Hs r r' Hr Hr' Hne); unfold row; destruct (s_flip s); lia).
  assert (Hother0 : forall q, (q < n / 2 + 1)%nat -> (forall r, (r < M)%nat -> q <> row r) -> el Tx q j = C0) by (intros q Hq Hne; apply V2; [lia|exact Hne]).
  split.
  - intros r Hr. rewrite Sc by lia.
    rewrite (component_is_band Tx cc cw ys EI Hpre r j (fun q => (el cc j r - el cw j r <=? Z.of_nat q)%Z && (Z.of_nat q <=? el cc j r + el cw j r)%Z)).
    + rewrite RT. rewrite (Rsum_single _ _ (row r) (Hrow r Hr)).
      * destruct (Hband j r Hj Hr) as [B1 B2]. assert (Eb : (el cc j r - el cw j r <=? Z.of_nat (row r))%Z && (Z.of_nat (row r) <=? el cc j r + el cw j r)%Z = true) by lia. rewrite Eb.
        rewrite V1 by exact Hr. rewrite Hhop1, Nat.mul_1_l. unfold bin_phase, cis, Re, Cmul, RtoC. cbn [fst snd]. field. exact Hg'.
      * intros q Hq Hne. destruct ((el cc j r - el cw j r <=? Z.of_nat q)%Z && (Z.of_nat q <=? el cc j r + el cw j r)%Z) eqn:Eb; [|reflexivity].
        rewrite Hother0; [reflexivity|exact Hq|]. intros r' Hr' ->. destruct (Nat.eq_dec r' r) as [ ->|Hd']; [contradiction|]. specialize (Hother j r r' Hj Hr Hr' Hd'). lia.
    + lia.
    + lia.
    + intros q Hq. destruct (Hband j r Hj Hr). unfold covers. lia.
  - rewrite Sc by lia. replace M with (ncols cc) at 1.
    rewrite (residual_is_rest Tx cc cw ys EI Hpre j (fun q => existsb (fun r => (el cc j r - el cw j r <=? Z.of_nat q)%Z && (Z.of_nat q <=? el cc j r + el cw j r)%Z) (seq 0 M))).
    + rewrite Rsum_0; [ring|]. intros q Hq. rewrite RT in Hq. destruct (existsb _ _) eqn:Eb; [reflexivity|]. rewrite Hother0; [reflexivity|exact Hq|]. intros r Hr ->.
      assert (Et : existsb (fun r0 => (el cc j r0 - el cw j r0 <=? Z.of_nat (row r))%Z && (Z.of_nat (row r) <=? el cc j r0 + el cw j r0)%Z) (seq 0 M) = true).
      { apply existsb_exists. exists r. split; [apply in_seq; lia|]. destruct (Hband j r Hj Hr). lia. }
      congruence.
    + lia.
    + intros q Hq. rewrite existsb_exists. split.
      * intros (r & Ir & Er). apply in_seq in Ir. exists r. split; [lia|]. destruct (Hband j r Hj ltac:(lia)). unfold covers. lia.
      * intros (r & Hr & Hcv). exists r. split; [apply in_seq; lia|]. unfold covers in Hcv. lia.
Qed.

Theorem chord_issq_all nf wl f32 : a_hop a = 1%Z -> nth (n / 2) w 0 <> 0 ->
  or_default nf (2 * Z.of_nat (n / 2))%Z = Z.of_nat n -> get_window (a_window a) (or_default wl (Z.of_nat n)) (Z.of_nat n) = Ok w ->
  exists Tx Sx f y, ssq_stft ord x a fs t s = Ok (Tx, Sx, f, Sfs) /\
    issq_stft Tx (a_window a) None nf wl 1 true f32 = Ok (One y) /\ length y = length x /\
    forall j, (j < length x)%nat -> clean x a n j -> nth j y 0 = rate * nth j x 0.
Proof.
  intros H1 Hg' Hnf' Hw'. destruct chord_ssq as (Tx & Sx & f & E & RT & CT & _ & V).
  pose proof Hrun as (Ho & Hx & U & Hfs & Hd & Hn & He & Hn62 & Hmod & Hb & (Hm & Hs) & _). pose proof U as (U1 & _ & _ & _ & _ & Hlw & _).
  assert (HN : (1 <= length x)%nat) by (destruct x; [congruence|cbn; lia]).
  assert (HC : ncols Tx = length x) by (rewrite H1 in CT; lia).
  exists Tx, Sx, f, (map (fun y => y * (2 / nth (length w / 2) w 0)) (real_colsum Tx)). split; [exact E|]. split.
  { unfold issq_stft. cbn [negb Z.eqb Pos.eqb]. rewrite RT. replace ((Z.of_nat (n / 2 + 1) - 1) * 2)%Z with (2 * Z.of_nat (n / 2))%Z by lia. rewrite Hnf'.
    rewrite Hw'. cbn [bind]. unfold check_NOLA. destruct (Z.leb_spec 1 0); [lia|]. destruct (Z.gtb_spec 1 (Z.of_nat (length w))); [lia|].
    rewrite Bool.andb_false_r. reflexivity. }
  split; [rewrite map_length; unfold real_colsum; rewrite tab_length; exact HC|].
  intros j Hj Hcl. rewrite (nth_indep _ 0 (0 * (2 / nth (length w / 2) w 0))) by (rewrite map_length; unfold real_colsum; rewrite tab_length; lia).
  rewrite (map_nth (fun y => y * (2 / nth (length w / 2) w 0))). unfold real_colsum. rewrite nth_tab by lia. rewrite RT, Hlw.
  assert (Hhop1 : hop = 1%nat) by (unfold hop; rewrite H1; reflexivity).
  destruct (V j ltac:(lia) Hcl) as [V1 V2].
  assert (Hrow : forall r, (r < M)%nat -> (row r < n / 2 + 1)%nat) by (intros r Hr; destruct (Hm r Hr); unfold row; destruct (s_flip s); lia).
  assert (Hinj : forall r r', (r < M)%nat -> (r' < M)%nat -> r <> r' -> row r <> row r') by (intros r r' Hr Hr' Hne; destruct (Hm r Hr), (Hm r' Hr'); specialize (Hs r r' Hr Hr' Hne); unfold row; destruct (s_flip s); lia).
  rewrite (Rsum_ext _ _ (fun q => Rsum M (fun r => if (q =? row r)%nat then Re (el Tx q j) else 0))).
  - rewrite Rsum_swap. rewrite Hx at 1. unfold bin_chord. rewrite nth_tab by lia. rewrite <- Rsum_scal, <- Rsum_scal_r. apply Rsum_ext. intros r Hr.
    rewrite (Rsum_single _ _ (row r) (Hrow r Hr)).
    + rewrite Nat.eqb_refl, V1 by exact Hr. rewrite Hhop1, Nat.mul_1_l. unfold bin_phase, cis, Re, Cmul, RtoC. cbn [fst snd]. field. exact Hg'.
    + intros q Hq Hne. destruct (Nat.eqb_spec q (row r)); [contradiction|reflexivity].
  - intros q Hq. destruct (existsb (fun r => (q =? row r)%nat) (seq 0 M)) eqn:Eq.
    + apply existsb_exists in Eq. destruct Eq as (r & Ir & Er). apply in_seq in Ir. apply Nat.eqb_eq in Er.
      rewrite (Rsum_single M _ r ltac:(lia)); [rewrite Er, Nat.eqb_refl; reflexivity|]. intros r' Hr' Hne. destruct (Nat.eqb_spec q (row r')); [|reflexivity]. exfalso. apply (Hinj r r'); [lia|lia|congruence|congruence].
    + assert (Hn' : forall r, (r < M)%nat -> q <> row r).
      { intros r Hr Eqr. assert (F : existsb (fun r => (q =? row r)%nat) (seq 0 M) = true) by (apply existsb_exists; exists r; split; [apply in_seq; lia|apply Nat.eqb_eq; exact Eqr]). congruence. }
      rewrite (V2 q ltac:(lia) Hn'). rewrite Rsum_0; [reflexivity|]. intros r Hr. destruct (q =? row r)%nat; reflexivity.
Qed.
End Run.

(** ** the Hann window *)
Lemma hann_usable M A phi m N n pt f32 a0 : (1 <= N)%nat -> (4 <= n)%nat -> pt <> PSymmetric -> usable (bin_chord M A phi m n N) (SA a0 (WArray (hann n)) (Some (Z.of_nat n)) None 1 true pt f32) n (hann n).
Proof.
  intros HN Hn Hpt. assert (Hl : length (bin_chord M A phi m n N) = N) by apply tab_length.
  unfold usable. rewrite Hl. cbn [a_hop a_modulated a_window a_f32 a_padtype]. split; [intros E; rewrite E in Hl; cbn in Hl; lia|]. split; [lia|]. split; [lia|].
  split. { unfold stft_n_fft. cbn [a_n_fft]. destruct (Z.eqb_spec (Z.of_nat n) 0); [lia|reflexivity]. }
  split. { unfold stft_win_len. cbn [a_win_len a_window]. rewrite hann_length. apply hann_window. }
  split; [apply hann_length|]. split; [intros _; lia|left; exact Hpt].
Qed.
Lemma hann_chord_run ord M A phi m N n fs t s rate g pt f32 a0 : pt <> PSymmetric -> valid_order ord -> (1 <= N)%nat ->
  process_fs_and_t fs t N = Ok rate -> EPS64 <= rate / INR n -> Nat.even n = true -> (4 <= n)%nat -> (Z.of_nat n < 2 ^ 62)%Z ->
  bins_apart M m n 1 -> s_freqs s = None -> s_sq s = SqSum -> s_gamma s = Some g -> 0 < g -> (forall r, (r < M)%nat -> g < Rabs (A r) * INR n / 8) ->
  stft_chord_run ord M A phi m (bin_chord M A phi m n N) (SA a0 (WArray (hann n)) (Some (Z.of_nat n)) None 1 true pt f32) fs t s rate n (hann n) 1 g.
Proof.
  intros Hpt Ho HN Hfs Hd He Hn H62 Hap Hfr Hsq Hg Hg0 HA. assert (Hl : length (bin_chord M A phi m n N) = N) by apply tab_length.
  unfold stft_chord_run. rewrite Hl. cbn [a_hop a_modulated a_window a_f32 a_padtype].
  split; [exact Ho|]. split; [reflexivity|]. split; [apply hann_usable; [lia|lia|exact Hpt]|].
  split; [exact Hfs|]. split; [exact Hd|]. split; [lia|]. split; [exact He|]. split; [exact H62|]. split; [reflexivity|].
  split; [apply hann_narrow; lia|]. split; [exact Hap|]. split; [exact Hfr|]. split; [exact Hsq|]. rewrite Hg. split; [reflexivity|].
  split; [lra|]. split; [intros _; exact Hg0|].
  intros r q Hr Hz. specialize (HA r Hr). pose proof (hann_abs n Hn q Hz). replace (Rabs (A r / 2)) with (Rabs (A r) / 2).
  - pose proof (Rabs_pos (A r)). assert (Rabs (A r) / 2 * (INR n / 4) <= Rabs (A r) / 2 * Cabs (wspec n (hann n) q)) by (apply Rmult_le_compat_l; lra). lra.
  - unfold Rdiv. rewrite Rabs_mult, (Rabs_right (/ 2)) by lra. reflexivity.
Qed.

(** 40 samples at 24 Hz of tones at 3 and 8 Hz, [n_fft = 24]; flipped rows *)
Definition duet : list R := bin_chord 2 (fun r => if (r =? 0)%nat then 1 else 2) (fun r => if (r =? 0)%nat then 0 else 1 / 2) (fun r => if (r =? 0)%nat then 3%nat else 8%nat) 24 40.
Lemma duet_run ord gw : valid_order ord ->
  stft_chord_run ord 2 (fun r => if (r =? 0)%nat then 1 else 2) (fun r => if (r =? 0)%nat then 0 else 1 / 2) (fun r => if (r =? 0)%nat then 3%nat else 8%nat) duet
    (SA 1 (WArray (hann 24)) (Some 24%Z) None 1 true PReflect false) (Some 24) None (SS None SqSum (Some (1 / 100)) true gw true) 24 24 (hann 24) 1 (1 / 100).
Proof.
  intros Ho. apply (hann_chord_run ord 2 _ _ _ 40 24); try reflexivity; try lia; try discriminate; try exact Ho.
  - unfold process_fs_and_t. destruct (Rle_dec 24 0); [lra|reflexivity].
  - cbn [INR]. unfold EPS64. lra.
  - split.
    + intros [|[|r]] Hr; cbn; lia.
    + intros [|[|r]] [|[|r']] Hr Hr' Hne; cbn; lia.
  - lra.
  - intros [|[|r]] Hr; cbn [Nat.eqb INR]; rewrite Rabs_right; lra.
Qed.
Lemma duet_apart ord gw : valid_order ord -> exists Tx Sx f xs,
  ssq_stft ord duet (SA 1 (WArray (hann 24)) (Some 24%Z) None 1 true PReflect false) (Some 24) None (SS None SqSum (Some (1 / 100)) true gw true) = Ok (Tx, Sx, f, make_Sfs 13 24) /\
  issq_stft Tx (WArray (hann 24)) (Some (Mat 40 2 (fun _ r => if (r =? 0)%nat then 9%Z else 4%Z), Mat 40 2 (fun _ _ => 1%Z))) None (Some 24%Z) 1 true false = Ok (Many xs) /\
  length xs = 3%nat /\
  forall j, (12 <= j <= 28)%nat -> nth j (nth 0 xs []) 0 = 24 * cos (PI * INR j / 4) /\ nth j (nth 1 xs []) 0 = 48 * cos (2 * PI * INR j / 3 + 1 / 2) /\ nth j (nth 2 xs []) 0 = 0.
Proof.
  intros Ho. destruct (chord_issq ord 2 _ _ _ _ _ _ _ _ _ _ _ _ _ (duet_run ord gw Ho) None (Some 24%Z) false
    (Mat 40 2 (fun _ r => if (r =? 0)%nat then 9%Z else 4%Z)) (Mat 40 2 (fun _ _ => 1%Z))) as (Tx & Sx & f & xs & E & EI & Lx & V); try reflexivity; try lia.
  - change (24 / 2)%nat with (24 / 2)%nat. rewrite hann_centre by (try reflexivity; lia). lra.
  - intros j r Hj Hr. change (length duet) with 40%nat in Hj. cbn [el]. destruct r as [|[|r]]; cbn; lia.
  - intros j r r' Hj Hr Hr' Hne. change (length duet) with 40%nat in Hj. cbn [el]. destruct r as [|[|r]], r' as [|[|r']]; cbn; lia.
  - exists Tx, Sx, f, xs. split; [exact E|]. split; [exact EI|]. split; [exact Lx|]. intros j Hj.
    destruct (V j) as [V1 V2]; [change (length duet) with 40%nat; lia|left; unfold interior; change (length duet) with 40%nat; change (24 / 2)%nat with 12%nat; cbn [a_hop]; change (Z.to_nat 1) with 1%nat; lia|].
    rewrite (V1 0%nat), (V1 1%nat), V2 by lia. cbn [Nat.eqb]. split; [|split; [|reflexivity]].
    + replace (2 * PI * INR 3 * INR j / INR 24 + 0) with (PI * INR j / 4) by (cbn [INR]; field). ring.
    + replace (2 * PI * INR 8 * INR j / INR 24 + 1 / 2) with (2 * PI * INR j / 3 + 1 / 2) by (cbn [INR]; field). ring.
Qed.

(** ** two bins apart, the Hann lobes share the bin between *)
Lemma hann_side n (Hn : (4 <= n)%nat) : Nat.even n = true -> wspec n (hann n) 1 = RtoC (INR n / 4) /\ wspec n (hann n) (-1) = RtoC (INR n / 4).
Proof.
  intros He. assert (Ht : forall d, tw n (Z.of_nat d * Z.of_nat (n / 2)) = cis (PI * INR d)).
  { intros d. unfold tw. apply Nat.even_spec in He. destruct He as [p Ep]. replace (n / 2)%nat with p by lia. rewrite Ep. rewrite mult_IZR, <- !INR_IZR_INZ, mult_INR. f_equal. cbn [INR]. field. apply not_0_INR. lia. }
  assert (0 < INR n) by (apply lt_0_INR; lia).
  split.
  - change 1%Z with (Z.of_nat 1). rewrite wspec_dft, hann_spec by lia. cbn [Nat.eqb orb]. rewrite Ht. cbn [INR]. rewrite Rmult_1_r. unfold cis. rewrite cos_PI, sin_PI. apply C_eq; unfold Cmul, RtoC; cbn; ring.
  - rewrite <- (wspec_period n ltac:(lia) (hann n) (-1) 1). replace (-1 + Z.of_nat n * 1)%Z with (Z.of_nat (n - 1)) by lia. rewrite wspec_dft, hann_spec by lia.
    destruct (Nat.eqb_spec (n - 1) 0); [lia|]. rewrite Nat.eqb_refl, Bool.orb_true_r. rewrite Ht. rewrite minus_INR by lia. cbn [INR].
    apply Nat.even_spec in He. destruct He as [p Ep]. replace (PI * (INR n - 1)) with (- PI + 2 * INR p * PI) by (rewrite Ep, mult_INR; cbn [INR]; ring).
    unfold cis. rewrite cos_period, sin_period, cos_neg, sin_neg, cos_PI, sin_PI. apply C_eq; unfold Cmul, RtoC; cbn; ring.
Qed.

Lemma hann_mid n (Hn : (4 <= n)%nat) : wspec n (hann n) 0 = RtoC (INR n / 2).
Proof. change 0%Z with (Z.of_nat 0). rewrite wspec_dft, hann_spec by lia. cbn [Nat.eqb]. rewrite Z.mul_0_l, tw_0 by lia. ring. Qed.
Lemma hann_16 q : (Z.abs q <= 14)%Z -> wspec 16 (hann 16) q = RtoC (if (q =? 0)%Z then 8 else if (Z.abs q =? 1)%Z then 4 else 0).
Proof.
  intros Hq. destruct (hann_side 16 ltac:(lia) eq_refl) as [S1 S2]. destruct (Z.eqb_spec q 0) as [ ->|]; [rewrite hann_mid by lia; f_equal; cbn [INR]; lra|].
  destruct (Z.eqb_spec (Z.abs q) 1).
  - assert (E : q = 1%Z \/ q = (-1)%Z) by lia. destruct E as [ ->| ->]; [rewrite S1|rewrite S2]; f_equal; cbn [INR]; lra.
  - apply (narrow_far [] (SA 1 (WArray (hann 16)) None None 1 true PReflect false) 16 (hann 16) 1 ltac:(lia) ltac:(apply hann_narrow; lia)); lia.
Qed.

(** 32 samples of equal tones in bins 2 and 4 of 16, at sample 8 *)
Theorem shared_bin_refuted : exists A phi m x a s n Tx Sx f h, x = bin_chord 2 A phi m n (length x) /\ (forall r, (r < 2)%nat -> (1 < m r)%nat /\ (2 * m r + 2 < n)%nat) /\ m 0%nat <> m 1%nat /\
  a_window a = WArray (hann n) /\ ssq_stft serial_order x a (Some 1) None s = Ok (Tx, Sx, f, make_Sfs (n / 2 + 1) 1) /\
  s_flip s = false /\ interior n (length x) 1 h /\ (h < ncols Tx)%nat /\
  el Tx (m 0%nat) h = Cmul (RtoC (3 / 4 * (A 0%nat / 2))) (bin_phase (phi 0%nat) (m 0%nat) n h) /\
  el Tx (m 0%nat) h <> Cmul (RtoC (A 0%nat / 2)) (bin_phase (phi 0%nat) (m 0%nat) n h).
Proof.
  set (A := fun _ : nat => 1). set (phi := fun _ : nat => 0). set (m := fun r : nat => if (r =? 0)%nat then 2%nat else 4%nat).
  set (x := bin_chord 2 A phi m 16 32). set (a := SA 1 (WArray (hann 16)) (Some 16%Z) None 1 true PReflect false).
  set (s := SS None SqSum (Some (1 / 100)) false false true).
  assert (Hm : forall r, (r < 2)%nat -> (1 < m r)%nat /\ (2 * m r + 2 * 1 < 16)%nat) by (intros [|[|r]] Hr; cbn; lia).
  assert (Hl : length x = 32%nat) by apply tab_length.
  destruct (chord_stft 2 A phi m x a 16 (hann 16) 1) as (Sx & dSx & ES & RS & CS & V); try reflexivity; try lia; try exact Hm; try (apply hann_narrow; lia).
  { apply (hann_usable 2 A phi m 32 16 PReflect false 1); [lia|lia|discriminate]. }
  rewrite Hl in CS. change (a_hop a) with 1%Z in CS. rewrite Z.div_1_r in CS. assert (HC : ncols Sx = 32%nat) by lia.
  assert (B : forall r, (r < 2)%nat -> bin_phase (phi r) (m r) 16 8 = C1).
  { intros [|[|r]] Hr; [| |lia]; unfold bin_phase, phi, m; cbn [Nat.eqb INR].
    - match goal with |- cis ?u = _ => replace u with (0 + 2 * INR 1 * PI) by (cbn [INR]; field) end. unfold cis. rewrite cos_period, sin_period, cos_0, sin_0. reflexivity.
    - match goal with |- cis ?u = _ => replace u with (0 + 2 * INR 2 * PI) by (cbn [INR]; field) end. unfold cis. rewrite cos_period, sin_period, cos_0, sin_0. reflexivity. }
  assert (I8 : interior 16 32 1 8) by (unfold interior; cbn; lia).
  set (sv := fun k => match k with 1%nat => 2 | 2%nat => 4 | 3%nat => 4 | 4%nat => 4 | 5%nat => 2 | _ => 0 end).
  set (Mb := fun k (_ : nat) => match k with 1%nat => 2%nat | 2%nat => 2%nat | 3%nat => 3%nat | 4%nat => 4%nat | 5%nat => 4%nat | _ => 8%nat end).
  assert (P : forall k, (k <= 8)%nat -> el Sx k 8%nat = RtoC (sv k) /\ el dSx k 8%nat = Cmul (0, 2 * PI * ((INR k - INR (Mb k 8%nat)) / 16)) (RtoC (sv k))).
  { intros k Hk. destruct (V 8%nat k ltac:(lia) ltac:(left; rewrite Hl; exact I8) ltac:(cbn; lia)) as [V1 V2]. rewrite V1, V2. cbn [Csum]. unfold part. change (Z.to_nat (a_hop a) * 8)%nat with 8%nat. rewrite !B by lia.
    unfold A, m. cbn [Nat.eqb]. rewrite !hann_16 by lia. change (a_fs a) with 1.
    do 9 (destruct k as [|k]; [cbn -[Rmult Rplus Rdiv PI RtoC Cmul Cadd C0 C1 IZR]; split; apply C_eq; unfold Cadd, Cmul, RtoC, C0, C1; cbn [fst snd]; field|]). lia. }
  destruct (located serial_order x a (Some 1) None s 1 16 (1 / 100) Sx dSx Mb (fun h => h = 8%nat)) as (Tx & f & ET & RT & CT & Lf & Hf & VT); try reflexivity; try lia; try exact RS.
  - apply serial_order_valid.
  - unfold process_fs_and_t. destruct (Rle_dec 1 0); [lra|reflexivity].
  - cbn [INR]. unfold EPS64. lra.
  - exact ES.
  - lra.
  - intros _. lra.
  - intros h k Hh -> Hk. pose proof (make_Sfs_even 16 1 k ltac:(lia) eq_refl Hk) as EF. change (16 / 2)%nat with 8%nat in *. split; [unfold Mb; do 6 (destruct k as [|k]; [lia|]); lia|]. intros Hnz. destruct (P k Hk) as [P1 P2].
    rewrite P2, <- P1. rewrite phase_stft_factor by exact Hnz. rewrite EF.
    replace (INR k * (1 / INR 16) - (INR k - INR (Mb k 8%nat)) / 16) with (INR (Mb k 8%nat) * (1 / INR 16)) by (replace (INR 16) with 16 by (cbn; ring); field).
    apply Rabs_right, Rle_ge, Rmult_le_pos; [apply pos_INR|]. replace (INR 16) with 16 by (cbn; ring). lra.
  - assert (ET8 : el Tx 2 8 = RtoC (3 / 8)).
    { rewrite (VT 8%nat 2%nat ltac:(lia) eq_refl ltac:(cbn; lia)). change (16 / 2 + 1)%nat with 9%nat. cbn [Csum]. change (s_flip s) with false. change (s_get_w s) with false. cbv iota.
      destruct (P 0%nat ltac:(lia)) as [E0 _], (P 1%nat ltac:(lia)) as [E1 _], (P 2%nat ltac:(lia)) as [E2 _]. rewrite E1, E2. unfold Mb, sv, kept. cbn [Nat.eqb andb]. rewrite !Cabs_RtoC, !Rabs_right by lra.
      destruct (Rlt_dec (1 / 100) 2); [|lra]. destruct (Rlt_dec (1 / 100) 4); [|lra].
      apply C_eq; unfold Cadd, Cmul, RtoC, C0; cbn [fst snd]; replace (INR 16) with 16 by (cbn; ring); field. }
    exists A, phi, m, x, a, s, 16%nat, Tx, Sx, f, 8%nat. split; [rewrite Hl; reflexivity|]. split; [intros r Hr; specialize (Hm r Hr); lia|]. split; [discriminate|]. split; [reflexivity|].
    split; [exact ET|]. split; [reflexivity|]. split; [rewrite Hl; exact I8|]. split; [rewrite CT; lia|]. rewrite B by lia. change (m 0%nat) with 2%nat. rewrite ET8. unfold A.
    split; [apply C_eq; unfold Cmul, RtoC, C1; cbn [fst snd]; field|]. intros E. apply (f_equal fst) in E. unfold Cmul, RtoC, C1 in E. cbn [fst snd] in E. lra.
Qed.
