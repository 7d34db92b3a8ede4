(** [ssq_stft], [extract_ridges], [issq_stft]: from a chord to its tones. *)
From Coq Require Import ZifyBool ZifyNat.
From Verif Require Import Py Round Padding Parallel Cplx CplxProofs Buffer Freqs Stft StftProofs WindowProofs
  Squeeze SqueezeProofs SqueezeThms SqueezeThms2 SqueezeThms3 Scales Ssqueeze SsqueezeProofs SsqThms CwtTone IssqProofs StftTone StftToneThms StftToneWitness StftMap StftChord StftChordThms
  Ridge RidgeProofs RidgeOpt RidgeThms RidgeCurve RidgeWitness RidgeBand ChordRidge.
Local Open Scope R_scope.
Ltac Zify.zify_post_hook ::= Z.div_mod_to_equations.

Definition stft_row (s : ssq_stft_opts) (n m : nat) : nat := if s_flip s then (n / 2 - m)%nat else m.

Section Ridge.
Variables (ord : order) (M : nat) (A phi : nat -> R) (m : nat -> nat) (x : list R) (a : stft_args) (fs : option R) (t : option (list R))
  (s : ssq_stft_opts) (rate : R) (n : nat) (w : list R) (b : nat) (g : R).
Variables (Tx Sx : mat C) (f Sfs : list R).
Variables (par : option ridge_scheds) (f64 cwt : bool) (scales : list R) (penalty : R) (bw : Z) (o : list (list nat * list R * list R)) (ratio : R).
Let row r := stft_row s n (m r).
Hypothesis Hrun : stft_chord_run ord M A phi m x a fs t s rate n w b g.
Hypothesis Hhop : a_hop a = 1%Z.
Hypothesis Hwrap : a_padtype a = PWrap.
Hypothesis Hmult : (length x mod n = 0)%nat.
Hypothesis Hmid : nth (n / 2) w 0 <> 0.
Hypothesis HT : ssq_stft ord x a fs t s = Ok (Tx, Sx, f, Sfs).
Hypothesis Ho : extract_ridges par f64 Tx scales penalty M bw cwt = Ok o.
Hypothesis Hs : sched_ok (n / 2 + 1) par.
Hypothesis Hpen : 0 <= penalty.
Hypothesis Hbw : (0 < bw)%Z.
Hypothesis Hin : forall r, (r < M)%nat -> (bw <= Z.of_nat (row r))%Z.
Hypothesis Hsep : forall r r', (r < r')%nat -> (r' < M)%nat -> (bw < Z.abs (Z.of_nat (m r') - Z.of_nat (m r)))%Z.
Hypothesis Hratio : 0 <= ratio <= 1.
Hypothesis Hamp : forall r, (r < M)%nat -> A r <> 0.
Hypothesis Hord : forall r r', (r < r')%nat -> (r' < M)%nat -> Rabs (A r') <= ratio * Rabs (A r).
Hypothesis Hgap : INR (length x - 1) * eps_of f64 < ln ((1 + eps_of f64) / (ratio ^ 2 + eps_of f64)).

Lemma ridge_cells : nrows Tx = (n / 2 + 1)%nat /\ ncols Tx = length x /\ (forall r, (r < M)%nat -> (row r < n / 2 + 1)%nat /\ (row r < length x)%nat) /\
  (forall r r', (r < M)%nat -> (r' < M)%nat -> r <> r' -> (bw < Z.abs (Z.of_nat (row r') - Z.of_nat (row r)))%Z) /\
  forall j, (j < length x)%nat ->
    (forall r, (r < M)%nat -> energy Tx (row r) j = (rate * nth (n / 2) w 0 * (A r / 2)) ^ 2) /\
    (forall q, (q <= n / 2)%nat -> (forall r, (r < M)%nat -> q <> row r) -> energy Tx q j = 0).
Proof.
  destruct (chord_ssq ord M A phi m x a fs t s rate n w b g Hrun) as (Tx' & Sx' & f' & E & RT & CT & _ & V). rewrite HT in E. injection E as <- <- <- _.
  pose proof Hrun as (_ & _ & (U1 & _) & _ & _ & Hn & _ & _ & _ & _ & (Hm & Hap) & _).
  assert (HN : (1 <= length x)%nat) by (destruct x; [congruence|cbn; lia]). rewrite Hhop in CT.
  assert (Hnx : (n <= length x)%nat) by (pose proof (Nat.div_mod (length x) n ltac:(lia)) as Q; rewrite Hmult in Q; destruct (length x / n)%nat; nia).
  split; [exact RT|]. split; [lia|]. split; [intros r Hr; destruct (Hm r Hr); unfold row, stft_row; destruct (s_flip s); lia|]. split.
  { intros r r' Hr Hr' Hne. destruct (Hm r Hr), (Hm r' Hr'). unfold row, stft_row. destruct (Nat.lt_ge_cases r r') as [K|K]; [pose proof (Hsep r r' K Hr')|pose proof (Hsep r' r ltac:(lia) Hr)]; destruct (s_flip s); lia. }
  intros j Hj. destruct (V j ltac:(lia)) as [V1 V2]; [right; split; assumption|]. split.
  - intros r Hr. specialize (V1 r Hr). fold (stft_row s n (m r)) in V1. fold (row r) in V1. unfold energy. rewrite V1, Cabs_mul, bin_phase_abs, Cabs_RtoC, Rmult_1_r. rewrite pow2_abs. reflexivity.
  - intros q Hq Hne. unfold energy. rewrite V2; [rewrite Cabs_0; ring|exact Hq|exact Hne].
Qed.

Theorem stft_ridges r j : (r < M)%nat -> (j < length x)%nat -> nth j (r_idx (nth r o ridge0)) 0%nat = row r /\
  nth j (r_freq (nth r o ridge0)) 0 = nth (row r) scales 0 /\ nth j (r_energy (nth r o ridge0)) 0 = (rate * nth (n / 2) w 0 * (A r / 2)) ^ 2.
Proof.
  intros Hr Hj. destruct ridge_cells as (RT & CT & Hrow & Hfar & V).
  pose proof Hrun as (_ & _ & _ & _ & Hd & Hn & _). assert (Hr0 : 0 < rate) by (pose proof EPS64_pos; assert (0 < INR n) by (apply lt_0_INR; lia); apply (Rmult_lt_reg_r (/ INR n)); [apply Rinv_0_lt_compat; lra|]; rewrite Rmult_0_l; fold (rate / INR n); lra).
  assert (X : let p := nth j (r_idx (nth r o ridge0)) 0%nat in close_rows 0 p (row r) /\ nth j (r_freq (nth r o ridge0)) 0 = nth p scales 0 /\ nth j (r_energy (nth r o ridge0)) 0 = energy Tx p j).
  { refine (bands_found par f64 Tx scales penalty M bw cwt o (fun r _ => row r) 0%nat (ratio ^ 2) 0 Ho _ Hpen _ _ _ _ _ r j Hr _).
    - rewrite RT. exact Hs.
    - split; [split; [apply pow2_ge_0|]; replace 1 with (1 ^ 2) by ring; apply pow_incr; exact Hratio|]. split; [lia|].
      intros k u Hk Hu. rewrite CT in Hu. destruct (V u Hu) as [V1 V2]. destruct (Hrow k Hk) as [K1 K2]. rewrite RT. split; [specialize (Hin k Hk); lia|].
      split; [intros l Hl; specialize (Hfar l k ltac:(lia) Hk ltac:(lia)); lia|]. exists (row k). split; [lia|]. split; [unfold close_rows; lia|]. rewrite V1 by exact Hk.
      assert (Hnz : rate * nth (n / 2) w 0 * (A k / 2) <> 0) by (pose proof (Hamp k Hk); repeat apply Rmult_integral_contrapositive_currified; try assumption; lra).
      split; [rewrite <- Rsqr_pow2; apply Rsqr_pos_lt; exact Hnz|]. split.
      + intros q Hq Hc. assert (q = row k) by (unfold close_rows in Hc; lia). subst q. rewrite V1 by exact Hk. lra.
      + intros q Hq Hc. destruct (existsb (fun r => (q =? row r)%nat) (seq 0 M)) eqn:Ex.
        * apply existsb_exists in Ex. destruct Ex as (l & Il & El). apply in_seq in Il. apply Nat.eqb_eq in El. subst q. rewrite V1 by lia.
          assert (Hlt : (k < l)%nat). { destruct (Nat.lt_ge_cases k l) as [|K]; [assumption|]. exfalso. apply (Hc l K). unfold close_rows. lia. }
          specialize (Hord k l Hlt ltac:(lia)). rewrite !Rpow_mult_distr. unfold Rdiv. rewrite !Rpow_mult_distr. rewrite <- (pow2_abs (A l)), <- (pow2_abs (A k)).
          assert (Rabs (A l) ^ 2 <= ratio ^ 2 * Rabs (A k) ^ 2) by (rewrite <- Rpow_mult_distr; apply pow_incr; split; [apply Rabs_pos|exact Hord]).
          set (q2 := rate ^ 2 * nth (n / 2) w 0 ^ 2). assert (0 <= q2) by (unfold q2; apply Rmult_le_pos; apply pow2_ge_0).
          assert (q2 * Rabs (A l) ^ 2 <= q2 * (ratio ^ 2 * Rabs (A k) ^ 2)) by (apply Rmult_le_compat_l; assumption). pose proof (pow2_ge_0 (/ 2)). nra.
        * rewrite V2; [|lia|].
          -- apply Rmult_le_pos; [apply pow2_ge_0|]. apply pow2_ge_0.
          -- intros l Hl El. assert (existsb (fun r => (q =? row r)%nat) (seq 0 M) = true) by (apply existsb_exists; exists l; split; [apply in_seq; lia|apply Nat.eqb_eq; exact El]). congruence.
    - intros k u p q Hk Hu Hp Hq Cp Cq. assert (p = q) by (unfold close_rows in *; lia). subst q. unfold jump. rewrite Rminus_eq_0. lra.
    - lra.
    - rewrite CT. lra.
    - intros k Hk. rewrite CT. destruct (Hrow k Hk). lia.
    - rewrite CT. exact Hj. }
  cbv zeta in X. destruct X as (X1 & X2 & X3). assert (Ei : nth j (r_idx (nth r o ridge0)) 0%nat = row r) by (unfold close_rows in X1; lia). rewrite Ei in *.
  split; [reflexivity|]. split; [exact X2|]. rewrite X3. apply V; assumption.
Qed.

Theorem stft_ridges_recovered nf wl f32 v : (0 < M)%nat -> or_default nf (2 * Z.of_nat (n / 2))%Z = Z.of_nat n -> get_window (a_window a) (or_default wl (Z.of_nat n)) (Z.of_nat n) = Ok w ->
  (0 <= v <= bw)%Z -> exists xs, issq_stft Tx (a_window a) (Some (ridge_cc (length x) M o, Mat (length x) M (fun _ _ => v))) nf wl 1 true f32 = Ok (Many xs) /\ length xs = S M /\
  forall j, (j < length x)%nat -> (forall r, (r < M)%nat -> nth j (nth r xs []) 0 = rate * (A r * cos (2 * PI * INR (m r) * INR j / INR n + phi r))) /\ nth j (nth M xs []) 0 = 0.
Proof.
  intros HM Hnf Hw Hv. destruct ridge_cells as (RT & CT & Hrow & Hfar & _).
  destruct (chord_issq ord M A phi m x a fs t s rate n w b g Hrun nf wl f32 (ridge_cc (length x) M o) (Mat (length x) M (fun _ _ => v)) Hhop Hmid HM Hnf Hw) as (Tx' & Sx' & f' & xs & E & EI & Lx & V); try reflexivity.
  - intros j r Hj Hr. unfold ridge_cc. cbn [el]. destruct (stft_ridges r j Hr Hj) as [E _]. rewrite E. fold (stft_row s n (m r)). fold (row r). lia.
  - intros j r r' Hj Hr Hr' Hne. unfold ridge_cc. cbn [el]. destruct (stft_ridges r j Hr Hj) as [E _]. rewrite E. fold (stft_row s n (m r')). fold (row r'). specialize (Hfar r r' Hr Hr' ltac:(congruence)). lia.
  - rewrite HT in E. injection E as <- <- <- _. exists xs. split; [exact EI|]. split; [exact Lx|]. intros j Hj. apply V; [exact Hj|]. right. split; assumption.
Qed.
End Ridge.

(** 48 samples at 24 Hz: a tone at 8 Hz and one at 4 Hz half as loud; [bw = 2] *)
Definition duo_A (r : nat) : R := match r with O => 1 | _ => 1 / 2 end.
Definition duo_phi (r : nat) : R := match r with O => 0 | _ => 1 end.
Definition duo_m (r : nat) : nat := match r with O => 8%nat | _ => 4%nat end.
Definition duo : list R := bin_chord 2 duo_A duo_phi duo_m 24 48.
Lemma ridge_case ord gw par : valid_order ord -> (forall F, sched_ok F par) -> exists Tx Sx f o xs,
  ssq_stft ord duo (SA 1 (WArray (hann 24)) (Some 24%Z) None 1 true PWrap false) (Some 24) None (SS None SqSum (Some (1 / 100)) false gw true) = Ok (Tx, Sx, f, make_Sfs 13 24) /\
  extract_ridges par true Tx (make_Sfs 13 24) 20 2 2 false = Ok o /\
  (forall j, (j < 48)%nat -> nth j (r_freq (nth 0 o ridge0)) 0 = 8 /\ nth j (r_freq (nth 1 o ridge0)) 0 = 4) /\
  issq_stft Tx (WArray (hann 24)) (Some (ridge_cc 48 2 o, Mat 48 2 (fun _ _ => 1%Z))) None (Some 24%Z) 1 true false = Ok (Many xs) /\
  forall j, (j < 48)%nat -> nth j (nth 0 xs []) 0 = 24 * cos (2 * PI * INR j / 3) /\ nth j (nth 1 xs []) 0 = 12 * cos (PI * INR j / 3 + 1) /\ nth j (nth 2 xs []) 0 = 0.
Proof.
  intros Ho Hpar. set (a := SA 1 (WArray (hann 24)) (Some 24%Z) None 1 true PWrap false). set (s := SS None SqSum (Some (1 / 100)) false gw true).
  assert (Hrun : stft_chord_run ord 2 duo_A duo_phi duo_m duo a (Some 24) None s 24 24 (hann 24) 1 (1 / 100)).
  { apply (hann_chord_run ord 2 _ _ _ 48 24); try reflexivity; try lia; try discriminate; try exact Ho.
    - unfold process_fs_and_t. destruct (Rle_dec 24 0); [lra|reflexivity].
    - cbn [INR]. unfold EPS64. lra.
    - split.
      + intros [|[|r]] Hr; cbn; lia.
      + intros [|[|r]] [|[|r']] Hr Hr' Hne; cbn; lia.
    - lra.
    - intros [|[|r]] Hr; cbn [duo_A INR]; rewrite Rabs_right; lra. }
  assert (Hl : length duo = 48%nat) by apply tab_length.
  destruct (chord_ssq _ _ _ _ _ _ _ _ _ _ _ _ _ _ _ Hrun) as (Tx & Sx & f & E & RT & CT & _). rewrite Hl in CT. cbn [a_hop a] in CT. rewrite Z.div_1_r in CT.
  destruct (extract_ridges par true Tx (make_Sfs 13 24) 20 2 2 false) as [o|] eqn:EO.
  2:{ exfalso. unfold extract_ridges in EO. rewrite RT in EO. assert (Hc : (ncols Tx =? 0)%nat = false) by lia. rewrite Hc in EO.
      change (24 / 2 + 1)%nat with 13%nat in EO. assert (Hsf : (length (make_Sfs 13 24) =? 13)%nat = true) by (unfold make_Sfs, linspace; rewrite tab_length; reflexivity). rewrite Hsf in EO. cbn [negb orb andb Nat.eqb] in EO. discriminate. }
  assert (Hmid : nth (24 / 2) (hann 24) 0 <> 0) by (rewrite hann_centre by (try reflexivity; lia); lra).
  assert (Hin : forall r, (r < 2)%nat -> (2 <= Z.of_nat (stft_row s 24 (duo_m r)))%Z) by (intros [|[|r]] Hr; cbn; lia).
  assert (Hsep : forall r r', (r < r')%nat -> (r' < 2)%nat -> (2 < Z.abs (Z.of_nat (duo_m r') - Z.of_nat (duo_m r)))%Z) by (intros [|[|r]] [|[|r']] H1 H2; cbn; lia).
  assert (Hamp : forall r, (r < 2)%nat -> duo_A r <> 0) by (intros [|[|r]] Hr; cbn; lra).
  assert (Hord : forall r r', (r < r')%nat -> (r' < 2)%nat -> Rabs (duo_A r') <= 1 / 2 * Rabs (duo_A r)) by (intros [|[|r]] [|[|r']] H1 H2; try lia; cbn; rewrite !Rabs_right by lra; lra).
  assert (Hgap : INR (length duo - 1) * eps_of true < ln ((1 + eps_of true) / ((1 / 2) ^ 2 + eps_of true))).
  { rewrite Hl. change (48 - 1)%nat with 47%nat. replace (INR 47) with 47 by (rewrite INR_IZR_INZ; reflexivity). cbn [eps_of]. unfold EPS64. set (e := / _). assert (He : 0 < e < 1 / 1000) by (unfold e; split; [apply Rinv_0_lt_compat; lra|lra]).
    apply Rlt_le_trans with (ln 2).
    - pose proof ln_lt_2. lra.
    - assert (2 <= (1 + e) / ((1 / 2) ^ 2 + e)) by (apply (Rmult_le_reg_r ((1 / 2) ^ 2 + e)); [lra|]; unfold Rdiv; rewrite Rmult_assoc, Rinv_l by lra; lra).
      destruct H as [H|H]; [left; apply ln_increasing; lra|right; rewrite <- H; reflexivity]. }
  pose proof (stft_ridges ord 2 duo_A duo_phi duo_m duo a (Some 24) None s 24 24 (hann 24) 1 (1 / 100) Tx Sx f _ par true false (make_Sfs 13 24) 20 2 o (1 / 2)
    Hrun eq_refl eq_refl eq_refl Hmid E EO (Hpar _) ltac:(lra) ltac:(lia) Hin Hsep ltac:(lra) Hamp Hord Hgap) as Rg.
  destruct (stft_ridges_recovered ord 2 duo_A duo_phi duo_m duo a (Some 24) None s 24 24 (hann 24) 1 (1 / 100) Tx Sx f _ par true false (make_Sfs 13 24) 20 2 o (1 / 2)
    Hrun eq_refl eq_refl eq_refl Hmid E EO (Hpar _) ltac:(lra) ltac:(lia) Hin Hsep ltac:(lra) Hamp Hord Hgap None (Some 24%Z) false 1 ltac:(lia) eq_refl) as (xs & EI & Lx & V); [reflexivity|lia|].
  rewrite Hl in EI. exists Tx, Sx, f, o, xs. split; [exact E|]. split; [exact EO|]. split.
  { intros j Hj. destruct (Rg 0%nat j ltac:(lia) ltac:(lia)) as (_ & F0 & _). destruct (Rg 1%nat j ltac:(lia) ltac:(lia)) as (_ & F1 & _). rewrite F0, F1. unfold stft_row, s. cbn [s_flip duo_m].
    change 13%nat with (24 / 2 + 1)%nat. rewrite !make_Sfs_even by (try reflexivity; try lia; cbn; lia). rewrite !(INR_IZR_INZ _). cbn. lra. }
  split; [exact EI|]. intros j Hj. destruct (V j ltac:(lia)) as [V1 V2]. rewrite (V1 0%nat), (V1 1%nat), V2 by lia. cbn [duo_A duo_m duo_phi]. split; [|split; [|reflexivity]].
  - replace (2 * PI * INR 8 * INR j / INR 24 + 0) with (2 * PI * INR j / 3) by (cbn [INR]; field). ring.
  - replace (2 * PI * INR 4 * INR j / INR 24 + 1) with (PI * INR j / 3 + 1) by (cbn [INR]; field). field.
Qed.
