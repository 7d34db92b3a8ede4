(** [packed] with a negative overlap. *)
From Coq Require Import Reals Lra Lia ZifyBool ZifyNat.
From Verif Require Import Py Round Cplx CplxProofs Squeeze SqueezeProofs BinProofs Scales SsqueezeProofs ScaleThms FreqRange Search SearchProofs
  Chirp ChirpProofs Signals SignalsThms SignalsThms2 SignalsThms3 JumpsExact.
Local Open Scope R_scope.

(** the even tones leave out the last [m] samples, the odd ones the first [m] *)
Definition leaves (n : nat) (m : Z) (i j : nat) : bool :=
  if Nat.even i then (Z.of_nat j + m <? Z.of_nat n)%Z else (m <=? Z.of_nat j)%Z.
Lemma packed_loop_neg freqs i m t x : (0 < m)%Z ->
  length (packed_loop freqs i (- m) t x) = length x /\
  forall j, (j < length x)%nat -> nth j (packed_loop freqs i (- m) t x) 0 = nth j x 0 +
    Rsum (length freqs) (fun q => if leaves (length x) m (i + q) j then cos (2 * PI * nth q freqs 0 * nth j t 0) else 0).
Proof.
  intros Hm. revert i x. induction freqs as [|f freqs IH]; intros i x.
  { cbn. split; [reflexivity|]. intros. ring. }
  cbn [packed_loop length]. set (x' := if Nat.even i then _ else _).
  assert (Hl : length x' = length x) by (unfold x'; destruct (Nat.even i); apply add_tone_length).
  destruct (IH (S i) x') as (A & B). split; [now rewrite A|]. intros j Hj. rewrite B by lia. rewrite Hl.
  assert (Hx : nth j x' 0 = nth j x 0 + if leaves (length x) m i j then cos (2 * PI * f * nth j t 0) else 0).
  { unfold x', leaves, add_tone, norm_bound. destruct (Nat.even i); rewrite nth_tab by exact Hj.
    - destruct (Z.ltb_spec 0 0); [lia|]. destruct (Z.ltb_spec (- m) 0); [|lia].
      destruct (Z.leb_spec (Z.min 0 (Z.of_nat (length x))) (Z.of_nat j)); [|lia].
      destruct (Z.ltb_spec (Z.of_nat j) (Z.max 0 (- m + Z.of_nat (length x)))), (Z.ltb_spec (Z.of_nat j + m) (Z.of_nat (length x))); cbn [andb]; try lia; ring.
    - destruct (Z.ltb_spec (- - m) 0); [lia|]. destruct (Z.ltb_spec (Z.of_nat (length x)) 0); [lia|].
      destruct (Z.ltb_spec (Z.of_nat j) (Z.min (Z.of_nat (length x)) (Z.of_nat (length x)))); [|lia]. rewrite andb_true_r.
      destruct (Z.leb_spec (Z.min (- - m) (Z.of_nat (length x))) (Z.of_nat j)), (Z.leb_spec m (Z.of_nat j)); try lia; ring. }
  rewrite Hx, Rplus_assoc. f_equal.
  rewrite Rsum_first. rewrite Nat.add_0_r. cbn [nth]. f_equal. apply Rsum_ext. intros q _. now rewrite Nat.add_succ_comm.
Qed.
Theorem packed_negative s N freqs overlap k x t : packed s N freqs overlap k = Ok (x, t) ->
  let n := length t in let No := py_int (overlap * INR n) in let fs := packed_freqs (or_N s N) freqs in
  (No < 0)%Z -> length x = n /\
  forall j, (j < n)%nat -> nth j x 0 =
    Rsum (length fs) (fun i => if leaves n (- No) i j then cos (2 * PI * nth i fs 0 * nth j t 0) else 0).
Proof.
  intros E n No fs HNo. unfold packed in E. destruct (process_params _ _ _ _) as [[[[t0 ?] ?] ?]|]; [|discriminate].
  cbn [bind] in E. injection E as <- Et. subst t0. fold n No fs.
  destruct (packed_loop_neg fs 0 (- No) t (repeat 0 n) ltac:(lia)) as (A & B). rewrite Z.opp_involutive in *. rewrite repeat_length in *.
  split; [exact A|]. intros j Hj. rewrite B by exact Hj. rewrite nth_repeat. rewrite Rplus_0_l. reflexivity.
Qed.
(** [packed(4, [0, 0], overlap=-1/4)]: one tone in the first and last sample, two between *)
Lemma packed_negative_case : exists x t, packed ts0 (Some 4%Z) (Some [0; 0]) (- (1 / 4)) (TK None None None) = Ok (x, t) /\
  length x = 4%nat /\ nth 0 x 0 = 1 /\ nth 1 x 0 = 2 /\ nth 3 x 0 = 1.
Proof.
  destruct (packed ts0 (Some 4%Z) (Some [0; 0]) (- (1 / 4)) (TK None None None)) as [[x t]|] eqn:E; [|discriminate].
  pose proof (packed_negative _ _ _ _ _ _ _ E) as P. cbv zeta in P.
  assert (Hl : length t = 4%nat) by (unfold packed in E; cbn [process_params or_N ts0 times Z.ltb Z.compare bind or_default k_end k_tmin k_tmax d_end d_tmin d_tmax ts_tkw default_tkw] in E;
    injection E as _ <-; unfold linspace; rewrite tab_length; reflexivity).
  rewrite Hl in P. replace (- (1 / 4) * INR 4) with (IZR (-1)) in P by (rewrite INR_IZR_INZ; change (Z.of_nat 4) with 4%Z; lra).
  assert (Hp : py_int (IZR (-1)) = (-1)%Z).
  { unfold py_int. destruct (Rle_dec 0 (IZR (-1))); [lra|]. unfold Int_part. rewrite <- (tech_up (- IZR (-1)) 2); [reflexivity|lra|lra]. }
  rewrite Hp in P. destruct (P ltac:(lia)) as (Lx & V). exists x, t. split; [reflexivity|]. split; [exact Lx|].
  change (packed_freqs (or_N ts0 (Some 4%Z)) (Some [0; 0])) with [0; 0] in V.
  assert (C : forall u, cos (2 * PI * 0 * u) = 1) by (intros u; rewrite <- cos_0; f_equal; ring).
  repeat split; rewrite V by lia; cbn; rewrite ?C; lra.
Qed.
