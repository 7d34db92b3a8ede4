(** [jumps], [packed], [cos_f]. *)
From Coq Require Import Reals Lra ZifyBool ZifyNat.
From Verif Require Import Py Round Cplx CplxProofs Squeeze SqueezeProofs BinProofs Scales SsqueezeProofs ScaleThms FreqRange Search SearchProofs
  Chirp ChirpProofs Signals SignalsThms SignalsThms2.
Local Open Scope R_scope.

(** ** blocks of equal length *)
Lemma concat_length M (bl : nat -> list R) n s : (forall i, (s <= i < s + n)%nat -> length (bl i) = M) ->
  length (concat (map bl (seq s n))) = (n * M)%nat.
Proof.
  revert s. induction n as [|n IH]; intros s H; [reflexivity|]. cbn [seq map concat]. rewrite app_length, IH, H by (intros; try apply H; lia). lia.
Qed.
Lemma concat_nth M (bl : nat -> list R) n s k d : (0 < M)%nat -> (forall i, (s <= i < s + n)%nat -> length (bl i) = M) -> (k < n * M)%nat ->
  nth k (concat (map bl (seq s n))) d = nth (k mod M) (bl (s + k / M)%nat) d.
Proof.
  intros HM. revert s k. induction n as [|n IH]; intros s k H Hk; [lia|]. cbn [seq map concat].
  destruct (Nat.ltb_spec k M) as [Hl|Hl].
  - rewrite app_nth1 by (rewrite H; lia). rewrite Nat.div_small, Nat.mod_small by exact Hl. now rewrite Nat.add_0_r.
  - rewrite app_nth2 by (rewrite H; lia). rewrite H by lia. rewrite IH by (intros; try apply H; lia).
    replace k with ((k - M) + 1 * M)%nat at 3 4 by lia. rewrite Nat.div_add, Nat.mod_add by lia. f_equal. f_equal. lia.
Qed.

Lemma slice_spec (l : list R) a b : (0 <= a <= b)%Z -> (b <= Z.of_nat (length l))%Z ->
  length (pyslice l a b) = Z.to_nat (b - a) /\
  forall j, (j < Z.to_nat (b - a))%nat -> nth j (pyslice l a b) 0 = nth (Z.to_nat a + j) l 0.
Proof.
  intros Hab Hb. unfold pyslice, norm_bound. destruct (Z.ltb_spec a 0); [lia|]. destruct (Z.ltb_spec b 0); [lia|].
  rewrite !Z.min_l by lia. split.
  - rewrite firstn_length, skipn_length. lia.
  - intros j Hj. rewrite nth_firstn_lt by exact Hj. now rewrite nth_skipn_add.
Qed.

(** ** jumps *)
Definition n_freqs (freqs : option (list R)) : nat := match freqs with Some f => length f | None => 4%nat end.
Theorem jumps_shape s N freqs k x t : jumps s N freqs k = Ok (x, t) ->
  let n := n_freqs freqs in let M := (or_N s N / Z.of_nat n)%Z in
  (0 < n)%nat /\ length x = length t /\ Z.of_nat (length x) = (Z.of_nat n * M)%Z /\
  (or_N s N - Z.of_nat n < Z.of_nat (length x) <= or_N s N)%Z /\
  forall i j, (i < n)%nat -> (Z.of_nat j < M)%Z ->
    let q := (i * Z.to_nat M + j)%nat in
    nth q x 0 = cos (2 * PI * nth i (jump_freqs M freqs) 0 * nth q t 0).
Proof.
  intros E n M. unfold jumps in E. fold (n_freqs freqs) in E. fold n in E. fold M in E.
  unfold process_params in E. cbn [bind] in E.
  destruct (times _ _ (or_N s N) _) as [t0|] eqn:E0; [|discriminate]. cbn [bind] in E.
  destruct (times_spec _ _ _ _ _ E0) as (HN & _).
  destruct (Nat.eqb_spec n 0) as [|Hn]; [discriminate|].
  destruct (times _ _ (M * Z.of_nat n) _) as [t1|] eqn:Et; [|discriminate]. cbn [bind] in E. injection E as <- <-.
  destruct (times_spec _ _ _ _ _ Et) as (_ & Hl & _).
  assert (HM : (0 <= M)%Z) by (apply Z.div_pos; lia).
  assert (HMn : (Z.of_nat n * M <= or_N s N < Z.of_nat n * M + Z.of_nat n)%Z).
  { unfold M. pose proof (Z.mul_div_le (or_N s N) (Z.of_nat n) ltac:(lia)). pose proof (Z.mul_succ_div_gt (or_N s N) (Z.of_nat n) ltac:(lia)). lia. }
  set (bl := fun i : nat => map _ (pyslice t1 (Z.of_nat i * M) ((Z.of_nat i + 1) * M))).
  assert (Hb : forall i, (i < n)%nat -> length (pyslice t1 (Z.of_nat i * M) ((Z.of_nat i + 1) * M)) = Z.to_nat M /\
     forall j, (j < Z.to_nat M)%nat -> nth j (pyslice t1 (Z.of_nat i * M) ((Z.of_nat i + 1) * M)) 0 = nth (i * Z.to_nat M + j) t1 0).
  { intros i Hi. destruct (slice_spec t1 (Z.of_nat i * M) ((Z.of_nat i + 1) * M)) as (A & B); [nia|nia|].
    replace ((Z.of_nat i + 1) * M - Z.of_nat i * M)%Z with M in * by ring. split; [exact A|]. intros j Hj. rewrite B by exact Hj.
    f_equal. nia. }
  assert (Hbl : forall i, (0 <= i < 0 + n)%nat -> length (bl i) = Z.to_nat M).
  { intros i Hi. unfold bl. rewrite map_length. apply Hb. lia. }
  pose proof (concat_length (Z.to_nat M) bl n 0 Hbl) as Hlen.
  split; [lia|]. split; [rewrite Hlen, Hl; nia|]. split; [rewrite Hlen; nia|]. split; [rewrite Hlen; nia|].
  intros i j Hi Hj q. unfold q.
  rewrite (concat_nth (Z.to_nat M) bl n 0 _ 0) by (try exact Hbl; nia).
  rewrite (Nat.add_comm _ j), Nat.div_add, Nat.mod_add by lia. rewrite Nat.div_small, Nat.mod_small by lia. cbn [Nat.add].
  unfold bl. rewrite (nth_map0 _ _ j 0) by (rewrite (proj1 (Hb i Hi)); lia).
  rewrite (proj2 (Hb i Hi)) by lia. now rewrite (Nat.add_comm j).
Qed.
(** starting at 0 and without the end point, every frequency is heard for [tmax] seconds *)
Theorem jumps_times s N freqs k x t : kw_tmin s k = 0 -> kw_end s k = false -> jumps s N freqs k = Ok (x, t) ->
  let n := n_freqs freqs in let M := (or_N s N / Z.of_nat n)%Z in
  forall i j, (i < n)%nat -> (Z.of_nat j < M)%Z -> (2 <= Z.of_nat n * M)%Z ->
  nth (i * Z.to_nat M + j) t 0 = INR i * kw_tmax s k + INR j * (kw_tmax s k / IZR M).
Proof.
  intros H0 He E n M i j Hi Hj H2. unfold jumps in E. fold (n_freqs freqs) in E. fold n in E. fold M in E.
  unfold process_params in E. fold (kw_tmin s k) (kw_tmax s k) (kw_end s k) in E. cbn [bind] in E.
  destruct (times _ _ (or_N s N) _) as [t0|] eqn:E0; [|discriminate]. cbn [bind] in E.
  destruct (Nat.eqb_spec n 0) as [|Hn]; [discriminate|].
  destruct (times _ _ (M * Z.of_nat n) _) as [t1|] eqn:Et; [|discriminate]. cbn [bind] in E. injection E as _ <-.
  destruct (times_spec _ _ _ _ _ Et) as (_ & Hl & Hv & _).
  clearbody M. assert (HM : (0 <= M)%Z) by lia.
  rewrite Hv by nia. rewrite H0, He. unfold step. rewrite mult_IZR, plus_INR, mult_INR.
  rewrite (INR_IZR_INZ (Z.to_nat M)), (INR_IZR_INZ n), (Z2Nat.id M HM).
  assert (0 < IZR M) by (apply IZR_lt; lia). assert (0 < IZR (Z.of_nat n)) by (apply IZR_lt; lia). field. lra.
Qed.
(** starting at 2: the time vector runs from 2 back to 1 *)
Theorem jumps_backwards : exists x t, jumps ts0 (Some 2%Z) (Some [5]) (TK (Some 2) (Some 3) None) = Ok (x, t) /\ nth 1 t 0 < nth 0 t 0.
Proof.
  assert (exists p, jumps ts0 (Some 2%Z) (Some [5]) (TK (Some 2) (Some 3) None) = Ok p) as ((x & t) & E) by (eexists; reflexivity).
  exists x, t. split; [exact E|]. injection E as _ <-. unfold linspace. change (Z.to_nat (2 / 1 * 1)) with 2%nat.
  rewrite !nth_tab by lia. cbn. change (Pos.to_nat 2) with 2%nat. cbn. lra.
Qed.
Theorem jumps_short : exists x t, jumps ts0 (Some 10%Z) None (TK None None None) = Ok (x, t) /\ length x = 8%nat.
Proof. do 2 eexists. split; reflexivity. Qed.

(** ** packed *)
Lemma add_tone_length f lo hi t x : length (add_tone f lo hi t x) = length x.
Proof. apply tab_length. Qed.
(** tone [i] covers the first or the last [No] samples, by turns *)
Definition covers (n : nat) (No : Z) (i j : nat) : bool :=
  if Nat.even i then (Z.of_nat j <? No)%Z else (Z.of_nat n - No <=? Z.of_nat j)%Z.
Lemma packed_loop_spec freqs i No t x : (0 < No)%Z ->
  length (packed_loop freqs i No t x) = length x /\
  forall j, (j < length x)%nat -> nth j (packed_loop freqs i No t x) 0 = nth j x 0 +
    Rsum (length freqs) (fun q => if covers (length x) No (i + q) j then cos (2 * PI * nth q freqs 0 * nth j t 0) else 0).
Proof.
  intros HNo. revert i x. induction freqs as [|f freqs IH]; intros i x.
  { cbn. split; [reflexivity|]. intros. ring. }
  cbn [packed_loop length]. set (x' := if Nat.even i then _ else _).
  assert (Hl : length x' = length x) by (unfold x'; destruct (Nat.even i); apply add_tone_length).
  destruct (IH (S i) x') as (A & B). split; [now rewrite A|]. intros j Hj. rewrite B by lia. rewrite Hl.
  assert (Hx : nth j x' 0 = nth j x 0 + if covers (length x) No i j then cos (2 * PI * f * nth j t 0) else 0).
  { unfold x', covers, add_tone, norm_bound. destruct (Nat.even i); rewrite nth_tab by exact Hj.
    - destruct (Z.ltb_spec 0 0); [lia|]. destruct (Z.ltb_spec No 0); [lia|].
      destruct (Z.leb_spec (Z.min 0 (Z.of_nat (length x))) (Z.of_nat j)); [|lia].
      destruct (Z.ltb_spec (Z.of_nat j) (Z.min No (Z.of_nat (length x)))), (Z.ltb_spec (Z.of_nat j) No); cbn [andb]; try lia; ring.
    - destruct (Z.ltb_spec (- No) 0); [|lia]. destruct (Z.ltb_spec (Z.of_nat (length x)) 0); [lia|].
      destruct (Z.ltb_spec (Z.of_nat j) (Z.min (Z.of_nat (length x)) (Z.of_nat (length x)))); [|lia]. rewrite andb_true_r.
      destruct (Z.leb_spec (Z.max 0 (- No + Z.of_nat (length x))) (Z.of_nat j)), (Z.leb_spec (Z.of_nat (length x) - No) (Z.of_nat j)); try lia; ring. }
  rewrite Hx, Rplus_assoc. f_equal.
  rewrite Rsum_first. rewrite Nat.add_0_r. cbn [nth]. f_equal. apply Rsum_ext. intros q _. now rewrite Nat.add_succ_comm.
Qed.
Theorem packed_spec s N freqs overlap k x t : packed s N freqs overlap k = Ok (x, t) ->
  let n := length t in let No := py_int (overlap * INR n) in let fs := packed_freqs (or_N s N) freqs in
  (0 < No)%Z -> length x = n /\
  forall j, (j < n)%nat -> nth j x 0 =
    Rsum (length fs) (fun i => if covers n No i j then cos (2 * PI * nth i fs 0 * nth j t 0) else 0).
Proof.
  intros E n No fs HNo. unfold packed in E. destruct (process_params _ _ _ _) as [[[[t0 ?] ?] ?]|]; [|discriminate].
  cbn [bind] in E. injection E as <- Et. subst t0. fold n No fs.
  destruct (packed_loop_spec fs 0 No t (repeat 0 n) HNo) as (A & B). rewrite repeat_length in *.
  split; [exact A|]. intros j Hj. rewrite B by exact Hj. rewrite nth_repeat. rewrite Rplus_0_l. reflexivity.
Qed.
(** [overlap=0]: the odd tones cover everything *)
Theorem packed_zero : exists x t, packed ts0 (Some 2%Z) (Some [1; 0]) 0 (TK None None None) = Ok (x, t) /\ x = [1; 1].
Proof.
  exists [1; 1], (linspace 0 1 2). split; [|reflexivity].
  assert (Hi : py_int (0 * INR (length (linspace 0 1 2))) = 0%Z).
  { rewrite Rmult_0_l. exact (py_int_IZR 0 ltac:(lia)). }
  unfold packed, process_params, times. cbn [or_N bind ts0 ts_tkw default_tkw d_tmin d_tmax d_end or_default k_tmin k_tmax k_end Z.ltb Z.compare].
  change (Z.to_nat 2) with 2%nat. rewrite Hi. apply (f_equal (fun x => Ok (x, linspace 0 1 2))).
  cbn [packed_freqs or_default packed_loop Nat.even Z.opp]. rewrite linspace_length.
  unfold add_tone. cbn. replace (2 * PI * 0) with 0 by ring. rewrite !Rmult_0_l, cos_0.
  apply f_equal2; [ring|]. apply f_equal2; [ring|reflexivity].
Qed.
