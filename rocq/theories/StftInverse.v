(** [istft] of any array: the sample-by-sample formula, linearity, least squares. *)
From Coq Require Import Reals Lra ZifyBool ZifyNat.
From Verif Require Import Py Cplx CplxProofs Padding Buffer BufferProofs Freqs Stft StftProofs.
Local Open Scope Z_scope.
Ltac Zify.zify_post_hook ::= Z.div_mod_to_equations.

(** the slice of the signal a column stands for *)
Definition frame (modulated : bool) (n : nat) (Sx : mat C) (h : nat) : list R :=
  let y := tab n (irfft n (spec_col Sx h)) in if modulated then fftshift y else y.
(** sum over the columns whose slice contains sample [t] *)
Definition over (hop n H t : nat) (g : nat -> nat -> R) : R :=
  Rsum H (fun h => if (h * hop <=? t)%nat && (t <? h * hop + n)%nat then g h (t - h * hop)%nat else 0%R).

Lemma over_ext hop n H t f g : (forall h r, (h < H)%nat -> (r < n)%nat -> f h r = g h r) -> over hop n H t f = over hop n H t g.
Proof.
  intros E. apply Rsum_ext. intros h Hh. destruct (Nat.leb_spec (h * hop) t), (Nat.ltb_spec t (h * hop + n)); cbn [andb]; try reflexivity. apply E; [exact Hh|lia].
Qed.
Lemma over_scal hop n H t c g : (c * over hop n H t g = over hop n H t (fun h r => c * g h r))%R.
Proof. unfold over. rewrite <- Rsum_scal. apply Rsum_ext. intros h _. destruct (_ && _); ring. Qed.
Lemma over_plus hop n H t f g : (over hop n H t f + over hop n H t g = over hop n H t (fun h r => f h r + g h r))%R.
Proof. unfold over. rewrite <- Rsum_plus. apply Rsum_ext. intros h _. destruct (_ && _); ring. Qed.
Lemma over_nonneg hop n H t g : (forall h r, (h < H)%nat -> (r < n)%nat -> (0 <= g h r)%R) -> (0 <= over hop n H t g)%R.
Proof.
  intros E. apply Rsum_nonneg. intros h Hh. destruct (Nat.leb_spec (h * hop) t), (Nat.ltb_spec t (h * hop + n)); cbn [andb]; try lra. apply E; [exact Hh|lia].
Qed.
Lemma over_wsum w hop H p t : over hop (length w) H t (fun _ r => (nth r w 0 ^ p)%R) = wsum w hop H p t.
Proof. reflexivity. Qed.

(** what [istft] accepts *)
Definition istft_ready (Sx : mat C) (wa : window_arg) (w : list R) (n N hop : Z) (wl nf No : option Z) (f32 : bool) : Prop :=
  3 <= n /\ 1 <= N /\ 1 <= hop /\ get_window wa (or_default wl n) n = Ok w /\ Z.of_nat (length w) = n /\ (f32 = true -> hop <= n) /\
  Z.of_nat (ncols Sx) = (N - 1) / hop + 1 /\ or_default nf ((Z.of_nat (nrows Sx) - 1) * 2) = n /\ or_default No (hop * Z.of_nat (ncols Sx)) = N.

Theorem istft_any Sx wa w n N hop wl nf No modulated f32 e tiny : istft_ready Sx wa w n N hop wl nf No f32 ->
  exists y, istft tiny Sx wa nf wl hop No modulated e f32 = Ok y /\ Z.of_nat (length y) = N /\
    forall i, (i < Z.to_nat N)%nat ->
      let t := (Z.to_nat (n / 2) + i)%nat in
      let s := wsum w (Z.to_nat hop) (ncols Sx) (e + 1) t in
      let v := over (Z.to_nat hop) (Z.to_nat n) (ncols Sx) t (fun h r => (nth r (frame modulated (Z.to_nat n) Sx h) 0 * nth r w 0 ^ e)%R) in
      ((0 <= tiny < s)%R -> nth i y 0%R = (v / s)%R) /\ ((s < tiny)%R -> nth i y 0%R = v).
Proof.
  intros (Hn & HN & Hhop & Hw & Hlw & Hf32 & Hcols & Hnf & HNo).
  unfold istft. rewrite Hnf, HNo. destruct (Z.leb_spec n 0); [lia|]. rewrite Hw. cbn [bind].
  assert (Enola : check_NOLA f32 w hop = Ok tt).
  { unfold check_NOLA. destruct (Z.leb_spec hop 0); [lia|]. destruct f32 eqn:E32; simpl; auto.
    destruct (hop >? Z.of_nat (length w)) eqn:Eh; auto. specialize (Hf32 eq_refl). lia. }
  rewrite Enola. cbn [bind]. set (m := Z.to_nat n).
  assert (Hq2 : hop * ((N - 1) / hop) <= N - 1) by (apply Z.mul_div_le; lia). assert (Hq0 : 0 <= (N - 1) / hop) by (apply Z.div_pos; lia).
  set (q := (N - 1) / hop) in *. assert (HH : ncols Sx = Z.to_nat (q + 1)) by lia.
  set (wfac := fun r => match e with O => 1%R | _ => (nth r w 0 ^ e)%R end).
  assert (Hwfac : forall r, wfac r = (nth r w 0 ^ e)%R) by (intros r; unfold wfac; destruct e; reflexivity).
  unfold unbuffer. cbn [ncols nrows el]. destruct (Z.eqb_spec (Z.of_nat (length w)) n); [|contradiction]. cbn [negb]. destruct (Z.ltb_spec (N + n - 1) 0); [lia|].
  destruct (overlap_add_ok (fun i => tab m (fun r =>
      (nth r (if modulated then fftshift (tab m (irfft m (spec_col Sx i))) else tab m (irfft m (spec_col Sx i))) 0 * wfac r)%R)) hop m (ncols Sx) 0
      (repeat 0%R (Z.to_nat (N + n - 1)))) as (y & Ey & Hy & Hval).
  { lia. }
  { intros; apply tab_length. }
  { intros i Hi. rewrite repeat_length. unfold m. nia. }
  rewrite repeat_length in Hy, Hval. unfold wfac in Ey. rewrite Ey. cbn [bind].
  destruct (window_norm_ok w hop n N e) as (wn & Ewn & Hlwn & Hwn); try lia. rewrite Ewn. cbn [bind]. eexists; split; [reflexivity|].
  rewrite pyslice_neg_end by (rewrite ?normalise_length; lia). rewrite normalise_length, Hy.
  replace (Z.of_nat (Z.to_nat (N + n - 1)) - (n - 1) / 2) with (n / 2 + N) by lia. split; [rewrite pyslice_length; rewrite ?normalise_length; lia|].
  intros i Hi. set (t := (Z.to_nat (n / 2) + i)%nat). set (s := wsum w (Z.to_nat hop) (ncols Sx) (e + 1) t).
  set (v := over (Z.to_nat hop) (Z.to_nat n) (ncols Sx) t (fun h r => (nth r (frame modulated (Z.to_nat n) Sx h) 0 * nth r w 0 ^ e)%R)).
  rewrite pyslice_nth by (rewrite ?normalise_length; lia). fold t.
  assert (Ht : (t < Z.to_nat (N + n - 1))%nat) by (unfold t; lia).
  assert (Hwt : nth t wn 0%R = s) by (rewrite Hwn by lia; fold q; unfold s; rewrite HH; reflexivity).
  assert (Es : nth t y 0%R = v).
  { rewrite Hval by exact Ht. rewrite nth_repeat, Rplus_0_l. unfold v, over. fold m. apply Rsum_ext. intros h Hh. cbv zeta. cbn [Nat.add].
    destruct (Nat.leb_spec (h * Z.to_nat hop) t), (Nat.ltb_spec t (h * Z.to_nat hop + m)); cbn [andb]; try ring.
    rewrite nth_tab by lia. rewrite Hwfac. reflexivity. }
  split; intros Hs.
  - rewrite normalise_nth by (rewrite ?Hwt; try lia; apply Hs). rewrite Es, Hwt. reflexivity.
  - unfold normalise. assert (Eex : existsb (fun v => Rltb v tiny) wn = true).
    { apply existsb_exists. exists (nth t wn 0%R). split; [apply nth_In; lia|]. rewrite Hwt. apply Rltb_true, Hs. }
    rewrite Eex, nth_tab by lia. rewrite Hwt, Rltb_false by lra. exact Es.
Qed.

(** ** Least squares *)
(** squared distance between the windowed slices of [z] (on the padded axis) and the slices the columns stand for *)
Definition misfit (modulated : bool) (w : list R) (hop : nat) (Sx : mat C) (z : nat -> R) : R :=
  Rsum (ncols Sx) (fun h => Rsum (length w) (fun r =>
    (nth r w 0 * z (h * hop + r)%nat - nth r (frame modulated (length w) Sx h) 0) ^ 2)%R).

(** by samples: every pair (column, row) sits at one sample *)
Lemma by_samples hop n H T g : (forall h, (h < H)%nat -> (h * hop + n <= T)%nat) ->
  Rsum H (fun h => Rsum n (fun r => g h r)) = Rsum T (fun t => over hop n H t g).
Proof.
  intros HT. unfold over. rewrite (Rsum_swap T H). apply Rsum_ext. intros h Hh. specialize (HT h Hh).
  replace T with (h * hop + (n + (T - h * hop - n)))%nat at 1 by lia. rewrite !Rsum_app.
  rewrite (Rsum_0 (h * hop)). 2:{ intros t Ht. destruct (Nat.leb_spec (h * hop) t); [lia|reflexivity]. }
  rewrite (Rsum_0 (T - h * hop - n)).
  2:{ intros t Ht. destruct (Nat.ltb_spec (h * hop + (n + t)) (h * hop + n)); [lia|]. rewrite andb_false_r. reflexivity. }
  rewrite Rplus_0_l, Rplus_0_r. apply Rsum_ext. intros r Hr.
  destruct (Nat.leb_spec (h * hop) (h * hop + r)); [|lia]. destruct (Nat.ltb_spec (h * hop + r) (h * hop + n)); [|lia]. cbn [andb]. f_equal. lia.
Qed.
Lemma misfit_at modulated w hop Sx z T : (forall h, (h < ncols Sx)%nat -> (h * hop + length w <= T)%nat) ->
  misfit modulated w hop Sx z = Rsum T (fun t => over hop (length w) (ncols Sx) t (fun h r => (nth r w 0 * z t - nth r (frame modulated (length w) Sx h) 0) ^ 2)%R).
Proof.
  intros HT. unfold misfit. rewrite (by_samples hop (length w) (ncols Sx) T (fun h r => (nth r w 0 * z (h * hop + r)%nat - nth r (frame modulated (length w) Sx h) 0) ^ 2)%R HT).
  apply Rsum_ext. intros t _. unfold over. apply Rsum_ext. intros h _. destruct (Nat.leb_spec (h * hop) t), (Nat.ltb_spec t (h * hop + length w)); cbn [andb]; try reflexivity.
  replace (h * hop + (t - h * hop))%nat with t by lia. reflexivity.
Qed.
(** one sample: the quotient is the best value *)
Lemma best_value hop n H t (a b : nat -> nat -> R) z :
  let s := over hop n H t (fun h r => a h r ^ 2)%R in let v := over hop n H t (fun h r => b h r * a h r)%R in
  s <> 0%R -> (over hop n H t (fun h r => (a h r * z - b h r) ^ 2) = over hop n H t (fun h r => (a h r * (v / s) - b h r) ^ 2) + s * (z - v / s) ^ 2)%R.
Proof.
  intros s v Hs. assert (E : forall z, over hop n H t (fun h r => (a h r * z - b h r) ^ 2)%R = (z ^ 2 * s + - 2 * z * v + over hop n H t (fun h r => b h r ^ 2))%R).
  { intros z'. unfold s, v. rewrite !over_scal, !over_plus. apply over_ext. intros h r _ _. ring. }
  rewrite !E. field. exact Hs.
Qed.
Definition splice (c : nat) (y : list R) (z : nat -> R) (t : nat) : R :=
  if (c <=? t)%nat && (t <? c + length y)%nat then nth (t - c) y 0%R else z t.
Theorem istft_least_squares Sx wa w n N hop wl nf No modulated f32 tiny y : istft_ready Sx wa w n N hop wl nf No f32 -> (0 <= tiny)%R ->
  (forall i, (i < Z.to_nat N)%nat -> (tiny < wsum w (Z.to_nat hop) (ncols Sx) 2 (Z.to_nat (n / 2) + i))%R) ->
  istft tiny Sx wa nf wl hop No modulated 1 f32 = Ok y ->
  forall z, (misfit modulated w (Z.to_nat hop) Sx (splice (Z.to_nat (n / 2)) y z) <= misfit modulated w (Z.to_nat hop) Sx z)%R.
Proof.
  intros R Ht Hs E z. destruct (istft_any _ _ _ _ _ _ _ _ _ modulated _ 1 tiny R) as (y' & E' & Ly & V). rewrite E in E'. injection E' as <-.
  destruct R as (Hn & HN & Hhop & Hw & Hlw & Hf32 & Hcols & Hnf & HNo).
  assert (HT : forall h, (h < ncols Sx)%nat -> (h * Z.to_nat hop + length w <= Z.to_nat (N + n - 1))%nat).
  { intros h Hh. assert (hop * ((N - 1) / hop) <= N - 1) by (apply Z.mul_div_le; lia). assert (Z.of_nat h <= (N - 1) / hop) by lia. nia. }
  rewrite !(misfit_at _ _ _ _ _ _ HT). apply Rsum_le. intros t Htt. unfold splice.
  destruct (Nat.leb_spec (Z.to_nat (n / 2)) t) as [L1|L1]; [|cbn [andb]; lra]. destruct (Nat.ltb_spec t (Z.to_nat (n / 2) + length y)) as [L2|L2]; [|cbn [andb]; lra]. cbn [andb].
  set (i := (t - Z.to_nat (n / 2))%nat). assert (Hi : (i < Z.to_nat N)%nat) by (unfold i; lia). specialize (V i Hi). specialize (Hs i Hi). cbv zeta in V.
  replace (Z.to_nat (n / 2) + i)%nat with t in * by (unfold i; lia). destruct V as [V _]. change (1 + 1)%nat with 2%nat in V. specialize (V (conj Ht Hs)). rewrite V.
  replace (Z.to_nat n) with (length w) by lia. rewrite <- over_wsum in *.
  rewrite (over_ext _ _ _ _ (fun h r => nth r (frame modulated (length w) Sx h) 0 * nth r w 0 ^ 1)%R (fun h r => nth r (frame modulated (length w) Sx h) 0 * nth r w 0)%R) by (intros; ring).
  pose proof (best_value (Z.to_nat hop) (length w) (ncols Sx) t (fun _ r => nth r w 0%R) (fun h r => nth r (frame modulated (length w) Sx h) 0%R) (z t)) as B. cbv beta zeta in B.
  rewrite B by lra. clear B.
  match goal with |- (?a <= ?a' + ?s * ?q ^ 2)%R => assert (0 <= s * q ^ 2)%R by (apply Rmult_le_pos; [lra|apply pow2_ge_0]); lra end.
Qed.

(** ** Energy: errors in the columns are not amplified *)
Lemma cauchy_over hop n H t (a b : nat -> nat -> R) :
  let s := over hop n H t (fun h r => a h r ^ 2)%R in (0 < s)%R ->
  (s * (over hop n H t (fun h r => b h r * a h r) / s) ^ 2 <= over hop n H t (fun h r => b h r ^ 2))%R.
Proof.
  intros s Hs. pose proof (best_value hop n H t a b 0%R) as B. cbv zeta in B. fold s in B. specialize (B ltac:(lra)).
  rewrite (over_ext _ _ _ _ (fun h r => (a h r * 0 - b h r) ^ 2)%R (fun h r => b h r ^ 2)%R) in B by (intros; ring). rewrite B.
  assert (0 <= over hop n H t (fun h r => (a h r * (over hop n H t (fun h0 r0 => b h0 r0 * a h0 r0) / s) - b h r) ^ 2))%R by (apply over_nonneg; intros; apply pow2_ge_0).
  replace ((0 - over hop n H t (fun h r => b h r * a h r) / s) ^ 2)%R with ((over hop n H t (fun h r => b h r * a h r) / s) ^ 2)%R by ring. lra.
Qed.
Theorem istft_energy Sx wa w n N hop wl nf No modulated f32 tiny y : istft_ready Sx wa w n N hop wl nf No f32 -> (0 <= tiny)%R ->
  let s i := wsum w (Z.to_nat hop) (ncols Sx) 2 (Z.to_nat (n / 2) + i) in
  (forall i, (i < Z.to_nat N)%nat -> (tiny < s i)%R) -> istft tiny Sx wa nf wl hop No modulated 1 f32 = Ok y ->
  (Rsum (length y) (fun i => s i * nth i y 0 ^ 2) <= Rsum (ncols Sx) (fun h => Rsum (Z.to_nat n) (fun r => nth r (frame modulated (Z.to_nat n) Sx h) 0 ^ 2)))%R.
Proof.
  intros R Ht s Hs E. destruct (istft_any _ _ _ _ _ _ _ _ _ modulated _ 1 tiny R) as (y' & E' & Ly & V). rewrite E in E'. injection E' as <-.
  destruct R as (Hn & HN & Hhop & Hw & Hlw & Hf32 & Hcols & Hnf & HNo).
  assert (HT : forall h, (h < ncols Sx)%nat -> (h * Z.to_nat hop + Z.to_nat n <= Z.to_nat (N + n - 1))%nat).
  { intros h Hh. assert (hop * ((N - 1) / hop) <= N - 1) by (apply Z.mul_div_le; lia). assert (Z.of_nat h <= (N - 1) / hop) by lia. nia. }
  rewrite (by_samples (Z.to_nat hop) (Z.to_nat n) (ncols Sx) (Z.to_nat (N + n - 1)) (fun h r => nth r (frame modulated (Z.to_nat n) Sx h) 0 ^ 2)%R HT).
  replace (Z.to_nat (N + n - 1)) with (Z.to_nat (n / 2) + (length y + (Z.to_nat (N + n - 1) - Z.to_nat (n / 2) - length y)))%nat by lia. rewrite !Rsum_app.
  assert (P : forall t, (0 <= over (Z.to_nat hop) (Z.to_nat n) (ncols Sx) t (fun h r => nth r (frame modulated (Z.to_nat n) Sx h) 0 ^ 2))%R) by (intros; apply over_nonneg; intros; apply pow2_ge_0).
  assert (P1 : forall k f, (forall i, (0 <= f i)%R) -> (0 <= Rsum k f)%R) by (intros; apply Rsum_nonneg; auto).
  match goal with |- (?a <= ?b + (?c + ?d))%R => assert (0 <= b)%R by (apply P1; intros; apply P); assert (0 <= d)%R by (apply P1; intros; apply P); assert (a <= c)%R; [|lra] end.
  apply Rsum_le. intros i Hi. specialize (V i ltac:(lia)). specialize (Hs i ltac:(lia)). cbv zeta in V. destruct V as [V _]. change (1 + 1)%nat with 2%nat in V. fold (s i) in V. rewrite (V (conj Ht Hs)).
  unfold s in *. rewrite <- over_wsum in *. replace (length w) with (Z.to_nat n) in * by lia.
  rewrite (over_ext _ _ _ _ (fun h r => nth r (frame modulated (Z.to_nat n) Sx h) 0 * nth r w 0 ^ 1)%R (fun h r => nth r (frame modulated (Z.to_nat n) Sx h) 0 * nth r w 0)%R) by (intros; ring).
  apply (cauchy_over (Z.to_nat hop) (Z.to_nat n) (ncols Sx) (Z.to_nat (n / 2) + i) (fun _ r => nth r w 0%R) (fun h r => nth r (frame modulated (Z.to_nat n) Sx h) 0%R)). lra.
Qed.
