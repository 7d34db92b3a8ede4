(** [istft] gives the signal whose [stft] is nearest to the array it was given. *)
From Coq Require Import Reals Lra ZifyBool ZifyNat.
From Verif Require Import Py Cplx CplxProofs Padding Buffer BufferProofs Freqs Stft StftProofs StftMap StftEnergy StftInverse.
Local Open Scope R_scope.
Ltac Zify.zify_post_hook ::= Z.div_mod_to_equations.

(** ** one column *)
Section Col.
Variable n : nat.
Hypothesis Hn : (1 <= n)%nat.
Lemma hermit_conj X k : (0 < k < n)%nat -> hermit n X (n - k) = Cconj (hermit n X k).
Proof.
  intros Hk. unfold hermit. destruct (Nat.eqb_spec (n - k) 0); [lia|]. destruct (Nat.eqb_spec k 0); [lia|].
  destruct (Nat.eqb_spec (2 * (n - k)) n), (Nat.eqb_spec (2 * k) n); try lia.
  - replace (n - k)%nat with k by lia. rewrite Cconj_RtoC. reflexivity.
  - destruct (Nat.ltb_spec (2 * (n - k)) n), (Nat.ltb_spec (2 * k) n); try lia.
    + rewrite Cconj_invol. reflexivity.
    + replace (n - (n - k))%nat with k by lia. reflexivity.
Qed.
Lemma idft_hermit X m : RtoC (irfft n X m) = idft n (hermit n X) m.
Proof.
  pose proof (idft_herm_real n (hermit n X) m Hn (fun k Hk => hermit_conj X k ltac:(lia)) eq_refl) as H. unfold irfft. apply C_eq; [reflexivity|]. cbn [RtoC snd]. unfold Im in H. lra.
Qed.
Lemma rfft_irfft X k : (k < n)%nat -> rfft n (irfft n X) k = hermit n X k.
Proof.
  intros Hk. unfold rfft. rewrite (dft_ext n _ (idft n (hermit n X))) by (intros; apply idft_hermit). apply dft_idft; assumption.
Qed.
Lemma irfft_energy X : Rsum (n / 2 + 1) (fun k => weight n k * Cnorm2 (hermit n X k)) = INR n * Rsum n (fun m => irfft n X m ^ 2).
Proof.
  rewrite <- (fold_half n (fun k => Cnorm2 (hermit n X k)) Hn).
  - rewrite (Rsum_ext n _ (fun k => Cnorm2 (dft n (fun m => RtoC (irfft n X m)) k))) by (intros k Hk; rewrite <- rfft_irfft by exact Hk; reflexivity).
    rewrite parseval by exact Hn. f_equal. apply Rsum_ext. intros u Hu. unfold Cnorm2, RtoC. cbn [fst snd]. ring.
  - intros k Hk. rewrite hermit_conj by lia. unfold Cnorm2, Cconj. cbn [fst snd]. ring.
Qed.
Lemma hermit_sub X Y k : hermit n (fun k => Csub (X k) (Y k)) k = Csub (hermit n X k) (hermit n Y k).
Proof.
  unfold hermit. destruct (k =? 0)%nat; [|destruct (2 * k =? n)%nat; [|destruct (2 * k <? n)%nat; [reflexivity|]]];
    apply C_eq; unfold Csub, Copp, Cadd, Cconj, RtoC, Re; cbn [fst snd]; ring.
Qed.
Lemma irfft_sub X Y m : irfft n (fun k => Csub (X k) (Y k)) m = irfft n X m - irfft n Y m.
Proof.
  unfold irfft, idft. rewrite (Csum_ext n _ (fun k => Cadd (Cmul (hermit n X k) (tw n (Z.of_nat k * Z.of_nat m))) (Cmul (RtoC (-1)) (Cmul (hermit n Y k) (tw n (Z.of_nat k * Z.of_nat m)))))).
  - rewrite Csum_plus, Csum_scal. destruct (Csum n _) as [p q], (Csum n _) as [p' q']. unfold Re. cbn. ring.
  - intros k _. rewrite hermit_sub. apply C_eq; cbn; ring.
Qed.
(** what a column has that no real slice can have: imaginary parts at zero and at the Nyquist bin *)
Definition edge (X : nat -> C) : R := Rsum (n / 2 + 1) (fun k => if (k =? 0)%nat || (2 * k =? n)%nat then Im (X k) ^ 2 else 0).
Lemma col_split X : Rsum (n / 2 + 1) (fun k => weight n k * Cabs (X k) ^ 2) = INR n * Rsum n (fun m => irfft n X m ^ 2) + edge X.
Proof.
  rewrite <- irfft_energy. unfold edge. rewrite <- Rsum_plus. apply Rsum_ext. intros k Hk.
  replace (Cabs (X k) ^ 2) with (Cnorm2 (X k)) by (rewrite <- Cabs_sqr; ring). unfold weight, hermit.
  destruct (Nat.eqb_spec k 0) as [ ->|]; cbn [orb]; [unfold Cnorm2, RtoC, Re, Im; cbn [fst snd]; ring|].
  destruct (Nat.eqb_spec (2 * k) n); cbn [orb]; [unfold Cnorm2, RtoC, Re, Im; cbn [fst snd]; ring|].
  destruct (Nat.ltb_spec (2 * k) n); [ring|lia].
Qed.
Lemma edge_rfft y X : (forall k, (k < n / 2 + 1)%nat -> Im (X k) = Im (rfft n y k)) -> edge X = 0.
Proof.
  intros E. apply Rsum_0. intros k Hk. destruct (Nat.eqb_spec k 0) as [ ->|]; cbn [orb].
  - rewrite E by exact Hk. unfold rfft. rewrite (dft_real_0 n Hn). ring.
  - destruct (Nat.eqb_spec (2 * k) n); [|reflexivity]. rewrite E by exact Hk. unfold rfft. rewrite (dft_real_nyq n Hn) by assumption. ring.
Qed.
End Col.

(** shifting moves the samples of a slice around *)
Lemma nth_fftshift A (l : list A) d r : (r < length l)%nat -> nth r (fftshift l) d = nth ((r + (length l - length l / 2)) mod length l) l d.
Proof.
  intros H. unfold fftshift. set (c := (length l - length l / 2)%nat). assert (Hc : (c <= length l)%nat) by (unfold c; lia).
  destruct (Nat.lt_ge_cases r (length l - c)) as [L|L].
  - rewrite app_nth1 by (rewrite skipn_length; lia). rewrite nth_skipn_add. rewrite Nat.mod_small by lia. f_equal. lia.
  - rewrite app_nth2 by (rewrite skipn_length; lia). rewrite skipn_length. rewrite nth_firstn_lt by (unfold c in *; lia). f_equal.
    replace (r + c)%nat with (r - (length l - c) + 1 * length l)%nat by lia. rewrite Nat.mod_add by lia. rewrite Nat.mod_small by lia. reflexivity.
Qed.
Lemma Rsum_fold_right l : Rsum (length l) (fun r => nth r l 0 ^ 2) = fold_right (fun v s => v ^ 2 + s) 0 l.
Proof. induction l as [|v l IH]; [reflexivity|]. cbn [length fold_right]. rewrite Rsum_first. cbn [nth]. rewrite IH. reflexivity. Qed.
Lemma sumsq_app a b : fold_right (fun v s => v ^ 2 + s) 0 (a ++ b) = fold_right (fun v s => v ^ 2 + s) 0 a + fold_right (fun v s => v ^ 2 + s) 0 b.
Proof. induction a as [|v a IH]; cbn [app fold_right]; [ring|]. rewrite IH. ring. Qed.
Lemma sumsq_shift l : Rsum (length l) (fun r => nth r (fftshift l) 0 ^ 2) = Rsum (length l) (fun r => nth r l 0 ^ 2).
Proof.
  rewrite <- (fftshift_length _ l) at 1. rewrite !Rsum_fold_right. unfold fftshift. rewrite sumsq_app, Rplus_comm, <- sumsq_app, firstn_skipn. reflexivity.
Qed.

(** ** whole arrays *)
Definition mdiff (A B : mat C) : mat C := Mat (nrows A) (ncols A) (fun k h => Csub (el A k h) (el B k h)).
Lemma frame_length mo n S h : length (frame mo n S h) = n.
Proof. unfold frame. destruct mo; rewrite ?fftshift_length; apply tab_length. Qed.
Lemma frame_sumsq mo n S h : Rsum n (fun r => nth r (frame mo n S h) 0 ^ 2) = Rsum n (fun r => irfft n (spec_col S h) r ^ 2).
Proof.
  unfold frame. rewrite (Rsum_ext n (fun r => irfft n (spec_col S h) r ^ 2) (fun r => nth r (tab n (irfft n (spec_col S h))) 0 ^ 2)) by (intros r Hr; rewrite nth_tab by exact Hr; reflexivity).
  destruct mo; [|reflexivity]. pose proof (sumsq_shift (tab n (irfft n (spec_col S h)))) as E. rewrite tab_length in E. exact E.
Qed.
Lemma frame_diff mo n A B h r : (1 <= n)%nat -> nrows B = nrows A -> (r < n)%nat ->
  nth r (frame mo n (mdiff A B) h) 0 = nth r (frame mo n A h) 0 - nth r (frame mo n B h) 0.
Proof.
  intros Hn HB Hr. assert (E : forall m, (m < n)%nat -> irfft n (spec_col (mdiff A B) h) m = irfft n (spec_col A h) m - irfft n (spec_col B h) m).
  { intros m Hm. rewrite <- irfft_sub. apply irfft_ext; [exact Hn|]. intros k _. unfold spec_col, mdiff. cbn [nrows el]. rewrite HB. destruct (k <? nrows A)%nat; [reflexivity|]. apply C_eq; cbn; ring. }
  unfold frame. destruct mo; [|rewrite !nth_tab by exact Hr; apply E, Hr].
  assert (L : ((r + (n - n / 2)) mod n < n)%nat) by (apply Nat.mod_upper_bound; lia).
  rewrite !nth_fftshift by (rewrite tab_length; exact Hr). rewrite !tab_length, !nth_tab by exact L. apply E, L.
Qed.
Lemma energy_split mo n D : (1 <= n)%nat -> nrows D = (n / 2 + 1)%nat ->
  energy n D = INR n * Rsum (ncols D) (fun h => Rsum n (fun r => nth r (frame mo n D h) 0 ^ 2)) + Rsum (ncols D) (fun h => edge n (spec_col D h)).
Proof.
  intros Hn HD. unfold energy. rewrite <- Rsum_scal, <- Rsum_plus. apply Rsum_ext. intros h Hh. rewrite frame_sumsq, <- (col_split n Hn). unfold col_energy.
  apply Rsum_ext. intros k Hk. unfold spec_col. rewrite HD. destruct (Nat.ltb_spec k (n / 2 + 1)); [reflexivity|lia].
Qed.

(** ** the [stft] of a signal *)
Lemma stft_frames x a n w : usable x a n w -> (3 <= n)%nat -> exists xp Sx dSx, padded x a n xp /\ stft x a = Ok (Sx, dSx) /\
  nrows Sx = (n / 2 + 1)%nat /\ Z.of_nat (ncols Sx) = ((Z.of_nat (length x) - 1) / a_hop a + 1)%Z /\
  (forall h r, (h < ncols Sx)%nat -> (r < n)%nat -> nth r (frame (a_modulated a) n Sx h) 0 = nth r w 0 * nth (h * Z.to_nat (a_hop a) + r) xp 0) /\
  (forall h k, (h < ncols Sx)%nat -> (k = 0%nat \/ (2 * k)%nat = n) -> Im (el Sx k h) = 0).
Proof.
  intros U Hn3. destruct (stft_cells x a n w U) as (xp & Sx & dSx & P & L & M & E & Rw & _ & _ & Cc & F & V). exists xp, Sx, dSx.
  split; [exact P|]. split; [exact E|]. split; [exact Rw|]. split; [exact Cc|].
  destruct U as (U1 & U2 & U3 & U4 & U5 & U6 & U7 & U8).
  assert (W : forall k h, (h < ncols Sx)%nat -> (k < nrows Sx)%nat -> el Sx k h = Csum (Z.to_nat (Z.of_nat n)) (fun u =>
    Cmul (RtoC (nth (Z.to_nat (a_hop a) * h + u) xp 0 * nth u w 0)) (tw (Z.to_nat (Z.of_nat n)) (- (Z.of_nat k * (Z.of_nat u - (if a_modulated a then Z.of_nat n / 2 else 0))))%Z))).
  { intros k h Hh Hk. rewrite (proj1 (V k h Hh)), Nat2Z.id. reflexivity. }
  assert (Rw' : nrows Sx = rfft_len (Z.to_nat (Z.of_nat n))) by (rewrite Nat2Z.id; exact Rw).
  split.
  - intros h r Hh Hr. pose proof (column_recovered xp Sx w (Z.of_nat n) 0%Z (a_hop a) (a_modulated a) true ltac:(lia) U3 Rw' W h r Hh ltac:(lia)) as Q.
    rewrite Nat2Z.id in Q. unfold frame. etransitivity; [exact Q|]. rewrite Rmult_comm. do 2 f_equal. lia.
  - intros h k Hh Hk. assert (Hk' : (k < rfft_len (Z.to_nat (Z.of_nat n)))%nat) by (unfold rfft_len; rewrite Nat2Z.id; lia).
    pose proof (shift_spectrum xp Sx w (Z.of_nat n) 0%Z (a_hop a) (a_modulated a) true ltac:(lia) U3 Rw' W h k Hh Hk') as Q.
    unfold spec_col in Q. rewrite Rw' in Q. destruct (Nat.ltb_spec k (rfft_len (Z.to_nat (Z.of_nat n)))); [|lia]. rewrite Q. cbv zeta. unfold rfft. rewrite Nat2Z.id.
    destruct Hk as [ ->|Hk]; [apply (dft_real_0 n U2)|apply (dft_real_nyq n U2), Hk].
Qed.

(** ** nearest *)
Lemma misfit_energy x a n w Tx : usable x a n w -> (3 <= n)%nat -> a_padtype a = PZero ->
  nrows Tx = (n / 2 + 1)%nat -> Z.of_nat (ncols Tx) = ((Z.of_nat (length x) - 1) / a_hop a + 1)%Z ->
  exists Sx dSx, stft x a = Ok (Sx, dSx) /\
    energy n (mdiff Sx Tx) = INR n * misfit (a_modulated a) w (Z.to_nat (a_hop a)) Tx (splice (n / 2) x (fun _ => 0)) + Rsum (ncols Tx) (fun h => edge n (spec_col Tx h)).
Proof.
  intros U Hn Hz HR HC. destruct (stft_frames x a n w U Hn) as (xp & Sx & dSx & P & E & Rw & Cc & Fr & Im0). exists Sx, dSx. split; [exact E|].
  pose proof U as (Hx & _ & Hhop & _ & _ & Hlw & _). assert (HcT : ncols Sx = ncols Tx) by lia.
  rewrite (energy_split (a_modulated a)) by (cbn [mdiff nrows]; lia). unfold misfit. rewrite Hlw. cbn [mdiff ncols]. rewrite HcT. f_equal.
  - f_equal. apply Rsum_ext. intros h Hh. apply Rsum_ext. intros r Hr.
    f_equal. pose proof (frame_diff (a_modulated a) n Sx Tx h r ltac:(lia) ltac:(lia) Hr) as Q. etransitivity; [|etransitivity; [exact Q|]].
    + unfold mdiff, frame, spec_col. cbn [nrows el]. reflexivity.
    + rewrite Fr by lia. f_equal. f_equal. destruct (zero_padded x a n xp Hx ltac:(lia) Hz P) as (HL & Hat).
      rewrite Hat. { unfold splice. reflexivity. }
      assert (a_hop a * ((Z.of_nat (length x) - 1) / a_hop a) <= Z.of_nat (length x) - 1)%Z by (apply Z.mul_div_le; lia). assert (Z.of_nat h <= (Z.of_nat (length x) - 1) / a_hop a)%Z by lia. nia.
  - apply Rsum_ext. intros h Hh. apply Rsum_ext. intros k Hk. destruct (Nat.eqb_spec k 0), (Nat.eqb_spec (2 * k) n); cbn [orb]; try reflexivity;
    unfold spec_col, mdiff; cbn [nrows el]; rewrite HR, Rw; destruct (Nat.ltb_spec k (n / 2 + 1)); try lia;
    (assert (Z0 : Im (el Sx k h) = 0) by (apply Im0; lia)); destruct (el Sx k h) as [p q], (el Tx k h) as [p' q']; unfold Im in *; cbn [snd] in Z0; subst q; unfold Csub, Copp, Cadd; cbn [fst snd]; ring.
Qed.

(** the misfit splits: what [istft]'s answer leaves, plus a weighted squared distance to it *)
Lemma misfit_pythagoras Tx wa w n N hop wl nf No modulated f32 tiny y : istft_ready Tx wa w n N hop wl nf No f32 -> 0 <= tiny ->
  let s i := wsum w (Z.to_nat hop) (ncols Tx) 2 (Z.to_nat (n / 2) + i) in
  (forall i, (i < Z.to_nat N)%nat -> tiny < s i) -> istft tiny Tx wa nf wl hop No modulated 1 f32 = Ok y ->
  forall x, length x = length y ->
    misfit modulated w (Z.to_nat hop) Tx (splice (Z.to_nat (n / 2)) x (fun _ => 0)) =
    misfit modulated w (Z.to_nat hop) Tx (splice (Z.to_nat (n / 2)) y (fun _ => 0)) + Rsum (length x) (fun i => s i * (nth i x 0 - nth i y 0) ^ 2).
Proof.
  intros R Ht s Hs E x Hx. destruct (istft_any _ _ _ _ _ _ _ _ _ modulated _ 1 tiny R) as (y' & E' & Ly & V). rewrite E in E'. injection E' as <-.
  destruct R as (Hn & HN & Hhop & Hw & Hlw & Hf32 & Hcols & Hnf & HNo).
  assert (HT : forall h, (h < ncols Tx)%nat -> (h * Z.to_nat hop + length w <= Z.to_nat (N + n - 1))%nat).
  { intros h Hh. assert (hop * ((N - 1) / hop) <= N - 1)%Z by (apply Z.mul_div_le; lia). assert (Z.of_nat h <= (N - 1) / hop)%Z by lia. nia. }
  rewrite !(misfit_at _ _ _ _ _ _ HT).
  rewrite (Rsum_ext (length x) (fun i => s i * (nth i x 0 - nth i y 0) ^ 2) (fun u => (fun t => s (t - Z.to_nat (n / 2))%nat * (nth (t - Z.to_nat (n / 2)) x 0 - nth (t - Z.to_nat (n / 2)) y 0) ^ 2) (Z.to_nat (n / 2) + u)%nat)).
  2:{ intros i Hi. cbv beta. replace (Z.to_nat (n / 2) + i - Z.to_nat (n / 2))%nat with i by lia. reflexivity. }
  rewrite <- (Rsum_window (length x) (Z.to_nat (n / 2)) (Z.to_nat (N + n - 1)) (fun t => s (t - Z.to_nat (n / 2))%nat * (nth (t - Z.to_nat (n / 2)) x 0 - nth (t - Z.to_nat (n / 2)) y 0) ^ 2)) by lia.
  rewrite <- Rsum_plus. apply Rsum_ext. intros t Htt. unfold splice. rewrite Hx.
  destruct (Nat.leb_spec (Z.to_nat (n / 2)) t) as [L1|L1]; [|cbn [andb]; ring]. destruct (Nat.ltb_spec t (Z.to_nat (n / 2) + length y)) as [L2|L2]; [|cbn [andb]; ring]. cbn [andb].
  set (i := (t - Z.to_nat (n / 2))%nat). assert (Hi : (i < Z.to_nat N)%nat) by (unfold i; lia). specialize (V i Hi). specialize (Hs i Hi). unfold s in *. cbv zeta in V.
  replace (Z.to_nat (n / 2) + i)%nat with t in * by (unfold i; lia). destruct V as [V _]. change (1 + 1)%nat with 2%nat in V. specialize (V (conj Ht Hs)). rewrite V.
  replace (Z.to_nat n) with (length w) by lia. rewrite <- over_wsum in *.
  rewrite (over_ext _ _ _ _ (fun h r => nth r (frame modulated (length w) Tx h) 0 * nth r w 0 ^ 1) (fun h r => nth r (frame modulated (length w) Tx h) 0 * nth r w 0)) by (intros; ring).
  pose proof (best_value (Z.to_nat hop) (length w) (ncols Tx) t (fun _ r => nth r w 0) (fun h r => nth r (frame modulated (length w) Tx h) 0) (nth i x 0)) as B. cbv beta zeta in B.
  apply B. lra.
Qed.

Lemma usable_length x y a n w : usable x a n w -> length y = length x -> usable y a n w.
Proof.
  intros (H1 & H2 & H3 & H4 & H5 & H6 & H7 & H8) L. unfold usable. rewrite L. repeat split; try assumption. intros ->. destruct x; [congruence|discriminate].
Qed.
(** For zero padding: the distance of any signal's [stft] to [Tx] is that of [istft(Tx)]'s [stft], plus a weighted squared distance to [istft(Tx)]. *)
Theorem istft_nearest tiny a n w Tx N wa wl nf No f32 y : (3 <= n)%nat -> a_padtype a = PZero -> 0 <= tiny ->
  (forall x, length x = N -> usable x a n w) -> nrows Tx = (n / 2 + 1)%nat ->
  istft_ready Tx wa w (Z.of_nat n) (Z.of_nat N) (a_hop a) wl nf No f32 ->
  (forall i, (i < N)%nat -> tiny < wsum w (Z.to_nat (a_hop a)) (ncols Tx) 2 (n / 2 + i)) ->
  istft tiny Tx wa nf wl (a_hop a) No (a_modulated a) 1 f32 = Ok y ->
  length y = N /\ exists Y dY, stft y a = Ok (Y, dY) /\
  forall x, length x = N -> exists X dX, stft x a = Ok (X, dX) /\
    energy n (mdiff X Tx) = energy n (mdiff Y Tx) + INR n * Rsum N (fun i => wsum w (Z.to_nat (a_hop a)) (ncols Tx) 2 (n / 2 + i) * (nth i x 0 - nth i y 0) ^ 2).
Proof.
  intros Hn Hz Ht U HR Rd Hs E.
  destruct (istft_any _ _ _ _ _ _ _ _ _ (a_modulated a) _ 1 tiny Rd) as (y' & E' & Ly & _). rewrite E in E'. injection E' as <-.
  assert (Ly' : length y = N) by lia. split; [exact Ly'|]. pose proof Rd as (_ & _ & _ & _ & _ & _ & HC & _).
  assert (En : Z.to_nat (Z.of_nat n / 2) = (n / 2)%nat) by lia.
  destruct (misfit_energy y a n w Tx (U y Ly') Hn Hz HR ltac:(rewrite Ly'; exact HC)) as (Y & dY & EY & MY). exists Y, dY. split; [exact EY|].
  intros x Lx. destruct (misfit_energy x a n w Tx (U x Lx) Hn Hz HR ltac:(rewrite Lx; exact HC)) as (X & dX & EX & MX). exists X, dX. split; [exact EX|].
  rewrite MX, MY. pose proof (misfit_pythagoras _ _ _ _ _ _ _ _ _ (a_modulated a) _ tiny y Rd Ht) as Q. cbv zeta in Q. rewrite En in Q.
  rewrite (Q ltac:(intros i Hi; apply Hs; lia) E x ltac:(lia)). rewrite Lx. ring.
Qed.
(** so it is nearest, and the only nearest *)
Theorem istft_only_nearest tiny a n w Tx N wa wl nf No f32 y : (3 <= n)%nat -> a_padtype a = PZero -> 0 <= tiny ->
  (forall x, length x = N -> usable x a n w) -> nrows Tx = (n / 2 + 1)%nat ->
  istft_ready Tx wa w (Z.of_nat n) (Z.of_nat N) (a_hop a) wl nf No f32 ->
  (forall i, (i < N)%nat -> tiny < wsum w (Z.to_nat (a_hop a)) (ncols Tx) 2 (n / 2 + i)) ->
  istft tiny Tx wa nf wl (a_hop a) No (a_modulated a) 1 f32 = Ok y ->
  forall x, length x = N -> x <> y -> exists X dX Y dY, stft x a = Ok (X, dX) /\ stft y a = Ok (Y, dY) /\ energy n (mdiff Y Tx) < energy n (mdiff X Tx).
Proof.
  intros Hn Hz Ht U HR Rd Hs E x Lx Ne. destruct (istft_nearest _ _ _ _ _ _ _ _ _ _ _ _ Hn Hz Ht U HR Rd Hs E) as (Ly & Y & dY & EY & F). destruct (F x Lx) as (X & dX & EX & Q).
  exists X, dX, Y, dY. split; [exact EX|]. split; [exact EY|]. rewrite Q.
  assert (Hpos : 0 < Rsum N (fun i => wsum w (Z.to_nat (a_hop a)) (ncols Tx) 2 (n / 2 + i) * (nth i x 0 - nth i y 0) ^ 2)).
  { destruct (list_eq_dec Req_EM_T x y) as [|_]; [contradiction|].
    assert (D : exists i, (i < N)%nat /\ nth i x 0 <> nth i y 0).
    { destruct (Exists_dec (fun i => nth i x 0 <> nth i y 0) (seq 0 N)) as [H|H].
      - intros i. destruct (Req_EM_T (nth i x 0) (nth i y 0)); [right|left]; auto.
      - apply Exists_exists in H. destruct H as (i & Hi & Hd). apply in_seq in Hi. exists i. split; [lia|exact Hd].
      - exfalso. apply Ne. apply list_eq_nth with (d := 0); [lia|]. rewrite Lx. intros i Hi. destruct (Req_EM_T (nth i x 0) (nth i y 0)); [assumption|].
        exfalso. apply H, Exists_exists. exists i. split; [apply in_seq; lia|assumption]. }
    destruct D as (i & Hi & Hd). replace N with (i + (1 + (N - i - 1)))%nat by lia. rewrite !Rsum_app.
    assert (P : forall j, (j < N)%nat -> 0 <= wsum w (Z.to_nat (a_hop a)) (ncols Tx) 2 (n / 2 + j) * (nth j x 0 - nth j y 0) ^ 2).
    { intros j Hj. specialize (Hs j Hj). apply Rmult_le_pos; [lra|apply pow2_ge_0]. }
    assert (P1 : 0 <= Rsum i (fun i => wsum w (Z.to_nat (a_hop a)) (ncols Tx) 2 (n / 2 + i) * (nth i x 0 - nth i y 0) ^ 2)) by (apply Rsum_nonneg; intros; apply P; lia).
    assert (P2 : 0 <= Rsum (N - i - 1) (fun j => (fun i => wsum w (Z.to_nat (a_hop a)) (ncols Tx) 2 (n / 2 + i) * (nth i x 0 - nth i y 0) ^ 2) (i + (1 + j))%nat)) by (apply Rsum_nonneg; intros; apply P; lia).
    cbv beta in P2. cbn [Rsum]. rewrite Nat.add_0_r. specialize (Hs i Hi).
    assert (0 < wsum w (Z.to_nat (a_hop a)) (ncols Tx) 2 (n / 2 + i) * (nth i x 0 - nth i y 0) ^ 2).
    { apply Rmult_lt_0_compat; [lra|]. assert (nth i x 0 - nth i y 0 <> 0) by lra. pose proof (pow_nonzero _ 2 H). pose proof (pow2_ge_0 (nth i x 0 - nth i y 0)). lra. }
    lra. }
  pose proof (lt_0_INR n ltac:(lia)). assert (0 < INR n * Rsum N (fun i => wsum w (Z.to_nat (a_hop a)) (ncols Tx) 2 (n / 2 + i) * (nth i x 0 - nth i y 0) ^ 2)) by (apply Rmult_lt_0_compat; assumption). lra.
Qed.
