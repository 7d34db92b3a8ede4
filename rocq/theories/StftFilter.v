(** Weighting the rows of [stft] and inverting filters the signal. *)
From Coq Require Import Reals Lra ZifyBool ZifyNat.
From Verif Require Import Py Cplx CplxProofs Padding Buffer BufferProofs Freqs Stft StftProofs StftMap StftEnergy StftInverse StftLsq.
Import Stft.
Local Open Scope R_scope.
Ltac Zify.zify_post_hook ::= Z.div_mod_to_equations.

(** one weight for each row *)
Definition weighted_rows (m : nat -> C) (S : mat C) : mat C := Mat (nrows S) (ncols S) (fun k h => Cmul (m k) (el S k h)).

Lemma Rsum_rot n s f : (s <= n)%nat -> (1 <= n)%nat -> Rsum n (fun u => f ((u + s) mod n)%nat) = Rsum n f.
Proof.
  intros Hs Hn. replace n with ((n - s) + s)%nat at 1 by lia. rewrite Rsum_app. replace (Rsum n f) with (Rsum (s + (n - s)) f) by (f_equal; lia). rewrite Rsum_app, Rplus_comm. f_equal.
  - apply Rsum_ext. intros u Hu. f_equal. replace (n - s + u + s)%nat with (u + 1 * n)%nat by lia. rewrite Nat.mod_add by lia. apply Nat.mod_small. lia.
  - apply Rsum_ext. intros u Hu. f_equal. rewrite Nat.mod_small by lia. lia.
Qed.

Section Conv.
Variable n : nat.
Hypothesis Hn : (1 <= n)%nat.
Lemma hermit_mul M X k : (k < n)%nat -> (forall k, (k = 0%nat \/ (2 * k)%nat = n) -> Im (X k) = 0) -> hermit n (fun k => Cmul (M k) (X k)) k = Cmul (hermit n M k) (hermit n X k).
Proof.
  intros Hk HX. unfold hermit. destruct (Nat.eqb_spec k 0) as [E|E].
  - pose proof (HX 0%nat (or_introl eq_refl)) as H. destruct (M 0%nat), (X 0%nat). unfold Im in H. cbn [snd] in H. apply C_eq; unfold Re, RtoC, Cmul; cbn [fst snd]; rewrite ?H; ring.
  - destruct (Nat.eqb_spec (2 * k) n) as [E2|E2].
    + pose proof (HX k (or_intror E2)) as H. destruct (M k), (X k). unfold Im in H. cbn [snd] in H. apply C_eq; unfold Re, RtoC, Cmul; cbn [fst snd]; rewrite ?H; ring.
    + destruct (2 * k <? n)%nat; [reflexivity|]. rewrite Cconj_mul. reflexivity.
Qed.
Lemma irfft_mul M X r : (r < n)%nat -> (forall k, (k = 0%nat \/ (2 * k)%nat = n) -> Im (X k) = 0) ->
  irfft n (fun k => Cmul (M k) (X k)) r = Rsum n (fun v => irfft n M ((r + (n - v)) mod n) * irfft n X v).
Proof.
  intros Hr HX. unfold irfft at 1.
  rewrite (idft_ext n _ (fun k => Cmul (dft n (fun v => RtoC (irfft n X v)) k) (dft n (fun v => RtoC (irfft n M v)) k))).
  - rewrite conv_theorem by assumption. rewrite Re_Csum. apply Rsum_ext. intros v Hv. unfold Re, Cmul, RtoC. cbn [fst snd]. ring.
  - intros k Hk. rewrite hermit_mul by assumption. rewrite <- !(rfft_irfft n Hn) by exact Hk. unfold rfft. ring.
Qed.
Lemma frame_filter mo M S h r : (r < n)%nat -> nrows S = (n / 2 + 1)%nat -> (forall k, (k = 0%nat \/ (2 * k)%nat = n) -> Im (el S k h) = 0) ->
  nth r (frame mo n (weighted_rows M S) h) 0 = Rsum n (fun v => irfft n M ((r + (n - v)) mod n) * nth v (frame mo n S h) 0).
Proof.
  intros Hr HR HX.
  assert (E : forall u, (u < n)%nat -> irfft n (spec_col (weighted_rows M S) h) u = Rsum n (fun v => irfft n M ((u + (n - v)) mod n) * irfft n (spec_col S h) v)).
  { intros u Hu. rewrite (irfft_ext n Hn _ (fun k => Cmul (M k) (spec_col S h k))).
    - apply irfft_mul; [exact Hu|]. intros k Hk. unfold spec_col. destruct (k <? nrows S)%nat; [apply HX, Hk|reflexivity].
    - intros k Hk. unfold spec_col, weighted_rows. cbn [nrows el]. destruct (k <? nrows S)%nat; [reflexivity|]. apply C_eq; unfold C0, Cmul; cbn [fst snd]; ring. }
  unfold frame. destruct mo.
  - set (c := (n - n / 2)%nat). assert (Hc : (c <= n)%nat) by (unfold c; lia).
    rewrite nth_fftshift by (rewrite tab_length; exact Hr). rewrite tab_length. fold c.
    assert (L : forall u, ((u + c) mod n < n)%nat) by (intros; apply Nat.mod_upper_bound; lia).
    rewrite nth_tab by apply L. rewrite E by apply L.
    rewrite <- (Rsum_rot n c (fun v => irfft n M (((r + c) mod n + (n - v)) mod n) * irfft n (spec_col S h) v) Hc Hn).
    apply Rsum_ext. intros v Hv. rewrite nth_fftshift by (rewrite tab_length; exact Hv). rewrite tab_length. fold c. rewrite nth_tab by apply L. f_equal. f_equal.
    assert (U : forall u, (u < n)%nat -> ((u + c) mod n = u + c \/ (u + c) mod n = u + c - n /\ n <= u + c)%nat).
    { intros u Hu. destruct (Nat.lt_ge_cases (u + c) n) as [G|G]; [left; apply Nat.mod_small, G|right]. split; [|exact G].
      replace (u + c)%nat with ((u + c - n) + 1 * n)%nat at 1 by lia. rewrite Nat.mod_add by lia. apply Nat.mod_small. lia. }
    pose proof (L r) as Lr. pose proof (L v) as Lv. destruct (U r Hr) as [E1|(E1 & ?)], (U v Hv) as [E2|(E2 & ?)]; rewrite ?E1, ?E2 in *.
    + f_equal. lia.
    + replace (r + c + (n - (v + c - n)))%nat with (r + (n - v) + 1 * n)%nat by lia. apply Nat.mod_add. lia.
    + replace (r + (n - v))%nat with (r + c - n + (n - (v + c)) + 1 * n)%nat by lia. symmetry. apply Nat.mod_add. lia.
    + f_equal. lia.
  - rewrite nth_tab by exact Hr. rewrite E by exact Hr. apply Rsum_ext. intros v Hv. rewrite nth_tab by exact Hv. reflexivity.
Qed.
End Conv.

(** samples under all positions of the window *)
Lemma over_full n H t g : (n <= t + 1)%nat -> (t < H)%nat -> over 1 n H t g = Rsum n (fun r => g (t - r)%nat r).
Proof.
  intros H1 H2. unfold over. replace H with ((t + 1 - n) + (n + (H - t - 1)))%nat by lia. rewrite Rsum_app, Rsum_app.
  rewrite (Rsum_0 (t + 1 - n)), (Rsum_0 (H - t - 1)).
  - rewrite Rplus_0_l, Rplus_0_r, (Rsum_rev n). apply Rsum_ext. intros r Hr.
    destruct (Nat.leb_spec ((t + 1 - n + (n - 1 - r)) * 1) t); [|lia]. destruct (Nat.ltb_spec t ((t + 1 - n + (n - 1 - r)) * 1 + n)); [|lia]. cbn [andb]. f_equal; lia.
  - intros i Hi. destruct (Nat.leb_spec ((t + 1 - n + (n + i)) * 1) t); [lia|reflexivity].
  - intros i Hi. destruct (Nat.ltb_spec t (i * 1 + n)); [lia|]. rewrite Bool.andb_false_r. reflexivity.
Qed.

(** [d] is how far back the sample lies *)
Definition cross (n : nat) (w : list R) (e : nat) (d : Z) : R :=
  Rsum n (fun v => let u := (Z.of_nat v + d)%Z in if ((0 <=? u) && (u <? Z.of_nat n))%Z then nth v w 0 * nth (Z.to_nat u) w 0 ^ e else 0).
Definition kernel (n : nat) (w : list R) (e : nat) (M : nat -> C) (d : Z) : R :=
  irfft n M (Z.to_nat (d mod Z.of_nat n)) * cross n w e d / Rsum n (fun r => nth r w 0 ^ (e + 1)).

Lemma diff_sum n (G : Z -> R) (a : nat -> nat -> R) : (1 <= n)%nat ->
  Rsum n (fun u => Rsum n (fun v => G (Z.of_nat u - Z.of_nat v)%Z * a u v)) =
  Rsum (2 * n - 1) (fun j => let d := (Z.of_nat j - Z.of_nat (n - 1))%Z in G d * Rsum n (fun v => let u := (Z.of_nat v + d)%Z in if ((0 <=? u) && (u <? Z.of_nat n))%Z then a (Z.to_nat u) v else 0)).
Proof.
  intros Hn. cbv zeta. rewrite Rsum_swap.
  rewrite (Rsum_ext (2 * n - 1) _ (fun j => Rsum n (fun v => let d := (Z.of_nat j - Z.of_nat (n - 1))%Z in let u := (Z.of_nat v + d)%Z in if ((0 <=? u) && (u <? Z.of_nat n))%Z then G d * a (Z.to_nat u) v else 0))).
  2:{ intros j Hj. rewrite <- Rsum_scal. apply Rsum_ext. intros v Hv. cbv zeta. destruct (_ && _); ring. }
  rewrite (Rsum_swap (2 * n - 1)). apply Rsum_ext. intros v Hv. cbv zeta.
  replace (2 * n - 1)%nat with ((n - 1 - v) + (n + v))%nat by lia. rewrite Rsum_app, Rsum_app. rewrite (Rsum_0 (n - 1 - v)), (Rsum_0 v).
  - rewrite Rplus_0_l, Rplus_0_r. apply Rsum_ext. intros u Hu.
    destruct (Z.leb_spec 0 (Z.of_nat v + (Z.of_nat (n - 1 - v + u) - Z.of_nat (n - 1)))); [|lia].
    destruct (Z.ltb_spec (Z.of_nat v + (Z.of_nat (n - 1 - v + u) - Z.of_nat (n - 1))) (Z.of_nat n)); [|lia]. cbn [andb]. f_equal; f_equal; lia.
  - intros i Hi. match goal with |- (if ((0 <=? ?q) && (?q <? _))%Z then _ else _) = _ => destruct (Z.ltb_spec q (Z.of_nat n)); [lia|] end. rewrite Bool.andb_false_r. reflexivity.
  - intros i Hi. match goal with |- (if ((0 <=? ?q) && _)%Z then _ else _) = _ => destruct (Z.leb_spec 0 q); [lia|reflexivity] end.
Qed.

Theorem filter_rows x a n w M tiny wa wl nf No e f32 : usable x a n w -> (3 <= n)%nat -> a_hop a = 1%Z ->
  get_window wa (or_default wl (Z.of_nat n)) (Z.of_nat n) = Ok w -> or_default nf (2 * Z.of_nat (n / 2))%Z = Z.of_nat n -> or_default No (Z.of_nat (length x)) = Z.of_nat (length x) ->
  0 <= tiny < Rsum n (fun r => nth r w 0 ^ (e + 1)) ->
  exists Sx dSx y, stft x a = Ok (Sx, dSx) /\ istft tiny (weighted_rows M Sx) wa nf wl 1 No (a_modulated a) e f32 = Ok y /\ length y = length x /\
  forall i, (n - 1 <= i)%nat -> (i + n <= length x)%nat ->
    nth i y 0 = Rsum (2 * n - 1) (fun j => let d := (Z.of_nat j - Z.of_nat (n - 1))%Z in kernel n w e M d * nth (Z.to_nat (Z.of_nat i - d)) x 0).
Proof.
  intros U Hn Hhop Hwa Hnf HNo Htiny. destruct (stft_frames x a n w U Hn) as (xp & Sx & dSx & P & E & Rw & Cc & Fr & Im0).
  destruct (stft_cells x a n w U) as (xp' & Sx' & dSx' & P' & L & Mid & E' & _). rewrite E in E'. injection E' as <- <-.
  assert (xp' = xp) as -> by (destruct P as (? & ? & P), P' as (? & ? & P'); congruence). clear P'.
  pose proof U as (Hx & _ & _ & _ & _ & Hlw & _). assert (HN : (1 <= length x)%nat) by (destruct x; [congruence|cbn; lia]).
  rewrite Hhop, Z.div_1_r in Cc. assert (Ecols : ncols Sx = length x) by lia.
  assert (RY : istft_ready (weighted_rows M Sx) wa w (Z.of_nat n) (Z.of_nat (length x)) 1 wl nf No f32).
  { unfold istft_ready. cbn [weighted_rows nrows ncols]. rewrite Ecols, Z.div_1_r. repeat split; try lia; try assumption.
    - replace ((Z.of_nat (nrows Sx) - 1) * 2)%Z with (2 * Z.of_nat (n / 2))%Z by lia. exact Hnf.
    - rewrite Z.mul_1_l. exact HNo. }
  destruct (istft_any _ _ _ _ _ _ _ _ _ (a_modulated a) _ e tiny RY) as (y & Ey & Ly & Vy). exists Sx, dSx, y. split; [exact E|]. split; [exact Ey|]. split; [lia|].
  intros i Hi1 Hi2. specialize (Vy i ltac:(lia)). cbv zeta in Vy. cbn [weighted_rows ncols] in Vy. change (Z.to_nat 1) with 1%nat in Vy.
  replace (Z.to_nat (Z.of_nat n / 2)) with (n / 2)%nat in Vy by lia. replace (Z.to_nat (Z.of_nat n)) with n in Vy by lia.
  set (t := (n / 2 + i)%nat) in *. assert (Ht1 : (n <= t + 1)%nat) by (unfold t; lia). assert (Ht2 : (t < ncols Sx)%nat) by (unfold t; lia).
  rewrite <- over_wsum, Hlw in Vy. rewrite !over_full in Vy by assumption. destruct Vy as (Vy & _). rewrite Vy by exact Htiny. clear Vy Ey Ly RY.
  set (s := Rsum n (fun r => nth r w 0 ^ (e + 1))) in *.
  transitivity (Rsum n (fun u => Rsum n (fun v => (fun d => irfft n M (Z.to_nat (d mod Z.of_nat n)) * nth (Z.to_nat (Z.of_nat i - d)) x 0) (Z.of_nat u - Z.of_nat v)%Z * (nth v w 0 * nth u w 0 ^ e))) / s).
  - f_equal. apply Rsum_ext. intros r Hr. change (Mat (nrows Sx) (ncols Sx) (fun k h => (M k * el Sx k h)%C)) with (weighted_rows M Sx).
    rewrite (frame_filter n ltac:(lia)) by first [exact Hr|exact Rw|intros k Hk; apply Im0; [lia|exact Hk]].
    rewrite Rmult_comm, <- Rsum_scal. apply Rsum_ext. intros v Hv. rewrite Fr by lia. rewrite Hhop. change (Z.to_nat 1) with 1%nat. rewrite Nat.mul_1_r.
    replace (t - r + v)%nat with (n / 2 + Z.to_nat (Z.of_nat i - (Z.of_nat r - Z.of_nat v)))%nat by (unfold t; lia). rewrite Mid by lia.
    replace (Z.to_nat ((Z.of_nat r - Z.of_nat v) mod Z.of_nat n)) with ((r + (n - v)) mod n)%nat; [ring|].
    apply Nat2Z.inj. rewrite Nat2Z.inj_mod, Z2Nat.id by (apply Z.mod_pos_bound; lia). replace (Z.of_nat (r + (n - v))) with (Z.of_nat r - Z.of_nat v + 1 * Z.of_nat n)%Z by lia. apply Z.mod_add. lia.
  - rewrite (diff_sum n (fun d => irfft n M (Z.to_nat (d mod Z.of_nat n)) * nth (Z.to_nat (Z.of_nat i - d)) x 0) (fun u v => nth v w 0 * nth u w 0 ^ e)) by lia. unfold Rdiv. rewrite Rmult_comm, <- Rsum_scal. apply Rsum_ext. intros j Hj. cbv zeta. unfold kernel, cross. cbv zeta. fold s. unfold Rdiv. ring.
Qed.
