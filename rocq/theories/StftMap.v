(** How [stft] and [ssq_stft] follow a change of the signal, of the sampling rate, of the position. *)
From Coq Require Import Reals Lra ZifyBool ZifyNat.
From Verif Require Import Py Round Parallel Cplx CplxProofs Padding PaddingProofs Buffer BufferProofs Freqs Stft StftProofs Squeeze SqueezeProofs BinProofs
  SqueezeThms SqueezeThms2 SqueezeThms3 Scales Ssqueeze SsqueezeProofs FreqRange Cwt CwtProofs CwtThms Transport RateThms SymmThms StftTone.
Import Stft.
Local Open Scope R_scope.
Ltac Zify.zify_post_hook ::= Z.div_mod_to_equations.

(** [stft] has a transform length, a window of that length and room to pad *)
Definition usable (x : list R) (a : stft_args) (n : nat) (w : list R) : Prop :=
  x <> [] /\ (1 <= n)%nat /\ (1 <= a_hop a)%Z /\ stft_n_fft a (Z.of_nat (length x)) = Ok (Z.of_nat n) /\
  get_window (a_window a) (stft_win_len a (Z.of_nat n)) (Z.of_nat n) = Ok w /\ length w = n /\
  (a_f32 a = true -> (a_hop a <= Z.of_nat n)%Z) /\ pad_usable (a_padtype a) (Z.of_nat (length x)) (Z.of_nat n).
Definition same_kind (a a' : stft_args) : Prop :=
  a_window a' = a_window a /\ a_n_fft a' = a_n_fft a /\ a_win_len a' = a_win_len a /\ a_hop a' = a_hop a /\
  a_modulated a' = a_modulated a /\ a_padtype a' = a_padtype a /\ a_f32 a' = a_f32 a.
Lemma usable_kind x a a' n w : same_kind a a' -> usable x a n w -> usable x a' n w.
Proof.
  intros (K1 & K2 & K3 & K4 & K5 & K6 & K7) (H1 & H2 & H3 & H4 & H5 & H6 & H7 & H8). unfold usable, stft_n_fft, stft_win_len in *.
  rewrite K1, K2, K3, K4, K6, K7. repeat split; assumption.
Qed.
Definition dwindow (a : stft_args) (w : list R) : list R :=
  if a_modulated a then map (fun v => v * a_fs a) (diff_window w) else diff_window w.
(** one cell, as a sum over the padded samples *)
Definition cell (a : stft_args) (n : nat) (g xp : list R) (k h : nat) : C :=
  Csum n (fun u => Cmul (RtoC (nth (Z.to_nat (a_hop a) * h + u) xp 0 * nth u g 0))
    (tw n (- (Z.of_nat k * (Z.of_nat u - phase_ref a (Z.of_nat n)))))).
Definition padded (x : list R) (a : stft_args) (n : nat) (xp : list R) : Prop :=
  exists n_up n2, padsignal 0 x (a_padtype a) (Some (Z.of_nat (length x) + Z.of_nat n - 1)%Z) = Ok (xp, n_up, (Z.of_nat n / 2)%Z, n2).
Lemma stft_cells x a n w : usable x a n w -> exists xp Sx dSx,
  padded x a n xp /\ Z.of_nat (length xp) = (Z.of_nat (length x) + Z.of_nat n - 1)%Z /\
  (forall i, (i < length x)%nat -> nth (n / 2 + i) xp 0 = nth i x 0) /\
  stft x a = Ok (Sx, dSx) /\ nrows Sx = (n / 2 + 1)%nat /\ nrows dSx = (n / 2 + 1)%nat /\ ncols dSx = ncols Sx /\
  Z.of_nat (ncols Sx) = ((Z.of_nat (length x) - 1) / a_hop a + 1)%Z /\
  (forall h, (h < ncols Sx)%nat -> (a_hop a * Z.of_nat h + Z.of_nat n <= Z.of_nat (length xp))%Z) /\
  forall k h, (h < ncols Sx)%nat -> el Sx k h = cell a n w xp k h /\ el dSx k h = cell a n (dwindow a w) xp k h.
Proof.
  intros (H1 & H2 & H3 & H4 & H5 & H6 & H7 & H8).
  destruct (stft_spec x a (Z.of_nat n) w H1 ltac:(lia) H3 H4 H5 ltac:(lia) H7 H8)
    as (xp & n_up & n2 & Sx & dSx & Ep & HL & Hxp & ES & HrS & HcS & HrD & HcD & Hfit & HS & HD).
  assert (En : Z.to_nat (Z.of_nat n) = n) by lia. unfold stft_val in *. rewrite En in *.
  assert (Ep2 : Z.to_nat (Z.of_nat n / 2) = (n / 2)%nat) by lia. rewrite Ep2 in *.
  exists xp, Sx, dSx. split; [exists n_up, n2; exact Ep|]. split; [exact HL|]. split; [exact Hxp|]. split; [exact ES|].
  split; [exact HrS|]. split; [exact HrD|]. split; [exact HcD|]. split; [exact HcS|]. split; [exact Hfit|].
  intros k h Hh. split; [apply HS, Hh|apply HD, Hh].
Qed.

(** ** [stft] is linear *)
Lemma cell_lin a n g al be xp yp k h : length xp = length yp ->
  cell a n g (lin al be xp yp) k h = Cadd (Cmul (RtoC al) (cell a n g xp k h)) (Cmul (RtoC be) (cell a n g yp k h)).
Proof.
  intros H. unfold cell. rewrite <- !Csum_scal, <- Csum_plus. apply Csum_ext. intros u Hu. rewrite nth_lin by exact H.
  apply C_eq; unfold Cadd, Cmul, RtoC; cbn [fst snd]; ring.
Qed.
Lemma padded_lin al be x y a n xp yp : length x = length y -> padded x a n xp -> padded y a n yp ->
  padded (lin al be x y) a n (lin al be xp yp).
Proof.
  intros HL (u1 & m1 & E1) (u2 & m2 & E2). unfold padded. rewrite lin_length by exact HL. rewrite <- HL in E2.
  unfold lin. set (z := combine x y).
  assert (Ex : x = map fst z) by (symmetry; apply map_fst_combine; auto).
  assert (Ey : y = map snd z) by (symmetry; apply map_snd_combine; auto).
  set (L := (Z.of_nat (length x) + Z.of_nat n - 1)%Z) in *. clearbody L. rewrite Ex in E1. rewrite Ey in E2.
  rewrite (padsignal_map fst (0, 0) 0) in E1 by reflexivity. rewrite (padsignal_map snd (0, 0) 0) in E2 by reflexivity.
  rewrite (padsignal_map (fun p : R * R => al * fst p + be * snd p) (0, 0) 0) by (simpl; ring).
  destruct (padsignal (0, 0) z (a_padtype a) (Some L)) as [[[[zp u] q1] q2]|]; [|discriminate]. cbn in E1, E2.
  injection E1 as <- <- E1 <-. injection E2 as <- _ _ _. exists u, q2. cbn. rewrite <- E1. repeat f_equal.
  assert (combine (map fst zp) (map snd zp) = zp) as ->; [|reflexivity].
  clear. induction zp as [|[p q] zp IH]; simpl; [reflexivity|]. f_equal. exact IH.
Qed.
Lemma padded_fun x a n xp xp' : padded x a n xp -> padded x a n xp' -> xp = xp'.
Proof. intros (u & v & E) (u' & v' & E'). rewrite E in E'. injection E' as ->. reflexivity. Qed.
Lemma usable_len x y a n w : length y = length x -> usable x a n w -> usable y a n w.
Proof.
  intros H (H1 & H2 & H3 & H4 & H5 & H6 & H7 & H8). unfold usable. rewrite H. repeat split; auto.
  destruct y, x; [congruence|discriminate|discriminate|discriminate].
Qed.
(** every cell of [Z] is the combination of those of [X], [Y] *)
Definition combines (al be : R) (X Y Z : mat C) : Prop :=
  nrows Y = nrows X /\ nrows Z = nrows X /\ ncols Y = ncols X /\ ncols Z = ncols X /\
  forall k h, (h < ncols X)%nat -> el Z k h = Cadd (Cmul (RtoC al) (el X k h)) (Cmul (RtoC be) (el Y k h)).
Theorem stft_linear x y a n w al be : usable x a n w -> length y = length x ->
  exists X dX Y dY Z dZ, stft x a = Ok (X, dX) /\ stft y a = Ok (Y, dY) /\ stft (lin al be x y) a = Ok (Z, dZ) /\
    combines al be X Y Z /\ combines al be dX dY dZ.
Proof.
  intros Hx Hl. pose proof (usable_len x y a n w Hl Hx) as Hy.
  assert (Hz : usable (lin al be x y) a n w) by (apply (usable_len x); [apply lin_length; auto|exact Hx]).
  destruct (stft_cells x a n w Hx) as (xp & X & dX & P1 & L1 & _ & E1 & R1 & D1 & K1 & C1 & F1 & V1).
  destruct (stft_cells y a n w Hy) as (yp & Y & dY & P2 & L2 & _ & E2 & R2 & D2 & K2 & C2 & F2 & V2).
  destruct (stft_cells _ a n w Hz) as (zp & Z & dZ & P3 & L3 & _ & E3 & R3 & D3 & K3 & C3 & F3 & V3).
  rewrite lin_length in C3 by auto. rewrite Hl in C2, L2.
  assert (Ez : zp = lin al be xp yp) by (apply (padded_fun _ _ _ _ _ P3), padded_lin; auto).
  assert (HL : length xp = length yp) by lia. subst zp.
  assert (Ey : ncols Y = ncols X) by lia. assert (Ezc : ncols Z = ncols X) by lia.
  exists X, dX, Y, dY, Z, dZ. split; [exact E1|]. split; [exact E2|]. split; [exact E3|]. split.
  - repeat split; try congruence. intros k h Hh.
    destruct (V1 k h Hh) as [-> _]. destruct (V2 k h ltac:(congruence)) as [-> _]. destruct (V3 k h ltac:(congruence)) as [-> _]. apply cell_lin, HL.
  - repeat split; try congruence. intros k h Hh. rewrite K1 in Hh.
    destruct (V1 k h Hh) as [_ ->]. destruct (V2 k h ltac:(congruence)) as [_ ->]. destruct (V3 k h ltac:(congruence)) as [_ ->]. apply cell_lin, HL.
Qed.
(** another rate: [Sx] is the same, [dSx] in the new units *)
Definition rated (a : stft_args) (r : R) : stft_args :=
  SA r (a_window a) (a_n_fft a) (a_win_len a) (a_hop a) (a_modulated a) (a_padtype a) (a_f32 a).
Theorem stft_rate x a n w c : usable x a n w -> a_modulated a = true ->
  exists Sx dSx Sx' dSx', stft x a = Ok (Sx, dSx) /\ stft x (rated a (c * a_fs a)) = Ok (Sx', dSx') /\
    nrows Sx' = nrows Sx /\ ncols Sx' = ncols Sx /\
    forall k h, (h < ncols Sx)%nat -> el Sx' k h = el Sx k h /\ el dSx' k h = Cmul (RtoC c) (el dSx k h).
Proof.
  intros Hx Hm. assert (Hx' : usable x (rated a (c * a_fs a)) n w) by (apply (usable_kind x a); [repeat split|exact Hx]).
  destruct (stft_cells x a n w Hx) as (xp & X & dX & P1 & L1 & _ & E1 & R1 & D1 & K1 & C1 & F1 & V1).
  destruct (stft_cells x _ n w Hx') as (yp & Y & dY & P2 & L2 & _ & E2 & R2 & D2 & K2 & C2 & F2 & V2).
  assert (yp = xp) as -> by (apply (padded_fun x a n); [exact P2|exact P1]). cbn [rated a_hop] in C2.
  exists X, dX, Y, dY. split; [exact E1|]. split; [exact E2|]. split; [congruence|]. assert (Ec : ncols Y = ncols X) by lia. split; [exact Ec|].
  intros k h Hh. destruct (V1 k h Hh) as [-> ->]. destruct (V2 k h ltac:(congruence)) as [-> ->]. split; [reflexivity|].
  unfold cell, dwindow. cbn [rated a_hop a_modulated a_fs]. unfold phase_ref. cbn [rated a_modulated]. rewrite Hm, <- Csum_scal. apply Csum_ext. intros u Hu.
  rewrite !nth_map_scal. apply C_eq; unfold Cmul, RtoC; cbn [fst snd]; ring.
Qed.
(** ** [stft] is local: a column depends on the samples under its window only *)
Definition same_frame (n hop : nat) (x x' : list R) (h h' : nat) : Prop :=
  interior n (length x) hop h /\ interior n (length x') hop h' /\
  forall u, (u < n)%nat -> nth (hop * h + u - n / 2) x 0 = nth (hop * h' + u - n / 2) x' 0.
Theorem stft_local x x' a n w Sx dSx Sx' dSx' : usable x a n w -> usable x' a n w ->
  stft x a = Ok (Sx, dSx) -> stft x' a = Ok (Sx', dSx') ->
  forall h h', (h < ncols Sx)%nat -> (h' < ncols Sx')%nat -> same_frame n (Z.to_nat (a_hop a)) x x' h h' ->
  forall k, el Sx' k h' = el Sx k h /\ el dSx' k h' = el dSx k h.
Proof.
  intros Hx Hx' E E' h h' Hh Hh' ((I1 & I2) & (I3 & I4) & Hs) k.
  destruct (stft_cells x a n w Hx) as (xp & X & dX & P1 & L1 & A1 & E1 & R1 & D1 & K1 & C1 & F1 & V1).
  destruct (stft_cells x' a n w Hx') as (yp & Y & dY & P2 & L2 & A2 & E2 & R2 & D2 & K2 & C2 & F2 & V2).
  rewrite E1 in E. rewrite E2 in E'. injection E as <- <-. injection E' as <- <-.
  destruct (V1 k h Hh) as [-> ->]. destruct (V2 k h' Hh') as [-> ->].
  assert (Hc : forall g, cell a n g yp k h' = cell a n g xp k h); [|split; apply Hc].
  intros g. unfold cell. apply Csum_ext. intros u Hu. specialize (Hs u Hu). do 3 f_equal.
  set (hop := Z.to_nat (a_hop a)) in *.
  replace (hop * h' + u)%nat with (n / 2 + (hop * h' + u - n / 2))%nat by lia. rewrite A2 by lia.
  replace (hop * h + u)%nat with (n / 2 + (hop * h + u - n / 2))%nat by lia. rewrite A1 by lia. symmetry. exact Hs.
Qed.
