(** What a constant added to the signal does to [stft]. *)
From Coq Require Import Reals Lra Lia List ZifyBool ZifyNat.
Import ListNotations.
From Verif Require Import Py Round Padding PaddingProofs Parallel Cplx CplxProofs Buffer Freqs Stft StftProofs Squeeze Scales Ssqueeze CwtThms SymmInst StftTone StftMap StftChord StftToneWitness StftChordThms.
Import Stft.
Local Open Scope R_scope.
Ltac Zify.zify_post_hook ::= Z.div_mod_to_equations.

Definition raised (c : R) (x : list R) : list R := map (fun v => v + c) x.

(** but for zero padding, the value standing for zero is not used *)
Lemma pad_any_zero (z z' : R) x pt pl : x <> [] -> pt <> PZero -> padsignal z x pt pl = padsignal z' x pt pl.
Proof.
  intros Hx Hz. rewrite !padsignal_unfold by exact Hx. destruct (pad_widths _ pl) as [[u n1] n2].
  assert (HN : (1 <= Z.of_nat (length x))%Z) by (destruct x; [congruence|cbn [length]; lia]).
  assert (K : pt <> PSymmetric -> np_pad z pt x n1 n2 = np_pad z' pt x n1 n2).
  { intros Hs. unfold np_pad. destruct ((n1 <? 0)%Z || (n2 <? 0)%Z); [reflexivity|]. f_equal. unfold tab. apply map_ext. intros i.
    destruct (np_pad_index pt (Z.of_nat (length x)) (Z.of_nat i - n1)) as [k|] eqn:Ek.
    - destruct (pad_index_rev pt (Z.of_nat (length x)) (Z.of_nat i - n1) HN Hs) as [_ Hk]. rewrite Ek in Hk. apply nth_indep. lia.
    - exfalso. revert Ek. unfold np_pad_index. destruct (_ && _)%bool; [discriminate|].
      destruct pt; try discriminate; try congruence. destruct (Z.of_nat (length x) =? 1)%Z; discriminate. }
  destruct pt; try congruence; rewrite K by discriminate; reflexivity.
Qed.

(** the frame of column [h] sees samples only, or padding that continues them *)
Definition sees (x : list R) (a : stft_args) (n h : nat) : Prop :=
  a_padtype a <> PZero \/ interior n (length x) (Z.to_nat (a_hop a)) h.

Lemma raised_frame c x a n w xp yp h : usable x a n w -> padded x a n xp -> padded (raised c x) a n yp ->
  (forall i, (i < length x)%nat -> nth (n / 2 + i) xp 0 = nth i x 0) -> (forall i, (i < length x)%nat -> nth (n / 2 + i) yp 0 = nth i (raised c x) 0) ->
  (a_hop a * Z.of_nat h + Z.of_nat n <= Z.of_nat (length xp))%Z -> sees x a n h ->
  forall u, (u < n)%nat -> nth (Z.to_nat (a_hop a) * h + u) yp 0 = nth (Z.to_nat (a_hop a) * h + u) xp 0 + c.
Proof.
  intros (Hx & Hn & Hhop & _) (u1 & m1 & P1) (u2 & m2 & P2) Sx Sy Hfit Hs u Hu. assert (Hr : raised c x <> []) by (destruct x; [congruence|discriminate]).
  destruct Hs as [Hz|[I1 I2]].
  - rewrite (pad_any_zero 0 (0 + c)) in P2 by assumption. unfold raised in P2. rewrite map_length, (padsignal_map (fun v => v + c) 0 (0 + c) x _ _ eq_refl), P1 in P2. injection P2 as <- _ _.
    rewrite (nth_indep _ 0 (0 + c)) by (rewrite map_length; lia). apply (map_nth (fun v => v + c)).
  - replace (Z.to_nat (a_hop a) * h + u)%nat with (n / 2 + (Z.to_nat (a_hop a) * h + u - n / 2))%nat by lia. rewrite Sx, Sy by lia.
    unfold raised. rewrite (nth_indep _ 0 (0 + c)) by (rewrite map_length; lia). apply (map_nth (fun v => v + c)).
Qed.

Theorem stft_offset c x a n w : usable x a n w -> a_modulated a = true -> exists X dX Y dY,
  stft x a = Ok (X, dX) /\ stft (raised c x) a = Ok (Y, dY) /\ nrows Y = nrows X /\ ncols Y = ncols X /\ nrows dY = nrows dX /\ ncols dY = ncols dX /\
  forall k h, (h < ncols X)%nat -> sees x a n h ->
    el Y k h = Cadd (el X k h) (Cmul (RtoC c) (wspec n w (Z.of_nat k))) /\
    el dY k h = Cadd (el dX k h) (Cmul (RtoC (c * a_fs a)) (wspec n (diff_window w) (Z.of_nat k))).
Proof.
  intros U Hm. assert (Hl : length (raised c x) = length x) by (unfold raised; apply map_length).
  pose proof (usable_len x (raised c x) a n w Hl U) as U'.
  destruct (stft_cells x a n w U) as (xp & X & dX & P1 & L1 & S1 & E1 & R1 & D1 & K1 & C1 & F1 & V1).
  destruct (stft_cells _ a n w U') as (yp & Y & dY & P2 & L2 & S2 & E2 & R2 & D2 & K2 & C2 & F2 & V2).
  rewrite Hl in *. assert (EC : ncols Y = ncols X) by lia.
  exists X, dX, Y, dY. split; [exact E1|]. split; [exact E2|]. split; [congruence|]. split; [exact EC|]. split; [congruence|]. split; [congruence|].
  intros k h Hh Hs. destruct (V1 k h Hh) as [-> ->]. destruct (V2 k h ltac:(lia)) as [-> ->].
  pose proof (raised_frame c x a n w xp yp h U P1 P2 S1 S2 (F1 h Hh) Hs) as Fr.
  assert (G : forall g, cell a n g yp k h = Cadd (cell a n g xp k h) (Cmul (RtoC c) (wspec n g (Z.of_nat k)))).
  { intros g. unfold cell, wspec. rewrite <- Csum_scal, <- Csum_plus. apply Csum_ext. intros u Hu. rewrite Fr by exact Hu. unfold phase_ref. rewrite Hm.
    replace (Z.of_nat n / 2)%Z with (Z.of_nat (n / 2)) by lia. apply C_eq; unfold Cadd, Cmul, RtoC; cbn [fst snd]; ring. }
  split; [apply G|]. rewrite G. f_equal. unfold dwindow. rewrite Hm, wspec_scal, RtoC_mul. ring.
Qed.

(** rows out of reach of the window's spectrum at zero do not change; neither do the frequencies found there *)
Theorem stft_offset_rows c x a n w b : usable x a n w -> a_modulated a = true -> narrow n w b -> exists X dX Y dY,
  stft x a = Ok (X, dX) /\ stft (raised c x) a = Ok (Y, dY) /\ nrows Y = nrows X /\ ncols Y = ncols X /\
  forall k h, (b < k < n - b)%nat -> (h < ncols X)%nat -> sees x a n h -> el Y k h = el X k h /\ el dY k h = el dX k h.
Proof.
  intros U Hm Hb. destruct (stft_offset c x a n w U Hm) as (X & dX & Y & dY & E1 & E2 & R1 & C1 & _ & _ & V).
  exists X, dX, Y, dY. split; [exact E1|]. split; [exact E2|]. split; [exact R1|]. split; [exact C1|]. intros k h Hk Hh Hs.
  destruct (V k h Hh Hs) as [-> ->]. pose proof U as (_ & Hn & _ & _ & _ & Hw & _).
  rewrite (diff_zero x a n ltac:(lia) w (Z.of_nat k)) by (try lia; try exact Hw; apply Hb; exact Hk). rewrite (Hb k Hk). split; ring.
Qed.
