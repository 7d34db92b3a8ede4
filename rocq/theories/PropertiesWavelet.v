(** C39, C43, C44, C56, C63: wavelet functions, their frequencies and caches. *)
From Coq Require Import Reals Lra Permutation.
From Verif Require Import Py Cplx Freqs Scales Cwt Wavelets ShiftProofs WaveletProofs CacheProofs.
Local Open Scope R_scope.

(** ** C43 *)
(** Frequency [k] is [2 pi k / N] up to whole turns and lies in (-pi, pi]: this fixes it. *)
Theorem C43_layout n k : (k < n)%nat ->
  length (xifn 1 n) = n /\ - PI < nth k (xifn 1 n) 0 <= PI /\
  exists z, nth k (xifn 1 n) 0 = 2 * PI * INR k / INR n + 2 * PI * IZR z.
Proof. exact (fun H => conj (xifn_length 1 n) (xifn_dft n k H)). Qed.
Print Assumptions C43_layout.

(** Sampled at integer times it is the tone of DFT bin [k]. *)
Theorem C43_dft_bin n k (m : nat) : (k < n)%nat ->
  cis (nth k (xifn 1 n) 0 * INR m) = cis (2 * PI * IZR (Z.of_nat k * Z.of_nat m) / INR n).
Proof. exact (xifn_tone n k m). Qed.
Print Assumptions C43_dft_bin.

Theorem C43_scaled sc n k : (k < n)%nat -> nth k (xifn sc n) 0 = sc * nth k (xifn 1 n) 0.
Proof. exact (xifn_scale sc n k). Qed.
Print Assumptions C43_scaled.

Example C43_layout_case :
  nth 2 (xifn 1 4) 0 = PI /\ nth 3 (xifn 1 4) 0 = - (PI / 2) /\ nth 3 (xifn 1 5) 0 = - (4 * PI / 5).
Proof. rewrite !nth_xifn by lia. cbn -[IZR]. repeat split; field. Qed.

(** [afftshift] and [aifftshift] undo each other, for every array, and lose no entry. *)
Theorem C43_shifts_inverse A (d : A) xh :
  afftshift d (aifftshift d xh) = xh /\ aifftshift d (afftshift d xh) = xh /\
  Permutation (aifftshift d xh) xh.
Proof. exact (conj (afftshift_aifftshift A d xh) (conj (aifftshift_afftshift A d xh) (aifftshift_perm A d xh))). Qed.
Print Assumptions C43_shifts_inverse.

Example C43_shifts_case :
  aifftshift 0%nat [0; 1; 2; 3; 4; 5]%nat = [4; 5; 0; 1; 2; 3]%nat /\
  aifftshift 0%nat [0; 1; 2; 3; 4]%nat = [2; 3; 4; 0; 1]%nat.
Proof. split; reflexivity. Qed.

(** Even [N] only: the centred frequencies increase. *)
Theorem C43_centred_increasing_partial n i j : (n mod 2 = 0)%nat -> (i < j < n)%nat ->
  nth i (aifftshift 0 (xifn 1 n)) 0 < nth j (aifftshift 0 (xifn 1 n)) 0.
Proof. exact (aifftshift_sorts_even n i j). Qed.
Print Assumptions C43_centred_increasing_partial.

Example C43_centred_case :
  nth 0 (aifftshift 0 (xifn 1 8)) 0 < nth 7 (aifftshift 0 (xifn 1 8)) 0.
Proof. apply C43_centred_increasing_partial; [reflexivity|lia]. Qed.

(** Odd [N]: never in increasing order; the other shift would sort them. *)
Theorem C43_odd_refuted n : (n mod 2 = 1)%nat -> (3 <= n)%nat ->
  exists i j, (i < j < n)%nat /\
    nth j (aifftshift 0 (xifn 1 n)) 0 < nth i (aifftshift 0 (xifn 1 n)) 0.
Proof. exact (aifftshift_odd_unsorted n). Qed.
Print Assumptions C43_odd_refuted.

Theorem C43_odd_other_shift n i j : (n mod 2 = 1)%nat -> (i < j < n)%nat ->
  nth i (afftshift 0 (xifn 1 n)) 0 < nth j (afftshift 0 (xifn 1 n)) 0.
Proof. exact (afftshift_sorts_odd n i j). Qed.
Print Assumptions C43_odd_other_shift.

Example C43_odd_case : (7 mod 2 = 1)%nat /\ (3 <= 7)%nat.
Proof. split; [reflexivity|lia]. Qed.

(** ** C44 *)
(** The function [gmw_l1(gamma, beta)] returns: value 2 at [(beta/gamma)^(1/gamma)], less
    anywhere else, positive for [w > 0], exactly 0 for [w <= 0]. *)
Theorem C44_gmw_l1 gamma beta f : 0 < gamma -> 0 < beta -> gmw_l1 gamma beta false = Ok f ->
  let wp := Rpower (beta / gamma) (1 / gamma) in
  f wp = 2 /\ (forall w, w <> wp -> f w < 2) /\ (forall w, 0 < w -> 0 < f w) /\
  (forall w, w <= 0 -> f w = 0).
Proof. exact (gmw_l1_peaks gamma beta f). Qed.
Print Assumptions C44_gmw_l1.

(** It rises strictly up to the peak and falls strictly after it. *)
Theorem C44_gmw_l1_unimodal gamma beta f : 0 < gamma -> 0 < beta -> gmw_l1 gamma beta false = Ok f ->
  let wp := Rpower (beta / gamma) (1 / gamma) in
  (forall a b, 0 < a -> a < b -> b <= wp -> f a < f b) /\ (forall a b, wp <= a -> a < b -> f b < f a).
Proof. exact (gmw_l1_unimodal gamma beta f). Qed.
Print Assumptions C44_gmw_l1_unimodal.

(** [centered_scale=True] moves the peak to 1. *)
Theorem C44_gmw_l1_centered gamma beta f : 0 < gamma -> 0 < beta -> gmw_l1 gamma beta true = Ok f ->
  f 1 = 2 /\ (forall w, w <> 1 -> f w < 2) /\ (forall w, w <= 0 -> f w = 0).
Proof. exact (gmw_l1_centered gamma beta f). Qed.
Print Assumptions C44_gmw_l1_centered.

(** The L2-normalised wavelet has the same peak; scipy's gamma function is only assumed
    positive at the one point used. *)
Theorem C44_gmw_l2 Gamma gamma beta f : 0 < gamma -> 0 < beta ->
  0 < Gamma ((2 * beta + 1) / gamma) -> gmw_l2 Gamma gamma beta false = Ok f ->
  let wp := Rpower (beta / gamma) (1 / gamma) in
  (forall w, w <> wp -> f w < f wp) /\ (forall w, 0 < w -> 0 < f w) /\ (forall w, w <= 0 -> f w = 0).
Proof. exact (gmw_l2_peaks Gamma gamma beta f). Qed.
Print Assumptions C44_gmw_l2.

(** Positive parameters are accepted, others rejected. *)
Theorem C44_gmw_accepts gamma beta centered :
  (0 < gamma /\ 0 < beta -> exists f, gmw_l1 gamma beta centered = Ok f) /\
  (gamma <= 0 \/ beta <= 0 -> gmw_l1 gamma beta centered = Err ValueError).
Proof.
  exact (conj (fun H => ex_intro _ _ (gmw_l1_ok gamma beta centered (proj1 H) (proj2 H)))
              (gmw_l1_err gamma beta centered)).
Qed.
Print Assumptions C44_gmw_accepts.

(** the default parameters *)
Example C44_gmw_case : exists f, gmw_l1 3 60 false = Ok f /\ f (Rpower 20 (1 / 3)) = 2 /\ f (-1) = 0.
Proof.
  destruct (C44_gmw_accepts 3 60 false) as [A _]. destruct (A ltac:(lra)) as [f E]. exists f. split; auto.
  destruct (C44_gmw_l1 3 60 f) as (P & _ & _ & Z); try lra; auto.
  replace (60 / 3) with 20 in P by field. split; auto. apply Z. lra.
Qed.

(** Morlet: 0 at 0, positive for positive frequencies; for negative ones it is negative, not 0.
    The base of the power in the constant is positive. *)
Theorem C44_morlet mu : 0 < mu ->
  morlet mu 0 = 0 /\ (forall w, 0 < w -> 0 < morlet mu w) /\ (forall w, w < 0 -> morlet mu w < 0) /\
  0 < 1 + exp (- mu ^ 2) - 2 * exp (- (3 / 4) * mu ^ 2).
Proof.
  exact (fun H => conj (morlet_zero mu) (conj (fun w => proj1 (morlet_sign mu w H))
    (conj (fun w => proj2 (morlet_sign mu w H)) (morlet_base mu (Rgt_not_eq _ _ H))))).
Qed.
Print Assumptions C44_morlet.

(** bump is 0 exactly where [|w - mu| >= .999 s] *)
Theorem C44_bump mu s om w : 0 < s ->
  (999 / 1000 * s <= Rabs (w - mu) -> bump mu s om w = (0, 0)) /\
  (Rabs (w - mu) < 999 / 1000 * s -> bump mu s om w <> (0, 0)).
Proof. exact (bump_support mu s om w). Qed.
Print Assumptions C44_bump.

(** cmhat and hhhat are 0 up to [mu] and positive after *)
Theorem C44_cmhat mu s w : 0 < s ->
  (w <= mu -> cmhat mu s w = 0) /\ (mu < w -> 0 < cmhat mu s w).
Proof. exact (cmhat_support mu s w). Qed.
Print Assumptions C44_cmhat.
Theorem C44_hhhat mu w : (w <= mu -> hhhat mu w = 0) /\ (mu < w -> 0 < hhhat mu w).
Proof. exact (hhhat_support mu w). Qed.
Print Assumptions C44_hhhat.

Example C44_others_case :
  0 < morlet (134 / 10) 1 /\ bump 5 1 0 7 = (0, 0) /\ bump 5 1 0 5 <> (0, 0) /\ cmhat 1 1 (-3) = 0 /\ 0 < cmhat 1 1 2.
Proof.
  split; [apply C44_morlet; lra|]. split; [apply C44_bump; [lra|rewrite Rabs_right; lra]|].
  split; [apply C44_bump; [lra|rewrite Rminus_diag_eq, Rabs_R0 by auto; lra]|].
  split; apply C44_cmhat; lra.
Qed.

(** ** C39 *)
(** After any history of [Psih] calls and [N] changes, the answer is a fresh evaluation at the
    length asked for (or in force), for this request or for an earlier one with scales within
    [1e-8 + 1e-5 |scale|]. *)
Theorem C39_answers_partial f h s sc N nh : s_cache s = None -> no_write h ->
  let n := asked_N N (current_N h (s_N s)) in
  exists sc' nh', fst (Psih f sc N nh (prun f h s)) = Ok (wavelet_call f sc' n nh') /\
    ((sc' = sc /\ nh' = nh) \/ (near sc sc' /\ exists N', In (PCall sc' N' nh') h)).
Proof. exact (psih_reuse f h s sc N nh). Qed.
Print Assumptions C39_answers_partial.

(** Missing for the full claim: [nohalf] is not part of the cache key, scales are compared
    with a tolerance, and the returned array is the cached one. *)
Theorem C39_fresh_partial f h s sc N nh : s_cache s = None -> no_write h ->
  (forall sc' N' nh', In (PCall sc' N' nh') h -> near sc sc' -> sc' = sc /\ nh' = nh) ->
  fst (Psih f sc N nh (prun f h s)) = Ok (wavelet_call f sc (asked_N N (current_N h (s_N s))) nh).
Proof. exact (psih_fresh f h s sc N nh). Qed.
Print Assumptions C39_fresh_partial.

Example C39_case :
  fst (Psih wone [1; 2] None true
         (prun wone [PCall [1; 2] (Some 8%nat) true; PSetN 6; PCall [1; 2] None true; PSetN 4] fresh_state)) =
  Ok (wavelet_call wone [1; 2] 4 true).
Proof.
  refine (C39_fresh_partial wone [PCall [1; 2] (Some 8%nat) true; PSetN 6; PCall [1; 2] None true; PSetN 4]
            fresh_state [1; 2] None true eq_refl _ _).
  - intros i j z H. cbn in H. repeat (destruct H as [H|H]; [discriminate|]). exact H.
  - intros sc' N' nh' H _. cbn in H. repeat (destruct H as [H|H]; [try discriminate; injection H as <- <- <-; auto|]).
    contradiction.
Qed.

(** [Psih([1.], 2, nohalf=False)] after the same with [nohalf=True]: the Nyquist bin is 1, not 1/2. *)
Theorem C39_nohalf_refuted :
  exists P, fst (Psih wone [1] (Some 2%nat) false (prun wone [PCall [1] (Some 2%nat) true] fresh_state)) = Ok P /\
            el P 0 1 = RtoC 1 /\ el (wavelet_call wone [1] 2 false) 0 1 = RtoC (1 / 2).
Proof. exact nohalf_refuted. Qed.
Print Assumptions C39_nohalf_refuted.

(** [scale = [1 + 1e-6]] after [scale = [1.]] *)
Theorem C39_allclose_refuted :
  exists P, fst (Psih wid [1 + / 10 ^ 6] (Some 2%nat) true (prun wid [PCall [1] (Some 2%nat) true] fresh_state)) = Ok P /\
            el P 0 1 <> el (wavelet_call wid [1 + / 10 ^ 6] 2 true) 0 1.
Proof. exact allclose_refuted. Qed.
Print Assumptions C39_allclose_refuted.

(** the caller writes 0 into the returned array and asks again *)
Theorem C39_write_refuted :
  exists P, fst (Psih wone [1] (Some 2%nat) true
                   (prun wone [PCall [1] (Some 2%nat) true; PWrite 0 0 C0] fresh_state)) = Ok P /\
            el P 0 0 = C0 /\ el (wavelet_call wone [1] 2 true) 0 0 = C1.
Proof. exact write_refuted. Qed.
Print Assumptions C39_write_refuted.

(** ** C56 *)
(** After any history of reads, [N] changes and (even failed) resets, for any order that visits
    every property: the reset succeeds iff every property can be computed at the current [N],
    and then each holds, and reads as, the value computed from scratch. *)
Theorem C56_reset w h n0 order : (forall p, In p all_props -> In p order) ->
  let s := trun w h (tinit n0) in
  (fst (treset w order s) = Ok tt <-> forall p, exists v, fresh_tf w (t_N s) p = Ok v) /\
  (fst (treset w order s) = Ok tt -> forall p, exists v,
     fresh_tf w (t_N s) p = Ok v /\ t_val (snd (treset w order s)) p = Some v /\
     fst (tget w p (snd (treset w order s))) = Ok v).
Proof. exact (reset_ok w h n0 order). Qed.
Print Assumptions C56_reset.

Theorem C56_any_order w h n0 o1 o2 : (forall p, In p all_props -> In p o1) ->
  (forall p, In p all_props -> In p o2) ->
  let s := trun w h (tinit n0) in
  fst (treset w o1 s) = Ok tt ->
  fst (treset w o2 s) = Ok tt /\ forall p, t_val (snd (treset w o1 s)) p = t_val (snd (treset w o2 s)) p.
Proof. exact (reset_any_order w h n0 o1 o2). Qed.
Print Assumptions C56_any_order.

(** Assigning [N] alone: a property that was read keeps its value. *)
Theorem C56_set_N_keeps w h n0 p n v : let s := trun w h (tinit n0) in
  fst (tget w p s) = Ok v -> fst (tget w p (trun w (h ++ [TGet p; TSetN n]) (tinit n0))) = Ok v.
Proof. exact (set_N_keeps w h n0 p n v). Qed.
Print Assumptions C56_set_N_keeps.

(** a wavelet whose values depend on [N]: read [wc], change [N], reset in another order *)
Definition w56 : tf_fns :=
  TF 1 (fun sc n => Ok (sc + INR n)) (fun _ sc n => Ok (sc * INR n)) (fun _ sc n => Ok (sc - INR n)).
Example C56_case :
  let s := trun w56 [TGet Wc; TSetN 8] (tinit 4) in
  t_val s Wc = Some (4 / PI * 1 + INR 4) /\
  fst (treset w56 (rev all_props) s) = Ok tt /\
  t_val (snd (treset w56 (rev all_props) s)) Wc = Some (4 / PI * 1 + INR 8).
Proof. repeat split. Qed.

(** ** C63 *)
(** The array of frequencies is left as it was if [centered_scale], or if it needs a dtype
    conversion, or if it has no negative entry. *)
Theorem C63_unchanged_partial f centered same w :
  centered = true \/ same = false \/ Forall (fun x => 0 <= x) w -> snd (gmw_array f centered same w) = w.
Proof. exact (gmw_array_keeps f centered same w). Qed.
Print Assumptions C63_unchanged_partial.

(** Evaluating again on the changed array gives the same values. *)
Theorem C63_same_values_again gamma beta f same w : 0 < gamma -> 0 < beta -> gmw_l1 gamma beta false = Ok f ->
  fst (gmw_array f false same (snd (gmw_array f false same w))) = fst (gmw_array f false same w).
Proof. exact (gmw_array_again gamma beta f same w). Qed.
Print Assumptions C63_same_values_again.

(** Otherwise negative frequencies are overwritten with 0 in the caller's array. *)
Theorem C63_overwritten_refuted f : exists w, snd (gmw_array f false true w) <> w.
Proof. exact (gmw_array_changes f). Qed.
Print Assumptions C63_overwritten_refuted.

Example C63_case : snd (gmw_array (fun x => x) false true [0; 1; 2]) = [0; 1; 2].
Proof. apply C63_unchanged_partial. right. right. repeat constructor; lra. Qed.
