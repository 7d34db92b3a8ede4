(** With a rectangular window a tone on a bin gets its row's weight; a case. *)
From Coq Require Import Reals Lra ZifyBool ZifyNat.
From Verif Require Import Py Cplx CplxProofs CwtEnergy SsqRoundTrip Padding Buffer BufferProofs Freqs Stft StftProofs StftMap StftEnergy StftInverse StftLsq Separate SymmInst StftMap2 StftTone StftToneThms StftToneWitness StftMapWit StftFilter StftFilter2.
Import Stft.
Local Open Scope R_scope.
Ltac Zify.zify_post_hook ::= Z.div_mod_to_equations.

Lemma share_own n w q : (q < n)%nat -> share n w (2 * PI * INR q / INR n) q = Rsum n (fun u => nth u w 0) ^ 2 / (INR n * Rsum n (fun u => nth u w 0 ^ 2)).
Proof.
  intros Hq. unfold share. f_equal. rewrite (Csum_ext n _ (fun u => RtoC (nth u w 0))).
  - rewrite Csum_RtoC. unfold Cnorm2, RtoC. cbn [fst snd]. ring.
  - intros u Hu. replace (- (2 * PI * INR q / INR n - 2 * PI * INR q / INR n) * INR u) with 0 by ring. rewrite cis_0. ring.
Qed.
Theorem gain_flat n w c (m : nat -> R) q : (q < n)%nat -> c <> 0 -> (forall u, (u < n)%nat -> nth u w 0 = c) ->
  gain n w (fun k => RtoC (m k)) (2 * PI * INR q / INR n) = RtoC (m (Nat.min q (n - q))).
Proof.
  intros Hq Hc Hw. assert (Nn : INR n <> 0) by (apply not_0_INR; lia).
  assert (S2 : Rsum n (fun u => nth u w 0 ^ 2) = INR n * c ^ 2) by (rewrite (Rsum_ext n _ (fun _ => c ^ 2)) by (intros u Hu; rewrite Hw by exact Hu; reflexivity); apply Rsum_const).
  assert (S1 : Rsum n (fun u => nth u w 0) = INR n * c) by (rewrite (Rsum_ext n _ (fun _ => c)) by (intros u Hu; apply Hw, Hu); apply Rsum_const).
  assert (P : 0 < Rsum n (fun u => nth u w 0 ^ 2)) by (rewrite S2; apply Rmult_lt_0_compat; [apply lt_0_INR; lia|rewrite <- Rsqr_pow2; apply Rsqr_pos_lt; exact Hc]).
  assert (Own : share n w (2 * PI * INR q / INR n) q = 1) by (rewrite share_own by exact Hq; rewrite S1, S2; field; split; assumption).
  rewrite gain_real. f_equal. rewrite (Rsum_single n _ q Hq).
  - rewrite Own. ring.
  - intros k Hk Hne. pose proof (share_total n w (2 * PI * INR q / INR n) ltac:(lia) P) as T.
    assert (Z : Rsum n (fun j => if (j =? q)%nat then 0 else share n w (2 * PI * INR q / INR n) j) = 0).
    { assert (E : Rsum n (fun j => share n w (2 * PI * INR q / INR n) j - (if (j =? q)%nat then 1 else 0)) = 0).
      { rewrite Rsum_sub. change (Rsum n (fun i => share n w (2 * PI * INR q / INR n) i)) with (Rsum n (share n w (2 * PI * INR q / INR n))). rewrite T.
        rewrite (Rsum_single n _ q Hq); [rewrite Nat.eqb_refl; ring|]. intros i Hi Hiq. apply Nat.eqb_neq in Hiq. rewrite Hiq. reflexivity. }
      refine (eq_trans _ E). apply Rsum_ext. intros j Hj. destruct (Nat.eqb_spec j q) as [->|_]; [rewrite Own; ring|ring]. }
    assert (Nf : forall j, 0 <= (if (j =? q)%nat then 0 else share n w (2 * PI * INR q / INR n) j)) by (intros j; destruct (j =? q)%nat; [apply Rle_refl|apply share_nonneg; lia]).
    pose proof (Rsum_zero_terms n _ Nf Z k Hk) as H. cbv beta in H. apply Nat.eqb_neq in Hne. rewrite Hne in H. rewrite H. ring.
Qed.

(** four-sample frames, weights 0, 1, 5: a constant disappears, the quarter-rate tone stays *)
Definition four : list R := [1; 1; 1; 1].
Definition a4 : stft_args := SA 1 (WArray four) (Some 4%Z) None 1 true PReflect false.
Definition m3 (k : nat) : R := nth k [0; 1; 5] 0.
Lemma four_usable x : (1 <= length x)%nat -> usable x a4 4 four.
Proof.
  intros Hx. unfold usable, a4. cbn [a_hop a_window a_f32 a_padtype]. split; [destruct x; [cbn in Hx; lia|discriminate]|]. split; [lia|]. split; [lia|].
  split; [reflexivity|]. split; [reflexivity|]. split; [reflexivity|]. split; [discriminate|]. left. discriminate.
Qed.
Theorem filter_case q : (q < 4)%nat -> let x := wave 3 (2 * PI * INR q / INR 4) 1 16 in
  exists Sx dSx y, stft x a4 = Ok (Sx, dSx) /\ istft 0 (weighted_rows (fun k => RtoC (m3 k)) Sx) (WArray four) (Some 4%Z) (Some 4%Z) 1 (Some 16%Z) true 1 false = Ok y /\
  forall i, (3 <= i <= 12)%nat -> nth i y 0 = m3 (Nat.min q (4 - q)) * nth i x 0.
Proof.
  intros Hq x. assert (S2 : Rsum 4 (fun r => nth r four 0 ^ 2) = 4) by (cbn; ring).
  destruct (filter_wave 3 (2 * PI * INR q / INR 4) 1 16 a4 4 four (fun k => RtoC (m3 k)) 0 (WArray four) (Some 4%Z) (Some 4%Z) (Some 16%Z) false) as (Sx & dSx & y & E & Ey & _ & V).
  - apply four_usable. unfold wave. rewrite tab_length. lia.
  - lia.
  - reflexivity.
  - reflexivity.
  - reflexivity.
  - reflexivity.
  - rewrite S2. lra.
  - exists Sx, dSx, y. split; [exact E|]. split; [exact Ey|]. intros i Hi. rewrite V by lia. rewrite (gain_flat 4 four 1) by first [lia|lra|intros u Hu; destruct u as [|[|[|[|u]]]]; [reflexivity..|lia]].
    rewrite Re_RtoC_mul. unfold x. rewrite wave_nth by lia. reflexivity.
Qed.
