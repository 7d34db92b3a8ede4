(** Two clicks through [ssq_stft]. *)
From Coq Require Import Reals Lra Lia List ZifyBool ZifyNat.
Import ListNotations.
From Verif Require Import Py Round Padding PaddingProofs Parallel Cplx CplxProofs Buffer BufferProofs Freqs Stft StftProofs WindowProofs
  Squeeze SqueezeProofs SqueezeThms SqueezeThms2 SqueezeThms3 Scales Ssqueeze SsqueezeProofs StftTone StftToneThms StftToneWitness StftMap StftEnergy StftMapWit NoiseSsq Click.
Import Stft.
Local Open Scope R_scope.
Ltac Zify.zify_post_hook ::= Z.div_mod_to_equations.

Definition clicks : list R := tab 20 (fun i => if (i =? 4)%nat then 3 else if (i =? 14)%nat then 5 else 0).
Lemma clicks_at i : (i < 20)%nat -> nth i clicks 0 = if (i =? 4)%nat then 3 else if (i =? 14)%nat then 5 else 0.
Proof. intros H. unfold clicks. apply nth_tab, H. Qed.
Lemma hann8_mid : nth 4 (hann 8) 0 = 1.
Proof.
  unfold hann. rewrite nth_tab by lia. replace (2 * PI * INR 4 / INR 8) with PI by (cbn [INR]; field). rewrite cos_PI. lra.
Qed.
Lemma clicks_case ord gw : valid_order ord -> let a := SA 1 (WArray (hann 8)) (Some 8%Z) None 2 true PZero false in
  exists Tx X f, ssq_stft ord clicks a (Some 8) None (SS None SqSum (Some (1 / 100)) false gw true) = Ok (Tx, X, f, make_Sfs 5 8) /\ nrows Tx = 5%nat /\ ncols Tx = 10%nat /\
  forall k, (k <= 4)%nat -> el Tx k 2%nat = el X k 2%nat /\ Cabs (el Tx k 2%nat) = 3 /\ el Tx k 7%nat = el X k 7%nat /\ Cabs (el Tx k 7%nat) = 5.
Proof.
  intros Ho a. set (s := SS None SqSum (Some (1 / 100)) false gw true).
  assert (Hl : length clicks = 20%nat) by apply tab_length.
  assert (U : usable clicks a 8 (hann 8)).
  { unfold a. change 8%Z with (Z.of_nat 8). apply hann_usable; [rewrite Hl; lia|lia|lia|discriminate|right; reflexivity]. }
  assert (Er : process_fs_and_t (Some 8) None (length clicks) = Ok 8) by (unfold process_fs_and_t; destruct (Rle_dec 8 0); [lra|reflexivity]).
  assert (H1 : 8 / INR 8 = 1) by (cbn [INR]; field).
  destruct (ssq_click ord clicks a (Some 8) None s 8 8 (hann 8) (1 / 100) Ho U Er) as (Tx & X & f & ET & RT & CT & V);
    [rewrite H1; apply EPS64_le1|lia|reflexivity|lia|reflexivity|reflexivity|reflexivity|].
  destruct (stft_cells clicks (rated a 8) 8 (hann 8) U) as (xp & X1 & dX1 & _ & _ & _ & E1 & _ & _ & _ & C1 & _).
  assert (X1 = X) as ->.
  { revert ET. unfold ssq_stft. rewrite Er. cbn [bind]. cbn [s s_freqs bind]. fold (rated a 8). rewrite E1. cbn [bind].
    cbv zeta. intros ET. match type of ET with bind ?m _ = _ => destruct m as [z|]; [|discriminate ET] end. cbn [bind] in ET.
    repeat match type of ET with context [match ?p with pair _ _ => _ end] => destruct p end. injection ET; intros; subst; try reflexivity; congruence. }
  rewrite Hl in C1. cbn [rated a a_hop] in C1. assert (CX : ncols X = 10%nat) by (cbn in C1; lia).
  exists Tx, X, f. split; [exact ET|]. split; [exact RT|]. split; [congruence|]. intros k Hk.
  assert (Hc : forall h p, (h = 2 /\ p = 4 \/ h = 7 /\ p = 14)%nat -> click clicks 8 (Z.to_nat (a_hop a)) h p).
  { intros h p Hhp. unfold click, under. change (Z.to_nat (a_hop a)) with 2%nat. rewrite Hl. split; [lia|]. split; [lia|]. intros i Hi Hu Hne. rewrite clicks_at by exact Hi.
    destruct (Nat.eqb_spec i 4), (Nat.eqb_spec i 14); try reflexivity; lia. }
  assert (Hr : forall h p c, (h = 2 /\ p = 4 \/ h = 7 /\ p = 14)%nat -> nth p clicks 0 = c -> 1 <= c -> el Tx k h = el X k h /\ Cabs (el Tx k h) = c).
  { intros h p c Hhp Ep Hc1. destruct (V h p ltac:(lia) (or_introl eq_refl) (Hc h p Hhp) k ltac:(lia)) as [V1 V2].
    change (Z.to_nat (a_hop a)) with 2%nat in *. replace (p + 8 / 2 - 2 * h)%nat with 4%nat in * by (change (8 / 2)%nat with 4%nat; lia).
    rewrite hann8_mid, Ep, Rmult_1_r, Rabs_right in V1, V2 by lra. cbn [s s_flip s_get_w] in V2.
    assert (Hkp : kept gw (1 / 100) c = true) by (unfold kept; destruct gw; destruct (Rlt_dec _ _); try reflexivity; lra).
    rewrite Hkp, H1 in V2. rewrite V2. replace (Cmul (RtoC 1) (el X k h)) with (el X k h) by (apply C_eq; cbn; ring). split; [reflexivity|exact V1]. }
  destruct (Hr 2%nat 4%nat 3 ltac:(lia)) as [A1 A2]; [rewrite clicks_at by lia; reflexivity|lra|].
  destruct (Hr 7%nat 14%nat 5 ltac:(lia)) as [B1 B2]; [rewrite clicks_at by lia; reflexivity|lra|]. repeat split; assumption.
Qed.
