(** One sample of any size. *)
From Coq Require Import Reals Lra Lia List ZifyBool ZifyNat.
Import ListNotations.
From Verif Require Import Py Round Parallel Cplx CplxProofs Padding PaddingProofs Buffer BufferProofs Freqs Stft StftProofs Squeeze SqueezeProofs BinProofs
  SqueezeThms SqueezeThms2 SqueezeThms3 Scales Ssqueeze SsqueezeProofs IssqProofs SsqWitness StftStable StftStable2.
Import Stft.
Local Open Scope R_scope.

(** four-sample window, threshold 1/2, sampling rate 2 *)
Definition a1 : stft_args := SA 1 (WArray [1; 2; 2; 1]) (Some 4%Z) None 1 true PZero false.
Definition s1 (gw : bool) : ssq_stft_opts := SS None SqSum (Some (1 / 2)) false gw true.

Lemma one_ready c gw : stft_ready [c] a1 (Some 2) None (s1 gw) 2 4 [1; 2; 2; 1] None None (1 / 2).
Proof.
  unfold stft_ready. repeat match goal with |- _ /\ _ => split end; try reflexivity; try discriminate; try lia.
  - unfold process_fs_and_t. destruct (Rle_dec 2 0); [lra|reflexivity].
  - left. discriminate.
  - change (2 <> 0). lra.
  - lra.
  - intros _. lra.
  - cbn [a1 a_window a_n_fft a_win_len a_hop a_modulated a_padtype a_f32].
    set (a' := SA 2 (WArray [1; 2; 2; 1]) (Some 4%Z) None 1 true PZero false).
    assert (Hp : pad_usable PZero 1 4) by (left; discriminate).
    destruct (stft_spec [c] a' 4 [1; 2; 2; 1] ltac:(discriminate) ltac:(lia) ltac:(cbn; lia) eq_refl eq_refl eq_refl ltac:(discriminate) Hp)
      as (xp & n_up & n2 & Sx & dSx & Epad & HL & _ & ES & HrS & HcS & _ & _ & _ & HS & HdS).
    assert (Exp : xp = [0; 0; c; 0]).
    { assert (Ep : padsignal 0 [c] PZero (Some 4%Z) = Ok ([0; 0; c; 0], 4%Z, 2%Z, 1%Z)) by reflexivity.
      change (padsignal 0 [c] PZero (Some 4%Z) = Ok (xp, n_up, 2%Z, n2)) in Epad. congruence. }
    assert (HcS' : ncols Sx = 1%nat) by (cbn in HcS; lia).
    assert (Hval : forall g k, stft_val a' 4 g xp k 0 = RtoC (c * nth 2 g 0)).
    { intros g k. unfold stft_val, phase_ref. rewrite Exp. cbn [a_hop a' a_modulated Z.to_nat].
      change (Pos.to_nat 4) with 4%nat. cbn [Csum]. change (Pos.to_nat 1 * 0)%nat with 0%nat. cbn [Nat.add nth].
      change (Z.of_nat 2 - 4 / 2)%Z with 0%Z. rewrite Z.mul_0_r. change (- 0)%Z with 0%Z.
      rewrite (tw_0 4 ltac:(lia)). apply C_eq; cbn; ring. }
    intros Sx' dSx' k j E Hk Hj _. rewrite ES in E. injection E as <- <-. rewrite HcS' in Hj. replace j with 0%nat by lia.
    rewrite HS, HdS by lia. rewrite !Hval. match goal with |- context [RtoC (c * nth 2 (if ?b then ?u else ?v) 0)] => set (d := c * nth 2 (if b then u else v) 0) end.
    unfold phase_stft_pt, phase_ratio, RtoC, Re, Im. cbn [fst snd].
    match goal with |- Rabs (_ - ?q) <= _ => replace q with 0 by (unfold Rdiv; ring) end. rewrite Rminus_0_r.
    change (Z.to_nat 4) with 4%nat in *. change (rfft_len 4) with 3%nat in *. rewrite HrS in Hk.
    assert (Hs : nth k (make_Sfs 3 2) 0 = INR k * (1 / 2)).
    { unfold make_Sfs, linspace. rewrite nth_tab by exact Hk. cbn [Nat.eqb Nat.sub INR]. field. }
    assert (Hs1 : nth 1 (make_Sfs 3 2) 0 = 1 / 2) by (unfold make_Sfs, linspace; rewrite nth_tab by lia; cbn [Nat.eqb Nat.sub INR]; field).
    rewrite Hs, Hs1. rewrite Rmax_left by (unfold EPS64; apply Rle_trans with (/ 2); [apply Rinv_le_contravar; lra|lra]).
    assert (Hk3 : INR k <= 2) by (replace 2 with (INR 2) by (simpl; ring); apply le_INR; lia).
    pose proof (pos_INR k). rewrite Rabs_right by lra.
    assert (2 <= IZR (2 ^ 62)) by (apply IZR_le; lia). lra.
Qed.

(** [c] comes back as 3 c above, as 0 below *)
Lemma one_back c gw : 0 <= c -> exists Tx Sx f Sfs, ssq_stft serial_order [c] a1 (Some 2) None (s1 gw) = Ok (Tx, Sx, f, Sfs) /\
  issq_stft Tx (WArray [1; 2; 2; 1]) None None None 1 true false = Ok (One [if spass_dec (s1 gw) (1 / 2) (2 * c) then 3 * c else 0]) /\ el Sx 0 0 = RtoC (2 * c).
Proof.
  intros Hc. destruct (ready_kept serial_order _ _ _ _ _ _ _ _ _ _ false _ serial_order_valid (one_ready c gw)) as (Tx & Sx & dSx & f & y & E1 & E2 & E3 & L & _ & _ & Hy).
  exists Tx, Sx, f, (make_Sfs (rfft_len (Z.to_nat 4)) 2). split; [exact E2|]. destruct (Hy 0%nat ltac:(cbn; lia)) as (Ey & _). clear Hy.
  assert (ES : forall k, el Sx k 0%nat = RtoC (2 * c)).
  { cbn [a1 a_window a_n_fft a_win_len a_hop a_modulated a_padtype a_f32] in E1.
    set (a' := SA 2 (WArray [1; 2; 2; 1]) (Some 4%Z) None 1 true PZero false) in *.
    assert (Hp : pad_usable PZero 1 4) by (left; discriminate).
    destruct (stft_spec [c] a' 4 [1; 2; 2; 1] ltac:(discriminate) ltac:(lia) ltac:(cbn; lia) eq_refl eq_refl eq_refl ltac:(discriminate) Hp)
      as (xp & n_up & n2 & Sx' & dSx' & Epad & HL & _ & ES & HrS & HcS & _ & _ & _ & HS & HdS).
    rewrite E1 in ES. injection ES as <- <-.
    assert (Exp : xp = [0; 0; c; 0]).
    { assert (Ep : padsignal 0 [c] PZero (Some 4%Z) = Ok ([0; 0; c; 0], 4%Z, 2%Z, 1%Z)) by reflexivity.
      change (padsignal 0 [c] PZero (Some 4%Z) = Ok (xp, n_up, 2%Z, n2)) in Epad. congruence. }
    assert (HcS' : ncols Sx = 1%nat) by (cbn in HcS; lia). intros k. rewrite HS by lia.
    unfold stft_val, phase_ref. rewrite Exp. cbn [a_hop a' a_modulated Z.to_nat].
    change (Pos.to_nat 4) with 4%nat. cbn [Csum]. change (Pos.to_nat 1 * 0)%nat with 0%nat. cbn [Nat.add nth].
    change (Z.of_nat 2 - 4 / 2)%Z with 0%Z. rewrite Z.mul_0_r. change (- 0)%Z with 0%Z.
    rewrite (tw_0 4 ltac:(lia)). apply C_eq; cbn; ring. }
  split; [|apply ES]. change (a_window a1) with (WArray [1; 2; 2; 1]) in E3. rewrite E3. do 2 f_equal. destruct y as [|y0 [|y1 y]]; cbn in L; try lia. f_equal.
  change (Z.to_nat 4 / 2)%nat with 2%nat in Ey. change (Z.to_nat (4 / 2)) with 2%nat in Ey. cbn [nth INR] in Ey. rewrite Ey. cbn [Rsum Nat.add]. rewrite !ES.
  unfold skept. rewrite Cabs_RtoC, Rabs_pos_eq by lra.
  destruct (spass_dec (s1 gw) (1 / 2) (2 * c)); unfold Re, RtoC, C0; cbn [fst]; field.
Qed.

Lemma stft_stable_case gw : stft_ready [1] a1 (Some 2) None (s1 gw) 2 4 [1; 2; 2; 1] None None (1 / 2) /\
  stft_ready [1 / 8] a1 (Some 2) None (s1 gw) 2 4 [1; 2; 2; 1] None None (1 / 2) /\
  spass (s1 gw) (1 / 2) (2 * 1) /\ ~ spass (s1 gw) (1 / 2) (2 * (1 / 8)).
Proof. split; [apply one_ready|]. split; [apply one_ready|]. unfold spass. cbn [s1 s_get_w]. destruct gw; lra. Qed.

(** the [gamma] in the bound cannot go *)
Lemma stft_jumps K : exists e Tx Sx f Sfs u Ty Sy fy v, 0 < e /\
  ssq_stft serial_order [1 / 4 + e] a1 (Some 2) None (s1 false) = Ok (Tx, Sx, f, Sfs) /\
  issq_stft Tx (WArray [1; 2; 2; 1]) None None None 1 true false = Ok (One [u]) /\
  ssq_stft serial_order [1 / 4] a1 (Some 2) None (s1 false) = Ok (Ty, Sy, fy, Sfs) /\
  issq_stft Ty (WArray [1; 2; 2; 1]) None None None 1 true false = Ok (One [v]) /\
  K * e < Rabs (u - v).
Proof.
  assert (HK : exists e, 0 < e /\ K * e < 1 / 2).
  { destruct (Rle_dec K 0). { exists 1. lra. } exists (1 / (4 * K)). split; [apply Rdiv_lt_0_compat; lra|].
    replace (K * (1 / (4 * K))) with (1 / 4) by (field; lra). lra. }
  destruct HK as (e & He & HK).
  destruct (one_back (1 / 4 + e) false ltac:(lra)) as (Tx & Sx & f & Sfs & E1 & E2 & _).
  destruct (one_back (1 / 4) false ltac:(lra)) as (Ty & Sy & fy & Sfs' & F1 & F2 & _).
  assert (Sfs' = Sfs) as ->.
  { destruct (ready_kept serial_order _ _ _ _ _ _ _ _ _ _ false _ serial_order_valid (one_ready (1 / 4) false)) as (? & ? & ? & ? & ? & _ & G1 & _).
    destruct (ready_kept serial_order _ _ _ _ _ _ _ _ _ _ false _ serial_order_valid (one_ready (1 / 4 + e) false)) as (? & ? & ? & ? & ? & _ & G2 & _).
    rewrite F1 in G1. rewrite E1 in G2. congruence. }
  exists e, Tx, Sx, f, Sfs. eexists. exists Ty, Sy, fy. eexists. split; [exact He|]. split; [exact E1|]. split; [exact E2|]. split; [exact F1|]. split; [exact F2|].
  destruct (spass_dec (s1 false) (1 / 2) (2 * (1 / 4 + e))) as [P|P]; unfold spass in P; cbn [s1 s_get_w] in P; [|lra].
  destruct (spass_dec (s1 false) (1 / 2) (2 * (1 / 4))) as [P'|P']; unfold spass in P'; cbn [s1 s_get_w] in P'; [lra|].
  rewrite Rabs_pos_eq by lra. lra.
Qed.
