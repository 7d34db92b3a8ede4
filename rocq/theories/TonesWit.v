(** The hypotheses of Tones.v hold in these cases. *)
From Coq Require Import Reals Lra Lia.
From Verif Require Import Py Round Cplx CplxProofs Squeeze Scales Search Chirp CwtTone Signals SignalsThms SignalsThms2 SignalsThms3 Tones.
Local Open Scope R_scope.

(** [cosine(8, f=2)], [cosine(9, f=2, endpoint=True)] *)
Lemma cosine_case : exists t x' t', Signals.tone cos ts0 (Some 8%Z) 2 0 (TK None None None) = Ok (CwtTone.tone 1 (2 * PI * 2 * 0 + 0) 2 8, t) /\
  nth 1 (CwtTone.tone 1 (2 * PI * 2 * 0 + 0) 2 8) 0 = 0 /\
  Signals.tone cos ts0 (Some 9%Z) 2 0 (TK None None (Some true)) = Ok (x', t') /\ nth 8 x' 0 = 1 /\ nth 0 x' 0 = 1.
Proof.
  destruct (cosine_whole ts0 (Some 8%Z) 2 0 (TK None None None) 2 8 eq_refl ltac:(lia) ltac:(discriminate)) as (t & E).
  { cbn. lra. }
  destruct (proj2 (tone_samples cos ts0 (Some 9%Z) 2 0 (TK None None (Some true))) ltac:(cbn; lia)) as (x' & t' & E' & Hx & _ & Hv & _ & Hc).
  change (Z.to_nat (own_N ts0 (Some 9%Z))) with 9%nat in *. destruct (Hc eq_refl ltac:(cbn; lia)) as (T0 & _).
  assert (X0 : nth 0 x' 0 = 1). { rewrite Hv by lia. rewrite T0. cbn. rewrite <- cos_0. f_equal. ring. }
  exists t, x', t'. split; [exact E|]. split.
  { unfold CwtTone.tone. rewrite nth_tab by lia. rewrite Rmult_1_l. transitivity (cos (PI / 2)); [|apply cos_PI2]. f_equal. rewrite !INR_IZR_INZ. change (Z.of_nat 2) with 2%Z. change (Z.of_nat 1) with 1%Z. change (Z.of_nat 8) with 8%Z. field. }
  split; [exact E'|]. split; [|exact X0]. rewrite <- X0.
  pose proof (closed_twice cos ts0 (Some 9%Z) 2 0 (TK None None (Some true)) 2 x' t' (or_introl eq_refl) ltac:(cbn; lia) eq_refl ltac:(cbn; lra) E') as H.
  rewrite Hx in H. exact H.
Qed.
(** [cos_f([1, 2], N=4)] *)
Lemma cos_f_case : exists x, tones_f cos [1; 2] 4 0 false = Ok x /\ length x = 8%nat /\ nth 5 x 0 = -1.
Proof.
  destruct (cos_f_whole [1; 2] [1; 2]%nat 4 0) as (x & E & Hl & Hv); [cbn; now replace (1 + 1) with 2 by lra|discriminate|lia|].
  exists x. split; [exact E|]. split; [exact Hl|]. change 5%nat with (1 * 4 + 1)%nat. rewrite Hv by (cbn; lia).
  unfold CwtTone.tone. rewrite nth_tab by lia. cbn [nth]. rewrite Rmult_1_l, <- cos_PI. f_equal. rewrite !INR_IZR_INZ. change (Z.of_nat 2) with 2%Z. change (Z.of_nat 1) with 1%Z. change (Z.of_nat 4) with 4%Z. field.
Qed.
(** [jumps(16, endpoint=False)], [packed(16)] *)
Lemma default_freqs_case : exists x t x' t', jumps ts0 (Some 16%Z) None (TK None None (Some false)) = Ok (x, t) /\
  nth 9 x 0 = cos (2 * PI * 2 * nth 9 t 0) /\ below_nyquist 2 t /\
  packed ts0 (Some 16%Z) None (4 / 5) (TK None None None) = Ok (x', t') /\ below_nyquist (13 * 16 / 30) t'.
Proof.
  destruct (jumps ts0 (Some 16%Z) None (TK None None (Some false))) as [[x t]|] eqn:E; [|discriminate].
  destruct (packed ts0 (Some 16%Z) None (4 / 5) (TK None None None)) as [[x' t']|] eqn:E'; [|discriminate].
  destruct (jumps_default ts0 (Some 16%Z) (TK None None (Some false)) x t eq_refl ltac:(cbn; lra) eq_refl ltac:(cbn; lia) E) as (fs & Ef & F & V).
  destruct (packed_default ts0 (Some 16%Z) (4 / 5) (TK None None None) x' t' ltac:(cbn; lra) ltac:(cbn; lia) E') as (fs' & Ef' & F' & _).
  change (or_N ts0 (Some 16%Z)) with 16%Z in *. change (16 / 4)%Z with 4%Z in *.
  exists x, t, x', t'. split; [reflexivity|]. split.
  { pose proof (V 2%nat 1%nat ltac:(lia) ltac:(lia)) as V9. change (2 * Z.to_nat 4 + 1)%nat with 9%nat in V9. rewrite V9, Ef. cbn [nth]. now replace (4 / 2) with 2 by lra. }
  split. { rewrite Forall_forall in F. apply F. rewrite Ef. right; right; left. lra. }
  split; [reflexivity|]. rewrite Forall_forall in F'. apply F'. rewrite Ef'. do 9 right. now left.
Qed.
