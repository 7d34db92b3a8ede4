(** Thresholds 0 and 2 on coefficients 1, 3, 5. *)
From Coq Require Import Reals Lra ZifyBool ZifyNat.
From Verif Require Import Py Round Parallel Padding Buffer Cplx CplxProofs Freqs Stft Squeeze SqueezeProofs BinProofs SqueezeThms SqueezeThms2 SqueezeThms3 Scales ScaleThms Ssqueeze SsqueezeProofs
  Separate ShiftProofs Cwt CwtProofs CwtThms Pointwise SsqCwt DiffProofs SsqCwtProofs Transport RateThms SymmThms SsqWitness SsqCwtWitness SsqLinear Threshold.
Local Open Scope R_scope.

Definition x135 : mat C := Mat 3 1 (fun i _ => RtoC (2 * INR i + 1)).
Lemma between_135 : el (between 0 2 x135) 0 0 = RtoC 1 /\ el (between 0 2 x135) 1 0 = C0 /\ el (between 0 2 x135) 2 0 = C0.
Proof.
  assert (A : forall i, (i < 3)%nat -> Cabs (el x135 i 0) = 2 * INR i + 1).
  { intros i Hi. cbn [x135 el]. rewrite Cabs_RtoC. apply Rabs_right. pose proof (pos_INR i). lra. }
  unfold between. cbn [el]. rewrite !A by lia. cbn [INR]. destruct (Rlt_dec 0 (2 * 0 + 1)); [|lra]. destruct (Rle_dec (2 * 0 + 1) 2); [|lra].
  destruct (Rlt_dec 0 (2 * 1 + 1)); [|lra]. destruct (Rle_dec (2 * 1 + 1) 2); [lra|]. destruct (Rlt_dec 0 (2 * (1 + 1) + 1)); [|lra]. destruct (Rle_dec (2 * (1 + 1) + 1) 2); [lra|].
  split; [|split; reflexivity]. cbn [x135 el INR]. f_equal. ring.
Qed.
Theorem threshold_case : exists T1 T2 TB, ssqueeze serial_order (wit SqSum 0 true) x135 None (Some x135) = Ok (T1, [3; 2; 1]) /\
  ssqueeze serial_order (wit SqSum 2 true) x135 None (Some x135) = Ok (T2, [3; 2; 1]) /\
  ssqueeze serial_order (wit SqSum 0 true) (between 0 2 x135) None (Some x135) = Ok (TB, [3; 2; 1]) /\
  (forall q, (q < 3)%nat -> el T1 q 0%nat = Cadd (el T2 q 0%nat) (el TB q 0%nat)) /\
  el (between 0 2 x135) 0 0 = RtoC 1 /\ el (between 0 2 x135) 1 0 = C0 /\ el (between 0 2 x135) 2 0 = C0.
Proof.
  destruct (squeeze_ok 0 x135 None (Some x135) ltac:(cbn; lia)) as (T1 & E & R1 & K1); [congruence|].
  destruct (gamma_step serial_order (wit SqSum 0 true) x135 x135 0 2 T1 [3; 2; 1] serial_order_valid eq_refl ltac:(lra) E) as (T2 & TB & ca & E2 & EB & _ & _ & _ & H & _).
  exists T1, T2, TB. split; [exact E|]. split; [exact E2|]. split; [exact EB|]. split; [|exact between_135]. intros q Hq. apply H; [rewrite R1; cbn; lia|rewrite K1; cbn; lia].
Qed.
