(** A constant added to the signal changes nothing in cwt and ssq_cwt. *)
From Coq Require Import Reals List.
Import ListNotations.
From Verif Require Import Py Round Parallel Cplx CplxProofs Padding PaddingProofs Buffer Freqs Squeeze SqueezeThms Scales ScaleThms SsqWitness Cwt CwtProofs CwtThms CwtTone
  CwtWitness CwtWitness2 Ssqueeze SsqThms SsqCwt SsqCwtProofs SsqCwtInv SsqCwtWitness ToneWitness Wavelets WaveletProofs GmwOrders GmwThms Admiss AdmissThms AdmissThms2 AdmissThms3
  RoundTrip GainBound RoundTripGain GmwRoundTrip DefaultRoundTrip RoundTripWitness ChordRecover ChordWitness CwtEnergy CwtEnergyWitness Offset OffsetCwt OffsetCwtWit.
Local Open Scope R_scope.

(** * C170: cwt and ssq_cwt do not see an offset *)

(** cwt: Wx, dWx, scales and the state afterwards are the same *)
Theorem C170_cwt py inst f a x s r s' c : real_valued f -> uncached inst a s -> wf f 0 = C0 -> a_pad a <> Some PZero ->
  cwt py inst f a x s = (Ok r, s') -> cwt py inst f a (raised c x) s = (Ok r, s').
Proof. exact (cwt_blind py inst f a x s r s' c). Qed.
Print Assumptions C170_cwt.

(** ssq_cwt: everything returned is the same, whatever the difftype, squeezing, gamma and frequencies *)
Theorem C170_ssq ord py f fam q x s r s' c : q_order q = None -> real_valued f -> wf f 0 = C0 -> s_cache s = None \/ use_cache true (q_vec q) (q_cache q) = false ->
  q_pad q <> Some PZero -> ssq_cwt ord py f fam q x s = (Ok r, s') -> ssq_cwt ord py f fam q (raised c x) s = (Ok r, s').
Proof. exact (ssq_blind ord py f fam q x s r s' c). Qed.
Print Assumptions C170_ssq.

(** cwt with order k or a tuple of orders, averaged or not *)
Theorem C170_higher py (fam : nat -> wfun) o average a x s r s' c : (forall k, In k (ho_list o) -> real_valued (fam k) /\ wf (fam k) 0 = C0) -> a_pad a <> Some PZero ->
  cwt_higher_order py fam o average a x s = (Ok r, s') -> cwt_higher_order py fam o average a (raised c x) s = (Ok r, s').
Proof. exact (higher_blind py fam  o average a x s r s' c). Qed.
Print Assumptions C170_higher.

(** ssq_cwt with an order *)
Theorem C170_ssq_higher ord py f fam q o x s r s' c : q_order q = Some o -> (forall k, In k (ho_list o) -> real_valued (fam k) /\ wf (fam k) 0 = C0) ->
  q_pad q <> Some PZero -> ssq_cwt ord py f fam q x s = (Ok r, s') -> ssq_cwt ord py f fam q (raised c x) s = (Ok r, s').
Proof. exact (ssq_higher_blind ord py f fam q o x s r s' c). Qed.
Print Assumptions C170_ssq_higher.

(** any generalized Morse wavelet *)
Theorem C170_gmw ord py gamma beta g fam q x s r s' c : 0 < gamma -> 0 < beta -> gmw_l1 gamma beta false = Ok g ->
  q_order q = None -> s_cache s = None \/ use_cache true (q_vec q) (q_cache q) = false -> q_pad q <> Some PZero ->
  ssq_cwt ord py (gmw_wave g) fam q x s = (Ok r, s') -> ssq_cwt ord py (gmw_wave g) fam q (raised c x) s = (Ok r, s').
Proof. exact (gmw_blind ord py gamma beta g fam q x s r s' c). Qed.
Print Assumptions C170_gmw.

(** and its higher orders *)
Theorem C170_gmw_orders ord py f G gamma beta (h : nat -> R -> R) q o x s r s' c : (forall k, gmw_l1_k G gamma beta k false = Ok (h k)) ->
  q_order q = Some o -> q_pad q <> Some PZero ->
  ssq_cwt ord py f (fun k => gmw_wave (h k)) q x s = (Ok r, s') -> ssq_cwt ord py f (fun k => gmw_wave (h k)) q (raised c x) s = (Ok r, s').
Proof. exact (gmw_orders_blind ord py f G gamma beta h  q o x s r s' c). Qed.
Print Assumptions C170_gmw_orders.

(** two tones, 32 samples, the default wavelet, over 161 log scales, raised by any constant *)
Example C170_case : exists sc r s', process_scales_arr true sc = Ok (KLog 32) /\
  ssq_cwt serial_order false (gmw_wave gmw60) fam0 (arg_s sc) two st0 = (Ok r, s') /\
  (forall c, ssq_cwt serial_order false (gmw_wave gmw60) fam0 (arg_s sc) (raised c two) st0 = (Ok r, s')) /\ (161 <= length (r_scales r))%nat.
Proof. exact chord_raised_case. Qed.
