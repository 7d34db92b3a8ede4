(** The library's own wavelets, and a chord raised by a constant. *)
From Coq Require Import Reals Lra Lia List ZifyBool ZifyNat.
Import ListNotations.
From Verif Require Import Py Round Parallel Cplx CplxProofs Padding PaddingProofs Buffer Freqs Squeeze SqueezeThms Scales ScaleThms SsqWitness Cwt CwtProofs CwtThms CwtTone
  CwtWitness CwtWitness2 Ssqueeze SsqThms SsqCwt SsqCwtProofs SsqCwtInv SsqCwtWitness ToneWitness Wavelets WaveletProofs GmwOrders GmwThms Admiss AdmissThms AdmissThms2 AdmissThms3
  RoundTrip GainBound RoundTripGain GmwRoundTrip DefaultRoundTrip RoundTripWitness ChordRecover ChordWitness CwtEnergy CwtEnergyWitness Offset OffsetCwt.
Local Open Scope R_scope.
Ltac Zify.zify_post_hook ::= Z.div_mod_to_equations.

(** [ssq_cwt] with any generalized Morse wavelet of order 0, L1 norm *)
Theorem gmw_blind ord py gamma beta g fam q x s r s' c : 0 < gamma -> 0 < beta -> gmw_l1 gamma beta false = Ok g ->
  q_order q = None -> s_cache s = None \/ use_cache true (q_vec q) (q_cache q) = false -> q_pad q <> Some PZero ->
  ssq_cwt ord py (gmw_wave g) fam q x s = (Ok r, s') -> ssq_cwt ord py (gmw_wave g) fam q (raised c x) s = (Ok r, s').
Proof.
  intros Hg Hb Ef Hq Hs Hp E. apply ssq_blind; try assumption; [apply gmw_real|]. exact (gmw_dc gamma beta g Hg Hb Ef).
Qed.
(** the higher orders of a generalized Morse wavelet *)
Theorem gmw_orders_blind ord py f G gamma beta (h : nat -> R -> R) q o x s r s' c : (forall k, gmw_l1_k G gamma beta k false = Ok (h k)) ->
  q_order q = Some o -> q_pad q <> Some PZero ->
  ssq_cwt ord py f (fun k => gmw_wave (h k)) q x s = (Ok r, s') -> ssq_cwt ord py f (fun k => gmw_wave (h k)) q (raised c x) s = (Ok r, s').
Proof.
  intros Hh Hq Hp E. apply (ssq_higher_blind _ _ _ _ _ o); try assumption. intros k _. split; [apply gmw_real|].
  specialize (Hh k). unfold gmw_l1_k in Hh. destruct (check_gmw_args gamma beta) as [u|e]; cbn [bind] in Hh; [|discriminate Hh].
  injection Hh as <-. cbn [wf gmw_wave]. rewrite l1k_nonpos by lra. reflexivity.
Qed.

(** the chord of ChordWitness.v, raised by [c] *)
Theorem chord_raised_case : exists sc r s', process_scales_arr true sc = Ok (KLog 32) /\
  ssq_cwt serial_order false (gmw_wave gmw60) fam0 (arg_s sc) two st0 = (Ok r, s') /\
  (forall c, ssq_cwt serial_order false (gmw_wave gmw60) fam0 (arg_s sc) (raised c two) st0 = (Ok r, s')) /\ (161 <= length (r_scales r))%nat.
Proof.
  destruct two_scales as (sc & Em & HL & _).
  pose proof (log_scales_inferred true 1 64 32 (fun _ => Ok None) 5%Z sc ltac:(lra) ltac:(lia) Em ltac:(lia)) as Ep.
  destruct (two_ssq sc Ep) as (r & s' & E & Esc & Efr). exists sc, r, s'. split; [exact Ep|]. split; [exact E|]. split; [|rewrite Esc; lia].
  intros c. apply (gmw_blind serial_order false 3 60 gmw60); [lra|lra|exact default_gmw|reflexivity|left; reflexivity|discriminate|exact E].
Qed.
