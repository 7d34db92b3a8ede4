(** The fixed polynomial test signals; [trigdiff] of padded arrays. *)
From Coq Require Import Reals Lra Lia ZifyBool ZifyNat.
From Verif Require Import Py Round Cplx CplxProofs Padding PaddingProofs Freqs Squeeze Scales Search Chirp Signals SignalsThms PolySignals PolySignalsThms
  Cwt CwtProofs CwtThms CwtThms2 CwtWitness CwtWitness2 TrigThms.
Local Open Scope R_scope.

(** * C106: [packed_poly], [poly_cubic] *)

(** three components; [fm_sum], [pp_f1] etc. (PolySignalsThms.v) give amplitudes and frequencies *)
Theorem C106_packed_fm s N k : (2 <= or_N s N)%Z -> exists x t, packed_poly s N k = Ok (x, t) /\ ten_seconds (or_N s N) t /\
  fm_sum (fun t => 1 + 3 / 10 * cos t) (fun t => (1 + 2 / 10 * cos (2 * t)) * exp (- t / 15)) (fun _ => 1)
         (pp_f1 (or_N s N)) (pp_f2 (or_N s N)) (pp_f3 (or_N s N)) x t.
Proof. exact (packed_poly_fm s N k). Qed.
Print Assumptions C106_packed_fm.

(** all below half the sampling rate [(N - 1) / 10] *)
Theorem C106_packed_sampled n u : (9 <= n)%Z -> 0 < u <= 10 ->
  0 < pp_f1 n u < (IZR n - 1) / 20 /\ Rabs (pp_f2 n u) < (IZR n - 1) / 20 /\ 0 < pp_f3 n u < (IZR n - 1) / 20.
Proof. exact (packed_poly_sampled n u). Qed.
Print Assumptions C106_packed_sampled.

(** missing: fewer samples *)
Theorem C106_packed_order_partial n : (129 <= n)%Z ->
  (forall u, 0 < u <= 10 -> 0 < pp_f2 n u < pp_f3 n u) /\ pp_f3 n 1 < pp_f1 n 1 /\ pp_f1 n 10 < pp_f2 n 10.
Proof. exact (packed_poly_order n). Qed.
Print Assumptions C106_packed_order_partial.

(** two of the three bands keep their place as [N] varies; the second is off by the term not multiplied by [adj] *)
Theorem C106_packed_adjusts_partial n m u : (0 < n)%Z -> (0 < m)%Z ->
  pp_f1 n u / IZR n = pp_f1 m u / IZR m /\ pp_f3 n u / IZR n = pp_f3 m u / IZR m /\
  pp_f2 n u / IZR n - pp_f2 m u / IZR m = 3 / 10 * cos u * (/ IZR n - / IZR m).
Proof. exact (packed_poly_scales n m u). Qed.
Print Assumptions C106_packed_adjusts_partial.

(** so the bands cross for [N = 64], and for [N = 32] one has negative frequencies *)
Theorem C106_packed_order_refuted : pp_f3 64 (1 / 32) < pp_f2 64 (1 / 32) /\ pp_f2 32 PI < 0.
Proof. exact packed_poly_small. Qed.
Print Assumptions C106_packed_order_refuted.

Theorem C106_cubic_fm s N k : (2 <= or_N s N)%Z -> exists x t, poly_cubic s N k = Ok (x, t) /\ ten_seconds (or_N s N) t /\
  fm_sum (fun _ => 1) (fun _ => 1) (fun _ => 1) (pc_f1 (or_N s N)) (pc_f2 (or_N s N)) (pc_f3 (or_N s N)) x t.
Proof. exact (poly_cubic_fm s N k). Qed.
Print Assumptions C106_cubic_fm.

(** in order, separated, below half the sampling rate, for every [N] *)
Theorem C106_cubic_bands n u : (3 <= n)%Z -> 0 <= u <= 10 ->
  0 < pc_f2 n u < pc_f1 n u /\ pc_f1 n u < pc_f3 n u < (IZR n - 1) / 20.
Proof. exact (poly_cubic_bands n u). Qed.
Print Assumptions C106_cubic_bands.

Theorem C106_cubic_adjusts n m u : (0 < n)%Z -> (0 < m)%Z -> pc_f1 n u / IZR n = pc_f1 m u / IZR m /\
  pc_f2 n u / IZR n = pc_f2 m u / IZR m /\ pc_f3 n u / IZR n = pc_f3 m u / IZR m.
Proof. exact (poly_cubic_scales n m u). Qed.
Print Assumptions C106_cubic_adjusts.
Example C106_case : exists x t, packed_poly (TS 512 default_tkw) None (TK None None None) = Ok (x, t) /\ ten_seconds 512 t /\
  0 < pp_f2 512 5 < pp_f3 512 5.
Proof.
  destruct (C106_packed_fm (TS 512 default_tkw) None (TK None None None) ltac:(cbn; lia)) as (x & t & E & Ht & _).
  exists x, t. split; [exact E|]. split; [exact Ht|]. apply C106_packed_order_partial; [lia|lra].
Qed.
Example C106_case_cubic : exists x t, poly_cubic (TS 512 default_tkw) (Some 3%Z) (TK None None None) = Ok (x, t) /\ ten_seconds 3 t /\
  0 < pc_f2 3 5 < pc_f1 3 5.
Proof.
  destruct (C106_cubic_fm (TS 512 default_tkw) (Some 3%Z) (TK None None None) ltac:(cbn; lia)) as (x & t & E & Ht & _).
  exists x, t. split; [exact E|]. split; [exact Ht|]. apply C106_cubic_bands; [lia|lra].
Qed.

(** * C54: padding first *)

(** [trigdiff(padded, rpadded=True, N=N)] is [trigdiff(A, padtype, N=N)] *)
Theorem C54_rpadded A A' k p fs : pad_mat p A = Ok (A', k) ->
  trigdiff A' fs None (Some true) (Some (Z.of_nat (ncols A))) None =
  trigdiff A fs (Some p) None (Some (Z.of_nat (ncols A))) None.
Proof. exact (trigdiff_rpadded A A' k p fs). Qed.
Print Assumptions C54_rpadded.

Example C54_rpadded_case : exists A' k, pad_mat PReflect quarter = Ok (A', k) /\ ncols A' = 8%nat /\ k = 2%Z.
Proof. eexists _, _. split; [cbv [pad_mat ncols quarter Nat.eqb]; reflexivity|]. split; reflexivity. Qed.
