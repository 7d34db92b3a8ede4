(** The inverse of [ssq_cwt] when coefficients fall below [gamma], and when the signal changes. *)
From Coq Require Import Reals Lra ZifyBool ZifyNat.
From Verif Require Import Py Round Parallel Cplx Padding Buffer Freqs Squeeze Scales Ssqueeze Cwt SsqCwt CwtThms
  SqueezeProofs SsqueezeProofs CwtWitness CwtWitness2 SsqCwtWitness ToneThms SsqCwtInv SsqStable SsqStableWitness.
Local Open Scope R_scope.

(** * C34: the threshold costs at most [gamma] per row *)

(** as C34_issq_is_icwt, whatever the coefficients *)
Theorem C34_within_gamma ord py f fam q nv x s r s' Css pt rp : valid_order ord ->
  q_order q = None -> q_sq q = SqSum -> q_diff q <> DNumeric -> 0 <= ssq_gamma q -> Css <> 0 ->
  caught ord py f fam q nv x s r s' ->
  exists y z, issq_cwt Css (r_Tx r) None = Ok (One y) /\
    icwt f Css (r_Wx r) (r_scales r) (q_f64 q) None true true None 0 pt rp = Ok z /\
    length y = length x /\ length z = length x /\
    forall j, (j < length x)%nat ->
      Rabs (nth j y 0 - nth j z 0) <= 2 / Rabs Css * (ln 2 / IZR nv) * (INR (length (r_scales r)) * ssq_gamma q).
Proof. exact (issq_icwt_gamma ord py f fam q nv x s r s' Css pt rp). Qed.
Print Assumptions C34_within_gamma.

(** * C151: small changes of the signal are small changes of what is recovered *)

(** by how much the coefficients differ; the frequencies found may differ arbitrarily *)
Theorem C151_moves ord py f fam q nv x y s rx sx ry sy Css : valid_order ord ->
  q_order q = None -> q_sq q = SqSum -> q_diff q <> DNumeric -> 0 <= ssq_gamma q -> Css <> 0 -> length x = length y ->
  caught ord py f fam q nv x s rx sx -> caught ord py f fam q nv y s ry sy ->
  exists u v, issq_cwt Css (r_Tx rx) None = Ok (One u) /\ issq_cwt Css (r_Tx ry) None = Ok (One v) /\
    length u = length x /\ length v = length x /\
    forall j, (j < length x)%nat ->
      Rabs (nth j u 0 - nth j v 0) <= 2 / Rabs Css * (ln 2 / IZR nv) *
        Rsum (length (r_scales rx)) (fun i => Cabs (Csub (el (r_Wx rx) i j) (el (r_Wx ry) i j)) + ssq_gamma q).
Proof. exact (issq_moves ord py f fam q nv x y s rx sx ry sy Css). Qed.
Print Assumptions C151_moves.

(** by how much the signals differ; [P] bounds the wavelet *)
Theorem C151_stable ord py f fam q nv x y s rx sx ry sy Css P : valid_order ord ->
  q_order q = None -> q_sq q = SqSum -> q_diff q <> DNumeric -> 0 <= ssq_gamma q -> Css <> 0 -> length x = length y ->
  real_valued f -> s_cache s = None \/ use_cache true (q_vec q) (q_cache q) = false -> 0 <= P -> (forall w, Cabs (wf f w) <= P) ->
  caught ord py f fam q nv x s rx sx -> caught ord py f fam q nv y s ry sy ->
  exists u v zp n1, issq_cwt Css (r_Tx rx) None = Ok (One u) /\ issq_cwt Css (r_Tx ry) None = Ok (One v) /\
    pad_input (q_pad q) (lin 1 (-1) x y) = Ok (zp, n1) /\
    forall j, (j < length x)%nat ->
      Rabs (nth j u 0 - nth j v 0) <= 2 / Rabs Css * (ln 2 / IZR nv) * INR (length (r_scales rx)) *
        (P * sqrt (Rsum (length zp) (fun m => nth m zp 0 ^ 2)) + ssq_gamma q).
Proof. exact (issq_stable ord py f fam q nv x y s rx sx ry sy Css P). Qed.
Print Assumptions C151_stable.

(** one signal above, the other below [gamma] *)
Example C151_case : exists rx sx ry sy,
  caught serial_order false flat_wave fam0 qs 1 [1; 1; 1] st0 rx sx /\
  caught serial_order false flat_wave fam0 qs 1 [1 / 4; 1 / 4; 1 / 4] st0 ry sy /\
  el (r_Wx rx) 0 1 = C1 /\ el (r_Wx ry) 0 1 = RtoC (1 / 4) /\ ~ passes qs (Cabs (el (r_Wx ry) 0 1)) /\ passes qs (Cabs (el (r_Wx rx) 0 1)) /\
  valid_order serial_order /\ q_order qs = None /\ q_sq qs = SqSum /\ q_diff qs <> DNumeric /\ 0 <= ssq_gamma qs /\ (1 : R) <> 0 /\
  real_valued flat_wave /\ s_cache st0 = None /\ forall w, Cabs (wf flat_wave w) <= 1.
Proof. exact stable_case. Qed.

(** the [gamma] in the bound cannot go *)
Theorem C151_jumps K : exists e rx sx ry sy u v, 0 < e /\
  caught serial_order false flat_wave fam0 qs 1 [1 / 2 + e; 1 / 2 + e; 1 / 2 + e] st0 rx sx /\
  caught serial_order false flat_wave fam0 qs 1 [1 / 2; 1 / 2; 1 / 2] st0 ry sy /\
  issq_cwt 1 (r_Tx rx) None = Ok (One u) /\ issq_cwt 1 (r_Tx ry) None = Ok (One v) /\
  K * e < Rabs (nth 0 u 0 - nth 0 v 0).
Proof. exact (recovered_jumps K). Qed.
Print Assumptions C151_jumps.
