(** Sharper forms found by editing the model (seeded/LOG.jsonl). *)
From Coq Require Import Reals Lra.
From Verif Require Import Py Round Parallel Cplx Padding Buffer Freqs Stft Squeeze Scales Ssqueeze Cwt SsqCwt
  SsqWitness CwtWitness CwtWitness2 SsqCwtInv SsqCwtProofs SsqCwtWitness Experimental Tighten1.
Local Open Scope R_scope.

(** * C80: the default [maprange] *)

(** without [maprange], as [ssq_cwt] with its default 'peak' *)
Theorem C80_default_maprange ord py f fam q x s r s' fs sc kind pk : q_order q = None -> q_diff q <> DNumeric -> q_mr q = MRCenter pk ->
  ssq_cwt ord py f fam q x s = (Ok r, s') ->
  process_fs_and_t (q_fs q) (q_t q) (length x) = Ok fs ->
  ssq_scales (q_f64s q) (q_scales q) (q_kind q) (ssq_nv q) (length x) = Ok (sc, kind) ->
  forall Sfs rp pt N n1 k gd, rp = false \/ N <> None ->
  phase_ssqueeze ord (PX TCwt (ssq_freqs q kind) (Some sc) Sfs fs None (q_sq q) None pk (q_gamma q)
      (q_flip q) rp pt N n1 (Some (q_diff q)) k (q_get_w q) gd (q_f64 q) (q_f64 q) (q_f64v q))
    (r_Wx r) (Some (r_dWx r)) =
  Ok (PXO (r_Tx r) (r_Wx r) (r_freqs r) (Some sc) None (r_w r)
        (if q_get_w q && negb gd then None else Some (r_dWx r))).
Proof. exact (px_default_mr ord py f fam q x s r s' fs sc kind pk). Qed.
Print Assumptions C80_default_maprange.

(** linear frequencies over the wavelet's range, from 1/4 *)
Example C80_default_maprange_case : exists r s' p,
  ssq_cwt serial_order false flat_wave fam0 arg_peak [1; 1; 1] st0 = (Ok r, s') /\
  nth 2 (r_freqs r) 0 = 1 / 4 /\
  phase_ssqueeze serial_order (PX TCwt (FKind SLin) (Some [1; 2; 4]) None 1 None SqSum None (fun s => 1 / s) (Some (1 / 2))
      true false None None None (Some DTrig) None false false true true true) (r_Wx r) (Some (r_dWx r)) = Ok p /\
  p_Tx p = r_Tx r /\ p_freqs p = r_freqs r.
Proof. exact px_default_mr_case. Qed.
