(** Properties of experimental.py's [phase_ssqueeze]. *)
From Coq Require Import Reals Lra.
From Verif Require Import Py Round Parallel Cplx Padding Buffer Freqs Stft Squeeze Scales Ssqueeze Cwt SsqCwt
  SqueezeProofs SsqWitness CwtWitness CwtWitness2 SsqCwtInv SsqCwtProofs SsqCwtWitness Experimental ExperimentalThms ExperimentalWitness.
Local Open Scope R_scope.

(** * C80: squeezing what [ssq_cwt] returned gives [ssq_cwt]'s result *)
Theorem C80_like_ssq_cwt ord py f fam q x s r s' fs sc kind : q_order q = None -> q_diff q <> DNumeric ->
  ssq_cwt ord py f fam q x s = (Ok r, s') ->
  process_fs_and_t (q_fs q) (q_t q) (length x) = Ok fs ->
  ssq_scales (q_f64s q) (q_scales q) (q_kind q) (ssq_nv q) (length x) = Ok (sc, kind) ->
  forall Sfs pk rp pt N n1 k gd, rp = false \/ N <> None ->
  phase_ssqueeze ord (PX TCwt (ssq_freqs q kind) (Some sc) Sfs fs None (q_sq q) (Some (q_mr q)) pk (q_gamma q)
      (q_flip q) rp pt N n1 (Some (q_diff q)) k (q_get_w q) gd (q_f64 q) (q_f64 q) (q_f64v q))
    (r_Wx r) (Some (r_dWx r)) =
  Ok (PXO (r_Tx r) (r_Wx r) (r_freqs r) (Some sc) None (r_w r)
        (if q_get_w q && negb gd then None else Some (r_dWx r))).
Proof. exact (like_ssq_cwt ord py f fam q x s r s' fs sc kind). Qed.
Print Assumptions C80_like_ssq_cwt.

Theorem C80_default_freqs ord py f fam q x s r s' fs sc kind : q_order q = None -> q_diff q <> DNumeric -> q_freqs q = FNone ->
  (exists l, q_scales q = ScArr l) -> q_f64s q = q_f64 q ->
  ssq_cwt ord py f fam q x s = (Ok r, s') ->
  process_fs_and_t (q_fs q) (q_t q) (length x) = Ok fs ->
  ssq_scales (q_f64s q) (q_scales q) (q_kind q) (ssq_nv q) (length x) = Ok (sc, kind) ->
  forall Sfs pk rp pt N n1 k gd, rp = false \/ N <> None ->
  phase_ssqueeze ord (PX TCwt FNone (Some sc) Sfs fs None (q_sq q) (Some (q_mr q)) pk (q_gamma q)
      (q_flip q) rp pt N n1 (Some (q_diff q)) k (q_get_w q) gd (q_f64 q) (q_f64 q) (q_f64v q))
    (r_Wx r) (Some (r_dWx r)) =
  Ok (PXO (r_Tx r) (r_Wx r) (r_freqs r) (Some sc) None (r_w r)
        (if q_get_w q && negb gd then None else Some (r_dWx r))).
Proof. exact (like_default ord py f fam q x s r s' fs sc kind). Qed.
Print Assumptions C80_default_freqs.

(** a run of both, for both difftypes *)
Example C80_case d gw : d <> DNumeric -> (d <> DTrig -> gw = true) -> exists r s' p,
  ssq_cwt serial_order false flat_wave fam0 (arg_w d None (1 / 2) gw None) [1; 1; 1] st0 = (Ok r, s') /\
  phase_ssqueeze serial_order (PX TCwt (FArray [1; 2; 3]) (Some [1; 2; 4]) None 1 None SqSum (Some MRMaximal) (fun s => 1 / s)
      (Some (1 / 2)) true false None None None (Some d) None gw false true true true) (r_Wx r) (Some (r_dWx r)) = Ok p /\
  p_Tx p = r_Tx r /\ p_freqs p = r_freqs r /\ p_w p = r_w r.
Proof. exact (px_const d gw). Qed.

(** 'numeric': the padded transform goes in, and the result has the four margin columns at either
    end that [ssq_cwt] drops *)
Theorem C80_numeric ord q fs k N W dW sc f64s kind r : q_diff q = DNumeric -> check_diff q = Ok k -> 0 < fs ->
  squeeze_step ord q fs k N W dW sc f64s kind = Ok r ->
  forall Sfs pk pt gd, exists p,
  phase_ssqueeze ord (PX TCwt (ssq_freqs q kind) (Some sc) Sfs fs None (q_sq q) (Some (q_mr q)) pk (q_gamma q)
      (q_flip q) true pt (Some (Z.of_nat N)) None (Some DNumeric) (Some k) true gd (q_f64 q) f64s (q_f64v q))
    W (Some dW) = Ok p /\
  r_Tx r = mcols (p_Tx p) 4 (-4) /\ r_w r = opt_map (fun w => mcols w 4 (-4)) (p_w p) /\ r_freqs r = p_freqs p /\
  p_Wx p = let '(_, n1, _) := p2up (Z.of_nat N) in mcols W (n1 - 4) (n1 + Z.of_nat N + 4).
Proof. exact (like_numeric ord q fs k N W dW sc f64s kind r). Qed.
Print Assumptions C80_numeric.

(** [ssq_cwt] itself with 'numeric' is a [squeeze_step] *)
Example C80_numeric_case pt : exists r s',
  ssq_cwt serial_order false flat_wave fam0 (arg_w DNumeric (Some pt) (1 / 2) true None) nine st0 = (Ok r, s') /\
  ncols (r_Tx r) = 8%nat /\ ncols (r_Wx r) = 8%nat.
Proof. exact (numeric_nine pt). Qed.

(** * C81: squeezing what [stft] returned gives [ssq_stft]'s result *)
Theorem C81_like_ssq_stft ord x a fs t s Tx Sx v Sfs W dW fs' : 0 < fs' ->
  ssq_stft ord x a fs t s = Ok (Tx, Sx, v, Sfs) -> process_fs_and_t fs t (length x) = Ok fs' ->
  stft x (SA fs' (a_window a) (a_n_fft a) (a_win_len a) (a_hop a) (a_modulated a) (a_padtype a) (a_f32 a)) = Ok (W, dW) ->
  forall uSfs mr pk n1 d k gd, exists p,
  phase_ssqueeze ord (PX TStft (FArray (match s_freqs s with Some v => v | None => Sfs end)) None uSfs fs' None (s_sq s) mr pk
      (s_gamma s) (s_flip s) false None None n1 d k (s_get_w s) gd (negb (a_f32 a)) true (s_f64v s)) W (Some dW) = Ok p /\
  p_Tx p = Tx /\ p_Wx p = Sx /\ p_freqs p = v /\ p_Sfs p = Some Sfs.
Proof. exact (like_ssq_stft ord x a fs t s Tx Sx v Sfs W dW fs'). Qed.
Print Assumptions C81_like_ssq_stft.

Example C81_case gw : exists Tx Sx f Sfs W dW p,
  ssq_stft serial_order [1] sa4 (Some 2) None (SS None SqSum (Some (1 / 2)) false gw true) = Ok (Tx, Sx, f, Sfs) /\
  stft [1] (SA 2 (WArray [1; 2; 2; 1]) (Some 4%Z) None 1 true PZero false) = Ok (W, dW) /\
  phase_ssqueeze serial_order (PX TStft (FArray Sfs) None None 2 None SqSum None (fun s => 1 / s) (Some (1 / 2)) false false
      None None None None None gw false true true true) W (Some dW) = Ok p /\
  p_Tx p = Tx.
Proof. exact (px_stft_case gw). Qed.

(** * C82: the arguments of [phase_ssqueeze] *)
(** [rpadded=True, N=2] on a transform of four columns does not unpad *)
Theorem C82_rpadded_refuted : exists a W dW p, x_rpadded a = true /\ x_N a = Some 2%Z /\
  phase_ssqueeze serial_order a W (Some dW) = Ok p /\ ncols (p_Tx p) = 4%nat /\ ncols (p_Wx p) = 4%nat.
Proof.
  exists px_rp, w34, w34. destruct rpadded_case as (p & E & H). exists p.
  split; [reflexivity|]. split; [reflexivity|]. split; [exact E|exact H].
Qed.
Print Assumptions C82_rpadded_refuted.

(** in general, for all but 'numeric' *)
Theorem C82_rpadded_kept ord a W dW p : x_tr a = TCwt -> x_diff a <> Some DNumeric \/ x_get_w a = false ->
  phase_ssqueeze ord a W dW = Ok p -> p_Wx p = W.
Proof. exact (rpadded_kept ord a W dW p). Qed.
Print Assumptions C82_rpadded_kept.

(** ... while a [dWx] computed here is unpadded, hence narrower than [Wx] *)
Theorem C82_rpadded_mismatch a W w W' dW N n1 S g : x_tr a = TCwt -> x_rpadded a = true -> x_pad a = None ->
  x_N a = Some N -> x_n1 a = Some n1 -> x_get_w a = false -> (0 <= n1)%Z -> (0 <= N)%Z -> (n1 + N < Z.of_nat (ncols W))%Z ->
  px_transform a None W None = Ok (w, W', dW, S, g) -> W' = W /\ Z.of_nat (ncols dW) = N /\ (ncols dW < ncols W)%nat.
Proof. exact (rpadded_shapes a W w W' dW N n1 S g). Qed.
Print Assumptions C82_rpadded_mismatch.

(** [Sfs] is not used *)
Theorem C82_Sfs_unused ord a s W dW : phase_ssqueeze ord (with_Sfs a s) W dW = phase_ssqueeze ord a W dW.
Proof. exact (Sfs_ignored ord a s W dW). Qed.
Print Assumptions C82_Sfs_unused.

(** for the STFT the rows' frequencies are those of [fs], even if [t] says otherwise *)
Theorem C82_rows_from_fs ord a W dW p : x_tr a = TStft -> phase_ssqueeze ord a W dW = Ok p ->
  p_Sfs p = Some (linspace 0 (x_fs a / 2) (nrows W)).
Proof. exact (t_ignored ord a W dW p). Qed.
Print Assumptions C82_rows_from_fs.

Theorem C82_t_unused ord a t W dW v rate p : x_tr a = TStft -> x_freqs a = FArray v -> 0 < x_fs a ->
  process_fs_and_t (Some (x_fs a)) (Some t) (ncols W) = Ok rate ->
  phase_ssqueeze ord (with_t a None) W dW = Ok p <-> phase_ssqueeze ord (with_t a (Some t)) W dW = Ok p.
Proof. exact (t_no_effect ord a t W dW v rate p). Qed.
Print Assumptions C82_t_unused.
Example C82_t_case : process_fs_and_t (Some 1) (Some [0; 2; 4]) 3 = Ok (1 / (2 - 0)) .
Proof. exact two_seconds. Qed.

(** the default [difftype=None], [difforder=None] and [ssq_freqs=None] for the STFT raise *)
Theorem C82_difftype_default ord a W dW : x_tr a = TCwt -> x_rpadded a = false \/ x_N a <> None ->
  x_get_w a = true -> x_diff a = None -> phase_ssqueeze ord a W (Some dW) = Err UnboundLocalError.
Proof. exact (no_difftype ord a W dW). Qed.
Print Assumptions C82_difftype_default.

Theorem C82_difforder_default ord a W dW : x_tr a = TCwt -> x_rpadded a = false \/ x_N a <> None ->
  x_get_w a = true -> x_diff a = Some DNumeric -> x_difforder a = None ->
  phase_ssqueeze ord a W (Some dW) = Err ValueError.
Proof. exact (no_difforder ord a W dW). Qed.
Print Assumptions C82_difforder_default.

Theorem C82_stft_freqs_default ord a W dW p : x_tr a = TStft -> x_freqs a = FNone ->
  phase_ssqueeze ord a W dW <> Ok p.
Proof. exact (stft_no_freqs ord a W dW p). Qed.
Print Assumptions C82_stft_freqs_default.

Theorem C82_defaults_refuted : exists a W dW, x_diff a = None /\ x_difforder a = None /\ x_rpadded a = false /\
  phase_ssqueeze serial_order a W (Some dW) = Err UnboundLocalError.
Proof.
  exists (PX TCwt (FArray [1; 2; 3]) (Some [1; 2; 4]) None 1 None SqSum None (fun s => 1 / s) None true false None None None
    None None true false true true true), w34, w34.
  split; [reflexivity|]. split; [reflexivity|]. split; [reflexivity|].
  apply no_difftype; [reflexivity|left; reflexivity|reflexivity|reflexivity].
Qed.
Print Assumptions C82_defaults_refuted.
