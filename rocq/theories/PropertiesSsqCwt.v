(** C29, C34, C57, C61: [phase_cwt_num], [ssq_cwt], and [issq_cwt] against [icwt].

    Reading guide.  [ssq_cwt ord py f fam q x s]: one call with arguments [q] on the signal
    [x], from the wavelet/FFT state [s]; [ord] is the order in which the squeezing kernel adds
    (any valid parallel schedule).  [r_Tx], [r_Wx], ... are the returned arrays. *)
From Verif Require Import Py Padding Parallel Cplx Squeeze SqueezeProofs SqueezeThms Scales Ssqueeze SsqueezeProofs Cwt
  CwtThms CwtThms2 CwtWitness CwtWitness2 SsqWitness Pointwise PointwiseProofs SsqCwt DiffProofs SsqCwtProofs SsqCwtInv SsqCwtWitness.
From Verif Require Import BatchOrder.
Local Open Scope R_scope.

(** ** C29 *)
(** the value of each cell is computed from the exact derivative of the row's polynomial:
    [interior] keeps the stencil inside the row, [phase_is] is the transform of C27 *)
Theorem C29_differences_exact (f64 : bool) W dt d (gamma : option R) w t0 p i j (g : R) :
  (d = 1 \/ d = 2 \/ d = 4)%Z -> dt <> 0 -> (Z.of_nat (length p) <= d + 1)%Z ->
  (forall k, (k < ncols W)%nat -> el W i k = peval p (t0 + INR k * dt)) ->
  interior d (ncols W) j -> (i < nrows W)%nat ->
  or_real gamma (10 * (if f64 then EPS64 else EPS32)) = g -> 0 < g ->
  phase_cwt_num f64 W dt d gamma = Ok w ->
  phase_is (fun z => Rabs (Im z) / (2 * PI)) g (el W i j) (peval (pderiv p) (t0 + INR j * dt)) (el w i j).
Proof. exact (phase_num_poly f64 W dt d gamma w t0 p i j g). Qed.
Print Assumptions C29_differences_exact.
(** [pderiv] is the derivative *)
Theorem C29_derivative p t :
  derivable_pt_lim (fun u => Re (peval p u)) t (Re (peval (pderiv p) t)) /\
  derivable_pt_lim (fun u => Im (peval p u)) t (Im (peval (pderiv p) t)).
Proof. exact (peval_derivative p t). Qed.
Print Assumptions C29_derivative.
Example C29_case : exists w, phase_cwt_num true lin_row 1 1 (Some (1 / 2)) = Ok w /\ el w 0 1 = Fin (1 / 2 / (2 * PI)).
Proof. exact diff_example. Qed.

(** ** C34 *)
(** [reach]: the frequencies the index kernel can represent without overflowing (C16-C18) *)
Theorem C34_issq_is_icwt ord py f fam q x s r s' fs kind nv k v ls reach Css pt rp : valid_order ord ->
  q_order q = None -> q_sq q = SqSum -> q_diff q <> DNumeric ->
  ssq_cwt ord py f fam q x s = (Ok r, s') ->
  process_fs_and_t (q_fs q) (q_t q) (length x) = Ok fs ->
  ssq_scales (q_f64s q) (q_scales q) (q_kind q) (ssq_nv q) (length x) = Ok (r_scales r, kind) ->
  process_scales_arr (q_f64 q) (r_scales r) = Ok (KLog nv) ->
  ssq_freqs_of (ssq_o q fs (r_scales r) kind (q_f64 q)) (length x) = Ok (k, v, ls) ->
  freq_grid (q_f64v q) v ls reach -> (ls = true -> length v <= length (r_scales r))%nat ->
  (Z.of_nat (length (r_scales r)) < 2 ^ 62)%Z ->
  (forall i j, (i < length (r_scales r))%nat -> (j < length x)%nat ->
     ssq_gamma q < Cabs (el (r_Wx r) i j) /\ forall a, found r i j = Fin a -> reach a) ->
  exists y, issq_cwt Css (r_Tx r) None = Ok (One y) /\
    icwt f Css (r_Wx r) (r_scales r) (q_f64 q) None true true None 0 pt rp = Ok y /\ length y = length x.
Proof. exact (issq_icwt ord py f fam q x s r s' fs kind nv k v ls reach Css pt rp). Qed.
Print Assumptions C34_issq_is_icwt.
(** [difftype='numeric'] squeezes a padded transform; [Wc] is what [cwt(x)] itself returns *)
Theorem C34_issq_is_icwt_numeric ord py f fam q x s r s' fs kind nv k v ls reach Css pt rp u n1 n2 p Wc dWc s1 :
  valid_order ord ->
  q_order q = None -> q_sq q = SqSum -> q_diff q = DNumeric -> q_pad q = Some p ->
  p2up (Z.of_nat (length x)) = (u, n1, n2) -> (4 <= n2)%Z ->
  ssq_cwt ord py f fam q x s = (Ok r, s') ->
  process_fs_and_t (q_fs q) (q_t q) (length x) = Ok fs ->
  ssq_scales (q_f64s q) (q_scales q) (q_kind q) (ssq_nv q) (length x) = Ok (r_scales r, kind) ->
  cwt py true f (inner q fs (ScArr (r_scales r)) (match q_scales q with ScArr _ => q_f64s q | ScAuto _ => true end)
                   true false (q_pat q)) x s = (Ok (Wc, r_scales r, dWc), s1) ->
  process_scales_arr (q_f64 q) (r_scales r) = Ok (KLog nv) ->
  ssq_freqs_of (ssq_o q fs (r_scales r) kind (q_f64 q)) (length x + 8) = Ok (k, v, ls) ->
  freq_grid (q_f64v q) v ls reach -> (ls = true -> length v <= length (r_scales r))%nat ->
  (Z.of_nat (length (r_scales r)) < 2 ^ 62)%Z ->
  (forall i j, (i < length (r_scales r))%nat -> (j < length x)%nat ->
     or_real (Some (ssq_gamma q)) (10 * (if q_f64 q then EPS64 else EPS32)) <= Cabs (el Wc i j) /\
     forall w a, r_w r = Some w -> el w i j = Fin a -> reach a) ->
  exists y, issq_cwt Css (r_Tx r) None = Ok (One y) /\
    icwt f Css Wc (r_scales r) (q_f64 q) None true true None 0 pt rp = Ok y /\ length y = length x.
Proof. exact (issq_icwt_numeric ord py f fam q x s r s' fs kind nv k v ls reach Css pt rp u n1 n2 p Wc dWc s1). Qed.
Print Assumptions C34_issq_is_icwt_numeric.
(** the default frequencies form such a grid *)
Theorem C34_default_freqs o sc nv N fm fM : o_tr o = TCwt -> o_scales o = Some sc ->
  process_scales_arr (o_f64s o) sc = Ok (KLog nv) -> (o_freqs o = FNone \/ o_freqs o = FKind SLog) ->
  ssq_freqrange (o_mr o) (1 / o_fs o) N sc = (fm, fM) -> 0 < fm -> 0 < fM ->
  ssq_freqs_of o N = Ok (Some (KLog nv), log_freqs fm fM (length sc), true) /\
  freq_grid (o_f64v o) (log_freqs fm fM (length sc)) true (reach_log (log_freqs fm fM (length sc)) 0).
Proof. exact (default_log_grid o sc nv N fm fM). Qed.
Print Assumptions C34_default_freqs.
Example C34_case d gw Css : d <> DNumeric -> (d <> DTrig -> gw = true) -> exists r s',
  ssq_cwt serial_order false flat_wave fam0 (arg_w d None (1 / 2) gw None) [1; 1; 1] st0 = (Ok r, s') /\
  exists y, issq_cwt Css (r_Tx r) None = Ok (One y) /\
    icwt flat_wave Css (r_Wx r) (r_scales r) true None true true None 0 PReflect false = Ok y /\ length y = 3%nat.
Proof. exact (const_issq d gw Css). Qed.
Example C34_case_numeric Css : exists r s' Wc dWc s1,
  ssq_cwt serial_order false flat_wave fam0 (arg_w DNumeric (Some PReflect) (1 / 2) true None) ones16 st0 = (Ok r, s') /\
  cwt false true flat_wave (arg_c (Some PReflect) false) ones16 st0 = (Ok (Wc, [1; 2; 4], dWc), s1) /\
  exists y, issq_cwt Css (r_Tx r) None = Ok (One y) /\
    icwt flat_wave Css Wc (r_scales r) true None true true None 0 PReflect false = Ok y /\ length y = 16%nat.
Proof. exact (const_numeric Css). Qed.

(** ** C57 *)
Theorem C57_trig_phase_partial ord py f fam q x s r s' : valid_order ord -> shape_keeping (q_sq q) ->
  q_order q = None -> q_diff q <> DNumeric -> ssq_cwt ord py f fam q x s = (Ok r, s') ->
  ncols (r_Tx r) = length x /\ ncols (r_Wx r) = length x /\
  nrows (r_Tx r) = length (r_scales r) /\ nrows (r_Wx r) = length (r_scales r).
Proof. exact (ssq_cols_plain ord py f fam q x s r s'). Qed.
Print Assumptions C57_trig_phase_partial.
Theorem C57_order_padded_partial ord py f fam q o x s r s' p : valid_order ord -> shape_keeping (q_sq q) ->
  q_order q = Some o -> q_diff q <> DNumeric -> q_pad q = Some p ->
  ssq_cwt ord py f fam q x s = (Ok r, s') ->
  ncols (r_Tx r) = length x /\ ncols (r_Wx r) = length x /\
  nrows (r_Tx r) = length (r_scales r) /\ nrows (r_Wx r) = length (r_scales r).
Proof. exact (ssq_cols_order ord py f fam q o x s r s' p). Qed.
Print Assumptions C57_order_padded_partial.
(** numeric: [Wx] keeps the padding but for eight columns; [Tx] has the signal's length when
    the right padding is at least four samples *)
Theorem C57_numeric_partial ord py f fam q x s r s' u n1 n2 : valid_order ord -> shape_keeping (q_sq q) ->
  q_order q = None -> q_diff q = DNumeric -> p2up (Z.of_nat (length x)) = (u, n1, n2) ->
  ssq_cwt ord py f fam q x s = (Ok r, s') ->
  Z.of_nat (ncols (r_Wx r)) = Z.max 0 ((if q_pad q then u else Z.of_nat (length x)) - 8) /\
  (q_pad q <> None -> (4 <= n2)%Z -> ncols (r_Tx r) = length x).
Proof. exact (ssq_cols_numeric ord py f fam q x s r s' u n1 n2). Qed.
Print Assumptions C57_numeric_partial.
Theorem C57_numeric_refuted : exists x r s', length x = 9%nat /\
  ssq_cwt serial_order false flat_wave fam0 (arg_w DNumeric (Some PReflect) (1 / 2) true None) x st0 = (Ok r, s') /\
  ncols (r_Tx r) = 8%nat /\ ncols (r_Wx r) = 8%nat.
Proof. destruct (numeric_nine PReflect) as (r & s' & H). exact (ex_intro _ nine (ex_intro _ r (ex_intro _ s' (conj eq_refl H)))). Qed.
Print Assumptions C57_numeric_refuted.
Theorem C57_order_unpadded_refuted : exists x r s', length x = 9%nat /\
  ssq_cwt serial_order false gmw_wave gmw_fam (arg_w DTrig None (1 / 2) false (Some (HOInt 1))) x st0 = (Ok r, s') /\
  ncols (r_Tx r) = 5%nat /\ ncols (r_Wx r) = 5%nat.
Proof. destruct order_nopad as (r & s' & H). exact (ex_intro _ nine (ex_intro _ r (ex_intro _ s' (conj eq_refl H)))). Qed.
Print Assumptions C57_order_unpadded_refuted.
(** two signals of two samples, three scales: what is handed to the squeezing has the wrong
    axis sliced in [Wx] *)
Theorem C57_order_batch_refuted : exists Ws dWs s',
  ssq_higher2 false gmw_wave gmw_fam (arg_w DTrig (Some PReflect) (1 / 2) false (Some (HOInt 1))) 1 (HOInt 1) batch22 st0
    = (Ok (Ws, dWs, [1; 2; 4], true), s') /\
  length Ws = 2%nat /\ length dWs = 2%nat /\
  forall b, (b < 2)%nat -> nrows (nth b Ws mat0) = 2%nat /\ ncols (nth b Ws mat0) = 4%nat /\
                          nrows (nth b dWs mat0) = 3%nat /\ ncols (nth b dWs mat0) = 2%nat.
Proof. exact order_batch. Qed.
Print Assumptions C57_order_batch_refuted.

(** ** C61 *)
Theorem C61_batch_items_partial ord py f fam q xs N s r s' : not_lebesgue (q_sq q) -> q_order q = None -> q_diff q = DTrig ->
  xs <> [] -> same_length xs N -> ssq_cwt2 ord py f fam q xs s = (Ok r, s') ->
  length (r2_Tx r) = length xs /\ length (r2_Wx r) = length xs /\
  forall b, (b < length xs)%nat ->
    ssq_cwt ord py f fam q (nth b xs []) s =
      (Ok (SQO (nth b (r2_Tx r) mat0) (nth b (r2_Wx r) mat0) (r2_freqs r) (r2_scales r) None (nth b (r2_dWx r) mat0)), s').
Proof. exact (ssq_batch ord py f fam q xs N s r s'). Qed.
Print Assumptions C61_batch_items_partial.
Theorem C61_batch_succeeds_partial ord py f fam q xs N s : not_lebesgue (q_sq q) -> q_order q = None -> q_diff q = DTrig ->
  q_get_w q = false -> xs <> [] -> same_length xs N ->
  (forall b, (b < length xs)%nat -> exists r s', ssq_cwt ord py f fam q (nth b xs []) s = (Ok r, s')) ->
  exists r s', ssq_cwt2 ord py f fam q xs s = (Ok r, s').
Proof. exact (ssq_batch_ok ord py f fam q xs N s). Qed.
Print Assumptions C61_batch_succeeds_partial.
(** [order=1]: each signal alone gives three rows and two columns, the batch (if anything) two and four *)
Theorem C61_order_refuted : exists xs q, xs <> [] /\ same_length xs 2 /\
  (forall b, (b < length xs)%nat -> exists r,
     ssq_cwt serial_order false gmw_wave gmw_fam q (nth b xs []) st0 = (Ok r, st0) /\
     nrows (r_Wx r) = 3%nat /\ ncols (r_Wx r) = 2%nat) /\
  forall r s', ssq_cwt2 serial_order false gmw_wave gmw_fam q xs st0 = (Ok r, s') ->
    forall b, (b < length xs)%nat -> nrows (nth b (r2_Wx r) mat0) = 2%nat /\ ncols (nth b (r2_Wx r) mat0) = 4%nat.
Proof. exact (ex_intro _ batch22 (ex_intro _ arg_o (conj batch22_some (conj batch22_same order_batch_differs)))). Qed.
Print Assumptions C61_order_refuted.
Example C61_case : exists r s',
  ssq_cwt2 serial_order false flat_wave fam0 (arg_w DTrig None (1 / 2) false None) [[1; 2; 3]; [0; 5; 0]] st0 = (Ok r, s').
Proof. exact batch_case. Qed.
