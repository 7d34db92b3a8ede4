(** C15-C22: synchrosqueezing kernels and nearest-bin search.

    Reading guide.  [valid_order ord]: [ord] is some interleaving of the column iterations
    of the parallel kernel (the serial kernel is one, [serial_order_valid]).  [freq_grid
    f64 v ls reach]: [v] is an array of bin frequencies the kernels handle (any linear array;
    any log array unless the piecewise kernel is chosen for a lower piece that is not
    uniform), [reach] the frequencies less than 2^62 bin widths above the start.
    [lg v k] is log2 of the k-th bin.  [zeros m n] is the freshly allocated output. *)
From Verif Require Import Py Round Parallel Cplx CplxProofs Squeeze SqueezeProofs BinProofs
  SqueezeThms SqueezeThms2 SqueezeThms3.
From Coq Require Import Permutation.
Local Open Scope R_scope.

(** ** C15 *)
(** any type of numbers, any addition, any interleaving, any setting of the flag *)
Theorem C15_indexed_sum V (add : V -> V -> V) zero a k tr cfg p cfg' p' tr' :
  schedule_of (sq_par_progs add (nrows a) (ncols a) (fun i j => Some (k i j)) (el a)) tr ->
  schedule_of (sq_par_progs add (nrows a) (ncols a) (fun i j => Some (k i j)) (el a)) tr' ->
  meq (indexed_sum add zero cfg p tr a k) (indexed_sum add zero cfg' p' tr' a k).
Proof. exact (indexed_sum_par V add zero a k tr cfg p cfg' p' tr'). Qed.
Print Assumptions C15_indexed_sum.

(** and what it is: the additions into a cell happen in row order, starting from 0 *)
Theorem C15_indexed_sum_value V (add : V -> V -> V) zero cfg p tr a k i j :
  schedule_of (sq_par_progs add (nrows a) (ncols a) (fun i j => Some (k i j)) (el a)) tr ->
  (j < ncols a)%nat ->
  el (indexed_sum add zero cfg p tr a k) i j =
  fold_left (fun s q => if (k q j =? Z.of_nat i)%Z then add s (el a q j) else s)
    (seq 0 (nrows a)) zero.
Proof. exact (indexed_sum_cell V add zero cfg p tr a k i j). Qed.
Print Assumptions C15_indexed_sum_value.

(** the loops of the squeezing kernels, for any addition and any row map *)
Theorem C15_kernel V (add : V -> V -> V) zero row val m n tr out0 c :
  schedule_of (sq_par_progs add m n row val) tr ->
  sq_exec zero out0 tr c = sq_exec zero out0 (sq_serial add m n row val) c.
Proof. exact (sq_par_serial V add zero row val m n tr out0 c). Qed.
Print Assumptions C15_kernel.

Theorem C15_onfly ord f64 Wx w v cst ls flipud out : valid_order ord ->
  res_meq (indexed_sum_onfly ord f64 Wx w v cst ls flipud out)
          (indexed_sum_onfly serial_order f64 Wx w v cst ls flipud out).
Proof. exact (onfly_order ord f64 Wx w v cst ls flipud out). Qed.
Print Assumptions C15_onfly.

Theorem C15_fast ord f64 Wx dWx v cst ls flipud gamma Sfs out : valid_order ord ->
  res_meq (ssqueeze_fast ord f64 Wx dWx v cst ls flipud gamma Sfs out)
          (ssqueeze_fast serial_order f64 Wx dWx v cst ls flipud gamma Sfs out).
Proof. exact (fast_order ord f64 Wx dWx v cst ls flipud gamma Sfs out). Qed.
Print Assumptions C15_fast.

(** A real interleaving: two columns, both rows land in row 0; the two threads alternate
    micro-step by micro-step.  Subtraction plays the non-associative addition. *)
Example C15_case :
  let a := Mat 2 2 (fun i j => Z.of_nat (10 * i + j + 1)) in
  let k := fun _ _ : nat => 0%Z in
  let ld j := (j, @MLoad (Z * nat) Z (0%Z, j)) in
  let st i j := (j, MStore (0%Z, j) (fun r => (r - el a i j)%Z)) in
  let tr := [ld 1; ld 0; st 0 0; st 0 1; ld 0; ld 1; st 1 1; st 1 0]%nat in
  schedule_of (sq_par_progs Z.sub 2 2 (fun i j => Some (k i j)) (el a)) tr /\
  tr <> sq_serial Z.sub 2 2 (fun i j => Some (k i j)) (el a) /\
  el (indexed_sum Z.sub 0%Z true None tr a k) 0 1 = (-14)%Z.
Proof.
  intros a k ld st tr. split; [|split; [discriminate|reflexivity]].
  intros [|[|t]]; try reflexivity.
Qed.

(** ** C16 *)
(** [ca] is the coefficient array: [cst] spread over the rows if it is a scalar *)
Theorem C16_onfly_column_sum ord f64 Wx w v cst ls flipud ca reach m j : valid_order ord ->
  const_arr (nrows Wx) cst = Ok ca -> freq_grid f64 v ls reach ->
  (0 < Z.of_nat m < 2 ^ 62)%Z -> (ls = true -> length v <= m)%nat ->
  (j < ncols Wx)%nat ->
  (forall i r, (i < nrows Wx)%nat -> el w i j = Fin r -> reach r) ->
  exists Tx, indexed_sum_onfly ord f64 Wx w v cst ls flipud (zeros m (ncols Wx)) = Ok Tx /\
    Csum m (fun k => el Tx k j) =
    Csum (nrows Wx) (fun i => match el w i j with
      | Fin _ => Cmul (el Wx i j) (RtoC (nth i ca 0)) | Inf => C0 end).
Proof.
  exact (onfly_column_sum_zeros ord f64 Wx w v cst ls flipud ca reach m j).
Qed.
Print Assumptions C16_onfly_column_sum.

Theorem C16_fast_column_sum ord f64 Wx dWx v cst ls flipud gamma Sfs ca reach m j :
  valid_order ord ->
  const_arr (nrows Wx) cst = Ok ca -> freq_grid f64 v ls reach -> (Sfs = None \/ ls = false) ->
  (0 < Z.of_nat m < 2 ^ 62)%Z -> (ls = true -> length v <= m)%nat ->
  (j < ncols Wx)%nat ->
  (forall i, (i < nrows Wx)%nat -> gamma < Cabs (el Wx i j) ->
     reach (match Sfs with
            | None => phase_cwt_pt (el Wx i j) (el dWx i j)
            | Some s => phase_stft_pt (nth i s 0) (el Wx i j) (el dWx i j) end)) ->
  exists Tx, ssqueeze_fast ord f64 Wx dWx v cst ls flipud gamma Sfs (zeros m (ncols Wx)) = Ok Tx /\
    Csum m (fun k => el Tx k j) =
    Csum (nrows Wx) (fun i => if Rlt_dec gamma (Cabs (el Wx i j))
            then Cmul (el Wx i j) (RtoC (nth i ca 0)) else C0).
Proof.
  exact (fast_column_sum_zeros ord f64 Wx dWx v cst ls flipud gamma Sfs ca reach m j).
Qed.
Print Assumptions C16_fast_column_sum.

Theorem C16_scalar_const m c : m <> 1%nat -> const_arr m (CScalar c) = Ok (repeat c m).
Proof. exact (const_arr_scalar m c). Qed.
Print Assumptions C16_scalar_const.

(** the hypotheses together: log grid 1, 2, 4, 8 and frequencies 0, 3, infinite *)
Example C16_case :
  let Wx := Mat 4 2 (fun i j => (INR i, INR j)) in
  let w := Mat 4 2 (fun i j => if (i =? 2)%nat then Inf else Fin (3 * INR i)) in
  let v := [1; 2; 4; 8] in
  exists Tx, indexed_sum_onfly serial_order true Wx w v (CScalar 5) true true (zeros 4 2) = Ok Tx /\
    Csum 4 (fun k => el Tx k 1%nat) = (20, 15).
Proof.
  intros Wx w v.
  destruct (C16_onfly_column_sum serial_order true Wx w v (CScalar 5) true true (repeat 5 4)
              (reach_log v 0) 4 1) as (Tx & E & H).
  - exact serial_order_valid.
  - reflexivity.
  - apply fg_geometric with (d := 1). exact pow2_geometric.
  - cbn. lia.
  - cbn. lia.
  - cbn. lia.
  - intros i r Hi Er. apply pow2_reach. cbn in Hi.
    destruct i as [|[|[|[|i]]]]; cbn in Er; try discriminate; try lia;
      injection Er as <-; simpl INR; lra.
  - exists Tx. split; [exact E|]. rewrite H. cbn -[INR]. unfold Cmul, Cadd, RtoC, C0. cbn -[INR].
    simpl INR. f_equal; ring.
Qed.

(** ** C17 *)
Theorem C17_onfly_flipud ord f64 Wx w v cst ls m Tx : valid_order ord ->
  indexed_sum_onfly ord f64 Wx w v cst ls false (zeros m (ncols Wx)) = Ok Tx ->
  exists Tx', indexed_sum_onfly ord f64 Wx w v cst ls true (zeros m (ncols Wx)) = Ok Tx' /\
    nrows Tx' = nrows Tx /\ ncols Tx' = ncols Tx /\
    forall i j, (i < nrows Tx)%nat -> (j < ncols Tx)%nat -> el Tx' i j = el Tx (nrows Tx - 1 - i) j.
Proof. exact (onfly_flip_zeros ord f64 Wx w v cst ls m Tx). Qed.
Print Assumptions C17_onfly_flipud.

Theorem C17_fast_flipud ord f64 Wx dWx v cst ls gamma Sfs m Tx : valid_order ord ->
  ssqueeze_fast ord f64 Wx dWx v cst ls false gamma Sfs (zeros m (ncols Wx)) = Ok Tx ->
  exists Tx', ssqueeze_fast ord f64 Wx dWx v cst ls true gamma Sfs (zeros m (ncols Wx)) = Ok Tx' /\
    nrows Tx' = nrows Tx /\ ncols Tx' = ncols Tx /\
    forall i j, (i < nrows Tx)%nat -> (j < ncols Tx)%nat -> el Tx' i j = el Tx (nrows Tx - 1 - i) j.
Proof. exact (fast_flip_zeros ord f64 Wx dWx v cst ls gamma Sfs m Tx). Qed.
Print Assumptions C17_fast_flipud.
(** hypotheses are met by the run in [C16_case] with flipud=False *)
Example C17_case :
  exists Tx, indexed_sum_onfly serial_order true (Mat 2 1 (fun _ _ => C1)) (Mat 2 1 (fun _ _ => Fin 1))
    [0; 1] (CScalar 1) false false (zeros 2 1) = Ok Tx.
Proof. eexists. reflexivity. Qed.

(** ** C18 *)
(** Every kernel, every finite frequency that is reachable, [m] rows in the output. *)
Theorem C18_in_range_partial f64 v ls reach m : freq_grid f64 v ls reach ->
  (0 < m < 2 ^ 62)%Z -> (ls = true -> Z.of_nat (length v) <= m)%Z ->
  exists g, get_grid f64 ls v = Ok g /\ forall r, reach r -> forall flipud,
    (0 <= flip_row flipud (m - 1) (bin_onfly (m - 1) g r) < m)%Z /\
    (0 <= flip_row flipud (m - 1) (bin_fast (m - 1) g r) < m)%Z.
Proof. exact (bins_in_range f64 v ls reach m). Qed.
Print Assumptions C18_in_range_partial.

(** a frequency 0, as for a constant signal, is always reachable *)
Theorem C18_zero_reachable f64 v ls reach : freq_grid f64 v ls reach ->
  0 <= nth 0 v 0 -> (ls = true -> forall k, (k < length v)%nat -> 1 <= nth k v 0) -> reach 0.
Proof. exact (zero_reachable f64 v ls reach). Qed.
Print Assumptions C18_zero_reachable.
Example C18_case : freq_grid false [1; 2; 4; 8] true (reach_log [1; 2; 4; 8] 0) /\
  forall r, r <= 100 -> reach_log [1; 2; 4; 8] 0 r.
Proof. split; [apply fg_geometric with (d := 1); exact pow2_geometric|exact pow2_reach]. Qed.

(** what is missing: frequencies 2^63 bins up, whose int64 conversion is negative *)
Theorem C18_int64_overflow_refuted :
  exists w, 0 <= w /\ ~ (0 <= bin_lin 2 1 1 w)%Z.
Proof. exact bin_lin_overflow. Qed.
Print Assumptions C18_int64_overflow_refuted.

(** ... and grids that pass the piecewise test without being piecewise geometric *)
Theorem C18_piecewise_refuted :
  exists v r g, (forall k, (S k < length v)%nat -> 0 < nth k v 0 < nth (S k) v 0) /\
    get_grid false true v = Ok g /\ 0 < r /\
    (Z.of_nat (length v) - 1 < bin_onfly (Z.of_nat (length v) - 1) g r)%Z /\
    (Z.of_nat (length v) - 1 < bin_fast (Z.of_nat (length v) - 1) g r)%Z.
Proof. exact piecewise_nonuniform_refuted. Qed.
Print Assumptions C18_piecewise_refuted.

(** The linear and log CUDA kernels stay in range for every frequency whatsoever. *)
Theorem C18_gpu_partial M g w : (0 < M)%Z -> match g with GPiece _ _ _ _ _ => False | _ => True end ->
  (0 <= bin_gpu M g w < M)%Z.
Proof. exact (gpu_in_range M g w). Qed.
Print Assumptions C18_gpu_partial.
Example C18_gpu_case : (bin_gpu 4 (GLin 1 1) (IZR (2 ^ 80)) < 4)%Z.
Proof. apply C18_gpu_partial; [lia|exact I]. Qed.

(** ... but not the CUDA piecewise kernel, whose int32 index wraps before it is clamped *)
Theorem C18_gpu_piecewise_refuted :
  exists v p a b g r, geometric2 v p a b /\ 0 < a /\ 0 < b /\ get_grid true true v = Ok g /\ 0 < r /\
    (bin_gpu (Z.of_nat (length v)) g r < 0)%Z.
Proof. exact gpu_piecewise_overflow. Qed.
Print Assumptions C18_gpu_piecewise_refuted.

(** ** C19 *)
(** [kap i j] is where coefficient (i, j) goes: it is the row of a nearest bin, and Tx holds
    exactly the coefficients sent to each row. *)
Theorem C19_onfly_nearest ord f64 Wx w v d cst ca : valid_order ord ->
  const_arr (nrows Wx) cst = Ok ca -> (2 <= length v)%nat -> EPS64 <= d ->
  (forall k, (k < length v)%nat -> nth k v 0 = nth 0 v 0 + INR k * d) ->
  (forall i j r, (i < nrows Wx)%nat -> (j < ncols Wx)%nat -> el w i j = Fin r -> reach_lin v r) ->
  exists Tx (kap : nat -> nat -> nat),
    indexed_sum_onfly ord f64 Wx w v cst false false (zeros (length v) (ncols Wx)) = Ok Tx /\
    (forall i j r, (i < nrows Wx)%nat -> (j < ncols Wx)%nat -> el w i j = Fin r ->
       (kap i j < length v)%nat /\
       forall q, (q < length v)%nat -> Rabs (r - nth (kap i j) v 0) <= Rabs (r - nth q v 0)) /\
    forall k j, (k < length v)%nat -> (j < ncols Wx)%nat ->
      el Tx k j = Csum (nrows Wx) (fun i => match el w i j with
        | Inf => C0
        | Fin _ => if (kap i j =? k)%nat then Cmul (el Wx i j) (RtoC (nth i ca 0)) else C0 end).
Proof. exact (onfly_nearest_lin ord f64 Wx w v d cst ca). Qed.
Print Assumptions C19_onfly_nearest.

(** the fast path, for the CWT ([Sfs = None]) and the STFT *)
Theorem C19_fast_nearest ord f64 Wx dWx v d cst gamma Sfs ca : valid_order ord ->
  const_arr (nrows Wx) cst = Ok ca -> (2 <= length v)%nat -> EPS64 <= d ->
  (forall k, (k < length v)%nat -> nth k v 0 = nth 0 v 0 + INR k * d) ->
  let ph i j := match Sfs with
      | None => phase_cwt_pt (el Wx i j) (el dWx i j)
      | Some s => phase_stft_pt (nth i s 0) (el Wx i j) (el dWx i j) end in
  (forall i j, (i < nrows Wx)%nat -> (j < ncols Wx)%nat -> gamma < Cabs (el Wx i j) ->
     reach_lin v (ph i j)) ->
  exists Tx (kap : nat -> nat -> nat),
    ssqueeze_fast ord f64 Wx dWx v cst false false gamma Sfs (zeros (length v) (ncols Wx)) = Ok Tx /\
    (forall i j, (i < nrows Wx)%nat -> (j < ncols Wx)%nat -> gamma < Cabs (el Wx i j) ->
       (kap i j < length v)%nat /\
       forall q, (q < length v)%nat ->
         Rabs (ph i j - nth (kap i j) v 0) <= Rabs (ph i j - nth q v 0)) /\
    forall k j, (k < length v)%nat -> (j < ncols Wx)%nat ->
      el Tx k j = Csum (nrows Wx) (fun i => if Rlt_dec gamma (Cabs (el Wx i j)) then
        if (kap i j =? k)%nat then Cmul (el Wx i j) (RtoC (nth i ca 0)) else C0 else C0).
Proof. exact (fast_nearest_lin ord f64 Wx dWx v d cst gamma Sfs ca). Qed.
Print Assumptions C19_fast_nearest.

(** the hypotheses, with frequencies below, between and beyond the bins 10, 11, 12 *)
Example C19_case : let v := [10; 11; 12] in
  (forall k, (k < length v)%nat -> nth k v 0 = nth 0 v 0 + INR k * 1) /\ EPS64 <= 1 /\
  reach_lin v 0 /\ reach_lin v (45 / 4) /\ reach_lin v 1000.
Proof. exact lin_case. Qed.

(** ** C20 *)
(** [near_log v r k]: bin [k] is at least as near as any other in log-frequency, and
    frequency 0 goes to bin 0 *)
Theorem C20_onfly_nearest ord f64 Wx w v d cst ca : valid_order ord ->
  const_arr (nrows Wx) cst = Ok ca -> geometric v d -> EPS64 <= d ->
  (forall i j r, (i < nrows Wx)%nat -> (j < ncols Wx)%nat -> el w i j = Fin r -> reach_log v 0 r) ->
  exists Tx (kap : nat -> nat -> nat),
    indexed_sum_onfly ord f64 Wx w v cst true false (zeros (length v) (ncols Wx)) = Ok Tx /\
    (forall i j r, (i < nrows Wx)%nat -> (j < ncols Wx)%nat -> el w i j = Fin r ->
       near_log v r (kap i j)) /\
    forall k j, (k < length v)%nat -> (j < ncols Wx)%nat ->
      el Tx k j = Csum (nrows Wx) (fun i => match el w i j with
        | Inf => C0
        | Fin _ => if (kap i j =? k)%nat then Cmul (el Wx i j) (RtoC (nth i ca 0)) else C0 end).
Proof. exact (onfly_nearest_log ord f64 Wx w v d cst ca). Qed.
Print Assumptions C20_onfly_nearest.

Theorem C20_onfly_nearest_piecewise ord f64 Wx w v p a b cst ca : valid_order ord ->
  const_arr (nrows Wx) cst = Ok ca -> geometric2 v p a b -> EPS64 <= a -> EPS64 <= b ->
  (forall i j r, (i < nrows Wx)%nat -> (j < ncols Wx)%nat -> el w i j = Fin r -> reach_log v (S p) r) ->
  exists Tx (kap : nat -> nat -> nat),
    indexed_sum_onfly ord f64 Wx w v cst true false (zeros (length v) (ncols Wx)) = Ok Tx /\
    (forall i j r, (i < nrows Wx)%nat -> (j < ncols Wx)%nat -> el w i j = Fin r ->
       near_log v r (kap i j)) /\
    forall k j, (k < length v)%nat -> (j < ncols Wx)%nat ->
      el Tx k j = Csum (nrows Wx) (fun i => match el w i j with
        | Inf => C0
        | Fin _ => if (kap i j =? k)%nat then Cmul (el Wx i j) (RtoC (nth i ca 0)) else C0 end).
Proof. exact (onfly_nearest_piece ord f64 Wx w v p a b cst ca). Qed.
Print Assumptions C20_onfly_nearest_piecewise.

Theorem C20_fast_nearest ord f64 Wx dWx v cst gamma ca : valid_order ord ->
  const_arr (nrows Wx) cst = Ok ca ->
  forall s, ((exists d, geometric v d /\ EPS64 <= d) /\ s = 0%nat \/
     exists p a b, geometric2 v p a b /\ EPS64 <= a /\ EPS64 <= b /\ s = S p) ->
  let ph i j := phase_cwt_pt (el Wx i j) (el dWx i j) in
  (forall i j, (i < nrows Wx)%nat -> (j < ncols Wx)%nat -> gamma < Cabs (el Wx i j) ->
     reach_log v s (ph i j)) ->
  exists Tx (kap : nat -> nat -> nat),
    ssqueeze_fast ord f64 Wx dWx v cst true false gamma None (zeros (length v) (ncols Wx)) = Ok Tx /\
    (forall i j, (i < nrows Wx)%nat -> (j < ncols Wx)%nat -> gamma < Cabs (el Wx i j) ->
       near_log v (ph i j) (kap i j)) /\
    forall k j, (k < length v)%nat -> (j < ncols Wx)%nat ->
      el Tx k j = Csum (nrows Wx) (fun i => if Rlt_dec gamma (Cabs (el Wx i j)) then
        if (kap i j =? k)%nat then Cmul (el Wx i j) (RtoC (nth i ca 0)) else C0 else C0).
Proof. exact (fast_nearest_log ord f64 Wx dWx v cst gamma ca). Qed.
Print Assumptions C20_fast_nearest.

(** a geometric and a two-piece grid *)
Example C20_case : geometric [1; 2; 4; 8] 1 /\ geometric2 [1; 2; 4; 16; 64] 1 1 2 /\ EPS64 <= 1 /\
  EPS64 <= 2 /\ reach_log [1; 2; 4; 16; 64] 2 100.
Proof. exact log_case. Qed.

(** ** C21 *)
(** [sorts sidx v]: [sidx] is a permutation of the indices that sorts [v] (numpy's argsort
    returns one of them) *)
Theorem C21_smart_nearest sidx v a : v <> [] -> sorts sidx v ->
  let k := find_closest_smart sidx v a in
  (k < length v)%nat /\ forall q, (q < length v)%nat ->
    Rabs (a - nth k v 0) <= Rabs (a - nth q v 0).
Proof. exact (smart_nearest sidx v a). Qed.
Print Assumptions C21_smart_nearest.
Example C21_case : sorts [3; 1; 0; 2]%nat [5; 2; 5; -1].
Proof. exact sorts_case. Qed.

(** it is the documented argmin unless two entries are equally near *)
Theorem C21_smart_is_argmin sidx v a : v <> [] -> sorts sidx v ->
  (forall p q, (p < length v)%nat -> (q < length v)%nat ->
     Rabs (a - nth p v 0) = Rabs (a - nth q v 0) -> p = q) ->
  find_closest_smart sidx v a = find_closest_brute a v.
Proof. exact (smart_brute sidx v a). Qed.
Print Assumptions C21_smart_is_argmin.
Theorem C21_argmin_tie_refuted :
  exists sidx v a, v <> [] /\ sorts sidx v /\ find_closest_smart sidx v a <> find_closest_brute a v.
Proof. exact smart_brute_tie_refuted. Qed.
Print Assumptions C21_argmin_tie_refuted.

(** the brute-force version returns the first nearest entry *)
Theorem C21_brute_nearest v a : v <> [] ->
  let k := find_closest_brute a v in
  (k < length v)%nat /\
  (forall q, (q < length v)%nat -> Rabs (a - nth k v 0) <= Rabs (a - nth q v 0)) /\
  (forall q, (q < k)%nat -> Rabs (a - nth k v 0) < Rabs (a - nth q v 0)).
Proof. exact (brute_nearest v a). Qed.
Print Assumptions C21_brute_nearest.

(** linear and log versions: nearest when [a] has as many rows as [v] has entries *)
Theorem C21_lin_nearest_partial a v d : (2 <= length v)%nat -> 0 < d ->
  (forall k, (k < length v)%nat -> nth k v 0 = nth 0 v 0 + INR k * d) -> nrows a = length v ->
  exists K, find_closest_lin a v = Ok K /\ nrows K = nrows a /\ ncols K = ncols a /\
    forall i j, el a i j <= nth 0 v 0 + IZR (2 ^ 63 - 1) * d ->
      exists k, el K i j = Z.of_nat k /\ (k < length v)%nat /\
        forall q, (q < length v)%nat -> Rabs (el a i j - nth k v 0) <= Rabs (el a i j - nth q v 0).
Proof. exact (closest_lin_ok a v d). Qed.
Print Assumptions C21_lin_nearest_partial.
Theorem C21_log_nearest_partial f64 a v d : geometric v d -> EPS64 <= d -> nrows a = length v ->
  exists K, find_closest_log f64 a v = Ok K /\ nrows K = nrows a /\ ncols K = ncols a /\
    forall i j, reach_log v 0 (el a i j) ->
      exists k, el K i j = Z.of_nat k /\ (k < length v)%nat /\
        (0 < el a i j -> forall q, (q < length v)%nat ->
          Rabs (log2 (el a i j) - lg v k) <= Rabs (log2 (el a i j) - lg v q)).
Proof. exact (closest_log_ok f64 a v d). Qed.
Print Assumptions C21_log_nearest_partial.
Theorem C21_piecewise_nearest_partial f64 a v p x y : geometric2 v p x y -> EPS64 <= x -> EPS64 <= y ->
  nrows a = length v ->
  exists K, find_closest_log f64 a v = Ok K /\ nrows K = nrows a /\ ncols K = ncols a /\
    forall i j, reach_log v (S p) (el a i j) ->
      exists k, el K i j = Z.of_nat k /\ (k < length v)%nat /\
        (0 < el a i j -> forall q, (q < length v)%nat ->
          Rabs (log2 (el a i j) - lg v k) <= Rabs (log2 (el a i j) - lg v q)).
Proof. exact (closest_piece_ok f64 a v p x y). Qed.
Print Assumptions C21_piecewise_nearest_partial.

(** missing: the clamp is by the number of rows of [a], not the length of [v] *)
Theorem C21_out_of_range_refuted :
  exists a v K, (forall k, (k < length v)%nat -> nth k v 0 = INR k) /\ (2 <= length v)%nat /\
    find_closest_lin a v = Ok K /\ exists i j, (i < nrows K)%nat /\ (j < ncols K)%nat /\
      (Z.of_nat (length v) <= el K i j)%Z.
Proof. exact closest_lin_refuted. Qed.
Print Assumptions C21_out_of_range_refuted.
Theorem C21_not_nearest_refuted :
  exists a v K, (forall k, (k < length v)%nat -> nth k v 0 = INR k) /\ (2 <= length v)%nat /\
    find_closest_lin a v = Ok K /\ exists i j q, (i < nrows K)%nat /\ (j < ncols K)%nat /\
      (q < length v)%nat /\
      Rabs (el a i j - nth q v 0) < Rabs (el a i j - nth (Z.to_nat (el K i j)) v 0).
Proof. exact closest_lin_missed_refuted. Qed.
Print Assumptions C21_not_nearest_refuted.

(** ** C22 *)
(** [no_tie_lin v r]: [r] is not half-way between two neighbouring bins *)
Theorem C22_linear_partial f64 v d M : (2 <= length v)%nat -> EPS64 <= d ->
  (forall k, (k < length v)%nat -> nth k v 0 = nth 0 v 0 + INR k * d) ->
  M = Z.of_nat (length v) -> (M < 2 ^ 31)%Z ->
  exists g, get_grid f64 false v = Ok g /\ forall r, reach_lin v r -> no_tie_lin v r ->
    bin_gpu M g r = bin_fast (M - 1) g r /\ bin_fast (M - 1) g r = bin_onfly (M - 1) g r.
Proof. exact (gpu_lin f64 v d M). Qed.
Print Assumptions C22_linear_partial.
Theorem C22_log_partial f64 v d M : geometric v d -> EPS64 <= d ->
  M = Z.of_nat (length v) -> (M < 2 ^ 31)%Z ->
  exists g, get_grid f64 true v = Ok g /\ forall r, reach_log v 0 r -> no_tie_log v r ->
    bin_gpu M g r = bin_fast (M - 1) g r /\ bin_fast (M - 1) g r = bin_onfly (M - 1) g r.
Proof. exact (gpu_log f64 v d M). Qed.
Print Assumptions C22_log_partial.
Theorem C22_piecewise_partial f64 v p a b M : geometric2 v p a b -> EPS64 <= a -> EPS64 <= b ->
  M = Z.of_nat (length v) -> (M < 2 ^ 30)%Z ->
  exists g, get_grid f64 true v = Ok g /\ forall r,
    log2 r - lg v (S p) <= IZR (2 ^ 30) * b -> no_tie_log v r ->
    bin_gpu M g r = bin_fast (M - 1) g r /\ bin_fast (M - 1) g r = bin_onfly (M - 1) g r.
Proof. exact (gpu_piece f64 v p a b M). Qed.
Print Assumptions C22_piecewise_partial.
Example C22_case : no_tie_lin [10; 11; 12] (45 / 4) /\ reach_lin [10; 11; 12] (45 / 4) /\
  no_tie_log [1; 2; 4; 8] 4.
Proof. exact tie_case. Qed.

(** half-way, Python rounds to even and CUDA away from zero *)
Theorem C22_tie_refuted :
  exists f64 v g r, (forall k, (k < length v)%nat -> nth k v 0 = INR k) /\ (2 <= length v)%nat /\
    get_grid f64 false v = Ok g /\ 0 <= r <= nth (length v - 1) v 0 /\
    bin_gpu (Z.of_nat (length v)) g r <> bin_fast (Z.of_nat (length v) - 1) g r.
Proof. exact gpu_tie_refuted. Qed.
Print Assumptions C22_tie_refuted.
