(** C27, C51, C53: phase transforms, replacement helpers, CUDA launches.

    Reading guide.  [schedule_of (pw_progs cells own op) tr]: [tr] is any interleaving of
    threads, where [own] assigns the cells to threads in any way ([fun _ => 0]: the serial
    loop).  [gpu2_progs]: one CUDA thread per cell, as launched. *)
From Verif Require Import Py Parallel Cplx Squeeze Pointwise PointwiseProofs.
Local Open Scope R_scope.

(** ** C27 *)
Theorem C27_phase_cwt gamma Wx dWx own tr i j : 0 < gamma ->
  schedule_of (pw_progs (cells2 (nrows Wx) (ncols Wx)) own (cwt_op gamma Wx dWx)) tr ->
  (i < nrows Wx)%nat -> (j < ncols Wx)%nat ->
  match el (run_phase Wx tr) i j with
  | Inf => Cabs (el Wx i j) < gamma
  | Fin w => gamma <= Cabs (el Wx i j) /\ 0 <= w /\
      exists z, Cmul z (el Wx i j) = el dWx i j /\ w = Rabs (Im z) / (2 * PI)
  end.
Proof. exact (phase_cwt_cell gamma Wx dWx own tr i j). Qed.
Print Assumptions C27_phase_cwt.
Theorem C27_phase_stft Sfs gamma Wx dWx own tr i j : 0 < gamma ->
  schedule_of (pw_progs (cells2 (nrows Wx) (ncols Wx)) own (stft_op Sfs gamma Wx dWx)) tr ->
  (i < nrows Wx)%nat -> (j < ncols Wx)%nat ->
  match el (run_phase Wx tr) i j with
  | Inf => Cabs (el Wx i j) < gamma
  | Fin w => gamma <= Cabs (el Wx i j) /\ 0 <= w /\
      exists z, Cmul z (el Wx i j) = el dWx i j /\ w = Rabs (nth i Sfs 0 - Im z / (2 * PI))
  end.
Proof. exact (phase_stft_cell Sfs gamma Wx dWx own tr i j). Qed.
Print Assumptions C27_phase_stft.
(** two CPU runs with any chunking and interleaving, and a CUDA run *)
Theorem C27_agree op own tr own' tr' gtr ph gamma Wx dWx : op = phase_op ph gamma Wx dWx ->
  schedule_of (pw_progs (cells2 (nrows Wx) (ncols Wx)) own op) tr ->
  schedule_of (pw_progs (cells2 (nrows Wx) (ncols Wx)) own' op) tr' ->
  schedule_of (gpu2_progs (nrows Wx) (ncols Wx) op) gtr ->
  (Z.of_nat (nrows Wx) <= 2 ^ 31 - 32)%Z -> (Z.of_nat (ncols Wx) <= 32 * 65535)%Z ->
  meq (run_phase Wx tr) (run_phase Wx tr') /\ meq (run_phase Wx tr) (run_phase Wx gtr).
Proof. exact (phase_agree op own tr own' tr' gtr ph gamma Wx dWx). Qed.
Print Assumptions C27_agree.
(** what the models of [ssqueeze], [ssq_cwt] and [ssq_stft] use for these kernels *)
Theorem C27_cwt_closed_form gamma Wx dWx own tr :
  schedule_of (pw_progs (cells2 (nrows Wx) (ncols Wx)) own (cwt_op gamma Wx dWx)) tr ->
  meq (run_phase Wx tr) (phase_cwt gamma Wx dWx).
Proof. exact (phase_cwt_closed gamma Wx dWx own tr). Qed.
Print Assumptions C27_cwt_closed_form.
Theorem C27_stft_closed_form Sfs gamma Wx dWx own tr :
  schedule_of (pw_progs (cells2 (nrows Wx) (ncols Wx)) own (stft_op Sfs gamma Wx dWx)) tr ->
  meq (run_phase Wx tr) (phase_stft Sfs gamma Wx dWx).
Proof. exact (phase_stft_closed Sfs gamma Wx dWx own tr). Qed.
Print Assumptions C27_stft_closed_form.
Example C27_case :
  let W := Mat 1 2 (fun _ j => if (j =? 0)%nat then (0, 2) else (0, 0)) in
  let dW := Mat 1 2 (fun _ _ => (-3, 1)) in
  el (run_phase W (pw_serial (cells2 1 2) (cwt_op 1 W dW))) 0 0 = Fin (3 / 2 / (2 * PI)) /\
  el (run_phase W (pw_serial (cells2 1 2) (cwt_op 1 W dW))) 0 1 = Inf.
Proof. exact phase_example. Qed.

(** ** C51 *)
Theorem C51_replace_at k x ref repl y : replace_at k x ref repl = Ok y ->
  d0 y = d0 x /\ d1 y = d1 x /\ d2 y = d2 x /\ forall a b c, (a < d0 x /\ b < d1 x /\ c < d2 x)%nat ->
  let r := at3 (match ref with Some r => r | None => x end) (a, b, c) in
  let hit := match k with
             | AtInfOrNan => r = PInf \/ r = NInf \/ r = NaN
             | AtInf => r = PInf \/ r = NInf
             | AtNan => r = NaN
             | AtValue v => r = v /\ r <> NaN
             end in
  (hit /\ at3 y (a, b, c) = repl) \/ (~ hit /\ at3 y (a, b, c) = at3 x (a, b, c)).
Proof. exact (replace_at_cells k x ref repl y). Qed.
Print Assumptions C51_replace_at.
Theorem C51_replace_at_twice k x ref repl y z : replace_at k x ref repl = Ok y -> replace_at k y ref repl = Ok z ->
  forall a b c, (a < d0 x /\ b < d1 x /\ c < d2 x)%nat -> at3 z (a, b, c) = at3 y (a, b, c).
Proof. exact (fun E1 E2 a b c H => replace_at_twice k x ref repl y z E1 E2 (a, b, c) H). Qed.
Print Assumptions C51_replace_at_twice.
(** every interleaving; [ref] another array or [x] itself *)
Theorem C51_under_abs x ref value repl own tr y :
  schedule_of (pw_progs (cells2 (nrows x) (ncols x)) own (under_op ref value repl)) tr ->
  replace_under_abs x ref value repl tr = Ok y ->
  nrows y = nrows x /\ ncols y = ncols x /\ forall i j, (i < nrows x)%nat -> (j < ncols x)%nat ->
  el y i j = if num_lt (match ref with
                        | RNone => NaN
                        | RSelf => num_abs (el x i j)
                        | RNum r => num_abs (el r i j)
                        | RCplx r => Num (Cabs (el r i j))
                        end) value then repl else el x i j.
Proof. exact (under_spec x ref value repl own tr y). Qed.
Print Assumptions C51_under_abs.
Theorem C51_under_abs_twice x ref value repl own tr y own' tr' z :
  schedule_of (pw_progs (cells2 (nrows x) (ncols x)) own (under_op ref value repl)) tr ->
  replace_under_abs x ref value repl tr = Ok y ->
  schedule_of (pw_progs (cells2 (nrows y) (ncols y)) own' (under_op ref value repl)) tr' ->
  replace_under_abs y ref value repl tr' = Ok z -> meq z y.
Proof. exact (under_twice x ref value repl own tr y own' tr' z). Qed.
Print Assumptions C51_under_abs_twice.
Theorem C51_under_abs_gpu x r value repl tr y :
  schedule_of (gpu2_progs (nrows x) (ncols x) (under_op (RCplx r) value repl)) tr ->
  (Z.of_nat (nrows x) <= 2 ^ 31 - 32)%Z -> (Z.of_nat (ncols x) <= 32 * 65535)%Z ->
  replace_under_abs x (RCplx r) value repl tr = Ok y ->
  forall i j, (i < nrows x)%nat -> (j < ncols x)%nat ->
  el y i j = if num_lt (Num (Cabs (el r i j))) value then repl else el x i j.
Proof. exact (under_gpu x r value repl tr y). Qed.
Print Assumptions C51_under_abs_gpu.
(** [replace_under_abs] with the default [ref=None] raises *)
Theorem C51_default_ref_refuted x value repl tr : replace_under_abs x RNone value repl tr = Err TypeError.
Proof. exact eq_refl. Qed.
Print Assumptions C51_default_ref_refuted.
Theorem C51_denormals_partial tiny x own tr :
  schedule_of (pw_progs (seq 0 (length x)) own (zd_op tiny)) tr ->
  let y := zero_denormals true tiny x tr in
  length y = length x /\ forall i, (i < length x)%nat ->
  nth i y NaN = match nth i x NaN with
                | Num r => if Rlt_dec (Rabs r) tiny then Num 0 else Num r
                | v => v
                end.
Proof. exact (zd_cells tiny x own tr). Qed.
Print Assumptions C51_denormals_partial.
(** an array that is not contiguous: [ravel] copies and nothing is zeroed *)
Theorem C51_denormals_view_refuted : exists x tr, schedule_of (pw_progs (seq 0 (length x)) (fun _ => O) (zd_op 1)) tr /\
  nth 0 (zero_denormals true 1 x tr) NaN = Num 0 /\ nth 0 (zero_denormals false 1 x tr) NaN = Num (1 / 2).
Proof. exact zd_view. Qed.
Print Assumptions C51_denormals_view_refuted.
Example C51_case :
  let x := Mat 1 3 (fun _ j => match j with 0 => Num 5 | 1 => NaN | _ => Num (1 / 2) end)%nat in
  exists y, replace_under_abs x RSelf (Num 1) PInf (pw_serial (cells2 1 3) (under_op RSelf (Num 1) PInf)) = Ok y /\
    el y 0 0 = Num 5 /\ el y 0 1 = NaN /\ el y 0 2 = PInf.
Proof. exact under_example. Qed.
Example C51_case_at :
  let x := A3 3 1 1 (fun c => match fst (fst c) with 0 => Num 5 | 1 => NaN | _ => NInf end)%nat in
  exists y, replace_at AtInfOrNan x None (Num 0) = Ok y /\ at3 y (0, 0, 0)%nat = Num 5 /\ at3 y (1, 0, 0)%nat = Num 0 /\
    at3 y (2, 0, 0)%nat = Num 0.
Proof. exact replace_example. Qed.

(** ** C53 *)
(** [works1 M N b t j]: thread [t] of block [b] passes the bounds check and works on column
    [j]; [works2] the same for cells. *)
Theorem C53_columns_partial M N : (0 < M)%Z -> (0 < N)%Z -> (M * N <= 2 ^ 31 - 1024)%Z ->
  launch_ok (grid1 M N) 1 = true /\
  (forall j, (0 <= j < N)%Z ->
     exists b t, works1 M N b t j /\ forall b' t', works1 M N b' t' j -> b' = b /\ t' = t) /\
  (forall b t j, works1 M N b t j -> (0 <= j < N)%Z).
Proof. exact (launch1 M N). Qed.
Print Assumptions C53_columns_partial.
Theorem C53_cells_partial M N : (0 < M <= 2 ^ 31 - 32)%Z -> (0 < N <= 32 * 65535)%Z ->
  launch_ok (fst (grid2 M N)) (snd (grid2 M N)) = true /\
  (forall i j, (0 <= i < M)%Z -> (0 <= j < N)%Z ->
     exists bx tx byy ty, works2 M N bx tx byy ty i j /\
       forall bx' tx' by' ty', works2 M N bx' tx' by' ty' i j -> bx' = bx /\ tx' = tx /\ by' = byy /\ ty' = ty) /\
  (forall bx tx byy ty i j, works2 M N bx tx byy ty i j -> (0 <= i < M)%Z /\ (0 <= j < N)%Z).
Proof. exact (launch2 M N). Qed.
Print Assumptions C53_cells_partial.
(** more than 2^31 elements: negative column indices get past the check *)
Theorem C53_overflow_refuted M N : (0 < M)%Z -> (0 < N)%Z -> (M * N > 2 ^ 31)%Z ->
  exists b t j, works1 M N b t j /\ (j < 0)%Z.
Proof. exact (launch1_overflow M N). Qed.
Print Assumptions C53_overflow_refuted.
(** more than 2^32: two threads accumulate into one column *)
Theorem C53_twice_refuted M N : (0 < M)%Z -> (0 < N)%Z -> (M * N > 2 ^ 32)%Z ->
  exists b t b' t', works1 M N b t 0 /\ works1 M N b' t' 0 /\ b <> b'.
Proof. exact (launch1_twice M N). Qed.
Print Assumptions C53_twice_refuted.
(** more than 2097120 columns: the 2-D grid exceeds the device limit in y *)
Theorem C53_long_signal_refuted M N : (N > 32 * 65535)%Z -> launch_ok (fst (grid2 M N)) (snd (grid2 M N)) = false.
Proof. exact (launch2_long M N). Qed.
Print Assumptions C53_long_signal_refuted.
Example C53_case : works1 3 1500 1 400 1424 /\ works2 40 70 1 5 2 3 37 67 /\
  (300 * 8000000 > 2 ^ 31)%Z.
Proof.
  unfold works1, works2. change (grid1 3 1500) with 5%Z. change (grid2 40 70) with (2, 3)%Z.
  change (thread_index block1 1 400) with 1424%Z. change (thread_index block2 1 5) with 37%Z.
  change (thread_index block2 2 3) with 67%Z. unfold block1, block2. cbn [fst snd]. lia.
Qed.
