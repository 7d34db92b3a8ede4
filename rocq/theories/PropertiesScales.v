(** C45-C47, C60: scale grids, sampling rate, the weight of each scale. *)
From Verif Require Import Py Round Cplx Squeeze SqueezeThms Scales Ssqueeze SsqWitness ScaleThms.
Local Open Scope R_scope.

(** ** C45 *)
Theorem C45_log_scales mn mx nv fds ds : 0 < mn < mx -> (1 <= nv)%Z ->
  exists s, make_scales mn mx nv SLog fds ds = Ok s /\ s <> [] /\
  (forall k, (k < length s)%nat -> nth k s 0 = nth 0 s 0 * Rpower 2 (INR k / IZR nv)) /\
  mn / Rpower 2 (1 / IZR nv) < nth 0 s 0 <= mn /\
  mx / Rpower 2 (2 / IZR nv) < last s 0 < mx.
Proof. exact (fun H1 H2 => log_scales mn mx nv H1 H2 fds ds). Qed.
Print Assumptions C45_log_scales.
(** [nv] is read back from the array *)
Theorem C45_log_scales_inferred f64 mn mx nv fds ds s : 0 < mn < mx -> (1 <= nv)%Z ->
  make_scales mn mx nv SLog fds ds = Ok s -> (3 <= length s)%nat ->
  process_scales_arr f64 s = Ok (KLog nv).
Proof. exact (log_scales_inferred f64 mn mx nv fds ds s). Qed.
Print Assumptions C45_log_scales_inferred.
Theorem C45_linear_scales mn mx nv fds ds : 0 < mn < mx -> (1 <= nv)%Z -> exists s,
  make_scales mn mx nv SLin fds ds = Ok s /\ (2 <= length s)%nat /\
  mn / Rpower 2 (1 / IZR nv) < nth 0 s 0 <= mn /\
  mx / Rpower 2 (1 / IZR nv) < last s 0 < mx * Rpower 2 (1 / IZR nv) /\
  (forall k, (S k < length s)%nat -> nth (S k) s 0 - nth k s 0 = (last s 0 - nth 0 s 0) / INR (length s - 1)).
Proof. exact (linear_scales mn mx nv fds ds). Qed.
Print Assumptions C45_linear_scales.
Example C45_case fds ds : make_scales 1 64 1 SLog fds ds = Ok [1; 2; 4; 8; 16; 32].
Proof. exact (make6 fds ds). Qed.

(** ** C46 *)
(** [g] are the log scales, [i] what find_downsampling_scale returned, [ds] the downsampling *)
Theorem C46_piecewise_scales_partial mn mx nv fds ds i g : 0 < mn < mx -> (1 <= nv)%Z -> (2 <= ds)%Z ->
  make_scales mn mx nv SLog fds ds = Ok g -> fds g = Ok (Some i) ->
  (2 <= i)%nat -> (Z.of_nat i + ds <= Z.of_nat (length g))%Z ->
  exists s v, make_scales mn mx nv SPiece fds ds = Ok s /\ (i < length s)%nat /\
    (forall k, (k < i)%nat -> nth k s 0 = nth k g 0) /\
    (forall k, (i <= k < length s)%nat -> exists p, (p < length g)%nat /\ nth k s 0 = nth p g 0) /\
    (forall k, (S k < length s)%nat ->
       nth (S k) s 0 = nth k s 0 * Rpower 2 ((if (S k <? i)%nat then 1 else IZR ds) / IZR nv)) /\
    (forall f64, logscale_transition_idx f64 s = Ok (Some i)) /\
    (forall f64, nv_from_scales f64 s = Ok v) /\ length v = length s /\
    (forall k, (k < length s)%nat -> nth k v 0 = if (k <? i)%nat then IZR nv else IZR nv / IZR ds).
Proof. exact (piecewise_scales mn mx nv fds ds i g). Qed.
Print Assumptions C46_piecewise_scales_partial.
(** the index is that of the first group found too dense, and leaves room for the coarse part *)
Theorem C46_downsampling_index span tol m t1 t2 Psih sc i :
  find_downsampling_scale span tol m t1 t2 Psih sc = Ok (Some i) ->
  (i + span + 2 < length sc)%nat /\
  let half := map (fun row => firstn (length row / 2) row) Psih in
  group_breaks span tol m t1 t2 half i = true /\
  forall k, (k < i)%nat -> group_breaks span tol m t1 t2 half k = false.
Proof. exact (downsampling_index span tol m t1 t2 Psih sc i). Qed.
Print Assumptions C46_downsampling_index.
Theorem C46_default_coarse_part_nonempty Psi g i ds : fds_default Psi g = Ok (Some i) -> (ds <= 8)%Z ->
  (Z.of_nat i + ds <= Z.of_nat (length g))%Z.
Proof. exact (default_coarse_nonempty Psi g i ds). Qed.
Print Assumptions C46_default_coarse_part_nonempty.
(** index 1: all spacings are the coarse one and no switch is found *)
Theorem C46_early_switch_refuted : exists fds s, fds [1; 2; 4; 8; 16; 32] = Ok (Some 1%nat) /\
  make_scales 1 64 1 SLog fds 2 = Ok [1; 2; 4; 8; 16; 32] /\
  make_scales 1 64 1 SPiece fds 2 = Ok s /\ s = [1; 4; 16] /\
  logscale_transition_idx true s = Ok None.
Proof. exact early_switch. Qed.
Print Assumptions C46_early_switch_refuted.
(** six scales or fewer: the loop variable is never set *)
Theorem C46_few_scales_refuted span tol m t1 t2 Psih sc : length Psih = length sc ->
  (length sc <= span + 1)%nat ->
  find_downsampling_scale span tol m t1 t2 Psih sc = Err UnboundLocalError.
Proof. exact (few_scales_unbound span tol m t1 t2 Psih sc). Qed.
Print Assumptions C46_few_scales_refuted.
Example C46_case : let fds := fun _ : list R => Ok (Some 2%nat) in
  make_scales 1 64 1 SPiece fds 2 = Ok [1; 2; 8; 32].
Proof.
  cbv zeta. pose proof (make6 (fun _ => Ok (Some 2%nat)) 2) as E. unfold make_scales in *.
  injection E as E. rewrite E. reflexivity.
Qed.

(** ** C47 *)
Theorem C47_accepted_rate_partial fs t N r : process_fs_and_t fs t N = Ok r ->
  match t with
  | None => match fs with None => r = 1 | Some f => r = f end /\ 0 < r
  | Some t => length t = N /\ (3 <= length t)%nat /\ r * (nth 1 t 0 - nth 0 t 0) = 1 /\
              (nth 0 t 0 < nth 1 t 0 -> 0 < r)
  end.
Proof. exact (fs_accepted fs t N r). Qed.
Print Assumptions C47_accepted_rate_partial.
Theorem C47_rejected fs t N : length t <> N \/ / 10000000 <= mean (map Rabs (diff (diff t))) ->
  process_fs_and_t fs (Some t) N = Err PlainException.
Proof. exact (t_rejected fs t N). Qed.
Print Assumptions C47_rejected.
Theorem C47_uniform_accepted fs t N dt t0 : length t = N -> (3 <= N)%nat -> 0 < dt ->
  (forall k, (k < N)%nat -> nth k t 0 = t0 + INR k * dt) ->
  exists r, process_fs_and_t fs (Some t) N = Ok r /\ r * dt = 1 /\ 0 < r.
Proof. exact (uniform_accepted fs t N dt t0). Qed.
Print Assumptions C47_uniform_accepted.
Theorem C47_decreasing_t_refuted : process_fs_and_t None (Some [2; 1; 0]) 3 = Ok (-1).
Proof. exact decreasing_t. Qed.
Print Assumptions C47_decreasing_t_refuted.
(** the threshold is absolute: a step that doubles is accepted at 10 ns *)
Theorem C47_nonuniform_refuted : exists t r, process_fs_and_t None (Some t) 3 = Ok r /\
  nth 2 t 0 - nth 1 t 0 = 2 * (nth 1 t 0 - nth 0 t 0) /\ nth 0 t 0 < nth 1 t 0.
Proof. exact tiny_nonuniform_t. Qed.
Print Assumptions C47_nonuniform_refuted.
Example C47_case : exists r, process_fs_and_t None (Some [1; 3; 5; 7]) 4 = Ok r /\ r * 2 = 1 /\ 0 < r.
Proof.
  apply (C47_uniform_accepted None [1; 3; 5; 7] 4 2 1); auto; [lra|].
  intros [|[|[|[|k]]]] H; cbn; try ring. lia.
Qed.

(** ** C60 *)
Theorem C60_log_weight_partial mn mx nv fds ds s o f64 : 0 < mn < mx -> (1 <= nv)%Z ->
  make_scales mn mx nv SLog fds ds = Ok s -> (3 <= length s)%nat ->
  o_tr o = TCwt -> o_scales o = Some s ->
  exists k c, process_scales_arr f64 s = Ok k /\ (forall v, ssq_const o (Some k) v = Ok (CScalar c)) /\
    forall i, (S i < length s)%nat -> ln (nth (S i) s 0) - ln (nth i s 0) = c.
Proof. exact (log_const mn mx nv fds ds s o f64). Qed.
Print Assumptions C60_log_weight_partial.
Theorem C60_piecewise_weight o f64 s nv v c : o_tr o = TCwt -> nv_from_scales f64 s = Ok nv ->
  ssq_const o (Some (KPiece nv)) v = Ok c ->
  exists l, c = CArr l /\ ((2 <= length s)%nat -> length l = length s) /\
    (forall k, (S k < length s)%nat -> nth (S k) l 0 = ln (nth (S k) s 0) - ln (nth k s 0)) /\
    ((2 <= length s)%nat -> nth 0 l 0 = nth 1 l 0).
Proof. exact (piece_const o f64 s nv v c). Qed.
Print Assumptions C60_piecewise_weight.
(** 1.5 voices per octave are rounded to 2: the weight is three quarters of the step *)
Theorem C60_fractional_voices_refuted o v : o_tr o = TCwt -> exists c,
  process_scales_arr true sesqui = Ok (KLog 2) /\ ssq_const o (Some (KLog 2)) v = Ok (CScalar c) /\
  4 * c = 3 * (ln (nth 1 sesqui 0) - ln (nth 0 sesqui 0)) /\ 0 < c.
Proof. exact (sesqui_const o v). Qed.
Print Assumptions C60_fractional_voices_refuted.
(** fewer than half a voice per octave: rejected with "nv must be a positive integer" *)
Theorem C60_coarse_scales_rejected : process_scales_arr true [1; 8; 64] = Err ValueError.
Proof. exact third_voice. Qed.
Print Assumptions C60_coarse_scales_rejected.
Example C60_case : process_scales_arr true [1; 2; 4] = Ok (KLog 1).
Proof. exact (scales124 true). Qed.
