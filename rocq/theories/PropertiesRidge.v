(** C30 - C32: ridge extraction. *)
From Coq Require Import Reals Lra.
From Verif Require Import Py Parallel Cplx Squeeze Ssqueeze Ridge RidgeProofs RidgeOpt RidgeThms RidgeWitness.
Local Open Scope R_scope.

(** ** C30 *)
(** The first ridge minimises total energy cost plus jump penalty over all index paths, up to
    [(n_times - 1) * eps], whatever the schedule of the parallel kernels ([par]); [M] is the
    largest energy of each column.  Partial: needs at least as many times as rows (refuted
    otherwise) and energy in every column. *)
Theorem C30_first_ridge_partial par f64 Tf scales penalty n bw cwt o (M : nat -> R) :
  extract_ridges par f64 Tf scales penalty n bw cwt = Ok o -> sched_ok (nrows Tf) par -> (1 <= n)%nat ->
  (nrows Tf <= ncols Tf)%nat ->
  (forall t, (t < ncols Tf)%nat -> is_colmax (nrows Tf) (energy Tf) t (M t) /\ M t <> 0) ->
  let p t := nth t (r_idx (nth 0 o ridge0)) 0%nat in
  valid_path (nrows Tf) (ncols Tf) p /\
  forall q, valid_path (nrows Tf) (ncols Tf) q ->
    path_cost (fun f t => - ln (energy Tf f t / M t + eps_of f64)) (jump cwt scales penalty) (ncols Tf) p <=
    path_cost (fun f t => - ln (energy Tf f t / M t + eps_of f64)) (jump cwt scales penalty) (ncols Tf) q
      + INR (ncols Tf - 1) * eps_of f64.
Proof.
  intros H Hs Hn HFT HM. cbv zeta. split.
  - intros t Ht. destruct (ridges_valid _ _ _ _ _ _ _ _ _ H Hs) as (_ & V). destruct (V 0%nat Hn) as (_ & V'). exact (proj1 (V' t Ht)).
  - exact (ridge_k_optimal par f64 Tf scales penalty n bw cwt o 0 M H Hs Hn HFT HM).
Qed.
Print Assumptions C30_first_ridge_partial.

(** Every later ridge does the same for the energy left by the ridges before it. *)
Theorem C30_every_ridge_partial par f64 Tf scales penalty n bw cwt o k M :
  extract_ridges par f64 Tf scales penalty n bw cwt = Ok o ->
  sched_ok (nrows Tf) par -> (k < n)%nat -> (nrows Tf <= ncols Tf)%nat ->
  let E := energy_at (nrows Tf) bw (firstn k o) (energy Tf) in
  (forall t, (t < ncols Tf)%nat -> is_colmax (nrows Tf) E t (M t) /\ M t <> 0) ->
  let p t := nth t (r_idx (nth k o ridge0)) 0%nat in
  forall q, valid_path (nrows Tf) (ncols Tf) q ->
    path_cost (cost_of f64 E M) (jump cwt scales penalty) (ncols Tf) p <=
    path_cost (cost_of f64 E M) (jump cwt scales penalty) (ncols Tf) q + INR (ncols Tf - 1) * eps_of f64.
Proof. exact (ridge_k_optimal par f64 Tf scales penalty n bw cwt o k M). Qed.
Print Assumptions C30_every_ridge_partial.

(** The call succeeds for two rows or more, one scale per row (positive for a CWT). *)
Theorem C30_succeeds par f64 Tf scales penalty n bw (cwt : bool) : (1 <= ncols Tf)%nat -> (2 <= nrows Tf)%nat ->
  length scales = nrows Tf -> (cwt = true -> forall k, (k < nrows Tf)%nat -> 0 < nth k scales 0) ->
  exists o, extract_ridges par f64 Tf scales penalty n bw cwt = Ok o.
Proof. exact (extract_ok par f64 Tf scales penalty n bw cwt). Qed.
Print Assumptions C30_succeeds.

(** [n_ridges] ridges; every index is a row, [ridge_f] the scale of that row and [ridge_e] the
    energy there when the ridge was found; for every number of rows and times, empty columns
    included. *)
Theorem C30_valid_rows par f64 Tf scales penalty n bw cwt o :
  extract_ridges par f64 Tf scales penalty n bw cwt = Ok o -> sched_ok (nrows Tf) par ->
  length o = n /\ forall k, (k < n)%nat ->
    length (r_idx (nth k o ridge0)) = ncols Tf /\
    forall t, (t < ncols Tf)%nat -> let f := nth t (r_idx (nth k o ridge0)) 0%nat in
      (f < nrows Tf)%nat /\ nth t (r_freq (nth k o ridge0)) 0 = nth f scales 0 /\
      nth t (r_energy (nth k o ridge0)) 0 = energy_at (nrows Tf) bw (firstn k o) (energy Tf) f t.
Proof. exact (ridges_valid par f64 Tf scales penalty n bw cwt o). Qed.
Print Assumptions C30_valid_rows.

(** Finding: the last index is taken modulo the number of times, so with more rows than times
    the ridge is not a cheapest path: all the energy in row 2 of 3, two times. *)
Theorem C30_more_rows_than_times_refuted : exists Tf scales penalty o q,
  extract_ridges None true Tf scales penalty 1 15 false = Ok o /\
  (forall t, (t < ncols Tf)%nat -> is_colmax (nrows Tf) (energy Tf) t 1) /\ valid_path (nrows Tf) (ncols Tf) q /\
  let e := cost_of true (energy Tf) (fun _ => 1) in
  let j := jump false scales penalty in
  path_cost e j (ncols Tf) q + INR (ncols Tf - 1) * eps_of true <
  path_cost e j (ncols Tf) (fun t => nth t (r_idx (nth 0 o ridge0)) 0%nat).
Proof.
  destruct mod_wrong as (o & Ho & _ & H). exists (rows 3 2 (one_row 2)), [1; 2; 3], 2, o, (fun _ => 2%nat).
  split; [exact Ho|]. split; [|split; [intros t _; cbn; lia|exact H]].
  intros t _. split.
  - exists 2%nat. split; [cbn; lia|]. rewrite one_row_energy. reflexivity.
  - intros f _. rewrite one_row_energy. unfold one_row. destruct (Nat.eq_dec f 2); lra.
Qed.
Print Assumptions C30_more_rows_than_times_refuted.

(** Finding: a transform of one row raises TypeError. *)
Theorem C30_single_row_refuted : exists Tf scales, nrows Tf = 1%nat /\ ncols Tf = 5%nat /\ length scales = 1%nat /\
  forall par, extract_ridges par true Tf scales 2 1 15 false = Err TypeError.
Proof.
  exists (rows 1 5 (fun _ => 1)), [1]. repeat (split; [reflexivity|]). intros par. apply single_row_raises; lia.
Qed.
Print Assumptions C30_single_row_refuted.

(** a 40 x 40 transform with two components meets the hypotheses *)
Example C30_case : exists o, extract_ridges None true (rows 40 40 two_rows) scales40 2 2 15 false = Ok o /\
  (forall t, (t < 40)%nat -> is_colmax 40 (energy (rows 40 40 two_rows)) t 1 /\ 1 <> 0) /\
  forall t, (t < 40)%nat -> nth t (r_idx (nth 0 o ridge0)) 0%nat = 20%nat.
Proof.
  destruct upper_row as (o & Ho & H). exists o. split; [exact Ho|]. split; [|intros t Ht; apply H, Ht].
  intros t _. split; [|lra]. split.
  - exists 20%nat. split; [lia|]. rewrite two_rows_energy. unfold two_rows. cbn. ring.
  - intros f _. rewrite two_rows_energy. unfold two_rows. destruct (Nat.eq_dec f 20); [lra|]. destruct (Nat.eq_dec f 35); lra.
Qed.

(** ** C31 *)
(** A later ridge [l] finds no energy where an earlier ridge [k] passed within [bw] rows below
    or less than [bw] above.  Partial: the earlier ridge must be at row [bw] or higher, and the
    upper end is exclusive; both are refuted below. *)
Theorem C31_band_removed_partial par f64 Tf scales penalty n bw cwt o k l t :
  extract_ridges par f64 Tf scales penalty n bw cwt = Ok o ->
  sched_ok (nrows Tf) par -> (k < l)%nat -> (l < n)%nat -> (t < ncols Tf)%nat ->
  let r := Z.of_nat (nth t (r_idx (nth k o ridge0)) 0%nat) in
  let r' := Z.of_nat (nth t (r_idx (nth l o ridge0)) 0%nat) in
  (bw <= r)%Z -> (r - bw <= r' < r + bw)%Z -> nth t (r_energy (nth l o ridge0)) 0 = 0.
Proof. exact (band_removed par f64 Tf scales penalty n bw cwt o k l t). Qed.
Print Assumptions C31_band_removed_partial.

(** Outside those bands nothing is removed. *)
Theorem C31_rest_kept par f64 Tf scales penalty n bw cwt o l t :
  extract_ridges par f64 Tf scales penalty n bw cwt = Ok o ->
  sched_ok (nrows Tf) par -> (l < n)%nat -> (t < ncols Tf)%nat -> (0 <= bw)%Z ->
  let r' := Z.of_nat (nth t (r_idx (nth l o ridge0)) 0%nat) in
  (forall k, (k < l)%nat -> let r := Z.of_nat (nth t (r_idx (nth k o ridge0)) 0%nat) in
     (bw <= r /\ (r' < r - bw \/ r + bw <= r'))%Z) ->
  nth t (r_energy (nth l o ridge0)) 0 = energy Tf (nth t (r_idx (nth l o ridge0)) 0%nat) t.
Proof. exact (rest_kept par f64 Tf scales penalty n bw cwt o l t). Qed.
Print Assumptions C31_rest_kept.

(** Finding: a first ridge below row [bw] (with [2 * bw] rows or more) is returned again as the
    second, since [energy[ridx - bw:ridx + bw]] has a negative start. *)
Theorem C31_repeated_ridge f64 Tf scales penalty n bw cwt o :
  extract_ridges None f64 Tf scales penalty n bw cwt = Ok o ->
  (2 <= n)%nat -> (0 <= bw)%Z -> (2 * bw <= Z.of_nat (nrows Tf))%Z ->
  (forall t, (t < ncols Tf)%nat -> (Z.of_nat (nth t (r_idx (nth 0 o ridge0)) 0%nat) < bw)%Z) ->
  nth 1 o ridge0 = nth 0 o ridge0.
Proof. exact (repeated_ridge f64 Tf scales penalty n bw cwt o). Qed.
Print Assumptions C31_repeated_ridge.
Theorem C31_negative_start_refuted : exists Tf scales o,
  extract_ridges None true Tf scales 2 2 15 false = Ok o /\ nrows Tf = 40%nat /\ ncols Tf = 40%nat /\
  forall t, (t < 40)%nat -> nth t (r_idx (nth 0 o ridge0)) 0%nat = 3%nat /\
    nth t (r_idx (nth 1 o ridge0)) 0%nat = 3%nat /\ nth t (r_energy (nth 1 o ridge0)) 0 = 1.
Proof.
  destruct negative_start as (o & Ho & E & H). exists (rows 40 40 (one_row 3)), scales40, o.
  repeat (split; [first [exact Ho | reflexivity]|]). intros t Ht. destruct (H t Ht) as (A & B). rewrite E at 1. auto.
Qed.
Print Assumptions C31_negative_start_refuted.

(** Finding: the row exactly [bw] above the ridge keeps its energy (the one [bw] below does
    not). *)
Theorem C31_upper_row_refuted : exists Tf scales o,
  extract_ridges None true Tf scales 2 2 15 false = Ok o /\ nrows Tf = 40%nat /\ ncols Tf = 40%nat /\
  forall t, (t < 40)%nat -> nth t (r_idx (nth 0 o ridge0)) 0%nat = 20%nat /\
    nth t (r_idx (nth 1 o ridge0)) 0%nat = (20 + 15)%nat /\ nth t (r_energy (nth 1 o ridge0)) 0 = / 4.
Proof.
  destruct upper_row as (o & Ho & H). exists (rows 40 40 two_rows), scales40, o.
  repeat (split; [first [exact Ho | reflexivity]|]). exact H.
Qed.
Print Assumptions C31_upper_row_refuted.

(** ** C32 *)
(** The forward kernel: every schedule of the parallel loops gives the serial result, for any
    addition and minimum (rounding included). *)
Theorem C32_forward_any_schedule (V : Type) (add : V -> V -> V) (amin : list V -> V) pen F T (sch : nat -> scheduler (nat * nat) V) s :
  (forall t, valid_sched F (sch t)) -> forall c, fw_par add amin pen F T sch s c = fw_serial add amin pen F T s c.
Proof. exact (fw_par_serial V add amin pen F T sch s). Qed.
Print Assumptions C32_forward_any_schedule.

(** [parallel=True] equals [parallel=False] for every schedule.  Partial: no two rows may be
    equally good predecessors up to [eps] ([clear_choice], for the energies left at each ridge);
    with ties it is refuted.  (C30 holds of every schedule, so the parallel ridge is a cheapest
    path in any case.) *)
Theorem C32_no_ties_partial par f64 Tf scales penalty n bw cwt o o' :
  extract_ridges par f64 Tf scales penalty n bw cwt = Ok o -> extract_ridges None f64 Tf scales penalty n bw cwt = Ok o' ->
  sched_ok (nrows Tf) par ->
  (forall k, (k < n)%nat -> clear_choice f64 (nrows Tf) (ncols Tf) (pen_of penalty cwt scales)
                              (energy_at (nrows Tf) bw (firstn k o') (energy Tf))) -> o = o'.
Proof. exact (schedule_free_all par f64 Tf scales penalty n bw cwt o o'). Qed.
Print Assumptions C32_no_ties_partial.

(** Finding: with two equally good predecessors the iteration that stores last decides. *)
Theorem C32_ties_refuted : exists Tf scales sch o o',
  sched_ok (nrows Tf) (Some sch) /\ extract_ridges None true Tf scales 1 1 15 false = Ok o /\
  extract_ridges (Some sch) true Tf scales 1 1 15 false = Ok o' /\ o <> o' /\
  r_idx (nth 0 o ridge0) = [2; 1]%nat /\ r_idx (nth 0 o' ridge0) = [0; 1]%nat.
Proof.
  destruct ties as (o & o' & H1 & H2 & H3 & H4 & H5). exists Tf_tie, [1; 2; 3], tie_scheds, o, o'.
  split; [exact H3|]. split; [exact H1|]. split; [exact H2|]. split; [intros ->; congruence|split; assumption].
Qed.
Print Assumptions C32_ties_refuted.

(** a non-serial schedule and a transform meeting the hypotheses *)
Example C32_case : sched_ok 2 (Some (fun _ _ => rev_sched 2, fun _ _ => rev_sched 2)) /\
  (forall o', extract_ridges None true (rows 2 2 (one_row 1)) [1; 2] 1 1 15 false = Ok o' ->
   forall k, (k < 1)%nat -> clear_choice true 2 2 (pen_of 1 false [1; 2]) (energy_at 2 15 (firstn k o') (energy (rows 2 2 (one_row 1))))) /\
  exists o, extract_ridges None true (rows 2 2 (one_row 1)) [1; 2] 1 1 15 false = Ok o.
Proof.
  split; [split; intros; apply rev_sched_valid|]. split.
  - intros o' _ k Hk. destruct k; [|lia]. exact clear_two.
  - apply extract_ok; cbn [rows nrows ncols]; try lia; reflexivity.
Qed.
