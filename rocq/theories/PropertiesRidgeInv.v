(** What ridges do not depend on, and what the penalty does to them. *)
From Coq Require Import Reals Lra.
From Verif Require Import Py Parallel Cplx CplxProofs Squeeze Ssqueeze Ridge RidgeProofs RidgeOpt RidgeThms RidgeInv RidgePenalty RidgePenaltyWit.
Local Open Scope R_scope.

(** * C125: ridges ignore the gain of a column and the unit of the scales *)

(** every column multiplied by its own nonzero number: the same indices and frequencies, the
    energies multiplied by its squared modulus; any number of ridges, any schedule *)
Theorem C125_gain_partial par f64 Tf scales penalty n bw cwt c : (forall t, c t <> C0) ->
  extract_ridges par f64 (times_columns c Tf) scales penalty n bw cwt =
  match extract_ridges par f64 Tf scales penalty n bw cwt with
  | Ok o => Ok (map (amplified (fun t => Cabs (c t) ^ 2)) o)
  | Err e => Err e
  end.
Proof. exact (extract_amplified par f64 Tf scales penalty n bw cwt c). Qed.
Print Assumptions C125_gain_partial.

(** [transform='cwt']: scales in another unit *)
Theorem C125_cwt_unit_partial par f64 Tf scales penalty n bw o a : sched_ok (nrows Tf) par -> 0 < a ->
  extract_ridges par f64 Tf scales penalty n bw true = Ok o ->
  extract_ridges par f64 Tf (map (Rmult a) scales) penalty n bw true = Ok (map (relabelled (map (Rmult a) scales)) o).
Proof. exact (ridges_unit_free par f64 Tf scales penalty n bw o a). Qed.
Print Assumptions C125_cwt_unit_partial.

(** [transform='stft']: frequencies counted from another zero *)
Theorem C125_stft_offset_partial par f64 Tf scales penalty n bw o a : sched_ok (nrows Tf) par ->
  extract_ridges par f64 Tf scales penalty n bw false = Ok o ->
  extract_ridges par f64 Tf (map (Rplus a) scales) penalty n bw false = Ok (map (relabelled (map (Rplus a) scales)) o).
Proof. exact (ridges_shift_free par f64 Tf scales penalty n bw o a). Qed.
Print Assumptions C125_stft_offset_partial.

(** [transform='stft']: another unit is another penalty.  Missing: the same ridge with the same penalty *)
Theorem C125_stft_unit_partial par f64 Tf scales penalty n bw o a : sched_ok (nrows Tf) par ->
  extract_ridges par f64 Tf scales (a ^ 2 * penalty) n bw false = Ok o ->
  extract_ridges par f64 Tf (map (Rmult a) scales) penalty n bw false = Ok (map (relabelled (map (Rmult a) scales)) o).
Proof. exact (ridges_unit_penalty par f64 Tf scales penalty n bw o a). Qed.
Print Assumptions C125_stft_unit_partial.

(** which may be another ridge *)
Theorem C125_stft_unit_refuted : exists o o', extract_ridges None true hop [1; 2] 160 1 1 false = Ok o /\
  extract_ridges None true hop (map (Rmult (1 / 20)) [1; 2]) 160 1 1 false = Ok o' /\
  (forall t, (t < 3)%nat -> first_ridge o t = 0%nat) /\ forall t, (t < 3)%nat -> first_ridge o' t = (t mod 2)%nat.
Proof. exact stft_unit. Qed.
Print Assumptions C125_stft_unit_refuted.

Example C125_case : exists o, extract_ridges None true hop [1; 2] 160 1 1 false = Ok o /\
  let c t := Cmul (RtoC (INR (S t))) (if Nat.eq_dec t 1 then Ci else C1) in (forall t, c t <> C0) /\
  extract_ridges None true (times_columns c hop) [1; 2] 160 1 1 false = Ok (map (amplified (fun t => Cabs (c t) ^ 2)) o) /\
  Cabs (c 1%nat) = 2.
Proof. exact hop_gains. Qed.

Example C125_case_unit : exists o, extract_ridges None true hop [1; 2] 160 1 1 true = Ok o /\
  extract_ridges None true hop (map (Rmult 3) [1; 2]) 160 1 1 true = Ok (map (relabelled (map (Rmult 3) [1; 2])) o).
Proof.
  destruct (extract_ok None true hop [1; 2] 160 1 1 true ltac:(cbn; lia) ltac:(cbn; lia) eq_refl) as (o & H).
  - intros _ [|[|k]] Hk; cbn in *; [lra|lra|lia].
  - exists o. split; [exact H|]. exact (C125_cwt_unit_partial None true hop [1; 2] 160 1 1 o 3 I ltac:(lra) H).
Qed.

(** * C126: more penalty, a smoother ridge *)

(** a larger penalty: no rougher, and no more energy, up to the backward pass's tolerance.
    Missing: more rows than times, empty columns (C30) *)
Theorem C126_smoother_partial par par' f64 Tf scales p1 p2 n bw cwt o1 o2 M :
  extract_ridges par f64 Tf scales p1 n bw cwt = Ok o1 -> extract_ridges par' f64 Tf scales p2 n bw cwt = Ok o2 ->
  sched_ok (nrows Tf) par -> sched_ok (nrows Tf) par' -> (1 <= n)%nat -> (nrows Tf <= ncols Tf)%nat -> col_peaks Tf M -> p1 < p2 ->
  let T := ncols Tf in let slack := INR (T - 1) * eps_of f64 in
  roughness cwt scales T (first_ridge o2) <= roughness cwt scales T (first_ridge o1) + 2 * slack / (p2 - p1) /\
  (0 <= p1 -> energy_cost f64 (energy Tf) M T (first_ridge o1) <= energy_cost f64 (energy Tf) M T (first_ridge o2) + slack + 2 * slack * p1 / (p2 - p1)).
Proof. exact (penalty_smooths par par' f64 Tf scales p1 p2 n bw cwt o1 o2 M). Qed.
Print Assumptions C126_smoother_partial.

(** no penalty: the largest energy of each column *)
Theorem C126_none_partial par f64 Tf scales n bw cwt o M :
  extract_ridges par f64 Tf scales 0 n bw cwt = Ok o ->
  sched_ok (nrows Tf) par -> (1 <= n)%nat -> (nrows Tf <= ncols Tf)%nat -> col_peaks Tf M ->
  forall t, (t < ncols Tf)%nat -> (1 - INR (ncols Tf - 1) * eps_of f64 * (1 + eps_of f64)) * M t <= energy Tf (first_ridge o t) t.
Proof. exact (no_penalty_peaks par f64 Tf scales n bw cwt o M). Qed.
Print Assumptions C126_none_partial.

(** enough penalty: one row, the best one *)
Theorem C126_large_partial par f64 Tf scales penalty n bw cwt o M :
  extract_ridges par f64 Tf scales penalty n bw cwt = Ok o ->
  sched_ok (nrows Tf) par -> (1 <= n)%nat -> (nrows Tf <= ncols Tf)%nat -> col_peaks Tf M -> 0 <= penalty ->
  (forall a b, (a < nrows Tf)%nat -> (b < nrows Tf)%nat -> a <> b ->
     INR (ncols Tf) * (ln (1 + eps_of f64) - ln (eps_of f64)) + INR (ncols Tf - 1) * eps_of f64 < jump cwt scales penalty a b) ->
  exists f, (f < nrows Tf)%nat /\ (forall t, (t < ncols Tf)%nat -> first_ridge o t = f) /\
    forall g, (g < nrows Tf)%nat -> row_cost f64 Tf M f <= row_cost f64 Tf M g + INR (ncols Tf - 1) * eps_of f64.
Proof. exact (penalty_flattens par f64 Tf scales penalty n bw cwt o M). Qed.
Print Assumptions C126_large_partial.

(** between two rows, without penalty and with *)
Example C126_case : exists o o', extract_ridges None true hop [1; 2] 0 1 1 false = Ok o /\
  extract_ridges None true hop [1; 2] 160 1 1 false = Ok o' /\
  (forall t, (t < 3)%nat -> first_ridge o t = (t mod 2)%nat) /\ (forall t, (t < 3)%nat -> first_ridge o' t = 0%nat) /\
  roughness false [1; 2] 3 (first_ridge o') < roughness false [1; 2] 3 (first_ridge o).
Proof.
  destruct (hop_ok None 0 1 1) as (o & H). destruct (hop_ok None 160 1 1) as (o' & H').
  pose proof (hop_free None 0 1 o H I) as A. pose proof (hop_held None 0 1 o' H' I) as B.
  exists o, o'. split; [exact H|]. split; [exact H'|]. split; [exact A|]. split; [exact B|].
  unfold roughness. cbn [Nat.sub Rsum]. rewrite !A, !B by lia. cbn [Nat.modulo Nat.divmod fst snd Nat.sub nth]. lra.
Qed.
