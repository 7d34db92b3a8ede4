(** What [extract_ridges] follows when the energy is spread over several components. *)
From Coq Require Import Reals Lra Lia List.
Import ListNotations.
From Verif Require Import Py Parallel Cplx CplxProofs Buffer Ridge RidgeProofs RidgeOpt RidgeThms RidgeCurve RidgeWitness RidgeBand RidgeBandWitness.
Local Open Scope R_scope.

(** * C101: extract_ridges follows the curve that carries the energy *)

(** energy off the curve, and any of the ridges: it stays in the rows [B] that carry the most of what is left, if the energy elsewhere
    is smaller by a factor exceeding the price of two jumps; more rows than times are allowed so long as the band ends below row [T] *)
Theorem C101_band par f64 Tf scales penalty n bw cwt o k B m rho J : extract_ridges par f64 Tf scales penalty n bw cwt = Ok o ->
  sched_ok (nrows Tf) par -> (k < n)%nat -> 0 <= penalty ->
  let F := nrows Tf in let T := ncols Tf in
  banded F T (energy_at F bw (firstn k o) (energy Tf)) B m rho ->
  (forall f g t, (f < F)%nat -> (g < F)%nat -> (S t < T)%nat -> B t f = true -> B (S t) g = true -> jump cwt scales penalty g f <= J) -> 0 <= J ->
  2 * J + INR (T - 1) * eps_of f64 < ln ((1 + eps_of f64) / (rho + eps_of f64)) ->
  (forall f, (f < F)%nat -> B (T - 1)%nat f = true -> (f < T)%nat) ->
  forall t, (t < T)%nat -> B t (nth t (r_idx (nth k o ridge0)) 0%nat) = true.
Proof. exact (ridge_k_band par f64 Tf scales penalty n bw cwt o k B m rho J). Qed.
Print Assumptions C101_band.

(** without that: all the energy in the third of three rows, two times, and the ridge's last row is the first *)
Theorem C101_last_row_refuted : exists Tf sc o, extract_ridges None true Tf sc 2 1 15 false = Ok o /\ nrows Tf = 3%nat /\ ncols Tf = 2%nat /\
  (forall f t, (f < 3)%nat -> (t < 2)%nat -> energy Tf f t = if (f =? 2)%nat then 1 else 0) /\
  nth 1 (r_idx (nth 0 o ridge0)) 0%nat = 0%nat.
Proof.
  destruct mod_wrong as (o & E & L & _). exists (rows 3 2 (one_row 2)), [1; 2; 3], o. repeat split; try assumption.
  intros f t Hf Ht. rewrite one_row_energy. destruct f as [|[|[|f]]]; try lia; reflexivity.
Qed.
Print Assumptions C101_last_row_refuted.

(** * C119: several components come back in order of strength *)

(** [components]: curve [k] carries the most energy away from the curves before it, at each time, by a factor [rho]; each ridge is its
    curve, with that row's scale and energy *)
Theorem C119_components par f64 Tf scales penalty n bw cwt o c rho J : extract_ridges par f64 Tf scales penalty n bw cwt = Ok o ->
  sched_ok (nrows Tf) par -> 0 <= penalty -> components Tf bw n c rho ->
  (forall k t, (k < n)%nat -> (S t < ncols Tf)%nat -> jump cwt scales penalty (c k (S t)) (c k t) <= J) -> 0 <= J ->
  2 * J + INR (ncols Tf - 1) * eps_of f64 < ln ((1 + eps_of f64) / (rho + eps_of f64)) ->
  (forall k, (k < n)%nat -> (c k (ncols Tf - 1) < ncols Tf)%nat) ->
  forall k t, (k < n)%nat -> (t < ncols Tf)%nat ->
    nth t (r_idx (nth k o ridge0)) 0%nat = c k t /\ nth t (r_freq (nth k o ridge0)) 0 = nth (c k t) scales 0 /\
    nth t (r_energy (nth k o ridge0)) 0 = energy Tf (c k t) t.
Proof. exact (components_found par f64 Tf scales penalty n bw cwt o c rho J). Qed.
Print Assumptions C119_components.

(** components some rows wide: each ridge stays within [w] rows of its component *)
Theorem C119_bands par f64 Tf scales penalty n bw cwt o c w rho J : extract_ridges par f64 Tf scales penalty n bw cwt = Ok o ->
  sched_ok (nrows Tf) par -> 0 <= penalty -> bands Tf bw n c w rho ->
  (forall k t f g, (k < n)%nat -> (S t < ncols Tf)%nat -> (f < nrows Tf)%nat -> (g < nrows Tf)%nat ->
     close_rows w f (c k t) -> close_rows w g (c k (S t)) -> jump cwt scales penalty g f <= J) -> 0 <= J ->
  2 * J + INR (ncols Tf - 1) * eps_of f64 < ln ((1 + eps_of f64) / (rho + eps_of f64)) ->
  (forall k, (k < n)%nat -> (c k (ncols Tf - 1) + w < ncols Tf)%nat) ->
  forall k t, (k < n)%nat -> (t < ncols Tf)%nat ->
    let p := nth t (r_idx (nth k o ridge0)) 0%nat in
    close_rows w p (c k t) /\ nth t (r_freq (nth k o ridge0)) 0 = nth p scales 0 /\ nth t (r_energy (nth k o ridge0)) 0 = energy Tf p t.
Proof. exact (bands_found par f64 Tf scales penalty n bw cwt o c w rho J). Qed.
Print Assumptions C119_bands.

(** two components over a noise floor, both stepping up a row half way; 60 rows, 40 times *)
Example C119_case par : sched_ok 60 par -> exists o, extract_ridges par true floor_mat scales60 2 2 8 false = Ok o /\
  forall t, (t < 40)%nat ->
    nth t (r_idx (nth 0 o ridge0)) 0%nat = (if t <? 20 then 10 else 11)%nat /\
    nth t (r_idx (nth 1 o ridge0)) 0%nat = (if t <? 20 then 30 else 31)%nat /\
    nth t (r_energy (nth 0 o ridge0)) 0 = 16 /\ nth t (r_energy (nth 1 o ridge0)) 0 = 4.
Proof. exact (floor_found par). Qed.
