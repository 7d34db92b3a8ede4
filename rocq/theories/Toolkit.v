(** toolkit.py and utils/common.py: error metrics, thresholds, bands.  nan and inf are [None];
    plots are not modelled. *)
From Coq Require Import Reals Lra.
From Verif Require Import Py Cplx Squeeze Scales Search Resol.
Local Open Scope R_scope.

(** toolkit.py:38-41 [mad_rms]; broadcasting of a single sample is not modelled *)
Definition rms (x : list R) : R := sqrt (mean (map (fun u => u ^ 2) x)).
Definition mad_rms (x xrec : list R) : res (option R) :=
  if (length x =? length xrec)%nat then
    Ok (npdiv (mean (map (fun '(u, v) => Rabs (u - v)) (combine x xrec))) (rms x))
  else if ((length x =? 1) || (length xrec =? 1))%nat then Err NotModelled else Err ValueError.

(** entries of a 2D array, row by row *)
Definition cells {A} (m : mat A) : list (nat * nat) :=
  concat (tab (nrows m) (fun i => tab (ncols m) (fun j => (i, j)))).
Definition entries_of {A} (m : mat A) : list A := map (fun '(i, j) => el m i j) (cells m).
(** toolkit.py:44-46 [where_amax] on a 2D array: [np.where] lists indices row by row; [max] of an
    empty array raises *)
Definition where_amax (x : mat C) : res (list (nat * nat)) :=
  match cells x with
  | [] => Err ValueError
  | l => let mx := lmax (map Cabs (entries_of x)) in
         Ok (filter (fun '(i, j) => if Req_EM_T (Cabs (el x i j)) mx then true else false) l)
  end.

(** toolkit.py:7-21 [lin_band]; values past int32's range are not modelled *)
Definition lin_band (na N : nat) (slope offset bw : R) : list Z * list Z :=
  (map (fun t => py_int (slope * (t + offset) * INR na)) (linspace 0 1 N),
   tab N (fun _ => py_int (bw * INR na * 1))).

(** utils/common.py:297-299 [mad] of a whole array *)
Definition mad (data : list R) : R := mean (map (fun u => Rabs (u - mean data)) data).
(** [Wx[:nv]] *)
Definition rows_to {A} (m : mat A) (nv : Z) : mat A :=
  Mat (Z.to_nat (Z.max 0 (norm_bound (Z.of_nat (nrows m)) nv))) (ncols m) (el m).
(** utils/common.py:248-276 [est_riskshrink_thresh]; nothing to average: nan *)
Definition est_riskshrink_thresh (Wx : mat C) (nv : Z) : option R :=
  let fine := map Cabs (entries_of (rows_to Wx nv)) in
  if (length fine =? 0)%nat then None
  else Some (14826 / 10000 * sqrt (2 * ln (INR (ncols Wx))) * mad fine).
