(** Properties of [integrate_analytic], [adm_ssq], [adm_cwt]. *)
From Coq Require Import Reals Lra ZifyBool ZifyNat.
From Verif Require Import Py Cplx Resol Wavelets Admiss AdmissThms AdmissThms2 AdmissThms3.
Local Open Scope R_scope.

(** * C94: [integrate_analytic] *)

(** what is returned: the trapezoid rule on 1000 points spaced logarithmically from 1e-15 to 0.1,
    plus the rule on the first range that converges, up to the first negligible sample after the peak *)
Theorem C94_value fn nowarn :
  (exists m L n, In (m, L) attempts /\ stops fn L (npts m) n /\ converged fn m L n /\
     (forall m' L', In (m', L') attempts -> L' < L -> exists n', stops fn L' (npts m') n' /\ ~ converged fn m' L' n') /\
     integrate_analytic fn nowarn = Ok (right_part fn L (npts m) n + left_part fn, false)) \/
  ((forall m L, In (m, L) attempts -> exists n, stops fn L (npts m) n /\ ~ converged fn m L n) /\
   (left_part fn < 1 / 10 ^ 5 /\ integrate_analytic fn nowarn = Err PlainException \/
    1 / 10 ^ 5 <= left_part fn /\ exists n, stops fn 160 (npts 8) n /\
      integrate_analytic fn nowarn = Ok (right_part fn 160 (npts 8) n + left_part fn, negb nowarn))).
Proof. exact (integrate_spec fn nowarn). Qed.
Print Assumptions C94_value.

Theorem C94_nonneg fn nowarn v b : (forall w, 0 < w -> 0 <= fn w) -> integrate_analytic fn nowarn = Ok (v, b) -> 0 <= v.
Proof. exact (integrate_nonneg fn nowarn v b). Qed.
Print Assumptions C94_nonneg.

Theorem C94_positive fn nowarn v b : (forall w, 0 < w -> 0 < fn w) -> integrate_analytic fn nowarn = Ok (v, b) -> 0 < v.
Proof. exact (integrate_positive fn nowarn v b). Qed.
Print Assumptions C94_positive.

Theorem C94_bound fn nowarn v b M : (forall w, 0 < w -> Rabs (fn w) <= M) -> integrate_analytic fn nowarn = Ok (v, b) -> Rabs v <= 160 * M.
Proof. exact (integrate_bound fn nowarn v b M). Qed.
Print Assumptions C94_bound.

Theorem C94_support fn nowarn m L k : In (m, L) attempts -> (forall w, 0 < w -> 0 <= fn w) ->
  (1000 * m < 10000 * m - Z.of_nat k)%Z -> (forall i, (k <= i < npts m)%nat -> fn (rgrid L (npts m) i) = 0) ->
  1 / 10 ^ 5 < Rsum (npts m) (fun i => Rabs (fn (rgrid L (npts m) i))) ->
  exists v, integrate_analytic fn nowarn = Ok (v, false) /\ 0 <= v.
Proof. exact (integrate_support fn nowarn m L k). Qed.
Print Assumptions C94_support.

Theorem C94_decay fn nowarn m L j k : In (m, L) attempts -> (forall w, 0 < w -> 0 <= fn w) ->
  (1000 * m < 10000 * m - Z.of_nat k)%Z -> (j < k)%nat -> 1 / 10 ^ 5 < fn (rgrid L (npts m) j) ->
  (forall i, (k <= i < npts m)%nat -> fn (rgrid L (npts m) i) < tiny) ->
  exists v, integrate_analytic fn nowarn = Ok (v, false) /\ 0 <= v.
Proof. exact (integrate_decay fn nowarn m L j k). Qed.
Print Assumptions C94_decay.

(** what is cut off; missing: the error of the trapezoid rule itself, and the strip next to 0.1 *)
Theorem C94_cut_partial fn L N n : 1 / 10 < L -> (forall w, 0 < w -> 0 <= fn w) -> stops fn L N n -> (1 <= n)%nat ->
  (forall i j, (n - 1 <= i)%nat -> (i <= j)%nat -> (j < N)%nat -> fn (rgrid L N j) <= fn (rgrid L N i)) ->
  (n < N - 1)%nat ->
  0 <= right_part fn L N N - right_part fn L N n <= rstep L N * fn (rgrid L N (n - 1)) / 2 + tiny * (L - 1 / 10).
Proof. exact (integrate_cut fn L N n). Qed.
Print Assumptions C94_cut_partial.

(** an integrand living between 0.1 and the next sample is not seen *)
Theorem C94_gap_refuted fn nowarn : (forall w, w <= 1 / 10 \/ 1 / 10 + 9 / 100000 <= w -> fn w = 0) -> integrate_analytic fn nowarn = Err PlainException.
Proof. exact (integrate_gap fn nowarn). Qed.
Print Assumptions C94_gap_refuted.

(** any integrand in small enough units is refused *)
Theorem C94_units_refuted fn nowarn : exists c0, 0 < c0 /\ forall c, 0 < c <= c0 -> integrate_analytic (fun w => c * fn w) nowarn = Err PlainException.
Proof. exact (integrate_small fn nowarn). Qed.
Print Assumptions C94_units_refuted.

(** the warning says that only 1e-15 to 0.1 was integrated *)
Theorem C94_warning_refuted c : 1 / 1000 <= c -> exists v, integrate_analytic (fun _ => c) false = Ok (v, true) /\ 159 * c < v.
Proof. exact (integrate_warned c). Qed.
Print Assumptions C94_warning_refuted.

(** a nonpositive integrand vanishing at the first sample is silently not integrated past 0.1 *)
Theorem C94_sign_refuted fn nowarn : (forall w, 0 < w -> fn w <= 0) -> fn (1 / 10 + 9 / 100000) = 0 ->
  1 / 10 ^ 5 < Rsum (npts 1) (fun i => Rabs (fn (rgrid 1 (npts 1) i))) -> integrate_analytic fn nowarn = Ok (left_part fn, false).
Proof. exact (integrate_negative fn nowarn). Qed.
Print Assumptions C94_sign_refuted.

Example C94_case : exists v, integrate_analytic (fun w => 2 * box w) false = Ok (v, false) /\ 0 <= v.
Proof.
  assert (EN : INR (npts 1) = 10000) by (unfold npts; rewrite INR_IZR_INZ, Z2Nat.id by lia; reflexivity).
  assert (G : forall i, rgrid 1 (npts 1) i = 1 / 10 + INR (S i) * (9 / 100000)) by (intros; unfold rgrid, rstep; rewrite EN; field).
  apply (C94_decay (fun w => 2 * box w) false 1%Z 1 (Z.to_nat 5000) (Z.to_nat 8000)); try lia.
  - cbn. tauto.
  - intros w _. pose proof (box_nonneg w). lra.
  - rewrite G, INR_IZR_INZ. replace (Z.of_nat (S (Z.to_nat 5000))) with 5001%Z by lia. unfold box.
    destruct (Rle_dec _ _); [|lra]. destruct (Rle_dec _ _); lra.
  - intros i Hi. rewrite box_off; [unfold tiny; lra|]. right. rewrite G.
    assert (8000 <= INR (S i)) by (rewrite INR_IZR_INZ; apply IZR_le; lia). lra.
Qed.

(** * C95: the admissibility constants *)

Theorem C95_cwt_sign psi v : adm_cwt psi = Ok v -> 0 <= v /\ ((forall w, 0 < w -> psi w <> 0) -> 0 < v).
Proof. exact (adm_cwt_sign psi v). Qed.
Print Assumptions C95_cwt_sign.

Theorem C95_ssq_sign psi v : adm_ssq psi = Ok v ->
  ((forall w, 0 < w -> 0 <= psi w) -> 0 <= v) /\ ((forall w, 0 < w -> 0 < psi w) -> 0 < v).
Proof. exact (adm_ssq_sign psi v). Qed.
Print Assumptions C95_ssq_sign.

Theorem C95_cwt_even psi : adm_cwt (fun w => - psi w) = adm_cwt psi.
Proof. exact (adm_cwt_even psi). Qed.
Print Assumptions C95_cwt_even.

Theorem C95_gmw gamma beta centered f v : 0 < gamma -> 0 < beta -> gmw_l1 gamma beta centered = Ok f -> adm_ssq f = Ok v \/ adm_cwt f = Ok v -> 0 < v.
Proof. exact (adm_gmw gamma beta centered f v). Qed.
Print Assumptions C95_gmw.

Theorem C95_morlet mu v : 0 < mu -> adm_ssq (morlet mu) = Ok v \/ adm_cwt (morlet mu) = Ok v -> 0 < v.
Proof. exact (adm_morlet mu v). Qed.
Print Assumptions C95_morlet.

(** the default wavelet's constants exist and are positive *)
Theorem C95_default : gmw_l1 3 60 false = Ok gmw60 /\
  (exists v, adm_ssq gmw60 = Ok v /\ 0 < v) /\ (exists v, adm_cwt gmw60 = Ok v /\ 0 < v).
Proof. exact adm_default. Qed.
Print Assumptions C95_default.

(** changing the sign of a wavelet turns its [adm_ssq] into 0 *)
Theorem C95_odd_refuted : adm_ssq (fun w => - box w) = Ok 0 /\ exists v, adm_ssq box = Ok v /\ 0 < v.
Proof. exact adm_ssq_odd. Qed.
Print Assumptions C95_odd_refuted.

Example C95_case : exists v w, adm_ssq gmw60 = Ok v /\ adm_cwt gmw60 = Ok w /\ 0 < v * w.
Proof.
  destruct C95_default as (_ & (v & Ev & Hv) & (w & Ew & Hw)). exists v, w. split; [exact Ev|]. split; [exact Ew|]. now apply Rmult_lt_0_compat.
Qed.
