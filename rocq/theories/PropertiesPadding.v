(** C01-C03: padding. *)
From Coq Require Import Reals Lra.
From Verif Require Import Py Round Padding PaddingProofs.
From Verif Require Import PaddingMore.
Local Open Scope Z_scope.

(** The integer function is [2**(1 + round(log2(n)))] of the source. *)
Theorem C01_p2up_is_source n : 1 <= n ->
  p2up_of_log (ln (IZR n) / ln 2)%R n = p2up n.
Proof. exact (p2up_is_source n). Qed.
Print Assumptions C01_p2up_is_source.

Theorem C01_p2up n up n1 n2 : 1 <= n -> p2up n = (up, n1, n2) ->
  (exists k, 1 <= k /\ up = 2 ^ k) /\
  2 * (n * n) <= up * up <= 8 * (n * n) /\
  n < up /\ n1 + n + n2 = up /\ 0 <= n2 <= n1 /\ n1 <= n2 + 1.
Proof. exact (p2up_bounds n up n1 n2). Qed.
Print Assumptions C01_p2up.

Theorem C01_p2up_float_log2 n L up n1 n2 : 1 <= n ->
  (Rabs (L - ln (IZR n) / ln 2) < 1/2)%R ->
  p2up_of_log L n = (up, n1, n2) ->
  (exists k, 0 <= k /\ up = 2 ^ k) /\
  n < up /\ n1 + n + n2 = up /\ 0 <= n2 <= n1 /\ n1 <= n2 + 1.
Proof. exact (p2up_robust n L up n1 n2). Qed.
Print Assumptions C01_p2up_float_log2.

Example C01_case : p2up 1000 = (2048, 524, 524) /\ p2up 5 = (8, 2, 1).
Proof. vm_compute. auto. Qed.
(** log2 of 8 is 3; a value 0.3 off still qualifies for the robustness theorem *)
Example C01_case_robust : (Rabs (33/10 - ln (IZR 8) / ln 2) < 1/2)%R.
Proof.
  assert (E : (ln (IZR 8) / ln 2 = 3)%R).
  { change (IZR 8) with (IZR (2 ^ 3)). rewrite ln_pow2 by lia. pose proof ln2_pos. field. lra. }
  rewrite E. rewrite Rabs_right; lra.
Qed.

(** "next power of two" (the docstring's words) is not what it computes. *)
Theorem C01_not_next_power :
  exists n up n1 n2 m, 1 <= n /\ p2up n = (up, n1, n2) /\ m = 2 ^ 3 /\ n < m < up.
Proof. exact p2up_not_next_power. Qed.
Print Assumptions C01_not_next_power.

(** Every mode except 'symmetric'. *)
Theorem C02_padsignal_length_recover A (zero : A) x pt pl :
  x <> [] -> pt <> PSymmetric ->
  (forall p, pl = Some p -> Z.of_nat (length x) <= p) ->
  exists xp n_up n1 n2, padsignal zero x pt pl = Ok (xp, n_up, n1, n2) /\
    Z.of_nat (length xp) = n_up /\
    n_up = match pl with Some p => p | None => fst (fst (p2up (Z.of_nat (length x)))) end /\
    n1 + Z.of_nat (length x) + n2 = n_up /\ 0 <= n2 <= n1 /\ n1 <= n2 + 1 /\
    pyslice xp n1 (n1 + Z.of_nat (length x)) = x.
Proof. exact (padsignal_np_recover A zero x pt pl). Qed.
Print Assumptions C02_padsignal_length_recover.

Example C02_case :
  padsignal 0 [1; 2; 3] PReflect (Some 12) =
  Ok ([2; 1; 2; 3; 2; 1; 2; 3; 2; 1; 2; 3], 12, 5, 4).
Proof. vm_compute. reflexivity. Qed.

(** 'symmetric' only when the padding is nonempty and no pad exceeds the signal. *)
Theorem C02_padsignal_symmetric_partial A (zero : A) x pl :
  x <> [] -> (forall p, pl = Some p ->
    Z.of_nat (length x) < p <= 3 * Z.of_nat (length x)) ->
  exists xp n_up n1 n2, padsignal zero x PSymmetric pl = Ok (xp, n_up, n1, n2) /\
    Z.of_nat (length xp) = n_up /\
    n_up = match pl with Some p => p | None => fst (fst (p2up (Z.of_nat (length x)))) end /\
    n1 + Z.of_nat (length x) + n2 = n_up /\ 0 <= n2 <= n1 /\ n1 <= n2 + 1 /\
    pyslice xp n1 (n1 + Z.of_nat (length x)) = x.
Proof. exact (padsignal_sym_recover A zero x pl). Qed.
Print Assumptions C02_padsignal_symmetric_partial.

Example C02_case_symmetric :
  padsignal 0 [1; 2; 3] PSymmetric None = Ok ([3; 2; 1; 1; 2; 3; 3; 2], 8, 3, 2).
Proof. vm_compute. reflexivity. Qed.

Theorem C02_symmetric_nopad_refuted :
  exists (x : list Z) xp n_up n1 n2, x <> [] /\
    padsignal 0 x PSymmetric (Some (Z.of_nat (length x))) = Ok (xp, n_up, n1, n2) /\
    Z.of_nat (length xp) <> n_up /\ pyslice xp n1 (n1 + Z.of_nat (length x)) <> x.
Proof. exact padsignal_sym_nopad_refuted. Qed.
Print Assumptions C02_symmetric_nopad_refuted.

Theorem C02_symmetric_long_refuted :
  exists (x : list Z) xp n_up n1 n2, x <> [] /\
    padsignal 0 x PSymmetric (Some 11) = Ok (xp, n_up, n1, n2) /\
    Z.of_nat (length xp) <> n_up /\ pyslice xp n1 (n1 + Z.of_nat (length x)) <> x.
Proof. exact padsignal_sym_long_refuted. Qed.
Print Assumptions C02_symmetric_long_refuted.

(** Torch input gives the numpy result whenever it gives one. *)
Theorem C02_torch_agrees A (zero : A) x pt pl r :
  padsignal_torch zero x pt pl = Ok r -> padsignal zero x pt pl = Ok r.
Proof. exact (padsignal_torch_agrees A zero x pt pl r). Qed.
Print Assumptions C02_torch_agrees.

Theorem C02_torch_default A (zero : A) x pt :
  x <> [] -> length x <> 1%nat -> length x <> 3%nat -> pt = PZero \/ pt = PReflect ->
  exists r, padsignal_torch zero x pt None = Ok r.
Proof. exact (padsignal_torch_default A zero x pt). Qed.
Print Assumptions C02_torch_default.

Example C02_case_torch :
  padsignal_torch 0 [1; 2; 3] PReflect None = Err RuntimeError /\
  exists r, padsignal_torch 0 [1; 2; 3; 4] PReflect None = Ok r.
Proof. split; [reflexivity|]. apply C02_torch_default; simpl; auto; discriminate. Qed.

(** Extension rules, as relations between samples of the returned array.  With C02
    (the middle is the signal) they determine every sample. *)
Theorem C03_extension_rule A (zero : A) x pt pl xp n_up n1 n2 :
  x <> [] -> pt <> PSymmetric ->
  (forall p, pl = Some p -> Z.of_nat (length x) <= p) ->
  padsignal zero x pt pl = Ok (xp, n_up, n1, n2) ->
  let N := Z.of_nat (length x) in
  let at_ i := nth (Z.to_nat i) xp zero in
  match pt with
  | PZero => forall i, 0 <= i < n_up -> i < n1 \/ n1 + N <= i -> at_ i = zero
  | PReplicate =>
      (forall i, 0 <= i < n1 -> at_ i = nth 0 x zero) /\
      (forall i, n1 + N <= i < n_up -> at_ i = nth (length x - 1) x zero)
  | PWrap => forall i, 0 <= i -> i + N < n_up -> at_ (i + N) = at_ i
  | PReflect => 2 <= N ->
      (forall d, 0 <= d -> 0 <= n1 - d -> n1 + d < n_up -> at_ (n1 - d) = at_ (n1 + d)) /\
      (forall d, 0 <= d -> 0 <= n1 + N - 1 - d -> n1 + N - 1 + d < n_up ->
                 at_ (n1 + N - 1 + d) = at_ (n1 + N - 1 - d))
  | PSymmetric => True
  end.
Proof. exact (padsignal_ext A zero x pt pl xp n_up n1 n2). Qed.
Print Assumptions C03_extension_rule.

Theorem C03_symmetric_rule_partial A (zero : A) x pl xp n_up n1 n2 :
  x <> [] ->
  (forall p, pl = Some p -> Z.of_nat (length x) < p <= 3 * Z.of_nat (length x)) ->
  padsignal zero x PSymmetric pl = Ok (xp, n_up, n1, n2) ->
  let N := Z.of_nat (length x) in
  let at_ i := nth (Z.to_nat i) xp zero in
  (forall d, 0 <= d < n1 -> at_ (n1 - 1 - d) = at_ (n1 + d)) /\
  (forall d, 0 <= d < n2 -> at_ (n1 + N + d) = at_ (n1 + N - 1 - d)).
Proof. exact (padsignal_sym_ext A zero x pl xp n_up n1 n2). Qed.
Print Assumptions C03_symmetric_rule_partial.

(** three samples padded to 11: the sample before the signal should repeat its first *)
Theorem C03_symmetric_long_refuted :
  exists (x : list Z) xp n_up n1 n2, x <> [] /\
    padsignal 0 x PSymmetric (Some 11) = Ok (xp, n_up, n1, n2) /\ 0 < n1 /\ n1 < Z.of_nat (length xp) /\
    nth (Z.to_nat (n1 - 1)) xp 0 <> nth (Z.to_nat n1) xp 0.
Proof. exact padsignal_sym_long_ext_refuted. Qed.
Print Assumptions C03_symmetric_long_refuted.

Example C03_case :
  padsignal 0 [1; 2; 3] PWrap (Some 9) = Ok ([1; 2; 3; 1; 2; 3; 1; 2; 3], 9, 3, 3) /\
  padsignal 0 [1; 2; 3] PReplicate (Some 6) = Ok ([1; 1; 1; 2; 3; 3], 6, 2, 1) /\
  padsignal 0 [1; 2; 3] PZero (Some 6) = Ok ([0; 0; 1; 2; 3; 0], 6, 2, 1).
Proof. vm_compute. auto. Qed.
