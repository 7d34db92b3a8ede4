(** Taking a tone out of noise with [issq_cwt]. *)
From Coq Require Import Reals Lra Lia List ZifyBool ZifyNat.
Import ListNotations.
From Verif Require SsqRoundTrip.
From Verif Require Import Py Round Parallel Cplx CplxProofs Padding PaddingProofs Buffer Freqs Squeeze SqueezeProofs SqueezeThms Scales Ssqueeze SsqueezeProofs IssqProofs
  Cwt CwtProofs CwtThms CwtThms2 CwtTone SsqCwt SsqCwtProofs SsqCwtInv Admiss AdmissThms2 SsqThms ToneThms Reassign ChordSqueeze NoiseSsq CwtNoise CwtNoiseSsq.
Local Open Scope R_scope.

(** what the noise and the threshold can change: of the rows at the tone's frequency, and of the others *)
Definition err_near (f : wfun) (sc : list R) (nv : Z) (nu d g A : R) (k n : nat) : R :=
  ln 2 / IZR nv * Rsum (length sc) (fun i => if clear nu d (size f A (nth i sc 0) k n) k n then g + nu else size f A (nth i sc 0) k n + nu).
Definition err_far (f : wfun) (sc : list R) (nv : Z) (nu d A : R) (k n : nat) : R :=
  ln 2 / IZR nv * Rsum (length sc) (fun i => if clear nu d (size f A (nth i sc 0) k n) k n then 0 else size f A (nth i sc 0) k n + nu).

Section Inv.
Variables (ord : order) (py : bool) (f : wfun) (fam : nat -> wfun) (q : ssq_args) (y : list R) (A phi : R) (k n : nat) (s : cstate) (out : ssq_out) (s' : cstate) (fs : R) (nv : Z) (d P : R) (rho : nat).
Hypothesis H : noisy_run ord py f fam q y k n s out s' fs nv d P rho.
Let sc := r_scales out.
Let nu := P * dist2 y (tone A phi k n).
Let near := err_near f sc nv nu d (ssq_gamma q) A k n.
Let far := err_far f sc nv nu d A k n.
Variable Css : R.
Hypothesis HC : 0 < Css.

Lemma near_sum (b : nat -> bool) j : (forall m, within 1 m rho = true -> b m = true) -> (j < n)%nat ->
  Rabs (Rsum (length sc) (fun m => if b m then Re (el (r_Tx out) m j) else 0) * (2 / Css) - nth j (tone (A * (full_gain f sc nv k n / Css)) phi k n) 0) <= 2 / Css * near.
Proof.
  intros Hb Hj. destruct (noisy_tone ord py f fam q y A phi k n s out s' fs nv d P rho H) as (_ & _ & T). destruct (T j Hj) as (_ & T2). specialize (T2 b Hb). fold sc nu in T2.
  unfold tone. rewrite nth_tab by exact Hj. set (S := Csum _ _) in T2. set (z := Cmul (RtoC _) _) in T2.
  assert (E : Rsum (length sc) (fun m => if b m then Re (el (r_Tx out) m j) else 0) = Re S).
  { unfold S. rewrite Re_Csum. apply Rsum_ext. intros m _. destruct (b m); reflexivity. }
  rewrite E. replace (A * (full_gain f sc nv k n / Css) * cos (2 * PI * INR k * INR j / INR n + phi)) with (Re z * (2 / Css)).
  2:{ unfold z. rewrite Re_analytic. field. lra. }
  rewrite <- Rmult_minus_distr_r, Rabs_mult, (Rabs_right (2 / Css)) by (apply Rle_ge; left; apply Rdiv_lt_0_compat; lra). rewrite Rmult_comm.
  apply Rmult_le_compat_l; [left; apply Rdiv_lt_0_compat; lra|]. replace (Re S - Re z) with (Re (Csub S z)) by reflexivity. eapply Rle_trans; [apply SsqRoundTrip.Re_le_Cabs|exact T2].
Qed.

(** all rows *)
Theorem noisy_inverted : exists z, issq_cwt Css (r_Tx out) None = Ok (One z) /\ length z = n /\
  forall j, (j < n)%nat -> Rabs (nth j z 0 - nth j (tone (A * (full_gain f sc nv k n / Css)) phi k n) 0) <= 2 / Css * near.
Proof.
  destruct (noisy_tone ord py f fam q y A phi k n s out s' fs nv d P rho H) as (R1 & C1' & _). fold sc in R1.
  eexists. split; [reflexivity|]. split; [rewrite map_length; unfold real_colsum; rewrite tab_length; exact C1'|]. intros j Hj.
  set (h := fun y => y * (2 / Css)). rewrite (nth_indep _ 0 (h 0)) by (rewrite map_length; unfold real_colsum; rewrite tab_length; lia).
  rewrite map_nth. unfold real_colsum. rewrite nth_tab by lia. rewrite R1. apply (near_sum (fun _ => true) j); [reflexivity|exact Hj].
Qed.

(** a band that covers the tone's row and its neighbours *)
Theorem noisy_extracted cc cw : nrows cc = n -> ncols cc = 1%nat -> nrows cw = n -> ncols cw = 1%nat ->
  (forall j, (j < n)%nat -> (0 <= el cc j 0)%Z /\ (Z.abs (el cc j 0%nat - Z.of_nat rho) + 1 <= el cw j 0%nat)%Z) ->
  exists z r, issq_cwt Css (r_Tx out) (Some (cc, cw)) = Ok (Many [z; r]) /\ length z = n /\ length r = n /\
  forall j, (j < n)%nat -> Rabs (nth j z 0 - nth j (tone (A * (full_gain f sc nv k n / Css)) phi k n) 0) <= 2 / Css * near /\ Rabs (nth j r 0) <= 2 / Css * far.
Proof.
  intros Hc1 Hc2 Hw1 Hw2 Hband. destruct (noisy_tone ord py f fam q y A phi k n s out s' fs nv d P rho H) as (R1 & C1' & T). fold sc nu in R1, T.
  set (f' := fun l : list R => map (fun y => y * (2 / Css)) l).
  set (sum := fun g => tab (ncols (r_Tx out)) (fun m => Rsum (nrows (r_Tx out)) (fun i => Re (g i m)))).
  exists (f' (sum (masked (nrows (r_Tx out)) cc cw (r_Tx out) 0))), (f' (sum (remainder 1 (nrows (r_Tx out)) cc cw (r_Tx out)))).
  assert (Hf' : forall g j, (j < n)%nat -> nth j (f' (sum g)) 0 = Rsum (length sc) (fun i => Re (g i j)) * (2 / Css)).
  { intros g j Hj. unfold f', sum. rewrite C1', R1. set (h := fun y => y * (2 / Css)). rewrite (nth_indep _ 0 (h 0)) by (rewrite map_length, tab_length; exact Hj).
    rewrite map_nth, nth_tab by exact Hj. reflexivity. }
  assert (Lf : forall g, length (f' (sum g)) = n) by (intros g; unfold f', sum; rewrite map_length, tab_length; exact C1').
  assert (Hin : forall j m, (m < length sc)%nat -> (j < n)%nat -> in_band (length sc) cc cw 0 j m = (el cc j 0%nat - el cw j 0%nat <=? Z.of_nat m)%Z && (Z.of_nat m <=? el cc j 0%nat + el cw j 0%nat)%Z).
  { intros j m Hm Hj. destruct (Hband j Hj) as (P1 & P2). pose proof (in_band_spec (length sc) cc cw 0 j m Hm ltac:(lia) ltac:(lia)) as S. unfold covers in S.
    destruct (in_band (length sc) cc cw 0 j m); symmetry.
    - apply proj1 in S. specialize (S eq_refl). lia.
    - apply not_true_is_false. intros K. apply proj2 in S. discriminate S. lia. }
  split; [|split; [apply Lf|split; [apply Lf|]]].
  - unfold issq_cwt, invert, invert_components. rewrite Hc2, Hc1, Hw1, Hw2, C1', !Nat.ltb_irrefl, !Nat.eqb_refl. cbn [orb negb bind scale_out Nat.eqb seq map app]. unfold sum, f'. rewrite C1'. reflexivity.
  - intros j Hj. destruct (Hband j Hj) as (P1 & P2). split.
    + rewrite Hf' by exact Hj. set (b := fun m => (el cc j 0%nat - el cw j 0%nat <=? Z.of_nat m)%Z && (Z.of_nat m <=? el cc j 0%nat + el cw j 0%nat)%Z).
      rewrite (Rsum_ext _ _ (fun m => if b m then Re (el (r_Tx out) m j) else 0)).
      2:{ intros m Hm. unfold masked. rewrite R1, Hin by assumption. fold (b m). destruct (b m); reflexivity. }
      apply near_sum; [|exact Hj]. intros m Hm. unfold within in Hm. unfold b. lia.
    + rewrite Hf' by exact Hj. rewrite Rabs_mult, (Rabs_right (2 / Css)) by (apply Rle_ge; left; apply Rdiv_lt_0_compat; lra). rewrite Rmult_comm.
      apply Rmult_le_compat_l; [left; apply Rdiv_lt_0_compat; lra|]. destruct (T j Hj) as (T1 & _). eapply Rle_trans; [apply Rsum_abs|]. eapply Rle_trans; [|exact T1].
      apply Rsum_le. intros m Hm. rewrite R1. destruct (in_band (length sc) cc cw 0 j m) eqn:Ei.
      * rewrite (proj2 (remainder_el 1 _ cc cw (r_Tx out) m j) 0%nat ltac:(lia) Ei). cbn [Re fst C0]. rewrite Rabs_R0. destruct (within 1 m rho); [lra|apply Cabs_nonneg].
      * rewrite (proj1 (remainder_el 1 _ cc cw (r_Tx out) m j)) by (intros r Hr; replace r with 0%nat by lia; exact Ei). rewrite Hin in Ei by assumption.
        assert (within 1 m rho = false) as -> by (unfold within; lia). apply SsqRoundTrip.Re_le_Cabs.
Qed.
End Inv.
(** both, for any run *)
Theorem noisy_issq ord py f fam q y A phi k n s out s' fs nv d P rho Css : noisy_run ord py f fam q y k n s out s' fs nv d P rho -> 0 < Css ->
  let sc := r_scales out in let nu := P * dist2 y (tone A phi k n) in let G := full_gain f sc nv k n / Css in
  let near := err_near f sc nv nu d (ssq_gamma q) A k n in let far := err_far f sc nv nu d A k n in
  (exists x, issq_cwt Css (r_Tx out) None = Ok (One x) /\ length x = n /\
     forall j, (j < n)%nat -> Rabs (nth j x 0 - nth j (tone (A * G) phi k n) 0) <= 2 / Css * near) /\
  forall cc cw, nrows cc = n -> ncols cc = 1%nat -> nrows cw = n -> ncols cw = 1%nat ->
  (forall j, (j < n)%nat -> (0 <= el cc j 0)%Z /\ (Z.abs (el cc j 0%nat - Z.of_nat rho) + 1 <= el cw j 0%nat)%Z) ->
  exists z r, issq_cwt Css (r_Tx out) (Some (cc, cw)) = Ok (Many [z; r]) /\ length z = n /\ length r = n /\
  forall j, (j < n)%nat -> Rabs (nth j z 0 - nth j (tone (A * G) phi k n) 0) <= 2 / Css * near /\ Rabs (nth j r 0) <= 2 / Css * far.
Proof.
  intros H HC sc nu G near far. split.
  - apply (noisy_inverted ord py f fam q y A phi k n s out s' fs nv d P rho H Css HC).
  - apply (noisy_extracted ord py f fam q y A phi k n s out s' fs nv d P rho H Css HC).
Qed.
