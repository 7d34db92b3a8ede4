(** Concrete calls of [ssqueeze] for the theorems of SsqLinear. *)
From Coq Require Import Reals Lra ZifyBool ZifyNat.
From Verif Require Import Py Round Parallel Padding Buffer Cplx CplxProofs Freqs Stft Squeeze SqueezeProofs BinProofs SqueezeThms SqueezeThms2 SqueezeThms3 Scales ScaleThms Ssqueeze SsqueezeProofs
  Separate ShiftProofs Cwt CwtProofs CwtThms IcwtLin SsqLinear SsqWitness SsqCwtWitness.
Local Open Scope R_scope.

(** three rows, two columns *)
Definition x32 (f : nat -> nat -> C) : mat C := Mat 3 2 f.
Definition xa : mat C := x32 (fun i j => (INR i + 1, INR j)).
Definition xb : mat C := x32 (fun i j => (INR j, 2 - INR i)).
Definition xm : mat C := x32 (fun i j => Cadd (Cmul (RtoC 2) (el xa i j)) (Cmul (RtoC (-3)) (el xb i j))).
(** each row at its own frequency: 3, 2, 1 from the top *)
Definition w_own : mat fval := Mat 3 2 (fun i _ => Fin (3 - INR i)).
(** every row at 2 *)
Definition w_two : mat fval := Mat 3 2 (fun _ _ => Fin 2).

Lemma own_nonneg i j r : (i < 3)%nat -> el w_own i j = Fin r -> 0 <= r.
Proof. intros Hi E. injection E as <-. assert (INR i <= 2) by (change 2 with (INR 2); apply le_INR; lia). lra. Qed.
Lemma own_ok X : nrows X = 3%nat -> ncols X = 2%nat ->
  exists Tx, ssqueeze serial_order (wit SqSum 0 true) X (Some w_own) None = Ok (Tx, [3; 2; 1]).
Proof.
  intros HR HC.
  assert (Eg : get_grid true false [1; 2; 3] = Ok (GLin 1 (ensure_nonzero_nonnegative (2 - 1)))) by reflexivity.
  pose proof (const_arr_scalar (nrows X) (ln 2 / 1) ltac:(lia)) as Ea.
  unfold ssqueeze. rewrite wit_freqs. unfold ssqueeze_one.
  cbn [wit o_gamma o_sq squeeze_input bind ssq_const o_tr o_f64v o_flip o_Sfs].
  assert (En : has_negative w_own = false).
  { unfold has_negative, w_own. cbn [nrows ncols el seq existsb INR]. rewrite !Rltb'_false by lra. reflexivity. }
  rewrite En.
  destruct (onfly_sum serial_order true X w_own [1; 2; 3] (CScalar (ln 2 / 1)) false true (Mat (nrows X) (ncols X) (fun _ _ => C0)) _ _ serial_order_valid Ea Eg) as (Tx & E & _).
  rewrite E. cbn [bind]. exists Tx. reflexivity.
Qed.

Lemma grid123 : grid_of [1; 2; 3] false.
Proof.
  apply (go_lin _ 1); [cbn; lia|unfold EPS64; lra|]. intros k Hk. cbn in Hk. destruct k as [|[|[|k]]]; [| | |lia]; cbn; lra.
Qed.

Lemma still_case : exists Tx, ssqueeze serial_order (wit SqSum 0 true) xa (Some w_own) None = Ok (Tx, [3; 2; 1]) /\
  forall i j, (i < 3)%nat -> (j < 2)%nat -> el Tx i j = Cmul (el xa i j) (RtoC (ln 2)).
Proof.
  destruct (own_ok xa eq_refl eq_refl) as (Tx & E). exists Tx. split; [exact E|]. intros i j Hi Hj.
  rewrite (squeeze_still serial_order (wit SqSum 0 true) _ _ _ _ _ (Some (KLog 1)) [1; 2; 3] false (CScalar (ln 2 / 1)) (repeat (ln 2 / 1) 3) serial_order_valid E eq_refl
    (wit_freqs SqSum 0 true 2) eq_refl eq_refl grid123 eq_refl ltac:(cbn; lia) j Hj).
  - change (Cmul (el xa i j) (RtoC (nth i [ln 2 / 1; ln 2 / 1; ln 2 / 1] 0)) = Cmul (el xa i j) (RtoC (ln 2))). f_equal. f_equal. destruct i as [|[|[|i]]]; [| | |lia]; cbn; field.
  - intros p Hp. change (nrows xa) with 3%nat in Hp. cbn [el w_own row_freq wit o_flip length]. f_equal. destruct p as [|[|[|p]]]; [| | |lia]; cbn; lra.
  - exact Hi.
Qed.

Lemma mixed_case : mix 2 (-3) xa xb xm /\
  exists Tm Ta Tb, ssqueeze serial_order (wit SqSum 0 true) xm (Some w_own) None = Ok (Tm, [3; 2; 1]) /\
    ssqueeze serial_order (wit SqSum 0 true) xa (Some w_own) None = Ok (Ta, [3; 2; 1]) /\
    ssqueeze serial_order (wit SqSum 0 true) xb (Some w_own) None = Ok (Tb, [3; 2; 1]) /\ mix 2 (-3) Ta Tb Tm.
Proof.
  assert (M : mix 2 (-3) xa xb xm) by (repeat split; reflexivity). split; [exact M|].
  destruct (own_ok xa eq_refl eq_refl) as (Ta & E).
  destruct (ssqueeze_linear serial_order (wit SqSum 0 true) xa xb xm w_own None None None 2 (-3) _ _ serial_order_valid eq_refl M E) as (Tb & Tm & Eb & Em & H).
  exists Tm, Ta, Tb. split; [exact Em|]. split; [exact E|]. split; [exact Eb|exact H].
Qed.

(** coefficients 1, -1, 0 all at one frequency: they cancel with 'sum', not with 'abs' *)
Definition xc : mat C := Mat 3 1 (fun i _ => match i with 0 => C1 | 1 => RtoC (-1) | _ => C0 end%nat).
Lemma cancel_case : exists Tx Ta, ssqueeze serial_order (wit SqSum 0 true) xc (Some (fin3 2)) None = Ok (Tx, [3; 2; 1]) /\
  ssqueeze serial_order (with_sq (wit SqSum 0 true) SqAbs) xc (Some (fin3 2)) None = Ok (Ta, [3; 2; 1]) /\
  (forall q, (q < 3)%nat -> Im (el Ta q 0%nat) = 0 /\ Cabs (el Tx q 0%nat) <= Re (el Ta q 0%nat)).
Proof.
  destruct (squeeze_ok 0 xc (Some (fin3 2)) None ltac:(cbn; lia)) as (Tx & E & H1 & H2).
  { intros i j r Q. injection Q as <-. lra. }
  exists Tx.
  destruct (squeeze_abs serial_order (wit SqSum 0 true) _ _ _ _ _ (Some (KLog 1)) [1; 2; 3] false (CScalar (ln 2 / 1)) serial_order_valid eq_refl E (wit_freqs SqSum 0 true 1) eq_refl) as (Ta & Ea & _ & _ & H).
  { cbn. pose proof ln_lt_2. lra. }
  exists Ta. split; [exact E|]. split; [exact Ea|]. intros q Hq. apply H; [rewrite H1; exact Hq|rewrite H2; cbn; lia].
Qed.

Lemma silent_case : exists Tx, ssqueeze serial_order (wit SqSum 2 true) (col3 C1) None (Some (col3 C1)) = Ok (Tx, [3; 2; 1]) /\
  forall q, (q < 3)%nat -> el Tx q 0%nat = C0.
Proof.
  destruct (squeeze_ok 2 (col3 C1) None (Some (col3 C1)) ltac:(cbn; lia)) as (Tx & E & H1 & H2); [congruence|].
  exists Tx. split; [exact E|]. intros q Hq.
  apply (squeeze_silent serial_order (wit SqSum 2 true) _ _ 2 _ _ 0%nat serial_order_valid eq_refl E); [|rewrite H1; exact Hq|rewrite H2; cbn; lia].
  intros i Hi. cbn [wit o_sq squeeze_input col3 el]. change C1 with (RtoC 1). rewrite Cabs_RtoC, Rabs_R1. lra.
Qed.

(** all of 1 at one frequency: the bound on the column is attained *)
Lemma l1_case : exists Tx, ssqueeze serial_order (wit SqSum 0 true) (col3 C1) (Some (fin3 2)) None = Ok (Tx, [3; 2; 1]) /\
  Rsum 3 (fun q => Cabs (el Tx q 0%nat)) = 3 * ln 2.
Proof.
  destruct (wit_onfly serial_order 0 true 2 1 serial_order_valid ltac:(lia) ltac:(lra)) as (Tx & E & _ & _ & H). exists Tx. split; [exact E|].
  cbn [Rsum]. rewrite !H by lia. unfold flip_row. cbn. change C1 with (RtoC 1). rewrite <- RtoC_mul, Cabs_RtoC, !Cabs_0, Rabs_right; pose proof ln_lt_2; lra.
Qed.
