(** [find_min_scale] when the first search does not reach the crossing: wavelets peaking above 10 (Morlet's default is 13.4). *)
From Coq Require Import Reals Lra ZifyBool ZifyNat.
From Verif Require Import Py Round Cplx CplxProofs Padding Freqs ShiftProofs Squeeze BinProofs SqueezeThms3 Scales Resol
  Search SearchProofs ScaleBounds ScaleBoundsProofs ScaleBoundsThms.
Local Open Scope R_scope.

(** search [k+1] from [s] is search [k] from [s + 10] *)
Lemma inputs_shift s lim k : inputs (fargs s lim) (S k) = inputs (fargs (s + 10) lim) k.
Proof.
  unfold inputs. rewrite !fargs_steps, !fargs_increment. cbv zeta. apply (nth_ext _ _ 0 0); [rewrite !tab_length; reflexivity|].
  intros i Hi. rewrite tab_length in Hi. rewrite !nth_tab by exact Hi. rewrite S_INR. cbn [fargs sa_start]. field.
Qed.
Lemma loop_shift f v s lim fuel : forall k, fo_loop f v (fargs s lim) fuel (S k) = fo_loop f v (fargs (s + 10) lim) fuel k.
Proof.
  induction fuel as [|fuel IH]; intros k; [reflexivity|]. cbn [fo_loop]. rewrite inputs_shift. change (sa_limit (fargs s lim)) with (sa_limit (fargs (s + 10) lim)).
  cbv zeta. rewrite IH. reflexivity.
Qed.
Lemma pt_shift s lim i : pt (s + 10) lim i = pt s lim (NS + i).
Proof. unfold pt. f_equal. rewrite plus_INR, (INR_IZR_INZ NS), NS_val. field. Qed.
Lemma pt_shifts s lim k i : pt (s + 10 * INR k) lim i = pt s lim (k * NS + i).
Proof.
  revert i. induction k as [|k IH]; intros i; [cbn [INR Nat.mul Nat.add]; f_equal; ring|].
  rewrite S_INR. replace (s + 10 * (INR k + 1)) with (s + 10 * INR k + 10) by ring. rewrite pt_shift, IH. f_equal. nlia.
Qed.

(** a search that neither stops nor exceeds the limit is followed by the next *)
Lemma search_passes f v s lim D fuel : s + 9999 / 1000 <= lim ->
  (forall q, (S q < NS)%nat -> Rabs (f (pt s lim (S q)) - f (pt s lim q)) <= D) -> (forall i, (i < NS)%nat -> D < Rabs (f (pt s lim i) - v)) ->
  find_first_occurrence f v (fargs s lim) (S fuel) = find_first_occurrence f v (fargs (s + 10) lim) fuel.
Proof.
  intros Hl Hq Hi. unfold find_first_occurrence. rewrite !fargs_steps. change (10000 <=? 1)%Z with false. cbv iota. cbn [fo_loop].
  assert (Hs : (1 < n_steps (fargs s lim))%Z) by (rewrite fargs_steps; nlia).
  assert (En : Z.to_nat (n_steps (fargs s lim)) = NS) by (rewrite fargs_steps; reflexivity).
  assert (X : Rltb' (sa_limit (fargs s lim)) (lmax (inputs (fargs s lim) 0)) = false).
  { unfold Rltb'. destruct (Rlt_dec _ _) as [H|H]; [|reflexivity]. exfalso. rewrite (inputs_max (fargs s lim)) in H by (rewrite ?fargs_steps, ?fargs_increment; nlia).
    rewrite fargs_sample, fargs_steps in H. cbn [sa_limit fargs] in H. rewrite INR_IZR_INZ in H. replace (Z.of_nat (0 * Z.to_nat 10000 + (Z.to_nat 10000 - 1))) with 9999%Z in H by nlia. lra. }
  rewrite X. set (ins := inputs (fargs s lim) 0).
  assert (Li : length ins = NS) by (unfold ins; rewrite inputs_length by nlia; exact En).
  assert (Vi : forall i, (i < NS)%nat -> nth i ins 0 = pt s lim i).
  { intros p Hp. rewrite <- used_pt by auto. unfold used. rewrite X. apply inputs_nth; nlia. }
  set (outs := map f ins). assert (Lo : length outs = NS) by (unfold outs; now rewrite map_length).
  assert (Vo : forall i, (i < NS)%nat -> nth i outs 0 = f (pt s lim i)).
  { intros p Hp. unfold outs. rewrite map_nth_lt by nlia. now rewrite Vi. }
  destruct (mxdiff_spec f v (fargs s lim) Hs outs) as [(q & Hq1 & M) _]; [nlia|]. rewrite En in Hq1. rewrite !Vo in M by nlia.
  set (m := lmax (map Rabs (diff outs))) in *.
  replace (existsb _ _) with false; [apply loop_shift|]. symmetry. apply Bool.not_true_is_false. intros B. apply existsb_exists in B. destruct B as (d & B1 & B2).
  apply in_map_iff in B1. destruct B1 as (y & <- & B1). apply (In_nth _ _ 0) in B1. destruct B1 as (i & Hi1 & <-). rewrite Lo in Hi1. rewrite Vo in B2 by exact Hi1.
  destruct (Rle_dec _ m) as [L|]; [|discriminate]. specialize (Hi i Hi1). specialize (Hq q Hq1). lra.
Qed.

Section Far.
Variables (f : R -> R) (sg s lim e D v : R).
Hypotheses (Hsg : sg = 1 \/ sg = -1) (Hlim : s <= lim) (He : 0 <= e) (HD : 0 <= D)
  (Hm : forall i j, pt s lim i < pt s lim j -> sg * f (pt s lim i) <= sg * f (pt s lim j))
  (Hms : forall i j, pt s lim i + e < pt s lim j -> sg * f (pt s lim i) < sg * f (pt s lim j))
  (Hstep : forall i, Rabs (f (pt s lim (S i)) - f (pt s lim i)) <= D).
Lemma far_mono i j : (i <= j)%nat -> sg * f (pt s lim i) <= sg * f (pt s lim j).
Proof.
  intros H. destruct (Rle_lt_or_eq_dec _ _ (pt_mono s lim i j H)) as [L|L]; [apply Hm; exact L|]. rewrite L. lra.
Qed.
Lemma far_skip k fuel : ((0 < k)%nat -> s + 10 * INR k - 1 / 1000 <= lim /\ sg * f (pt s lim (k * NS - 1)) + D < sg * v) ->
  find_first_occurrence f v (fargs s lim) (fuel + k) = find_first_occurrence f v (fargs (s + 10 * INR k) lim) fuel.
Proof.
  revert fuel. induction k as [|k IH]; intros fuel H.
  - rewrite Nat.add_0_r. cbn [INR]. do 2 f_equal. ring.
  - destruct (H ltac:(lia)) as [H1 H2]. rewrite S_INR in H1.
    replace (fuel + S k)%nat with (S fuel + k)%nat by lia. rewrite IH.
    + rewrite (search_passes f v (s + 10 * INR k) lim D fuel).
      * do 2 f_equal. rewrite S_INR. ring.
      * lra.
      * intros q Hq. rewrite !pt_shifts. rewrite Nat.add_succ_r. apply Hstep.
      * intros i Hi. rewrite pt_shifts. pose proof (far_mono (k * NS + i) (S k * NS - 1) ltac:(nlia)). rewrite (abs_sg sg _ v Hsg), Rabs_left1 by lra. lra.
    + intros Hk. split; [lra|]. pose proof (far_mono (k * NS - 1) (S k * NS - 1) ltac:(nlia)). lra.
Qed.
(** the crossing is in search [k] *)
Theorem far_near w k fuel : ((0 < k)%nat -> s + 10 * INR k - 1 / 1000 <= lim /\ sg * f (pt s lim (k * NS - 1)) + D < sg * v) ->
  s + 10 * INR k <= w <= pt s lim (k * NS + (NS - 1)) ->
  (forall i, pt s lim i <= w -> sg * f (pt s lim i) <= sg * v) -> (forall i, w <= pt s lim i -> sg * v <= sg * f (pt s lim i)) ->
  exists x, find_first_occurrence f v (fargs s lim) (S fuel + k) = Some (Ok (x, f x)) /\ Rabs (x - w) <= 1 / 1000 + e.
Proof.
  intros Hk Hw W1 W2. rewrite (far_skip k (S fuel) Hk). set (s' := s + 10 * INR k) in *.
  assert (P : forall i, pt s' lim i = pt s lim (k * NS + i)) by (intros; apply pt_shifts).
  assert (Hl' : s' <= lim) by (pose proof (pt_range s lim (k * NS + (NS - 1)) Hlim); lra).
  destruct (first_crosses f sg s' lim Hsg Hl' v fuel) as (j & Hj & Ej).
  - pose proof (P O) as P0. rewrite pt_0 in P0 by exact Hl'. rewrite P0. apply W1. rewrite <- P0. lra.
  - rewrite P. apply W2. lra.
  - exists (pt s' lim j). split; [exact Ej|]. apply (first_min_near f sg s' lim e Hsg Hl') with (v := v); auto.
    + intros i q _ _ H. rewrite !P in *. now apply Hms.
    + rewrite P. lra.
    + intros i _ H. rewrite P in *. now apply W1.
    + intros i _ H. rewrite P in *. now apply W2.
Qed.
End Far.
