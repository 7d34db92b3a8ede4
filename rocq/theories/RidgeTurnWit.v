(** A rising curve, backwards and upside down. *)
From Coq Require Import Reals Lra.
From Verif Require Import Py Parallel Cplx CplxProofs Squeeze Ssqueeze SsqueezeProofs Ridge RidgeProofs RidgeOpt RidgeThms RidgeCurve RidgeWitness RidgeTurn.
Local Open Scope R_scope.

Definition rise (t : nat) : nat := nth t [0; 0; 1; 2]%nat 0%nat.
Definition Tf_rise : mat C := Mat 3 4 (fun f t => if (f =? rise t)%nat then RtoC (INR t + 1) else C0).
Definition Tf_fall : mat C := Mat 3 4 (fun f t => el Tf_rise f (3 - t)%nat).
Definition Tf_flip : mat C := Mat 3 4 (fun f t => el Tf_rise (2 - f)%nat t).
Lemma rise_curve : on_curve Tf_rise rise.
Proof.
  split.
  - intros t Ht. cbn [Tf_rise ncols nrows] in *. destruct t as [|[|[|[|t]]]]; cbn; lia.
  - intros f t Hf Ht. cbn [Tf_rise el]. destruct (Nat.eqb_spec f (rise t)) as [E|E]; [|split; auto].
    split; [|contradiction]. intros E0. apply (f_equal fst) in E0. unfold RtoC, C0 in E0. cbn [fst] in E0. pose proof (pos_INR t). lra.
Qed.
Lemma rise_best : clearly_best true 3 4 (energy Tf_rise) (jump false [1; 2; 3] (1 / 10)) rise.
Proof.
  apply (curve_clear true Tf_rise [1; 2; 3] (1 / 10) false rise); [lra|exact rise_curve|]. cbn [Tf_rise ncols Nat.sub eps_of].
  unfold jump, rise. cbn [Rsum nth INR]. pose proof ln_eps as HL. pose proof eps_small as (E1 & E2).
  assert (HI : 2 < ln (1 + / EPS64)); [|lra]. apply Rlt_trans with (- ln EPS64); [exact HL|]. rewrite <- ln_Rinv by exact E1. apply ln_increasing; [apply Rinv_0_lt_compat; exact E1|lra].
Qed.
Theorem turn_case : exists o, extract_ridges None true Tf_rise [1; 2; 3] (1 / 10) 1 15 false = Ok o /\
  map r_idx o = [[0; 0; 1; 2]%nat] /\
  extract_ridges None true Tf_fall [1; 2; 3] (1 / 10) 1 15 false = Ok (map rev_ridge o) /\ map r_idx (map rev_ridge o) = [[2; 1; 0; 0]%nat] /\
  exists o', extract_ridges None true Tf_flip [3; 2; 1] (1 / 10) 1 15 false = Ok o' /\ r_freq (nth 0 o' ridge0) = r_freq (nth 0 o ridge0) /\ nth 3 (r_idx (nth 0 o' ridge0)) 0%nat = 0%nat.
Proof.
  destruct (extract_ok None true Tf_rise [1; 2; 3] (1 / 10) 1 15 false) as (o & H); [cbn; lia|cbn; lia|reflexivity|discriminate|].
  pose proof (ridge_is_best None true Tf_rise _ _ _ _ _ o 0 rise H I ltac:(lia) ltac:(cbn; lia) rise_best) as P. cbn [Tf_rise ncols] in P.
  destruct (ridge_lengths _ _ _ _ _ _ _ _ _ H) as (L1 & L2). destruct (L2 0%nat ltac:(lia)) as (L3 & _). cbn [Tf_rise ncols] in L3.
  assert (EI : map r_idx o = [[0; 0; 1; 2]%nat]).
  { destruct o as [|a [|]]; try discriminate. cbn [map nth] in *. f_equal. apply (nth_ext _ _ 0%nat 0%nat); [exact L3|]. intros t Ht. rewrite P by lia. reflexivity. }
  exists o. split; [exact H|]. split; [exact EI|]. split; [|split].
  - apply (ridges_backwards None None true Tf_rise Tf_fall _ _ _ _ _ o H I I); cbn; try lia; [reflexivity|].
    intros k Hk. assert (k = 0%nat) as -> by lia. exists rise. exact rise_best.
  - rewrite map_map. unfold rev_ridge. change (map (fun x => rev (r_idx x)) o = [[2; 1; 0; 0]%nat]). rewrite <- (map_map r_idx (@rev nat)), EI. reflexivity.
  - destruct (ridge_upside None None true Tf_rise Tf_flip [1; 2; 3] (1 / 10) 1 1 15 15 false o rise H I I) as (o' & H' & A & _ & B); try exact rise_best; cbn [Tf_rise Tf_flip nrows ncols]; try lia; [intros f t _ _; reflexivity|].
    change (rev [1; 2; 3]) with [3; 2; 1] in H'. exists o'. split; [exact H'|]. split; [exact A|]. rewrite (B 3%nat) by (cbn [Tf_rise ncols]; lia). rewrite P by lia. reflexivity.
Qed.
