(** Concrete calls of [process_scales]. *)
From Coq Require Import Reals Lra String Ascii.
From Verif Require Import Py Round Cplx Padding Freqs Squeeze SqueezeThms2 SqueezeThms3 Scales ScaleThms Resol Search Ssqueeze ScaleBounds SsqCwt
  SsqWitness CwtWitness SignalsThms Validate ProcScales ProcScalesThms.
Local Open Scope R_scope.

(** "linear:naive" with two voices for 4 samples *)
Lemma naive4 g fds ds pad fuel : process_scales_any (VVal (PStr "linear:naive")) 4 (Some g) (PFloat 2) fds ds pad fuel =
  Some (Ok ([1; 2; 3; 4], SLin, 4%nat, NvInt 2)).
Proof.
  rewrite (scales_string _ SLin (Some Naive) _ 2 4).
  2:{ exists "naive"%string. split; reflexivity. }
  2:{ right. split; reflexivity. }
  unfold rmap, process_scales_str. cbn [Z.leb Z.compare]. change (2 <=? 0)%Z with false. cbv iota.
  unfold cwt_scalebounds, process_bargs. cbn [split_preset bind ba_min ba_max ba_cutoff ba_loc ba_amp rbind].
  unfold make_scales_bounds, or_real. destruct (Req_EM_T 1 0); [lra|]. cbn [INR].
  destruct (Req_EM_T (1 + 1 + 1 + 1) 0); [lra|]. cbn [rbind].
  unfold make_scales. replace ((1 + 1 + 1 + 1) / 1) with 4 by field. rewrite log2_4, log2_1.
  replace (2 * 2) with (IZR 4) by (cbn; lra). rewrite ceil_int. replace (2 * 0) with (IZR 0) by (cbn; lra).
  assert (F0 : Rfloor (IZR 0) = 0%Z) by (apply Int_part_unique; cbn; lra). rewrite F0.
  replace (IZR 0 / 2) with 0 by (cbn; lra). replace (IZR (0 + 4) / 2) with 2 by (cbn; lra).
  rewrite Rpower_O by lra. replace (Rpower 2 2) with 4 by (change 2 with (INR 2) at 2; rewrite Rpower_pow by lra; cbn; lra).
  replace (4 / 1) with (IZR 4) by (cbn; lra). rewrite ceil_int. change (Z.to_nat 4) with 4%nat.
  assert (E : linspace 1 4 4 = [1; 2; 3; 4]).
  { unfold linspace, tab. cbn. repeat (apply f_equal2; [lra|]). reflexivity. }
  rewrite E. reflexivity.
Qed.
(** scales at two rates, and [nv] no number at all *)
Lemma piece_any : exists l a, forall N w fds ds pad fuel,
  process_scales_any (VArr true l) N w (PStr "many") fds ds pad fuel = Some (Ok (l, SPiece, length l, NvArr a)).
Proof.
  destruct piece6_kind as (v & E). exists piece6, v. intros. apply scales_array_piece.
  unfold process_scales_arr in E. destruct (infer_scaletype true piece6) as [[n| |b]|]; cbn [bind] in E; try discriminate.
  - destruct (n <=? 0)%Z; discriminate.
  - injection E as ->. reflexivity.
Qed.
(** linear scales, for which there is no number of voices, take any *)
Lemma linear_any : exists l, forall N w fds ds pad fuel, process_scales_any (VArr true l) N w (PInt 7) fds ds pad fuel = Some (Ok (l, SLin, length l, NvInt 7)).
Proof.
  exists [1; 2; 3]. intros. rewrite (scales_array _ _ _ (Some 7%Z)) by reflexivity. f_equal. unfold process_scales_nv.
  assert (E : infer_scaletype true [1; 2; 3] = Ok KLinear).
  { unfold infer_scaletype. cbn [length Nat.ltb Nat.leb]. unfold all_pos. cbn [forallb]. rewrite !Rltb'_true by lra. cbn [andb].
    pose proof ln43 as L.
    rewrite Rltb'_false.
    2:{ unfold mean. cbn [map diff length lsum fold_right INR]. rewrite ln_1.
        assert (ln 4 = 2 * ln 2) by (replace 4 with (2 * 2) by ring; rewrite ln_mult; lra).
        rewrite Rabs_left by lra. lra. }
    rewrite Rltb'_true; [reflexivity|]. unfold mean. cbn [map diff length lsum fold_right INR].
    replace (3 - 2 - (2 - 1)) with 0 by ring. rewrite Rabs_R0. lra. }
  rewrite E. reflexivity.
Qed.
