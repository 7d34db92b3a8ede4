(** One period of a cosine at 4 and at 16 samples. *)
From Coq Require Import Reals Lra Lia List ZifyBool ZifyNat.
Import ListNotations.
From Verif Require Import Py Round Parallel Padding Cplx CplxProofs Buffer Freqs Squeeze SqueezeProofs BinProofs SqueezeThms SqueezeThms2 SqueezeThms3 Scales Ssqueeze SsqueezeProofs
  IssqProofs SsqThms FreqRange SsqWitness Cwt CwtProofs CwtThms CwtWitness SsqCwt SsqCwtProofs CwtWitness2 SsqCwtWitness RoundTripGain CwtAnalytic CwtResample SsqResample.
Local Open Scope R_scope.

Definition qr : ssq_args := arg_w DTrig None (1 / 8) false None.
Definition cosine : R -> R := periodic 4 0 1 (fun _ => 1) (fun _ => 0) (fun _ => 1%nat).

Lemma infer_of f64 sc : process_scales_arr f64 sc = Ok (KLog 1) -> infer_scaletype f64 sc = Ok (KLog 1).
Proof.
  unfold process_scales_arr. destruct (infer_scaletype f64 sc) as [[n| |]|]; cbn [bind]; try discriminate.
  destruct (n <=? 0)%Z; [discriminate|]. intros E. injection E as ->. reflexivity.
Qed.
Lemma rate_ok n sc fs : (0 < n)%nat -> 0 < fs -> process_scales_arr true sc = Ok (KLog 1) -> length sc = 3%nat ->
  exists r s', ssq_cwt serial_order false step_wave fam0 (at_rate qr sc fs) (samples n 4 cosine) st0 = (Ok r, s').
Proof.
  intros Hn Hfs Hsc HL. set (x := samples n 4 cosine). set (q := at_rate qr sc fs). assert (Hx : length x = n) by apply samples_len.
  assert (F : process_fs_and_t (Some fs) None (length x) = Ok fs) by (unfold process_fs_and_t; destruct (Rle_dec fs 0); [lra|reflexivity]).
  set (a := CA (ScArr sc) true (Some fs) None true true None false true (PatInt 0) None).
  assert (Px : pre step_wave a x fs x 0 sc).
  { unfold pre. cbn [a a_fs a_t a_l1 a_pad a_scales a_f64s]. split; [exact F|]. split; [reflexivity|].
    split; [destruct x; [cbn in Hx; lia|reflexivity]|]. unfold process_scales. rewrite Hsc. reflexivity. }
  pose proof (cwt_run false true step_wave a x st0 fs x 0 sc Px eq_refl eq_refl) as E. cbv zeta in E. change (a_deriv a) with true in E. cbv iota in E.
  match type of E with _ = (Ok (?W0, _, Some ?D0), ?s0) => set (W := W0) in E; set (D := D0) in E; set (s1 := s0) in E end.
  destruct (cwt_ncols _ _ _ _ _ _ _ _ _ _ E) as (Hr & _). rewrite HL in Hr.
  assert (exists Tx, ssqueeze serial_order (SO TCwt (FArray [1; 2; 3]) (Some sc) true true fs SqSum MRMaximal (Some (1 / 8)) true None) W None (Some D) = Ok (Tx, [3; 2; 1])) as (Tx & ET).
  { assert (Eg : get_grid true false [1; 2; 3] = Ok (GLin 1 (ensure_nonzero_nonnegative (2 - 1)))) by reflexivity.
    pose proof (const_arr_scalar (nrows W) (ln 2 / 1) ltac:(lia)) as Ea.
    unfold ssqueeze. cbn [o_gamma]. unfold ssq_freqs_of. cbn [o_tr o_scales o_f64s o_freqs o_f64v]. rewrite Hsc. cbn [bind]. rewrite infer123. cbn [bind skind_of is_log].
    unfold ssqueeze_one. cbn [o_gamma o_sq squeeze_input bind ssq_const o_tr o_f64v o_flip o_Sfs].
    destruct (fast_sum serial_order true W D [1; 2; 3] (CScalar (ln 2 / 1)) false true (1 / 8) None (Mat (nrows W) (ncols W) (fun _ _ => C0)) _ _ serial_order_valid Ea Eg (or_introl eq_refl)) as (Tx & E1 & _).
    rewrite E1. cbn [bind]. eexists. reflexivity. }
  exists (SQO Tx W [3; 2; 1] sc None D), s1.
  unfold ssq_cwt. unfold mbind at 1, lift at 1. change (check_diff q) with (Ok 4%Z : res Z). cbv iota. unfold mbind at 1, lift at 1.
  change (process_fs_and_t (q_fs q) (q_t q) (length x)) with (process_fs_and_t (Some fs) None (length x)). rewrite F.
  change (q_order q) with (@None ho_order). cbv iota. unfold mbind at 1, lift at 1.
  assert (Q : ssq_scales (q_f64s q) (q_scales q) (q_kind q) (ssq_nv q) (length x) = Ok (sc, SLog)).
  { unfold ssq_scales, process_scales_nv. cbn [q qr at_rate arg_w ssq_nv q_nv q_scales q_f64s]. rewrite (infer_of _ _ Hsc). reflexivity. }
  rewrite Q. unfold mbind at 1.
  change (inner q fs (ScArr sc) (match q_scales q with ScArr _ => q_f64s q | ScAuto _ => true end) true
       (match q_diff q with DNumeric => true | _ => false end) (q_pat q)) with a.
  rewrite E. cbv iota. unfold lift. f_equal. unfold squeeze_step. cbn [q qr at_rate arg_w q_get_w bind ssq_freqs q_freqs q_f64 q_f64v q_sq q_mr q_flip q_diff]. unfold ssq_gamma. cbn [q_gamma].
  match goal with |- context [ssqueeze ?o ?a ?b ?c ?d] => change (ssqueeze o a b c d) with (ssqueeze serial_order (SO TCwt (FArray [1; 2; 3]) (Some sc) true true fs SqSum MRMaximal (Some (1 / 8)) true None) W None (Some D)) end. rewrite ET. cbn [bind crop opt_map]. reflexivity.
Qed.

Lemma resample_case : exists r s1 r' s1', spectrum step_wave (fun _ => 1) /\ 0 < 4 /\
  rate_run serial_order false step_wave fam0 qr 4 0 1 (fun _ => 1) (fun _ => 0) (fun _ => 1%nat) 4 [1; 2; 4] [1; 2; 3] 1 st0 r s1 /\
  rate_run serial_order false step_wave fam0 qr 4 0 1 (fun _ => 1) (fun _ => 0) (fun _ => 1%nat) 16 [4; 8; 16] [1; 2; 3] 1 st0 r' s1' /\
  (forall i, (i < 3)%nat -> nth i [4; 8; 16] 0 / INR 16 = nth i [1; 2; 4] 0 / INR 4) /\ INR 4 / INR 16 = INR 1 / INR 4 /\
  nth 1 (samples 4 4 cosine) 7 = nth 4 (samples 16 4 cosine) 7.
Proof.
  assert (I4 : INR 4 = 4) by (cbn; lra). assert (I16 : INR 16 = 16) by (rewrite INR_IZR_INZ; reflexivity).
  destruct (rate_ok 4 [1; 2; 4] (INR 4 / 4) ltac:(lia) ltac:(rewrite I4; lra) (scales124 true) eq_refl) as (r & s1 & E).
  destruct (rate_ok 16 [4; 8; 16] (INR 16 / 4) ltac:(lia) ltac:(rewrite I16; lra) (scales4816 true) eq_refl) as (r' & s1' & E').
  exists r, s1, r', s1'. split; [exact step_spectrum|]. split; [lra|].
  assert (R : forall n sc x s, (2 < n)%nat -> process_scales_arr true sc = Ok (KLog 1) -> (forall i, (i < length sc)%nat -> 0 < nth i sc 0) ->
    ssq_cwt serial_order false step_wave fam0 (at_rate qr sc (INR n / 4)) (samples n 4 cosine) st0 = (Ok x, s) ->
    rate_run serial_order false step_wave fam0 qr 4 0 1 (fun _ => 1) (fun _ => 0) (fun _ => 1%nat) n sc [1; 2; 3] 1 st0 x s).
  { intros n sc x s Hn H1 H2 H3. do 6 (split; [apply serial_order_valid || reflexivity|]). split; [left; reflexivity|]. split; [exact H1|]. split; [exact H2|]. split; [intros; lia|]. split; [lia|exact H3]. }
  split; [apply R; [lia|apply scales124| |exact E]; intros i Hi; cbn in Hi; destruct i as [|[|[|i]]]; cbn [nth]; lra || lia|].
  split; [apply R; [lia|apply scales4816| |exact E']; intros i Hi; cbn in Hi; destruct i as [|[|[|i]]]; cbn [nth]; lra || lia|].
  rewrite I4, I16. split; [intros i Hi; destruct i as [|[|[|i]]]; cbn [nth]; lra || lia|].
  split; [cbn [INR]; lra|]. unfold samples. rewrite (nth_indep (tab 4 _) 7 0), (nth_indep (tab 16 _) 7 0) by (rewrite tab_length; lia). rewrite !nth_tab by lia. f_equal. rewrite I4, I16. cbn [INR]. lra.
Qed.
