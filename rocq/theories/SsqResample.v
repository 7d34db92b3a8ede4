(** [ssq_cwt] of one signal sampled at two rates, with the same [ssq_freqs]. *)
From Coq Require Import Reals Lra Lia List ZifyBool ZifyNat.
Import ListNotations.
From Verif Require Import Py Round Parallel Cplx CplxProofs Padding PaddingProofs Buffer Freqs Squeeze
  SqueezeProofs BinProofs SqueezeThms SqueezeThms2 SqueezeThms3 Scales Ssqueeze SsqueezeProofs
  Cwt CwtProofs CwtThms SsqCwt SsqCwtProofs SsqCwtInv CwtTone IssqProofs SsqThms CwtThms2 ToneThms RoundTripGain CwtResample.
Local Open Scope R_scope.

Definition tx_bin (q : ssq_args) (v : list R) (L : nat) : option (R -> Z) :=
  match infer_scaletype (q_f64v q) v with
  | Ok vk => match get_grid (q_f64v q) (is_log (skind_of vk)) v with
             | Ok g => let omax := (Z.of_nat L - 1)%Z in Some (fun r => flip_row (q_flip q) omax ((if q_get_w q then bin_onfly omax g else bin_fast omax g) r))
             | _ => None end
  | _ => None end.

Lemma tx_formula ord py f fam q x s r s' nv v : valid_order ord -> q_order q = None -> q_sq q = SqSum -> q_diff q = DTrig -> q_freqs q = FArray v ->
  ssq_cwt ord py f fam q x s = (Ok r, s') -> process_scales_arr (q_f64 q) (r_scales r) = Ok (KLog nv) ->
  nrows (r_Tx r) = length (r_scales r) /\ ncols (r_Tx r) = length x /\ r_freqs r = rev v /\
  (exists fs f64s pat, process_fs_and_t (q_fs q) (q_t q) (length x) = Ok fs /\
     cwt py true f (inner q fs (ScArr (r_scales r)) f64s true false pat) x s = (Ok (r_Wx r, r_scales r, Some (r_dWx r)), s')) /\
  exists B, tx_bin q v (length (r_scales r)) = Some B /\
  forall k j, (k < length (r_scales r))%nat -> (j < length x)%nat ->
    el (r_Tx r) k j = Csum (length (r_scales r)) (fun i =>
      if passes_dec q (Cabs (el (r_Wx r) i j)) then
        if (B (phase_cwt_pt (el (r_Wx r) i j) (el (r_dWx r) i j)) =? Z.of_nat k)%Z then Cmul (el (r_Wx r) i j) (RtoC (ln 2 / IZR nv)) else C0
      else C0).
Proof.
  intros Ho Hq Hsq Hd Hv H Hp.
  assert (Hsk : shape_keeping (q_sq q)) by (rewrite Hsq; exact I).
  assert (Hdn : q_diff q <> DNumeric) by congruence.
  destruct (ssq_cols_plain _ _ _ _ _ _ _ _ _ Ho Hsk Hq Hdn H) as (C1 & C2 & R1 & R2).
  destruct (ssq_cwt_inv _ _ _ _ _ _ _ _ _ Hq H) as (kd & fs & sc & kind & W & dW & Hkd & Hfs & Hsc' & Hcw & Hst).
  assert (En : numeric q = false) by (unfold numeric; rewrite Hd; reflexivity).
  destruct (step_inv _ _ _ _ _ _ _ _ _ _ _ Hkd Hst) as (w & Tx & Es & E1 & E2 & E3 & E4 & E5 & Ew).
  assert (Ec : forall T (V : mat T), crop (q_diff q) V = V) by (intros; unfold crop; rewrite Hd; reflexivity).
  rewrite Ec in E1, E2. rewrite E3 in *. unfold squeezed in Es, Ew. rewrite En in Es, Ew. rewrite E1 in *. rewrite E2 in *. rewrite E5 in *.
  destruct (ssqueeze_inv _ _ _ _ _ _ _ Es) as (k' & v' & ls' & Ef & Efr & Eone).
  pose proof Ef as Ef0. unfold ssq_freqs_of in Ef0. cbn [o_tr o_scales o_f64s o_freqs o_f64v] in Ef0. rewrite Hp in Ef0. cbn [bind] in Ef0.
  unfold ssq_freqs in Ef0. rewrite Hv in Ef0. destruct (infer_scaletype (q_f64v q) v) as [vk|] eqn:Ei; [|discriminate Ef0]. cbn [bind] in Ef0. injection Ef0 as <- <- <-.
  rewrite Hsq in Eone. cbn [o_sq squeeze_input] in Eone.
  destruct (one_cells _ _ _ _ _ _ _ _ _ Ho Eone) as (H1 & H2 & cst & ca & g & Ecst & Ea & Eg & Hcell).
  unfold ssq_const in Ecst. cbn [o_tr] in Ecst. injection Ecst as <-. pose proof (process_log_len _ _ _ Hp) as Hlen.
  rewrite const_arr_scalar in Ea by lia. injection Ea as <-. cbn [o_f64v o_flip] in Eg, Hcell.
  split; [exact R1|]. split; [exact C1|]. split; [rewrite Efr; unfold flip_freqs; cbn [o_tr o_flip]; destruct (q_flip q); reflexivity|].
  rewrite En in Hcw. split; [exists fs, (match q_scales q with ScArr _ => q_f64s q | ScAuto _ => true end), (q_pat q); split; [exact Hfs|exact Hcw]|].
  unfold tx_bin. rewrite Ei, Eg. eexists. split; [reflexivity|]. cbv zeta.
  set (om := fun i j => phase_cwt_pt (el W i j) (el dW i j)) in *.
  intros i j Hi Hj. rewrite (Hcell i j ltac:(lia) ltac:(lia)).
  assert (Hterm : forall m, (m < nrows W)%nat ->
    freq_at (SO TCwt (ssq_freqs q kind) (Some sc) (q_f64 q) (q_f64v q) fs SqSum (q_mr q) (Some (ssq_gamma q)) (q_flip q) None)
      W w (if q_get_w q then None else Some dW) m j =
    if passes_dec q (Cabs (el W m j)) then Fin (om m j) else Inf).
  { intros m Hm. destruct (passes_dec q (Cabs (el W m j))) as [Hy|Hn]; unfold passes in *;
      destruct (q_get_w q) eqn:Egw; unfold freq_at; cbn [o_gamma o_Sfs].
    - destruct Ew as (w' & -> & Ep). unfold phase_transform in Ep. rewrite Hd in Ep. injection Ep as <-.
      cbn [phase_cwt el]. destruct (Rlt_dec _ _); [lra|]. reflexivity.
    - destruct Ew as (-> & _). destruct (Rlt_dec _ _); [|lra]. reflexivity.
    - destruct Ew as (w' & -> & Ep). unfold phase_transform in Ep. rewrite Hd in Ep. injection Ep as <-.
      cbn [phase_cwt el]. destruct (Rlt_dec _ _); [reflexivity|lra].
    - destruct Ew as (-> & _). destruct (Rlt_dec _ _); [lra|reflexivity]. }
  rewrite R2. apply Csum_ext. intros m Hm. rewrite Hterm by (rewrite R2; exact Hm).
  destruct (passes_dec q (Cabs (el W m j))) as [Hy|Hn]; [|reflexivity].
  rewrite nth_repeat_in by (try rewrite R2; exact Hm). 
  destruct (q_get_w q); [destruct Ew as (w' & -> & _)|destruct Ew as (-> & _)]; reflexivity.
Qed.

(** the same call for another sampling rate: the scales array and [fs] change, [ssq_freqs] (in Hz) and the rest do not *)
Definition at_rate (q : ssq_args) (sc : list R) (fs : R) : ssq_args :=
  SQ (ScArr sc) (q_kind q) (q_nv q) (q_f64s q) (q_f64 q) (q_f64v q) (Some fs) None (q_freqs q) (q_pad q) (q_sq q) (q_mr q) (q_diff q) (q_difforder q) (q_gamma q) (q_vec q)
     (q_order q) (q_pat q) (q_flip q) (q_cache q) (q_get_w q).
Definition rate_run ord py f fam q T mu M A phi k n sc v nv s r s' : Prop :=
  valid_order ord /\ q_order q = None /\ q_sq q = SqSum /\ q_diff q = DTrig /\ q_pad q = None /\ q_freqs q = FArray v /\
  (s_cache s = None \/ use_cache true (q_vec q) (q_cache q) = false) /\ process_scales_arr (q_f64 q) sc = Ok (KLog nv) /\
  (forall i, (i < length sc)%nat -> 0 < nth i sc 0) /\ (forall r, (r < M)%nat -> (0 < k r)%nat /\ (2 * k r < n)%nat) /\ (0 < n)%nat /\
  ssq_cwt ord py f fam (at_rate q sc (INR n / T)) (samples n T (periodic T mu M A phi k)) s = (Ok r, s').

Lemma arr_scales ord py f fam q sc fs x s r s' : q_order q = None -> ssq_cwt ord py f fam (at_rate q sc fs) x s = (Ok r, s') -> r_scales r = sc.
Proof.
  intros Hq H. destruct (ssq_cwt_inv _ _ _ _ (at_rate q sc fs) _ _ _ _ Hq H) as (kd & fs' & sc' & kind & W & dW & Hkd & Hfs & Hsc & Hcw & Hst).
  destruct (step_inv _ _ _ _ _ _ _ _ _ _ _ Hkd Hst) as (w & Tx & Es & E1 & E2 & E3 & _). rewrite E3. cbn [at_rate q_scales ssq_scales] in Hsc.
  destruct (process_scales_nv _ _ _); cbn [bind] in Hsc; [|discriminate Hsc]. injection Hsc as <- _. reflexivity.
Qed.
Lemma rate_given r N fs : process_fs_and_t (Some r) None N = Ok fs -> fs = r.
Proof.
  unfold process_fs_and_t. repeat (match goal with |- context [if ?b then _ else _] => destruct b end; cbn [bind]); intros E; try discriminate E; injection E as <-; reflexivity.
Qed.

Theorem ssq_resampled ord py f g fam q T mu M A phi k n sc v nv s r s' ord' py' fam' n' sc' sb r' sb' : spectrum f g -> 0 < T ->
  rate_run ord py f fam q T mu M A phi k n sc v nv s r s' -> rate_run ord' py' f fam' q T mu M A phi k n' sc' v nv sb r' sb' ->
  length sc' = length sc -> (forall i, (i < length sc)%nat -> nth i sc' 0 / INR n' = nth i sc 0 / INR n) ->
  r_freqs r' = r_freqs r /\ nrows (r_Tx r') = nrows (r_Tx r) /\
  forall j j', (j < n)%nat -> (j' < n')%nat -> INR j' / INR n' = INR j / INR n -> forall i, (i < length sc)%nat ->
    el (r_Wx r') i j' = el (r_Wx r) i j /\ el (r_dWx r') i j' = el (r_dWx r) i j /\ el (r_Tx r') i j' = el (r_Tx r) i j.
Proof.
  intros Sp HT (Ho & Hq & Hsq & Hd & Hpd & Hv & Hc & Hp & Hpos & Hk & Hn & H) (Ho' & _ & _ & _ & _ & _ & Hc' & Hp' & Hpos' & Hk' & Hn' & H') HL Hs.
  pose proof (arr_scales _ _ _ _ _ _ _ _ _ _ _ Hq H) as Esc. pose proof (arr_scales _ _ _ _ _ _ _ _ _ _ _ Hq H') as Esc'.
  destruct (tx_formula _ _ _ _ (at_rate q sc (INR n / T)) _ _ _ _ nv v Ho Hq Hsq Hd Hv H ltac:(rewrite Esc; exact Hp)) as (R1 & C1 & F1 & (fs & f64s & pat & Hfs & E) & B & EB & V).
  destruct (tx_formula _ _ _ _ (at_rate q sc' (INR n' / T)) _ _ _ _ nv v Ho' Hq Hsq Hd Hv H' ltac:(rewrite Esc'; exact Hp')) as (R1' & C1' & F1' & (fs' & f64s' & pat' & Hfs' & E') & B' & EB' & V').
  rewrite Esc in *. rewrite Esc' in *. rewrite samples_len in *. change (tx_bin (at_rate q sc' (INR n' / T)) v (length sc')) with (tx_bin (at_rate q sc (INR n / T)) v (length sc')) in EB'.
  rewrite HL, EB in EB'. injection EB' as <-. split; [congruence|]. split; [congruence|].
  pose proof Hfs as Hfs0. pose proof Hfs' as Hfs0'. cbn [at_rate q_fs q_t] in Hfs, Hfs'. apply rate_given in Hfs. apply rate_given in Hfs'. subst fs fs'.
  assert (Q : sampled_run py true f (inner (at_rate q sc (INR n / T)) (INR n / T) (ScArr sc) f64s true false pat) T mu M A phi k n s (r_Wx r) sc (r_dWx r) s').
  { split; [exact Hc|]. split; [exact Hpd|]. split; [exact Hk|]. split; [exact Hn|]. split; [exact Hfs0|exact E]. }
  assert (Q' : sampled_run py' true f (inner (at_rate q sc' (INR n' / T)) (INR n' / T) (ScArr sc') f64s' true false pat') T mu M A phi k n' sb (r_Wx r') sc' (r_dWx r') sb').
  { split; [exact Hc'|]. split; [exact Hpd|]. split; [exact Hk'|]. split; [exact Hn'|]. split; [exact Hfs0'|exact E']. }
  intros j j' Hj Hj' Ej.
  assert (S1 : forall i, (i < length sc)%nat -> el (r_Wx r') i j' = el (r_Wx r) i j /\ el (r_dWx r') i j' = el (r_dWx r) i j).
  { intros i Hi. destruct (resampled _ _ _ g _ T mu M A phi k n _ _ _ _ _ _ _ _ n' _ _ _ _ _ i i j j' Sp HT Q Q' (Hpos i Hi) (Hs i Hi) Ej) as [X Y].
    unfold l_norm in X, Y. cbn [inner a_l1] in X, Y. rewrite Rinv_1 in X, Y.
    assert (U : forall z, Cmul (RtoC 1) z = z) by (intros z; apply C_eq; unfold Cmul, RtoC; cbn [fst snd]; ring). rewrite !U in X. rewrite !U in Y. split; assumption. }
  intros i Hi. destruct (S1 i Hi) as [X Y]. split; [exact X|]. split; [exact Y|].
  rewrite V by assumption. rewrite V' by (try assumption; lia). rewrite HL. apply Csum_ext. intros m Hm. destruct (S1 m Hm) as [X2 Y2]. rewrite X2, Y2.
  reflexivity.
Qed.
