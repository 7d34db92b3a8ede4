(** Properties of whole pipelines on a sampled cosine; ridges on a curve. *)
From Coq Require Import Reals Lra ZifyBool ZifyNat.
From Verif Require Import Py Padding PaddingProofs Parallel Cplx CplxProofs Freqs Squeeze SqueezeThms Scales Ssqueeze Cwt CwtProofs CwtThms CwtTone CwtWitness CwtWitness2 SsqWitness
  SsqCwt SsqCwtWitness Ridge RidgeOpt RidgeThms RidgeCurve ToneThms PhaseDiff ToneWitness NormThms.
From Verif Require Import Reassign SsqCwtWitness ToneWitness TonePadded.
Local Open Scope R_scope.

(** * C99: ssq_cwt of a tone is one row *)

(** [tone_run] (ToneThms.v) lists the setting: [k] periods in [n] samples ([0 < 2k < n]), any amplitude and
    phase, [padtype=None], default squeezing, difftype and row order, any [gamma > 0], [get_w] either way, any
    parallel schedule; log scales, rows in geometric progression; an analytic wavelet with real spectrum.
    Missing: padded tones (the padded signal is no tone), and frequencies between DFT bins *)
Theorem C99_one_row_partial ord py f fam q A phi k n s r s' fs nv : tone_run ord py f fam q A phi k n s r s' fs nv ->
  nrows (r_Tx r) = length (r_scales r) /\ ncols (r_Tx r) = n /\
  exists row, nearest_row r (tone_freq fs k n) row /\
    forall i j, (i < length (r_scales r))%nat -> (j < n)%nat ->
      el (r_Tx r) i j =
      if (i =? row)%nat
      then Cmul (RtoC (A / 2 * gain q f (r_scales r) nv A k n)) (analytic phi k n j) else C0.
Proof. exact (tone_one_row ord py f fam q A phi k n s r s' fs nv). Qed.
Print Assumptions C99_one_row_partial.

(** the hypotheses hold of the default frequencies of three octave scales; the row is 1/4 Hz *)
Example C99_case gw : exists r s', tone_run serial_order false pos_wave fam0 (arg_t gw) 1 0 2 8 st0 r s' 1 1 /\
  nrows (r_Tx r) = 3%nat /\ exists row, nearest_row r (1 / 4) row /\
  forall i j, (i < 3)%nat -> (j < 8)%nat -> Cabs (el (r_Tx r) i j) = if (i =? row)%nat then 3 / 2 * ln 2 else 0.
Proof.
  destruct (tone8 gw) as (r & s' & H & Hsc & HG). exists r, s'. split; [exact H|].
  destruct (C99_one_row_partial _ _ _ _ _ _ _ _ _ _ _ _ _ _ H) as (R1 & _ & row & B & E). rewrite Hsc in R1, E.
  split; [exact R1|]. exists row. split.
  - replace (1 / 4) with (tone_freq 1 2 8) by (unfold tone_freq; cbn; lra). exact B.
  - intros i j Hi Hj. rewrite E by assumption. destruct (i =? row)%nat; [|apply Cabs_0].
    rewrite Hsc in HG. rewrite HG, Cabs_tone. pose proof ln2_pos. rewrite Rabs_right; lra.
Qed.

(** one period in four samples, padded by reflection: the tone's row is the last, and the third
    column is in the middle one *)
Theorem C99_padded_refuted : exists q A k n r s', q_pad q = Some PReflect /\ (0 < k)%nat /\ (2 * k < n)%nat /\
  log_run serial_order false pos_wave fam0 q (tone A 0 k n) st0 r s' 1 1 (1 / 2) /\
  one_sided pos_wave (r_scales r) k n /\ real_valued pos_wave /\
  nearest_row r (tone_freq 1 k n) 2 /\
  el (r_Tx r) 2 2 = C0 /\ el (r_Tx r) 1 2 = RtoC (- (9 / 8) * ln 2).
Proof.
  destruct (tone_padded true) as (r & s' & H).
  exact (ex_intro _ (arg_p true) (ex_intro _ 1 (ex_intro _ 1%nat (ex_intro _ 4%nat (ex_intro _ r (ex_intro _ s'
          (conj eq_refl (conj (le_n 1) (conj (le_S 3 3 (le_n 3)) H))))))))).
Qed.
Print Assumptions C99_padded_refuted.

(** * C100: the inverse of a tone is the tone, times a gain *)

(** the gain is the sum of the wavelet over the scales ([ln 2 / nv] apart) over [Css]; coefficients not above
    [gamma] do not count.  Missing: how far the gain is from 1 *)
Theorem C100_issq_partial ord py f fam q A phi k n s r s' fs nv Css : tone_run ord py f fam q A phi k n s r s' fs nv ->
  issq_cwt Css (r_Tx r) None = Ok (One (tone (A * (gain q f (r_scales r) nv A k n / Css)) phi k n)).
Proof. exact (tone_issq ord py f fam q A phi k n s r s' fs nv Css). Qed.
Print Assumptions C100_issq_partial.

(** following the tone's row with any half-widths: nothing is left over *)
Theorem C100_component ord py f fam q A phi k n s r s' fs nv Css : tone_run ord py f fam q A phi k n s r s' fs nv ->
  exists row, nearest_row r (tone_freq fs k n) row /\
  forall cc cw, nrows cc = n -> ncols cc = 1%nat -> nrows cw = n -> ncols cw = 1%nat ->
  (forall m, (m < n)%nat -> (0 <= el cc m 0%nat)%Z /\ (Z.abs (el cc m 0%nat - Z.of_nat row) <= el cw m 0%nat)%Z) ->
  exists x res, issq_cwt Css (r_Tx r) (Some (cc, cw)) = Ok (Many [x; res]) /\
    x = tone (A * (gain q f (r_scales r) nv A k n / Css)) phi k n /\ res = repeat 0 n.
Proof. exact (tone_component ord py f fam q A phi k n s r s' fs nv Css). Qed.
Print Assumptions C100_component.

Theorem C100_icwt_partial py inst f a s A phi k n W sc dW s' f64 nv Css pt rp :
  (0 < k)%nat -> (2 * k < n)%nat -> a_pad a = None -> a_l1 a = true -> uncached inst a s -> real_valued f ->
  cwt py inst f a (tone A phi k n) s = (Ok (W, sc, dW), s') -> one_sided f sc k n ->
  process_scales_arr f64 sc = Ok (KLog nv) ->
  icwt f Css W sc f64 None true true None 0 pt rp = Ok (tone (A * (full_gain f sc nv k n / Css)) phi k n).
Proof. exact (tone_icwt py inst f a s A phi k n W sc dW s' f64 nv Css pt rp). Qed.
Print Assumptions C100_icwt_partial.

(** the same tone: its second sample is 0 and is returned as another number *)
Theorem C100_padded_refuted : exists a A k n W sc dW s' y, a_pad a = Some PReflect /\ (0 < k)%nat /\ (2 * k < n)%nat /\
  cwt false true pos_wave a (tone A 0 k n) st0 = (Ok (W, sc, dW), s') /\
  one_sided pos_wave sc k n /\ real_valued pos_wave /\
  icwt pos_wave 1 W sc true None true true None 0 PReflect false = Ok y /\
  nth 1 (tone A 0 k n) 0 = 0 /\ nth 1 y 0 = 3 / 4 * ln 2 / 1.
Proof.
  destruct (tone_padded_icwt 1 PReflect false Rlt_0_1) as (W & dW & s' & y & H).
  exact (ex_intro _ (arg_c (Some PReflect) false) (ex_intro _ 1 (ex_intro _ 1%nat (ex_intro _ 4%nat (ex_intro _ W (ex_intro _ [1; 2; 4]
    (ex_intro _ (Some dW) (ex_intro _ s' (ex_intro _ y (conj eq_refl (conj (le_n 1) (conj (le_S 3 3 (le_n 3)) H)))))))))))).
Qed.
Print Assumptions C100_padded_refuted.

Example C100_case gw : exists r s', tone_run serial_order false pos_wave fam0 (arg_t gw) 1 0 2 8 st0 r s' 1 1 /\
  issq_cwt (3 * ln 2) (r_Tx r) None = Ok (One (tone 1 0 2 8)).
Proof.
  destruct (tone8 gw) as (r & s' & H & Hsc & HG). exists r, s'. split; [exact H|].
  rewrite (C100_issq_partial _ _ _ _ _ _ _ _ _ _ _ _ _ _ (3 * ln 2) H). rewrite HG. do 3 f_equal. field. pose proof ln2_pos. lra.
Qed.

(** * C101: extract_ridges follows the curve that carries the energy *)

(** [on_curve]: one nonzero row per time; the curve's own jumps must cost less than leaving it once
    ([ln (1 + 1/eps)], 36 in double precision).  Missing: energy off the curve, more rows than times (C30) *)
Theorem C101_curve_partial par f64 Tf scales penalty n bw cwt o c :
  extract_ridges par f64 Tf scales penalty n bw cwt = Ok o -> sched_ok (nrows Tf) par -> (1 <= n)%nat ->
  (nrows Tf <= ncols Tf)%nat -> 0 <= penalty -> on_curve Tf c ->
  Rsum (ncols Tf - 1) (fun t => jump cwt scales penalty (c (S t)) (c t)) + INR (ncols Tf - 1) * eps_of f64
    < ln (1 + / eps_of f64) ->
  forall t, (t < ncols Tf)%nat -> nth t (r_idx (nth 0 o ridge0)) 0%nat = c t.
Proof. exact (curve_found par f64 Tf scales penalty n bw cwt o c). Qed.
Print Assumptions C101_curve_partial.

(** for a constant row any penalty will do *)
Theorem C101_constant par (f64 : bool) Tf scales penalty n bw cwt o row :
  extract_ridges par f64 Tf scales penalty n bw cwt = Ok o -> sched_ok (nrows Tf) par -> (1 <= n)%nat ->
  (nrows Tf <= ncols Tf)%nat -> 0 <= penalty -> (row < nrows Tf)%nat ->
  (forall f t, (f < nrows Tf)%nat -> (t < ncols Tf)%nat -> (el Tf f t = C0 <-> f <> row)) ->
  (Z.of_nat (ncols Tf) <= (if f64 then 2 ^ 52 else 2 ^ 23))%Z ->
  forall t, (t < ncols Tf)%nat ->
    nth t (r_idx (nth 0 o ridge0)) 0%nat = row /\ nth t (r_freq (nth 0 o ridge0)) 0 = nth row scales 0 /\
    nth t (r_energy (nth 0 o ridge0)) 0 = energy Tf row t.
Proof. exact (row_found par f64  Tf scales penalty n bw cwt o row). Qed.
Print Assumptions C101_constant.

(** hence the ridge of a squeezed tone is constant, at the tone's frequency *)
Theorem C101_tone ord py f fam q A phi k n s r s' fs nv par (f64 : bool) penalty nr bw cwt o :
  tone_run ord py f fam q A phi k n s r s' fs nv ->
  A * gain q f (r_scales r) nv A k n <> 0 ->
  extract_ridges par f64 (r_Tx r) (r_freqs r) penalty nr bw cwt = Ok o ->
  sched_ok (length (r_scales r)) par -> (1 <= nr)%nat -> (length (r_scales r) <= n)%nat -> 0 <= penalty ->
  (Z.of_nat n <= (if f64 then 2 ^ 52 else 2 ^ 23))%Z ->
  exists row, nearest_row r (tone_freq fs k n) row /\ forall t, (t < n)%nat ->
    nth t (r_idx (nth 0 o ridge0)) 0%nat = row /\
    nth t (r_freq (nth 0 o ridge0)) 0 = nth row (r_freqs r) 0 /\
    nth t (r_energy (nth 0 o ridge0)) 0 = (A / 2 * gain q f (r_scales r) nv A k n) ^ 2.
Proof. exact (tone_ridge ord py f fam q A phi k n s r s' fs nv par f64  penalty nr bw cwt o). Qed.
Print Assumptions C101_tone.

Example C101_case gw : exists r s' o, tone_run serial_order false pos_wave fam0 (arg_t gw) 1 0 2 8 st0 r s' 1 1 /\
  extract_ridges None true (r_Tx r) (r_freqs r) 2 1 15 false = Ok o /\
  exists row, nearest_row r (1 / 4) row /\ forall t, (t < 8)%nat -> nth t (r_idx (nth 0 o ridge0)) 0%nat = row.
Proof.
  destruct (tone8 gw) as (r & s' & H & Hsc & HG).
  destruct (C99_one_row_partial _ _ _ _ _ _ _ _ _ _ _ _ _ _ H) as (R1 & K1 & row & (_ & B & _) & _).
  destruct (extract_ok None true (r_Tx r) (r_freqs r) 2 1 15 false) as (o & Ho); [lia|rewrite R1, Hsc; cbn; lia|lia|discriminate|].
  exists r, s', o. split; [exact H|]. split; [exact Ho|].
  destruct (C101_tone _ _ _ _ _ _ _ _ _ _ _ _ _ _ None true 2 1 15 false o H) as (row' & B' & E); try assumption; try exact I; try lia; try lra.
  - rewrite HG. pose proof ln2_pos. lra.
  - rewrite Hsc. cbn. lia.
  - exists row'. split; [|intros t Ht; apply E, Ht].
    replace (1 / 4) with (tone_freq 1 2 8) by (unfold tone_freq; cbn; lra). exact B'.
Qed.

(** * C102: difftype 'phase' and the unit of w *)

(** a row turning by [al] per sample: [al / 2 pi], cycles per sample; the last column holds the whole
    advance, not a frequency *)
Theorem C102_row gamma W w i al (z0 : C) : phase_phase gamma W = Ok w -> 0 < al < PI ->
  (forall j, (j < ncols W)%nat -> el W i j = Cmul z0 (cis (INR j * al))) ->
  0 < gamma -> gamma <= Cabs z0 -> forall j, (j < ncols W)%nat ->
  el w i j = Fin (if (S j =? ncols W)%nat then INR (ncols W - 1) * al / (2 * PI) else al / (2 * PI)).
Proof. exact (phase_phase_row gamma W w i al z0 ). Qed.
Print Assumptions C102_row.

(** for a tone: the frequency only if the rate is 1, and not in the last column *)
Theorem C102_tone_partial py inst f a s A phi k n W sc dW s' gamma w i j :
  (0 < k)%nat -> (2 * k < n)%nat -> a_pad a = None -> a_l1 a = true -> uncached inst a s -> real_valued f ->
  cwt py inst f a (tone A phi k n) s = (Ok (W, sc, dW), s') -> one_sided f sc k n -> (i < length sc)%nat -> (j < n)%nat ->
  phase_phase gamma W = Ok w -> 0 < gamma -> gamma <= Cabs (el W i j) ->
  el w i j = Fin (if (S j =? n)%nat then INR (n - 1) * (INR k / INR n) else INR k / INR n).
Proof. exact (phase_tone py inst f a s A phi k n W sc dW s' gamma w i j). Qed.
Print Assumptions C102_tone_partial.

(** rate 2: 'trig' finds 1/2 Hz everywhere; 'phase' 1/4, and 7/4 in the last column *)
Theorem C102_units_refuted : exists W dW s' w, cwt false true pos_wave arg_2 (tone 1 0 2 8) st0 = (Ok (W, [1; 2; 4], Some dW), s') /\
  phase_phase (1 / 10) W = Ok w /\
  forall i j, (i < 3)%nat -> (j < 8)%nat ->
    el (phase_cwt (1 / 10) W dW) i j = Fin (1 / 2) /\
    el w i j = Fin (if (j =? 7)%nat then 7 / 4 else 1 / 4).
Proof. exact phase_units. Qed.
Print Assumptions C102_units_refuted.

Example C102_case : exists W dW s' w, cwt false true pos_wave arg_2 (tone 1 0 2 8) st0 = (Ok (W, [1; 2; 4], Some dW), s') /\
  phase_phase (1 / 10) W = Ok w /\ el w 1 3 = Fin (INR 2 / INR 8).
Proof.
  destruct C102_units_refuted as (W & dW & s' & w & E & Ew & H). exists W, dW, s', w. split; [exact E|]. split; [exact Ew|].
  destruct (H 1%nat 3%nat ltac:(lia) ltac:(lia)) as (_ & ->). cbn. f_equal. lra.
Qed.

(** * C103: the L2 norm *)

(** [l1_agree]: same scales, state and errors; each row times the root of its scale, derivative included *)
Theorem C103_cwt py inst f a x s : wf_norm f = NotGmw ->
  l1_agree (cwt py inst f (set_l1 a true) x s) (cwt py inst f (set_l1 a false) x s).
Proof. exact (cwt_l2 py inst f a x s). Qed.
Print Assumptions C103_cwt.

Theorem C103_icwt f Cpsi W W' sc f64 nv one_int xl xm pt rp : wf_norm f = NotGmw ->
  weighted (root_of sc) W W' -> (forall v, In v sc -> 0 < v) ->
  icwt f Cpsi W' sc f64 nv one_int false xl xm pt rp = icwt f Cpsi W sc f64 nv one_int true xl xm pt rp.
Proof. exact (icwt_l2 f Cpsi W W' sc f64 nv one_int xl xm pt rp). Qed.
Print Assumptions C103_icwt.

Theorem C103_round_trip py inst f a x s W sc dW s' Cpsi f64 nv one_int xl xm pt rp : wf_norm f = NotGmw ->
  cwt py inst f (set_l1 a true) x s = (Ok (W, sc, dW), s') -> (forall v, In v sc -> 0 < v) ->
  exists W' dW', cwt py inst f (set_l1 a false) x s = (Ok (W', sc, dW'), s') /\
    icwt f Cpsi W' sc f64 nv one_int false xl xm pt rp = icwt f Cpsi W sc f64 nv one_int true xl xm pt rp.
Proof. exact (l2_round_trip py inst f a x s W sc dW s' Cpsi f64 nv one_int xl xm pt rp). Qed.
Print Assumptions C103_round_trip.

(** a GMW only works in its own norm *)
Theorem C103_gmw py inst f a x s fs : process_fs_and_t (a_fs a) (a_t a) (length x) = Ok fs ->
  wf_norm f = (if a_l1 a then GmwL2 else GmwL1) -> cwt py inst f a x s = (Err ValueError, s).
Proof. exact (gmw_norm_checked py inst f a x s fs). Qed.
Print Assumptions C103_gmw.

Example C103_case : exists W W' dW dW' s', cwt false true pos_wave (set_l1 arg_2 true) (tone 1 0 2 8) st0 = (Ok (W, [1; 2; 4], dW), s') /\
  cwt false true pos_wave (set_l1 arg_2 false) (tone 1 0 2 8) st0 = (Ok (W', [1; 2; 4], dW'), s') /\
  icwt pos_wave 1 W' [1; 2; 4] true None false false None 0 PReflect false = icwt pos_wave 1 W [1; 2; 4] true None false true None 0 PReflect false.
Proof.
  destruct tone8_cwt as (W & dW & s' & E).
  destruct (C103_round_trip false true pos_wave arg_2 _ _ _ _ _ _ 1 true None false None 0 PReflect false eq_refl E) as (W' & dW' & E' & H).
  - intros v [<-|[<-|[<-|[]]]]; lra.
  - exists W, W', (Some dW), dW', s'. auto.
Qed.
