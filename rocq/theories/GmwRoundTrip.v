(** The round trip with the library's log scales and a Generalized Morse Wavelet. *)
From Coq Require Import Reals Lra Lia ZifyBool ZifyNat.
From Verif Require Import Py Cplx CplxProofs Padding Freqs Squeeze Scales ScaleThms Wavelets WaveletProofs GmwThms2 Integral IntegralProofs
  PrimProofs Cwt CwtProofs CwtThms RoundTrip GainBound GainBound2 RoundTripGain RoundTripGain2.
Local Open Scope R_scope.

Lemma library_voices mn mx nv fds ds s : 0 < mn < mx -> (1 <= nv)%Z -> make_scales mn mx nv SLog fds ds = Ok s -> voices s nv.
Proof.
  intros Hm Hnv E. destruct (log_scales mn mx nv Hm Hnv fds ds) as (s' & E' & Hne & Hg & Hs & _).
  rewrite E in E'. injection E' as <-. assert (1 <= IZR nv) by (apply IZR_le, Hnv).
  assert (H0 : 0 < nth 0 s 0).
  { destruct Hs as [Hs _]. eapply Rlt_trans; [|exact Hs]. apply Rdiv_lt_0_compat; [lra|apply exp_pos]. }
  split; [lia|]. split; [exact H0|]. intros i Hi. rewrite (Hg (S i) Hi), (Hg i) by lia. rewrite Rmult_assoc, <- Rpower_plus. do 2 f_equal.
  rewrite S_INR. field. lra.
Qed.

(** the function passed to [cwt] for [gmw(gamma, beta)] *)
Definition gmw_wave (g : R -> R) : wfun := WF (fun w => RtoC (g w)) false GmwL1.

(** [w g'(w)] at its two extrema, [w^gamma = u] *)
Definition gmw_lobe (gamma beta u : R) : R :=
  let r := beta / gamma in 2 * gamma * Rpower (u / r) r * exp (r - u) * Rabs (r - u).
Definition gmw_variation (gamma beta : R) : R :=
  let r := beta / gamma in let s := sqrt (r + 1 / 4) in
  2 * (gmw_lobe gamma beta (r + 1 / 2 - s) + gmw_lobe gamma beta (r + 1 / 2 + s)).

Section Gmw.
Variables (gamma beta : R) (g : R -> R).
Hypothesis (Hg : 0 < gamma) (Hb : 0 < beta) (Ef : gmw_l1 gamma beta false = Ok g).

Lemma gmw_unimodal : unimodal g (Rpower (beta / gamma) (1 / gamma)) 2.
Proof.
  destruct (gmw_l1_peaks gamma beta g Hg Hb Ef) as (P1 & P2 & P3 & P4). destruct (gmw_l1_unimodal gamma beta g Hg Hb Ef) as (U & D).
  set (wp := Rpower _ _) in *. split; [|split].
  - intros w Hw. split; [left; apply P3, Hw|]. destruct (Req_dec w wp) as [->|N]; [lra|]. left. apply P2, N.
  - intros u v Hu [Huv| ->] Hv; [|lra]. left. apply U; assumption.
  - intros u v Hu Hc [Huv| ->]; [|lra]. left. apply D; assumption.
Qed.
Lemma gmw_spectrum : spectrum (gmw_wave g) g.
Proof.
  destruct (gmw_l1_peaks gamma beta g Hg Hb Ef) as (_ & _ & _ & P4). split; intros w Hw; cbn [wf gmw_wave]; [reflexivity|].
  rewrite P4 by exact Hw. reflexivity.
Qed.
Lemma gmw_primitive : exists P, log_primitive g P /\
  forall a b, 0 < a -> a <= b -> integral (fun w => g w / w) a b (P b - P a).
Proof.
  assert (C : forall x, 0 < x -> continuity_pt (fun w => g w / w) x).
  { intros x Hx. apply (continuity_pt_div g (fun w => w)); [apply (f_cont gamma beta g Hg Hb Ef), Hx|apply derivable_continuous_pt, derivable_pt_id|lra]. }
  destruct (primitive_exists _ C) as (P & HP). exists P. split; [exact HP|]. intros a b Ha Hab.
  apply integral_ftc; [exact Hab|intros x Hx; apply C; lra|intros x Hx; apply HP; lra].
Qed.

Let r := beta / gamma.
Let q w := g w * (beta - gamma * Rpower w gamma).
Lemma d_g w : 0 < w -> derivable_pt_lim g w (q w / w).
Proof.
  intros Hw. set (c := 2 * exp (- beta * ln (morsefreq gamma beta) + Rpower (morsefreq gamma beta) gamma)).
  apply (derivable_pt_lim_locally_ext (fun w => c * (Rpower w beta * exp (- Rpower w gamma))) g w 0 (w + 1)); [lra| |].
  - intros z Hz. symmetry. apply (f_pos gamma beta g Hg Hb Ef). lra.
  - replace (q w / w) with (c * ((beta * Rpower w (beta - 1)) * exp (- Rpower w gamma)
      + Rpower w beta * (exp (- Rpower w gamma) * - (gamma * Rpower w (gamma - 1))))).
    + apply (derivable_pt_lim_scal (fun w => Rpower w beta * exp (- Rpower w gamma))).
      apply (derivable_pt_lim_mult (fun w => Rpower w beta) (fun w => exp (- Rpower w gamma))); [apply derivable_pt_lim_power, Hw|].
      apply (derivable_pt_lim_comp (fun w => - Rpower w gamma) exp); [|apply derivable_pt_lim_exp].
      apply (derivable_pt_lim_opp (fun w => Rpower w gamma)). apply derivable_pt_lim_power, Hw.
    + unfold q. rewrite (f_pos gamma beta g Hg Hb Ef w Hw). fold c. unfold Rminus. rewrite !Rpower_plus, Rpower_Ropp, Rpower_1 by exact Hw.
      field. lra.
Qed.
Lemma d_q w : 0 < w -> derivable_pt_lim q w (gamma ^ 2 * g w / w * ((r - Rpower w gamma) ^ 2 - Rpower w gamma)).
Proof.
  intros Hw. replace (gamma ^ 2 * g w / w * _) with (q w / w * (beta - gamma * Rpower w gamma) + g w * (0 - gamma * (gamma * Rpower w (gamma - 1)))).
  - apply (derivable_pt_lim_mult g (fun w => beta - gamma * Rpower w gamma)); [apply d_g, Hw|].
    apply (derivable_pt_lim_minus (fct_cte beta) (fun w => gamma * Rpower w gamma)); [apply derivable_pt_lim_const|].
    apply (derivable_pt_lim_scal (fun w => Rpower w gamma)). apply derivable_pt_lim_power, Hw.
  - replace (Rpower w (gamma - 1)) with (Rpower w gamma * / w) by (unfold Rminus; now rewrite Rpower_plus, Rpower_Ropp, Rpower_1 by exact Hw).
    unfold q, r. field. lra.
Qed.

Let s := sqrt (r + 1 / 4).
Let um := r + 1 / 2 - s.
Let up := r + 1 / 2 + s.
Lemma r_pos : 0 < r. Proof. apply Rdiv_lt_0_compat; assumption. Qed.
Lemma s_sq : s * s = r + 1 / 4. Proof. apply sqrt_sqrt. pose proof r_pos. lra. Qed.
Lemma s_pos : 1 / 2 < s. Proof. pose proof r_pos. pose proof s_sq. pose proof (sqrt_pos (r + 1 / 4) : 0 <= s). nra. Qed.
Lemma um_pos : 0 < um < r. Proof. pose proof r_pos. pose proof s_sq. pose proof s_pos. unfold um. nra. Qed.
Lemma up_pos : r < up. Proof. pose proof s_pos. unfold up. lra. Qed.
Lemma roots u : (r - u) ^ 2 - u = (u - um) * (u - up).
Proof. pose proof s_sq. unfold um, up. nra. Qed.
Let wa := Rpower um (1 / gamma).
Let wb := Rpower up (1 / gamma).
Lemma root_pow u : 0 < u -> Rpower (Rpower u (1 / gamma)) gamma = u.
Proof. intros Hu. rewrite Rpower_mult. replace (1 / gamma * gamma) with 1 by (field; lra). apply Rpower_1, Hu. Qed.
Lemma pow_mono x y : 0 < x -> x <= y -> Rpower x gamma <= Rpower y gamma.
Proof. intros Hx Hxy. apply Rle_Rpower_l; lra. Qed.
Lemma q_val u : 0 < u -> q (Rpower u (1 / gamma)) = 2 * gamma * Rpower (u / r) r * exp (r - u) * (r - u).
Proof.
  intros Hu. unfold q. rewrite (root_pow u Hu). pose proof r_pos as Hr. rewrite (f_pos gamma beta g Hg Hb Ef) by apply exp_pos. rewrite (root_pow u Hu).
  rewrite (morsefreq_val gamma beta Hg Hb). fold r. rewrite (root_pow r Hr).
  replace (beta - gamma * u) with (gamma * (r - u)) by (unfold r; field; lra).
  replace (2 * exp (- beta * ln (Rpower r (1 / gamma)) + r) * (Rpower (Rpower u (1 / gamma)) beta * exp (- u))) with (2 * (Rpower (u / r) r * exp (r - u))); [ring|].
  rewrite Rpower_mult. replace (1 / gamma * beta) with r by (unfold r; field; lra).
  unfold Rpower at 2. unfold Rpower at 2. rewrite ln_exp. rewrite Rmult_assoc. f_equal.
  replace (Rpower (u / r) r) with (exp (r * ln u) * exp (- (r * ln r))).
  - rewrite <- !exp_plus. f_equal. unfold r. field. lra.
  - unfold Rpower. rewrite <- exp_plus. f_equal. unfold Rdiv. rewrite ln_mult, ln_Rinv by (try apply Rinv_0_lt_compat; assumption). ring.
Qed.
Lemma wab : 0 < wa /\ wa <= wb /\ Rpower wa gamma = um /\ Rpower wb gamma = up.
Proof.
  pose proof um_pos. pose proof up_pos. split; [apply exp_pos|]. split; [apply Rle_Rpower_l; [left; apply Rdiv_lt_0_compat; lra|lra]|].
  split; apply root_pow; lra.
Qed.

Lemma gmw_log_variation : exists V, log_variation g q V /\
  forall a b, 0 < a -> a <= b -> V b - V a <= gmw_variation gamma beta.
Proof.
  destruct wab as (A1 & A2 & A3 & A4). pose proof um_pos as Hum. pose proof up_pos as Hup. pose proof r_pos as Hr.
  assert (Pg : forall w, 0 < w -> 0 < g w) by (apply (gmw_l1_peaks gamma beta g Hg Hb Ef)).
  assert (MV : forall x y, 0 < x -> x < y -> exists c, x < c < y /\
    q y - q x = gamma ^ 2 * g c / c * ((Rpower c gamma - um) * (Rpower c gamma - up)) * (y - x)).
  { intros x y Hx Hxy. destruct (MVT_cor2 q (fun w => gamma ^ 2 * g w / w * ((r - Rpower w gamma) ^ 2 - Rpower w gamma)) x y Hxy) as (c & E & Hc).
    - intros c Hc. apply d_q. lra.
    - exists c. split; [exact Hc|]. now rewrite roots in E. }
  assert (PC : forall c, 0 < c -> 0 < gamma ^ 2 * g c / c).
  { intros c Hc. apply Rdiv_lt_0_compat; [|exact Hc]. apply Rmult_lt_0_compat; [nra|apply Pg, Hc]. }
  destruct (three_pieces q wa wb A1 A2) as (V & V1 & V2).
  - intros x y Hx [Hxy| ->] Hy; [|lra]. destruct (MV x y Hx Hxy) as (c & Hc & E).
    pose proof (pow_mono c wa ltac:(lra) ltac:(lra)) as M. rewrite A3 in M. pose proof (PC c ltac:(lra)) as Pc.
    assert (0 <= (Rpower c gamma - um) * (Rpower c gamma - up)) by nra.
    enough (0 <= q y - q x) by lra. rewrite E. apply Rmult_le_pos; [apply Rmult_le_pos|]; lra.
  - intros x y Hx [Hxy| ->] Hy; [|lra]. destruct (MV x y ltac:(lra) Hxy) as (c & Hc & E).
    pose proof (pow_mono wa c ltac:(lra) ltac:(lra)) as M1. pose proof (pow_mono c wb ltac:(lra) ltac:(lra)) as M2. rewrite A3 in M1. rewrite A4 in M2.
    pose proof (PC c ltac:(lra)) as Pc. assert ((Rpower c gamma - um) * (Rpower c gamma - up) <= 0) by nra.
    enough (q y - q x <= 0) by lra. rewrite E. set (k := gamma ^ 2 * g c / c) in *. set (m := _ * (_ - up)) in *.
    assert (k * m <= 0) by nra. nra.
  - intros x y Hx [Hxy| ->]; [|lra]. destruct (MV x y ltac:(lra) Hxy) as (c & Hc & E).
    pose proof (pow_mono wb c ltac:(lra) ltac:(lra)) as M. rewrite A4 in M. pose proof (PC c ltac:(lra)) as Pc.
    assert (0 <= (Rpower c gamma - um) * (Rpower c gamma - up)) by nra.
    enough (0 <= q y - q x) by lra. rewrite E. apply Rmult_le_pos; [apply Rmult_le_pos|]; lra.
  - intros x Hx. unfold q. pose proof (pow_mono x wa ltac:(lra) ltac:(lra)) as M. rewrite A3 in M. apply Rmult_le_pos; [left; apply Pg; lra|].
    assert (beta = gamma * r) by (unfold r; field; lra). nra.
  - intros x Hx. unfold q. pose proof (pow_mono wb x ltac:(lra) ltac:(lra)) as M. rewrite A4 in M.
    assert (beta = gamma * r) by (unfold r; field; lra). pose proof (Pg x ltac:(lra)).
    assert (beta - gamma * Rpower x gamma <= 0) by nra. nra.
  - exists V. split.
    + split; [exact d_g|exact V1].
    + intros a b Ha Hab. eapply Rle_trans; [apply V2; assumption|]. apply Req_le. unfold gmw_variation, gmw_lobe. fold r s um up.
      unfold wa, wb. rewrite !q_val by lra. rewrite (Rabs_right (r - um)) by lra. rewrite (Rabs_left (r - up)) by lra. ring.
Qed.

Theorem gmw_round_trip py inst a x st W sc dW st' xp n1 (f64 : bool) mn mx nv fds ds Css xl xm pt rp tau delta :
  0 < mn < mx -> (1 <= nv)%Z -> make_scales mn mx nv SLog fds ds = Ok sc -> (3 <= length sc)%nat ->
  uncached inst a st -> a_l1 a = true -> a_rpadded a = false ->
  cwt py inst (gmw_wave g) a x st = (Ok (W, sc, dW), st') -> pad_input (a_pad a) x = Ok (xp, n1) ->
  0 < Css -> 0 <= tau -> 0 <= delta ->
  (forall k, (0 < k < length xp)%nat -> dft (length xp) (fun m => RtoC (nth m xp 0)) k = C0 \/
     let lo := nth 0 sc 0 * bin_xi (length xp) k in let hi := nth (length sc - 1) sc 0 * bin_xi (length xp) k in
     (exists v, integral (fun w => g w / w) lo hi v /\ Rabs (v - Css) <= tau) /\ g lo <= delta /\ g hi <= delta) ->
  let d := ln 2 / IZR nv in
  exists y, icwt (gmw_wave g) Css W sc f64 None true true xl xm pt rp = Ok y /\ length y = length x /\
    Rsum (length x) (fun j => (nth j y 0 - nth j x 0 - (xm - avg xp)) ^ 2) <=
    ((d ^ 2 / 8 * gmw_variation gamma beta + d * delta + tau) / Css) ^ 2 * Rsum (length xp) (fun i => (nth i xp 0 - avg xp) ^ 2).
Proof.
  intros Hm Hnv Es Hl Hu Hl1 Hrp E Hp HC Ht Hd HH d.
  pose proof (library_voices mn mx nv fds ds sc Hm Hnv Es) as Hv. pose proof (log_scales_inferred f64 mn mx nv fds ds sc Hm Hnv Es Hl) as Hi.
  destruct gmw_primitive as (P & P1 & P2). destruct gmw_log_variation as (V & V1 & V2).
  assert (Pg : forall w, 0 < w -> 0 < g w) by (apply (gmw_l1_peaks gamma beta g Hg Hb Ef)).
  apply (icwt_cwt_close2 py inst (gmw_wave g) g q V P (gmw_variation gamma beta) a x st W sc dW st' xp n1 f64 nv Css xl xm pt rp tau delta);
    try assumption; [exact gmw_spectrum|intros w Hw; left; apply Pg, Hw|].
  intros k Hk. destruct (HH k Hk) as [Z0|((v & I1 & I2) & D)]; [left; exact Z0|right]. split; [|exact D].
  pose proof (bin_xi_pos (length xp) k Hk) as Hx. pose proof Hv as (Hv0 & Hv1 & _).
  set (lo := nth 0 sc 0 * bin_xi (length xp) k) in *. set (hi := nth (length sc - 1) sc 0 * bin_xi (length xp) k) in *.
  assert (Hlo : 0 < lo) by (apply Rmult_lt_0_compat; assumption).
  assert (Hlh : lo <= hi).
  { apply Rmult_le_compat_r; [lra|]. rewrite (voices_nth sc nv (length sc - 1) Hv) by lia.
    assert (0 <= INR (length sc - 1) * (ln 2 / IZR nv)) by (apply Rmult_le_pos; [apply pos_INR|left; apply Rdiv_lt_0_compat;
      [rewrite <- ln_1; apply ln_increasing; lra|apply IZR_lt; lia]]).
    pose proof (exp_ineq1_le (INR (length sc - 1) * (ln 2 / IZR nv))). nra. }
  rewrite (integral_unique _ _ _ _ _ (P2 lo hi Hlo Hlh) I1). exact I2.
Qed.

(** ** A band of frequencies: what lies below and above the scales *)
Lemma tail_low P a lo : log_primitive g P -> 0 < a -> a <= lo -> Rpower lo gamma <= r / 2 -> P lo - P a <= 2 / beta * g lo.
Proof.
  intros HP Ha Hal Hlo. assert (Pg : forall w, 0 < w -> 0 < g w) by (apply (gmw_l1_peaks gamma beta g Hg Hb Ef)).
  pose proof (grow (fun w => 2 / beta * g w - P w) (fun w => 2 / beta * (q w / w) - g w / w) a lo Hal) as G. cbv beta in G.
  assert (2 / beta * g a - P a <= 2 / beta * g lo - P lo) as Q.
  - apply G.
    + intros t Ht. apply (derivable_pt_lim_minus (fun w => 2 / beta * g w) P); [|apply HP; lra].
      apply (derivable_pt_lim_scal g). apply d_g. lra.
    + intros t Ht. pose proof (pow_mono t lo ltac:(lra) ltac:(lra)) as M. pose proof (Pg t ltac:(lra)). pose proof r_pos.
      replace (2 / beta * (q t / t) - g t / t) with (g t / t * (2 * (r / 2 - Rpower t gamma) / r)) by (unfold q, r; field; repeat split; lra).
      apply Rmult_le_pos; [left; apply Rdiv_lt_0_compat; lra|]. unfold Rdiv at 1. apply Rmult_le_pos; [lra|left; apply Rinv_0_lt_compat; lra].
  - assert (0 < 2 / beta * g a) by (apply Rmult_lt_0_compat; [apply Rdiv_lt_0_compat; lra|apply Pg, Ha]). lra.
Qed.
Lemma tail_high P hi b : log_primitive g P -> 0 < hi -> hi <= b -> 2 * r <= Rpower hi gamma -> P b - P hi <= 1 / beta * g hi.
Proof.
  intros HP Ha Hal Hlo. assert (Pg : forall w, 0 < w -> 0 < g w) by (apply (gmw_l1_peaks gamma beta g Hg Hb Ef)).
  pose proof (grow (fun w => - (1 / beta * g w) - P w) (fun w => - (1 / beta * (q w / w)) - g w / w) hi b Hal) as G. cbv beta in G.
  assert (- (1 / beta * g hi) - P hi <= - (1 / beta * g b) - P b) as Q.
  - apply G.
    + intros t Ht. apply (derivable_pt_lim_minus (fun w => - (1 / beta * g w)) P); [|apply HP; lra].
      apply (derivable_pt_lim_opp (fun w => 1 / beta * g w)). apply (derivable_pt_lim_scal g). apply d_g. lra.
    + intros t Ht. pose proof (pow_mono hi t ltac:(lra) ltac:(lra)) as M. pose proof (Pg t ltac:(lra)). pose proof r_pos.
      replace (- (1 / beta * (q t / t)) - g t / t) with (g t / t * ((Rpower t gamma - 2 * r) / r)) by (unfold q, r; field; repeat split; lra).
      apply Rmult_le_pos; [left; apply Rdiv_lt_0_compat; lra|]. unfold Rdiv at 1. apply Rmult_le_pos; [lra|left; apply Rinv_0_lt_compat; lra].
  - assert (0 < 1 / beta * g b) by (apply Rmult_lt_0_compat; [apply Rdiv_lt_0_compat; lra|apply Pg; lra]). lra.
Qed.

Lemma band_integral P C lo hi : log_primitive g P -> (forall a b, 0 < a -> a <= b -> integral (fun w => g w / w) a b (P b - P a)) ->
  impint (fun w => g w / w) C -> 0 < lo <= hi -> Rpower lo gamma <= r / 2 -> 2 * r <= Rpower hi gamma ->
  C - (2 * g lo + g hi) / beta <= P hi - P lo <= C.
Proof.
  intros HP HI HC Hlh Hlo Hhi. assert (Pg : forall w, 0 < w -> 0 < g w) by (apply (gmw_l1_peaks gamma beta g Hg Hb Ef)).
  assert (MP : forall a b, 0 < a -> a <= b -> P a <= P b).
  { intros a b Ha Hab. apply (grow P (fun w => g w / w)); [exact Hab|intros t Ht; apply HP; lra|].
    intros t Ht. left. apply Rdiv_lt_0_compat; [apply Pg|]; lra. }
  assert (K : forall eps, 0 < eps -> C - (2 * g lo + g hi) / beta - eps <= P hi - P lo <= C + eps).
  { intros eps He. destruct (HC eps He) as (A & B & HAB & Q).
    set (a := Rmin lo A / 2). set (b := Rmax hi B + 1).
    pose proof (Rmin_l lo A). pose proof (Rmin_r lo A). pose proof (Rmax_l hi B). pose proof (Rmax_r hi B).
    assert (0 < Rmin lo A) by (apply Rmin_glb_lt; lra). assert (0 < a < lo /\ a < A) by (unfold a; lra). assert (hi < b /\ B < b) by (unfold b; lra).
    destruct (Q a b) as (v & I & Hv); [lra|lra|]. rewrite <- (integral_unique _ _ _ _ _ (HI a b ltac:(lra) ltac:(lra)) I) in Hv.
    pose proof (tail_low P a lo HP ltac:(lra) ltac:(lra) Hlo) as T1. pose proof (tail_high P hi b HP ltac:(lra) ltac:(lra) Hhi) as T2.
    pose proof (MP a lo ltac:(lra) ltac:(lra)). pose proof (MP hi b ltac:(lra) ltac:(lra)). apply Rabs_def2 in Hv.
    replace ((2 * g lo + g hi) / beta) with (2 / beta * g lo + 1 / beta * g hi) by (field; lra). lra. }
  split; apply Rnot_lt_le; intros N.
  - specialize (K ((C - (2 * g lo + g hi) / beta - (P hi - P lo)) / 2) ltac:(lra)). lra.
  - specialize (K ((P hi - P lo - C) / 2) ltac:(lra)). lra.
Qed.

Lemma gmw_at w : 0 < w -> g w = 2 * Rpower (Rpower w gamma / r) r * exp (r - Rpower w gamma).
Proof.
  intros Hw. pose proof r_pos as Hr. rewrite (f_pos gamma beta g Hg Hb Ef w Hw). rewrite (morsefreq_val gamma beta Hg Hb). fold r. rewrite (root_pow r Hr).
  rewrite !Rmult_assoc. f_equal. unfold Rdiv at 2. unfold Rpower at 4.
  unfold Rpower at 1. rewrite ln_exp. rewrite ln_mult by (try apply Rinv_0_lt_compat; try apply exp_pos; assumption). rewrite ln_Rinv by assumption.
  unfold Rpower at 1. unfold Rpower at 2. rewrite ln_exp. rewrite <- !exp_plus. f_equal. unfold r. field. lra.
Qed.
(** the wavelet where the band ends *)
Lemma gmw_low w : 0 < w -> Rpower w gamma <= r / 2 -> g w <= 2 * Rpower (exp (1 / 2) / 2) r.
Proof.
  intros Hw Hu. pose proof r_pos as Hr. destruct gmw_unimodal as (_ & U & _).
  set (w1 := Rpower (r / 2) (1 / gamma)). assert (E1 : Rpower w1 gamma = r / 2) by (apply root_pow; lra).
  assert (Hi : 0 <= 1 / gamma) by (left; apply Rdiv_lt_0_compat; lra).
  assert (L : w <= w1).
  { apply Rnot_lt_le. intros N. assert (Rpower w1 gamma < Rpower w gamma); [|lra]. apply Rlt_Rpower_l; [exact Hg|]. split; [apply exp_pos|exact N]. }
  apply Rle_trans with (g w1).
  - apply U; [exact Hw|exact L|]. unfold w1. apply Rle_Rpower_l; [exact Hi|]. fold r. lra.
  - rewrite gmw_at by apply exp_pos. rewrite E1. apply Req_le. rewrite Rmult_assoc. f_equal.
    replace (r / 2 / r) with (/ 2) by (field; lra).
    change (exp (1 / 2) / 2) with (exp (1 / 2) * / 2). rewrite <- Rpower_mult_distr by (try apply exp_pos; lra).
    rewrite Rmult_comm. f_equal. unfold Rpower. rewrite ln_exp. f_equal. field.
Qed.
Lemma gmw_high w : 0 < w -> 2 * r <= Rpower w gamma -> g w <= 2 * Rpower (exp (1 / 2) / 2) r.
Proof.
  intros Hw Hu. pose proof r_pos as Hr. destruct gmw_unimodal as (_ & _ & D).
  set (w1 := Rpower (2 * r) (1 / gamma)). assert (E1 : Rpower w1 gamma = 2 * r) by (apply root_pow; lra).
  assert (Hi : 0 <= 1 / gamma) by (left; apply Rdiv_lt_0_compat; lra).
  assert (L : w1 <= w).
  { apply Rnot_lt_le. intros N. assert (Rpower w gamma < Rpower w1 gamma); [|lra]. apply Rlt_Rpower_l; [exact Hg|]. split; assumption. }
  apply Rle_trans with (g w1).
  - apply D; [apply exp_pos| |exact L]. unfold w1. apply Rle_Rpower_l; [exact Hi|]. fold r. lra.
  - rewrite gmw_at by apply exp_pos. rewrite E1. rewrite Rmult_assoc. apply Rmult_le_compat_l; [lra|].
    replace (2 * r / r) with 2 by (field; lra). replace (r - 2 * r) with (r * -1) by ring.
    replace (Rpower 2 r * exp (r * -1)) with (Rpower (2 / exp 1) r).
    + apply Rle_Rpower_l; [lra|]. pose proof (exp_pos 1) as E. split; [apply Rdiv_lt_0_compat; lra|].
      pose proof (exp_pos (1 / 2)) as E2. assert (E3 : exp 1 = exp (1 / 2) * exp (1 / 2)) by (rewrite <- exp_plus; f_equal; lra).
      assert (E4 : 8 / 5 <= exp (1 / 2)).
      { pose proof (exp_ineq1_le (1 / 8)) as X. replace (exp (1 / 2)) with (exp (1 / 8 + 1 / 8 + 1 / 8 + 1 / 8)) by (f_equal; field). rewrite !exp_plus.
        set (y := exp (1 / 8)) in *. assert (81 / 64 <= y * y) by nra. assert (81 / 64 * (81 / 64) <= (y * y) * (y * y)) by nra. nra. }
      apply Rmult_le_reg_r with (2 * exp 1); [lra|]. replace (2 / exp 1 * (2 * exp 1)) with 4 by (field; lra).
      rewrite E3. set (y := exp (1 / 2)) in *. replace (y / 2 * (2 * (y * y))) with (y * y * y) by field.
      assert (8 / 5 * (8 / 5) <= y * y) by nra. nra.
    + unfold Rdiv. rewrite <- Rpower_mult_distr by (try (apply Rinv_0_lt_compat, exp_pos); lra). f_equal. unfold Rpower. f_equal.
      rewrite ln_Rinv by apply exp_pos. rewrite ln_exp. ring.
Qed.

(** the whole bound in closed form *)
Theorem gmw_band_round_trip py inst a x st W sc dW st' xp n1 (f64 : bool) mn mx nv fds ds C Css xl xm pt rp tau :
  0 < mn < mx -> (1 <= nv)%Z -> make_scales mn mx nv SLog fds ds = Ok sc -> (3 <= length sc)%nat ->
  uncached inst a st -> a_l1 a = true -> a_rpadded a = false ->
  cwt py inst (gmw_wave g) a x st = (Ok (W, sc, dW), st') -> pad_input (a_pad a) x = Ok (xp, n1) ->
  impint (fun w => g w / w) C -> 0 < Css -> Rabs (C - Css) <= tau ->
  (forall k, (0 < k < length xp)%nat -> dft (length xp) (fun m => RtoC (nth m xp 0)) k = C0 \/
     (Rpower (nth 0 sc 0 * bin_xi (length xp) k) gamma <= beta / gamma / 2 /\
      2 * (beta / gamma) <= Rpower (nth (length sc - 1) sc 0 * bin_xi (length xp) k) gamma)) ->
  let d := ln 2 / IZR nv in let delta := 2 * Rpower (exp (1 / 2) / 2) (beta / gamma) in
  exists y, icwt (gmw_wave g) Css W sc f64 None true true xl xm pt rp = Ok y /\ length y = length x /\
    Rsum (length x) (fun j => (nth j y 0 - nth j x 0 - (xm - avg xp)) ^ 2) <=
    ((d ^ 2 / 8 * gmw_variation gamma beta + d * delta + (3 * delta / beta + tau)) / Css) ^ 2 * Rsum (length xp) (fun i => (nth i xp 0 - avg xp) ^ 2).
Proof.
  intros Hm Hnv Es Hl Hu Hl1 Hrp E Hp HC HCs Ht HH d delta. fold r in HH, delta.
  assert (Pd : 0 < delta) by (unfold delta; pose proof (exp_pos (r * ln (exp (1 / 2) / 2))) as X; fold (Rpower (exp (1 / 2) / 2) r) in X; lra).
  assert (Pt : 0 <= tau) by (pose proof (Rabs_pos (C - Css)); lra).
  assert (Pq : 0 < 3 * delta / beta) by (apply Rdiv_lt_0_compat; lra).
  destruct gmw_primitive as (P & P1 & P2).
  apply (gmw_round_trip py inst a x st W sc dW st' xp n1 f64 mn mx nv fds ds Css xl xm pt rp (3 * delta / beta + tau) delta); try assumption; try lra.
  intros k Hk. destruct (HH k Hk) as [Z0|(B1 & B2)]; [left; exact Z0|right].
  pose proof (bin_xi_pos (length xp) k Hk) as Hx. pose proof (library_voices mn mx nv fds ds sc Hm Hnv Es) as Hv. pose proof Hv as (Hv0 & Hv1 & _).
  set (lo := nth 0 sc 0 * bin_xi (length xp) k) in *. set (hi := nth (length sc - 1) sc 0 * bin_xi (length xp) k) in *.
  assert (Hlo : 0 < lo) by (apply Rmult_lt_0_compat; assumption).
  assert (Hlh : lo <= hi).
  { apply Rmult_le_compat_r; [lra|]. rewrite (voices_nth sc nv (length sc - 1) Hv) by lia.
    assert (0 <= INR (length sc - 1) * (ln 2 / IZR nv)) by (apply Rmult_le_pos; [apply pos_INR|left; apply Rdiv_lt_0_compat;
      [rewrite <- ln_1; apply ln_increasing; lra|apply IZR_lt; lia]]).
    pose proof (exp_ineq1_le (INR (length sc - 1) * (ln 2 / IZR nv))). nra. }
  pose proof (gmw_low lo Hlo B1) as G1. pose proof (gmw_high hi ltac:(lra) B2) as G2. fold delta in G1, G2.
  cbv zeta. split; [|split; assumption]. exists (P hi - P lo). split; [apply P2; assumption|].
  pose proof (band_integral P C lo hi P1 P2 HC (conj Hlo Hlh) B1 B2) as BI.
  assert ((2 * g lo + g hi) / beta <= 3 * delta / beta) by (apply Rmult_le_compat_r; [left; apply Rinv_0_lt_compat; exact Hb|lra]).
  replace (P hi - P lo - Css) with ((P hi - P lo - C) + (C - Css)) by ring. eapply Rle_trans; [apply Rabs_triang|].
  apply Rplus_le_compat; [|exact Ht]. apply Rabs_le. lra.
Qed.
End Gmw.
