(** C158: the wavelets' parameters and their relative bandwidth. *)
From Coq Require Import Reals Lra.
From Verif Require Import Py Cplx CplxProofs Freqs Scales Cwt Wavelets WaveletProofs WaveTrade.
Local Open Scope R_scope.

(** * C158: wavelet parameters trade frequency resolution as documented *)

(** relative to the peak, as a function of frequency / centre frequency: one function, to the power beta *)
Theorem C158_gmw_profile gamma beta f : 0 < gamma -> 0 < beta -> gmw_l1 gamma beta false = Ok f ->
  let wp := Rpower (beta / gamma) (1 / gamma) in
  forall r, 0 < r -> f (r * wp) / f wp = Rpower (r * exp ((1 - Rpower r gamma) / gamma)) beta.
Proof. exact (gmw_profile gamma beta f). Qed.
Print Assumptions C158_gmw_profile.

(** the L2 wavelet has the same *)
Theorem C158_gmw_profile_l2 Gamma gamma beta f : 0 < gamma -> 0 < beta -> 0 < Gamma ((2 * beta + 1) / gamma) -> gmw_l2 Gamma gamma beta false = Ok f ->
  let wp := Rpower (beta / gamma) (1 / gamma) in
  forall r, 0 < r -> f (r * wp) / f wp = Rpower (r * exp ((1 - Rpower r gamma) / gamma)) beta.
Proof. exact (gmw_profile_l2 Gamma gamma beta f). Qed.
Print Assumptions C158_gmw_profile_l2.

(** greater beta: less at every other frequency *)
Theorem C158_gmw_narrower gamma b1 b2 f1 f2 : 0 < gamma -> 0 < b1 -> b1 < b2 -> gmw_l1 gamma b1 false = Ok f1 -> gmw_l1 gamma b2 false = Ok f2 ->
  let w1 := Rpower (b1 / gamma) (1 / gamma) in let w2 := Rpower (b2 / gamma) (1 / gamma) in
  forall r, 0 < r -> r <> 1 -> f2 (r * w2) / f2 w2 < f1 (r * w1) / f1 w1.
Proof. exact (gmw_narrower gamma b1 b2 f1 f2). Qed.
Print Assumptions C158_gmw_narrower.

(** so the band above any fraction of the peak shrinks *)
Theorem C158_gmw_band gamma b1 b2 f1 f2 c : 0 < gamma -> 0 < b1 -> b1 < b2 -> gmw_l1 gamma b1 false = Ok f1 -> gmw_l1 gamma b2 false = Ok f2 ->
  let w1 := Rpower (b1 / gamma) (1 / gamma) in let w2 := Rpower (b2 / gamma) (1 / gamma) in
  forall r, 0 < r -> c * f2 w2 <= f2 (r * w2) -> c * f1 w1 <= f1 (r * w1).
Proof. exact (gmw_band gamma b1 b2 f1 f2 c). Qed.
Print Assumptions C158_gmw_band.

(** and separates any two frequencies in the end *)
Theorem C158_gmw_sharp gamma r c : 0 < gamma -> 0 < r -> r <> 1 -> 0 < c -> exists b0, 0 < b0 /\ forall beta f, b0 <= beta -> gmw_l1 gamma beta false = Ok f ->
  let wp := Rpower (beta / gamma) (1 / gamma) in f (r * wp) < c * f wp.
Proof. exact (gmw_sharp gamma r c). Qed.
Print Assumptions C158_gmw_sharp.

(** [morlet_gain]: its normalisation; mu of 6 or more: a Gaussian within 2e-8 *)
Theorem C158_morlet_gaussian mu w : 6 <= mu -> Rabs (morlet mu w / morlet_gain mu - exp (- (w - mu) ^ 2 / 2)) < 2 / 100000000.
Proof. exact (morlet_six mu w). Qed.
Print Assumptions C158_morlet_gaussian.

(** deviation 1 / mu relative to mu, for every mu *)
Theorem C158_morlet_profile mu r : 0 < mu ->
  exp (- mu ^ 2 * (r - 1) ^ 2 / 2) - exp (- mu ^ 2 / 2) <= morlet mu (r * mu) / morlet_gain mu <= exp (- mu ^ 2 * (r - 1) ^ 2 / 2) /\
  1 - exp (- mu ^ 2 / 2) <= morlet mu mu / morlet_gain mu <= 1.
Proof. exact (morlet_profile mu r). Qed.
Print Assumptions C158_morlet_profile.

(** greater mu: less at r mu, relative to mu, when r is not too near 1 *)
Theorem C158_morlet_narrower mu1 mu2 r : 0 < mu1 -> mu1 < mu2 -> 0 < r -> r <> 1 -> 2 * r <= (r - 1) ^ 2 * (exp (r * mu1 ^ 2) - 1) ->
  morlet mu2 (r * mu2) / morlet mu2 mu2 < morlet mu1 (r * mu1) / morlet mu1 mu1.
Proof. exact (morlet_narrower mu1 mu2 r). Qed.
Print Assumptions C158_morlet_narrower.

(** mu of 4 or more: a tenth away is enough *)
Theorem C158_morlet_recommended mu1 mu2 r : 4 <= mu1 -> mu1 < mu2 -> 1 / 2 <= r -> 1 / 10 <= Rabs (r - 1) ->
  morlet mu2 (r * mu2) / morlet mu2 mu2 < morlet mu1 (r * mu1) / morlet mu1 mu1.
Proof. exact (morlet_recommended mu1 mu2 r). Qed.
Print Assumptions C158_morlet_recommended.

(** width s *)
Theorem C158_bump_width mu s om u : 0 < s -> Cabs (bump mu s om (mu + s * u)) = Cabs (bump 0 1 0 u) / s.
Proof. exact (bump_width mu s om u). Qed.
Print Assumptions C158_bump_width.

(** width 1 / s *)
Theorem C158_cmhat_width mu s u : 0 < s -> cmhat mu s (mu + u / s) = sqrt s * cmhat 0 1 u.
Proof. exact (cmhat_width mu s u). Qed.
Print Assumptions C158_cmhat_width.

(** beta = 60 and 30, one octave up *)
Example C158_gmw_case : exists f g, gmw_l1 3 60 false = Ok f /\ gmw_l1 3 30 false = Ok g /\
  let w1 := Rpower (30 / 3) (1 / 3) in let w2 := Rpower (60 / 3) (1 / 3) in f (2 * w2) / f w2 < g (2 * w1) / g w1.
Proof. exact trade_case. Qed.

(** mu = 12 and 6, one octave up *)
Example C158_morlet_case : morlet 12 (2 * 12) / morlet 12 12 < morlet 6 (2 * 6) / morlet 6 6.
Proof. exact recommended_case. Qed.

(** the mu = 13.4 of the documentation *)
Example C158_gaussian_case : Rabs (morlet (67 / 5) 13 / morlet_gain (67 / 5) - exp (- (13 - 67 / 5) ^ 2 / 2)) < 2 / 100000000.
Proof. exact morlet_case. Qed.

(** s = 1/2; s = 4 *)
Example C158_width_case : Cabs (bump 5 (1 / 2) 0 (5 + 1 / 2 * (1 / 2))) = Cabs (bump 0 1 0 (1 / 2)) / (1 / 2) /\ cmhat 1 4 (1 + 2 / 4) = 2 * cmhat 0 1 2.
Proof. exact width_case. Qed.
