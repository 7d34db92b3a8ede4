(** C48, C49, C52, C55: searches, combinatorics, scale-to-frequency conversion, chirps. *)
From Coq Require Import Reals Lra.
From Verif Require Import Py Round Cplx Squeeze Scales Cwt Wavelets WaveletProofs Comb CombProofs Search SearchProofs
  Chirp ChirpProofs FreqScale FreqScaleProofs SearchGmw NumericThms.
Local Open Scope R_scope.

(** ** C48 *)
(** Needs [int(steps * step_size) >= 1]: both searches stop, for every function. *)
Theorem C48_terminates_partial f a minv value : (0 < n_steps a)%Z -> (0 < increment a)%Z ->
  (exists fuel r, find_maximum f a minv fuel = Some r) /\
  (exists fuel r, find_first_occurrence f value a fuel = Some r).
Proof. exact (fun Hs Hi => conj (find_maximum_stops a Hs f minv Hi) (first_stops_pos f value a Hs Hi)). Qed.
Print Assumptions C48_terminates_partial.

Example C48_terminates_case : (0 < n_steps default_args)%Z /\ (0 < increment default_args)%Z.
Proof. rewrite default_steps, default_increment. lia. Qed.

(** A result of [find_maximum] is attained at the returned input, exceeds [min_value], is at
    least every value sampled before the search stopped, more than every earlier one (so the
    first maximum), and more than the whole last search. *)
Theorem C48_maximum f a minv fuel x v : find_maximum f a minv fuel = Some (Ok (x, v)) ->
  let n := Z.to_nat (n_steps a) in
  let s i := sa_start a + INR i * (IZR (increment a) / IZR (n_steps a)) in
  exists K i0, (i0 < K * n)%nat /\ x = s i0 /\ v = f x /\ minv < v /\
    (forall i, (i < (K + 1) * n)%nat -> f (s i) <= v) /\
    (forall i, (i < i0)%nat -> f (s i) < v) /\
    (forall i, (K * n <= i < (K + 1) * n)%nat -> f (s i) < v).
Proof. exact (find_maximum_result f a minv fuel x v). Qed.
Print Assumptions C48_maximum.

(** A function that rises strictly up to [p] and falls strictly after it: the search succeeds
    and the returned input is within one step of [p]. *)
Theorem C48_unimodal f a minv p : (0 < n_steps a)%Z -> (0 < increment a)%Z ->
  (forall x y, sa_start a <= x -> x < y -> y <= p -> f x < f y) ->
  (forall x y, p <= x -> x < y -> f y < f x) -> sa_start a <= p ->
  (forall x, sa_start a <= x -> minv < f x) -> p + 2 * IZR (increment a) <= sa_limit a ->
  exists fuel x, find_maximum f a minv fuel = Some (Ok (x, f x)) /\
    Rabs (x - p) < IZR (increment a) / IZR (n_steps a).
Proof. exact (find_maximum_unimodal f a minv p). Qed.
Print Assumptions C48_unimodal.

(** With the default parameters the GMW's centre frequency is found to 1e-3. *)
Theorem C48_gmw gamma beta f : 0 < gamma -> 0 < beta -> gmw_l1 gamma beta false = Ok f ->
  let wp := Rpower (beta / gamma) (1 / gamma) in wp <= 980 ->
  exists fuel x, find_maximum (fun w => Rabs (f w)) default_args (-1) fuel = Some (Ok (x, Rabs (f x))) /\
    Rabs (x - wp) < 1 / 1000.
Proof. exact (gmw_find_maximum gamma beta f). Qed.
Print Assumptions C48_gmw.

Example C48_gmw_case : Rpower (60 / 3) (1 / 3) <= 980.
Proof.
  replace (60 / 3) with 20 by field.
  apply Rle_trans with (Rpower 20 1); [|rewrite Rpower_1; lra]. apply Rle_Rpower; lra.
Qed.

(** A result of [find_first_occurrence] is attained at the returned input; it is the closest to
    [value] in its search (the first such), within the largest jump [m] between neighbours
    there; every sample of every earlier search is further from [value] than that search's
    largest jump. *)
Theorem C48_first_occurrence f value a fuel x v : find_first_occurrence f value a fuel = Some (Ok (x, v)) ->
  let n := Z.to_nat (n_steps a) in
  let s i := sa_start a + INR i * (IZR (increment a) / IZR (n_steps a)) in
  let jump (y : nat -> R) m := (exists i, (S i < n)%nat /\ m = Rabs (y (S i) - y i)) /\
                               (forall i, (S i < n)%nat -> Rabs (y (S i) - y i) <= m) in
  exists K (u : nat -> R) j,
    ((forall i, u i = s (K * n + i)%nat) \/ (forall i, u i = Rmin (s (K * n + i)%nat) (sa_limit a))) /\
    (j < n)%nat /\ x = u j /\ v = f x /\
    (exists m, jump (fun i => f (u i)) m /\ Rabs (v - value) <= m) /\
    (forall i, (i < n)%nat -> Rabs (v - value) <= Rabs (f (u i) - value)) /\
    (forall i, (i < j)%nat -> Rabs (v - value) < Rabs (f (u i) - value)) /\
    (forall k, (k < K)%nat -> (forall i, (i < n)%nat -> s (k * n + i)%nat <= sa_limit a) /\
       exists m, jump (fun i => f (s (k * n + i)%nat)) m /\
         forall i, (i < n)%nat -> m < Rabs (f (s (k * n + i)%nat) - value)).
Proof. exact (find_first_result f value a fuel x v). Qed.
Print Assumptions C48_first_occurrence.

(** Finding: a step size for which [int(steps * step_size)] is 0 (here half the 1e-4 it takes)
    makes both loops run forever, whatever the function. *)
Theorem C48_hangs_refuted : exists a, (0 < n_steps a)%Z /\ 0 < sa_size a /\ sa_start a < sa_limit a /\
  forall f minv value, minv <= f (sa_start a) -> f (sa_start a) <> value ->
  forall fuel, find_maximum f a minv fuel = None /\ find_first_occurrence f value a fuel = None.
Proof. exact search_hangs. Qed.
Print Assumptions C48_hangs_refuted.

(** ** C49 *)
Theorem C49_nCk n k : (k <= n)%nat ->
  nCk (Z.of_nat n) (Z.of_nat k) = INR (fact n) / (INR (fact k) * INR (fact (n - k))).
Proof. exact (nCk_fact n k). Qed.
Print Assumptions C49_nCk.

Theorem C49_nCk_pascal n k : (S k <= n)%nat ->
  nCk (Z.of_nat (S n)) (Z.of_nat (S k)) = nCk (Z.of_nat n) (Z.of_nat k) + nCk (Z.of_nat n) (Z.of_nat (S k)).
Proof. exact (nCk_pascal n k). Qed.
Print Assumptions C49_nCk_pascal.

Example C49_nCk_case : nCk 6 2 = 15.
Proof. exact nCk_case. Qed.

(** The cumulants [K] satisfy the moment recursion
    [m n = sum_{i < n} C(n-1, i) K (i+1) m (n-1-i)], and [K 0 = ln (m 0)]. *)
Theorem C49_cumulants (m K : list R) : moments_to_cumulants m = Ok K -> nth 0 m 0 <> 0 ->
  length K = length m /\ nth 0 K 0 = ln (nth 0 m 0) /\
  forall n, (0 < n < length m)%nat -> nth n m 0 =
    Rsum n (fun i => nCk (Z.of_nat (n - 1)) (Z.of_nat i) * nth (S i) K 0 * nth (n - S i) m 0).
Proof. exact (cumulants_nCk m K). Qed.
Print Assumptions C49_cumulants.

(** ... and are the only ones that do. *)
Theorem C49_cumulants_unique (m K : list R) : moments_to_cumulants m = Ok K -> nth 0 m 0 <> 0 ->
  forall K', length K' = length m -> nth 0 K' 0 = ln (nth 0 m 0) ->
  (forall n, (0 < n < length m)%nat -> nth n m 0 =
    Rsum n (fun i => nCk (Z.of_nat (n - 1)) (Z.of_nat i) * nth (S i) K' 0 * nth (n - S i) m 0)) -> K' = K.
Proof. exact (cumulants_only m K). Qed.
Print Assumptions C49_cumulants_unique.

Example C49_cumulants_case : exists K, moments_to_cumulants [1; 2; 5] = Ok K /\ K = [0; 2; 1].
Proof. exact cumulants_case. Qed.

(** ** C52 *)
(** Two or more scales, and two or more samples after padding: no assertion fails and every
    frequency is in (0, fs/2], whatever the wavelet. *)
Theorem C52_range_partial f scales N fs b : (2 <= length scales)%nat ->
  (2 <= N)%nat \/ (b = false /\ (1 <= N)%nat) -> 0 < fs ->
  exists freqs, scale_to_freq f scales N fs b = Ok freqs /\ length freqs = length scales /\
    forall i, (i < length scales)%nat -> 0 < nth i freqs 0 <= fs / 2.
Proof. exact (scale_to_freq_range f scales N fs b). Qed.
Print Assumptions C52_range_partial.

(** A row whose first maximum [k] is a positive frequency gets that frequency. *)
Theorem C52_peak f scales N fs b i k : (2 <= length scales)%nat ->
  (2 <= N)%nat \/ (b = false /\ (1 <= N)%nat) -> (i < length scales)%nat ->
  let n := padded_len N b in
  first_peak (el (wavelet_call f scales n true) i) n k -> (1 <= k <= n / 2)%nat ->
  exists freqs, scale_to_freq f scales N fs b = Ok freqs /\ nth i freqs 0 = INR k / INR n * fs.
Proof. exact (fun Hs HN => scale_to_freq_peak f scales N fs b Hs HN i k). Qed.
Print Assumptions C52_peak.

(** For the GMW the result is the peak frequency [wp / (2 pi scale)] to within one DFT bin,
    wherever that is below Nyquist. *)
Theorem C52_gmw gamma beta f : 0 < gamma -> 0 < beta -> gmw_l1 gamma beta false = Ok f ->
  let wp := Rpower (beta / gamma) (1 / gamma) in
  forall scales N fs b i, (2 <= length scales)%nat ->
  (2 <= N)%nat \/ (b = false /\ (1 <= N)%nat) -> (i < length scales)%nat -> 0 < fs -> 0 < nth i scales 0 ->
  let n := padded_len N b in
  wp <= nth i scales 0 * (2 * PI) * (INR (n / 2) / INR n) ->
  exists freqs, scale_to_freq (WF (fun w => RtoC (f w)) false GmwL1) scales N fs b = Ok freqs /\
    Rabs (nth i freqs 0 - fs * wp / (2 * PI * nth i scales 0)) < fs / INR n.
Proof. exact (gmw_scale_to_freq gamma beta f). Qed.
Print Assumptions C52_gmw.

Example C52_gmw_case : (2 <= length [2; 4])%nat /\ Rpower (60 / 3) (1 / 3) <= nth 1 [2; 4] 0 * (2 * PI) * (INR (16 / 2) / INR 16).
Proof. exact gmw_freq_case. Qed.

(** Finding: a single scale always raises TypeError, although the code has a branch for it. *)
Theorem C52_single_scale_refuted : exists f s N fs, (2 <= N)%nat /\ 0 < fs /\ 0 < s /\
  forall b, scale_to_freq f [s] N fs b = Err TypeError.
Proof. exact single_scale_case. Qed.
Print Assumptions C52_single_scale_refuted.

(** Finding: one sample without padding trips the assertion. *)
Theorem C52_one_sample_refuted : exists f scales fs, 0 < fs /\
  scale_to_freq f scales 1 fs true = Err AssertionError.
Proof. exact one_sample_case. Qed.
Print Assumptions C52_one_sample_refuted.

(** ** C55 *)
(** [sweeps c]: phase 0 at [tmin]; angular frequency [2 pi fmin] at [tmin], [2 pi fmax] at
    [tmax], strictly increasing in between, and the derivative of the phase. *)
Theorem C55_lchirp tmin tmax fmin fmax : tmin < tmax -> fmin < fmax ->
  sweeps (lchirp tmin tmax fmin fmax) tmin tmax fmin fmax.
Proof. exact (lchirp_sweeps tmin tmax fmin fmax). Qed.
Print Assumptions C55_lchirp.

Theorem C55_echirp_pc tmin tmax fmin fmax : tmin < tmax -> fmin < fmax ->
  sweeps (echirp_pc tmin tmax fmin fmax) tmin tmax fmin fmax.
Proof. exact (echirp_pc_sweeps tmin tmax fmin fmax). Qed.
Print Assumptions C55_echirp_pc.

Theorem C55_hchirp tmin tmax fmin fmax : tmin < tmax -> fmin < fmax -> 0 < fmin ->
  sweeps (hchirp tmin tmax fmin fmax) tmin tmax fmin fmax.
Proof. exact (hchirp_sweeps tmin tmax fmin fmax). Qed.
Print Assumptions C55_hchirp.

Theorem C55_echirp_partial tmin tmax fmin fmax : tmin < tmax -> fmin < fmax -> 0 < fmin -> tmax <> 0 ->
  exists c, echirp tmin tmax fmin fmax = Ok c /\ sweeps c tmin tmax fmin fmax.
Proof. exact (echirp_sweeps tmin tmax fmin fmax). Qed.
Print Assumptions C55_echirp_partial.

Example C55_case : sweeps (hchirp 0 1 1 4) 0 1 1 4 /\ exists c, echirp 0 1 1 4 = Ok c.
Proof.
  split; [apply C55_hchirp; lra|]. destruct (C55_echirp_partial 0 1 1 4) as (c & E & _); try lra. eauto.
Qed.

(** Finding: a time axis ending at 0 makes [echirp] divide by zero. *)
Theorem C55_echirp_refuted : exists tmin tmax fmin fmax, tmin < tmax /\ 0 < fmin < fmax /\
  echirp tmin tmax fmin fmax = Err ZeroDivisionError.
Proof. exact echirp_zero_case. Qed.
Print Assumptions C55_echirp_refuted.
