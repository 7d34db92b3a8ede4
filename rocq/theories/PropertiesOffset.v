(** A constant added to the signal shows in the lowest rows of stft and ssq_stft only. *)
From Coq Require Import Reals List.
Import ListNotations.
From Verif Require Import Py Round Parallel Cplx CplxProofs Padding PaddingProofs Buffer BufferProofs Freqs Stft StftProofs Squeeze SqueezeProofs BinProofs SqueezeThms SqueezeThms2 SqueezeThms3 Scales Ssqueeze SsqueezeProofs FreqRange Cwt CwtProofs CwtThms StftTone StftMap StftMap2 StftChord StftToneWitness StftChordThms
  StftRidge NoiseRidge NoiseRidgeWit NoiseSsq NoiseSsqWit NoiseCompWit Offset OffsetWit OffsetSsq OffsetSsqWit.
Import Stft.
Local Open Scope R_scope.

(** * C169: an offset shows only in the lowest rows of stft and ssq_stft *)

(** each row of Sx rises by the offset times one coefficient of the window, the same in every column; dSx likewise with the derivative window *)
Theorem C169_rows c x a n w : usable x a n w -> a_modulated a = true -> exists X dX Y dY,
  stft x a = Ok (X, dX) /\ stft (raised c x) a = Ok (Y, dY) /\ nrows Y = nrows X /\ ncols Y = ncols X /\ nrows dY = nrows dX /\ ncols dY = ncols dX /\
  forall k h, (h < ncols X)%nat -> sees x a n h ->
    el Y k h = Cadd (el X k h) (Cmul (RtoC c) (wspec n w (Z.of_nat k))) /\
    el dY k h = Cadd (el dX k h) (Cmul (RtoC (c * a_fs a)) (wspec n (diff_window w) (Z.of_nat k))).
Proof. exact (stft_offset c x a n w). Qed.
Print Assumptions C169_rows.

(** rows beyond the bandwidth of the window are the same, in Sx and dSx *)
Theorem C169_unchanged c x a n w b : usable x a n w -> a_modulated a = true -> narrow n w b -> exists X dX Y dY,
  stft x a = Ok (X, dX) /\ stft (raised c x) a = Ok (Y, dY) /\ nrows Y = nrows X /\ ncols Y = ncols X /\
  forall k h, (b < k < n - b)%nat -> (h < ncols X)%nat -> sees x a n h -> el Y k h = el X k h /\ el dY k h = el dX k h.
Proof. exact (stft_offset_rows c x a n w b). Qed.
Print Assumptions C169_unchanged.

(** Hann window: row 0 rises by c*n/2, row 1 by c*n/4, the others stay *)
Theorem C169_hann c x a n : usable x a n (hann n) -> a_modulated a = true -> (4 <= n)%nat -> Nat.even n = true -> exists X dX Y dY,
  stft x a = Ok (X, dX) /\ stft (raised c x) a = Ok (Y, dY) /\ nrows Y = nrows X /\ ncols Y = ncols X /\
  forall h, (h < ncols X)%nat -> sees x a n h ->
    el Y 0 h = Cadd (el X 0 h) (RtoC (c * INR n / 2)) /\ el dY 0 h = el dX 0 h /\
    el Y 1 h = Cadd (el X 1 h) (RtoC (c * INR n / 4)) /\ el dY 1 h = Cadd (el dX 1 h) (0, PI / 2 * c * a_fs a) /\
    forall k, (2 <= k <= n / 2)%nat -> el Y k h = el X k h /\ el dY k h = el dX k h.
Proof. exact (hann_offset c x a n). Qed.
Print Assumptions C169_hann.

(** 20 samples, reflect padding, n_fft 8, hop 2, raised by 3 *)
Example C169_hann_case : let a := SA 1 (WArray (hann 8)) (Some 8%Z) None 2 true PReflect false in exists X dX Y dY,
  stft blip a = Ok (X, dX) /\ stft (raised 3 blip) a = Ok (Y, dY) /\ ncols X = 10%nat /\
  forall h, (h < 10)%nat -> el Y 0 h = Cadd (el X 0 h) (RtoC 12) /\ forall k, (2 <= k <= 4)%nat -> el Y k h = el X k h.
Proof. exact offset_case. Qed.

(** two signals whose transforms agree in some rows: Tx differs by at most what the other rows hold *)
Theorem C169_agree ord x y a fs t s rate Tx X dX Y dY f Sfs : valid_order ord -> s_sq s = SqSum -> length y = length x ->
  ssq_stft ord x a fs t s = Ok (Tx, X, f, Sfs) -> process_fs_and_t fs t (length x) = Ok rate ->
  stft x (rated a rate) = Ok (X, dX) -> stft y (rated a rate) = Ok (Y, dY) -> nrows Y = nrows X -> ncols Y = ncols X ->
  exists Ty, ssq_stft ord y a fs t s = Ok (Ty, Y, f, Sfs) /\ nrows Ty = nrows Tx /\ ncols Ty = ncols Tx /\ nrows Tx = nrows X /\ ncols Tx = ncols X /\
  forall h (same : nat -> bool), (h < ncols Tx)%nat -> (forall k, (k < nrows X)%nat -> same k = true -> el Y k h = el X k h /\ el dY k h = el dX k h) ->
    Rsum (nrows Tx) (fun q => Cabs (Csub (el Ty q h) (el Tx q h))) <=
    Rabs (first_gap (match s_freqs s with Some v => v | None => Sfs end)) * Rsum (nrows X) (fun k => if same k then 0 else Cabs (el X k h) + Cabs (el Y k h)).
Proof. exact (rows_agree ord x y a fs t s rate Tx X dX Y dY f Sfs). Qed.
Print Assumptions C169_agree.

(** ssq_stft: the sum over a column of the changes of Tx is at most the bin width times what rows 0..b hold before and after *)
Theorem C169_ssq ord c x a fs t s rate n w b Tx X f Sfs : valid_order ord -> s_sq s = SqSum -> usable x a n w -> a_modulated a = true -> narrow n w b -> (2 * b < n)%nat ->
  ssq_stft ord x a fs t s = Ok (Tx, X, f, Sfs) -> process_fs_and_t fs t (length x) = Ok rate ->
  exists Ty Y, ssq_stft ord (raised c x) a fs t s = Ok (Ty, Y, f, Sfs) /\ nrows Ty = nrows Tx /\ ncols Ty = ncols Tx /\
  forall h, (h < ncols Tx)%nat -> sees x a n h ->
    (forall k, (b < k < nrows X)%nat -> el Y k h = el X k h) /\
    Rsum (nrows Tx) (fun q => Cabs (Csub (el Ty q h) (el Tx q h))) <=
    Rabs (first_gap (match s_freqs s with Some v => v | None => Sfs end)) * Rsum (b + 1) (fun k => Cabs (el X k h) + Cabs (el Y k h)).
Proof. exact (ssq_offset ord c x a fs t s rate n w b Tx X f Sfs). Qed.
Print Assumptions C169_ssq.

(** a noisy pair of tones, n_fft 24, raised by 3 *)
Example C169_ssq_case ord gw : valid_order ord -> let a := SA 1 (WArray (hann 24)) (Some 24%Z) None 1 true PWrap false in
  let s := SS None SqSum (Some (1 / 100)) false gw true in exists Tx X Ty Y f,
  ssq_stft ord shaken a (Some 24) None s = Ok (Tx, X, f, make_Sfs 13 24) /\ ssq_stft ord (raised 3 shaken) a (Some 24) None s = Ok (Ty, Y, f, make_Sfs 13 24) /\ ncols Tx = 48%nat /\
  forall h, (h < 48)%nat -> (forall k, (2 <= k < nrows X)%nat -> el Y k h = el X k h) /\
    Rsum (nrows Tx) (fun q => Cabs (Csub (el Ty q h) (el Tx q h))) <= Cabs (el X 0 h) + Cabs (el Y 0 h) + (Cabs (el X 1 h) + Cabs (el Y 1 h)).
Proof. exact (ssq_offset_case ord gw). Qed.
