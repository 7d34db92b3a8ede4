(** C159: changing the sign of every other sample turns [stft] and [ssq_stft] upside down. *)
From Coq Require Import Reals Lra ZifyBool ZifyNat.
From Verif Require Import Py Round Parallel Cplx CplxProofs Padding PaddingProofs Buffer BufferProofs Freqs Stft StftProofs Squeeze SqueezeProofs BinProofs
  SqueezeThms SqueezeThms2 SqueezeThms3 Scales Ssqueeze SsqueezeProofs FreqRange Cwt CwtProofs CwtThms Transport RateThms SymmThms SymmInst StftTone StftToneThms StftToneWitness
  CwtTone StftMap StftMap2 StftMap3 StftMapWit StftMapCase StftFlip StftFlip2 StftFlipWit.
Import Stft.
Local Open Scope R_scope.

(** * C159: alternating the signs of the samples mirrors the rows *)

(** [alternate]: (-1)^i times each sample; [col_sign]: plus or minus one; row n/2 - k has the conjugate of row k, for Sx and dSx *)
Theorem C159_stft x x' a n w : usable x a n w -> Nat.even n = true -> alternate x x' ->
  exists Sx dSx Sx' dSx', stft x a = Ok (Sx, dSx) /\ stft x' a = Ok (Sx', dSx') /\ nrows Sx = (n / 2 + 1)%nat /\ nrows Sx' = nrows Sx /\ ncols Sx' = ncols Sx /\
  forall k h, (k <= n / 2)%nat -> (h < ncols Sx)%nat -> frame_ok a n x h ->
    el Sx' (n / 2 - k)%nat h = Cmul (RtoC (col_sign a n h)) (Cconj (el Sx k h)) /\ el dSx' (n / 2 - k)%nat h = Cmul (RtoC (col_sign a n h)) (Cconj (el dSx k h)).
Proof. exact (stft_flip x x' a n w). Qed.
Print Assumptions C159_stft.

(** [in_band]: the frequency of the cell, before abs, lies between 0 and half the rate; found frequency f becomes rate/2 - f *)
Theorem C159_phase x x' a n w rate g : usable x a n w -> (2 <= n)%nat -> Nat.even n = true -> alternate x x' ->
  exists Sx dSx Sx' dSx', stft x (rated a rate) = Ok (Sx, dSx) /\ stft x' (rated a rate) = Ok (Sx', dSx') /\
  let Sfs := make_Sfs (n / 2 + 1) rate in
  forall k h, (k <= n / 2)%nat -> (h < ncols Sx)%nat -> frame_ok a n x h -> in_band rate (nth k Sfs 0) (el Sx k h) (el dSx k h) ->
    el (phase_stft Sfs g Sx' dSx') (n / 2 - k)%nat h = match el (phase_stft Sfs g Sx dSx) k h with Fin r => Fin (rate / 2 - r) | Inf => Inf end.
Proof. exact (phase_flip x x' a n w rate g). Qed.
Print Assumptions C159_phase.

(** [clear_column]: the cells above gamma are in band and off the ties between rows *)
Theorem C159_ssq_stft ord x x' a n w fs t s rate Tx Sx f Sfs : valid_order ord -> s_sq s = SqSum -> s_freqs s = None -> usable x a n w ->
  (2 <= n)%nat -> Nat.even n = true -> (Z.of_nat n < 2 ^ 62)%Z -> alternate x x' ->
  process_fs_and_t fs t (length x) = Ok rate -> EPS64 <= rate / INR n -> ssq_stft ord x a fs t s = Ok (Tx, Sx, f, Sfs) ->
  exists Tx' Sx' dSx, stft x (rated a rate) = Ok (Sx, dSx) /\ ssq_stft ord x' a fs t s = Ok (Tx', Sx', f, Sfs) /\ nrows Tx = (n / 2 + 1)%nat /\ nrows Tx' = nrows Tx /\ ncols Tx' = ncols Tx /\
    forall h, (h < ncols Tx)%nat -> frame_ok a n x h -> clear_column rate n (the_gamma a s) Sx dSx h ->
    forall q, (q <= n / 2)%nat -> el Tx' (n / 2 - q)%nat h = Cmul (RtoC (col_sign a n h)) (Cconj (el Tx q h)).
Proof. exact (ssq_stft_flip ord x x' a n w fs t s rate Tx Sx f Sfs). Qed.
Print Assumptions C159_ssq_stft.

(** a tone in row 2 of 8: row 6 after alternation *)
Example C159_case ord gw : valid_order ord -> exists Tx' Sx' f,
  ssq_stft ord x32' a16 (Some 2) None (s8 gw) = Ok (Tx', Sx', f, make_Sfs 9 2) /\ nth 6 f 0 = 3 / 4 /\
  forall h q, (8 <= h <= 24)%nat -> (q <= 8)%nat -> el Tx' (8 - q)%nat h = if (q =? 2)%nat then Cmul (RtoC (sg (Z.of_nat h))) (Cconj (cis (PI * INR h / 4))) else C0.
Proof. exact (flip_case ord gw). Qed.
