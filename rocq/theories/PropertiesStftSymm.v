(** Symmetries and energy of [stft] and [ssq_stft]. *)
From Coq Require Import Reals Lra ZifyBool ZifyNat.
From Verif Require Import Py Round Parallel Cplx CplxProofs Padding PaddingProofs Buffer BufferProofs Freqs Stft StftProofs Squeeze SqueezeProofs BinProofs
  SqueezeThms SqueezeThms2 SqueezeThms3 Scales Ssqueeze SsqueezeProofs FreqRange Cwt CwtProofs CwtThms Transport RateThms SymmThms SymmInst StftTone StftToneThms StftToneWitness
  CwtTone StftMap StftEnergy StftMap2 StftMap3 StftMirror StftMapWit StftMapCase.
Import Stft.
Local Open Scope R_scope.

(** * C129: stft is linear, and ssq_stft scales with the signal *)

(** [Sx] and [dSx], any padding *)
Theorem C129_linear x y a n w al be : usable x a n w -> length y = length x ->
  exists X dX Y dY Z dZ, stft x a = Ok (X, dX) /\ stft y a = Ok (Y, dY) /\ stft (lin al be x y) a = Ok (Z, dZ) /\
    combines al be X Y Z /\ combines al be dX dY dZ.
Proof. exact (stft_linear x y a n w al be). Qed.
Print Assumptions C129_linear.

(** the threshold [gamma] scaled along *)
Theorem C129_scale ord x a n w fs t s al Tx Sx f Sfs : valid_order ord -> s_sq s = SqSum /\ al <> 0 \/ s_sq s = SqAbs /\ 0 < al -> usable x a n w ->
  ssq_stft ord x a fs t s = Ok (Tx, Sx, f, Sfs) ->
  exists Tx' Sx', ssq_stft ord (map (Rmult al) x) a fs t (loosened al a s) = Ok (Tx', Sx', f, Sfs) /\
    nrows Tx' = nrows Tx /\ ncols Tx' = ncols Tx /\
    forall q h, (q < nrows Tx)%nat -> (h < ncols Tx)%nat ->
      el Tx' q h = Cmul (RtoC al) (el Tx q h) /\ el Sx' q h = Cmul (RtoC al) (el Sx q h).
Proof. exact (ssq_stft_scale ord x a n w fs t s al Tx Sx f Sfs). Qed.
Print Assumptions C129_scale.

Example C129_case ord gw : valid_order ord -> exists Tx Sx f,
  ssq_stft ord (map (Rmult (-3)) x16) a8 (Some 2) None (loosened (-3) a8 (s8 gw)) = Ok (Tx, Sx, f, make_Sfs 5 2) /\
  forall h, (4 <= h <= 12)%nat -> el Tx 2%nat h = Cmul (RtoC (-3)) (cis (PI * INR h / 2)).
Proof. exact (scale_case ord gw). Qed.

(** * C130: a column depends on the samples under its window only *)

Theorem C130_stft x x' a n w Sx dSx Sx' dSx' : usable x a n w -> usable x' a n w ->
  stft x a = Ok (Sx, dSx) -> stft x' a = Ok (Sx', dSx') ->
  forall h h', (h < ncols Sx)%nat -> (h' < ncols Sx')%nat -> same_frame n (Z.to_nat (a_hop a)) x x' h h' ->
  forall k, el Sx' k h' = el Sx k h /\ el dSx' k h' = el dSx k h.
Proof. exact (stft_local x x' a n w Sx dSx Sx' dSx'). Qed.
Print Assumptions C130_stft.

(** also between signals of different lengths *)
Theorem C130_ssq ord x x' a n w fs t t' s rate Tx Sx f Sfs : valid_order ord -> (forall g, s_sq s <> SqFun g) -> usable x a n w -> usable x' a n w ->
  process_fs_and_t fs t (length x) = Ok rate -> process_fs_and_t fs t' (length x') = Ok rate ->
  ssq_stft ord x a fs t s = Ok (Tx, Sx, f, Sfs) ->
  exists Tx' Sx', ssq_stft ord x' a fs t' s = Ok (Tx', Sx', f, Sfs) /\ nrows Tx' = nrows Tx /\
    forall h h', (h < ncols Tx)%nat -> (h' < ncols Tx')%nat -> same_frame n (Z.to_nat (a_hop a)) x x' h h' ->
    forall q, (q < nrows Tx)%nat -> el Tx' q h' = el Tx q h /\ el Sx' q h' = el Sx q h.
Proof. exact (ssq_stft_local ord x x' a n w fs t t' s rate Tx Sx f Sfs). Qed.
Print Assumptions C130_ssq.

(** so dropping whole hops from the front moves the columns *)
Theorem C130_shift ord x a n w fs s sk rate Tx Sx f Sfs : valid_order ord -> (forall g, s_sq s <> SqFun g) -> usable x a n w -> usable (skipn (Z.to_nat (a_hop a) * sk) x) a n w ->
  process_fs_and_t fs None (length x) = Ok rate -> ssq_stft ord x a fs None s = Ok (Tx, Sx, f, Sfs) ->
  exists Tx' Sx', ssq_stft ord (skipn (Z.to_nat (a_hop a) * sk) x) a fs None s = Ok (Tx', Sx', f, Sfs) /\ nrows Tx' = nrows Tx /\
    forall h, (h + sk < ncols Tx)%nat -> (h < ncols Tx')%nat ->
      (n / 2 <= Z.to_nat (a_hop a) * h)%nat -> (Z.to_nat (a_hop a) * (h + sk) + n <= n / 2 + length x)%nat ->
    forall q, (q < nrows Tx)%nat -> el Tx' q h = el Tx q (h + sk)%nat /\ el Sx' q h = el Sx q (h + sk)%nat.
Proof. exact (ssq_stft_skip ord x a n w fs s sk rate Tx Sx f Sfs). Qed.
Print Assumptions C130_shift.

Example C130_case ord gw : valid_order ord -> exists Tx Sx f,
  ssq_stft ord (skipn 3 x16) a8 (Some 2) None (s8 gw) = Ok (Tx, Sx, f, make_Sfs 5 2) /\
  forall h, (4 <= h <= 9)%nat -> el Tx 2%nat h = cis (PI * INR (h + 3) / 2).
Proof. exact (skip_case ord gw). Qed.

(** * C131: the sampling rate relabels the frequencies *)

Theorem C131_stft x a n w c : usable x a n w -> a_modulated a = true ->
  exists Sx dSx Sx' dSx', stft x a = Ok (Sx, dSx) /\ stft x (rated a (c * a_fs a)) = Ok (Sx', dSx') /\
    nrows Sx' = nrows Sx /\ ncols Sx' = ncols Sx /\
    forall k h, (h < ncols Sx)%nat -> el Sx' k h = el Sx k h /\ el dSx' k h = Cmul (RtoC c) (el dSx k h).
Proof. exact (stft_rate x a n w c). Qed.
Print Assumptions C131_stft.

(** [Tx] is multiplied by the ratio of the rates, the width of a bin *)
Theorem C131_ssq ord x a n w r s c Tx Sx f Sfs : valid_order ord -> (forall g, s_sq s <> SqFun g) -> usable x a n w -> a_modulated a = true -> s_freqs s = None ->
  0 < c -> EPS64 <= nth 1 Sfs 0 - nth 0 Sfs 0 -> EPS64 <= c * (nth 1 Sfs 0 - nth 0 Sfs 0) ->
  ssq_stft ord x a (Some r) None s = Ok (Tx, Sx, f, Sfs) ->
  exists Tx' Sx', ssq_stft ord x a (Some (c * r)) None s = Ok (Tx', Sx', map (Rmult c) f, map (Rmult c) Sfs) /\
    nrows Tx' = nrows Tx /\ ncols Tx' = ncols Tx /\
    forall q h, (q < nrows Tx)%nat -> (h < ncols Tx)%nat -> el Tx' q h = Cmul (RtoC c) (el Tx q h) /\ el Sx' q h = el Sx q h.
Proof. exact (ssq_stft_rate ord x a n w r s c Tx Sx f Sfs). Qed.
Print Assumptions C131_ssq.

Example C131_case ord gw : valid_order ord -> exists Tx Sx f,
  ssq_stft ord x16 a8 (Some (3 * 2)) None (s8 gw) = Ok (Tx, Sx, f, map (Rmult 3) (make_Sfs 5 2)) /\ nth 2 f 0 = 3 / 2 /\
  forall h, (4 <= h <= 12)%nat -> el Tx 2%nat h = Cmul (RtoC 3) (cis (PI * INR h / 2)).
Proof. exact (rate_case ord gw). Qed.

(** * C132: energy of stft *)

(** a bin and its mirror image together, per column and in total *)
Theorem C132_energy x a n w : usable x a n w -> exists xp Sx dSx, padded x a n xp /\ stft x a = Ok (Sx, dSx) /\
  (forall h, (h < ncols Sx)%nat -> col_energy n Sx h = INR n * Rsum n (fun u => (nth (Z.to_nat (a_hop a) * h + u) xp 0 * nth u w 0) ^ 2)) /\
  energy n Sx = INR n * Rsum (length xp) (fun t => nth t xp 0 ^ 2 * wsum w (Z.to_nat (a_hop a)) (ncols Sx) 2 t).
Proof. exact (stft_energy x a n w). Qed.
Print Assumptions C132_energy.

Theorem C132_zero_padded x a n w : usable x a n w -> a_padtype a = PZero -> exists Sx dSx, stft x a = Ok (Sx, dSx) /\
  energy n Sx = INR n * Rsum (length x) (fun i => nth i x 0 ^ 2 * wsum w (Z.to_nat (a_hop a)) (ncols Sx) 2 (n / 2 + i)).
Proof. exact (stft_energy_zero x a n w). Qed.
Print Assumptions C132_zero_padded.

(** so with zero padding [stft] loses nothing where the windows cover *)
Theorem C132_frame x a n w lo hi : usable x a n w -> a_padtype a = PZero -> exists Sx dSx, stft x a = Ok (Sx, dSx) /\
  ((forall i, (i < length x)%nat -> lo <= wsum w (Z.to_nat (a_hop a)) (ncols Sx) 2 (n / 2 + i) <= hi) ->
   INR n * lo * sumsq x <= energy n Sx <= INR n * hi * sumsq x).
Proof. exact (stft_frame x a n w lo hi). Qed.
Print Assumptions C132_frame.

Example C132_case : exists Sx dSx, stft [1; 2; 3] aw2 = Ok (Sx, dSx) /\ energy 2 Sx = 38 /\ sumsq [1; 2; 3] = 14 /\
  2 * 1 * 14 <= energy 2 Sx <= 2 * 2 * 14.
Proof. exact energy_case. Qed.

(** * C133: time reversal conjugates *)

Theorem C133_stft x x' a n w Sx dSx Sx' dSx' : usable x a n w -> usable x' a n w -> even_window n w -> Nat.even n = true \/ a_modulated a = false ->
  stft x a = Ok (Sx, dSx) -> stft x' a = Ok (Sx', dSx') ->
  forall h h', (h < ncols Sx)%nat -> (h' < ncols Sx')%nat -> mirror_frame n (Z.to_nat (a_hop a)) w x x' h h' ->
  forall k, el Sx' k h' = Cconj (el Sx k h) /\ el dSx' k h' = Copp (Cconj (el dSx k h)).
Proof. exact (stft_mirror x x' a n w Sx dSx Sx' dSx'). Qed.
Print Assumptions C133_stft.

(** columns that see each other's samples backwards *)
Theorem C133_ssq ord x x' a n w fs t t' s rate Tx Sx f Sfs : valid_order ord -> s_sq s = SqSum \/ s_sq s = SqAbs ->
  usable x a n w -> usable x' a n w -> even_window n w -> Nat.even n = true \/ a_modulated a = false ->
  process_fs_and_t fs t (length x) = Ok rate -> process_fs_and_t fs t' (length x') = Ok rate ->
  ssq_stft ord x a fs t s = Ok (Tx, Sx, f, Sfs) ->
  exists Tx' Sx', ssq_stft ord x' a fs t' s = Ok (Tx', Sx', f, Sfs) /\ nrows Tx' = nrows Tx /\
    forall h h', (h < ncols Tx)%nat -> (h' < ncols Tx')%nat -> mirror_frame n (Z.to_nat (a_hop a)) w x x' h h' ->
    forall q, (q < nrows Tx)%nat -> el Tx' q h' = Cconj (el Tx q h) /\ el Sx' q h' = Cconj (el Sx q h).
Proof. exact (ssq_stft_mirror ord x x' a n w fs t t' s rate Tx Sx f Sfs). Qed.
Print Assumptions C133_ssq.

(** the reversed signal, away from the ends *)
Theorem C133_reverse ord x a n w fs s rate Tx Sx f Sfs : valid_order ord -> s_sq s = SqSum \/ s_sq s = SqAbs ->
  usable x a n w -> even_window n w -> nth 0 w 0 = 0 -> Nat.even n = true -> a_hop a = 1%Z ->
  process_fs_and_t fs None (length x) = Ok rate -> ssq_stft ord x a fs None s = Ok (Tx, Sx, f, Sfs) ->
  exists Tx' Sx', ssq_stft ord (rev x) a fs None s = Ok (Tx', Sx', f, Sfs) /\ nrows Tx' = nrows Tx /\ ncols Tx' = ncols Tx /\
    forall h, (n / 2 <= h)%nat -> (h + n / 2 < length x)%nat -> forall q, (q < nrows Tx)%nat ->
      el Tx' q (length x - 1 - h)%nat = Cconj (el Tx q h) /\ el Sx' q (length x - 1 - h)%nat = Cconj (el Sx q h).
Proof. exact (ssq_stft_rev ord x a n w fs s rate Tx Sx f Sfs). Qed.
Print Assumptions C133_reverse.

Example C133_case ord gw : valid_order ord -> exists Tx Sx f,
  ssq_stft ord (rev x16) a8 (Some 2) None (s8 gw) = Ok (Tx, Sx, f, make_Sfs 5 2) /\
  forall h, (4 <= h <= 11)%nat -> el Tx 2%nat (15 - h)%nat = cis (- (PI * INR h / 2)).
Proof. exact (rev_case ord gw). Qed.

(** * C134: modulated or not, the same frequencies are found *)

(** at [fs = 1].  Missing: other rates, where it fails *)
Theorem C134_unit_rate_partial x a n w : usable x a n w -> a_modulated a = true -> exists Sx dSx Sx' dSx',
  stft x (rated a 1) = Ok (Sx, dSx) /\ stft x (unmodulated a 1) = Ok (Sx', dSx') /\ nrows Sx' = nrows Sx /\ ncols Sx' = ncols Sx /\
  forall g k h, (h < ncols Sx)%nat -> el (phase_stft (make_Sfs (nrows Sx') 1) g Sx' dSx') k h = el (phase_stft (make_Sfs (nrows Sx) 1) g Sx dSx) k h.
Proof. exact (unmodulated_one x a n w). Qed.
Print Assumptions C134_unit_rate_partial.

(** at any rate, the ratio used is that of rate 1 *)
Theorem C134_ratio_partial x a n w r : usable x a n w -> a_modulated a = true -> exists Sx dSx Sx' dSx',
  stft x (rated a 1) = Ok (Sx, dSx) /\ stft x (unmodulated a r) = Ok (Sx', dSx') /\ nrows Sx' = nrows Sx /\ ncols Sx' = ncols Sx /\
  forall k h, (h < ncols Sx)%nat -> Cabs (el Sx' k h) = Cabs (el Sx k h) /\ phase_ratio (el Sx' k h) (el dSx' k h) = phase_ratio (el Sx k h) (el dSx k h).
Proof. exact (unmodulated_phase x a n w r). Qed.
Print Assumptions C134_ratio_partial.

(** at [fs = 4] a tone at 1 Hz is given the frequency 11/8 *)

Theorem C134_refuted : exists x a m n Sx dSx h k, x = bin_tone 1 0 m n (length x) /\ (2 * m < n)%nat /\ Nat.even n = true /\ a_modulated a = false /\
  a_window a = WArray (hann n) /\ stft x a = Ok (Sx, dSx) /\ interior n (length x) 1 h /\ (h < ncols Sx)%nat /\ (k < nrows Sx)%nat /\
  el (phase_stft (make_Sfs (nrows Sx) (a_fs a)) (1 / 100) Sx dSx) k h = Fin (11 / 8) /\ INR m * a_fs a / INR n = 1.
Proof. exact unmodulated_wrong. Qed.
Print Assumptions C134_refuted.
