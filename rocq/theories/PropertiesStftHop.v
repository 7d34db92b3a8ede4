(** C154, C155: [hop_len] and [n_fft] of [stft]. *)
From Coq Require Import Reals Lra.
From Verif Require Import Py Round Parallel Cplx CplxProofs Padding PaddingProofs Buffer BufferProofs Freqs Stft StftProofs Squeeze SqueezeProofs
  Scales Ssqueeze SsqueezeProofs StftTone StftMap StftMap2 StftMap3 StftToneWitness StftMapWit StftMapCase StftHop StftHopWit.
Import Stft.
Local Open Scope R_scope.

(** * C154: [hop_len] only thins out the columns *)

(** column j of hop q*h is column q*j of hop h; [n_fft] given *)
Theorem C154_stft_partial x a n w q : usable x a n w -> a_n_fft a = Some (Z.of_nat n) -> (1 <= q)%Z -> (a_f32 a = true -> (q * a_hop a <= Z.of_nat n)%Z) ->
  exists S dS S' dS', stft x a = Ok (S, dS) /\ stft x (hopped a q) = Ok (S', dS') /\ nrows S' = nrows S /\
    (Z.of_nat (ncols S') = (Z.of_nat (ncols S) - 1) / q + 1)%Z /\
    forall k j, (j < ncols S')%nat -> (Z.to_nat q * j < ncols S)%nat /\
      el S' k j = el S k (Z.to_nat q * j)%nat /\ el dS' k j = el dS k (Z.to_nat q * j)%nat.
Proof. exact (stft_hop x a n w q). Qed.
Print Assumptions C154_stft_partial.

(** the same of [ssq_stft], frequencies unchanged *)
Theorem C154_ssq_partial ord x a n w q fs t s Tx Sx f Sfs : valid_order ord -> (forall g, s_sq s <> SqFun g) -> usable x a n w -> a_n_fft a = Some (Z.of_nat n) ->
  (1 <= q)%Z -> (a_f32 a = true -> (q * a_hop a <= Z.of_nat n)%Z) -> ssq_stft ord x a fs t s = Ok (Tx, Sx, f, Sfs) ->
  exists Tx' Sx', ssq_stft ord x (hopped a q) fs t s = Ok (Tx', Sx', f, Sfs) /\ nrows Tx' = nrows Tx /\
    forall k j, (k < nrows Tx)%nat -> (j < ncols Tx')%nat -> el Tx' k j = el Tx k (Z.to_nat q * j)%nat /\ el Sx' k j = el Sx k (Z.to_nat q * j)%nat.
Proof. exact (ssq_stft_hop ord x a n w q fs t s Tx Sx f Sfs). Qed.
Print Assumptions C154_ssq_partial.

(** a Hann window of 4, hops 1 and 2 *)
Example C154_case : exists S dS S' dS', stft [1; 2; 3; 4; 5; 6; 7; 8] (SA 1 (WArray (hann 4)) (Some 4%Z) None 1 true PReflect false) = Ok (S, dS) /\
  stft [1; 2; 3; 4; 5; 6; 7; 8] (SA 1 (WArray (hann 4)) (Some 4%Z) None 2 true PReflect false) = Ok (S', dS') /\
  ncols S = 8%nat /\ ncols S' = 4%nat /\ forall k j, (j < 4)%nat -> el S' k j = el S k (2 * j)%nat.
Proof. exact hop_case. Qed.

(** with the default [n_fft] = len // hop_len the number of rows changes *)
Theorem C154_default_n_fft_refuted : exists S dS S' dS', stft [1; 2; 3; 4; 5; 6; 7; 8] ah = Ok (S, dS) /\ stft [1; 2; 3; 4; 5; 6; 7; 8] (hopped ah 2) = Ok (S', dS') /\
  nrows S = 5%nat /\ nrows S' = 3%nat.
Proof. exact hop_default. Qed.
Print Assumptions C154_default_n_fft_refuted.

(** * C155: a larger [n_fft] for the same window adds rows between the rows *)

(** row m*k of m*n is row k of n *)
Theorem C155_rows_partial x a n w L m : usable x a n w -> win_of a n L -> a_padtype a <> PSymmetric -> (2 <= m)%nat ->
  Nat.even n = true \/ Nat.even m = false ->
  exists S dS S' dS', stft x a = Ok (S, dS) /\ stft x (refined a L n m) = Ok (S', dS') /\ ncols S' = ncols S /\ nrows S' = (m * n / 2 + 1)%nat /\
    forall k h, (h < ncols S)%nat ->
      el S' (m * k)%nat h = Cmul (if a_modulated a then C1 else tw n (- (Z.of_nat k * ((Z.of_nat m - 1) * Z.of_nat n / 2)))) (el S k h).
Proof. exact (stft_refined x a n w L m). Qed.
Print Assumptions C155_rows_partial.

(** a window of 2, [n_fft] 2 and 6 *)
Example C155_case : exists S dS S' dS', stft [1; 2; 3] aw2 = Ok (S, dS) /\ stft [1; 2; 3] (refined aw2 2 2 3) = Ok (S', dS') /\
  usable [1; 2; 3] aw2 2 [1; 1] /\ win_of aw2 2 2 /\ nrows S = 2%nat /\ nrows S' = 4%nat /\
  forall k h, (h < 3)%nat -> el S' (3 * k)%nat h = el S k h.
Proof. exact refined_case. Qed.

(** [n_fft] 1 and 2: every column comes a sample late *)
Theorem C155_odd_n_fft_refuted : exists S dS S' dS', stft [1; 2; 4] aw1 = Ok (S, dS) /\ stft [1; 2; 4] (refined aw1 1 1 2) = Ok (S', dS') /\
  usable [1; 2; 4] aw1 1 [1] /\ win_of aw1 1 1 /\
  (forall h, (h < 3)%nat -> el S 0%nat h = RtoC (nth h [1; 2; 4] 0)) /\ (forall h, (h < 3)%nat -> el S' 0%nat h = RtoC (nth h [0; 1; 2] 0)).
Proof. exact odd_window. Qed.
Print Assumptions C155_odd_n_fft_refuted.
