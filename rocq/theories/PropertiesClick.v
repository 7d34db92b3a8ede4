(** Clicks in stft and ssq_stft. *)
From Coq Require Import Reals List.
Import ListNotations.
From Verif Require Import Py Round Padding PaddingProofs Parallel Cplx CplxProofs Buffer BufferProofs Freqs Stft StftProofs WindowProofs
  Squeeze SqueezeProofs SqueezeThms SqueezeThms2 SqueezeThms3 Scales Ssqueeze SsqueezeProofs StftTone StftToneThms StftToneWitness StftMap StftEnergy StftMapWit NoiseSsq Click ClickWit.
Import Stft.
Local Open Scope R_scope.

(** * C171: ssq_stft leaves a click as it is *)

(** stft: where the window sees one sample, every row has the modulus of the sample times the window there, and dSx is a real multiple of Sx *)
Theorem C171_stft x a n w : usable x a n w -> exists X dX, stft x a = Ok (X, dX) /\ nrows X = (n / 2 + 1)%nat /\
  forall h p, (h < ncols X)%nat -> plain x a n h -> click x n (Z.to_nat (a_hop a)) h p -> let u := (p + n / 2 - Z.to_nat (a_hop a) * h)%nat in
    forall k, Cabs (el X k h) = Rabs (nth p x 0 * nth u w 0) /\ (nth u w 0 <> 0 -> el dX k h = Cmul (RtoC (nth u (dwindow a w) 0 / nth u w 0)) (el X k h)).
Proof. exact (stft_click x a n w). Qed.
Print Assumptions C171_stft.

(** ssq_stft: in such a column no coefficient changes its row; Tx is Sx times the bin width, less what gamma removes, which is all or nothing *)
Theorem C171_ssq ord x a fs t s rate n w g : valid_order ord -> usable x a n w -> process_fs_and_t fs t (length x) = Ok rate ->
  EPS64 <= rate / INR n -> (2 <= n)%nat -> Nat.even n = true -> (Z.of_nat n < 2 ^ 62)%Z -> s_freqs s = None -> s_sq s = SqSum ->
  g = match s_gamma s with Some g => g | None => 10 * (if a_f32 a then EPS32 else EPS64) end ->
  exists Tx X f, ssq_stft ord x a fs t s = Ok (Tx, X, f, make_Sfs (n / 2 + 1) rate) /\ nrows Tx = (n / 2 + 1)%nat /\ ncols Tx = ncols X /\
  forall h p, (h < ncols X)%nat -> plain x a n h -> click x n (Z.to_nat (a_hop a)) h p ->
  let v := Rabs (nth p x 0 * nth (p + n / 2 - Z.to_nat (a_hop a) * h) w 0) in
  forall k, (k <= n / 2)%nat -> Cabs (el X k h) = v /\
    el Tx (if s_flip s then n / 2 - k else k)%nat h = if kept (s_get_w s) g v then Cmul (RtoC (rate / INR n)) (el X k h) else C0.
Proof. exact (ssq_click ord x a fs t s rate n w g). Qed.
Print Assumptions C171_ssq.

(** a column whose window sees zeros only is 0 in Sx and Tx *)
Theorem C171_silence ord x a fs t s rate n w g : valid_order ord -> usable x a n w -> process_fs_and_t fs t (length x) = Ok rate ->
  EPS64 <= rate / INR n -> (2 <= n)%nat -> Nat.even n = true -> (Z.of_nat n < 2 ^ 62)%Z -> s_freqs s = None -> s_sq s = SqSum ->
  g = match s_gamma s with Some g => g | None => 10 * (if a_f32 a then EPS32 else EPS64) end ->
  exists Tx X f, ssq_stft ord x a fs t s = Ok (Tx, X, f, make_Sfs (n / 2 + 1) rate) /\ nrows Tx = (n / 2 + 1)%nat /\ ncols Tx = ncols X /\
  forall h, (h < ncols X)%nat -> plain x a n h -> (forall i, (i < length x)%nat -> under n (Z.to_nat (a_hop a)) h i -> nth i x 0 = 0) ->
  forall k, el X k h = C0 /\ ((k <= n / 2)%nat -> el Tx k h = C0).
Proof. exact (ssq_silence ord x a fs t s rate n w g). Qed.
Print Assumptions C171_silence.

(** 20 samples with clicks 3 and 5, Hann window of 8, hop 2, zero padding: columns 2 and 7 of Tx are those of Sx, of modulus 3 and 5 *)
Example C171_case ord gw : valid_order ord -> let a := SA 1 (WArray (hann 8)) (Some 8%Z) None 2 true PZero false in
  exists Tx X f, ssq_stft ord clicks a (Some 8) None (SS None SqSum (Some (1 / 100)) false gw true) = Ok (Tx, X, f, make_Sfs 5 8) /\ nrows Tx = 5%nat /\ ncols Tx = 10%nat /\
  forall k, (k <= 4)%nat -> el Tx k 2%nat = el X k 2%nat /\ Cabs (el Tx k 2%nat) = 3 /\ el Tx k 7%nat = el X k 7%nat /\ Cabs (el Tx k 7%nat) = 5.
Proof. exact (clicks_case ord gw). Qed.
