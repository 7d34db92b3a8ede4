(** C153: [cwt] in the time domain. *)
From Coq Require Import Reals Lra.
From Verif Require Import Py Padding PaddingProofs Cplx CplxProofs Freqs Stft Squeeze BinProofs Scales Ssqueeze ShiftProofs Cwt CwtProofs CwtThms CwtTone RoundTrip
  WaveletProofs SearchGmw GmwOrders Resol ResolProofs SsqCwtProofs CwtEnergy SymmInst DefaultRoundTrip CwtWitness SsqCwtWitness OctaveSep Pointwise PointwiseProofs RoundTrip GmwRoundTrip AdmissThms3 CwtConv CwtImpulse.
Local Open Scope R_scope.

(** * C153: convolution with the wavelet [psifn] returns; impulses *)

(** each row is the circular convolution of the padded signal with [psifn], centred at half its length; padded, or of even length *)
Theorem C153_convolves_partial py inst f g a x s W sc dW s' : real_wavelet f g -> uncached inst a s ->
  cwt py inst f a x s = (Ok (W, sc, dW), s') -> a_pad a <> None \/ Nat.even (length x) = true ->
  exists xp n1, pad_input (a_pad a) x = Ok (xp, n1) /\
    let n := length xp in
    forall i j, (i < nrows W)%nat -> (j < ncols W)%nat ->
      el W i j = Cmul (RtoC (gain a (nth i sc 0)))
        (Csum n (fun t => Cmul (RtoC (nth t xp 0)) (nth ((origin a n1 + j + (n - t) + n / 2) mod n) (psifn f (nth i sc 0) n) C0))).
Proof. exact (cwt_convolves py inst f g a x s W sc dW s'). Qed.
Print Assumptions C153_convolves_partial.

(** an impulse: the row is the wavelet, conjugate symmetric about the impulse and largest there *)
Theorem C153_impulse py inst f g a N p c s W sc dW s' : real_wavelet f g -> uncached inst a s -> (a_pad a = None \/ a_pad a = Some PZero) -> a_rpadded a = false ->
  (p < N)%nat -> cwt py inst f a (impulse N p c) s = (Ok (W, sc, dW), s') ->
  exists n, (N <= n)%nat /\ ncols W = N /\ forall i, (i < nrows W)%nat ->
    (forall j, (j < N)%nat -> el W i j = Cmul (RtoC (gain a (nth i sc 0) * c)) (kernel g (nth i sc 0) n ((j + (n - p)) mod n))) /\
    (forall d, (d <= p)%nat -> (p + d < N)%nat -> el W i (p - d) = Cconj (el W i (p + d))) /\
    ((forall w, 0 <= g w) -> el W i p = RtoC (gain a (nth i sc 0) * c * (Rsum n (halved g (nth i sc 0) n) / INR n)) /\
      forall j, (j < N)%nat -> Cabs (el W i j) <= Cabs (el W i p)).
Proof. exact (cwt_impulse py inst f g a N p c s W sc dW s'). Qed.
Print Assumptions C153_impulse.

(** the frequency assigned at the impulse: the mean of the bins' frequencies, weighted by the wavelet *)
Theorem C153_frequency py inst f g a N p c s W sc d s' fs : real_wavelet f g -> uncached inst a s -> (a_pad a = None \/ a_pad a = Some PZero) -> a_rpadded a = false ->
  (p < N)%nat -> c <> 0 -> cwt py inst f a (impulse N p c) s = (Ok (W, sc, Some d), s') -> process_fs_and_t (a_fs a) (a_t a) N = Ok fs ->
  (forall w, 0 <= g w) -> (forall i, (i < nrows W)%nat -> 0 < nth i sc 0) ->
  exists n, (N <= n)%nat /\ forall i, (i < nrows W)%nat ->
    let h k := halved g (nth i sc 0) n k in
    0 < Rsum n h -> phase_cwt_pt (el W i p) (el d i p) = Rabs (fs * (Rsum n (fun k => h k * nth k (xifn 1 n) 0) / Rsum n h)) / (2 * PI).
Proof. exact (impulse_frequency py inst f g a N p c s W sc d s' fs). Qed.
Print Assumptions C153_frequency.

(** the default wavelet, zero padding *)
Example C153_case : exists W dW s', cwt false true (gmw_wave gmw60) (arg_c (Some PZero) false) (impulse 5 2 3) st0 = (Ok (W, [1; 2; 4], Some dW), s') /\
  nrows W = 3%nat /\ uncached true (arg_c (Some PZero) false) st0 /\ (forall w, 0 <= gmw60 w) /\
  forall i j, (i < 3)%nat -> (j < 5)%nat -> Cabs (el W i j) <= Cabs (el W i 2%nat).
Proof. exact impulse_case. Qed.

(** of odd length and not padded, no sample of [psifn] is the response at the impulse *)
Theorem C153_odd_length_refuted : exists W dW s', cwt false true (gmw_wave gmw60) (arg_c None false) [1; 0; 0] st0 = (Ok (W, [1; 2; 4], Some dW), s') /\
  forall i m, (i < 3)%nat -> (m < 3)%nat -> nth m (psifn (gmw_wave gmw60) (nth i [1; 2; 4] 0) 3) C0 <> el W i 0%nat.
Proof. exact odd_length. Qed.
Print Assumptions C153_odd_length_refuted.
