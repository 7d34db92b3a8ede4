(** [dWx] is the derivative of [Wx]; rows of [cwt] are analytic signals. *)
From Coq Require Import Reals Lra ZifyBool ZifyNat.
From Verif Require Import Py Round Cplx CplxProofs Padding PaddingProofs Buffer Freqs Squeeze Scales Cwt CwtProofs CwtThms CwtThms2 RoundTripGain CwtWitness CwtWitness2 CwtDeriv CwtAnalytic.
Local Open Scope R_scope.

(** * C148: cwt's dWx is the time derivative of Wx *)

(** [whole]: [rpadded=True], or [padtype=None]; [harmonics n c fs t]: the sum over k of c_k e^(i w_k fs t), w_k the frequency of bin k in (-pi, pi]; any wavelet, any cache *)
Theorem C148_derivative py inst f a x s W sc dW s' fs i : whole a -> cwt py inst f a x s = (Ok (W, sc, Some dW), s') ->
  process_fs_and_t (a_fs a) (a_t a) (length x) = Ok fs -> 0 < fs ->
  let n := ncols W in
  (exists c, forall j, (j < n)%nat -> harmonics n c fs (INR j / fs) = el W i j) /\
  forall c, (forall j, (j < n)%nat -> harmonics n c fs (INR j / fs) = el W i j) -> forall j, (j < n)%nat -> derives (harmonics n c fs) (INR j / fs) (el dW i j).
Proof. exact (dWx_is_derivative py inst f a x s W sc dW s' fs i). Qed.
Print Assumptions C148_derivative.

(** [trigdiff] of that [Wx], any window of columns *)
Theorem C148_trigdiff py inst f a x s W sc dW s' fs N n1 : whole a -> cwt py inst f a x s = (Ok (W, sc, Some dW), s') ->
  process_fs_and_t (a_fs a) (a_t a) (length x) = Ok fs -> (0 <= n1)%Z -> (0 <= N)%Z -> (n1 + N <= Z.of_nat (ncols W))%Z ->
  exists D, trigdiff W fs None (Some true) (Some N) (Some n1) = Ok D /\ nrows D = nrows W /\ Z.of_nat (ncols D) = N /\
    forall i j, (Z.of_nat j < N)%Z -> el D i j = el dW i (Z.to_nat n1 + j).
Proof. exact (dWx_is_trigdiff py inst f a x s W sc dW s' fs N n1). Qed.
Print Assumptions C148_trigdiff.

(** the default call, which cuts the padding: its [dWx] is [trigdiff] of the uncut [Wx], cut *)
Theorem C148_cut py inst f a x s W sc dW s' fs pt : a_pad a = Some pt -> cwt py inst f (set_rpadded a false) x s = (Ok (W, sc, Some dW), s') ->
  process_fs_and_t (a_fs a) (a_t a) (length x) = Ok fs ->
  exists n_up n1 n2 V dV D, p2up (Z.of_nat (length x)) = (n_up, n1, n2) /\ cwt py inst f (set_rpadded a true) x s = (Ok (V, sc, Some dV), s') /\
    trigdiff V fs None (Some true) (Some (Z.of_nat (length x))) (Some n1) = Ok D /\ nrows D = nrows dW /\ ncols D = ncols dW /\
    forall i j, (j < length x)%nat -> el D i j = el dW i j.
Proof. exact (dWx_cut py inst f a x s W sc dW s' fs pt). Qed.
Print Assumptions C148_cut.

(** also meets the hypotheses of C149 *)
Example C148_case : exists W dW s', whole (arg0 [1; 2; 4] true true) /\ uncached false (arg0 [1; 2; 4] true true) st0 /\ spectrum step_wave (fun _ => 1) /\
  process_fs_and_t (a_fs (arg0 [1; 2; 4] true true)) (a_t (arg0 [1; 2; 4] true true)) (length delta3) = Ok 1 /\
  cwt false false step_wave (arg0 [1; 2; 4] true true) delta3 st0 = (Ok (W, [1; 2; 4], Some dW), s') /\ el W 0 0 = (1 / 3, 0) /\ el dW 0 0 = (0, 2 * PI / 9).
Proof. exact analytic_case. Qed.

(** * C149: Rows of cwt are analytic signals *)

(** [spectrum f g]: the wavelet is real and zero at frequencies up to 0; [one_sided]: no mean, no negative frequencies, a real Nyquist bin *)
Theorem C149_spectrum py inst f g a x s W sc dW s' i : whole a -> uncached inst a s -> spectrum f g -> cwt py inst f a x s = (Ok (W, sc, dW), s') ->
  0 < nth i sc 0 -> (1 <= ncols W)%nat /\ one_sided (ncols W) (el W i).
Proof. exact (rows_one_sided py inst f g a x s W sc dW s' i). Qed.
Print Assumptions C149_spectrum.

(** the imaginary part is the discrete Hilbert transform of the real part *)
Theorem C149_hilbert py inst f g a x s W sc dW s' i : whole a -> uncached inst a s -> spectrum f g -> cwt py inst f a x s = (Ok (W, sc, dW), s') -> 0 < nth i sc 0 ->
  forall k, (0 < k)%nat -> (2 * k < ncols W)%nat ->
  dft (ncols W) (fun j => RtoC (snd (el W i j))) k = Cmul (0, -1) (dft (ncols W) (fun j => RtoC (fst (el W i j))) k).
Proof. exact (rows_hilbert py inst f g a x s W sc dW s' i). Qed.
Print Assumptions C149_hilbert.

(** both parts have zero mean and are orthogonal *)
Theorem C149_sums py inst f g a x s W sc dW s' i : whole a -> uncached inst a s -> spectrum f g -> cwt py inst f a x s = (Ok (W, sc, dW), s') -> 0 < nth i sc 0 ->
  Rsum (ncols W) (fun j => fst (el W i j)) = 0 /\ Rsum (ncols W) (fun j => snd (el W i j)) = 0 /\ Rsum (ncols W) (fun j => fst (el W i j) * snd (el W i j)) = 0.
Proof. exact (rows_sums py inst f g a x s W sc dW s' i). Qed.
Print Assumptions C149_sums.

(** and equal energies, but for the Nyquist bin, which only the real part has *)
Theorem C149_energy py inst f g a x s W sc dW s' i : whole a -> uncached inst a s -> spectrum f g -> cwt py inst f a x s = (Ok (W, sc, dW), s') -> 0 < nth i sc 0 ->
  Rsum (ncols W) (fun j => fst (el W i j) ^ 2) - Rsum (ncols W) (fun j => snd (el W i j) ^ 2) =
  if (ncols W mod 2 =? 0)%nat then fst (Csum (ncols W) (fun j => Cmul (el W i j) (RtoC ((-1) ^ j)))) ^ 2 / INR (ncols W) else 0.
Proof. exact (rows_energy py inst f g a x s W sc dW s' i). Qed.
Print Assumptions C149_energy.

Example C149_case : exists W dW s', whole (arg0 [1; 2; 4] true true) /\ uncached false (arg0 [1; 2; 4] true true) st0 /\ spectrum step_wave (fun _ => 1) /\
  process_fs_and_t (a_fs (arg0 [1; 2; 4] true true)) (a_t (arg0 [1; 2; 4] true true)) (length delta3) = Ok 1 /\
  cwt false false step_wave (arg0 [1; 2; 4] true true) delta3 st0 = (Ok (W, [1; 2; 4], Some dW), s') /\ el W 0 0 = (1 / 3, 0) /\ el dW 0 0 = (0, 2 * PI / 9).
Proof. exact analytic_case. Qed.
