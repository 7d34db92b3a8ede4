(** The tones of the test signals and their frequencies. *)
From Coq Require Import Reals Lra.
From Verif Require Import Py Round Cplx CplxProofs Squeeze Scales Search Chirp CwtTone Signals SignalsThms SignalsThms2 SignalsThms3 Tones TonesWit.
Local Open Scope R_scope.

(** * C175: sine, cosine, cos_f and sin_f return the tones asked for *)

(** [sine], [cosine] ([g] is [sin], [cos]): N samples of the tone; without endpoint=True the end point is left out, whatever default_tkw says *)
Theorem C175_samples g s N f phi0 k : let n := own_N s N in
  ((n < 0)%Z -> Signals.tone g s N f phi0 k = Err ValueError) /\
  ((0 <= n)%Z -> exists x t, Signals.tone g s N f phi0 k = Ok (x, t) /\ length x = Z.to_nat n /\ length t = Z.to_nat n /\
    (forall j, (j < Z.to_nat n)%nat -> nth j x 0 = g (2 * PI * f * nth j t 0 + phi0)) /\
    (k_end k <> Some true -> forall j, (j < Z.to_nat n)%nat -> nth j t 0 = kw_tmin s k + INR j * ((kw_tmax s k - kw_tmin s k) / IZR n)) /\
    (k_end k = Some true -> (2 <= n)%Z -> nth 0 t 0 = kw_tmin s k /\ nth (Z.to_nat n - 1) t 0 = kw_tmax s k)).
Proof. exact (tone_samples g s N f phi0 k). Qed.
Print Assumptions C175_samples.

(** m periods in the time range: the tone of m periods in n samples, as used by the theorems on cwt and stft *)
Theorem C175_whole s N f phi0 k m n : own_N s N = Z.of_nat n -> (0 < n)%nat -> k_end k <> Some true ->
  f * (kw_tmax s k - kw_tmin s k) = INR m ->
  exists t, Signals.tone cos s N f phi0 k = Ok (CwtTone.tone 1 (2 * PI * f * kw_tmin s k + phi0) m n, t).
Proof. exact (cosine_whole s N f phi0 k m n). Qed.
Print Assumptions C175_whole.

(** with endpoint=True the first sample comes twice *)
Theorem C175_closed g s N f phi0 k m x t : (g = cos \/ g = sin) -> (2 <= own_N s N)%Z -> k_end k = Some true ->
  f * (kw_tmax s k - kw_tmin s k) = IZR m -> Signals.tone g s N f phi0 k = Ok (x, t) ->
  nth (length x - 1) x 0 = nth 0 x 0.
Proof. exact (closed_twice g s N f phi0 k m x t). Qed.
Print Assumptions C175_closed.

(** a sine with a quarter turn more is a cosine *)
Theorem C175_sine_cosine s N f phi0 k : Signals.tone sin s N f (phi0 + PI / 2) k = Signals.tone cos s N f phi0 k.
Proof. exact (sine_cosine s N f phi0 k). Qed.
Print Assumptions C175_sine_cosine.

(** [cos_f], [sin_f]: consecutive segments of N samples, one per frequency, [phi] added to the time *)
Theorem C175_segments g freqs N phi e :
  (freqs = [] \/ (N < 0)%Z -> tones_f g freqs N phi e = Err ValueError) /\
  (freqs <> [] -> (0 <= N)%Z -> exists x, tones_f g freqs N phi e = Ok x /\ length x = (length freqs * Z.to_nat N)%nat /\
    forall q j, (q < length freqs)%nat -> (j < Z.to_nat N)%nat -> (e = true -> (2 <= N)%Z) ->
      nth (q * Z.to_nat N + j) x 0 = g (2 * PI * nth q freqs 0 * (INR q + INR j / IZR (if e then N - 1 else N) + phi))).
Proof. exact (tones_f_samples g freqs N phi e). Qed.
Print Assumptions C175_segments.

(** whole frequencies: every segment is a tone of that many periods *)
Theorem C175_whole_segments freqs ms n phi : freqs = map INR ms -> ms <> [] -> (0 < n)%nat ->
  exists x, tones_f cos freqs (Z.of_nat n) phi false = Ok x /\ length x = (length ms * n)%nat /\
  forall q j, (q < length ms)%nat -> (j < n)%nat ->
    nth (q * n + j) x 0 = nth j (CwtTone.tone 1 (2 * PI * INR (nth q ms 0%nat) * phi) (nth q ms 0%nat) n) 0.
Proof. exact (cos_f_whole freqs ms n phi). Qed.
Print Assumptions C175_whole_segments.

(** cosine(8, f=2), and cosine(9, f=2, endpoint=True), whose last sample repeats the first *)
Example C175_case : exists t x' t', Signals.tone cos ts0 (Some 8%Z) 2 0 (TK None None None) = Ok (CwtTone.tone 1 (2 * PI * 2 * 0 + 0) 2 8, t) /\
  nth 1 (CwtTone.tone 1 (2 * PI * 2 * 0 + 0) 2 8) 0 = 0 /\
  Signals.tone cos ts0 (Some 9%Z) 2 0 (TK None None (Some true)) = Ok (x', t') /\ nth 8 x' 0 = 1 /\ nth 0 x' 0 = 1.
Proof. exact cosine_case. Qed.

(** cos_f([1, 2], N=4) *)
Example C175_case_segments : exists x, tones_f cos [1; 2] 4 0 false = Ok x /\ length x = 8%nat /\ nth 5 x 0 = -1.
Proof. exact cos_f_case. Qed.

(** * C176: default frequencies of jumps and packed do not alias *)

(** missing: times with the end point; at most one second per segment, from 0 *)
Theorem C176_jumps_partial s N k x t : kw_tmin s k = 0 -> 0 <= kw_tmax s k <= 1 -> kw_end s k = false -> (8 <= or_N s N)%Z ->
  jumps s N None k = Ok (x, t) ->
  let M := (or_N s N / 4)%Z in
  exists fs, fs = [1; IZR M / 4; IZR M / 2; IZR M / 16] /\ Forall (fun f => below_nyquist f t) fs /\
  forall i j, (i < 4)%nat -> (Z.of_nat j < M)%Z ->
    nth (i * Z.to_nat M + j) x 0 = cos (2 * PI * nth i fs 0 * nth (i * Z.to_nat M + j) t 0).
Proof. exact (jumps_default s N k x t). Qed.
Print Assumptions C176_jumps_partial.

(** with the default times (end point included) jumps(16) has a frequency above half the sampling rate *)
Theorem C176_jumps_refuted : exists x t, jumps ts0 (Some 16%Z) None (TK None None None) = Ok (x, t) /\
  ~ below_nyquist (nth 2 [1; IZR (16 / 4) / 4; IZR (16 / 4) / 2; IZR (16 / 4) / 16] 0) t.
Proof. exact jumps_default_alias. Qed.
Print Assumptions C176_jumps_refuted.

(** any times of at most a second *)
Theorem C176_packed_partial s N overlap k x t : 0 <= kw_tmax s k - kw_tmin s k <= 1 -> (8 <= or_N s N)%Z ->
  packed s N None overlap k = Ok (x, t) ->
  let n := IZR (or_N s N) in let No := py_int (overlap * n) in
  exists fs, fs = [1 / 2; 1; 2; n / 10; 12 * n / 100; 14 * n / 100; n / 5; n / 4; n / 3; 13 * n / 30] /\ Forall (fun f => below_nyquist f t) fs /\
  ((0 < No)%Z -> length x = length t /\
   forall j, (j < length t)%nat -> nth j x 0 = Rsum 10 (fun i => if covers (length t) No i j then cos (2 * PI * nth i fs 0 * nth j t 0) else 0)).
Proof. exact (packed_default s N overlap k x t). Qed.
Print Assumptions C176_packed_partial.

(** jumps(16, endpoint=False) and packed(16) *)
Example C176_case : exists x t x' t', jumps ts0 (Some 16%Z) None (TK None None (Some false)) = Ok (x, t) /\
  nth 9 x 0 = cos (2 * PI * 2 * nth 9 t 0) /\ below_nyquist 2 t /\
  packed ts0 (Some 16%Z) None (4 / 5) (TK None None None) = Ok (x', t') /\ below_nyquist (13 * 16 / 30) t'.
Proof. exact default_freqs_case. Qed.
