(** From a chord to its tones: [ssq_stft], [extract_ridges], [issq_stft]. *)
From Coq Require Import Reals Lra ZifyBool ZifyNat.
From Verif Require Import Py Padding Parallel Cplx Freqs Stft Squeeze SqueezeProofs Scales Ssqueeze SsqueezeProofs StftTone StftToneThms StftToneWitness StftMap StftChord StftChordThms
  Ridge RidgeOpt RidgeThms RidgeBand ChordRidge StftRidge.
Local Open Scope R_scope.

(** * C147: ssq_stft, extract_ridges and issq_stft together take a chord apart *)

(** tones in order of strength, each outweighing the next; [stft_row]: the row of a bin, flipped or not; any [scales] of the right length, any penalty *)
Theorem C147_ridges : forall ord M A phi m x a fs t s rate n w b g Tx Sx f Sfs par f64 cwt scales penalty bw o ratio, stft_chord_run ord M A phi m x a fs t s rate n w b g ->
  a_hop a = 1%Z -> a_padtype a = PWrap -> (length x mod n = 0)%nat -> nth (n / 2) w 0 <> 0 -> ssq_stft ord x a fs t s = Ok (Tx, Sx, f, Sfs) ->
  extract_ridges par f64 Tx scales penalty M bw cwt = Ok o -> sched_ok (n / 2 + 1) par -> 0 <= penalty -> (0 < bw)%Z ->
  (forall r, (r < M)%nat -> (bw <= Z.of_nat (stft_row s n (m r)))%Z) ->
  (forall r r', (r < r')%nat -> (r' < M)%nat -> (bw < Z.abs (Z.of_nat (m r') - Z.of_nat (m r)))%Z) ->
  0 <= ratio <= 1 -> (forall r, (r < M)%nat -> A r <> 0) -> (forall r r', (r < r')%nat -> (r' < M)%nat -> Rabs (A r') <= ratio * Rabs (A r)) ->
  INR (length x - 1) * eps_of f64 < ln ((1 + eps_of f64) / (ratio ^ 2 + eps_of f64)) ->
  forall r j, (r < M)%nat -> (j < length x)%nat -> nth j (r_idx (nth r o ridge0)) 0%nat = stft_row s n (m r) /\
    nth j (r_freq (nth r o ridge0)) 0 = nth (stft_row s n (m r)) scales 0 /\ nth j (r_energy (nth r o ridge0)) 0 = (rate * nth (n / 2) w 0 * (A r / 2)) ^ 2.
Proof. exact stft_ridges. Qed.
Print Assumptions C147_ridges.

(** the ridge indices as [cc], any constant half-width [v] up to [bw] as [cw]: the tones, times [fs], at every sample *)
Theorem C147_recovered : forall ord M A phi m x a fs t s rate n w b g Tx Sx f Sfs par f64 cwt scales penalty bw o ratio, stft_chord_run ord M A phi m x a fs t s rate n w b g ->
  a_hop a = 1%Z -> a_padtype a = PWrap -> (length x mod n = 0)%nat -> nth (n / 2) w 0 <> 0 -> ssq_stft ord x a fs t s = Ok (Tx, Sx, f, Sfs) ->
  extract_ridges par f64 Tx scales penalty M bw cwt = Ok o -> sched_ok (n / 2 + 1) par -> 0 <= penalty -> (0 < bw)%Z ->
  (forall r, (r < M)%nat -> (bw <= Z.of_nat (stft_row s n (m r)))%Z) ->
  (forall r r', (r < r')%nat -> (r' < M)%nat -> (bw < Z.abs (Z.of_nat (m r') - Z.of_nat (m r)))%Z) ->
  0 <= ratio <= 1 -> (forall r, (r < M)%nat -> A r <> 0) -> (forall r r', (r < r')%nat -> (r' < M)%nat -> Rabs (A r') <= ratio * Rabs (A r)) ->
  INR (length x - 1) * eps_of f64 < ln ((1 + eps_of f64) / (ratio ^ 2 + eps_of f64)) ->
  forall nf wl f32 v, (0 < M)%nat -> or_default nf (2 * Z.of_nat (n / 2))%Z = Z.of_nat n -> get_window (a_window a) (or_default wl (Z.of_nat n)) (Z.of_nat n) = Ok w ->
  (0 <= v <= bw)%Z -> exists xs, issq_stft Tx (a_window a) (Some (ridge_cc (length x) M o, Mat (length x) M (fun _ _ => v))) nf wl 1 true f32 = Ok (Many xs) /\ length xs = S M /\
  forall j, (j < length x)%nat -> (forall r, (r < M)%nat -> nth j (nth r xs []) 0 = rate * (A r * cos (2 * PI * INR (m r) * INR j / INR n + phi r))) /\ nth j (nth M xs []) 0 = 0.
Proof. exact stft_ridges_recovered. Qed.
Print Assumptions C147_recovered.

Example C147_case ord gw par : valid_order ord -> (forall F, sched_ok F par) -> exists Tx Sx f o xs,
  ssq_stft ord duo (SA 1 (WArray (hann 24)) (Some 24%Z) None 1 true PWrap false) (Some 24) None (SS None SqSum (Some (1 / 100)) false gw true) = Ok (Tx, Sx, f, make_Sfs 13 24) /\
  extract_ridges par true Tx (make_Sfs 13 24) 20 2 2 false = Ok o /\
  (forall j, (j < 48)%nat -> nth j (r_freq (nth 0 o ridge0)) 0 = 8 /\ nth j (r_freq (nth 1 o ridge0)) 0 = 4) /\
  issq_stft Tx (WArray (hann 24)) (Some (ridge_cc 48 2 o, Mat 48 2 (fun _ _ => 1%Z))) None (Some 24%Z) 1 true false = Ok (Many xs) /\
  forall j, (j < 48)%nat -> nth j (nth 0 xs []) 0 = 24 * cos (2 * PI * INR j / 3) /\ nth j (nth 1 xs []) 0 = 12 * cos (PI * INR j / 3 + 1) /\ nth j (nth 2 xs []) 0 = 0.
Proof. exact (ridge_case ord gw par). Qed.
