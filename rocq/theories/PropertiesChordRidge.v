(** From a chord to its tones: [ssq_cwt], [extract_ridges], [issq_cwt]. *)
From Coq Require Import Reals Lra Lia List.
Import ListNotations.
From Verif Require Import Py Round Parallel Cplx CplxProofs Padding Buffer Freqs Squeeze Scales Ssqueeze Cwt CwtTone SsqCwt SsqCwtWitness CwtWitness CwtWitness2 ToneWitness Wavelets Admiss AdmissThms3
  RoundTripGain GmwRoundTrip DefaultRoundTrip ToneThms RoundTripWitness Separate OctaveSep ChordSep Reassign ChordSqueeze ChordRecover Ridge RidgeOpt RidgeThms RidgeBand ChordRidge ChordRidgeWitness.
Local Open Scope R_scope.

(** * C120: ridges of a synchrosqueezed chord lead back to its tones *)

(** how strong the rows of each tone are *)
Theorem C120_strength ord py fam q M A phi k n s out s' fs nv d : chord_run ord py fam q M A phi k n s out s' fs nv d ->
  forall (rho : nat -> nat) w, (forall r, (r < M)%nat -> nearest_row out (tone_freq fs (k r) n) (rho r)) ->
  w = 1%nat \/ w = 0%nat /\ (forall r, (r < M)%nat -> centred out fs d (tone_freq fs (k r) n) (rho r)) ->
  (forall r r', (r < M)%nat -> (r' < M)%nat -> r <> r' -> (rho r + 2 * w < rho r' \/ rho r' + 2 * w < rho r)%nat) ->
  let strength r := Rabs (A r) / 2 * full_gain (gmw_wave gmw60) (r_scales out) nv (k r) n in
  let e := 2 * ssq_gamma q * (INR (length (r_scales out)) * (ln 2 / IZR nv)) in
  (forall m j, (m < length (r_scales out))%nat -> (j < n)%nat -> (forall r, (r < M)%nat -> within w m (rho r) = false) -> el (r_Tx out) m j = C0) /\
  forall r j, (r < M)%nat -> (j < n)%nat ->
    (forall m, (m < length (r_scales out))%nat -> within w m (rho r) = true -> Cabs (el (r_Tx out) m j) <= strength r + e) /\
    exists m, (m < length (r_scales out))%nat /\ within w m (rho r) = true /\ strength r - e <= INR (2 * w + 1) * Cabs (el (r_Tx out) m j) /\
      forall m', (m' < length (r_scales out))%nat -> within w m' (rho r) = true -> Cabs (el (r_Tx out) m' j) <= Cabs (el (r_Tx out) m j).
Proof. exact (fun H => chord_strength ord py fam q M A phi k n s out s' fs nv d H). Qed.
Print Assumptions C120_strength.

(** tones in order of strength, each outweighing the next: three times when a tone may share its energy among three rows ([w = 1]),
    hardly more than once when every tone lies near the middle of its row ([w = 0]); each ridge within [w] rows of its tone's row at all times *)
Theorem C120_ridges ord py fam q M A phi k n s out s' fs nv d Css rho w par f64 penalty bw o ratio :
  chord_run ord py fam q M A phi k n s out s' fs nv d -> adm_ssq gmw60 = Ok Css -> (32 <= nv)%Z -> voices (r_scales out) nv ->
  (forall r, (r < M)%nat -> (nth 0 (r_scales out) 0 * (2 * PI * INR (k r) / INR n)) ^ 3 <= 10 /\
     40 <= (nth (length (r_scales out) - 1) (r_scales out) 0 * (2 * PI * INR (k r) / INR n)) ^ 3) ->
  (forall r, (r < M)%nat -> nearest_row out (tone_freq fs (k r) n) (rho r)) ->
  w = 1%nat \/ w = 0%nat /\ (forall r, (r < M)%nat -> centred out fs d (tone_freq fs (k r) n) (rho r)) ->
  extract_ridges par f64 (r_Tx out) (r_scales out) penalty M bw true = Ok o -> sched_ok (length (r_scales out)) par -> 0 <= penalty ->
  (2 * Z.of_nat w < bw)%Z -> (forall r, (r < M)%nat -> (bw + Z.of_nat w <= Z.of_nat (rho r))%Z /\ (rho r + w < n)%nat) ->
  (forall r r', (r < r')%nat -> (r' < M)%nat -> (bw + 2 * Z.of_nat w < Z.abs (Z.of_nat (rho r') - Z.of_nat (rho r)))%Z) ->
  0 <= ratio <= 1 -> (forall r, (r < M)%nat -> 0 < 97 / 100 * Rabs (A r) - slack q out nv) ->
  (forall r r', (r < r')%nat -> (r' < M)%nat ->
     INR (2 * w + 1) * (103 / 100 * Rabs (A r') + slack q out nv) <= ratio * (97 / 100 * Rabs (A r) - slack q out nv)) ->
  2 * (penalty * (INR (2 * w) * (ln 2 / IZR nv)) ^ 2) + INR (n - 1) * eps_of f64 < ln ((1 + eps_of f64) / (ratio ^ 2 + eps_of f64)) ->
  forall r j, (r < M)%nat -> (j < n)%nat -> close_rows w (nth j (r_idx (nth r o ridge0)) 0%nat) (rho r).
Proof. exact (chord_ridges ord py fam q M A phi k n s out s' fs nv d Css rho w par f64 penalty bw o ratio). Qed.
Print Assumptions C120_ridges.

(** the ridge indices as [cc], any constant half-width [v] between [w] and [bw] as [cw] *)
Theorem C120_recovered ord py fam q M A phi k n s out s' fs nv d Css rho w par f64 penalty bw o ratio v :
  chord_run ord py fam q M A phi k n s out s' fs nv d -> adm_ssq gmw60 = Ok Css -> (32 <= nv)%Z -> voices (r_scales out) nv -> (0 < M)%nat ->
  (forall r, (r < M)%nat -> (nth 0 (r_scales out) 0 * (2 * PI * INR (k r) / INR n)) ^ 3 <= 10 /\
     40 <= (nth (length (r_scales out) - 1) (r_scales out) 0 * (2 * PI * INR (k r) / INR n)) ^ 3) ->
  (forall r, (r < M)%nat -> nearest_row out (tone_freq fs (k r) n) (rho r)) ->
  w = 1%nat \/ w = 0%nat /\ (forall r, (r < M)%nat -> centred out fs d (tone_freq fs (k r) n) (rho r)) ->
  extract_ridges par f64 (r_Tx out) (r_scales out) penalty M bw true = Ok o -> sched_ok (length (r_scales out)) par -> 0 <= penalty ->
  (2 * Z.of_nat w < bw)%Z -> (forall r, (r < M)%nat -> (bw + Z.of_nat w <= Z.of_nat (rho r))%Z /\ (rho r + w < n)%nat) ->
  (forall r r', (r < r')%nat -> (r' < M)%nat -> (bw + 2 * Z.of_nat w < Z.abs (Z.of_nat (rho r') - Z.of_nat (rho r)))%Z) ->
  0 <= ratio <= 1 -> (forall r, (r < M)%nat -> 0 < 97 / 100 * Rabs (A r) - slack q out nv) ->
  (forall r r', (r < r')%nat -> (r' < M)%nat ->
     INR (2 * w + 1) * (103 / 100 * Rabs (A r') + slack q out nv) <= ratio * (97 / 100 * Rabs (A r) - slack q out nv)) ->
  2 * (penalty * (INR (2 * w) * (ln 2 / IZR nv)) ^ 2) + INR (n - 1) * eps_of f64 < ln ((1 + eps_of f64) / (ratio ^ 2 + eps_of f64)) ->
  (Z.of_nat w + 1 <= v < bw)%Z ->
  exists xs, issq_cwt Css (r_Tx out) (Some (ridge_cc n M o, Mat n M (fun _ _ => v))) = Ok (Many xs) /\ length xs = S M /\ nth M xs [] = repeat 0 n /\
  forall r, (r < M)%nat -> length (nth r xs []) = n /\
    forall j, (j < n)%nat -> Rabs (nth j (nth r xs []) 0 - nth j (tone (A r) (phi r) (k r) n) 0) <= 3 / 100 * Rabs (A r) + slack q out nv.
Proof. exact (chord_ridges_recovered ord py fam q M A phi k n s out s' fs nv d Css rho w par f64 penalty bw o ratio v). Qed.
Print Assumptions C120_recovered.

(** two tones, 256 samples, default threshold, penalty and bandwidth *)
Example C120_case par : (forall F, sched_ok F par) -> exists sc out s' Css o xs,
  ssq_cwt serial_order false (gmw_wave gmw60) fam0 (arg_r sc) lead st0 = (Ok out, s') /\ adm_ssq gmw60 = Ok Css /\
  extract_ridges par true (r_Tx out) (r_scales out) 2 2 15 true = Ok o /\
  issq_cwt Css (r_Tx out) (Some (ridge_cc 256 2 o, Mat 256 2 (fun _ _ => 5%Z))) = Ok (Many xs) /\ nth 2 xs [] = repeat 0 256 /\
  forall j, (j < 256)%nat -> Rabs (nth j (nth 0 xs []) 0 - cos (2 * PI * INR j / 32)) <= 31 / 1000 /\
    Rabs (nth j (nth 1 xs []) 0 - 1 / 5 * cos (2 * PI * INR j / 4 + 1)) <= 7 / 1000.
Proof. exact (lead_recovered par). Qed.
