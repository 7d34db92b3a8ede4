(** Signals with several components: error of the phase transform; components of [ssq_cwt]. *)
From Coq Require Import Reals Lra Lia List ZifyBool ZifyNat.
Import ListNotations.
From Verif Require Import Py Round Parallel Cplx CplxProofs Padding PaddingProofs Buffer Freqs Squeeze SqueezeThms Scales Ssqueeze SsqueezeProofs SsqWitness
  Cwt CwtProofs CwtThms CwtThms2 CwtTone CwtWitness CwtWitness2 SsqCwt SsqCwtProofs SsqCwtInv SsqCwtWitness ToneWitness Wavelets WaveletProofs Admiss AdmissThms AdmissThms3
  RoundTripGain GmwRoundTrip DefaultRoundTrip RoundTripWitness ToneThms Separate OctaveSep ChordSep Reassign ChordSqueeze ChordRecover ChordWitness.
Local Open Scope R_scope.

(** * C107: error of the phase transform *)

(** the phase transform misses [F] by at most the average distance of the occupied bins from [F], weighted by their levels in this row; any wavelet with real spectrum, any signal and padding *)
Theorem C107_spread py inst f a x s W sc dW s' fs xp n1 i j F : real_valued f -> uncached inst a s ->
  cwt py inst f a x s = (Ok (W, sc, Some dW), s') -> process_fs_and_t (a_fs a) (a_t a) (length x) = Ok fs ->
  pad_input (a_pad a) x = Ok (xp, n1) -> el W i j <> C0 ->
  Rabs (phase_ratio (el W i j) (el dW i j) - F) <=
  Rsum (length xp) (fun q => level f (a_l1 a) (nth i sc 0) xp q * Rabs (bin_hz fs (length xp) q - F)) / Cabs (el W i j).
Proof. exact (phase_spread py inst f a x s W sc dW s' fs xp n1 i j F). Qed.
Print Assumptions C107_spread.

(** one bin well above the others together *)
Theorem C107_dominant py inst f a x s W sc dW s' fs xp n1 i j m eps Fmax : real_valued f -> uncached inst a s ->
  cwt py inst f a x s = (Ok (W, sc, Some dW), s') -> process_fs_and_t (a_fs a) (a_t a) (length x) = Ok fs ->
  pad_input (a_pad a) x = Ok (xp, n1) -> (m < length xp)%nat -> 0 <= bin_hz fs (length xp) m ->
  let lv := level f (a_l1 a) (nth i sc 0) xp in
  0 < lv m -> others (length xp) m lv <= eps * lv m -> eps < 1 ->
  (forall q, (q < length xp)%nat -> lv q <> 0 -> Rabs (bin_hz fs (length xp) q - bin_hz fs (length xp) m) <= Fmax) ->
  (1 - eps) * lv m <= Cabs (el W i j) <= (1 + eps) * lv m /\
  Rabs (phase_cwt_pt (el W i j) (el dW i j) - bin_hz fs (length xp) m) <= Fmax * eps / (1 - eps).
Proof. exact (dominant_bin py inst f a x s W sc dW s' fs xp n1 i j m eps Fmax). Qed.
Print Assumptions C107_dominant.

(** the default wavelet, all other bins at least an octave away: a millionth of their size *)
Theorem C107_octave py inst a x s W sc dW s' fs xp n1 i j m : uncached inst a s ->
  cwt py inst (gmw_wave gmw60) a x s = (Ok (W, sc, Some dW), s') -> process_fs_and_t (a_fs a) (a_t a) (length x) = Ok fs -> 0 < fs ->
  pad_input (a_pad a) x = Ok (xp, n1) -> (0 < m)%nat -> (2 * m < length xp)%nat -> sig_dft xp m <> C0 -> octave_apart xp m ->
  let w := nth i sc 0 * (2 * PI * INR m / INR (length xp)) in
  0 < nth i sc 0 -> 9 <= w ^ 3 <= 30 ->
  let eps := rest xp m / 1000000 in eps < 1 ->
  let lv := (if a_l1 a then 1 else sqrt (nth i sc 0)) * (gmw60 w * Cabs (sig_dft xp m) / INR (length xp)) in
  0 < lv /\ (1 - eps) * lv <= Cabs (el W i j) <= (1 + eps) * lv /\
  Rabs (phase_cwt_pt (el W i j) (el dW i j) - INR m * fs / INR (length xp)) <= fs / 2 * eps / (1 - eps).
Proof. exact (octave_phase py inst a x s W sc dW s' fs xp n1 i j m). Qed.
Print Assumptions C107_octave.

(** sums of tones, as [phase_cwt] returns it *)
Theorem C107_chord py inst a M A phi k n s W sc dW s' fs i j r gamma : uncached inst a s -> a_pad a = None ->
  (forall r, (r < M)%nat -> (0 < k r)%nat /\ (2 * k r < n)%nat) -> octaves M k ->
  cwt py inst (gmw_wave gmw60) a (chord M A phi k n) s = (Ok (W, sc, Some dW), s') ->
  process_fs_and_t (a_fs a) (a_t a) n = Ok fs -> 0 < fs -> (r < M)%nat -> A r <> 0 ->
  let w := nth i sc 0 * (2 * PI * INR (k r) / INR n) in
  0 < nth i sc 0 -> 9 <= w ^ 3 <= 30 ->
  let eps := others M r (fun r' => Rabs (A r')) / Rabs (A r) / 1000000 in eps < 1 ->
  let lv := (if a_l1 a then 1 else sqrt (nth i sc 0)) * (gmw60 w * Rabs (A r) / 2) in
  (1 - eps) * lv <= Cabs (el W i j) <= (1 + eps) * lv /\
  (gamma <= (1 - eps) * lv -> exists om, el (phase_cwt gamma W dW) i j = Fin om /\
    Rabs (om - INR (k r) * fs / INR n) <= fs / 2 * eps / (1 - eps)).
Proof. exact (chord_phase py inst a M A phi k n s W sc dW s' fs i j r gamma). Qed.
Print Assumptions C107_chord.

Definition oct_k (r : nat) : nat := match r with O => 3 | _ => 6 end.
Example C107_case : exists W dW s' om, cwt false true (gmw_wave gmw60) (arg_d [1; 2; 4]) (chord 2 two_A two_phi oct_k 16) st0 = (Ok (W, [1; 2; 4], Some dW), s') /\
  el (phase_cwt 0 W dW) 1 5 = Fin om /\ Rabs (om - 3 / 16) <= 1 / 1000000.
Proof.
  assert (Hs : process_scales_arr true [1; 2; 4] = Ok (KLog 1)) by exact (scales124 true).
  assert (Hx : length (chord 2 two_A two_phi oct_k 16) = 16%nat) by apply chord_length.
  set (x := chord 2 two_A two_phi oct_k 16) in *.
  assert (Hp : pad_input None x = Ok (x, 0%Z)) by (unfold pad_input; destruct x eqn:E; [discriminate Hx|reflexivity]).
  assert (P : pre (gmw_wave gmw60) (arg_d [1; 2; 4]) x 1 x 0 [1; 2; 4]).
  { unfold pre. cbn [arg_d a_fs a_t a_l1 a_pad a_scales a_f64s]. split; [apply fs_1|].
    split; [reflexivity|]. split; [exact Hp|]. unfold process_scales. rewrite Hs. reflexivity. }
  pose proof (cwt_run false true (gmw_wave gmw60) (arg_d [1; 2; 4]) x st0 1 x 0 [1; 2; 4] P eq_refl eq_refl) as E. cbv zeta in E.
  change (a_deriv (arg_d [1; 2; 4])) with true in E. cbv iota in E.
  match type of E with _ = (Ok (?w, _, Some ?dw), ?s) => set (W := w) in E; set (dW := dw) in E; set (s' := s) in E end.
  assert (Hk : forall r, (r < 2)%nat -> (0 < oct_k r)%nat /\ (2 * oct_k r < 16)%nat) by (intros [|[|]] Hr; cbn; lia).
  assert (Ho : octaves 2 oct_k) by (intros [|[|]] [|[|]] Hr Hr' Hne; cbn; lia).
  assert (Ew : nth 1 [1; 2; 4] 0 * (2 * PI * INR (oct_k 0) / INR 16) = 3 / 4 * PI) by (cbn [nth oct_k]; rewrite (INR_IZR_INZ 3), (INR_IZR_INZ 16); cbn; field).
  assert (Eo : others 2 0 (fun r' => Rabs (two_A r')) / Rabs (two_A 0) / 1000000 = 1 / 2000000).
  { unfold others. cbn [Rsum two_A Nat.eqb]. rewrite !Rabs_right by lra. lra. }
  pose proof (C107_chord false true (arg_d [1; 2; 4]) 2 two_A two_phi oct_k 16 st0 W [1; 2; 4] dW s' 1 1 5 0 0 (or_introl eq_refl) eq_refl Hk Ho E (fs_1 16) ltac:(lra) ltac:(lia) ltac:(cbn; lra)) as C.
  cbv zeta in C. rewrite Ew, Eo in C. pose proof PI2_3_2. pose proof PI_4.
  assert (B1 : (3 / 4 * 3) ^ 3 <= (3 / 4 * PI) ^ 3) by (apply pow_incr; lra). assert (B2 : (3 / 4 * PI) ^ 3 <= (3 / 4 * 4) ^ 3) by (apply pow_incr; lra).
  specialize (C ltac:(cbn; lra) ltac:(split; lra) ltac:(lra)). destruct C as (C1 & C2).
  destruct C2 as (om & C2 & C3).
  { assert (0 < gmw60 (3 / 4 * PI)) by (apply gmw60_pos; lra). cbn [two_A arg_d a_l1]. rewrite Rabs_R1. lra. }
  exists W, dW, s', om. split; [exact E|]. split; [exact C2|]. replace (INR (oct_k 0) * 1 / INR 16) with (3 / 16) in C3 by (cbn [oct_k]; rewrite (INR_IZR_INZ 3), (INR_IZR_INZ 16); cbn; lra). lra.
Qed.

(** * C108: the components of a squeezed transform *)

(** any signal, any padding: every coefficient over the threshold is added, times [ln 2 / nv], to the row whose frequency is nearest (in octaves) its phase transform; nothing else is added anywhere *)
Theorem C108_reassigned ord py f fam q x s r s' fs nv d : log_run ord py f fam q x s r s' fs nv d ->
  0 < fs /\ nrows (r_Tx r) = length (r_scales r) /\ ncols (r_Tx r) = length x /\ length (r_freqs r) = length (r_scales r) /\
  (forall i, (S i < length (r_scales r))%nat -> log2 (nth i (r_freqs r) 0) = log2 (nth (S i) (r_freqs r) 0) + d) /\
  (exists f64s pat, cwt py true f (inner q fs (ScArr (r_scales r)) f64s true false pat) x s = (Ok (r_Wx r, r_scales r, Some (r_dWx r)), s')) /\
  ((forall i j, (i < length (r_scales r))%nat -> (j < length x)%nat -> passes q (Cabs (el (r_Wx r) i j)) ->
      in_reach r d (phase_cwt_pt (el (r_Wx r) i j) (el (r_dWx r) i j))) ->
  exists row : nat -> nat -> nat,
    (forall i j, (i < length (r_scales r))%nat -> (j < length x)%nat -> passes q (Cabs (el (r_Wx r) i j)) ->
       0 < phase_cwt_pt (el (r_Wx r) i j) (el (r_dWx r) i j) ->
       nearest_row r (phase_cwt_pt (el (r_Wx r) i j) (el (r_dWx r) i j)) (row i j)) /\
    forall k j, (k < length (r_scales r))%nat -> (j < length x)%nat ->
      el (r_Tx r) k j = Csum (length (r_scales r)) (fun i =>
        if passes_dec q (Cabs (el (r_Wx r) i j)) then
          if (row i j =? k)%nat then Cmul (el (r_Wx r) i j) (RtoC (ln 2 / IZR nv)) else C0
        else C0)).
Proof. exact (reassigned ord py f fam q x s r s' fs nv d). Qed.
Print Assumptions C108_reassigned.

(** tones at least three octaves apart: nothing further than one row from their frequencies *)
Theorem C108_sparse ord py fam q M A phi k n s out s' fs nv d : chord_run ord py fam q M A phi k n s out s' fs nv d ->
  forall rho : nat -> nat, (forall r, (r < M)%nat -> nearest_row out (tone_freq fs (k r) n) (rho r)) ->
  nrows (r_Tx out) = length (r_scales out) /\ ncols (r_Tx out) = n /\
  forall m j, (m < length (r_scales out))%nat -> (j < n)%nat -> (forall r, (r < M)%nat -> (m + 1 < rho r \/ rho r + 1 < m)%nat) -> el (r_Tx out) m j = C0.
Proof. exact (fun H rho Hr => let (a, b) := chord_squeezed ord py fam q M A phi k n s out s' fs nv d H rho Hr in conj a (let (c, e) := b in conj c (proj1 e))). Qed.
Print Assumptions C108_sparse.
(** [issq_cwt] with a band about each: one tone each, up to the wavelet's gain there, and no remainder *)
Theorem C108_components ord py fam q M A phi k n s out s' fs nv d : chord_run ord py fam q M A phi k n s out s' fs nv d ->
  forall Css (rho : nat -> nat) cc cw, 0 < Css -> (0 < M)%nat ->
  (forall r, (r < M)%nat -> nearest_row out (tone_freq fs (k r) n) (rho r)) ->
  nrows cc = n -> ncols cc = M -> nrows cw = n -> ncols cw = M ->
  (forall j r, (j < n)%nat -> (r < M)%nat -> (0 <= el cc j r)%Z /\ (Z.abs (el cc j r - Z.of_nat (rho r)) + 1 <= el cw j r)%Z) ->
  (forall j r r', (j < n)%nat -> (r < M)%nat -> (r' < M)%nat -> r' <> r -> (el cw j r + 1 < Z.abs (el cc j r - Z.of_nat (rho r')))%Z) ->
  exists xs, issq_cwt Css (r_Tx out) (Some (cc, cw)) = Ok (Many xs) /\ length xs = S M /\ nth M xs [] = repeat 0 n /\
  forall r, (r < M)%nat -> length (nth r xs []) = n /\
    forall j, (j < n)%nat -> Rabs (nth j (nth r xs []) 0 - nth j (tone (A r * (full_gain (gmw_wave gmw60) (r_scales out) nv (k r) n / Css)) (phi r) (k r) n) 0)
      <= 4 * ssq_gamma q * (INR (length (r_scales out)) * (ln 2 / IZR nv)) / Css.
Proof. exact (chord_components ord py fam q M A phi k n s out s' fs nv d). Qed.
Print Assumptions C108_components.

(** with the library's own constant and 32 voices or more, tones inside the scales: within 3%, plus [11 gamma] per unit of log scale range *)
Theorem C108_recovered ord py fam q M A phi k n s out s' fs nv d Css rho cc cw :
  chord_run ord py fam q M A phi k n s out s' fs nv d -> adm_ssq gmw60 = Ok Css -> (32 <= nv)%Z -> voices (r_scales out) nv ->
  (forall r, (r < M)%nat -> (nth 0 (r_scales out) 0 * (2 * PI * INR (k r) / INR n)) ^ 3 <= 10 /\
     40 <= (nth (length (r_scales out) - 1) (r_scales out) 0 * (2 * PI * INR (k r) / INR n)) ^ 3) -> (0 < M)%nat ->
  (forall r, (r < M)%nat -> nearest_row out (tone_freq fs (k r) n) (rho r)) ->
  nrows cc = n -> ncols cc = M -> nrows cw = n -> ncols cw = M ->
  (forall j r, (j < n)%nat -> (r < M)%nat -> (0 <= el cc j r)%Z /\ (Z.abs (el cc j r - Z.of_nat (rho r)) + 1 <= el cw j r)%Z) ->
  (forall j r r', (j < n)%nat -> (r < M)%nat -> (r' < M)%nat -> r' <> r -> (el cw j r + 1 < Z.abs (el cc j r - Z.of_nat (rho r')))%Z) ->
  exists xs, issq_cwt Css (r_Tx out) (Some (cc, cw)) = Ok (Many xs) /\ length xs = S M /\ nth M xs [] = repeat 0 n /\
  forall r, (r < M)%nat -> length (nth r xs []) = n /\
    forall j, (j < n)%nat -> Rabs (nth j (nth r xs []) 0 - nth j (tone (A r) (phi r) (k r) n) 0)
      <= 3 / 100 * Rabs (A r) + 11 * ssq_gamma q * (INR (length (r_scales out)) * (ln 2 / IZR nv)).
Proof. exact (chord_recovered ord py fam q M A phi k n s out s' fs nv d Css rho cc cw). Qed.
Print Assumptions C108_recovered.

Example C108_case : exists out Css cc cw xs s' sc, ssq_cwt serial_order false (gmw_wave gmw60) fam0 (arg_s sc) two st0 = (Ok out, s') /\
  issq_cwt Css (r_Tx out) (Some (cc, cw)) = Ok (Many xs) /\ length xs = 3%nat /\ nth 2 xs [] = repeat 0 32 /\
  (length (r_scales out) <= 225)%nat /\
  forall j, (j < 32)%nat -> Rabs (nth j (nth 0 xs []) 0 - cos (2 * PI * INR j / 32)) <= 3 / 100 + 11 / 1000 * (225 * (7 / 10 / 32)).
Proof.
  destruct two_run as (sc & out & s' & Css & d & rho & cc & cw & Es & Eo & H & HC & Hv & Hb & Hr & C1 & C2 & C3 & C4 & B1 & B2).
  destruct (C108_recovered _ _ _ _ _ _ _ _ _ _ _ _ _ _ _ _ _ _ _ H HC ltac:(lia) Hv Hb ltac:(lia) Hr C1 C2 C3 C4 B1 B2) as (xs & E & L & Z & B).
  exists out, Css, cc, cw, xs, s', sc. split; [exact (proj1 (proj2 (proj2 (proj1 H))))|]. split; [exact E|]. split; [exact L|]. split; [exact Z|].
  destruct two_scales as (sc' & Es' & HL & _). rewrite Es in Es'. injection Es' as <-. rewrite Eo. split; [lia|].
  intros j Hj. destruct (B 0%nat ltac:(lia)) as (_ & B0). specialize (B0 j Hj). unfold tone in B0. rewrite nth_tab in B0 by exact Hj.
  cbn [two_A two_phi two_k] in B0. rewrite (INR_IZR_INZ 32) in B0. change (INR 1) with 1 in B0. change (IZR (Z.of_nat 32)) with 32 in B0. rewrite Rabs_R1, Eo in B0.
  replace (1 * cos (2 * PI * 1 * INR j / 32 + 0)) with (cos (2 * PI * INR j / 32)) in B0 by (rewrite Rmult_1_l; f_equal; field).
  eapply Rle_trans; [exact B0|]. change (ssq_gamma (arg_s sc)) with (1 / 1000). pose proof ln2_high.
  assert (INR (length sc) <= 225) by (replace 225 with (INR 225) by (rewrite INR_IZR_INZ; reflexivity); apply le_INR; lia). pose proof (pos_INR (length sc)).
  assert (0 < ln 2) by apply ln2_pos. assert (INR (length sc) * (ln 2 / 32) <= 225 * (7 / 10 / 32)) by (apply Rmult_le_compat; lra). lra.
Qed.
