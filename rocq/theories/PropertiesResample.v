(** One band-limited signal at two sampling rates. *)
From Coq Require Import Reals Lra List ZifyBool ZifyNat.
Import ListNotations.
From Verif Require Import Py Round Parallel Cplx CplxProofs Padding PaddingProofs Buffer Freqs Squeeze SqueezeProofs Scales Ssqueeze Cwt CwtProofs CwtThms CwtThms2 CwtWitness SsqCwt SsqCwtProofs
  SsqCwtWitness RoundTripGain CwtAnalytic CwtWitness2 CwtResample SsqResample ResampleWitness.
Local Open Scope R_scope.

(** * C150: Transforms of one band-limited periodic signal at two sampling rates agree *)

(** [samples n T P]: n samples of one period T of [P]; [periodic]: a mean and cosines below half of either sampling rate; scales keep their duration in seconds, columns their instant; [l_norm]: 1 for norm L1, and sqrt of the scale for L2 *)
Theorem C150_cwt py inst f g a T mu M A phi k n st W sc dW st' py' inst' a' n' stb W' sc' dW' stb' i i' j j' :
  spectrum f g -> 0 < T -> sampled_run py inst f a T mu M A phi k n st W sc dW st' -> sampled_run py' inst' f a' T mu M A phi k n' stb W' sc' dW' stb' ->
  0 < nth i sc 0 -> nth i' sc' 0 / INR n' = nth i sc 0 / INR n -> INR j' / INR n' = INR j / INR n ->
  Cmul (RtoC (/ l_norm a' (nth i' sc' 0))) (el W' i' j') = Cmul (RtoC (/ l_norm a (nth i sc 0))) (el W i j) /\
  Cmul (RtoC (/ l_norm a' (nth i' sc' 0))) (el dW' i' j') = Cmul (RtoC (/ l_norm a (nth i sc 0))) (el dW i j).
Proof. exact (resampled py inst f g a T mu M A phi k n st W sc dW st' py' inst' a' n' stb W' sc' dW' stb' i i' j j'). Qed.
Print Assumptions C150_cwt.

(** [at_rate q sc fs]: the same call with its scales and [fs]; [ssq_freqs] in Hz stays *)
Theorem C150_ssq_cwt ord py f g fam q T mu M A phi k n sc v nv s r s' ord' py' fam' n' sc' sb r' sb' : spectrum f g -> 0 < T ->
  rate_run ord py f fam q T mu M A phi k n sc v nv s r s' -> rate_run ord' py' f fam' q T mu M A phi k n' sc' v nv sb r' sb' ->
  length sc' = length sc -> (forall i, (i < length sc)%nat -> nth i sc' 0 / INR n' = nth i sc 0 / INR n) ->
  r_freqs r' = r_freqs r /\ nrows (r_Tx r') = nrows (r_Tx r) /\
  forall j j', (j < n)%nat -> (j' < n')%nat -> INR j' / INR n' = INR j / INR n -> forall i, (i < length sc)%nat ->
    el (r_Wx r') i j' = el (r_Wx r) i j /\ el (r_dWx r') i j' = el (r_dWx r) i j /\ el (r_Tx r') i j' = el (r_Tx r) i j.
Proof. exact (ssq_resampled ord py f g fam q T mu M A phi k n sc v nv s r s' ord' py' fam' n' sc' sb r' sb'). Qed.
Print Assumptions C150_ssq_cwt.

(** a cosine of period 4 at 4 and 16 samples, scales 1, 2, 4 and 4, 8, 16 *)
Example C150_case : exists r s1 r' s1', spectrum step_wave (fun _ => 1) /\ 0 < 4 /\
  rate_run serial_order false step_wave fam0 qr 4 0 1 (fun _ => 1) (fun _ => 0) (fun _ => 1%nat) 4 [1; 2; 4] [1; 2; 3] 1 st0 r s1 /\
  rate_run serial_order false step_wave fam0 qr 4 0 1 (fun _ => 1) (fun _ => 0) (fun _ => 1%nat) 16 [4; 8; 16] [1; 2; 3] 1 st0 r' s1' /\
  (forall i, (i < 3)%nat -> nth i [4; 8; 16] 0 / INR 16 = nth i [1; 2; 4] 0 / INR 4) /\ INR 4 / INR 16 = INR 1 / INR 4 /\
  nth 1 (samples 4 4 cosine) 7 = nth 4 (samples 16 4 cosine) 7.
Proof. exact resample_case. Qed.
