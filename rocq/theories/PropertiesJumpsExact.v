(** [jumps] and [packed], exactly. *)
From Coq Require Import Reals Lra.
From Verif Require Import Py Round Cplx CplxProofs Squeeze SqueezeProofs BinProofs Scales SsqueezeProofs ScaleThms FreqRange Search SearchProofs
  Chirp ChirpProofs Signals SignalsThms SignalsThms2 SignalsThms3 Tones JumpsExact.
Local Open Scope R_scope.

(** * C86: frequency jumps and packed tones *)

(** the time points for any [tmin], with or without the end point *)
Theorem C86_jumps_points_partial s N freqs k x t : jumps s N freqs k = Ok (x, t) ->
  let n := n_freqs freqs in let L := (Z.of_nat n * (or_N s N / Z.of_nat n))%Z in (2 <= L)%Z ->
  Z.of_nat (length t) = L /\
  forall q, (q < length t)%nat ->
    nth q t 0 = kw_tmin s k + INR q * ((INR n * (kw_tmax s k - kw_tmin s k) - kw_tmin s k) / IZR (if kw_end s k then L - 1 else L)).
Proof. exact (jumps_points s N freqs k x t). Qed.
Print Assumptions C86_jumps_points_partial.

(** time runs forward exactly if [tmin] is less than the time all segments take *)
Theorem C86_jumps_forward_partial s N freqs k x t : jumps s N freqs k = Ok (x, t) ->
  let n := n_freqs freqs in (2 <= Z.of_nat n * (or_N s N / Z.of_nat n))%Z ->
  ((forall q, (S q < length t)%nat -> nth q t 0 < nth (S q) t 0) <-> kw_tmin s k < INR n * (kw_tmax s k - kw_tmin s k)).
Proof. exact (jumps_forward s N freqs k x t). Qed.
Print Assumptions C86_jumps_forward_partial.

(** [N] samples exactly if the number of frequencies divides [N] *)
Theorem C86_jumps_whole_partial s N freqs k x t : jumps s N freqs k = Ok (x, t) ->
  (Z.of_nat (length x) = or_N s N <-> (Z.of_nat (n_freqs freqs) | or_N s N)%Z).
Proof. exact (jumps_whole s N freqs k x t). Qed.
Print Assumptions C86_jumps_whole_partial.

(** an overlap of no samples: the odd tones cover everything, the even ones nothing *)
Theorem C86_packed_none_partial s N freqs overlap k x t : packed s N freqs overlap k = Ok (x, t) ->
  let fs := packed_freqs (or_N s N) freqs in py_int (overlap * INR (length t)) = 0%Z -> length x = length t /\
  forall j, (j < length t)%nat -> nth j x 0 = Rsum (length fs) (fun i => if Nat.odd i then cos (2 * PI * nth i fs 0 * nth j t 0) else 0).
Proof. exact (packed_none s N freqs overlap k x t). Qed.
Print Assumptions C86_packed_none_partial.

(** three frequencies from 1 to 2 in 12 samples; 10 samples are not three equal segments *)
Example C86_exact_case : exists x t x' t', jumps ts0 (Some 12%Z) (Some f123) (TK (Some 1) (Some 2) (Some false)) = Ok (x, t) /\
  nth 6 t 0 = 2 /\ (forall q, (S q < length t)%nat -> nth q t 0 < nth (S q) t 0) /\ Z.of_nat (length x) = 12%Z /\
  jumps ts0 (Some 10%Z) (Some f123) (TK None None None) = Ok (x', t') /\ Z.of_nat (length x') <> 10%Z.
Proof. exact jumps_exact_case. Qed.

(** * C176: default frequencies of jumps and packed do not alias *)

(** from 0 to 1 with the end point, jumps aliases for every [N] *)
Theorem C176_jumps_every_refuted s N k x t : kw_tmin s k = 0 -> kw_tmax s k = 1 -> kw_end s k = true -> (4 <= or_N s N)%Z ->
  jumps s N None k = Ok (x, t) -> ~ below_nyquist (IZR (or_N s N / 4) / 2) t.
Proof. exact (jumps_closed_alias s N k x t). Qed.
Print Assumptions C176_jumps_every_refuted.

(** TestSignals(512).jumps() has a frequency of 64, above half its sampling rate *)
Example C176_every_case : exists x t, jumps ts0 None None (TK None None None) = Ok (x, t) /\ ~ below_nyquist 64 t.
Proof. exact closed_alias_case. Qed.
