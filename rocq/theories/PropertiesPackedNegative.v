(** [packed] with a negative overlap. *)
From Coq Require Import Reals Lra.
From Verif Require Import Py Round Cplx CplxProofs Squeeze SqueezeProofs BinProofs Scales SsqueezeProofs ScaleThms FreqRange Search SearchProofs
  Chirp ChirpProofs Signals SignalsThms SignalsThms2 SignalsThms3 JumpsExact PackedNegative.
Local Open Scope R_scope.

(** * C86: frequency jumps and packed tones *)

(** a negative overlap: even tones leave out the last samples, odd tones the first *)
Theorem C86_packed_negative_partial s N freqs overlap k x t : packed s N freqs overlap k = Ok (x, t) ->
  let n := length t in let No := py_int (overlap * INR n) in let fs := packed_freqs (or_N s N) freqs in
  (No < 0)%Z -> length x = n /\
  forall j, (j < n)%nat -> nth j x 0 =
    Rsum (length fs) (fun i => if leaves n (- No) i j then cos (2 * PI * nth i fs 0 * nth j t 0) else 0).
Proof. exact (packed_negative s N freqs overlap k x t). Qed.
Print Assumptions C86_packed_negative_partial.

(** packed(4, [0, 0], overlap=-1/4) *)
Example C86_negative_case : exists x t, packed ts0 (Some 4%Z) (Some [0; 0]) (- (1 / 4)) (TK None None None) = Ok (x, t) /\
  length x = 4%nat /\ nth 0 x 0 = 1 /\ nth 1 x 0 = 2 /\ nth 3 x 0 = 1.
Proof. exact packed_negative_case. Qed.
