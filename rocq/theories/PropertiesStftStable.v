(** The inverse of [ssq_stft] when coefficients fall below [gamma], and when the signal changes. *)
From Coq Require Import Reals Lra ZifyBool ZifyNat.
From Verif Require Import Py Round Parallel Cplx Padding Buffer Freqs Stft Squeeze Scales Ssqueeze SqueezeProofs StftStable StftStable2 StftStableWitness.
Import Stft.
Local Open Scope R_scope.

(** * C14: the threshold costs at most [gamma] per row *)

(** as C14_issq_stft_formula, whatever the coefficients *)
Theorem C14_within_gamma ord x a fs t s rate n w nf wl f32 g : valid_order ord -> stft_ready x a fs t s rate n w nf wl g ->
  exists Tx Sx f Sfs y,
    ssq_stft ord x a fs t s = Ok (Tx, Sx, f, Sfs) /\ issq_stft Tx (a_window a) None nf wl 1 true f32 = Ok (One y) /\ length y = length x /\
    forall j, (j < length x)%nat ->
      let p := (Z.to_nat n / 2)%nat in
      let c := nth (Z.to_nat (n / 2)) w 0 in
      Rabs (nth j y 0 - rate / (2 * INR p) * (IZR n * nth j x 0 + (Re (el Sx 0%nat j) + (if Z.even n then Re (el Sx p j) else 0)) / c))
      <= Rabs rate / (2 * INR p) * (2 / Rabs c) * (INR (p + 1) * g).
Proof. exact (issq_within_gamma ord x a fs t s rate n w nf wl f32 g). Qed.
Print Assumptions C14_within_gamma.

(** one sample [c] at rate 2: back as 3 c, or as 0 *)
Example C14_within_gamma_case c gw : 0 <= c -> exists Tx Sx f Sfs, ssq_stft serial_order [c] a1 (Some 2) None (s1 gw) = Ok (Tx, Sx, f, Sfs) /\
  issq_stft Tx (WArray [1; 2; 2; 1]) None None None 1 true false = Ok (One [if spass_dec (s1 gw) (1 / 2) (2 * c) then 3 * c else 0]) /\ el Sx 0 0 = RtoC (2 * c).
Proof. exact (one_back c gw). Qed.

(** * C152: small changes of the signal are small changes of what is recovered *)

(** [e] bounds the difference of the signals; the frequencies found may differ arbitrarily *)
Theorem C152_stable ord x y a fs t s rate n w nf wl f32 g e : valid_order ord -> length y = length x ->
  stft_ready x a fs t s rate n w nf wl g -> stft_ready y a fs t s rate n w nf wl g ->
  0 <= e -> (forall i, (i < length x)%nat -> Rabs (nth i x 0 - nth i y 0) <= e) ->
  exists Tx Sx fx Sfs u Ty Sy fy v,
    ssq_stft ord x a fs t s = Ok (Tx, Sx, fx, Sfs) /\ issq_stft Tx (a_window a) None nf wl 1 true f32 = Ok (One u) /\
    ssq_stft ord y a fs t s = Ok (Ty, Sy, fy, Sfs) /\ issq_stft Ty (a_window a) None nf wl 1 true f32 = Ok (One v) /\
    forall j, (j < length x)%nat ->
      let p := (Z.to_nat n / 2)%nat in
      Rabs (nth j u 0 - nth j v 0) <=
        Rabs rate / (2 * INR p) * (2 / Rabs (nth (Z.to_nat (n / 2)) w 0)) * (INR (p + 1) * (e * Rsum (length w) (fun i => Rabs (nth i w 0)) + g)).
Proof. exact (issq_stft_stable ord x y a fs t s rate n w nf wl f32 g e). Qed.
Print Assumptions C152_stable.

(** one signal above, the other below [gamma] *)
Example C152_case gw : stft_ready [1] a1 (Some 2) None (s1 gw) 2 4 [1; 2; 2; 1] None None (1 / 2) /\
  stft_ready [1 / 8] a1 (Some 2) None (s1 gw) 2 4 [1; 2; 2; 1] None None (1 / 2) /\
  spass (s1 gw) (1 / 2) (2 * 1) /\ ~ spass (s1 gw) (1 / 2) (2 * (1 / 8)).
Proof. exact (stft_stable_case gw). Qed.

(** the [gamma] in the bound cannot go *)
Theorem C152_jumps K : exists e Tx Sx f Sfs u Ty Sy fy v, 0 < e /\
  ssq_stft serial_order [1 / 4 + e] a1 (Some 2) None (s1 false) = Ok (Tx, Sx, f, Sfs) /\
  issq_stft Tx (WArray [1; 2; 2; 1]) None None None 1 true false = Ok (One [u]) /\
  ssq_stft serial_order [1 / 4] a1 (Some 2) None (s1 false) = Ok (Ty, Sy, fy, Sfs) /\
  issq_stft Ty (WArray [1; 2; 2; 1]) None None None 1 true false = Ok (One [v]) /\
  K * e < Rabs (u - v).
Proof. exact (stft_jumps K). Qed.
Print Assumptions C152_jumps.
