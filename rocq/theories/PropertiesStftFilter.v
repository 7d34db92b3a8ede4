(** C161: weighting the rows of [stft] and inverting is a time-invariant filter. *)
From Coq Require Import Reals Lra.
From Verif Require Import Py Cplx CplxProofs Padding Buffer BufferProofs Freqs Stft StftProofs StftMap StftEnergy StftInverse StftLsq StftFilter StftFilter2 StftFilterWit.
Import Stft.
Local Open Scope R_scope.

(** * C161: weighting the rows of stft and inverting filters the signal *)

(** any weights, any power of the window; [kernel]: the weights' inverse transform times the window's correlation with itself *)
Theorem C161_filter x a n w M tiny wa wl nf No e f32 : usable x a n w -> (3 <= n)%nat -> a_hop a = 1%Z ->
  get_window wa (or_default wl (Z.of_nat n)) (Z.of_nat n) = Ok w -> or_default nf (2 * Z.of_nat (n / 2))%Z = Z.of_nat n -> or_default No (Z.of_nat (length x)) = Z.of_nat (length x) ->
  0 <= tiny < Rsum n (fun r => nth r w 0 ^ (e + 1)) ->
  exists Sx dSx y, stft x a = Ok (Sx, dSx) /\ istft tiny (weighted_rows M Sx) wa nf wl 1 No (a_modulated a) e f32 = Ok y /\ length y = length x /\
  forall i, (n - 1 <= i)%nat -> (i + n <= length x)%nat ->
    nth i y 0 = Rsum (2 * n - 1) (fun j => let d := (Z.of_nat j - Z.of_nat (n - 1))%Z in kernel n w e M d * nth (Z.to_nat (Z.of_nat i - d)) x 0).
Proof. exact (filter_rows x a n w M tiny wa wl nf No e f32). Qed.
Print Assumptions C161_filter.

(** a tone of any frequency comes out multiplied by the [gain] *)
Theorem C161_wave A omega phi N a n w M tiny wa wl nf No f32 : let x := wave A omega phi N in usable x a n w -> (3 <= n)%nat -> a_hop a = 1%Z ->
  get_window wa (or_default wl (Z.of_nat n)) (Z.of_nat n) = Ok w -> or_default nf (2 * Z.of_nat (n / 2))%Z = Z.of_nat n -> or_default No (Z.of_nat N) = Z.of_nat N ->
  0 <= tiny < Rsum n (fun r => nth r w 0 ^ 2) ->
  exists Sx dSx y, stft x a = Ok (Sx, dSx) /\ istft tiny (weighted_rows M Sx) wa nf wl 1 No (a_modulated a) 1 f32 = Ok y /\ length y = N /\
  forall i, (n - 1 <= i)%nat -> (i + n <= N)%nat -> nth i y 0 = Re (Cmul (gain n w M omega) (Cmul (RtoC A) (cis (omega * INR i + phi)))).
Proof. exact (filter_wave A omega phi N a n w M tiny wa wl nf No f32). Qed.
Print Assumptions C161_wave.

(** real weights: scaled by an average of them, not moved in time *)
Theorem C161_scales A omega phi N a n w (m : nat -> R) lo hi tiny wa wl nf No f32 : let x := wave A omega phi N in usable x a n w -> (3 <= n)%nat -> a_hop a = 1%Z ->
  get_window wa (or_default wl (Z.of_nat n)) (Z.of_nat n) = Ok w -> or_default nf (2 * Z.of_nat (n / 2))%Z = Z.of_nat n -> or_default No (Z.of_nat N) = Z.of_nat N ->
  0 <= tiny < Rsum n (fun r => nth r w 0 ^ 2) -> (forall k, (k <= n / 2)%nat -> lo <= m k <= hi) ->
  exists Sx dSx y g, stft x a = Ok (Sx, dSx) /\ istft tiny (weighted_rows (fun k => RtoC (m k)) Sx) wa nf wl 1 No (a_modulated a) 1 f32 = Ok y /\
  g = Rsum n (fun k => m (Nat.min k (n - k)) * share n w omega k) /\ lo <= g <= hi /\
  forall i, (n - 1 <= i)%nat -> (i + n <= N)%nat -> nth i y 0 = g * nth i x 0.
Proof. exact (filter_scales A omega phi N a n w m  lo hi tiny wa wl nf No f32). Qed.
Print Assumptions C161_scales.

(** the gain is never larger than the largest weight *)
Theorem C161_bound n w M omega B : (1 <= n)%nat -> 0 < Rsum n (fun u => nth u w 0 ^ 2) -> (forall k, (k <= n / 2)%nat -> Cabs (M k) <= B) -> Cabs (gain n w M omega) <= B.
Proof. exact (gain_bound n w M omega B). Qed.
Print Assumptions C161_bound.

(** rectangular window, tone on a bin: exactly its row's weight *)
Theorem C161_flat n w c (m : nat -> R) q : (q < n)%nat -> c <> 0 -> (forall u, (u < n)%nat -> nth u w 0 = c) ->
  gain n w (fun k => RtoC (m k)) (2 * PI * INR q / INR n) = RtoC (m (Nat.min q (n - q))).
Proof. exact (gain_flat n w c m  q). Qed.
Print Assumptions C161_flat.

(** weights 0, 1, 5 and tones on the bins of four-sample frames *)
Example C161_case q : (q < 4)%nat -> let x := wave 3 (2 * PI * INR q / INR 4) 1 16 in
  exists Sx dSx y, stft x a4 = Ok (Sx, dSx) /\ istft 0 (weighted_rows (fun k => RtoC (m3 k)) Sx) (WArray four) (Some 4%Z) (Some 4%Z) 1 (Some 16%Z) true 1 false = Ok y /\
  forall i, (3 <= i <= 12)%nat -> nth i y 0 = m3 (Nat.min q (4 - q)) * nth i x 0.
Proof. exact (filter_case q). Qed.
