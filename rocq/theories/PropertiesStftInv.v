(** istft of arrays that are no signal's stft. *)
From Coq Require Import Reals Lra ZifyBool ZifyNat.
From Verif Require Import Py Cplx CplxProofs Padding Buffer BufferProofs Freqs Stft StftProofs StftMap StftEnergy StftInverse StftLsq StftLsqCase.
Local Open Scope R_scope.

(** * C143: istft is the least-squares inverse *)

(** [energy]: squared magnitudes of all bins, mirrored ones included; [wsum w hop H 2 t]: the squared window values over sample [t]; [frame]: the slice of signal a column stands for; [misfit]: squared distance between windowed slices and frames *)

(** the docstring's equation, for any array and any [win_exp].  Missing in what follows: padding other than zeros in the distance, where it fails *)
Theorem C143_formula_partial Sx wa w n N hop wl nf No modulated f32 e tiny : istft_ready Sx wa w n N hop wl nf No f32 ->
  exists y, istft tiny Sx wa nf wl hop No modulated e f32 = Ok y /\ Z.of_nat (length y) = N /\
    forall i, (i < Z.to_nat N)%nat ->
      let t := (Z.to_nat (n / 2) + i)%nat in
      let s := wsum w (Z.to_nat hop) (ncols Sx) (e + 1) t in
      let v := over (Z.to_nat hop) (Z.to_nat n) (ncols Sx) t (fun h r => (nth r (frame modulated (Z.to_nat n) Sx h) 0 * nth r w 0 ^ e)%R) in
      ((0 <= tiny < s)%R -> nth i y 0%R = (v / s)%R) /\ ((s < tiny)%R -> nth i y 0%R = v).
Proof. exact (istft_any Sx wa w n N hop wl nf No modulated f32 e tiny). Qed.
Print Assumptions C143_formula_partial.

(** zero padding: the distance of any [stft] to the array is the distance of [stft(istft(array))], plus a weighted squared distance of the signals *)
Theorem C143_nearest_partial tiny a n w Tx N wa wl nf No f32 y : (3 <= n)%nat -> a_padtype a = PZero -> 0 <= tiny ->
  (forall x, length x = N -> usable x a n w) -> nrows Tx = (n / 2 + 1)%nat ->
  istft_ready Tx wa w (Z.of_nat n) (Z.of_nat N) (a_hop a) wl nf No f32 ->
  (forall i, (i < N)%nat -> tiny < wsum w (Z.to_nat (a_hop a)) (ncols Tx) 2 (n / 2 + i)) ->
  istft tiny Tx wa nf wl (a_hop a) No (a_modulated a) 1 f32 = Ok y ->
  length y = N /\ exists Y dY, stft y a = Ok (Y, dY) /\
  forall x, length x = N -> exists X dX, stft x a = Ok (X, dX) /\
    energy n (mdiff X Tx) = energy n (mdiff Y Tx) + INR n * Rsum N (fun i => wsum w (Z.to_nat (a_hop a)) (ncols Tx) 2 (n / 2 + i) * (nth i x 0 - nth i y 0) ^ 2).
Proof. exact (istft_nearest tiny a n w Tx N wa wl nf No f32 y). Qed.
Print Assumptions C143_nearest_partial.

Theorem C143_only_nearest_partial tiny a n w Tx N wa wl nf No f32 y : (3 <= n)%nat -> a_padtype a = PZero -> 0 <= tiny ->
  (forall x, length x = N -> usable x a n w) -> nrows Tx = (n / 2 + 1)%nat ->
  istft_ready Tx wa w (Z.of_nat n) (Z.of_nat N) (a_hop a) wl nf No f32 ->
  (forall i, (i < N)%nat -> tiny < wsum w (Z.to_nat (a_hop a)) (ncols Tx) 2 (n / 2 + i)) ->
  istft tiny Tx wa nf wl (a_hop a) No (a_modulated a) 1 f32 = Ok y ->
  forall x, length x = N -> x <> y -> exists X dX Y dY, stft x a = Ok (X, dX) /\ stft y a = Ok (Y, dY) /\ energy n (mdiff Y Tx) < energy n (mdiff X Tx).
Proof. exact (istft_only_nearest tiny a n w Tx N wa wl nf No f32 y). Qed.
Print Assumptions C143_only_nearest_partial.

(** any padding: whatever the padded margins [z] hold, putting [istft]'s answer between them never makes the slices fit worse *)
Theorem C143_slices_partial Sx wa w n N hop wl nf No modulated f32 tiny y : istft_ready Sx wa w n N hop wl nf No f32 -> (0 <= tiny)%R ->
  (forall i, (i < Z.to_nat N)%nat -> (tiny < wsum w (Z.to_nat hop) (ncols Sx) 2 (Z.to_nat (n / 2) + i))%R) ->
  istft tiny Sx wa nf wl hop No modulated 1 f32 = Ok y ->
  forall z, (misfit modulated w (Z.to_nat hop) Sx (splice (Z.to_nat (n / 2)) y z) <= misfit modulated w (Z.to_nat hop) Sx z)%R.
Proof. exact (istft_least_squares Sx wa w n N hop wl nf No modulated f32 tiny y). Qed.
Print Assumptions C143_slices_partial.

Example C143_case : istft 0 (t3 sl_a) (WArray [1; 1; 1]) (Some 3%Z) (Some 3%Z) 1 (Some 3%Z) true 1 false = Ok [3; 0; 0] /\
  forall x, length x = 3%nat -> x <> [3; 0; 0] -> exists X dX Y dY, stft x (a3 PZero) = Ok (X, dX) /\ stft [3; 0; 0] (a3 PZero) = Ok (Y, dY) /\
    energy 3 (mdiff Y (t3 sl_a)) < energy 3 (mdiff X (t3 sl_a)).
Proof. exact lsq_case. Qed.

(** reflect, the default *)

Theorem C143_reflect_refuted : exists a n w Tx y x X dX Y dY, a_padtype a = PReflect /\ usable x a n w /\ usable y a n w /\ length x = length y /\
  istft_ready Tx (a_window a) w (Z.of_nat n) (Z.of_nat (length x)) (a_hop a) (a_win_len a) (a_n_fft a) (Some (Z.of_nat (length x))) (a_f32 a) /\
  (forall i, (i < length x)%nat -> 0 < wsum w (Z.to_nat (a_hop a)) (ncols Tx) 2 (n / 2 + i)) /\
  istft 0 Tx (a_window a) (a_n_fft a) (a_win_len a) (a_hop a) (Some (Z.of_nat (length x))) (a_modulated a) 1 (a_f32 a) = Ok y /\
  stft x a = Ok (X, dX) /\ stft y a = Ok (Y, dY) /\ energy n (mdiff X Tx) < energy n (mdiff Y Tx).
Proof. exact reflect_not_nearest. Qed.
Print Assumptions C143_reflect_refuted.

(** * C144: istft is linear *)

Theorem C144_linear Sx Tx c d wa w n N hop wl nf No modulated f32 e tiny : istft_ready Sx wa w n N hop wl nf No f32 ->
  nrows Tx = nrows Sx -> ncols Tx = ncols Sx -> 0 <= tiny ->
  (forall i, (i < Z.to_nat N)%nat -> wsum w (Z.to_nat hop) (ncols Sx) (e + 1) (Z.to_nat (n / 2) + i) <> tiny) ->
  exists y z u, istft tiny Sx wa nf wl hop No modulated e f32 = Ok y /\ istft tiny Tx wa nf wl hop No modulated e f32 = Ok z /\
    istft tiny (mlin c Sx d Tx) wa nf wl hop No modulated e f32 = Ok u /\
    Z.of_nat (length y) = N /\ Z.of_nat (length z) = N /\ Z.of_nat (length u) = N /\
    forall i, (i < Z.to_nat N)%nat -> nth i u 0 = c * nth i y 0 + d * nth i z 0.
Proof. exact (istft_linear Sx Tx c d wa w n N hop wl nf No modulated f32 e tiny). Qed.
Print Assumptions C144_linear.

Example C144_case : exists y z u, istft 0 (t3 sl_a) (WArray [1; 1; 1]) (Some 3%Z) (Some 3%Z) 1 (Some 3%Z) true 0 false = Ok y /\
  istft 0 (t3 sl_b) (WArray [1; 1; 1]) (Some 3%Z) (Some 3%Z) 1 (Some 3%Z) true 0 false = Ok z /\
  istft 0 (mlin 2 (t3 sl_a) (-3) (t3 sl_b)) (WArray [1; 1; 1]) (Some 3%Z) (Some 3%Z) 1 (Some 3%Z) true 0 false = Ok u /\
  forall i, (i < 3)%nat -> nth i u 0 = 2 * nth i y 0 + -3 * nth i z 0.
Proof. exact linear_case. Qed.

(** * C145: istft does not amplify errors *)

Theorem C145_stable Sx Tx wa w n N hop wl nf No modulated f32 tiny : istft_ready Sx wa w (Z.of_nat n) N hop wl nf No f32 ->
  nrows Sx = (n / 2 + 1)%nat -> nrows Tx = nrows Sx -> ncols Tx = ncols Sx -> 0 <= tiny ->
  let s i := wsum w (Z.to_nat hop) (ncols Sx) 2 (n / 2 + i) in
  (forall i, (i < Z.to_nat N)%nat -> tiny < s i) ->
  exists y z, istft tiny Sx wa nf wl hop No modulated 1 f32 = Ok y /\ istft tiny Tx wa nf wl hop No modulated 1 f32 = Ok z /\
    INR n * Rsum (Z.to_nat N) (fun i => s i * (nth i y 0 - nth i z 0) ^ 2) <= energy n (mdiff Sx Tx).
Proof. exact (istft_stable Sx Tx wa w n N hop wl nf No modulated f32 tiny). Qed.
Print Assumptions C145_stable.

Example C145_case : exists y z, istft 0 (t3 sl_a) (WArray [1; 1; 1]) (Some 3%Z) (Some 3%Z) 1 (Some 3%Z) true 1 false = Ok y /\
  istft 0 (t3 sl_b) (WArray [1; 1; 1]) (Some 3%Z) (Some 3%Z) 1 (Some 3%Z) true 1 false = Ok z /\
  INR 3 * Rsum 3 (fun i => wsum [1; 1; 1] 1 3 2 (1 + i) * (nth i y 0 - nth i z 0) ^ 2) <= energy 3 (mdiff (t3 sl_a) (t3 sl_b)).
Proof. exact stable_case. Qed.
