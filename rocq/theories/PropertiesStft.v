(** C07-C13, C58: short-time Fourier transform, its inverse, windows, DFT identities. *)
From Verif Require Import Py Padding Buffer Cplx CplxProofs Freqs Stft StftProofs WindowProofs.
Local Open Scope Z_scope.

(** [pad_usable]: any padtype, except that 'symmetric' needs pads of 1..len(x) samples
    (C02).  [Hlw]: the window got its n_fft samples (C12). *)
Theorem C07_stft_shape x a n w :
  let N := Z.of_nat (length x) in
  x <> [] -> 1 <= n -> 1 <= a_hop a -> stft_n_fft a N = Ok n ->
  get_window (a_window a) (stft_win_len a n) n = Ok w -> Z.of_nat (length w) = n ->
  (a_f32 a = true -> a_hop a <= n) ->
  a_padtype a <> PSymmetric \/ (2 <= n /\ n - 1 <= 2 * N) ->
  exists Sx dSx, stft x a = Ok (Sx, dSx) /\
    nrows Sx = (Z.to_nat n / 2 + 1)%nat /\ nrows dSx = nrows Sx /\ ncols dSx = ncols Sx /\
    Z.of_nat (ncols Sx) = (N - 1) / a_hop a + 1 /\
    (forall i, 0 <= i < N -> exists h, (h < ncols Sx)%nat /\
       a_hop a * Z.of_nat h <= i < a_hop a * Z.of_nat h + a_hop a).
Proof. exact (stft_shape x a n w). Qed.
Print Assumptions C07_stft_shape.

Example C07_case :
  let x := [3; 1; 4; 1; 5; 9; 2]%R in
  let a := SA 1 (WArray [1; 2; 2; 1]%R) (Some 4) None 3 true PSymmetric true in
  exists Sx dSx, stft x a = Ok (Sx, dSx) /\ nrows Sx = 3%nat /\ ncols Sx = 3%nat.
Proof.
  intros x a.
  destruct (C07_stft_shape x a 4 [1; 2; 2; 1]%R) as (Sx & dSx & E & Hr & _ & _ & Hc & _);
    try reflexivity; try discriminate; try lia.
  { right. split; discriminate. }
  exists Sx, dSx. split; [exact E|]. split; [exact Hr|].
  change (Z.of_nat (ncols Sx) = 3) in Hc. lia.
Qed.

(** the excluded case fails: 'symmetric' with n_fft = 1 *)
Theorem C07_symmetric_refuted :
  exists x a S dS, x <> [] /\ a_n_fft a = Some 1 /\ a_hop a = 1 /\
    stft x a = Ok (S, dS) /\ Z.of_nat (ncols S) <> (Z.of_nat (length x) - 1) / 1 + 1.
Proof. exact stft_symmetric_refuted. Qed.
Print Assumptions C07_symmetric_refuted.

(** The formula, for both returned arrays.  [xp] is the padded signal: it holds [x] from
    index [n//2] on, so the window centre [u = n//2] of hop [h] sits on [x[h*hop]]. *)
Theorem C08_stft_formula x a n w :
  let N := Z.of_nat (length x) in
  x <> [] -> 1 <= n -> 1 <= a_hop a -> stft_n_fft a N = Ok n ->
  get_window (a_window a) (stft_win_len a n) n = Ok w -> Z.of_nat (length w) = n ->
  (a_f32 a = true -> a_hop a <= n) ->
  a_padtype a <> PSymmetric \/ (2 <= n /\ n - 1 <= 2 * N) ->
  let ref := if a_modulated a then n / 2 else 0 in
  let val g xp k h := Csum (Z.to_nat n) (fun u =>
    Cmul (RtoC (nth (Z.to_nat (a_hop a) * h + u) xp 0 * nth u g 0)%R)
         (cis (2 * PI * IZR (- (Z.of_nat k * (Z.of_nat u - ref))) / INR (Z.to_nat n)))) in
  exists xp n_up n2 Sx dSx,
    padsignal 0%R x (a_padtype a) (Some (N + n - 1)) = Ok (xp, n_up, n / 2, n2) /\
    Z.of_nat (length xp) = N + n - 1 /\
    (forall i, (i < length x)%nat -> nth (Z.to_nat (n / 2) + i) xp 0%R = nth i x 0%R) /\
    stft x a = Ok (Sx, dSx) /\
    (forall h, (h < ncols Sx)%nat -> a_hop a * Z.of_nat h + n <= Z.of_nat (length xp)) /\
    (forall k h, (h < ncols Sx)%nat -> el Sx k h = val w xp k h) /\
    (forall k h, (h < ncols Sx)%nat -> el dSx k h =
       val (if a_modulated a then map (fun v => (v * a_fs a)%R) (diff_window w)
            else diff_window w) xp k h).
Proof. exact (stft_formula x a n w). Qed.
Print Assumptions C08_stft_formula.
(** the hypotheses hold together: see [C07_case]; odd n_fft, unmodulated: *)
Example C08_case :
  let x := [3; 1; 4; 1; 5]%R in
  let a := SA 1 (WArray [1; 2; 1]%R) (Some 3) None 2 false PZero false in
  stft_n_fft a 5 = Ok 3 /\ get_window (a_window a) (stft_win_len a 3) 3 = Ok [1; 2; 1]%R /\
  padsignal 0%R x PZero (Some 7) = Ok ([0; 3; 1; 4; 1; 5; 0]%R, 7, 1, 1).
Proof. vm_compute. auto. Qed.

(** With modulated=False the derivative window is not scaled by the sampling rate. *)
Theorem C08_unmodulated_derivative_ignores_fs_refuted :
  exists x a a' dS dS' S S', a_fs a <> a_fs a' /\
    (a_window a, a_n_fft a, a_win_len a, a_hop a, a_modulated a, a_padtype a, a_f32 a) =
    (a_window a', a_n_fft a', a_win_len a', a_hop a', a_modulated a', a_padtype a', a_f32 a') /\
    stft x a = Ok (S, dS) /\ stft x a' = Ok (S', dS') /\ dS = dS' /\
    (exists k h, (k < nrows dS)%nat /\ (h < ncols dS)%nat /\ el dS k h <> C0).
Proof. exact unmod_fs_refuted. Qed.
Print Assumptions C08_unmodulated_derivative_ignores_fs_refuted.

(** Perfect reconstruction.  [wsum w hop H p t] is the sum over the [H] hops covering
    padded sample [t] of [w[t - h*hop]^p]. *)
Theorem C09_istft_inverts_stft x a n w wa wl nf e tiny f32 :
  let N := Z.of_nat (length x) in
  let H := Z.to_nat ((N - 1) / a_hop a + 1) in
  let hop := Z.to_nat (a_hop a) in
  x <> [] -> 3 <= n -> 1 <= a_hop a -> stft_n_fft a N = Ok n ->
  get_window (a_window a) (stft_win_len a n) n = Ok w -> Z.of_nat (length w) = n ->
  (a_f32 a = true \/ f32 = true -> a_hop a <= n) ->
  a_padtype a <> PSymmetric \/ (2 <= n /\ n - 1 <= 2 * N) ->
  get_window wa (or_default wl n) n = Ok w ->
  nf = Some n \/ (Z.even n = true /\ (nf = None \/ nf = Some 0)) ->
  (forall i, (i < length x)%nat ->
     (0 <= tiny < Rsum H (fun h =>
        let t := (Z.to_nat (n / 2) + i)%nat in
        if (h * hop <=? t)%nat && (t <? h * hop + length w)%nat
        then nth (t - h * hop) w 0 ^ (e + 1) else 0))%R) ->
  exists Sx dSx, stft x a = Ok (Sx, dSx) /\
    istft tiny Sx wa nf wl (a_hop a) (Some N) (a_modulated a) e f32 = Ok x.
Proof.
  cbv zeta. exact (fun Hx Hn Hh Hnf Hw Hl Hf Hp Hw' Hnf' Hpos =>
    roundtrip x a n w wa wl nf (Some (Z.of_nat (length x))) e tiny f32
      Hx Hn Hh Hnf Hw Hl Hf Hp Hw' Hnf' eq_refl Hpos).
Qed.
Print Assumptions C09_istft_inverts_stft.

(** A usable sufficient condition: nonnegative window powers, above [tiny] on the hop
    right of the centre, and hop_len <= ceil(n_fft/2). *)
Theorem C09_window_condition (x : list R) a n w e tiny :
  let N := Z.of_nat (length x) in
  let H := Z.to_nat ((N - 1) / a_hop a + 1) in
  let hop := Z.to_nat (a_hop a) in
  x <> [] -> 3 <= n -> 1 <= a_hop a -> Z.of_nat (length w) = n ->
  (0 <= tiny)%R -> n / 2 + a_hop a <= n ->
  (forall r, (r < length w)%nat -> (0 <= nth r w 0 ^ (e + 1))%R) ->
  (forall r, (Z.to_nat (n / 2) <= r < Z.to_nat (n / 2 + a_hop a))%nat ->
     (tiny < nth r w 0 ^ (e + 1))%R) ->
  forall i, (i < length x)%nat ->
     (0 <= tiny < Rsum H (fun h =>
        let t := (Z.to_nat (n / 2) + i)%nat in
        if (h * hop <=? t)%nat && (t <? h * hop + length w)%nat
        then nth (t - h * hop) w 0 ^ (e + 1) else 0))%R.
Proof. exact (coverage x a n w e tiny). Qed.
Print Assumptions C09_window_condition.

(** both theorems applied: boxcar of 4, hop 2, five samples *)
Example C09_case tiny : (0 <= tiny < 1)%R ->
  let x := [3; 1; 4; 1; 5]%R in
  let w := [1; 1; 1; 1]%R in
  let a := SA 1 (WArray w) (Some 4) None 2 true PReflect true in
  exists Sx dSx, stft x a = Ok (Sx, dSx) /\
    istft tiny Sx (WArray w) None None 2 (Some 5) true 1 true = Ok x.
Proof.
  intros Ht x w a.
  apply (C09_istft_inverts_stft x a 4 w (WArray w) None None 1 tiny true);
    try reflexivity; try discriminate; try lia.
  - left. discriminate.
  - right. split; [reflexivity|]. left. reflexivity.
  - apply (C09_window_condition x a 4 w 1 tiny); try reflexivity; try discriminate; try lia; try lra.
    + intros r Hr. apply pow_le.
      cbn in Hr. destruct r as [|[|[|[|r]]]]; cbn; try lra. lia.
    + intros r Hr. change (2 <= r < 4)%nat in Hr.
      assert (r = 2 \/ r = 3)%nat as [-> | ->] by lia; cbn; lra.
Qed.

(** The non-zero-overlap-add criterion that [_check_NOLA] warns about does not ensure
    reconstruction. *)
Theorem C09_NOLA_sufficient_refuted tiny : (0 < tiny)%R ->
  exists x Sx dSx y,
    (forall r, (r < 4)%nat -> (/ 10000000000 < Rsum 4 (fun j =>
       if (r + j * 4 <? 4)%nat then nth (r + j * 4) [1; 1; 1; 1] 0 * nth (r + j * 4) [1; 1; 1; 1] 0
       else 0))%R) /\
    stft x (SA 1 (WArray [1; 1; 1; 1]%R) (Some 4) None 4 true PZero false) = Ok (Sx, dSx) /\
    istft tiny Sx (WArray [1; 1; 1; 1]%R) (Some 4) None 4 (Some 4) true 1 false = Ok y /\
    length y = length x /\ y <> x.
Proof. exact (nola_refuted tiny). Qed.
Print Assumptions C09_NOLA_sufficient_refuted.

(** win_exp=0 with a negative window: nothing is divided. *)
Theorem C09_negative_window_refuted tiny : (0 < tiny)%R ->
  exists x v Sx dSx y, (forall r, (r < length v)%nat -> nth r v 0%R = (-1)%R) /\
    stft x (SA 1 (WArray v) (Some 4) None 1 true PZero false) = Ok (Sx, dSx) /\
    istft tiny Sx (WArray v) (Some 4) None 1 (Some 1) true 0 false = Ok y /\
    length y = length x /\ y <> x.
Proof. exact (negative_window_refuted tiny). Qed.
Print Assumptions C09_negative_window_refuted.

Theorem C10_istft_length_partial tiny Sx wa n wl hop N modulated e f32 y :
  3 <= n -> 1 <= N ->
  istft tiny Sx wa (Some n) wl hop (Some N) modulated e f32 = Ok y ->
  Z.of_nat (length y) = N.
Proof. exact (istft_length tiny Sx wa n wl hop N modulated e f32 y). Qed.
Print Assumptions C10_istft_length_partial.
Example C10_case tiny : exists y,
  istft tiny (Mat 3 2 (fun _ _ => C1)) (WArray [1; 1; 1; 1]%R) (Some 4) None 2 (Some 3) true 1 false = Ok y.
Proof. eexists. reflexivity. Qed.

(** n_fft of 1 or 2: the unpadding slice ends at [-0], nothing is returned. *)
Theorem C10_small_n_fft_empty tiny Sx wa n wl hop N modulated e f32 y :
  1 <= n <= 2 -> 1 <= N ->
  istft tiny Sx wa (Some n) wl hop (Some N) modulated e f32 = Ok y -> y = [].
Proof. exact (istft_small tiny Sx wa n wl hop N modulated e f32 y). Qed.
Print Assumptions C10_small_n_fft_empty.

Theorem C10_small_n_fft_refuted tiny :
  exists Sx w n N y, 1 <= n /\ 1 <= N /\
    istft tiny Sx (WArray w) (Some n) None 1 (Some N) true 1 false = Ok y /\
    Z.of_nat (length y) <> N.
Proof. exact (istft_small_refuted tiny). Qed.
Print Assumptions C10_small_n_fft_refuted.

Theorem C11_default_N N hop : 1 <= N -> 1 <= hop ->
  let hops M := (M - 1) / hop + 1 in
  let D := hop * hops N in
  hops D = hops N /\ (forall M, 1 <= M -> hops M = hops N -> M <= D) /\ D - hop < N <= D.
Proof. exact (default_N N hop). Qed.
Print Assumptions C11_default_N.

(** and with [N] omitted, [istft] returns that many samples, starting with [x] *)
Theorem C11_istft_default_N x a n w wa wl nf No e tiny f32 :
  let N := Z.of_nat (length x) in
  let H := Z.to_nat ((N - 1) / a_hop a + 1) in
  let hop := Z.to_nat (a_hop a) in
  x <> [] -> 3 <= n -> 1 <= a_hop a -> stft_n_fft a N = Ok n ->
  get_window (a_window a) (stft_win_len a n) n = Ok w -> Z.of_nat (length w) = n ->
  (a_f32 a = true \/ f32 = true -> a_hop a <= n) ->
  a_padtype a <> PSymmetric \/ (2 <= n /\ n - 1 <= 2 * N) ->
  get_window wa (or_default wl n) n = Ok w ->
  nf = Some n \/ (Z.even n = true /\ (nf = None \/ nf = Some 0)) ->
  No = None \/ No = Some 0 ->
  (forall i, (i < length x)%nat ->
     (0 <= tiny < Rsum H (fun h =>
        let t := (Z.to_nat (n / 2) + i)%nat in
        if (h * hop <=? t)%nat && (t <? h * hop + length w)%nat
        then nth (t - h * hop) w 0 ^ (e + 1) else 0))%R) ->
  exists Sx dSx y, stft x a = Ok (Sx, dSx) /\
    istft tiny Sx wa nf wl (a_hop a) No (a_modulated a) e f32 = Ok y /\
    Z.of_nat (length y) = a_hop a * Z.of_nat (ncols Sx) /\ firstn (length x) y = x.
Proof.
  exact (roundtrip_default x a n w wa wl nf No e tiny f32).
Qed.
Print Assumptions C11_istft_default_N.

Example C11_case : let hops M := (M - 1) / 3 + 1 in hops 7 = 3 /\ hops 9 = 3 /\ hops 10 = 4.
Proof. vm_compute. auto. Qed.

(** Named windows (scipy returns [win_len] samples) and arrays of [win_len] samples. *)
Theorem C12_get_window_partial wa wl n w : 0 <= wl -> get_window wa wl n = Ok w ->
  (forall v, wa = WArray v -> Z.of_nat (length v) = wl) ->
  (forall g, wa = WGen g -> Z.of_nat (length (g wl)) = wl) ->
  let v := match wa with WArray v => v | WGen g => g wl end in
  Z.of_nat (length w) = n /\
  w = repeat 0%R (Z.to_nat ((n - wl) / 2)) ++ v ++
      repeat 0%R (Z.to_nat (n - wl - (n - wl) / 2)).
Proof. exact (get_window_len wa wl n w). Qed.
Print Assumptions C12_get_window_partial.

Example C12_case : get_window (WArray [1; 2; 3]%R) 3 6 = Ok [0; 1; 2; 3; 0; 0]%R.
Proof. reflexivity. Qed.

(** an array whose length is not win_len comes out with the wrong length *)
Theorem C12_array_win_len_refuted :
  exists v wl n w, get_window (WArray v) wl n = Ok w /\ Z.of_nat (length w) <> n.
Proof. exact get_window_array_refuted. Qed.
Print Assumptions C12_array_win_len_refuted.

(** an array window shorter than n_fft: [stft] accepts it, [istft] with the same
    arguments always raises *)
Theorem C12_short_window_stft_ok x v n fs hop modulated pt f32 :
  x <> [] -> 1 <= hop -> 1 <= n -> (f32 = true -> hop <= n) -> Z.of_nat (length v) < n ->
  pt <> PSymmetric \/ (2 <= n /\ n - 1 <= 2 * Z.of_nat (length x)) ->
  exists r, stft x (SA fs (WArray v) (Some n) None hop modulated pt f32) = Ok r.
Proof. exact (stft_short_window x v n fs hop modulated pt f32). Qed.
Print Assumptions C12_short_window_stft_ok.
Theorem C12_short_window_istft_raises tiny Sx v n hop No modulated e f32 :
  1 <= hop -> 1 <= n -> (f32 = true -> hop <= Z.of_nat (length v)) ->
  Z.of_nat (length v) < n ->
  istft tiny Sx (WArray v) (Some n) None hop No modulated e f32 = Err ValueError.
Proof. exact (istft_short_window tiny Sx v n hop No modulated e f32). Qed.
Print Assumptions C12_short_window_istft_raises.

Theorem C13_diff_window_real w m : (1 <= length w)%nat -> Im (diff_window_c w m) = 0%R.
Proof. exact (diff_window_real w m). Qed.
Print Assumptions C13_diff_window_real.
Theorem C13_diff_window_zero_sum w : (1 <= length w)%nat ->
  Rsum (length w) (fun m => nth m (diff_window w) 0%R) = 0%R.
Proof. exact (diff_window_sum w). Qed.
Print Assumptions C13_diff_window_zero_sum.
(** [interp w] is a trigonometric polynomial through every sample of the window, and the
    returned samples are its derivatives there. *)
Theorem C13_diff_window_derivative w m : (m < length w)%nat ->
  interp w (INR m) = nth m w 0%R /\
  derivable_pt_lim (interp w) (INR m) (nth m (diff_window w) 0%R).
Proof. exact (fun H => conj (interp_samples w m H) (diff_window_is_derivative w m H)). Qed.
Print Assumptions C13_diff_window_derivative.
Example C13_case : (3 < length [0; 1; 2; 1])%nat /\ length (diff_window [0; 1; 2; 1]%R) = 4%nat.
Proof. split; [simpl; lia|apply tab_length]. Qed.

Theorem C58_ifft_fft n x m : (1 <= n)%nat -> (m < n)%nat -> idft n (dft n x) m = x m.
Proof. exact (fun Hn => idft_dft n Hn x m). Qed.
Print Assumptions C58_ifft_fft.
Theorem C58_fft_ifft n X k : (1 <= n)%nat -> (k < n)%nat -> dft n (idft n X) k = X k.
Proof. exact (fun Hn => dft_idft n Hn X k). Qed.
Print Assumptions C58_fft_ifft.
Theorem C58_irfft_rfft n x m : (1 <= n)%nat -> (m < n)%nat -> irfft n (rfft n x) m = x m.
Proof. exact (fun Hn => irfft_rfft n Hn x m). Qed.
Print Assumptions C58_irfft_rfft.
Theorem C58_rfft_is_half_fft n x k : (1 <= n)%nat -> (k <= n)%nat ->
  rfft n x k = dft n (fun m => RtoC (x m)) k /\
  dft n (fun m => RtoC (x m)) (n - k) = Cconj (rfft n x k).
Proof. exact (fun Hn Hk => conj eq_refl (dft_real_sym n Hn x k Hk)). Qed.
Print Assumptions C58_rfft_is_half_fft.
Theorem C58_parseval n x : (1 <= n)%nat ->
  Rsum n (fun k => Cnorm2 (dft n x k)) = (INR n * Rsum n (fun m => Cnorm2 (x m)))%R.
Proof. exact (fun Hn => parseval n Hn x). Qed.
Print Assumptions C58_parseval.
Theorem C58_convolution n x y m : (1 <= n)%nat -> (m < n)%nat ->
  idft n (fun k => Cmul (dft n x k) (dft n y k)) m =
  Csum n (fun j => Cmul (x j) (y ((m + (n - j)) mod n)%nat)).
Proof. exact (fun Hn => conv_theorem n Hn x y m). Qed.
Print Assumptions C58_convolution.
(** a transform that is not zero and not the identity *)
Example C58_case : dft 2 (fun m => RtoC (INR m)) 1 = RtoC (-1) /\ dft 2 (fun m => RtoC (INR m)) 0 = RtoC 1.
Proof. exact dft2_case. Qed.
