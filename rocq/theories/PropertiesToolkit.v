(** Properties of the window widths ([window_resolution], [window_area]) and of the toolkit. *)
From Coq Require Import Reals Lra Sorted ZifyBool ZifyNat.
From Verif Require Import Py Cplx CplxProofs Squeeze Scales Search Resol ResolProofs WindowRes WindowResThms WindowResThms2 Toolkit ToolkitThms.
Local Open Scope R_scope.

(** * C89: [window_resolution] measures the window's widths *)

(** missing: even lengths; [st] is measured about [N/2], the sample after the centre of a symmetric window *)
Theorem C89_odd_partial x : (3 <= length x)%nat -> (length x mod 2 = 1)%nat -> nonneg x -> nonzero x ->
  exists sw st, window_resolution x = Ok (Some sw, Some st, Some (sw * st)) /\
    0 <= sw < PI /\ 0 <= st <= INR (length x) / 2 /\
    sw ^ 2 * Rsum (length x) (wweight x) = Rsum (length x) (fun i => wweight x i * wfreq (length x) i ^ 2) /\
    st ^ 2 * Rsum (length x) (tweight x) = Rsum (length x) (fun i => tweight x i * (INR i - INR (length x) / 2) ^ 2) /\
    0 < Rsum (length x) (wweight x) /\ 0 < Rsum (length x) (tweight x).
Proof. exact (resolution_odd x). Qed.
Print Assumptions C89_odd_partial.

(** even lengths, for windows with no energy at the two outermost frequencies *)
Theorem C89_even_partial x : (4 <= length x)%nat -> (length x mod 2 = 0)%nat -> nonneg x -> nonzero x ->
  power x PI = 0 -> power x (wfreq (length x) 1) = 0 ->
  exists sw st, window_resolution x = Ok (Some sw, Some st, Some (sw * st)) /\
    0 <= sw < PI /\ 0 <= st <= INR (length x) / 2 /\
    sw ^ 2 * Rsum (length x) (wweight x) = Rsum (length x) (fun i => wweight x i * wfreq (length x) i ^ 2) /\
    st ^ 2 * Rsum (length x) (tweight x) = Rsum (length x) (fun i => tweight x i * (INR i - INR (length x) / 2) ^ 2) /\
    0 < Rsum (length x) (wweight x) /\ 0 < Rsum (length x) (tweight x).
Proof. exact (resolution_even x). Qed.
Print Assumptions C89_even_partial.

Theorem C89_scaled c x : 0 < c -> window_resolution (map (Rmult c) x) = window_resolution x.
Proof. exact (resolution_scaled c x). Qed.
Print Assumptions C89_scaled.

(** zero width and zero Heisenberg area *)
Theorem C89_box_refuted : exists st, window_resolution [1; 1; 1; 1] = Ok (Some 0, Some st, Some 0).
Proof. exact box4. Qed.
Print Assumptions C89_box_refuted.

(** the periodic Hann window: nan *)
Theorem C89_hann_refuted : exists st, window_resolution [0; 1 / 2; 1; 1 / 2] = Ok (None, st, None).
Proof. exact hann4. Qed.
Print Assumptions C89_hann_refuted.

(** wider than the whole spectrum, no width in time *)
Theorem C89_delta_refuted : exists sw st h, window_resolution [0; 0; 1; 0] = Ok (Some sw, Some st, h) /\ PI < sw /\ st = 0.
Proof. exact delta4. Qed.
Print Assumptions C89_delta_refuted.

(** why: for even N the frequencies start at +pi *)
Theorem C89_order_refuted N i : (N mod 2 = 0)%nat -> (0 < i < N)%nat ->
  nth 0 (win_w N) 0 = PI /\ nth i (win_w N) 0 = wfreq N i /\ wfreq N i < PI.
Proof. exact (even_unsorted N i). Qed.
Print Assumptions C89_order_refuted.

(** a symmetric window's squared width in time is its variance plus a quarter *)
Theorem C89_centre_partial x : (2 <= length x)%nat -> nonzero x -> (forall i, (i < length x)%nat -> nth i x 0 = nth (length x - 1 - i) x 0) ->
  second_moment (win_energy x) (win_t (length x)) =
  Some (Rsum (length x) (fun i => tweight x i * (INR i - INR (length x - 1) / 2) ^ 2) / Rsum (length x) (tweight x) + 1 / 4).
Proof. exact (symmetric_t x). Qed.
Print Assumptions C89_centre_partial.

(** a one-sample window has width 1/2 *)
Theorem C89_centre_refuted : exists sw h, window_resolution [0; 1; 0] = Ok (Some sw, Some (1 / 2), h).
Proof. exact centred3. Qed.
Print Assumptions C89_centre_refuted.

Example C89_case : exists sw st, window_resolution [1; 2; 1] = Ok (Some sw, Some st, Some (sw * st)) /\ 0 <= sw < PI.
Proof.
  destruct (C89_odd_partial [1; 2; 1]) as (sw & st & E & H & _); [cbn; lia|reflexivity| | |].
  - intros i Hi. do 3 (destruct i as [|i]; [cbn; lra|]). cbn in Hi. lia.
  - exists 0%nat. cbn. split; [lia|lra].
  - now exists sw, st.
Qed.
Example C89_case_centre : second_moment (win_energy [1; 2; 2; 1]) (win_t 4) =
  Some (Rsum 4 (fun i => tweight [1; 2; 2; 1] i * (INR i - INR 3 / 2) ^ 2) / Rsum 4 (tweight [1; 2; 2; 1]) + 1 / 4).
Proof.
  apply (C89_centre_partial [1; 2; 2; 1]); [cbn; lia|exists 0%nat; cbn; split; [lia|lra]|].
  intros i Hi. do 4 (destruct i as [|i]; [reflexivity|]). cbn in Hi. lia.
Qed.

(** * C90: [window_area] is the energy of the window *)

Theorem C90_time x : exists a, window_area x true false = Ok (AreaT a) /\ a = Rsum (length x) (tweight x).
Proof. exact (area_time x). Qed.
Print Assumptions C90_time.

(** missing: even lengths *)
Theorem C90_odd_partial x : (length x mod 2 = 1)%nat -> exists a, window_area x false true = Ok (AreaW a) /\
  a = 2 * PI / INR (length x) * Rsum (length x) (wweight x) /\ 0 <= a <= 2 * PI * Rsum (length x) (fun i => nth i x 0 ^ 2).
Proof. exact (area_odd x). Qed.
Print Assumptions C90_odd_partial.

(** even lengths: too small by [pi] times the two outermost powers *)
Theorem C90_even_partial x : (2 <= length x)%nat -> (length x mod 2 = 0)%nat -> exists a, window_area x false true = Ok (AreaW a) /\
  a = 2 * PI / INR (length x) * Rsum (length x) (fun i => tzw (length x) i * power x (if (i =? 0)%nat then PI else wfreq (length x) i))
      - PI * (power x PI + power x (wfreq (length x) 1)).
Proof. exact (area_even x). Qed.
Print Assumptions C90_even_partial.

Theorem C90_negative_refuted : exists a, window_area [0; 0; 1; 0] false true = Ok (AreaW a) /\ a < 0.
Proof. exact area_negative. Qed.
Print Assumptions C90_negative_refuted.

Example C90_case : exists a, window_area [1; 2; 1] false true = Ok (AreaW a) /\ a <= 12 * PI.
Proof.
  destruct (C90_odd_partial [1; 2; 1] eq_refl) as (a & E & _ & Ha). exists a. split; [exact E|]. cbn [length Rsum nth] in Ha. pose proof PI_RGT_0. lra.
Qed.

(** * C91: [mad_rms] is a relative error *)

Theorem C91_scale c x y : c <> 0 -> length x = length y -> mad_rms (map (Rmult c) x) (map (Rmult c) y) = mad_rms x y.
Proof. exact (mad_rms_scale c x y). Qed.
Print Assumptions C91_scale.

Theorem C91_zero x y : length x = length y -> nonzero_sig x ->
  exists e, mad_rms x y = Ok (Some e) /\ 0 <= e /\ (e = 0 <-> x = y).
Proof. exact (mad_rms_zero x y). Qed.
Print Assumptions C91_zero.

Theorem C91_below_rms x y e : length x = length y -> nonzero_sig x -> mad_rms x y = Ok (Some e) ->
  e <= rms (map (fun '(u, v) => u - v) (combine x y)) / rms x.
Proof. exact (mad_rms_le x y e). Qed.
Print Assumptions C91_below_rms.

(** nothing to compare with: nan or inf *)
Theorem C91_silence x y : length x = length y -> ~ nonzero_sig x -> mad_rms x y = Ok None.
Proof. exact (mad_rms_silence x y). Qed.
Print Assumptions C91_silence.

Example C91_case : exists e, mad_rms [3; 4] [3; 5] = Ok (Some e) /\ 0 < e.
Proof.
  destruct (C91_zero [3; 4] [3; 5] eq_refl) as (e & E & [H|H] & Z).
  - exists 3. split; [now left|lra].
  - now exists e.
  - exfalso. symmetry in H. apply Z in H. injection H as H. lra.
Qed.

(** * C92: [where_amax] and [lin_band] *)

Theorem C92_amax x : (1 <= nrows x)%nat -> (1 <= ncols x)%nat ->
  exists l, where_amax x = Ok l /\ l <> [] /\ StronglySorted before l /\
    forall i j, In (i, j) l <-> (i < nrows x)%nat /\ (j < ncols x)%nat /\
      forall i' j', (i' < nrows x)%nat -> (j' < ncols x)%nat -> Cabs (el x i' j') <= Cabs (el x i j).
Proof. exact (where_amax_spec x). Qed.
Print Assumptions C92_amax.

Theorem C92_band na N slope offset bw : 0 <= bw ->
  exists cs fb, lin_band na N slope offset bw = (cs, fb) /\ length cs = N /\ length fb = N /\
    (forall k, (k < N)%nat -> truncates (nth k cs 0%Z) (line na N slope offset k)) /\
    (forall k, (k < N)%nat -> 0 <= bw * INR na - IZR (nth k fb 0%Z) < 1) /\
    (0 <= slope -> forall j k, (j <= k)%nat -> (k < N)%nat -> (nth j cs 0 <= nth k cs 0)%Z) /\
    (slope <= 0 -> forall j k, (j <= k)%nat -> (k < N)%nat -> (nth k cs 0 <= nth j cs 0)%Z).
Proof. exact (lin_band_spec na N slope offset bw). Qed.
Print Assumptions C92_band.

(** the diagonal of the plane ends one row past it *)
Theorem C92_past_refuted na N bw : (2 <= N)%nat -> last (fst (lin_band na N 1 0 bw)) 0%Z = Z.of_nat na.
Proof. exact (lin_band_past na N bw). Qed.
Print Assumptions C92_past_refuted.

(** default width, fewer than 40 rows: half-width 0 *)
Theorem C92_empty_refuted na N slope offset : (na < 40)%nat -> snd (lin_band na N slope offset (25 / 1000)) = tab N (fun _ => 0%Z).
Proof. exact (lin_band_empty na N slope offset). Qed.
Print Assumptions C92_empty_refuted.

Example C92_case : exists l, where_amax (Mat 2 2 (fun i j => RtoC (INR (i + j) - 1))) = Ok l /\ In (0%nat, 0%nat) l /\ ~ In (0%nat, 1%nat) l.
Proof.
  destruct (C92_amax (Mat 2 2 (fun i j => RtoC (INR (i + j) - 1))) ltac:(cbn; lia) ltac:(cbn; lia)) as (l & E & _ & _ & H).
  exists l. split; [exact E|]. split.
  - apply H. cbn [nrows ncols el]. split; [lia|]. split; [lia|]. intros [|[|i]] [|[|j]] Hi Hj; try lia; cbn [Nat.add INR];
      rewrite !Cabs_RtoC; unfold Rabs; repeat destruct (Rcase_abs _); lra.
  - intros Hin. apply H in Hin. destruct Hin as (_ & _ & Hm). specialize (Hm 0%nat 0%nat ltac:(cbn; lia) ltac:(cbn; lia)).
    cbn [nrows ncols el Nat.add INR] in Hm. rewrite !Cabs_RtoC in Hm. revert Hm. unfold Rabs. repeat destruct (Rcase_abs _); lra.
Qed.

(** * C93: [est_riskshrink_thresh] *)

Theorem C93_fine_only Wx Wx' nv : nrows Wx = nrows Wx' -> ncols Wx = ncols Wx' -> (1 <= nv)%Z ->
  (forall i j, (i < nrows Wx)%nat -> (Z.of_nat i < nv)%Z -> (j < ncols Wx)%nat -> Cabs (el Wx i j) = Cabs (el Wx' i j)) ->
  est_riskshrink_thresh Wx nv = est_riskshrink_thresh Wx' nv.
Proof. exact (shrink_fine_only Wx Wx' nv). Qed.
Print Assumptions C93_fine_only.

Theorem C93_homogeneous c Wx nv : est_riskshrink_thresh (mscale c Wx) nv = option_map (Rmult (Cabs c)) (est_riskshrink_thresh Wx nv).
Proof. exact (shrink_homogeneous c Wx nv). Qed.
Print Assumptions C93_homogeneous.

Theorem C93_sign Wx nv : (1 <= nrows Wx)%nat -> (1 <= ncols Wx)%nat -> (1 <= nv)%Z ->
  exists g, est_riskshrink_thresh Wx nv = Some g /\ 0 <= g /\
    (g = 0 <-> ncols Wx = 1%nat \/ forall i j i' j', (i < nrows Wx)%nat -> (i' < nrows Wx)%nat -> (Z.of_nat i < nv)%Z -> (Z.of_nat i' < nv)%Z ->
       (j < ncols Wx)%nat -> (j' < ncols Wx)%nat -> Cabs (el Wx i j) = Cabs (el Wx i' j')).
Proof. exact (shrink_sign Wx nv). Qed.
Print Assumptions C93_sign.

(** one coefficient moves it without bound: a mean, not a median, deviation *)
Theorem C93_outlier_refuted N nv B : (2 <= N)%nat -> (1 <= nv)%Z -> 0 <= B ->
  exists t g, 0 < t /\ est_riskshrink_thresh (spike N t) nv = Some g /\ B < g /\ est_riskshrink_thresh (spike N 0) nv = Some 0.
Proof. exact (shrink_outlier N nv B). Qed.
Print Assumptions C93_outlier_refuted.

(** more high-frequency content, lower threshold *)
Theorem C93_monotone_refuted N nv t : (2 <= N)%nat -> (1 <= nv)%Z -> 0 < t ->
  (forall i j, Cabs (el (spike N t) i j) <= Cabs (el (flat N t) i j)) /\
  exists g, est_riskshrink_thresh (spike N t) nv = Some g /\ 0 < g /\ est_riskshrink_thresh (flat N t) nv = Some 0.
Proof. exact (shrink_more_less N nv t). Qed.
Print Assumptions C93_monotone_refuted.

Example C93_case : exists g, est_riskshrink_thresh (Mat 2 2 (fun i j => RtoC (INR j))) 1 = Some g /\ 0 < g.
Proof.
  destruct (C93_sign (Mat 2 2 (fun i j => RtoC (INR j))) 1 ltac:(cbn; lia) ltac:(cbn; lia) ltac:(lia)) as (g & E & [H|H] & Z).
  - now exists g.
  - exfalso. symmetry in H. apply Z in H. destruct H as [H|H]; [cbn in H; lia|].
    specialize (H 0%nat 0%nat 0%nat 1%nat ltac:(cbn; lia) ltac:(cbn; lia) ltac:(lia) ltac:(lia) ltac:(cbn; lia) ltac:(cbn; lia)).
    cbn [el INR] in H. rewrite !Cabs_RtoC in H. revert H. unfold Rabs. repeat destruct (Rcase_abs _); lra.
Qed.
