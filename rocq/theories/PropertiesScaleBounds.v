(** C74-C78: the scale bounds and scales given by name. *)
From Coq Require Import Reals Lra.
From Verif Require Import Py Cplx Padding Freqs Scales Search Wavelets ScaleBounds ScaleBoundsProofs ScaleBoundsThms
  ScaleBoundsThms2 ScaleBoundsThms3.
From Verif Require Import ScaleShort.
Local Open Scope R_scope.

(** [g] is the wavelet's function, [peak_of] the outcome of [find_maximum] on it; [one_peak g p]:
    [|g|] rises strictly up to [p] and falls strictly after it; [omega N k = 2 pi k / N]. *)

(** ** C74 *)
Theorem C74_side g c fuel s : find_min_scale g c fuel = Some (Ok s) ->
  exists wp, peak_of g fuel = Some (Ok (wp, Rabs (g wp))) /\
    (c <= 0 -> 0 <= s * PI <= wp) /\ (0 < c -> wp <= s * PI <= 10 * wp).
Proof. exact (min_side g c fuel s). Qed.
Print Assumptions C74_side.
(** peaks below 10: one search *)
Theorem C74_left_partial g p fuel wp pk c w : one_peak g p -> peak_of g fuel = Some (Ok (wp, pk)) ->
  -1 <= c <= 0 -> wp < 10 -> 0 <= w <= p -> Rabs (g w) = Rabs c * pk ->
  exists s, find_min_scale g c fuel = Some (Ok s) /\ Rabs (s * PI - w) <= 1 / 1000.
Proof. exact (fun HP E => min_left_near g p fuel wp pk HP E c w). Qed.
Print Assumptions C74_left_partial.
Theorem C74_right_partial g p fuel wp pk c w : one_peak g p -> peak_of g fuel = Some (Ok (wp, pk)) ->
  0 < c <= 1 -> p <= w <= Rmin (wp + 9999 / 1000) (10 * wp) -> Rabs (g w) = c * pk ->
  exists s, find_min_scale g c fuel = Some (Ok s) /\ Rabs (s * PI - w) <= 2 / 1000.
Proof. exact (fun HP E => min_right_near g p fuel wp pk HP E c w). Qed.
Print Assumptions C74_right_partial.
Theorem C74_peak g p fuel wp pk : one_peak g p -> peak_of g fuel = Some (Ok (wp, pk)) ->
  wp - 1 / 1000 < p < wp + 1 / 1000 /\ (wp < 10 -> find_min_scale g (-1) fuel = Some (Ok (wp / PI))) /\
  (0 < pk -> find_min_scale g 1 fuel = Some (Ok (wp / PI))).
Proof.
  exact (fun HP E => conj (wp_close g p fuel wp pk HP E)
    (conj (min_at_peak g p fuel wp pk HP E) (min_at_peak_right g p fuel wp pk HP E))).
Qed.
Print Assumptions C74_peak.
(** between cutoffs of one sign the documented order is reversed *)
Theorem C74_order_partial g p fuel wp pk c1 c2 : one_peak g p -> peak_of g fuel = Some (Ok (wp, pk)) -> c1 <= c2 ->
  (-1 <= c1 -> c2 <= 0 -> wp < 10 -> Rabs (g 0) <= Rabs c2 * pk ->
   exists s1 s2, find_min_scale g c1 fuel = Some (Ok s1) /\ find_min_scale g c2 fuel = Some (Ok s2) /\ s2 <= s1) /\
  (0 < c1 -> c2 <= 1 -> Rabs (g (Rmin (wp + 9999 / 1000) (10 * wp))) <= c1 * pk ->
   exists s1 s2, find_min_scale g c1 fuel = Some (Ok s1) /\ find_min_scale g c2 fuel = Some (Ok s2) /\ s2 <= s1).
Proof.
  exact (fun HP E H => conj (fun H1 => min_left_antitone g p fuel wp pk HP E c1 c2 (conj H1 H))
                            (fun H1 => min_right_antitone g p fuel wp pk HP E c1 c2 (conj H1 H))).
Qed.
Print Assumptions C74_order_partial.
(** the default wavelet: cutoff -1 gives a greater scale than cutoff -0.5 *)
Theorem C74_lesser_cutoff_refuted : exists g fuel s1 s2, gmw_l1 3 60 false = Ok g /\
  find_min_scale g (-1) fuel = Some (Ok s1) /\ find_min_scale g (- (5 / 10)) fuel = Some (Ok s2) /\ s2 < s1.
Proof. exact gmw_min_reversed. Qed.
Print Assumptions C74_lesser_cutoff_refuted.
Example C74_case : exists g fuel wp pk, gmw_l1 3 60 false = Ok g /\
  one_peak g (Rpower (60 / 3) (1 / 3)) /\ (forall w, 0 <= g w) /\ g 0 = 0 /\
  peak_of g fuel = Some (Ok (wp, pk)) /\ 0 < pk /\ 1 < wp < 4.
Proof. exact gmw_default_found. Qed.

(** ** C75 *)
(** [at_bin g s N k = g (s * omega N k)]; [first_peak F n m]: [m] is the first maximum of [F 0 .. F n] *)
Theorem C75_edge g c N b amp s : (1 <= N)%nat -> 0 < c -> (1 <= b <= N / 2)%nat ->
  let F := at_bin g (4 / PI * c) N in
  find_max_scale g (Ok c) N (Z.of_nat b) amp = Ok (Some s) <->
  exists m i, first_peak F (N / 2) m /\ (i < m)%nat /\ s * omega N b = 4 / PI * c * omega N i /\
    F i < F m * amp /\ (forall k, (i < k < m)%nat -> F m * amp <= F k).
Proof. exact (fun H1 H2 => max_scale_spec g c N H1 H2 b amp s). Qed.
Print Assumptions C75_edge.
Theorem C75_raises g c N b amp e : (1 <= N)%nat -> 0 < c -> (1 <= b <= N / 2)%nat ->
  find_max_scale g (Ok c) N (Z.of_nat b) amp = Err e ->
  e = IndexError /\ exists m, first_peak (at_bin g (4 / PI * c) N) (N / 2) m /\
    forall k, (k < m)%nat -> at_bin g (4 / PI * c) N m * amp <= at_bin g (4 / PI * c) N k.
Proof. exact (fun H1 _ => max_scale_error g c N H1 b amp e). Qed.
Print Assumptions C75_raises.
(** with the default [bin_amp = 1] the bin sits just before the peak *)
Theorem C75_default_amp g c N b m : (1 <= N)%nat -> 0 < c -> (1 <= b <= N / 2)%nat ->
  first_peak (at_bin g (4 / PI * c) N) (N / 2) m -> (1 <= m)%nat ->
  find_max_scale g (Ok c) N (Z.of_nat b) 1 = Ok (Some (4 / PI * c * INR (m - 1) / INR b)).
Proof. exact (fun H1 H2 => max_scale_one g c N H1 H2 b m). Qed.
Print Assumptions C75_default_amp.
(** never a greater scale for a greater [bin_loc] or a lesser [bin_amp] *)
Theorem C75_loc_partial g c N b1 b2 amp s1 : (1 <= N)%nat -> 0 < c -> (1 <= b1 <= b2)%nat -> (b2 <= N / 2)%nat ->
  find_max_scale g (Ok c) N (Z.of_nat b1) amp = Ok (Some s1) ->
  0 <= s1 /\ find_max_scale g (Ok c) N (Z.of_nat b2) amp = Ok (Some (s1 * (INR b1 / INR b2))).
Proof. exact (fun H1 H2 => max_scale_loc g c N H1 H2 b1 b2 amp s1). Qed.
Print Assumptions C75_loc_partial.
Theorem C75_amp_partial g c N b a1 a2 s1 s2 : (1 <= N)%nat -> 0 < c -> (1 <= b <= N / 2)%nat ->
  (forall k, 0 <= at_bin g (4 / PI * c) N k) -> a1 <= a2 ->
  find_max_scale g (Ok c) N (Z.of_nat b) a1 = Ok (Some s1) ->
  find_max_scale g (Ok c) N (Z.of_nat b) a2 = Ok (Some s2) -> s1 <= s2.
Proof. exact (fun H1 H2 => max_scale_amp g c N H1 H2 b a1 a2 s1 s2). Qed.
Print Assumptions C75_amp_partial.
(** other bins: bin 0 gives nan, bins past the middle and negative indices a negative scale *)
Theorem C75_any_loc g c N amp s1 z j : (1 <= N)%nat -> 0 < c -> (2 <= N)%nat ->
  find_max_scale g (Ok c) N 1 amp = Ok (Some s1) -> py_index N z = Ok j ->
  find_max_scale g (Ok c) N z amp = Ok (if (xi_bin N j =? 0)%Z then None else Some (s1 / IZR (xi_bin N j))).
Proof. exact (fun H1 H2 => max_scale_any g c N H1 H2 amp s1 z j). Qed.
Print Assumptions C75_any_loc.
(** the default wavelet at N = 8: scale 0, whatever [bin_loc] *)
Theorem C75_greater_loc_refuted : exists g fuel ct pk, gmw_l1 3 60 false = Ok g /\
  peak_of g fuel = Some (Ok (ct, pk)) /\
  find_max_scale g (Ok ct) 8 1 1 = Ok (Some 0) /\ find_max_scale g (Ok ct) 8 2 1 = Ok (Some 0).
Proof. exact gmw_loc_flat. Qed.
Print Assumptions C75_greater_loc_refuted.
Theorem C75_past_middle_refuted : exists s, find_max_scale saw (Ok 1) 16 9 1 = Ok (Some s) /\ s < 0.
Proof. exact saw_negative. Qed.
Print Assumptions C75_past_middle_refuted.
Example C75_case : find_max_scale saw (Ok 1) 16 1 1 = Ok (Some (4 / PI)) /\
  find_max_scale saw (Ok 1) 16 2 1 = Ok (Some (2 / PI)).
Proof. exact saw_case. Qed.

(** ** C76 *)
Theorem C76_straddles_partial g N mn mx fuel s : find_max_scale_alt g N mn mx fuel = Some (Ok s) ->
  exists wp, peak_of g fuel = Some (Ok (wp, Rabs (g wp))) /\ 0 < s /\
  exists m : nat, (1 <= m)%nat /\ s * omega N m < wp < s * omega N (m + 1) /\
    let off := wp - (s * omega N m + s * omega N (m + 1)) / 2 in
    0 <= off < 2 / 10 * (s * omega N 1) /\ off < wp / (PI * s + 1).
Proof. exact (max_alt_straddles g N mn mx fuel s). Qed.
Print Assumptions C76_straddles_partial.
(** the point half a bin left of the peak is not left of where the wavelet attains [min_cutoff] *)
Theorem C76_min_cutoff_partial g p N mn mx fuel s w wp : one_peak g p -> mn <= 1 ->
  find_max_scale_alt g N mn mx fuel = Some (Ok s) -> peak_of g fuel = Some (Ok (wp, Rabs (g wp))) -> wp < 10 ->
  0 <= w <= p -> Rabs (g w) = mn * Rabs (g wp) -> w - 1 / 1000 + / INR N <= wp - s * omega N 1 / 2.
Proof. exact (max_alt_lower g p N mn mx fuel s w wp). Qed.
Print Assumptions C76_min_cutoff_partial.
(** the fewest bins: [wc] is the point found for [min_cutoff] *)
Theorem C76_fewest_partial wc wp N s m : (1 <= N)%nat -> 0 <= wc -> wc <= wp -> alt_scale wc wp N = Ok s ->
  let d := s * (2 * PI / INR N) in
  IZR m * d <= wp - d / 2 < (IZR m + 1) * d -> wp < d * (PI * s + 1) ->
  m = (Int_part (wc / (2 * (wp - wc))) + 1)%Z.
Proof. exact (fun H1 H2 H3 => alt_fewest wc wp N H1 H2 H3 s m). Qed.
Print Assumptions C76_fewest_partial.
Theorem C76_invalid g N mn mx fuel : mn <= 0 \/ mx <= mn ->
  find_max_scale_alt g N mn mx fuel = Some (Err ValueError).
Proof. exact (alt_invalid g N mn mx fuel). Qed.
Print Assumptions C76_invalid.
(** [max_cutoff] is validated and then not used *)
Theorem C76_max_cutoff_unused g N mn mx1 mx2 fuel : 0 < mn < mx1 -> mn < mx2 ->
  find_max_scale_alt g N mn mx1 fuel = find_max_scale_alt g N mn mx2 fuel.
Proof. exact (alt_ignores_max g N mn mx1 mx2 fuel). Qed.
Print Assumptions C76_max_cutoff_unused.
(** both bins around the peak above [max_cutoff] *)
Theorem C76_max_cutoff_refuted : exists g N mn mx fuel s m, one_peak g 1 /\ 0 < mn < mx /\ mx < 1 /\
  find_max_scale_alt g N mn mx fuel = Some (Ok s) /\ peak_of g fuel = Some (Ok (1, 1)) /\
  s * omega N m < 1 < s * omega N (m + 1) /\
  mx * 1 < g (s * omega N m) /\ mx * 1 < g (s * omega N (m + 1)).
Proof. exact alt_above_max. Qed.
Print Assumptions C76_max_cutoff_refuted.
(** few samples: the default cutoffs raise *)
Theorem C76_short_refuted : exists g fuel, one_peak g 1 /\
  find_max_scale_alt g 10 (6 / 10) (8 / 10) fuel = Some (Err PlainException).
Proof. exact alt_short_raises. Qed.
Print Assumptions C76_short_refuted.

(** ** C77 *)
Theorem C77_naive g N a pad fuel : cwt_scalebounds g N (Some Naive) a pad fuel = Some (Ok (1, Some (INR N))).
Proof. exact (naive_bounds g N a pad fuel). Qed.
Print Assumptions C77_naive.
Theorem C77_presets_override g N mn mx c mn' mx' c' loc amp a a' pad fuel :
  cwt_scalebounds g N (Some Maximal) (BA mn mx c loc amp) pad fuel =
  cwt_scalebounds g N (Some Maximal) (BA mn' mx' c' loc amp) pad fuel /\
  cwt_scalebounds g N (Some Minimal) a pad fuel = cwt_scalebounds g N (Some Minimal) a' pad fuel /\
  cwt_scalebounds g N None (BA None None None loc amp) pad fuel = cwt_scalebounds g N (Some Minimal) a pad fuel.
Proof.
  exact (conj (maximal_overrides g N mn mx c mn' mx' c' loc amp pad fuel)
        (conj (minimal_overrides g N a a' pad fuel) (none_is_minimal g N loc amp a pad fuel))).
Qed.
Print Assumptions C77_presets_override.
(** what each preset computes: cutoff -0.5, bin 2 and amplitude 1, cutoffs 0.6 and 0.8 unless given *)
Theorem C77_parts g N p a pad fuel mn mx : p <> Some Naive ->
  cwt_scalebounds g N p a pad fuel = Some (Ok (mn, mx)) ->
  let M := if pad then Z.to_nat (fst (fst (p2up (Z.of_nat N)))) else N in
  let or_d o d := match o with Some c => c | None => d end in
  p <> Some PresetOther /\
  find_min_scale g (if match p with None => true | _ => false end then or_d (ba_cutoff a) (- (5 / 10)) else - (5 / 10)) fuel
    = Some (Ok mn) /\
  (p = Some Maximal -> exists ct pk, peak_of g fuel = Some (Ok (ct, pk)) /\
     find_max_scale g (Ok ct) M match ba_loc a with Some 0%Z => 2%Z | Some b => b | None => 2%Z end
       (if Req_EM_T (or_d (ba_amp a) 0) 0 then 1 else or_d (ba_amp a) 0) = Ok mx) /\
  (p = Some Minimal -> exists s, mx = Some s /\ find_max_scale_alt g M (6 / 10) (8 / 10) fuel = Some (Ok s)) /\
  (p = None -> exists s, mx = Some s /\
     find_max_scale_alt g M (or_d (ba_min a) (6 / 10)) (or_d (ba_max a) (8 / 10)) fuel = Some (Ok s)).
Proof. exact (bounds_parts g N p a pad fuel mn mx). Qed.
Print Assumptions C77_parts.
Theorem C77_invalid g N mn mx c loc amp a pad fuel :
  cwt_scalebounds g N (Some PresetOther) a pad fuel = Some (Err ValueError) /\
  (mn <= 0 \/ mx < mn -> cwt_scalebounds g N None (BA (Some mn) (Some mx) c loc amp) pad fuel = Some (Err ValueError)).
Proof. exact (conj (bad_preset g N a pad fuel) (bad_cutoff_error g N mn mx c loc amp pad fuel)). Qed.
Print Assumptions C77_invalid.
Theorem C77_bad_cutoffs g N mn mx c loc amp pad fuel r :
  let m := match mn with Some m => m | None => 6 / 10 end in
  let x := match mx with Some m => m | None => 8 / 10 end in
  m <= 0 \/ x <= m -> cwt_scalebounds g N None (BA mn mx c loc amp) pad fuel <> Some (Ok r).
Proof. exact (bad_cutoffs g N mn mx c loc amp pad fuel r). Qed.
Print Assumptions C77_bad_cutoffs.
Theorem C77_padded g N p a fuel : p <> Some Naive ->
  cwt_scalebounds g N p a true fuel = cwt_scalebounds g (Z.to_nat (fst (fst (p2up (Z.of_nat N))))) p a false fuel.
Proof. exact (padded_bounds g N p a fuel). Qed.
Print Assumptions C77_padded.
(** signals of 3 to 5 samples, 'maximal': max_scale is 0 *)
Theorem C77_short_maximal_partial g p N a fuel mn mx : one_peak g p -> (forall w, 0 <= g w) -> (3 <= N <= 5)%nat ->
  ba_loc a = None -> ba_amp a = None ->
  cwt_scalebounds g N (Some Maximal) a true fuel = Some (Ok (mn, mx)) -> 0 <= mn /\ mx = Some 0.
Proof. exact (maximal_short g p N a fuel mn mx). Qed.
Print Assumptions C77_short_maximal_partial.
Theorem C77_range_refuted : exists g fuel mn mx, gmw_l1 3 60 false = Ok g /\
  cwt_scalebounds g 5 (Some Maximal) (BA None None None None None) true fuel = Some (Ok (mn, Some mx)) /\ mx < mn.
Proof. exact gmw_maximal_empty. Qed.
Print Assumptions C77_range_refuted.

(** ** C78 *)
Theorem C78_nyquist_partial g N st pr nv fds ds pad fuel l : pr <> Some Naive ->
  process_scales_str g N st pr nv fds ds pad fuel = Some (Ok l) ->
  exists wp mn mx, peak_of g fuel = Some (Ok (wp, Rabs (g wp))) /\
    cwt_scalebounds g N (split_preset st pr) (BA None None None None None) pad fuel = Some (Ok (mn, Some mx)) /\
    0 <= mn * PI <= wp /\
    (0 < mn < mx -> st = SLog ->
       nth 0 l 0 * PI <= wp /\ mn / Rpower 2 (1 / IZR nv) < nth 0 l 0 /\ mx / Rpower 2 (2 / IZR nv) < last l 0 < mx) /\
    (0 < mn < mx -> st = SLin ->
       nth 0 l 0 * PI <= wp /\ mn / Rpower 2 (1 / IZR nv) < nth 0 l 0 /\
       mx / Rpower 2 (1 / IZR nv) < last l 0 < mx * Rpower 2 (1 / IZR nv)) /\
    (0 < mn < mx -> st = SPiece -> (forall gr, fds gr <> Ok (Some 0%nat)) ->
       nth 0 l 0 * PI <= wp /\ mn / Rpower 2 (1 / IZR nv) < nth 0 l 0).
Proof. exact (named_reach_nyquist g N st pr nv fds ds pad fuel l). Qed.
Print Assumptions C78_nyquist_partial.
(** five samples, 'log:maximal', the default wavelet: the last scale is beyond max_scale *)
Theorem C78_short_refuted : exists g fuel mn mx l, gmw_l1 3 60 false = Ok g /\
  cwt_scalebounds g 5 (Some Maximal) (BA None None None None None) true fuel = Some (Ok (mn, Some mx)) /\
  process_scales_str g 5 SLog (Some Maximal) 32 (fun _ => Ok None) 1 true fuel = Some (Ok l) /\
  (2 <= length l)%nat /\ mx < last l 0.
Proof. exact (short_past_max (fun _ => Ok None)). Qed.
Print Assumptions C78_short_refuted.
Example C78_case : exists fuel mn l,
  cwt_scalebounds saw 16 (Some Maximal) (BA None None None None None) false fuel = Some (Ok (mn, Some (2 / PI))) /\
  0 < mn < 2 / PI /\
  process_scales_str saw 16 SLog (Some Maximal) 32 (fun _ => Ok None) 1 false fuel = Some (Ok l).
Proof. exact saw_named. Qed.
