(** What the plotting functions of visuals.py show. *)
From Coq Require Import Reals Lra ZifyBool ZifyNat String Ascii.
From Verif Require Import Py Round Cplx CplxProofs Freqs Search SearchProofs Scales SsqueezeProofs CwtTone Visuals VisualsThms VisualsAnim VisualsCase.
Local Open Scope R_scope.

(** * C135: tick labels tell the values at their rows *)

(** Missing: labels that tell values apart, which fails *)
Theorem C135_ticks_partial v : v <> [] -> exists l, ticks v = Ok l /\ length l = 8%nat /\ fst (nth 0 l (0%nat, LInt 0)) = 0%nat /\
  fst (nth 7 l (0%nat, LInt 0)) = (length v - 1)%nat /\
  (forall k, (k < 8)%nat -> let '(i, lab) := nth k l (0%nat, LInt 0) in (i < length v)%nat /\ Rabs (shown lab - nth i v 0) <= 1 / 200 /\
     ((forall r, In r v -> exists z, r = IZR z) -> shown lab = nth i v 0)) /\
  ((8 <= length v)%nat -> forall k, (k < 7)%nat -> (fst (nth k l (0%nat, LInt 0)) < fst (nth (S k) l (0%nat, LInt 0)))%nat).
Proof. exact (ticks_right v). Qed.
Print Assumptions C135_ticks_partial.

Example C135_case : exists l, ticks (tab 15 INR) = Ok l /\ fst (nth 3 l (0%nat, LInt 0)) = 6%nat /\ shown (snd (nth 3 l (0%nat, LInt 0))) = 6.
Proof. exact ticks_case. Qed.

(** eight increasing frequencies, all labelled 0.00 *)

Theorem C135_refuted : exists v l, ticks v = Ok l /\ length v = 8%nat /\ (forall i j, (i < j < 8)%nat -> nth i v 0 < nth j v 0) /\
  forall k, (k < 8)%nat -> snd (nth k l (0%nat, LInt 0)) = LHund 0.
Proof. exact ticks_collide. Qed.
Print Assumptions C135_refuted.

(** * C136: frequency axes of the wavelet plots *)

(** off by the factor N/(N-2), at most one bin.  Missing: exact *)
Theorem C136_filterbank_partial N k : Nat.even N = true -> (4 <= N)%nat -> (k < N / 2)%nat ->
  let true_freq := nth k (xifn 1 N) 0 in
  nth k (filterbank_axis N) 0 = true_freq * (INR N / (INR N - 2)) /\ 0 <= nth k (filterbank_axis N) 0 - true_freq <= 2 * PI / INR N.
Proof. exact (filterbank_stretch N k). Qed.
Print Assumptions C136_filterbank_partial.

Example C136_case : nth 2 (filterbank_axis 8) 0 = 2 / 3 * PI.
Proof. exact axis_case. Qed.

Theorem C136_filterbank_refuted : exists N k, Nat.even N = true /\ (k < N / 2)%nat /\ nth k (filterbank_axis N) 0 = PI /\ nth k (xifn 1 N) 0 = 3 / 4 * PI.
Proof. exact filterbank_wrong. Qed.
Print Assumptions C136_filterbank_refuted.

(** right for [N = 1024] *)
Theorem C136_gmw_partial k : (k <= 512)%nat -> length (gmw_freqs 1024) = length (gmw_axis 1024) /\ nth k (gmw_axis 1024) 0 = nth k (gmw_freqs 1024) 0.
Proof. exact (gmw_axis_right k). Qed.
Print Assumptions C136_gmw_partial.

(** the default frequencies against [N = 512] *)
Theorem C136_gmw_refuted : exists N k, (k < length (gmw_axis N))%nat /\ (k < length (gmw_freqs N))%nat /\ nth k (gmw_axis N) 0 = PI /\ nth k (gmw_freqs N) 0 = PI / 2.
Proof. exact gmw_axis_wrong. Qed.
Print Assumptions C136_gmw_refuted.

(** exact for even [N] *)
Theorem C136_tf_partial N j : (1 <= N)%nat -> (j <= N / 2)%nat -> Nat.even N = true -> tf_label (tf_height N j) = tf_freq N j.
Proof. exact (tf_axis N j). Qed.
Print Assumptions C136_tf_partial.

(** half a bin off for odd [N] *)
Theorem C136_tf_odd_partial N j : (1 <= N)%nat -> (j <= N / 2)%nat -> Nat.odd N = true -> tf_label (tf_height N j) = tf_freq N j + PI / INR N.
Proof. exact (tf_axis_odd N j). Qed.
Print Assumptions C136_tf_odd_partial.

Theorem C136_tf_refuted : exists N j, (j <= N / 2)%nat /\ tf_label (tf_height N j) <> tf_freq N j.
Proof. exact tf_axis_wrong. Qed.
Print Assumptions C136_tf_refuted.

(** * C137: plots draws every pair, and every line asked for *)

(** when the axes suffice and are several.  Missing: other cases, where it fails *)
Theorem C137_plots_partial (A B : Type) (X : list A) (Y : list B) nrows ncols r c : grid_dims (length X) nrows ncols = Ok (r, c) -> (2 <= r * c)%nat -> (length X <= r * c)%nat ->
  plots X (Some Y) nrows ncols = Ok (map (fun p => (fst p, Some (snd p))) (combine X Y)).
Proof. exact (plots_all A B  X  Y  nrows ncols r c). Qed.
Print Assumptions C137_plots_partial.

Theorem C137_default_partial (A B : Type) (X : list A) (Y : list B) : (2 <= length X)%nat -> plots X (Some Y) None None = Ok (map (fun p => (fst p, Some (snd p))) (combine X Y)).
Proof. exact (plots_default A B  X  Y ). Qed.
Print Assumptions C137_default_partial.

Example C137_case : plots [1; 2; 3; 4; 5]%nat (Some [10; 20; 30; 40; 50]%nat) None None =
  Ok [(1, Some 10); (2, Some 20); (3, Some 30); (4, Some 40); (5, Some 50)]%nat.
Proof. exact plots_case. Qed.

Theorem C137_dropped_refuted : exists (X Y : list nat) l, length X = 5%nat /\ length Y = 5%nat /\ plots X (Some Y) None (Some 2%nat) = Ok l /\ length l = 4%nat.
Proof. exact plots_dropped. Qed.
Print Assumptions C137_dropped_refuted.

Theorem C137_without_y_refuted : exists (X : list nat) l, length X = 3%nat /\ plots (B := nat) X None None None = Ok l /\ length l = 1%nat.
Proof. exact plots_one_drawn. Qed.
Print Assumptions C137_without_y_refuted.

Theorem C137_single_refuted : exists (X Y : list nat), length X = 1%nat /\ length Y = 1%nat /\ plots X (Some Y) None None = Err AttributeError.
Proof. exact plots_single. Qed.
Print Assumptions C137_single_refuted.

(** Missing: arrays and the number 0 *)
Theorem C137_lines_partial v : (forall l, v <> VArray l) -> v <> VNum 0 -> drawn_lines v = Ok (asked v).
Proof. exact (lines_drawn v). Qed.
Print Assumptions C137_lines_partial.

Example C137_lines_case : drawn_lines (VTupList [1; 2]) = Ok [1; 2].
Proof. exact lines_case. Qed.

Theorem C137_zero_refuted : exists v, asked v = [0] /\ drawn_lines v = Ok [].
Proof. exact line_at_zero. Qed.
Print Assumptions C137_zero_refuted.

Theorem C137_array_refuted : exists v, asked v = [1; 2] /\ drawn_lines v = Err ValueError.
Proof. exact lines_array. Qed.
Print Assumptions C137_array_refuted.

Local Open Scope string_scope.

(** * C138: wavelet_tf_anim never overwrites a file *)

(** for names with some character other than a digit.  Missing: names of digits only, where it fails *)
Theorem C138_partial files sp q : all_chars is_digit (fst sp) = false -> unique_savepath files sp = Ok q -> ~ In q files.
Proof. exact (never_overwrites files sp q). Qed.
Print Assumptions C138_partial.

Theorem C138_shape_partial files sp q : unique_savepath files sp = Ok q -> snd q = snd sp /\ (fst q = fst sp \/ exists n, (1 <= n)%nat /\ fst q = fst sp ++ str n).
Proof. exact (savepath_shape files sp q). Qed.
Print Assumptions C138_shape_partial.

Example C138_case : unique_savepath [("wavanim", ".gif"); ("wavanim1", ".gif"); ("wavanim7", ".gif"); ("notes", ".txt")] ("wavanim", ".gif") = Ok ("wavanim8", ".gif").
Proof. exact savepath_case. Qed.

Theorem C138_digits_refuted : exists files sp q, unique_savepath files sp = Ok q /\ In q files.
Proof. exact digits_overwritten. Qed.
Print Assumptions C138_digits_refuted.

(** another file whose name extends the given one with letters: no animation at all *)
Theorem C138_neighbour_refuted : exists files sp, all_chars is_digit (fst sp) = false /\ In sp files /\ unique_savepath files sp = Err ValueError.
Proof. exact neighbour_breaks. Qed.
Print Assumptions C138_neighbour_refuted.

Local Close Scope string_scope.

(** * C139: the colour limits of imshow hold all the data *)

(** and the upper one is reached *)
Theorem C139_limits data b : data <> [] -> exists lo hi, color_limits data None b 1 = Ok (lo, hi) /\
  (forall z, In z data -> (if b then lo <= Cabs z <= hi else lo <= Re z <= hi /\ lo <= Im z <= hi)) /\ (exists z, In z data /\ hi = Cabs z).
Proof. exact (limits_hold data b). Qed.
Print Assumptions C139_limits.

Example C139_case : color_limits [(3, 4); (0, 1)] None false 1 = Ok (-5, 5).
Proof. exact limits_case. Qed.

(** * C140: scales of the animation *)

Theorem C140_order sc : (2 <= length sc)%nat -> nondec sc ->
  exists l, anim_scales sc = Ok l /\ nondec l /\ nth 0 l 0 = nth 0 sc 0 /\ last l 0 = last sc 0 /\ (forall x, In x l -> nth 0 sc 0 <= x <= last sc 0).
Proof. exact (anim_right sc). Qed.
Print Assumptions C140_order.

(** the scales away from the ends are kept *)
Theorem C140_keeps sc l i : (2 <= length sc)%nat -> anim_scales sc = Ok l ->
  let rep := Nat.max (Z.to_nat (Int_part (25 / 253 * INR (length sc)))) 1 in (rep <= i < length sc - rep)%nat -> In (nth i sc 0) l.
Proof. exact (anim_keeps sc l i). Qed.
Print Assumptions C140_keeps.

Example C140_case : nondec [1; 2; 4] /\ exists l, anim_scales [1; 2; 4] = Ok l /\ In 2 l /\ nth 0 l 0 = 1 /\ last l 0 = 4.
Proof. exact anim_case. Qed.

(** * C141: the scale wavelet_tf picks *)

(** Missing: that a scale is always found *)
Theorem C141_sound_partial std N s0 s : pick_scale std N s0 = Ok s -> 65 * (INR N / 2048) < std s < 75 * (INR N / 2048).
Proof. exact (pick_scale_sound std N s0 s). Qed.
Print Assumptions C141_sound_partial.

Theorem C141_found_partial std N s0 k : proportional std -> 0 < s0 -> (k <= 101)%nat ->
  let lo := 65 * (INR N / 2048) in let hi := 75 * (INR N / 2048) in
  (lo < std s0 * (11 / 10) ^ k < hi \/ (lo < std s0 / (11 / 10) ^ k < hi /\ forall j, (j < k)%nat -> std s0 / (11 / 10) ^ j <> hi)) ->
  exists s, pick_scale std N s0 = Ok s /\ lo < std s < hi.
Proof. exact (pick_scale_found std N s0 k). Qed.
Print Assumptions C141_found_partial.

Example C141_case : exists s, pick_scale (fun s => s) 2048 60 = Ok s /\ 65 < s < 75.
Proof. exact pick_case. Qed.

(** the upper end hit exactly: back and forth until it gives up *)
Theorem C141_refuted : exists std N s0, proportional std /\ 0 < s0 /\ (exists s, 65 * (INR N / 2048) < std s < 75 * (INR N / 2048)) /\ pick_scale std N s0 = Err ValueError.
Proof. exact pick_scale_stuck_ex. Qed.
Print Assumptions C141_refuted.

(** * C142: what plot shows *)

(** Missing: further plots on the same axes *)
Theorem C142_two_partial n lo hi : (n <= 2)%nat -> lo <= hi -> visible (after_plots n lo hi) lo hi.
Proof. exact (two_plots n lo hi). Qed.
Print Assumptions C142_two_partial.

Example C142_case : visible (after_plots 2 0 100) 0 100.
Proof. exact limits_two_case. Qed.

Theorem C142_equal_partial cur ycur : exists m, scale_plot cur ycur None true true = Ok (- m, m) /\ - m <= fst cur /\ snd cur <= m /\ - m <= fst ycur /\ snd ycur <= m.
Proof. exact (scale_equal cur ycur). Qed.
Print Assumptions C142_equal_partial.

(** the third plot on the same axes cuts the curves off *)
Theorem C142_third_refuted : exists lo hi, lo <= hi /\ ~ visible (after_plots 3 lo hi) lo hi.
Proof. exact third_plot_cuts. Qed.
Print Assumptions C142_third_refuted.

Theorem C142_third_partial lo hi : lo < hi -> lo < fst (after_plots 3 lo hi) /\ snd (after_plots 3 lo hi) < hi.
Proof. exact (third_plot lo hi). Qed.
Print Assumptions C142_third_partial.

Theorem C142_equal_refuted : exists cur ycur l, scale_plot cur ycur (Some l) true true = Err UnboundLocalError.
Proof. exact scale_equal_given. Qed.
Print Assumptions C142_equal_refuted.
