{"claims": [
{"property": "C01", "status": "proved", "theorems": ["C01_p2up_is_source", "C01_p2up", "C01_p2up_float_log2", "C01_not_next_power"], "note": "Also shows that the docstring's 'next power of 2' is not what is computed (p2up(6) = 16)."},
{"property": "C02", "status": "partial", "theorems": ["C02_padsignal_length_recover", "C02_padsignal_symmetric_partial", "C02_symmetric_nopad_refuted", "C02_symmetric_long_refuted", "C02_torch_agrees", "C02_torch_default"], "note": "Proved for zero/reflect/replicate/wrap and every padlength >= len(x). For 'symmetric' proved when 0 < pad and pads <= len(x); outside that the returned array has the wrong length and the signal is not at n1 (two refutations)."},
{"property": "C03", "status": "partial", "theorems": ["C03_extension_rule", "C03_symmetric_rule_partial", "C03_symmetric_long_refuted"], "note": "Proved for zero/reflect/replicate/wrap at every pad size, for 'symmetric' when pads are nonempty and at most len(x). Refuted for 'symmetric' pads longer than the signal."},
{"property": "C04", "status": "proved", "theorems": ["C04_buffer_slices"], "note": ""},
{"property": "C05", "status": "proved", "theorems": ["C05_buffer_modulated", "C05_ifftshift_index", "C05_fftshift_undoes"], "note": ""},
{"property": "C06", "status": "proved", "theorems": ["C06_buffer_schedules"], "note": "Schedules are arbitrary interleavings of per-cell stores."},
{"property": "C07", "status": "partial", "theorems": ["C07_stft_shape", "C07_symmetric_refuted"], "note": "Proved for every signal, n_fft >= 1, hop_len >= 1 (hop_len <= n_fft in float32) and padtype, except 'symmetric' with n_fft = 1 or n_fft-1 > 2*len(x), where the padding itself is wrong (C02); the n_fft = 1 case is refuted."},
{"property": "C08", "status": "partial", "theorems": ["C08_stft_formula", "C08_unmodulated_derivative_ignores_fs_refuted"], "note": "The formula is proved for Sx and dSx, both modulated settings, every n_fft. Refuted side: with modulated=False the derivative dSx is not scaled by fs, so it does not depend on fs. Same padding proviso as C07."},
{"property": "C09", "status": "partial", "theorems": ["C09_istft_inverts_stft", "C09_window_condition", "C09_NOLA_sufficient_refuted", "C09_negative_window_refuted"], "note": "Exact reconstruction proved whenever the summed window powers exceed the library's `tiny` at every kept sample, plus a directly checkable sufficient condition on the window. Refuted: NOLA alone is not sufficient; a negative window with win_exp=0 is never divided."},
{"property": "C10", "status": "partial", "theorems": ["C10_istft_length_partial", "C10_small_n_fft_empty", "C10_small_n_fft_refuted"], "note": "Proved for n_fft >= 3. For n_fft 1 or 2 the result is always empty (proved), so the full claim is refuted."},
{"property": "C11", "status": "proved", "theorems": ["C11_default_N", "C11_istft_default_N"], "note": "Both the arithmetic and that istft without N returns hop_len*n_hops samples starting with x."},
{"property": "C12", "status": "partial", "theorems": ["C12_get_window_partial", "C12_array_win_len_refuted", "C12_short_window_stft_ok", "C12_short_window_istft_raises"], "note": "Proved when an ndarray window has win_len samples or the window is generated by name. Refuted otherwise: wrong length; and stft accepts an array window shorter than n_fft while istft with the same arguments raises ValueError."},
{"property": "C13", "status": "proved", "theorems": ["C13_diff_window_real", "C13_diff_window_zero_sum", "C13_diff_window_derivative"], "note": "Also: the samples are the derivatives of the trigonometric interpolant of the window."},
{"property": "C14", "status": "proved", "theorems": ["C14_issq_stft_formula", "C14_within_gamma"], "note": "Any n_fft >= 3, odd or even; cells zero or above gamma; get_w on or off; any interleaving."},
{"property": "C15", "status": "proved", "theorems": ["C15_indexed_sum", "C15_indexed_sum_value", "C15_kernel", "C15_onfly", "C15_fast"], "note": "Any type of values and any addition for the loops and indexed_sum; the driver statements for indexed_sum_onfly and ssqueeze_fast are over exact complex numbers, with the bit-for-bit claim carried by C15_kernel. A schedule interleaves single loads and stores of the column iterations."},
{"property": "C16", "status": "proved", "theorems": ["C16_onfly_column_sum", "C16_fast_column_sum", "C16_scalar_const"], "note": "Single-row Wx raises (const handling), so needs at least 2 rows or an empty Wx."},
{"property": "C17", "status": "proved", "theorems": ["C17_onfly_flipud", "C17_fast_flipud"], "note": ""},
{"property": "C18", "status": "partial", "theorems": ["C18_in_range_partial", "C18_zero_reachable", "C18_int64_overflow_refuted", "C18_piecewise_refuted", "C18_gpu_partial", "C18_gpu_piecewise_refuted"], "note": "Proved for every linear array, every log array without detected transition, and piecewise ones whose lower piece fits, for frequencies < 2^62 bins up. Refuted outside: int64 overflow of round(), unclamped lower branch of the piecewise kernels, int32 wrap of the CUDA piecewise kernel."},
{"property": "C19", "status": "proved", "theorems": ["C19_onfly_nearest", "C19_fast_nearest"], "note": ""},
{"property": "C20", "status": "proved", "theorems": ["C20_onfly_nearest", "C20_onfly_nearest_piecewise", "C20_fast_nearest"], "note": "The piecewise bin is nearest over the whole grid, not just within its piece."},
{"property": "C21", "status": "partial", "theorems": ["C21_smart_nearest", "C21_smart_is_argmin", "C21_argmin_tie_refuted", "C21_brute_nearest", "C21_lin_nearest_partial", "C21_log_nearest_partial", "C21_piecewise_nearest_partial", "C21_out_of_range_refuted", "C21_not_nearest_refuted"], "note": "find_closest_smart and find_closest_brute are proved nearest for every v. The linear/log versions only when a has len(v) rows: they clamp by the number of rows of a (two refutations)."},
{"property": "C22", "status": "partial", "theorems": ["C22_linear_partial", "C22_log_partial", "C22_piecewise_partial", "C22_tie_refuted"], "note": "Same bin unless the frequency is half-way between two bins, where the devices differ (refuted)."},
{"property": "C23", "status": "partial", "theorems": ["C23_rows_match_ssq_freqs_partial", "C23_unflipped_cwt_reversed", "C23_rows_refuted"], "note": "Rows and ssq_freqs correspond for the STFT and for the CWT with flipud=True. Refuted for the CWT with flipud=False: the returned frequencies are reversed."},
{"property": "C24", "status": "partial", "theorems": ["C24_shape", "C24_rows_are_freqs_partial", "C24_user_freqs_refuted"], "note": "Tx has the shape of Wx always, and len(ssq_freqs) rows when the library computes them. Refuted for a user array of another length, which is accepted."},
{"property": "C25", "status": "partial", "theorems": ["C25_get_w_same_partial", "C25_threshold_refuted", "C25_abs_refuted"], "note": "Same Tx for squeezing='sum' when no coefficient has modulus exactly gamma. Refuted for modulus equal to gamma and for squeezing='abs'."},
{"property": "C26", "status": "partial", "theorems": ["C26_batch_items_partial", "C26_batch_succeeds_partial", "C26_lebesgue_refuted"], "note": "Proved for sum, abs and user functions. Refuted for lebesgue, which divides by the batch size."},
{"property": "C27", "status": "proved", "theorems": ["C27_phase_cwt", "C27_phase_stft", "C27_agree", "C27_cwt_closed_form", "C27_stft_closed_form"], "note": "every cell, every chunking and interleaving of the CPU kernels, and the CUDA kernel within launch limits (rows <= 2^31-32, columns <= 2097120, see C53); exact arithmetic; gamma > 0"},
{"property": "C28", "status": "partial", "theorems": ["C28_pure_tone_partial", "C28_complex_cast", "C28_nonanalytic_refuted"], "note": "Proved for every real tone (any amplitude, phase, 0<2k<=N, fs, norm, wavelet vanishing at the mirrored frequency, no wavelet cache), value k*|fs|/N; complex tones are cast to their real part by cwt (C28_complex_cast). 'Any wavelet' is false: C28_nonanalytic_refuted."},
{"property": "C29", "status": "proved", "theorems": ["C29_differences_exact", "C29_derivative"], "note": "Every polynomial of degree <= difforder with complex coefficients, any step dt <> 0, any row and interior column: the phase is computed from the exact derivative."},
{"property": "C30", "status": "partial", "theorems": ["C30_first_ridge_partial", "C30_every_ridge_partial", "C30_succeeds", "C30_valid_rows", "C30_more_rows_than_times_refuted", "C30_single_row_refuted"], "note": "Every ridge of every call (any schedule of the parallel kernels) is within (n_times-1)*eps of the cheapest path, when there are at least as many times as rows and each column has energy left; indices are valid rows always. Findings: with more rows than times the last index is reduced modulo n_times (C30_more_rows_than_times_refuted); one row raises TypeError. Real arithmetic with NaN."},
{"property": "C31", "status": "partial", "theorems": ["C31_band_removed_partial", "C31_rest_kept", "C31_repeated_ridge", "C31_negative_start_refuted", "C31_upper_row_refuted"], "note": "A later ridge finds zero energy in rows r-bw .. r+bw-1 of an earlier one whenever r >= bw, and the original energy outside the bands. Findings: for r < bw the slice start is negative and (2*bw <= rows) nothing is removed, so the same ridge is returned twice; row r+bw keeps its energy."},
{"property": "C32", "status": "partial", "theorems": ["C32_forward_any_schedule", "C32_no_ties_partial", "C32_ties_refuted"], "note": "Forward kernel: every schedule equals the serial loop for any arithmetic. Whole call: equal when no two rows tie (up to eps) as predecessors. Finding: with ties the result depends on the schedule (C32_ties_refuted); C30 still holds for every schedule."},
{"property": "C33", "status": "proved", "theorems": ["C33_components_partition", "C33_component_is_its_band", "C33_residual_is_the_rest", "C33_overlap_counted_twice", "C33_below_minus_one"], "note": "Needs cc >= -1 and cw >= 0, as documented. Outside: overlapping bands are counted twice; cc < -1 may take row 0 (both shown by witnesses)."},
{"property": "C34", "status": "proved", "theorems": ["C34_issq_is_icwt", "C34_issq_is_icwt_numeric", "C34_default_freqs", "C34_within_gamma"], "note": "Every signal, wavelet, log scale grid and squeezing schedule, difftype trig/phase and numeric (numeric with padding of at least four samples on the right, else columns are lost, see C57). Exact reals; frequencies are assumed representable by the index kernel (no int64 overflow) and |Wx| above gamma, as the statement requires."},
{"property": "C35", "status": "partial", "theorems": ["C35_mean_once_partial", "C35_piecewise_adds_more", "C35_piecewise_refuted", "C35_rpadded_two_int_refuted"], "note": "Proved for log, linear and other non-piecewise scales; for log-piecewise scales the mean is added once per part (at least twice). icwt with one_int=False and rpadded=True raises UnboundLocalError."},
{"property": "C36", "status": "partial", "theorems": ["C36_linear", "C36_row_own_scale_partial", "C36_vectorized_is_loop_partial", "C36_batch_items", "C36_batch_succeeds", "C36_complex_vectorized_refuted", "C36_complex_rows_refuted"], "note": "Linearity and batching proved in full; row locality and vectorized=loop proved for real-valued wavelets without cached arrays, refuted for complex-valued ones (imaginary part dropped by a whole-array test)."},
{"property": "C37", "status": "proved", "theorems": ["C37_columns", "C37_columns_without_padding"], "note": "cwt with any padding and without."},
{"property": "C38", "status": "partial", "theorems": ["C38_restored", "C38_sequences_partial", "C38_raising_call_refuted", "C38_every_later_call_raises_refuted"], "note": "Restoration on return proved; sequences of calls (raising or not) keep the state when the patience is accepted; a call with patience>0 and no pyfftw raises and makes every later call raise."},
{"property": "C39", "status": "partial", "theorems": ["C39_answers_partial", "C39_fresh_partial", "C39_nohalf_refuted", "C39_allclose_refuted", "C39_write_refuted"], "note": "Proved: after any history of Psih calls and N changes the answer is a fresh evaluation at the right length, for this request or an earlier one with nearly equal scales (np.allclose); equal to the fresh evaluation when no earlier near-equal request differs in scales or nohalf. Refuted: nohalf is not in the cache key; scales within tolerance are confused; the returned array is the cached one, so writing to it changes later answers."},
{"property": "C40", "status": "partial", "theorems": ["C40_uncached", "C40_alone", "C40_cached_partial", "C40_direction_refuted", "C40_alias_refuted", "C40_patience_refuted", "C40_values_partial", "C40_back_partial", "C40_real_partial", "C40_even_partial"], "note": "Uncached (the default): proved for every call sequence. Cached: proved when no earlier call with the same key had the other direction, until a later call with the same key; refuted otherwise (direction not in the key, output buffer shared, patience not validated on a hit)."},
{"property": "C41", "status": "proved", "theorems": ["C41_gdefaults", "C41_value", "C41_quotes"], "note": "Whole path from the text of configs.ini (any distinct configuration, any spacing, blank lines, text after the end mark) through gdefaults with an explicit module.fn: values, added keys, order and return form for every keyword dictionary. float() is a parameter of the model."},
{"property": "C42", "status": "partial", "theorems": ["C42_global_default", "C42_honoured_partial", "C42_false_ignored_refuted", "C42_env_on_refuted", "C42_search_partial", "C42_phase_partial"], "note": "parallel=False honoured by indexed_sum, replace_under_abs and zero_denormals; None follows IS_PARALLEL() everywhere, whose value is characterised from environment and configuration text. Findings: ssqueeze_fast, indexed_sum_onfly, phase_cwt (trig and phase), phase_stft and buffer run threads despite parallel=False when the global default is on; SSQ_PARALLEL=1 does not override parallel=0 in configs.ini."},
{"property": "C43", "status": "partial", "theorems": ["C43_layout", "C43_dft_bin", "C43_scaled", "C43_shifts_inverse", "C43_centred_increasing_partial", "C43_odd_refuted", "C43_odd_other_shift"], "note": "Layout, DFT-bin agreement and mutual inverses proved for every N. Increasing order after aifftshift proved for even N; refuted for every odd N >= 3 (the code uses ifftshift where fftshift sorts)."},
{"property": "C44", "status": "proved", "theorems": ["C44_morlet_peak", "C44_gmw_l1", "C44_gmw_l1_unimodal", "C44_gmw_l1_centered", "C44_gmw_l2", "C44_gmw_accepts", "C44_morlet", "C44_bump", "C44_cmhat", "C44_hhhat"], "note": "Real arithmetic: exp underflow (which makes far tails exactly 0) is not modelled. mu > 0 for Morlet, s > 0 for bump and cmhat. Also proved: strict unimodality, centered_scale, the L2 normalisation, hhhat."},
{"property": "C45", "status": "proved", "theorems": ["C45_log_scales", "C45_log_scales_inferred", "C45_linear_scales"], "note": "Also linear scales, and that nv is read back from the array."},
{"property": "C46", "status": "partial", "theorems": ["C46_piecewise_scales_partial", "C46_downsampling_index", "C46_default_coarse_part_nonempty", "C46_early_switch_refuted", "C46_few_scales_refuted"], "note": "Proved for a transition index >= 2 with a non-empty coarse part (automatic for the default span and downsample <= 8). Refuted for index 1, and find_downsampling_scale raises UnboundLocalError for span+1 or fewer scales."},
{"property": "C47", "status": "partial", "theorems": ["C47_accepted_rate_partial", "C47_rejected", "C47_uniform_accepted", "C47_decreasing_t_refuted", "C47_nonuniform_refuted"], "note": "Refuted: decreasing t gives a negative rate; steps of the order of 10 ns pass the absolute uniformity threshold. Otherwise proved."},
{"property": "C48", "status": "partial", "theorems": ["C48_terminates_partial", "C48_maximum", "C48_unimodal", "C48_gmw", "C48_first_occurrence", "C48_hangs_refuted"], "note": "Termination is proved whenever int(steps*step_size) >= 1, and everything the property says about results is proved for all parameters; for unimodal functions (GMW included) the maximum is located to within one step. Refuted in general: if int(steps*step_size) = 0 both loops never end, for every function (C48_hangs_refuted)."},
{"property": "C49", "status": "proved", "theorems": ["C49_nCk", "C49_nCk_pascal", "C49_cumulants", "C49_cumulants_unique"], "note": "nCk for 0 <= k <= n against factorials and Pascal's rule; cumulants satisfy the moment recursion and are the only ones that do. Outside 0..n nCk returns 1 rather than 0 (CombProofs.nCk_outside), which the code never relies on."},
{"property": "C50", "status": "partial", "theorems": ["C50_log_linear_range", "C50_stft_linear_range", "C50_maximal_range", "C50_piecewise_range_partial", "C50_repeated_freqs", "C50_late_transition_refuted"], "note": "Full for log, linear and STFT. Log-piecewise: proved when it returns; it raises when the spacing changes at the last scale or both halves come out equally spaced, and repeats a frequency if anchors coincide (witnesses)."},
{"property": "C51", "status": "partial", "theorems": ["C51_replace_at", "C51_replace_at_twice", "C51_under_abs", "C51_under_abs_twice", "C51_under_abs_gpu", "C51_default_ref_refuted", "C51_denormals_partial", "C51_denormals_view_refuted"], "note": "replace_at_* and replace_under_abs: exact, idempotent, every schedule. zero_denormals: the same for contiguous arrays; a non-contiguous array is left unchanged (refuted). replace_under_abs with its default ref=None raises (refuted)"},
{"property": "C52", "status": "partial", "theorems": ["C52_range_partial", "C52_peak", "C52_gmw", "C52_single_scale_refuted", "C52_one_sample_refuted"], "note": "Proved for two or more scales and at least two samples after padding, for every wavelet; refuted for a single scale (TypeError) and for one unpadded sample (AssertionError)."},
{"property": "C53", "status": "partial", "theorems": ["C53_columns_partial", "C53_cells_partial", "C53_overflow_refuted", "C53_twice_refuted", "C53_long_signal_refuted"], "note": "holds for M*N <= 2^31-1024 (1-D) and rows <= 2^31-32, columns <= 2097120 (2-D); beyond: negative index past the check, two threads on one column, launch rejected (refuted)"},
{"property": "C54", "status": "partial", "theorems": ["C54_tone", "C54_length_partial", "C54_default_length_refuted", "C54_default_tone_refuted", "C54_rpadded"], "note": "Tone derivative proved for rpadded=True and explicit N, n1; padding first equals padding inside; with default arguments the length is N+n2 (refuted) and reflect padding breaks the tone (refuted)."},
{"property": "C55", "status": "partial", "theorems": ["C55_lchirp", "C55_echirp_pc", "C55_hchirp", "C55_echirp_partial", "C55_echirp_refuted"], "note": "Proved for lchirp, echirp_pc, hchirp and, when tmax <> 0, echirp; echirp divides by zero at tmax = 0 (C55_echirp_refuted)."},
{"property": "C56", "status": "proved", "theorems": ["C56_reset", "C56_any_order", "C56_set_N_keeps"], "note": "The wavelet's integrals are arbitrary functions of scale and N that may raise; find_maximum's result is a value independent of N, as in the code."},
{"property": "C57", "status": "partial", "theorems": ["C57_trig_phase_partial", "C57_order_padded_partial", "C57_numeric_partial", "C57_numeric_refuted", "C57_order_unpadded_refuted", "C57_order_batch_refuted"], "note": "Proved for trig and phase, for order>0 with padding, and the exact numeric column counts. Refuted: numeric returns 8 columns for 9 samples; order>0 without padding returns 5 of 9; a batch with order>0 slices the scale axis instead of time."},
{"property": "C58", "status": "proved", "theorems": ["C58_ifft_fft", "C58_fft_ifft", "C58_irfft_rfft", "C58_rfft_is_half_fft", "C58_parseval", "C58_convolution"], "note": "Over exact complex numbers; the library's FFT backend (pyfftw/scipy/torch) is assumed to compute the DFT."},
{"property": "C59", "status": "partial", "theorems": ["C59_mean", "C59_batch_partial", "C59_batch_refuted"], "note": "Mean proved in full; batches with array scales act per signal; with named scales the number of signals is used as the length (refuted)."},
{"property": "C60", "status": "partial", "theorems": ["C60_log_weight_partial", "C60_piecewise_weight", "C60_fractional_voices_refuted", "C60_coarse_scales_rejected"], "note": "Proved for library-made log scales and every log-piecewise array. Refuted for log arrays with a fractional number of voices per octave, which is rounded."},
{"property": "C61", "status": "partial", "theorems": ["C61_batch_items_partial", "C61_batch_succeeds_partial", "C61_order_refuted"], "note": "Proved for order=0, trig and every squeezing but lebesgue (C26_lebesgue_refuted shows that one mixes items). Refuted for order>0, which slices the wrong axis of a batch."},
{"property": "C62", "status": "partial", "theorems": ["C62_caller_partial", "C62_caller_refuted"], "note": "Right for file stems not ending in '.', 'p' or 'y'. Finding: rstrip('.py') strips characters, not the extension (C62_caller_refuted)."},
{"property": "C63", "status": "partial", "theorems": ["C63_unchanged_partial", "C63_same_values_again", "C63_overwritten_refuted"], "note": "Unchanged if centered_scale, or dtype differs, or no negative frequency; values are the same on a second call. Refuted otherwise: w *= w_nonneg runs on the caller's array."},
{"property": "C64", "status": "proved", "theorems": ["C64_gamma_exists", "C64_energy_orthonormal", "C64_bandpass_orthogonal", "C64_bandpass_equal_energy", "C64_analytic", "C64_order0"], "note": "Over real numbers, with scipy's gamma equal to Euler's integral at positive arguments (existence proved). Integrals are limits of Riemann integrals over (0, oo)."},
{"property": "C65", "status": "proved", "theorems": ["C65_moments", "C65_frequencies", "C65_curvature"], "note": "All p, gamma, beta. The variance is shown positive, so the power in cwi is of a positive number."},
{"property": "C66", "status": "partial", "theorems": ["C66_accepts_partial", "C66_float_order_refuted", "C66_errors_partial", "C66_energy_single_partial"], "note": "Exact acceptance condition proved. Refuted as stated: float orders 1.0, 2.0, ... pass the check and raise TypeError in np.zeros(k + 1)."},
{"property": "C67", "status": "partial", "theorems": ["C67_order1_value_partial", "C67_order0_partial", "C67_peak_refuted"], "note": "Proved for order 0; order 1 has value 2/sqrt(gamma*(2*beta+1)) at wc, so the docstring is refuted for the default parameters."},
{"property": "C68", "status": "partial", "theorems": ["C68_morsewave_partial", "C68_negative_frequency", "C68_negative_refuted", "C68_beta0", "C68_beta0_refuted"], "note": "Proved for positive frequencies, every order and norm. Refuted: negative frequencies raise ValueError for N > 1 (shape mismatch); beta = 0 divides by zero for Python float frequencies."},
{"property": "C69", "status": "proved", "theorems": ["C69_symmetric", "C69_peak_at_center", "C69_spectrum", "C69_compute_gmw"], "note": "Every real-valued wavelet function, every scale and N; peak at N//2 for even N (for odd N the centre of symmetry falls between samples). compute_gmw agreement for norm='bandpass', every order."},
{"property": "C70", "status": "proved", "theorems": ["C70_energy_range", "C70_peak", "C70_energy_value", "C70_peak_ct"], "note": "Range and peak for every N including odd N; exact value of 'energy' for even N. find_maximum's outcome is a parameter (its own theorems are C48)."},
{"property": "C71", "status": "partial", "theorems": ["C71_freq_width_partial", "C71_time_width_partial", "C71_force_int_ignored_partial", "C71_center_frequency_refuted"], "note": "freq_resolution and time_resolution scale as documented. Refuted for center_frequency: 'force_int or True' makes the argument inert, so scale*wc varies (default GMW, scales 1 and 1024)."},
{"property": "C72", "status": "partial", "theorems": ["C72_default_length_partial", "C72_even_length_partial", "C72_other_length_refuted", "C72_odd_length_refuted"], "note": "Proved for N=1024. For other even N the result is sqrt(var + (mean_N - mean_1024)^2), because center_frequency is called without N (refuted with the default GMW, N=2). Odd N integrates over unsorted frequencies: a wavelet is exhibited for which the result is nan (refuted)."},
{"property": "C73", "status": "proved", "theorems": ["C73_time_resolution"], "note": "Every real-valued wavelet, N >= 2, min_mult >= 1, min_decay >= 0."},
{"property": "C74", "status": "partial", "theorems": ["C74_side", "C74_left_partial", "C74_right_partial", "C74_peak", "C74_order_partial", "C74_lesser_cutoff_refuted", "C74_left_far_partial", "C74_right_far_partial", "C74_false_stop_refuted"], "note": "find_min_scale modelled on top of the search model (Search.v). Proved for every wavelet: the side of the peak. For wavelets rising then falling strictly: within 1e-3 left, 2e-3 right of the crossing, in the first search (peak below 10) and in any later one when no step of the wavelet over 1e-3 reaches from the end of an earlier search to the value (Morlet's default mu=13.4 is an instance). Findings: without that bound a search stops early, 5 rad short of the crossing (refuted); the documented 'lesser cutoff gives lesser min_scale, always' is the reverse of what holds between cutoffs of one sign; refuted for the default GMW (cutoffs -1 and -0.5)."},
{"property": "C75", "status": "partial", "theorems": ["C75_edge", "C75_raises", "C75_default_amp", "C75_loc_partial", "C75_amp_partial", "C75_any_loc", "C75_greater_loc_refuted", "C75_past_middle_refuted"], "note": "find_max_scale characterised exactly for every wavelet, N and bin_loc in 1..N/2. Findings: a greater bin_loc need not give a lesser scale (both 0 at N=8 with the default wavelet); bin_loc past N/2 gives a negative scale and bin 0 nan, without an error."},
{"property": "C76", "status": "partial", "theorems": ["C76_straddles_partial", "C76_min_cutoff_partial", "C76_fewest_partial", "C76_invalid", "C76_max_cutoff_unused", "C76_max_cutoff_refuted", "C76_short_refuted"], "note": "find_max_scale_alt: two bins straddle the peak, nearly symmetrically, and the half-bin point stays above min_cutoff. Findings: max_cutoff is validated and never used, the bins can lie above it; for few samples (N=10) a plain Exception is raised."},
{"property": "C77", "status": "partial", "theorems": ["C77_naive", "C77_presets_override", "C77_parts", "C77_invalid", "C77_bad_cutoffs", "C77_padded", "C77_short_maximal_partial", "C77_range_refuted"], "note": "cwt_scalebounds' presets and validation. Finding: the returned range can be empty, 'maximal' with N=3..5 gives max_scale=0 (make_scales then takes N)."},
{"property": "C78", "status": "partial", "theorems": ["C78_nyquist_partial", "C78_short_refuted", "C78_piecewise_partial"], "note": "Named scales: least scale puts the peak at or past Nyquist, greatest within two voices of max_scale ('log-piecewise': within 1 + downsample voices; least scale exact also if the spacing changes at index 0). Refuted for bounds with max_scale below min_scale ('maximal' on 3 to 5 samples)."},
{"property": "C79", "status": "partial", "theorems": ["C79_log", "C79_linear", "C79_spacing", "C79_log_units_partial", "C79_small_units", "C79_units_refuted", "C79_arithmetic_refuted"], "note": "Exact characterisation of 'log' and 'linear' with their tolerances for all real arrays. Findings: the linear test is absolute, so any non-logarithmic array (in particular a log-piecewise one) is called 'linear' in a small enough unit; evenly spaced arrays of nearly equal entries are called 'log'."},
{"property": "C80", "status": "proved", "theorems": ["C80_like_ssq_cwt", "C80_default_freqs", "C80_numeric", "C80_default_maprange"], "note": "like_ssq_cwt for 'trig' and 'phase', both get_w, all schedules; default ssq_freqs for array scales of the same dtype; 'numeric' stated for ssq_cwt's squeezing step (squeeze_step), whose padded transform is the input."},
{"property": "C81", "status": "proved", "theorems": ["C81_like_ssq_stft"], "note": "all options, both get_w; 1-D x; stft called with the rate that ssq_stft derives."},
{"property": "C82", "status": "partial", "theorems": ["C82_rpadded_refuted", "C82_rpadded_kept", "C82_rpadded_mismatch", "C82_Sfs_unused", "C82_rows_from_fs", "C82_t_unused", "C82_difftype_default", "C82_difforder_default", "C82_stft_freqs_default", "C82_defaults_refuted"], "note": "False of the code in every clause: rpadded=True leaves Wx padded (refuted, and proved for all but 'numeric') while a dWx computed here is unpadded; Sfs is never passed on; t does not enter the STFT rows' frequencies; default difftype with get_w raises UnboundLocalError, default difforder with 'numeric' ValueError, and the STFT without ssq_freqs never succeeds."},
{"property": "C83", "status": "partial", "theorems": ["C83_no_alias_partial", "C83_least_partial", "C83_least_refuted", "C83_open_end_refuted", "C83_negative_refuted", "C83_default_fmax_partial"], "note": "No aliasing proved for the four sweeps with 0 <= fmin < fmax. Minimality: holds with respect to fmax <= fs/2 when the endpoint is included; refuted with respect to the phases (0-1 Hz: 2 samples do, 3 chosen) and for endpoint=False. Finding: negative frequencies are ignored (-10..0 Hz gives one sample); the default fmax=N//2 aliases when tmax-tmin > 1."},
{"property": "C84", "status": "partial", "theorems": ["C84_sum", "C84_explicit", "C84_order_partial", "C84_fmax2_refuted", "C84_parallel", "C84_defaults"], "note": "Sum and explicit frequencies proved; ordering proved when the second frequencies are not given, and that the two then stay a fixed distance (or ratio) apart at every time. Finding: fmax2 without fmax1 is dropped."},
{"property": "C85", "status": "proved", "theorems": ["C85_tone", "C85_exp", "C85_gauss"], "note": "am_tone covers am_sine and am_cosine (any generator bounded by 1). am_gauss ignores the time keywords."},
{"property": "C86", "status": "partial", "theorems": ["C86_jumps_points_partial", "C86_jumps_forward_partial", "C86_jumps_whole_partial", "C86_packed_none_partial", "C86_packed_negative_partial", "C86_jumps_partial", "C86_jumps_times_partial", "C86_jumps_length_refuted", "C86_jumps_times_refuted", "C86_packed_partial", "C86_packed_refuted"], "note": "Segments, time points, lengths and tones proved exactly for all arguments; findings: jumps returns n*(N//n) samples, N exactly if n divides N; its time vector starts at tmin but ends at n*(tmax-tmin), so time runs forward exactly if tmin < n*(tmax-tmin); packed with an overlap of no samples lets odd tones cover everything, as x[-0:] is all of x."},
{"property": "C87", "status": "partial", "theorems": ["C87_carrier_params", "C87_modulated_params", "C87_bare_modulator", "C87_signal", "C87_reflected", "C87_one_each_partial", "C87_duplicates_refuted", "C87_modulator_times_refuted", "C87_arguments_partial", "C87_names_partial", "C87_unknown_partial"], "note": "Parameter precedence, product, reflection proved; one signal per request proved for distinct names. Findings: requests of the same name collapse into one entry; time keywords for the modulator always raise TypeError (passed twice)."},
{"property": "C88", "status": "partial", "theorems": ["C88_seeded_partial", "C88_snr", "C88_drift_refuted", "C88_drift_partial", "C88_snr_zero_refuted", "C88_zero_refuted", "C88_seed_zero_refuted"], "note": "Reproducible with a non-zero seed from equal dicts; SNR proved equal to snr - 10 log10 var(deviates). Findings: the caller's dict is overwritten with the measured SNR, so the same call repeated gives different noise; snr=0 and seed=0 are treated as None."},
{"property": "C89", "status": "partial", "theorems": ["C89_odd_partial", "C89_even_partial", "C89_scaled", "C89_box_refuted", "C89_hann_refuted", "C89_delta_refuted", "C89_order_refuted", "C89_centre_partial", "C89_centre_refuted"], "note": "Odd lengths proved in full up to the centre; even lengths only when the two outermost frequencies carry no energy. Findings: for even N the frequency axis starts at +pi, so the first trapezoid has negative width: zero area (box), nan (periodic Hann), std_w > pi (delta). std_t is measured about N/2, so a symmetric window's variance gains 1/4."},
{"property": "C90", "status": "partial", "theorems": ["C90_both_partial", "C90_time", "C90_odd_partial", "C90_even_partial", "C90_negative_refuted"], "note": "Time area and odd frequency area proved; even formula proved. Finding: frequency area negative for a 4-sample delta (same +pi ordering)."},
{"property": "C91", "status": "proved", "theorems": ["C91_scale", "C91_zero", "C91_below_rms", "C91_silence"], "note": "All four parts; broadcasting of a single sample not modelled."},
{"property": "C92", "status": "partial", "theorems": ["C92_amax", "C92_band", "C92_past_refuted", "C92_empty_refuted"], "note": "where_amax and the line proved. Findings: the plane's diagonal ends one row past the last row; the default bw gives half-width 0 below 40 rows."},
{"property": "C93", "status": "partial", "theorems": ["C93_fine_only", "C93_homogeneous", "C93_sign", "C93_outlier_refuted", "C93_monotone_refuted"], "note": "Locality, homogeneity, sign proved. Findings: the deviation is mean, not median: one coefficient moves the threshold without bound; raising every fine coefficient to the same modulus brings it to 0 although the docstring says it grows with high-frequency content."},
{"property": "C94", "status": "partial", "theorems": ["C94_value", "C94_nonneg", "C94_positive", "C94_bound", "C94_support", "C94_decay", "C94_cut_partial", "C94_gap_refuted", "C94_units_refuted", "C94_warning_refuted", "C94_sign_refuted", "C94_accuracy"], "note": "Value, sign, bounds, convergence criteria, cut-off error and, for unimodal integrands, quadrature error proved for real integrands. Findings: the strip between 0.1 and the first linear sample is skipped; thresholds are absolute, so any integrand in small units raises; when no range converges the warning says only 1e-15..0.1 was integrated but 0.1..160 is added too; a nonpositive integrand that vanishes at the first sample silently gives only the near-zero part."},
{"property": "C95", "status": "partial", "theorems": ["C95_cwt_sign", "C95_ssq_sign", "C95_cwt_even", "C95_gmw", "C95_morlet", "C95_default", "C95_odd_refuted", "C95_default_value", "C95_default_exact"], "note": "Positivity proved for all GMW and Morlet parameters whenever a value is returned; existence and value (within 1/400 of (2/3)(e/20)^20 19!) proved for the default wavelet. Finding: adm_ssq of minus a wavelet is not minus adm_ssq (0 for a box)."},
{"property": "C96", "status": "partial", "theorems": ["C96_given_partial", "C96_default", "C96_energy", "C96_np_type_refuted", "C96_function_refuted", "C96_function", "C96_supported_refuted", "C96_type_option_partial", "C96_dtype_option_partial"], "note": "Proved for named wavelets with dtype a string, np.dtype or torch.dtype; defaults and norm='energy' in full. Refuted: np.float32/np.float64 (the type itself) always raise, since str() of it is cut to \"float64'>\"; for a function the argument is ignored in favour of its output's dtype; 'bump' accepts np.dtype('complex64') as its dtype."},
{"property": "C97", "status": "partial", "theorems": ["C97_config", "C97_names", "C97_unknown", "C97_rebuild", "C97_caller_partial", "C97_caller_refuted"], "note": "Proved but for one clause: a tuple whose first entry is no string is rejected after 'dtype' was written to the caller's dictionary (C97_caller_refuted)."},
{"property": "C98", "status": "proved", "theorems": ["C98_orders", "C98_rejected"], "note": "Orders other than None. A user function named like a GMW raises KeyError."},
{"property": "C99", "status": "partial", "theorems": ["C99_one_row_partial", "C99_padded_refuted"], "note": "For tones with a whole number of periods and padtype=None, default squeezing and difftype, log scales and geometric ssq_freqs, under any schedule: everything is in the row nearest in log-frequency. Refuted for padded signals (the reflected signal is not a tone). Missing: frequencies between DFT bins."},
{"property": "C100", "status": "partial", "theorems": ["C100_issq_partial", "C100_component", "C100_icwt_partial", "C100_padded_refuted"], "note": "Exact gains for issq_cwt, icwt and component inversion in the setting of C99; refuted for padded signals. How close the gain is to 1: C105."},
{"property": "C101", "status": "partial", "theorems": ["C101_band", "C101_last_row_refuted", "C101_curve_partial", "C101_constant", "C101_tone"], "note": "Exact when all energy lies on the curve (C101_curve_partial, C101_constant). With energy elsewhere, and for every ridge, it stays in the rows that carry the most (C101_band). False when the curve ends in a row numbered T or more, T the number of times: the last index is taken modulo T (C101_last_row_refuted)."},
{"property": "C102", "status": "partial", "theorems": ["C102_row", "C102_tone_partial", "C102_units_refuted"], "note": "Refuted: 'phase' gives cycles per sample whatever fs, and its last column is the whole phase advance. Proved: the exact values for any row that turns uniformly, and for any tone."},
{"property": "C103", "status": "proved", "theorems": ["C103_cwt", "C103_icwt", "C103_round_trip", "C103_gmw"], "note": "Positive scales. Every scale type, padding, one or two integrals, errors and cached wavelets included; a GMW raises ValueError in the other norm."},
{"property": "C104", "status": "proved", "theorems": ["C104_filter", "C104_error"], "note": "Exact; RoundTrip.v. The bound on the error given a bound on the gain is C104_error."},
{"property": "C105", "status": "proved", "theorems": ["C105_bound", "C105_gmw", "C105_default", "C105_ssq_icwt", "C105_ssq_default"], "note": "Second-order quadrature error of the scale sum plus both tails; the constant adm_ssq returns for the default wavelet is within 1/400 of the exact integral. Exact arithmetic; the signal must have no content outside the scale range (band condition in the statement)."},
{"property": "C106", "status": "partial", "theorems": ["C106_packed_fm", "C106_packed_sampled", "C106_packed_order_partial", "C106_packed_adjusts_partial", "C106_packed_order_refuted", "C106_cubic_fm", "C106_cubic_bands", "C106_cubic_adjusts", "C106_packed_start"], "note": "poly_cubic: in full. packed_poly: frequencies, sampling and (N >= 129) the order of the bands; refuted for small N: x2's ripple .3*sin(t) is not multiplied by adj"},
{"property": "C107", "status": "proved", "theorems": ["C107_spread", "C107_dominant", "C107_octave", "C107_chord"], "note": "any wavelet with real spectrum, any signal and padding; octave separation for the default GMW"},
{"property": "C108", "status": "proved", "theorems": ["C108_reassigned", "C108_sparse", "C108_components", "C108_recovered"], "note": "any signal for the row assignment; tones three octaves apart, default GMW, unpadded, for the components"},
{"property": "C109", "status": "partial", "theorems": ["C109_messages_partial", "C109_wrong_kind_partial", "C109_accepted_partial", "C109_refused_partial", "C109_order_partial", "C109_same_check_partial", "C109_usable_partial", "C109_list_refuted", "C109_none_refuted", "C109_length_refuted", "C109_scheme_refuted"], "note": "Acceptance characterised exactly and errors classified; strings and pairs give the model's range. Refuted: list, None and wrong-length maprange fail later; unknown ssq_freqs strings are accepted and may misplace energy."},
{"property": "C110", "status": "partial", "theorems": ["C110_zeroed_partial", "C110_finite_partial", "C110_warned_partial", "C110_batch_partial", "C110_orders_partial", "C110_empty_partial", "C110_caller_refuted", "C110_unchecked_refuted"], "note": "Zeroing, warning and untouched finite input proved for all arrays. Refuted: the caller's array is overwritten; nan_checks=False has no effect with order > 0."},
{"property": "C111", "status": "partial", "theorems": ["C111_name_partial", "C111_tuple_partial", "C111_instance_partial", "C111_others_partial", "C111_reuse_partial", "C111_reuse_refuted", "C111_tuple_refuted", "C111_higher_instance_partial", "C111_orders_refuted", "C111_typo_refuted"], "note": "Proved for names, tuples without norm, and instances of order 0. Refuted: a tuple used twice, tuples naming a norm, higher orders, misspelt names."},
{"property": "C112", "status": "partial", "theorems": ["C112_rate_partial", "C112_cwt", "C112_phase_refuted", "C112_unit_refuted"], "note": "Proved for order 0 and difftypes trig and numeric with log-spaced rows (or steps of at least EPS64). Refuted: difftype phase; recognition of linear frequency arrays depends on the unit."},
{"property": "C113", "status": "partial", "theorems": ["C113_scale_partial", "C113_threshold_partial", "C113_default_gamma_refuted"], "note": "Proved for order 0, difftype trig, squeezing sum and abs, with gamma scaled alike. Refuted for the default gamma."},
{"property": "C114", "status": "partial", "theorems": ["C114_roll_partial", "C114_delay_partial", "C114_reverse_partial", "C114_reflect_refuted"], "note": "Proved for order 0, difftype trig: rotation unpadded, delay with zero padding, reversal unpadded, zero-padded or even length. Refuted for reflect padding."},
{"property": "C115", "status": "proved", "theorems": ["C115_phase", "C115_one_row", "C115_value", "C115_inverse", "C115_hann"], "note": "Exact, in every frame wholly inside the signal; at the borders padding breaks the tone."},
{"property": "C116", "status": "partial", "theorems": ["C116_odd_partial", "C116_odd_refuted"], "note": "False: the rows of an odd n_fft are labelled as if there were n_fft-1 bins. The partial theorem gives the exact frequency found in each row."},
{"property": "C117", "status": "proved", "theorems": ["C117_energy", "C117_bounded", "C117_stable"], "note": "Row energies exactly where nothing is cropped, bounds everywhere."},
{"property": "C118", "status": "proved", "theorems": ["C118_determines", "C118_constant", "C118_gmw"], "note": "For transforms that are not cropped (padtype=None or rpadded=True)."},
{"property": "C119", "status": "proved", "theorems": ["C119_components", "C119_bands"], "note": "For curves at least bw rows from the top, each outweighing what is left by a factor exceeding the price of two of its jumps."},
{"property": "C120", "status": "proved", "theorems": ["C120_strength", "C120_ridges", "C120_recovered"], "note": "Exact real arithmetic, default GMW, unpadded; tones at least three octaves apart and inside the scales."},
{"property": "C121", "status": "proved", "theorems": ["C121_voices", "C121_string", "C121_refused", "C121_other"], "note": "strings, nv and refusals; float nan/inf as nv not represented"},
{"property": "C122", "status": "partial", "theorems": ["C122_same_partial", "C122_log_partial", "C122_linear_partial", "C122_linear_refuted", "C122_piecewise_refuted"], "note": "proved for logarithmic arrays; refuted for linear and piecewise ones"},
{"property": "C123", "status": "partial", "theorems": ["C123_given_partial", "C123_N_partial", "C123_fmax_partial", "C123_fmax_refuted"], "note": "proved for given parameters, N, and the default fmax with an even number of samples; refuted for odd"},
{"property": "C124", "status": "partial", "theorems": ["C124_own_partial", "C124_other_partial", "C124_derived_refuted"], "note": "proved for Wavelet itself and unrelated classes; refuted for derived classes"},
{"property": "C125", "status": "partial", "theorems": ["C125_gain_partial", "C125_cwt_unit_partial", "C125_stft_offset_partial", "C125_stft_unit_partial", "C125_stft_unit_refuted"], "note": "gains, and units for transform=cwt: in full. transform=stft: the penalty is in squared frequency units, so the same frequencies in another unit may give another ridge (refuted); offset invariance and the exact change of penalty are proved."},
{"property": "C126", "status": "partial", "theorems": ["C126_smoother_partial", "C126_none_partial", "C126_large_partial", "C126_more_rows_refuted"], "note": "As C30: needs at least as many times as rows and energy in every column; slack (T-1)*eps from the backward pass. With more rows than times refuted for every penalty (C126_more_rows_refuted): the last index is taken modulo the number of times."},
{"property": "C127", "status": "proved", "theorems": ["C127_wrap_circular"], "note": ""},
{"property": "C128", "status": "partial", "theorems": ["C128_filter_partial", "C128_error_partial", "C128_rows_partial", "C128_reflect_refuted"], "note": "proved for padtype=None/wrap in cwt and wrap in icwt with power-of-two lengths; with the default padtype=reflect of icwt the claim is false (refuted: a tone returned at half its size)."},
{"property": "C129", "status": "proved", "theorems": ["C129_linear", "C129_scale"], "note": ""},
{"property": "C130", "status": "proved", "theorems": ["C130_stft", "C130_ssq", "C130_shift"], "note": ""},
{"property": "C131", "status": "proved", "theorems": ["C131_stft", "C131_ssq"], "note": ""},
{"property": "C132", "status": "proved", "theorems": ["C132_energy", "C132_zero_padded", "C132_frame"], "note": ""},
{"property": "C133", "status": "proved", "theorems": ["C133_stft", "C133_ssq", "C133_reverse"], "note": ""},
{"property": "C134", "status": "partial", "theorems": ["C134_unit_rate_partial", "C134_ratio_partial", "C134_refuted"], "note": "proved at fs=1; refuted at other rates: with modulated=False the derivative window is not multiplied by fs."},
{"property": "C135", "status": "partial", "theorems": ["C135_ticks_partial", "C135_refuted"], "note": "positions and accuracy proved; labels need not tell values apart (refuted)."},
{"property": "C136", "status": "partial", "theorems": ["C136_filterbank_partial", "C136_filterbank_refuted", "C136_gmw_partial", "C136_gmw_refuted", "C136_tf_partial", "C136_tf_odd_partial", "C136_tf_refuted"], "note": "exact only for wavelet_tf with even N and viz_gmw_orders with N=1024; elsewhere refuted, with the exact error proved."},
{"property": "C137", "status": "partial", "theorems": ["C137_given_partial", "C137_exactly_partial", "C137_plots_partial", "C137_default_partial", "C137_dropped_refuted", "C137_without_y_refuted", "C137_single_refuted", "C137_lines_partial", "C137_zero_refuted", "C137_array_refuted"], "note": "proved when the grid has at least two axes and room for all pairs; refuted otherwise, and for vlines=0 and arrays."},
{"property": "C138", "status": "partial", "theorems": ["C138_partial", "C138_shape_partial", "C138_digits_refuted", "C138_neighbour_refuted"], "note": "proved for stems with a non-digit; refuted for stems of digits, and a file extending the stem raises ValueError."},
{"property": "C139", "status": "proved", "theorems": ["C139_limits"], "note": ""},
{"property": "C140", "status": "proved", "theorems": ["C140_order", "C140_keeps"], "note": ""},
{"property": "C141", "status": "partial", "theorems": ["C141_sound_partial", "C141_found_partial", "C141_refuted"], "note": "soundness, and success unless a step hits the upper end exactly; refuted then."},
{"property": "C142", "status": "partial", "theorems": ["C142_two_partial", "C142_equal_partial", "C142_third_refuted", "C142_third_partial", "C142_equal_refuted"], "note": "proved for up to two plots on the same axes; the third cuts the data off (refuted); ax_equal with xlims raises (refuted)."},
{"property": "C143", "status": "partial", "theorems": ["C143_formula_partial", "C143_nearest_partial", "C143_only_nearest_partial", "C143_slices_partial", "C143_reflect_refuted"], "note": "proved for zero padding, and for any padding with the margins held fixed; with reflect (the default) another signal's stft can be nearer (refuted)."},
{"property": "C144", "status": "proved", "theorems": ["C144_linear"], "note": ""},
{"property": "C145", "status": "proved", "theorems": ["C145_stable"], "note": ""},
{"property": "C146", "status": "partial", "theorems": ["C146_rows_partial", "C146_each_partial", "C146_all_partial", "C146_hann_partial", "C146_shared_refuted"], "note": "proved for window lobes that share no bin (Hann: three bins apart); two bins apart a quarter of each tone goes to the row between (refuted)."},
{"property": "C147", "status": "proved", "theorems": ["C147_ridges", "C147_recovered"], "note": ""},
{"property": "C148", "status": "proved", "theorems": ["C148_derivative", "C148_trigdiff", "C148_cut"], "note": ""},
{"property": "C149", "status": "proved", "theorems": ["C149_spectrum", "C149_hilbert", "C149_sums", "C149_energy"], "note": "The wavelet is an arbitrary real one-sided function; gmw_spectrum shows the default gmw is one. Runs that reuse a cached wavelet array are excluded here."},
{"property": "C150", "status": "proved", "theorems": ["C150_cwt", "C150_ssq_cwt"], "note": "norm, padding and cache: padtype=None (periodic extension of the sampled period) and runs that compute their wavelet array. ssq_cwt part: order 0, squeezing \"sum\", difftype \"trig\", log scales with the same nv at both rates."},
{"property": "C151", "status": "proved", "theorems": ["C151_moves", "C151_stable", "C151_jumps"], "note": "Order 0; \"numeric\" excluded. As in C34, the frequencies found must be within reach of int64 bin indices (caught), and ssq_freqs no longer than scales when log."},
{"property": "C152", "status": "proved", "theorems": ["C152_stable", "C152_jumps"], "note": "As in C14, frequencies found must be within reach of int64 bin indices; with get_w gamma > 0."},
{"property": "C153", "status": "partial", "theorems": ["C153_convolves_partial", "C153_impulse", "C153_frequency", "C153_odd_length_refuted"], "note": "Convolution with psifn needs a padded signal or an even length: psifn for odd N is rolled a sample off (C70), refuted in C153_odd_length_refuted. C153_impulse and C153_frequency hold for every length (they compare with the inverse DFT itself)."},
{"property": "C154", "status": "partial", "theorems": ["C154_stft_partial", "C154_ssq_partial", "C154_default_n_fft_refuted"], "note": "n_fft must be given: its default is len(x)//hop_len, so a larger hop changes the rows as well (C154_default_n_fft_refuted). ssq part not for a callable squeezing."},
{"property": "C155", "status": "partial", "theorems": ["C155_rows_partial", "C155_odd_n_fft_refuted"], "note": "For n_fft even or the multiple odd; not padtype symmetric. Otherwise the window is centred a sample away (C155_odd_n_fft_refuted)."},
{"property": "C156", "status": "proved", "theorems": ["C156_icwt", "C156_icwt_errors", "C156_round_trip", "C156_issq_cwt", "C156_issq_stft", "C156_icwt_stable", "C156_issq_stable"], "note": "Exact arithmetic. The bound on icwt is for one_int=True and scales of one kind."},
{"property": "C157", "status": "proved", "theorems": ["C157_linear", "C157_column", "C157_silent", "C157_abs_bounds_sum", "C157_still"], "note": "Exact arithmetic. C157_abs_bounds_sum needs nonnegative weights; C157_still evenly spaced or geometric frequencies."},
{"property": "C158", "status": "proved", "theorems": ["C158_gmw_profile", "C158_gmw_profile_l2", "C158_gmw_narrower", "C158_gmw_band", "C158_gmw_sharp", "C158_morlet_gaussian", "C158_morlet_profile", "C158_morlet_narrower", "C158_morlet_recommended", "C158_bump_width", "C158_cmhat_width"], "note": "Exact arithmetic, order 0. Frequency side only: no statement on time resolution."},
{"property": "C159", "status": "proved", "theorems": ["C159_stft", "C159_phase", "C159_ssq_stft"], "note": "Exact arithmetic, even n_fft. Tx for ssq_freqs=None, squeezing='sum' and columns whose kept frequencies are within [0, fs/2] and off half-way points (outside, abs and clipping fold differently on the two sides)."},
{"property": "C160", "status": "proved", "theorems": ["C160_best", "C160_backwards", "C160_upside", "C160_curve"], "note": "Exact arithmetic. n_freqs <= n_times (C30 refutes optimality otherwise). Only the first ridge for reversed rows: the band removed, [r-bw, r+bw), is not symmetric."},
{"property": "C161", "status": "proved", "theorems": ["C161_filter", "C161_wave", "C161_scales", "C161_bound", "C161_flat"], "note": "Exact arithmetic, hop 1, interior samples; the gain for exponent 1 (the default)."},
{"property": "C162", "status": "proved", "theorems": ["C162_filter", "C162_mask", "C162_between", "C162_picks"], "note": "Exact arithmetic; a wavelet not cached with other parameters (uncached) as in C104."},
{"property": "C163", "status": "proved", "theorems": ["C163_gate", "C163_step"], "note": "squeezing='sum'; with the other squeezings the code compares the transformed array, not Wx, with gamma."},
{"property": "C164", "status": "proved", "theorems": ["C164_ridges", "C164_hann"], "note": "Real arithmetic; for stft itself. C165 is the counterpart for ssq_stft."},
{"property": "C165", "status": "proved", "theorems": ["C165_ssq", "C165_hann", "C165_phase"], "note": "Real arithmetic. The error allowed in a row is rate/n_fft*(n_fft/2+1)*e*sum|window|, the worst case in which all noise coefficients land in it."},
{"property": "C166", "status": "proved", "theorems": ["C166_stft_same", "C166_stft_values", "C166_cwt_same", "C166_cwt_values", "C166_stft_asked", "C166_cwt_asked"], "note": "ssq_cwt from the transform on, difftype trig and phase (numeric squeezes a slice of Wx, not modelled on memory). User functions touch only their argument. 1-D signals."},
{"property": "C167", "status": "partial", "theorems": ["C167_stft_fresh_partial", "C167_stft_shared_partial", "C167_cwt_shared_partial", "C167_Sfs_refuted", "C167_caller_refuted"], "note": "Tx, Wx/Sx, dWx are new arrays and old ones are not written (proved). Refuted: by default ssq_stft's ssq_freqs and Sfs are one array; an ssq_freqs array passed in comes back as a view of itself (reversed for ssq_cwt), and a scales array comes back as itself."},
{"property": "C168", "status": "proved", "theorems": ["C168_rows", "C168_components", "C168_whole"], "note": "Hann window of length n_fft, even n_fft >= 4, hop 1, wrap padding, squeezing 'sum', gamma given; exact real arithmetic. The result is rate times the signal, as C146 records."},
{"property": "C169", "status": "proved", "theorems": ["C169_rows", "C169_unchanged", "C169_hann", "C169_agree", "C169_ssq"], "note": "modulated=True; the ssq_stft part takes squeezing 'sum'. Exact real arithmetic."},
{"property": "C170", "status": "proved", "theorems": ["C170_cwt", "C170_ssq", "C170_higher", "C170_ssq_higher", "C170_gmw", "C170_gmw_orders"], "note": "padtype 'zero' is left out (the padded constant has edges, so the claim does not hold there); a cached psih is left out. Exact real arithmetic. Wavelets that are not 0 at frequency 0 are left out."},
{"property": "C171", "status": "proved", "theorems": ["C171_stft", "C171_ssq", "C171_silence"], "note": "ssq_freqs=None, squeezing 'sum', even n_fft (the grid of make_Sfs is that of the bins). Exact real arithmetic."},
{"property": "C172", "status": "proved", "theorems": ["C172_size", "C172_stable", "C172_phase", "C172_ssq"], "note": "padtype=None, l1_norm, default squeezing, 'trig' derivative, flipud; scales and ssq_freqs log-spaced with ratio 2^d, d <= 1. A row is clear when c > nu and c >= nu*(1 + 4n/(k*d)) for k periods in n samples. Row indices below 2^62. Exact real arithmetic."},
{"property": "C173", "status": "proved", "theorems": ["C173_issq", "C173_default"], "note": "as C172; one band per call. Exact real arithmetic."},
{"property": "C174", "status": "proved", "theorems": ["C174_ssq", "C174_issq"], "note": "padtype=None, l1_norm, default squeezing, 'trig' derivative, flipud; log scales and frequencies of ratio 2^d, d <= 1. Extends C108 (no noise, octave-spaced tones, default wavelet) to any wavelet and to noise. Exact real arithmetic."},
{"property": "C175", "status": "proved", "theorems": ["C175_samples", "C175_whole", "C175_closed", "C175_sine_cosine", "C175_segments", "C175_whole_segments"], "note": "Real arithmetic; aliasing warnings are not modelled. C175_whole ties cosine to the tones of C28, C108, C172 and others."},
{"property": "C176", "status": "partial", "theorems": ["C176_jumps_every_refuted", "C176_jumps_partial", "C176_jumps_refuted", "C176_packed_partial"], "note": "Holds for packed with any end point setting and for jumps with tmin = 0 and endpoint=False. Refuted for jumps with its default times for every N: the end point is included, the rate is then (4M-1)/4 < M, and M/2 exceeds half of it."}
]}
