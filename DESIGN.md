# Formal model of ssqueezepy: design

Subject: `OverLordGoldDragon/ssqueezepy`, pinned source in `/repo` (read as text, never run).
Model and proofs: `rocq/theories`, Coq 8.16.1.  Property list: `properties.jsonl`.  Claim status:
`MANIFEST.json`.  Mutation log: `seeded/LOG.jsonl`.

## How the model is laid out

* Model files (`Py.v`, `Padding.v`, `Buffer.v`, `Stft.v`, `Squeeze.v`, `Cwt.v`, ...) contain
  definitions only, each with a comment citing the file and lines of `/repo` it models and saying
  where it simplifies.
* `*Proofs.v`, `*Thms*.v` hold lemmas, `*Witness*.v` the concrete counterexamples.
* `Properties*.v` hold only theorem statements closed by a lemma, `Print Assumptions` beneath each,
  and an `Example` with a concrete case that meets the hypotheses.

Conventions

* Python exceptions are values of `res` (`Ok`/`Err` with the exception class).  `NotModelled` marks
  inputs outside the modelled domain, and no theorem claims anything about them.  Loops that may not
  end carry fuel, and `OutOfFuel` means "has not stopped yet".
* Python slices with negative bounds are one function that follows the CPython rule, because several
  findings live there.
* 1-D arrays are lists, 2-D arrays are a shape with a total read function, and loops are folds over
  the exact iteration order of the source.
* Parallel loops (`prange`) and CUDA launches are sets of micro-steps (single loads and stores).  A
  theorem "for every schedule" quantifies over every interleaving of them.
* Arithmetic is never idealised silently.  There are three levels:
  1. *index arithmetic* (`nat`/`Z`), exactly as Python's unbounded integers, or wrapped to 32/64 bits
     where numba or CUDA would;
  2. *values under an arbitrary addition*: theorems about parallel/serial equality hold for any type
     and any (non-associative) operation, so for floats bit for bit;
  3. *values in the reals* (`R` of the standard library): identities such as istft(stft x) = x are
     claims about exact arithmetic, and say so.
* `round` on the CPU is Python's half-to-even, `round` in CUDA is half-away-from-zero; both are
  modelled.  `int()` truncates.

What is idealised throughout

* IEEE rounding, overflow and underflow of numeric formulas (level 3), except where a theorem says
  otherwise (e.g. C01 allows an error in `log2`, C18 has int64 overflow of bin numbers).
* FFT backends (`scipy`, `pyfftw`, `torch`) are replaced by the DFT they compute.
* scipy's window generators and special functions are parameters, with the properties used stated as
  hypotheses; C64/C65 use a gamma function given by its integral.
* Warnings, printing and plotting.  Where a warning matters to a property it is part of the result.  Of `visuals.py`,
  `Visuals.v` models what is computed for the plots (axes, ticks, limits, paths), not the drawing.


## Per property

Each entry gives the status, the code modelled, how the proof goes, the theorems with the file that
states them, the file that proves them, and the code of the axioms `Print Assumptions` lists
(`-` closed; `s` `sig_forall_dec`, `n` `sig_not_dec`, `f` functional extensionality, `c` `classic`;
full names under *Trusted base*).  "Outcome" says what is missing or false where the status is
partial: a `_refuted` theorem exhibits an input on which the stated property fails in the model,
and is a finding about the code.

### C01 Default padded length is a power of two that always has room

*Status:* proved.  *Code:* `utils/common.py:p2up`.  
*How:* `p2up` over real log2 with half-even rounding; squeeze n between powers of sqrt 2; the log2 error is a hypothesis of size < 1/2.  
*Outcome:* Also shows that the docstring's 'next power of 2' is not what is computed (p2up(6) = 16).  
*Theorems* (`PropertiesPadding`; proofs in `PaddingProofs`): `C01_p2up_is_source` (cfns), `C01_p2up` (-), `C01_p2up_float_log2` (cfns), `C01_not_next_power` (-).

### C02 padsignal returns exactly padlength samples and keeps the signal at n1

*Status:* partial.  *Code:* `utils/common.py:padsignal`.  
*How:* `padsignal` on lists, numpy pad modes as index maps, `symmetric` by its own slices; list lemmas and two witnesses.  
*Outcome:* Proved for zero/reflect/replicate/wrap and every padlength >= len(x). For 'symmetric' proved when 0 < pad and pads <= len(x); outside that the returned array has the wrong length and the signal is not at n1 (two refutations).  
*Theorems* (`PropertiesPadding`; proofs in `PaddingProofs`): `C02_padsignal_length_recover` (-), `C02_padsignal_symmetric_partial` (-), `C02_symmetric_nopad_refuted` (-), `C02_symmetric_long_refuted` (-), `C02_torch_agrees` (-), `C02_torch_default` (-).

### C03 Padded samples follow the documented extension rule

*Status:* partial.  *Code:* `utils/common.py:padsignal`.  
*How:* as C02, the padded value at every index.  
*Outcome:* Proved for zero/reflect/replicate/wrap at every pad size, for 'symmetric' when pads are nonempty and at most len(x). Refuted for 'symmetric' pads longer than the signal.  
*Theorems* (`PropertiesPadding`; proofs in `PaddingProofs`): `C03_extension_rule` (-), `C03_symmetric_rule_partial` (-), `C03_symmetric_long_refuted` (-).

### C04 buffer columns are exactly the hop-spaced slices of the signal

*Status:* proved.  *Code:* `utils/stft_utils.py:buffer`, `utils/stft_utils.py:_buffer`.  
*How:* `buffer` pointwise against the documented frame formula.  
*Theorems* (`PropertiesBuffer`; proofs in `BufferProofs`): `C04_buffer_slices` (-).

### C05 modulated buffering is ifftshift of every slice

*Status:* proved.  *Code:* `utils/stft_utils.py:buffer`, `utils/stft_utils.py:_buffer`, `_stft.py:stft`, `_stft.py:istft`.  
*How:* index arithmetic of the two half-slices against `np.fft.ifftshift`.  
*Theorems* (`PropertiesBuffer`; proofs in `BufferProofs`): `C05_buffer_modulated` (-), `C05_ifftshift_index` (-), `C05_fftshift_undoes` (-).

### C06 buffer gives one answer on one thread, many threads and GPU

*Status:* proved.  *Code:* `utils/stft_utils.py:_buffer`, `utils/stft_utils.py:_buffer_par`, `utils/stft_utils.py:_buffer_gpu`.  
*How:* the three buffer loops write disjoint cells; every interleaving gives the serial result.  
*Outcome:* Schedules are arbitrary interleavings of per-cell stores.  
*Theorems* (`PropertiesBuffer`; proofs in `BufferProofs`): `C06_buffer_schedules` (-).

### C07 stft output shape and coverage

*Status:* partial.  *Code:* `_stft.py:stft`, `utils/stft_utils.py:buffer`.  
*How:* `stft` over a real-number DFT; frame count from `buffer`.  
*Outcome:* Proved for every signal, n_fft >= 1, hop_len >= 1 (hop_len <= n_fft in float32) and padtype, except 'symmetric' with n_fft = 1 or n_fft-1 > 2*len(x), where the padding itself is wrong (C02); the n_fft = 1 case is refuted.  
*Theorems* (`PropertiesStft`; proofs in `WindowProofs`): `C07_stft_shape` (fns), `C07_symmetric_refuted` (fns).

### C08 stft computes the documented formula

*Status:* partial.  *Code:* `_stft.py:stft`.  
*How:* the DFT of the windowed frame, with `modulated` as an index rotation.  
*Outcome:* The formula is proved for Sx and dSx, both modulated settings, every n_fft. Refuted side: with modulated=False the derivative dSx is not scaled by fs, so it does not depend on fs. Same padding proviso as C07.  
*Theorems* (`PropertiesStft`; proofs in `WindowProofs`): `C08_stft_formula` (fns), `C08_unmodulated_derivative_ignores_fs_refuted` (fns).

### C09 istft inverts stft exactly

*Status:* partial.  *Code:* `_stft.py:stft`, `_stft.py:istft`, `utils/stft_utils.py:unbuffer`, `utils/stft_utils.py:window_norm`.  
*How:* DFT inversion by roots of unity, overlap-add with window powers divided out.  
*Outcome:* Exact reconstruction proved whenever the summed window powers exceed the library's `tiny` at every kept sample, plus a directly checkable sufficient condition on the window. Refuted: NOLA alone is not sufficient; a negative window with win_exp=0 is never divided.  
*Theorems* (`PropertiesStft`; proofs in `StftProofs`, `WindowProofs`): `C09_istft_inverts_stft` (fns), `C09_window_condition` (fs), `C09_NOLA_sufficient_refuted` (fns), `C09_negative_window_refuted` (fns).

### C10 istft returns exactly N samples

*Status:* partial.  *Code:* `_stft.py:istft`.  
*How:* slice arithmetic of the unpadding in `istft`; case analysis on n_fft.  
*Outcome:* Proved for n_fft >= 3. For n_fft 1 or 2 the result is always empty (proved), so the full claim is refuted.  
*Theorems* (`PropertiesStft`; proofs in `StftProofs`, `WindowProofs`): `C10_istft_length_partial` (fns), `C10_small_n_fft_empty` (fns), `C10_small_n_fft_refuted` (fns).

### C11 istft default length is the largest that produced the spectrum

*Status:* proved.  *Code:* `_stft.py:istft`, `_stft.py:stft`.  
*How:* length arithmetic of `istft` and `unbuffer`.  
*Outcome:* Both the arithmetic and that istft without N returns hop_len*n_hops samples starting with x.  
*Theorems* (`PropertiesStft`; proofs in `StftProofs`): `C11_default_N` (-), `C11_istft_default_N` (fns).

### C12 get_window always yields n_fft samples, window centred

*Status:* partial.  *Code:* `_stft.py:get_window`, `_stft.py:stft`, `_stft.py:istft`.  
*How:* `get_window` on lists.  
*Outcome:* Proved when an ndarray window has win_len samples or the window is generated by name. Refuted otherwise: wrong length; and stft accepts an array window shorter than n_fft while istft with the same arguments raises ValueError.  
*Theorems* (`PropertiesStft`; proofs in `StftProofs`, `WindowProofs`): `C12_get_window_partial` (s), `C12_array_win_len_refuted` (s), `C12_short_window_stft_ok` (fns), `C12_short_window_istft_raises` (fns).

### C13 The frequency-domain window derivative is real and has zero sum

*Status:* proved.  *Code:* `_stft.py:get_window`.  
*How:* the spectral derivative as a multiplier; Hermitian symmetry of the DFT.  
*Outcome:* Also: the samples are the derivatives of the trigonometric interpolant of the window.  
*Theorems* (`PropertiesStft`; proofs in `WindowProofs`): `C13_diff_window_real` (fns), `C13_diff_window_zero_sum` (fns), `C13_diff_window_derivative` (fns).

### C14 issq_stft of ssq_stft: exact reconstruction formula

*Status:* proved.  *Code:* `_ssq_stft.py:ssq_stft`, `_ssq_stft.py:issq_stft`, `ssqueezing.py:ssqueeze`.  
*How:* column sums are conserved by squeezing; half-spectrum sums give back the samples.  
*Outcome:* Any n_fft >= 3, odd or even; cells zero or above gamma; get_w on or off; any interleaving.  
*Theorems* (`PropertiesSsqueeze`, `PropertiesStftStable`; proofs in `IssqProofs`, `StftStable2`): `C14_issq_stft_formula` (cfns), `C14_within_gamma` (cfns).

### C15 Parallel squeezing is bit-for-bit the serial result

*Status:* proved.  *Code:* `algos.py:indexed_sum`, `algos.py:indexed_sum_onfly`, `algos.py:ssqueeze_fast`, `algos.py:_indexed_sum_par`.  
*How:* CPU kernels as folds of writes, threads as interleavings; projection of the write sequence on one cell.  
*Outcome:* Any type of values and any addition for the loops and indexed_sum; the driver statements for indexed_sum_onfly and ssqueeze_fast are over exact complex numbers, with the bit-for-bit claim carried by C15_kernel. A schedule interleaves single loads and stores of the column iterations.  
*Theorems* (`PropertiesSqueeze`; proofs in `SqueezeProofs`, `SqueezeThms2`): `C15_indexed_sum` (-), `C15_indexed_sum_value` (-), `C15_kernel` (-), `C15_onfly` (cfns), `C15_fast` (cfns).

### C16 Synchrosqueezing only moves coefficients: column sums are conserved

*Status:* proved.  *Code:* `algos.py:indexed_sum_onfly`, `algos.py:ssqueeze_fast`, `ssqueezing.py:ssqueeze`.  
*How:* as C15, sums over a column.  
*Outcome:* Single-row Wx raises (const handling), so needs at least 2 rows or an empty Wx.  
*Theorems* (`PropertiesSqueeze`; proofs in `SqueezeThms3`): `C16_onfly_column_sum` (cfns), `C16_fast_column_sum` (cfns), `C16_scalar_const` (s).

### C17 flipud=True is exactly np.flipud of flipud=False

*Status:* proved.  *Code:* `algos.py:ssqueeze_fast`, `algos.py:indexed_sum_onfly`.  
*How:* per-cell projection.  
*Theorems* (`PropertiesSqueeze`; proofs in `SqueezeThms3`): `C17_onfly_flipud` (cfns), `C17_fast_flipud` (cfns).

### C18 Squeezing never writes outside Tx

*Status:* partial.  *Code:* `algos.py:_ssq_cwt_log_piecewise`, `algos.py:_indexed_sum_log_piecewise`, `algos.py:_indexed_sum_log`, `algos.py:_indexed_sum_lin`.  
*How:* bin formulas with clamping, int64/int32 conversion modelled.  
*Outcome:* Proved for every linear array, every log array without detected transition, and piecewise ones whose lower piece fits, for frequencies < 2^62 bins up. Refuted outside: int64 overflow of round(), unclamped lower branch of the piecewise kernels, int32 wrap of the CUDA piecewise kernel.  
*Theorems* (`PropertiesSqueeze`; proofs in `SqueezeThms2`, `SqueezeThms3`): `C18_in_range_partial` (cfns), `C18_zero_reachable` (cfns), `C18_int64_overflow_refuted` (fs), `C18_piecewise_refuted` (cfns), `C18_gpu_partial` (cfns), `C18_gpu_piecewise_refuted` (cfns).

### C19 Linear squeezing sends each coefficient to the nearest frequency bin

*Status:* proved.  *Code:* `algos.py:find_closest_lin`, `algos.py:_indexed_sum_lin`, `algos.py:_ssq_cwt_lin`, `algos.py:_ssq_stft`.  
*How:* half-even rounding of the linear bin formula.  
*Theorems* (`PropertiesSqueeze`; proofs in `SqueezeThms3`): `C19_onfly_nearest` (cfns), `C19_fast_nearest` (cfns).

### C20 Log squeezing sends each coefficient to the nearest bin in log-frequency

*Status:* proved.  *Code:* `algos.py:_find_closest_log`, `algos.py:_find_closest_log_piecewise`, `algos.py:_indexed_sum_log`, `algos.py:_indexed_sum_log_piecewise`.  
*How:* logarithms of the grid; each piece of the piecewise grid separately, then across the joint.  
*Outcome:* The piecewise bin is nearest over the whole grid, not just within its piece.  
*Theorems* (`PropertiesSqueeze`; proofs in `SqueezeThms3`): `C20_onfly_nearest` (cfns), `C20_onfly_nearest_piecewise` (cfns), `C20_fast_nearest` (cfns).

### C21 find_closest always returns an index in range of v nearest to each a

*Status:* partial.  *Code:* `algos.py:find_closest`, `algos.py:find_closest_smart`, `algos.py:_find_closest_lin`.  
*How:* `argmin` over distances; searches by rounding.  
*Outcome:* find_closest_smart and find_closest_brute are proved nearest for every v. The linear/log versions only when a has len(v) rows: they clamp by the number of rows of a (two refutations).  
*Theorems* (`PropertiesSqueeze`; proofs in `SqueezeThms3`): `C21_smart_nearest` (fs), `C21_smart_is_argmin` (fs), `C21_argmin_tie_refuted` (fs), `C21_brute_nearest` (fs), `C21_lin_nearest_partial` (fs), `C21_log_nearest_partial` (cfns), `C21_piecewise_nearest_partial` (cfns), `C21_out_of_range_refuted` (fs), `C21_not_nearest_refuted` (fs).

### C22 CPU and GPU squeezing choose the same bin

*Status:* partial.  *Code:* `algos.py:_kernel_codes`, `algos.py:_indexed_sum_lin`, `algos.py:_ssq_cwt_lin`.  
*How:* half-even against half-away rounding.  
*Outcome:* Same bin unless the frequency is half-way between two bins, where the devices differ (refuted).  
*Theorems* (`PropertiesSqueeze`; proofs in `SqueezeThms3`): `C22_linear_partial` (cfns), `C22_log_partial` (cfns), `C22_piecewise_partial` (cfns), `C22_tie_refuted` (cfns).

### C23 ssq_freqs[i] is the frequency of row i of Tx

*Status:* partial.  *Code:* `ssqueezing.py:ssqueeze`, `_ssq_cwt.py:ssq_cwt`, `_ssq_stft.py:ssq_stft`.  
*How:* `ssqueeze` driver by cases on transform and flipud.  
*Outcome:* Rows and ssq_freqs correspond for the STFT and for the CWT with flipud=True. Refuted for the CWT with flipud=False: the returned frequencies are reversed.  
*Theorems* (`PropertiesSsqueeze`; proofs in `SsqueezeProofs`): `C23_rows_match_ssq_freqs_partial` (cfns), `C23_unflipped_cwt_reversed` (cfns), `C23_rows_refuted` (cfns).

### C24 Tx has one row per ssq_freqs entry

*Status:* partial.  *Code:* `ssqueezing.py:ssqueeze`, `_ssq_cwt.py:ssq_cwt`, `algos.py:_process_ssq_params`.  
*How:* shapes through the driver.  
*Outcome:* Tx has the shape of Wx always, and len(ssq_freqs) rows when the library computes them. Refuted for a user array of another length, which is accepted.  
*Theorems* (`PropertiesSsqueeze`; proofs in `SsqueezeProofs`): `C24_shape` (cfns), `C24_rows_are_freqs_partial` (cfns), `C24_user_freqs_refuted` (cfns).

### C25 get_w does not change Tx

*Status:* partial.  *Code:* `_ssq_cwt.py:ssq_cwt`, `ssqueezing.py:ssqueeze`, `algos.py:ssqueeze_fast`, `algos.py:phase_cwt_cpu`.  
*How:* the two thresholds (`<` and `<=`) compared.  
*Outcome:* Same Tx for squeezing='sum' when no coefficient has modulus exactly gamma. Refuted for modulus equal to gamma and for squeezing='abs'.  
*Theorems* (`PropertiesSsqueeze`; proofs in `SsqueezeProofs`): `C25_get_w_same_partial` (cfns), `C25_threshold_refuted` (cfns), `C25_abs_refuted` (cfns).

### C26 A batch is squeezed like its members

*Status:* partial.  *Code:* `ssqueezing.py:ssqueeze`.  
*How:* batch items through the driver.  
*Outcome:* Proved for sum, abs and user functions. Refuted for lebesgue, which divides by the batch size.  
*Theorems* (`PropertiesSsqueeze`; proofs in `SsqueezeProofs`): `C26_batch_items_partial` (cfns), `C26_batch_succeeds_partial` (cfns), `C26_lebesgue_refuted` (cfns).

### C27 Phase transform: value, sign and exclusion

*Status:* proved.  *Code:* `algos.py:_phase_cwt`, `algos.py:_phase_stft`, `_ssq_cwt.py:phase_cwt`, `_ssq_stft.py:phase_stft`.  
*How:* complex division over R, all cells, all schedules.  
*Outcome:* every cell, every chunking and interleaving of the CPU kernels, and the CUDA kernel within launch limits (rows <= 2^31-32, columns <= 2097120, see C53); exact arithmetic; gamma > 0  
*Theorems* (`PropertiesPointwise`; proofs in `PointwiseProofs`): `C27_phase_cwt` (fns), `C27_phase_stft` (fns), `C27_agree` (fns), `C27_cwt_closed_form` (fns), `C27_stft_closed_form` (fns).

### C28 A pure tone is located at its exact frequency at every scale

*Status:* partial.  *Code:* `_cwt.py:cwt`, `_ssq_cwt.py:phase_cwt`, `algos.py:_phase_cwt`, `wavelets.py:_xifn`.  
*How:* cwt of a tone is a tone per row (DFT), then the phase transform.  
*Outcome:* Proved for every real tone (any amplitude, phase, 0<2k<=N, fs, norm, wavelet vanishing at the mirrored frequency, no wavelet cache), value k*|fs|/N; complex tones are cast to their real part by cwt (C28_complex_cast). 'Any wavelet' is false: C28_nonanalytic_refuted.  
*Theorems* (`PropertiesCwt`; proofs in `CwtTone`, `CwtWitness2`): `C28_pure_tone_partial` (cfns), `C28_complex_cast` (cfns), `C28_nonanalytic_refuted` (cfns).

### C29 Numeric phase transform differentiates exactly to its order

*Status:* proved.  *Code:* `_ssq_cwt.py:phase_cwt_num`.  
*How:* finite-difference stencils are exact on polynomials of their order.  
*Outcome:* Every polynomial of degree <= difforder with complex coefficients, any step dt <> 0, any row and interior column: the phase is computed from the exact derivative.  
*Theorems* (`PropertiesSsqCwt`; proofs in `DiffProofs`): `C29_differences_exact` (fns), `C29_derivative` (fs).

### C30 Extracted ridge is a minimum-cost path

*Status:* partial.  *Code:* `ridge_extraction.py:extract_ridges`, `ridge_extraction.py:_accumulated_penalty_energy_fw`, `ridge_extraction.py:_accumulated_penalty_energy_bw`.  
*How:* dynamic programming: induction on time, forward then backward pass.  
*Outcome:* Every ridge of every call (any schedule of the parallel kernels) is within (n_times-1)*eps of the cheapest path, when there are at least as many times as rows and each column has energy left; indices are valid rows always. Findings: with more rows than times the last index is reduced modulo n_times (C30_more_rows_than_times_refuted); one row raises TypeError. Real arithmetic with NaN.  
*Theorems* (`PropertiesRidge`; proofs in `RidgeOpt`, `RidgeThms`, `RidgeWitness`): `C30_first_ridge_partial` (cfns), `C30_every_ridge_partial` (cfns), `C30_succeeds` (cfns), `C30_valid_rows` (cfns), `C30_more_rows_than_times_refuted` (cfns), `C30_single_row_refuted` (cfns).

### C31 Each ridge removes its own band before the next is sought

*Status:* partial.  *Code:* `ridge_extraction.py:extract_ridges`.  
*How:* slices of the energy array after each ridge.  
*Outcome:* A later ridge finds zero energy in rows r-bw .. r+bw-1 of an earlier one whenever r >= bw, and the original energy outside the bands. Findings: for r < bw the slice start is negative and (2*bw <= rows) nothing is removed, so the same ridge is returned twice; row r+bw keeps its energy.  
*Theorems* (`PropertiesRidge`; proofs in `RidgeThms`): `C31_band_removed_partial` (cfns), `C31_rest_kept` (cfns), `C31_repeated_ridge` (cfns), `C31_negative_start_refuted` (cfns), `C31_upper_row_refuted` (cfns).

### C32 Ridge extraction does not depend on threading

*Status:* partial.  *Code:* `ridge_extraction.py:__accumulated_penalty_energy_fwp`, `ridge_extraction.py:__accumulated_penalty_energy_bwp`.  
*How:* forward kernel by schedules; argmin ties.  
*Outcome:* Forward kernel: every schedule equals the serial loop for any arithmetic. Whole call: equal when no two rows tie (up to eps) as predecessors. Finding: with ties the result depends on the schedule (C32_ties_refuted); C30 still holds for every schedule.  
*Theorems* (`PropertiesRidge`; proofs in `RidgeProofs`, `RidgeThms`): `C32_forward_any_schedule` (-), `C32_no_ties_partial` (cfns), `C32_ties_refuted` (cfns).

### C33 Component inversion partitions the signal

*Status:* proved.  *Code:* `_ssq_cwt.py:_invert_components`, `_ssq_cwt.py:issq_cwt`.  
*How:* sums over rows of `_invert_components`.  
*Outcome:* Needs cc >= -1 and cw >= 0, as documented. Outside: overlapping bands are counted twice; cc < -1 may take row 0 (both shown by witnesses).  
*Theorems* (`PropertiesSsqueeze`; proofs in `SsqThms`): `C33_components_partition` (fs), `C33_component_is_its_band` (s), `C33_residual_is_the_rest` (s), `C33_overlap_counted_twice` (fs), `C33_below_minus_one` (fs).

### C34 issq_cwt and icwt agree

*Status:* proved.  *Code:* `_ssq_cwt.py:issq_cwt`, `_cwt.py:icwt`, `ssqueezing.py:ssqueeze`.  
*How:* `issq_cwt(ssq_cwt x)` against `icwt(cwt x)`: squeezing conserves column sums with log-uniform weights.  
*Outcome:* Every signal, wavelet, log scale grid and squeezing schedule, difftype trig/phase and numeric (numeric with padding of at least four samples on the right, else columns are lost, see C57). Exact reals; frequencies are assumed representable by the index kernel (no int64 overflow) and |Wx| above gamma, as the statement requires.  
*Theorems* (`PropertiesSsqCwt`, `PropertiesSsqStable`; proofs in `SsqCwtInv`, `SsqStable`): `C34_issq_is_icwt` (cfns), `C34_issq_is_icwt_numeric` (cfns), `C34_default_freqs` (cfns), `C34_within_gamma` (cfns).

### C35 icwt adds the mean once

*Status:* partial.  *Code:* `_cwt.py:icwt`.  
*How:* `icwt` by scale type; the mean term.  
*Outcome:* Proved for log, linear and other non-piecewise scales; for log-piecewise scales the mean is added once per part (at least twice). icwt with one_int=False and rpadded=True raises UnboundLocalError.  
*Theorems* (`PropertiesCwt`; proofs in `CwtThms2`): `C35_mean_once_partial` (cfns), `C35_piecewise_adds_more` (cfns), `C35_piecewise_refuted` (cfns), `C35_rpadded_two_int_refuted` (cfns).

### C36 cwt is linear and each row depends only on its own scale

*Status:* partial.  *Code:* `_cwt.py:cwt`.  
*How:* `cwt` as DFT multiplier; linear algebra, per-row evaluation.  
*Outcome:* Linearity and batching proved in full; row locality and vectorized=loop proved for real-valued wavelets without cached arrays, refuted for complex-valued ones (imaginary part dropped by a whole-array test).  
*Theorems* (`PropertiesCwt`; proofs in `CwtThms`, `CwtThms2`): `C36_linear` (cfns), `C36_row_own_scale_partial` (cfns), `C36_vectorized_is_loop_partial` (cfns), `C36_batch_items` (cfns), `C36_batch_succeeds` (cfns), `C36_complex_vectorized_refuted` (cfns), `C36_complex_rows_refuted` (cfns).

### C37 cwt output columns correspond to input samples

*Status:* proved.  *Code:* `_cwt.py:cwt`.  
*How:* column ranges after unpadding.  
*Outcome:* cwt with any padding and without.  
*Theorems* (`PropertiesCwt`; proofs in `CwtThms`): `C37_columns` (cfns), `C37_columns_without_padding` (cfns).

### C38 cwt leaves the wavelet and FFT settings as it found them

*Status:* partial.  *Code:* `_cwt.py:cwt`, `utils/fft_utils.py:FFT`.  
*How:* state machine for wavelet and FFT settings; induction on call histories.  
*Outcome:* Restoration on return proved; sequences of calls (raising or not) keep the state when the patience is accepted; a call with patience>0 and no pyfftw raises and makes every later call raise.  
*Theorems* (`PropertiesCwt`; proofs in `CwtThms`): `C38_restored` (cfns), `C38_sequences_partial` (cfns), `C38_raising_call_refuted` (cfns), `C38_every_later_call_raises_refuted` (cfns).

### C39 Caching wavelets never changes a result

*Status:* partial.  *Code:* `wavelets.py:Wavelet.Psih`, `wavelets.py:Wavelet.N`.  
*How:* state machine of the `Psih` cache refined to cache-free evaluation.  
*Outcome:* Proved: after any history of Psih calls and N changes the answer is a fresh evaluation at the right length, for this request or an earlier one with nearly equal scales (np.allclose); equal to the fresh evaluation when no earlier near-equal request differs in scales or nohalf. Refuted: nohalf is not in the cache key; scales within tolerance are confused; the returned array is the cached one, so writing to it changes later answers.  
*Theorems* (`PropertiesWavelet`; proofs in `CacheProofs`): `C39_answers_partial` (fns), `C39_fresh_partial` (fns), `C39_nohalf_refuted` (fns), `C39_allclose_refuted` (fns), `C39_write_refuted` (fns).

### C40 Caching FFT plans never changes a result

*Status:* partial.  *Code:* `utils/fft_utils.py:FFT.get_fft_object`, `utils/fft_utils.py:FFT`.  
*How:* state machine of the FFT-plan cache.  
*Outcome:* Uncached (the default): proved for every call sequence. Cached: proved when no earlier call with the same key had the other direction, until a later call with the same key; refuted otherwise (direction not in the key, output buffer shared, patience not validated on a hit).  
*Theorems* (`PropertiesFft`, `PropertiesTighten8`; proofs in `FftCacheProofs`, `Tighten8`): `C40_uncached` (fns), `C40_alone` (fns), `C40_cached_partial` (fns), `C40_direction_refuted` (fns), `C40_alias_refuted` (fns), `C40_patience_refuted` (fns), `C40_values_partial` (fns), `C40_back_partial` (fns), `C40_real_partial` (fns), `C40_even_partial` (fns).

### C41 Explicit arguments beat configured defaults

*Status:* proved.  *Code:* `configs.py:gdefaults`.  
*How:* association lists; parser of configs.ini on laid-out text, then `gdefaults`.  
*Outcome:* Whole path from the text of configs.ini (any distinct configuration, any spacing, blank lines, text after the end mark) through gdefaults with an explicit module.fn: values, added keys, order and return form for every keyword dictionary. float() is a parameter of the model.  
*Theorems* (`PropertiesConfig`, `PropertiesTighten5`; proofs in `ConfigThms`, `Tighten5`): `C41_gdefaults` (-), `C41_value` (-), `C41_quotes` (-).

### C42 parallel=False is honoured

*Status:* partial.  *Code:* `algos.py:indexed_sum`, `algos.py:_process_ssq_params`, `utils/stft_utils.py:buffer`, `configs.py:IS_PARALLEL`.  
*How:* decision tables over environment and configuration.  
*Outcome:* parallel=False honoured by indexed_sum, replace_under_abs and zero_denormals; None follows IS_PARALLEL() everywhere, whose value is characterised from environment and configuration text. Findings: ssqueeze_fast, indexed_sum_onfly, phase_cwt (trig and phase), phase_stft and buffer run threads despite parallel=False when the global default is on; SSQ_PARALLEL=1 does not override parallel=0 in configs.ini.  
*Theorems* (`PropertiesConfig`, `PropertiesTighten7`; proofs in `ConfigThms`, `Tighten7`): `C42_global_default` (fs), `C42_honoured_partial` (fs), `C42_false_ignored_refuted` (fs), `C42_env_on_refuted` (fs), `C42_search_partial` (-), `C42_phase_partial` (-).

### C43 Frequency layout matches the DFT and centring sorts it

*Status:* partial.  *Code:* `wavelets.py:_xifn`, `wavelets.py:afftshift`, `wavelets.py:aifftshift`.  
*How:* index arithmetic of `_xifn` and the shifts.  
*Outcome:* Layout, DFT-bin agreement and mutual inverses proved for every N. Increasing order after aifftshift proved for even N; refuted for every odd N >= 3 (the code uses ifftshift where fftshift sorts).  
*Theorems* (`PropertiesWavelet`; proofs in `ShiftProofs`): `C43_layout` (fns), `C43_dft_bin` (fns), `C43_scaled` (fns), `C43_shifts_inverse` (-), `C43_centred_increasing_partial` (fns), `C43_odd_refuted` (fns), `C43_odd_other_shift` (fns).

### C44 GMW peaks at its centre frequency and is analytic

*Status:* proved.  *Code:* `_gmw.py:_gmw_l1`, `_gmw.py:morsefreq`, `wavelets.py:morlet`, `wavelets.py:bump`, `wavelets.py:cmhat`.  
*How:* real analysis: `ln u <= u-1`, monotonicity of exponents.  
*Outcome:* Real arithmetic: exp underflow (which makes far tails exactly 0) is not modelled. mu > 0 for Morlet, s > 0 for bump and cmhat. Also proved: strict unimodality, centered_scale, the L2 normalisation, hhhat.  
*Theorems* (`PropertiesSearchFar`, `PropertiesWavelet`; proofs in `WaveletProofs`): `C44_morlet_peak` (cfns), `C44_gmw_l1` (cfns), `C44_gmw_l1_unimodal` (cfns), `C44_gmw_l1_centered` (cfns), `C44_gmw_l2` (cfns), `C44_gmw_accepts` (cfns), `C44_morlet` (cfns), `C44_bump` (fns), `C44_cmhat` (cfns), `C44_hhhat` (cfns).

### C45 Log scales are an exact geometric grid inside the requested range

*Status:* proved.  *Code:* `utils/cwt_utils.py:make_scales`.  
*How:* exponents as integers over nv.  
*Outcome:* Also linear scales, and that nv is read back from the array.  
*Theorems* (`PropertiesScales`; proofs in `ScaleThms`): `C45_log_scales` (cfns), `C45_log_scales_inferred` (cfns), `C45_linear_scales` (cfns).

### C46 Log-piecewise scales switch spacing once and the switch is recovered

*Status:* partial.  *Code:* `utils/cwt_utils.py:make_scales`, `utils/cwt_utils.py:logscale_transition_idx`, `utils/cwt_utils.py:nv_from_scales`.  
*How:* ratios of consecutive scales; argmax of second differences.  
*Outcome:* Proved for a transition index >= 2 with a non-empty coarse part (automatic for the default span and downsample <= 8). Refuted for index 1, and find_downsampling_scale raises UnboundLocalError for span+1 or fewer scales.  
*Theorems* (`PropertiesScales`; proofs in `ScaleThms`): `C46_piecewise_scales_partial` (cfns), `C46_downsampling_index` (fs), `C46_default_coarse_part_nonempty` (fs), `C46_early_switch_refuted` (cfns), `C46_few_scales_refuted` (fs).

### C47 Time/sampling-rate arguments always yield a positive rate

*Status:* partial.  *Code:* `utils/cwt_utils.py:_process_fs_and_t`.  
*How:* case analysis over R.  
*Outcome:* Refuted: decreasing t gives a negative rate; steps of the order of 10 ns pass the absolute uniformity threshold. Otherwise proved.  
*Theorems* (`PropertiesScales`; proofs in `ScaleThms`): `C47_accepted_rate_partial` (fs), `C47_rejected` (fs), `C47_uniform_accepted` (fs), `C47_decreasing_t_refuted` (fs), `C47_nonuniform_refuted` (fs).

### C48 The maximum search terminates with a maximum

*Status:* partial.  *Code:* `algos.py:find_maximum`, `algos.py:find_first_occurrence`.  
*How:* search loops with fuel; unimodality.  
*Outcome:* Termination is proved whenever int(steps*step_size) >= 1, and everything the property says about results is proved for all parameters; for unimodal functions (GMW included) the maximum is located to within one step. Refuted in general: if int(steps*step_size) = 0 both loops never end, for every function (C48_hangs_refuted).  
*Theorems* (`PropertiesNumeric`; proofs in `NumericThms`, `SearchGmw`, `SearchProofs`): `C48_terminates_partial` (fs), `C48_maximum` (fs), `C48_unimodal` (fs), `C48_gmw` (cfns), `C48_first_occurrence` (fs), `C48_hangs_refuted` (fs).

### C49 Combinatorial helpers are exact

*Status:* proved.  *Code:* `algos.py:nCk`, `_gmw.py:_moments_to_cumulants`.  
*How:* induction.  
*Outcome:* nCk for 0 <= k <= n against factorials and Pascal's rule; cumulants satisfy the moment recursion and are the only ones that do. Outside 0..n nCk returns 1 rather than 0 (CombProofs.nCk_outside), which the code never relies on.  
*Theorems* (`PropertiesNumeric`; proofs in `CombProofs`, `NumericThms`): `C49_nCk` (fs), `C49_nCk_pascal` (fs), `C49_cumulants` (cfns), `C49_cumulants_unique` (cfns).

### C50 ssq_freqs span the requested range monotonically

*Status:* partial.  *Code:* `ssqueezing.py:_compute_associated_frequencies`, `ssqueezing.py:_exp_fm`, `ssqueezing.py:_ssq_freqrange`.  
*How:* real arithmetic on the anchors.  
*Outcome:* Full for log, linear and STFT. Log-piecewise: proved when it returns; it raises when the spacing changes at the last scale or both halves come out equally spaced, and repeats a frequency if anchors coincide (witnesses).  
*Theorems* (`PropertiesSsqueeze`; proofs in `FreqRange`): `C50_log_linear_range` (cfns), `C50_stft_linear_range` (cfns), `C50_maximal_range` (fs), `C50_piecewise_range_partial` (cfns), `C50_repeated_freqs` (cfns), `C50_late_transition_refuted` (cfns).

### C51 In-place replacement helpers touch only matching cells

*Status:* partial.  *Code:* `algos.py:replace_under_abs`, `algos.py:replace_at_inf_or_nan`, `algos.py:zero_denormals`.  
*How:* write sequences; numbers with infinities and NaN.  
*Outcome:* replace_at_* and replace_under_abs: exact, idempotent, every schedule. zero_denormals: the same for contiguous arrays; a non-contiguous array is left unchanged (refuted). replace_under_abs with its default ref=None raises (refuted)  
*Theorems* (`PropertiesPointwise`; proofs in `PointwiseProofs`): `C51_replace_at` (fs), `C51_replace_at_twice` (fs), `C51_under_abs` (fns), `C51_under_abs_twice` (fns), `C51_under_abs_gpu` (fns), `C51_default_ref_refuted` (-), `C51_denormals_partial` (fs), `C51_denormals_view_refuted` (fs).

### C52 scale_to_freq returns frequencies between 0 and Nyquist

*Status:* partial.  *Code:* `experimental.py:scale_to_freq`.  
*How:* argmax index bounds.  
*Outcome:* Proved for two or more scales and at least two samples after padding, for every wavelet; refuted for a single scale (TypeError) and for one unpadded sample (AssertionError).  
*Theorems* (`PropertiesNumeric`; proofs in `FreqScaleProofs`, `SearchGmw`): `C52_range_partial` (fns), `C52_peak` (fns), `C52_gmw` (cfns), `C52_single_scale_refuted` (fns), `C52_one_sample_refuted` (fns).

### C53 GPU launches cover every cell exactly once

*Status:* partial.  *Code:* `utils/gpu_utils.py:_get_kernel_params`, `algos.py:_kernel_codes`.  
*How:* integer division and 32-bit wrap of launch indices.  
*Outcome:* holds for M*N <= 2^31-1024 (1-D) and rows <= 2^31-32, columns <= 2097120 (2-D); beyond: negative index past the check, two threads on one column, launch rejected (refuted)  
*Theorems* (`PropertiesPointwise`; proofs in `PointwiseProofs`): `C53_columns_partial` (-), `C53_cells_partial` (-), `C53_overflow_refuted` (-), `C53_twice_refuted` (-), `C53_long_signal_refuted` (-).

### C54 trigdiff differentiates tones exactly and returns the input length

*Status:* partial.  *Code:* `utils/common.py:trigdiff`.  
*How:* DFT multiplier on a padded tone.  
*Outcome:* Tone derivative proved for rpadded=True and explicit N, n1; padding first equals padding inside; with default arguments the length is N+n2 (refuted) and reflect padding breaks the tone (refuted).  
*Theorems* (`PropertiesCwt`, `PropertiesPoly`; proofs in `CwtThms2`, `TrigThms`): `C54_tone` (fns), `C54_length_partial` (fns), `C54_default_length_refuted` (fns), `C54_default_tone_refuted` (fns), `C54_rpadded` (fns).

### C55 Chirp generators sweep exactly from fmin to fmax

*Status:* partial.  *Code:* `_test_signals.py:_lchirp_fn`, `_test_signals.py:_echirp_fn`, `_test_signals.py:_echirp_pc_fn`, `_test_signals.py:_hchirp_fn`.  
*How:* derivatives of the phase in R.  
*Outcome:* Proved for lchirp, echirp_pc, hchirp and, when tmax <> 0, echirp; echirp divides by zero at tmax = 0 (C55_echirp_refuted).  
*Theorems* (`PropertiesNumeric`; proofs in `ChirpProofs`): `C55_lchirp` (fns), `C55_echirp_pc` (cfns), `C55_hchirp` (fns), `C55_echirp_partial` (cfns), `C55_echirp_refuted` (cfns).

### C56 Resetting wavelet properties does not depend on set order

*Status:* proved.  *Code:* `wavelets.py:Wavelet.reset_properties`, `wavelets.py:Wavelet.wc`, `wavelets.py:Wavelet.scalec_ct`.  
*How:* the property getters as a state machine over the set iteration order.  
*Outcome:* The wavelet's integrals are arbitrary functions of scale and N that may raise; find_maximum's result is a value independent of N, as in the code.  
*Theorems* (`PropertiesWavelet`; proofs in `CacheProofs`): `C56_reset` (fns), `C56_any_order` (fns), `C56_set_N_keeps` (fns).

### C57 ssq_cwt returns Wx and Tx on the same time axis

*Status:* partial.  *Code:* `_ssq_cwt.py:ssq_cwt`.  
*How:* slice arithmetic of the padded transforms.  
*Outcome:* Proved for trig and phase, for order>0 with padding, and the exact numeric column counts. Refuted: numeric returns 8 columns for 9 samples; order>0 without padding returns 5 of 9; a batch with order>0 slices the scale axis instead of time.  
*Theorems* (`PropertiesSsqCwt`; proofs in `SsqCwtProofs`): `C57_trig_phase_partial` (cfns), `C57_order_padded_partial` (cfns), `C57_numeric_partial` (cfns), `C57_numeric_refuted` (cfns), `C57_order_unpadded_refuted` (cfns), `C57_order_batch_refuted` (cfns).

### C58 Discrete Fourier identities used by the transforms

*Status:* proved.  *Code:* `utils/fft_utils.py:FFT`, `_stft.py:stft`, `_stft.py:istft`.  
*How:* roots of unity.  
*Outcome:* Over exact complex numbers; the library's FFT backend (pyfftw/scipy/torch) is assumed to compute the DFT.  
*Theorems* (`PropertiesStft`; proofs in place): `C58_ifft_fft` (fns), `C58_fft_ifft` (fns), `C58_irfft_rfft` (fns), `C58_rfft_is_half_fft` (fns), `C58_parseval` (fns), `C58_convolution` (fns).

### C59 cwt_higher_order averages transforms of single orders

*Status:* partial.  *Code:* `_cwt.py:cwt_higher_order`.  
*How:* list of transforms, mean; witnesses for batches.  
*Outcome:* Mean proved in full; batches with array scales act per signal; with named scales the number of signals is used as the length (refuted).  
*Theorems* (`PropertiesCwt`; proofs in `CwtThms2`, `CwtWitness2`): `C59_mean` (cfns), `C59_batch_partial` (cfns), `C59_batch_refuted` (cfns).

### C60 Every scale is weighted by its logarithmic step

*Status:* partial.  *Code:* `ssqueezing.py:ssqueeze`, `utils/cwt_utils.py:infer_scaletype`, `utils/cwt_utils.py:nv_from_scales`.  
*How:* log steps from scale type and nv.  
*Outcome:* Proved for library-made log scales and every log-piecewise array. Refuted for log arrays with a fractional number of voices per octave, which is rounded.  
*Theorems* (`PropertiesScales`; proofs in `ScaleThms`): `C60_log_weight_partial` (cfns), `C60_piecewise_weight` (cfns), `C60_fractional_voices_refuted` (cfns), `C60_coarse_scales_rejected` (cfns).

### C61 ssq_cwt of a 2-D array is ssq_cwt of each signal

*Status:* partial.  *Code:* `_ssq_cwt.py:ssq_cwt`, `ssqueezing.py:ssqueeze`, `_cwt.py:cwt`.  
*How:* batch items through cwt, phase and squeezing.  
*Outcome:* Proved for order=0, trig and every squeezing but lebesgue (C26_lebesgue_refuted shows that one mixes items). Refuted for order>0, which slices the wrong axis of a batch.  
*Theorems* (`PropertiesSsqCwt`; proofs in `SsqCwtProofs`): `C61_batch_items_partial` (cfns), `C61_batch_succeeds_partial` (cfns), `C61_order_refuted` (cfns).

### C62 Defaults are looked up under the calling module

*Status:* partial.  *Code:* `configs.py:gdefaults`.  
*How:* `rstrip` on strings.  
*Outcome:* Right for file stems not ending in '.', 'p' or 'y'. Finding: rstrip('.py') strips characters, not the extension (C62_caller_refuted).  
*Theorems* (`PropertiesConfig`; proofs in `ConfigThms`): `C62_caller_partial` (-), `C62_caller_refuted` (-).

### C63 Evaluating a wavelet leaves its input alone

*Status:* partial.  *Code:* `_gmw.py:_gmw_l1`, `_gmw.py:_gmw_l2`, `wavelets.py:Wavelet.__call__`, `utils/backend.py:atleast_1d`.  
*How:* the in-place product as a state change of the caller's array.  
*Outcome:* Unchanged if centered_scale, or dtype differs, or no negative frequency; values are the same on a second call. Refuted otherwise: w *= w_nonneg runs on the caller's array.  
*Theorems* (`PropertiesWavelet`; proofs in `WaveletProofs`): `C63_unchanged_partial` (fs), `C63_same_values_again` (cfns), `C63_overwritten_refuted` (fs).

### C64 GMW orders are orthogonal and energy-normalised

*Status:* proved.  *Code:* `_gmw.py:gmw`, `_gmw.py:gmw_l1_k`, `_gmw.py:gmw_l2_k`, `_gmw.py:_gmw_k_constants`.  
*How:* Laguerre polynomials: recurrences and orthogonality by integration, with gamma given by its integral.  
*Outcome:* Over real numbers, with scipy's gamma equal to Euler's integral at positive arguments (existence proved). Integrals are limits of Riemann integrals over (0, oo).  
*Theorems* (`PropertiesGmw`; proofs in `GmwThms`, `GmwThms3`): `C64_gamma_exists` (cfns), `C64_energy_orthonormal` (cfns), `C64_bandpass_orthogonal` (cfns), `C64_bandpass_equal_energy` (cfns), `C64_analytic` (cfns), `C64_order0` (cfns).

### C65 GMW frequency measures and moments are the integrals they document

*Status:* proved.  *Code:* `_gmw.py:_morsemom`, `_gmw.py:morsefreq`, `_gmw.py:morseafun`.  
*How:* improper integrals by substitution.  
*Outcome:* All p, gamma, beta. The variance is shown positive, so the power in cwi is of a positive number.  
*Theorems* (`PropertiesGmw`; proofs in `GmwThms3`): `C65_moments` (cfns), `C65_frequencies` (cfns), `C65_curvature` (cfns).

### C66 gmw accepts what its argument check accepts

*Status:* partial.  *Code:* `_gmw.py:gmw`, `_gmw.py:_check_args`.  
*How:* argument check against the constructor, branch by branch.  
*Outcome:* Exact acceptance condition proved. Refuted as stated: float orders 1.0, 2.0, ... pass the check and raise TypeError in np.zeros(k + 1).  
*Theorems* (`PropertiesGmw`, `PropertiesGmwErrors`; proofs in `GmwErrors`, `GmwThms`): `C66_accepts_partial` (cfns), `C66_float_order_refuted` (cfns), `C66_errors_partial` (cfns), `C66_energy_single_partial` (cfns).

### C67 Bandpass GMWs peak at 2 at the centre frequency

*Status:* partial.  *Code:* `_gmw.py:gmw`, `_gmw.py:gmw_l1_k`.  
*How:* derivative of the Laguerre factor at the centre frequency.  
*Outcome:* Proved for order 0; order 1 has value 2/sqrt(gamma*(2*beta+1)) at wc, so the docstring is refuted for the default parameters.  
*Theorems* (`PropertiesGmw`; proofs in `GmwThms`, `GmwThms3`): `C67_order1_value_partial` (cfns), `C67_order0_partial` (cfns), `C67_peak_refuted` (cfns).

### C68 morsewave and compute_gmw agree

*Status:* partial.  *Code:* `_gmw.py:morsewave`, `_gmw.py:_morsewave1`, `_gmw.py:_morsewave_first_family`, `_gmw.py:compute_gmw`.  
*How:* both functions unfolded to the same formula; normalisation constants compared.  
*Outcome:* Proved for positive frequencies, every order and norm. Refuted: negative frequencies raise ValueError for N > 1 (shape mismatch); beta = 0 divides by zero for Python float frequencies.  
*Theorems* (`PropertiesGmw`; proofs in `GmwThms3`): `C68_morsewave_partial` (cfns), `C68_negative_frequency` (cfns), `C68_negative_refuted` (cfns), `C68_beta0` (cfns), `C68_beta0_refuted` (cfns).

### C69 Time-domain wavelets are centred and analytic-symmetric

*Status:* proved.  *Code:* `wavelets.py:Wavelet.psifn`, `wavelets.py:Wavelet._halve_nyquist`, `_gmw.py:compute_gmw`.  
*How:* inverse DFT of a real spectrum times (-1)^k.  
*Outcome:* Every real-valued wavelet function, every scale and N; peak at N//2 for even N (for odd N the centre of symmetry falls between samples). compute_gmw agreement for norm='bandpass', every order.  
*Theorems* (`PropertiesResol`; proofs in `ResolProofs`): `C69_symmetric` (fns), `C69_peak_at_center` (fns), `C69_spectrum` (fns), `C69_compute_gmw` (cfns).

### C70 center_frequency lies in (0, pi]

*Status:* proved.  *Code:* `wavelets.py:center_frequency`.  
*How:* trapezoid sums of nonnegative weights; argmax on the grid.  
*Outcome:* Range and peak for every N including odd N; exact value of 'energy' for even N. find_maximum's outcome is a parameter (its own theorems are C48).  
*Theorems* (`PropertiesResol`; proofs in `ResolThms2`): `C70_energy_range` (fns), `C70_peak` (fns), `C70_energy_value` (fns), `C70_peak_ct` (fns).

### C71 force_int=False computes widths by formula

*Status:* partial.  *Code:* `wavelets.py:center_frequency`, `wavelets.py:freq_resolution`, `wavelets.py:time_resolution`.  
*How:* branch analysis of `force_int`.  
*Outcome:* freq_resolution and time_resolution scale as documented. Refuted for center_frequency: 'force_int or True' makes the argument inert, so scale*wc varies (default GMW, scales 1 and 1024).  
*Theorems* (`PropertiesResol`; proofs in `ResolThms2`): `C71_freq_width_partial` (fns), `C71_time_width_partial` (fns), `C71_force_int_ignored_partial` (fns), `C71_center_frequency_refuted` (cfns).

### C72 freq_resolution is the standard deviation of the wavelet's spectrum at length N

*Status:* partial.  *Code:* `wavelets.py:freq_resolution`, `wavelets.py:center_frequency`.  
*How:* weighted variance as trapezoid sums.  
*Outcome:* Proved for N=1024. For other even N the result is sqrt(var + (mean_N - mean_1024)^2), because center_frequency is called without N (refuted with the default GMW, N=2). Odd N integrates over unsorted frequencies: a wavelet is exhibited for which the result is nan (refuted).  
*Theorems* (`PropertiesResol`; proofs in place): `C72_default_length_partial` (fns), `C72_even_length_partial` (fns), `C72_other_length_refuted` (cfns), `C72_odd_length_refuted` (fns).

### C73 time_resolution measures spread about the wavelet's centre

*Status:* proved.  *Code:* `wavelets.py:time_resolution`, `wavelets.py:Wavelet.psifn`.  
*How:* as C72 in time.  
*Outcome:* Every real-valued wavelet, N >= 2, min_mult >= 1, min_decay >= 0.  
*Theorems* (`PropertiesResol`; proofs in place): `C73_time_resolution` (fns).

### C74 find_min_scale lands where asked

*Status:* partial.  *Code:* `utils/cwt_utils.py:find_min_scale`, `utils/cwt_utils.py:cwt_scalebounds`, `algos.py:find_first_occurrence`.  
*How:* first-occurrence search; monotone flanks of the wavelet; search k+1 from s is search k from s+10 (loop_shift), so later searches reuse the one-search lemmas; Morlet: sign of the derivative through mu - w + w exp(-mu w), which decreases.  
*Outcome:* find_min_scale modelled on top of the search model (Search.v). Proved for every wavelet: the side of the peak. For wavelets rising then falling strictly: within 1e-3 left, 2e-3 right of the crossing, in the first search (peak below 10) and in any later one when no step of the wavelet over 1e-3 reaches from the end of an earlier search to the value (Morlet's default mu=13.4 is an instance). Findings: without that bound a search stops early, 5 rad short of the crossing (refuted); the documented 'lesser cutoff gives lesser min_scale, always' is the reverse of what holds between cutoffs of one sign; refuted for the default GMW (cutoffs -1 and -0.5).  
*Theorems* (`PropertiesScaleBounds`, `PropertiesSearchFar`; proofs in `ScaleBoundsThms`): `C74_side` (fns), `C74_left_partial` (fns), `C74_right_partial` (fns), `C74_peak` (fns), `C74_order_partial` (fns), `C74_lesser_cutoff_refuted` (cfns), `C74_left_far_partial` (fns), `C74_right_far_partial` (fns), `C74_false_stop_refuted` (fns).

### C75 find_max_scale places the wavelet's rising edge on bin bin_loc

*Status:* partial.  *Code:* `utils/cwt_utils.py:find_max_scale`.  
*How:* as C74 on the rising edge.  
*Outcome:* find_max_scale characterised exactly for every wavelet, N and bin_loc in 1..N/2. Findings: a greater bin_loc need not give a lesser scale (both 0 at N=8 with the default wavelet); bin_loc past N/2 gives a negative scale and bin 0 nan, without an error.  
*Theorems* (`PropertiesScaleBounds`; proofs in place): `C75_edge` (fns), `C75_raises` (fns), `C75_default_amp` (fns), `C75_loc_partial` (fns), `C75_amp_partial` (fns), `C75_any_loc` (fns), `C75_greater_loc_refuted` (cfns), `C75_past_middle_refuted` (fns).

### C76 find_max_scale_alt straddles the peak symmetrically between the cutoffs

*Status:* partial.  *Code:* `utils/cwt_utils.py:find_max_scale_alt`.  
*How:* two searches; algebra of the mean.  
*Outcome:* find_max_scale_alt: two bins straddle the peak, nearly symmetrically, and the half-bin point stays above min_cutoff. Findings: max_cutoff is validated and never used, the bins can lie above it; for few samples (N=10) a plain Exception is raised.  
*Theorems* (`PropertiesScaleBounds`; proofs in `ScaleBoundsThms2`): `C76_straddles_partial` (fns), `C76_min_cutoff_partial` (fns), `C76_fewest_partial` (fns), `C76_invalid` (fns), `C76_max_cutoff_unused` (fns), `C76_max_cutoff_refuted` (fns), `C76_short_refuted` (fns).

### C77 cwt_scalebounds' presets

*Status:* partial.  *Code:* `utils/cwt_utils.py:cwt_scalebounds`.  
*How:* case analysis of presets.  
*Outcome:* cwt_scalebounds' presets and validation. Finding: the returned range can be empty, 'maximal' with N=3..5 gives max_scale=0 (make_scales then takes N).  
*Theorems* (`PropertiesScaleBounds`; proofs in `ScaleBoundsThms3`): `C77_naive` (s), `C77_presets_override` (fns), `C77_parts` (fns), `C77_invalid` (fns), `C77_bad_cutoffs` (fns), `C77_padded` (fns), `C77_short_maximal_partial` (fns), `C77_range_refuted` (cfns).

### C78 default scales reach Nyquist

*Status:* partial.  *Code:* `utils/cwt_utils.py:process_scales`, `utils/cwt_utils.py:make_scales`, `utils/cwt_utils.py:cwt_scalebounds`.  
*How:* bounds, scales and the search composed.  
*Outcome:* Named scales: least scale puts the peak at or past Nyquist, greatest within two voices of max_scale ('log-piecewise': within 1 + downsample voices; least scale exact also if the spacing changes at index 0). Refuted for bounds with max_scale below min_scale ('maximal' on 3 to 5 samples).  
*Theorems* (`PropertiesScaleBounds`, `PropertiesScalePiece`; proofs in `ScaleBoundsThms3`, `ScalePiece`, `ScaleShort`): `C78_nyquist_partial` (cfns), `C78_short_refuted` (cfns), `C78_piecewise_partial` (cfns).

### C79 infer_scaletype recognises the spacing

*Status:* partial.  *Code:* `utils/cwt_utils.py:infer_scaletype`, `utils/cwt_utils.py:process_scales`.  
*How:* second differences against the thresholds.  
*Outcome:* Exact characterisation of 'log' and 'linear' with their tolerances for all real arrays. Findings: the linear test is absolute, so any non-logarithmic array (in particular a log-piecewise one) is called 'linear' in a small enough unit; evenly spaced arrays of nearly equal entries are called 'log'.  
*Theorems* (`PropertiesInfer`; proofs in `InferThms`): `C79_log` (cfns), `C79_linear` (cfns), `C79_spacing` (cfns), `C79_log_units_partial` (cfns), `C79_small_units` (cfns), `C79_units_refuted` (cfns), `C79_arithmetic_refuted` (cfns).

### C80 phase_ssqueeze reproduces ssq_cwt

*Status:* proved.  *Code:* `experimental.py:phase_ssqueeze`, `experimental.py:phase_transform`, `_ssq_cwt.py:ssq_cwt`.  
*How:* both drivers reduced to the same kernels.  
*Outcome:* like_ssq_cwt for 'trig' and 'phase', both get_w, all schedules; default ssq_freqs for array scales of the same dtype; 'numeric' stated for ssq_cwt's squeezing step (squeeze_step), whose padded transform is the input.  
*Theorems* (`PropertiesExperimental`, `PropertiesTighten1`; proofs in `ExperimentalThms`, `Tighten1`): `C80_like_ssq_cwt` (cfns), `C80_default_freqs` (cfns), `C80_numeric` (cfns), `C80_default_maprange` (cfns).

### C81 phase_ssqueeze reproduces ssq_stft

*Status:* proved.  *Code:* `experimental.py:phase_ssqueeze`, `_ssq_stft.py:ssq_stft`.  
*How:* as C80 for the STFT.  
*Outcome:* all options, both get_w; 1-D x; stft called with the rate that ssq_stft derives.  
*Theorems* (`PropertiesExperimental`; proofs in `ExperimentalThms`): `C81_like_ssq_stft` (cfns).

### C82 phase_ssqueeze's arguments take effect

*Status:* partial.  *Code:* `experimental.py:phase_ssqueeze`, `experimental.py:phase_transform`.  
*How:* argument flow through `phase_ssqueeze`.  
*Outcome:* False of the code in every clause: rpadded=True leaves Wx padded (refuted, and proved for all but 'numeric') while a dWx computed here is unpadded; Sfs is never passed on; t does not enter the STFT rows' frequencies; default difftype with get_w raises UnboundLocalError, default difforder with 'numeric' ValueError, and the STFT without ssq_freqs never succeeds.  
*Theorems* (`PropertiesExperimental`; proofs in `ExperimentalThms`, `ExperimentalWitness`): `C82_rpadded_refuted` (cfns), `C82_rpadded_kept` (cfns), `C82_rpadded_mismatch` (cfns), `C82_Sfs_unused` (cfns), `C82_rows_from_fs` (cfns), `C82_t_unused` (cfns), `C82_difftype_default` (cfns), `C82_difforder_default` (cfns), `C82_stft_freqs_default` (cfns), `C82_defaults_refuted` (cfns).

### C83 Automatic N of a sweep prevents aliasing, minimally

*Status:* partial.  *Code:* `_test_signals.py:TestSignals._est_N_nonalias`, `_test_signals.py:TestSignals._process_params`, `_test_signals.py:TestSignals._generate`.  
*How:* derivative of the phase bounded over the sweep; ceiling.  
*Outcome:* No aliasing proved for the four sweeps with 0 <= fmin < fmax. Minimality: holds with respect to fmax <= fs/2 when the endpoint is included; refuted with respect to the phases (0-1 Hz: 2 samples do, 3 chosen) and for endpoint=False. Finding: negative frequencies are ignored (-10..0 Hz gives one sample); the default fmax=N//2 aliases when tmax-tmin > 1.  
*Theorems* (`PropertiesSignals`; proofs in `SignalsThms`): `C83_no_alias_partial` (cfns), `C83_least_partial` (fs), `C83_least_refuted` (cfns), `C83_open_end_refuted` (fs), `C83_negative_refuted` (fns), `C83_default_fmax_partial` (fs).

### C84 Parallel chirps are the sum of the two sweeps asked for

*Status:* partial.  *Code:* `_test_signals.py:TestSignals.par_lchirp`, `_test_signals.py:TestSignals.par_echirp`, `_test_signals.py:TestSignals.par_hchirp`.  
*How:* sum of two chirps; intervals of the derived second chirp.  
*Outcome:* Sum and explicit frequencies proved; ordering proved when the second frequencies are not given, and that the two then stay a fixed distance (or ratio) apart at every time. Finding: fmax2 without fmax1 is dropped.  
*Theorems* (`PropertiesSignals`, `PropertiesTighten2`; proofs in `SignalsThms2`, `Tighten2`): `C84_sum` (cfns), `C84_explicit` (-), `C84_order_partial` (fs), `C84_fmax2_refuted` (cfns), `C84_parallel` (cfns), `C84_defaults` (fs).

### C85 Amplitude modulators stay within [amin, amax]

*Status:* proved.  *Code:* `_test_signals.py:TestSignals.am_sine`, `_test_signals.py:TestSignals.am_cosine`, `_test_signals.py:TestSignals.am_exp`, `_test_signals.py:TestSignals.am_gauss`.  
*How:* bounds of cos, exp and Gaussian envelopes.  
*Outcome:* am_tone covers am_sine and am_cosine (any generator bounded by 1). am_gauss ignores the time keywords.  
*Theorems* (`PropertiesSignals`; proofs in `SignalsThms2`): `C85_tone` (fns), `C85_exp` (cfns), `C85_gauss` (cfns).

### C86 jumps and packed generate the documented tones

*Status:* partial.  *Code:* `_test_signals.py:TestSignals.jumps`, `_test_signals.py:TestSignals.packed`.  
*How:* formulas sample by sample.  
*Outcome:* Segments, time points, lengths and tones proved exactly for all arguments; findings: jumps returns n*(N//n) samples, N exactly if n divides N; its time vector starts at tmin but ends at n*(tmax-tmin), so time runs forward exactly if tmin < n*(tmax-tmin); packed with an overlap of no samples lets odd tones cover everything, as x[-0:] is all of x.  
*Theorems* (`PropertiesJumpsExact`, `PropertiesPackedNegative`, `PropertiesSignals`; proofs in `JumpsExact`, `PackedNegative`, `SignalsThms3`): `C86_jumps_points_partial` (fns), `C86_jumps_forward_partial` (fns), `C86_jumps_whole_partial` (fns), `C86_packed_none_partial` (fns), `C86_packed_negative_partial` (fns), `C86_jumps_partial` (fns), `C86_jumps_times_partial` (fns), `C86_jumps_length_refuted` (fns), `C86_jumps_times_refuted` (fns), `C86_packed_partial` (fns), `C86_packed_refuted` (fns).

### C87 make_signals makes one signal per request, with the requested parameters

*Status:* partial.  *Code:* `_test_signals.py:TestSignals.make_signals`, `_test_signals.py:TestSignals._process_input`.  
*How:* string processing of names and dictionaries; list induction.  
*Outcome:* Parameter precedence, product, reflection proved; one signal per request proved for distinct names. Findings: requests of the same name collapse into one entry; time keywords for the modulator always raise TypeError (passed twice).  
*Theorems* (`PropertiesSignals`, `PropertiesTighten4`; proofs in `MakeSignalsThms`, `MakeSignalsThms2`, `Tighten4`): `C87_carrier_params` (-), `C87_modulated_params` (-), `C87_bare_modulator` (-), `C87_signal` (cfns), `C87_reflected` (cfns), `C87_one_each_partial` (cfns), `C87_duplicates_refuted` (cfns), `C87_modulator_times_refuted` (cfns), `C87_arguments_partial` (cfns), `C87_names_partial` (cfns), `C87_unknown_partial` (cfns).

### C88 Noise is reproducible and has the requested SNR

*Status:* partial.  *Code:* `_test_signals.py:TestSignals.__init__`, `_test_signals.py:TestSignals.make_signals`.  
*How:* seeded generator as a parameter; variance algebra.  
*Outcome:* Reproducible with a non-zero seed from equal dicts; SNR proved equal to snr - 10 log10 var(deviates). Findings: the caller's dict is overwritten with the measured SNR, so the same call repeated gives different noise; snr=0 and seed=0 are treated as None.  
*Theorems* (`PropertiesSignals`; proofs in `MakeSignalsThms2`): `C88_seeded_partial` (cfns), `C88_snr` (cfns), `C88_drift_refuted` (cfns), `C88_drift_partial` (cfns), `C88_snr_zero_refuted` (cfns), `C88_zero_refuted` (fs), `C88_seed_zero_refuted` (cfns).

### C89 window_resolution measures a window's widths

*Status:* partial.  *Code:* `utils/stft_utils.py:window_resolution`.  
*How:* weighted moments of samples and DFT energy.  
*Outcome:* Odd lengths proved in full up to the centre; even lengths only when the two outermost frequencies carry no energy. Findings: for even N the frequency axis starts at +pi, so the first trapezoid has negative width: zero area (box), nan (periodic Hann), std_w > pi (delta). std_t is measured about N/2, so a symmetric window's variance gains 1/4.  
*Theorems* (`PropertiesToolkit`; proofs in `WindowResThms`, `WindowResThms2`): `C89_odd_partial` (fns), `C89_even_partial` (fns), `C89_scaled` (fns), `C89_box_refuted` (fns), `C89_hann_refuted` (fns), `C89_delta_refuted` (fns), `C89_order_refuted` (fns), `C89_centre_partial` (fs), `C89_centre_refuted` (fns).

### C90 window_area is the window's energy, in time and frequency

*Status:* partial.  *Code:* `utils/stft_utils.py:window_area`.  
*How:* trapezoid sums; Parseval.  
*Outcome:* Time area and odd frequency area proved; even formula proved. Finding: frequency area negative for a 4-sample delta (same +pi ordering).  
*Theorems* (`PropertiesTighten5`, `PropertiesToolkit`; proofs in `Tighten5`, `WindowResThms2`): `C90_both_partial` (fns), `C90_time` (fns), `C90_odd_partial` (fns), `C90_even_partial` (fns), `C90_negative_refuted` (fns).

### C91 mad_rms is a scale-invariant relative error

*Status:* proved.  *Code:* `toolkit.py:mad_rms`.  
*How:* means of absolute values and squares; Cauchy-Schwarz.  
*Outcome:* All four parts; broadcasting of a single sample not modelled.  
*Theorems* (`PropertiesToolkit`; proofs in `ToolkitThms`): `C91_scale` (fns), `C91_zero` (fns), `C91_below_rms` (fns), `C91_silence` (fns).

### C92 where_amax finds all maxima; lin_band stays on its line and in the plane

*Status:* partial.  *Code:* `toolkit.py:where_amax`, `toolkit.py:lin_band`.  
*How:* argwhere as a filter; truncation of the line.  
*Outcome:* where_amax and the line proved. Findings: the plane's diagonal ends one row past the last row; the default bw gives half-width 0 below 40 rows.  
*Theorems* (`PropertiesToolkit`; proofs in `ToolkitThms`): `C92_amax` (fns), `C92_band` (fs), `C92_past_refuted` (fs), `C92_empty_refuted` (fs).

### C93 est_riskshrink_thresh is a robust, homogeneous noise level

*Status:* partial.  *Code:* `utils/common.py:est_riskshrink_thresh`, `utils/common.py:mad`.  
*How:* median by sorting; homogeneity.  
*Outcome:* Locality, homogeneity, sign proved. Findings: the deviation is mean, not median: one coefficient moves the threshold without bound; raising every fine coefficient to the same modulus brings it to 0 although the docstring says it grows with high-frequency content.  
*Theorems* (`PropertiesToolkit`; proofs in `ToolkitThms`): `C93_fine_only` (cfns), `C93_homogeneous` (cfns), `C93_sign` (cfns), `C93_outlier_refuted` (cfns), `C93_monotone_refuted` (cfns).

### C94 integrate_analytic integrates from 0 to infinity

*Status:* partial.  *Code:* `utils/cwt_utils.py:integrate_analytic`, `algos.py:_min_neglect_idx`.  
*How:* grids and trapezoid sums of the search loop; monotone tail.  
*Outcome:* Value, sign, bounds, convergence criteria, cut-off error and, for unimodal integrands, quadrature error proved for real integrands. Findings: the strip between 0.1 and the first linear sample is skipped; thresholds are absolute, so any integrand in small units raises; when no range converges the warning says only 1e-15..0.1 was integrated but 0.1..160 is added too; a nonpositive integrand that vanishes at the first sample silently gives only the near-zero part.  
*Theorems* (`PropertiesAdmiss`, `PropertiesRoundTrip`; proofs in `AdmissAcc`, `AdmissThms`, `AdmissThms2`, `AdmissThms3`): `C94_value` (cfns), `C94_nonneg` (cfns), `C94_positive` (cfns), `C94_bound` (cfns), `C94_support` (cfns), `C94_decay` (cfns), `C94_cut_partial` (fs), `C94_gap_refuted` (cfns), `C94_units_refuted` (cfns), `C94_warning_refuted` (cfns), `C94_sign_refuted` (cfns), `C94_accuracy` (cfns).

### C95 Admissibility constants are positive

*Status:* partial.  *Code:* `utils/cwt_utils.py:adm_ssq`, `utils/cwt_utils.py:adm_cwt`.  
*How:* C94 applied to the two integrands, sign by sign.  
*Outcome:* Positivity proved for all GMW and Morlet parameters whenever a value is returned; existence and value (within 1/400 of (2/3)(e/20)^20 19!) proved for the default wavelet. Finding: adm_ssq of minus a wavelet is not minus adm_ssq (0 for a box).  
*Theorems* (`PropertiesAdmiss`, `PropertiesRoundTrip`; proofs in `AdmissThms2`, `AdmissThms3`): `C95_cwt_sign` (cfns), `C95_ssq_sign` (cfns), `C95_cwt_even` (cfns), `C95_gmw` (cfns), `C95_morlet` (cfns), `C95_default` (cfns), `C95_odd_refuted` (cfns), `C95_default_value` (cfns), `C95_default_exact` (cfns).

### C96 Wavelet(dtype=...) generates at the dtype asked for

*Status:* partial.  *Code:* `wavelets.py:Wavelet.__init__`, `wavelets.py:Wavelet._process_dtype`, `wavelets.py:Wavelet._validate_and_set_wavelet`.  
*How:* decision tables over dtype objects and dictionaries; strings computed.  
*Outcome:* Proved for named wavelets with dtype a string, np.dtype or torch.dtype; defaults and norm='energy' in full. Refuted: np.float32/np.float64 (the type itself) always raise, since str() of it is cut to "float64'>"; for a function the argument is ignored in favour of its output's dtype; 'bump' accepts np.dtype('complex64') as its dtype.  
*Theorems* (`PropertiesInit`, `PropertiesTighten10`; proofs in `Tighten10`, `WaveletInitThms`): `C96_given_partial` (-), `C96_default` (-), `C96_energy` (-), `C96_np_type_refuted` (-), `C96_function_refuted` (-), `C96_function` (-), `C96_supported_refuted` (s), `C96_type_option_partial` (-), `C96_dtype_option_partial` (-).

### C97 A Wavelet's configuration is what was asked for, completed by configs.ini

*Status:* partial.  *Code:* `wavelets.py:Wavelet._validate_and_set_wavelet`, `configs.py:gdefaults`, `utils/common.py:assert_is_one_of`.  
*How:* association lists on top of `gdefaults` (C41); uniqueness of keys gives equality of dictionaries.  
*Outcome:* Proved but for one clause: a tuple whose first entry is no string is rejected after 'dtype' was written to the caller's dictionary (C97_caller_refuted).  
*Theorems* (`PropertiesInit`; proofs in `WaveletInitThms`): `C97_config` (-), `C97_names` (-), `C97_unknown` (-), `C97_rebuild` (-), `C97_caller_partial` (-), `C97_caller_refuted` (-).

### C98 cwt_higher_order's wavelets differ only in order

*Status:* proved.  *Code:* `_cwt.py:cwt_higher_order`, `wavelets.py:Wavelet._validate_and_set_wavelet`.  
*How:* C97 applied to the reduced dictionary.  
*Outcome:* Orders other than None. A user function named like a GMW raises KeyError.  
*Theorems* (`PropertiesInit`; proofs in `WaveletInitThms`): `C98_orders` (-), `C98_rejected` (-).

### C99 The synchrosqueezed transform of a tone is one row, at the tone's frequency

*Status:* partial.  *Code:* `_ssq_cwt.py:ssq_cwt`, `_ssq_cwt.py:phase_cwt`, `ssqueezing.py:ssqueeze`.  
*How:* The DFT of a tone has two bins; an analytic wavelet keeps one, so each CWT row is the analytic tone times a real number, the phase transform is the constant frequency (C47), and C24/C27 send every row to one bin.  
*Outcome:* For tones with a whole number of periods and padtype=None, default squeezing and difftype, log scales and geometric ssq_freqs, under any schedule: everything is in the row nearest in log-frequency. Refuted for padded signals (the reflected signal is not a tone). Missing: frequencies between DFT bins.  
*Theorems* (`PropertiesTone`; proofs in `ToneThms`): `C99_one_row_partial` (cfns), `C99_padded_refuted` (cfns).

### C100 Inverting the transform of a tone gives the tone back up to an exact gain

*Status:* partial.  *Code:* `_ssq_cwt.py:issq_cwt`, `_cwt.py:icwt`.  
*How:* C99, then the sums of issq_cwt and icwt in closed form.  
*Outcome:* Exact gains for issq_cwt, icwt and component inversion in the setting of C99; refuted for padded signals. How close the gain is to 1: C105.  
*Theorems* (`PropertiesTone`; proofs in `ToneThms`): `C100_issq_partial` (cfns), `C100_component` (cfns), `C100_icwt_partial` (cfns), `C100_padded_refuted` (cfns).

### C101 extract_ridges follows the curve that carries the energy

*Status:* partial.  *Code:* `ridge_extraction.py:extract_ridges`, `_ssq_cwt.py:ssq_cwt`.  
*How:* The optimality of ridge 0 (C30) against the curve: leaving it once costs ln(1+1/eps) at least. With energy elsewhere: replace each stay outside the band by the strongest row, which saves ln(1/rho) a step and pays at most two jumps.  
*Outcome:* Exact when all energy lies on the curve (C101_curve_partial, C101_constant). With energy elsewhere, and for every ridge, it stays in the rows that carry the most (C101_band). False when the curve ends in a row numbered T or more, T the number of times: the last index is taken modulo T (C101_last_row_refuted).  
*Theorems* (`PropertiesRidgeBand`, `PropertiesTone`; proofs in `RidgeBand`, `RidgeCurve`, `ToneThms`): `C101_band` (cfns), `C101_last_row_refuted` (cfns), `C101_curve_partial` (cfns), `C101_constant` (cfns), `C101_tone` (cfns).

### C102 Both difftypes of phase_cwt give the frequency in Hz

*Status:* partial.  *Code:* `_ssq_cwt.py:phase_cwt`, `_ssq_cwt.py:ssq_cwt`.  
*How:* The angle of a uniformly turning row unwraps to a line; first differences and the appended last column in closed form.  
*Outcome:* Refuted: 'phase' gives cycles per sample whatever fs, and its last column is the whole phase advance. Proved: the exact values for any row that turns uniformly, and for any tone.  
*Theorems* (`PropertiesTone`; proofs in `PhaseDiff`): `C102_row` (cfns), `C102_tone_partial` (cfns), `C102_units_refuted` (cfns).

### C103 icwt(l1_norm=False) undoes cwt(l1_norm=False) exactly as in the L1 norm

*Status:* proved.  *Code:* `_cwt.py:cwt`, `_cwt.py:icwt`, `_cwt.py:_icwt_norm`.  
*How:* Linearity of padding, DFT and ifftshift row by row; induction over the recursion on piecewise scales.  
*Outcome:* Positive scales. Every scale type, padding, one or two integrals, errors and cached wavelets included; a GMW raises ValueError in the other norm.  
*Theorems* (`PropertiesTone`; proofs in `NormThms`): `C103_cwt` (cfns), `C103_icwt` (cfns), `C103_round_trip` (cfns), `C103_gmw` (cfns).

### C104 icwt after cwt is a zero-phase filter with a known response

*Status:* proved.  *Code:* `_cwt.py:icwt`, `_cwt.py:cwt`, `_cwt.py:_icwt_norm`.  
*How:* Row sums of the CWT are one DFT filter; the real part mirrors the bins.  
*Outcome:* Exact; RoundTrip.v. The bound on the error given a bound on the gain is C104_error.  
*Theorems* (`PropertiesRoundTrip`; proofs in `RoundTrip`): `C104_filter` (cfns), `C104_error` (cfns).

### C105 The round trip reproduces the signal within a stated error

*Status:* proved.  *Code:* `_cwt.py:icwt`, `_ssq_cwt.py:issq_cwt`, `utils/cwt_utils.py:adm_ssq`, `utils/cwt_utils.py:make_scales`.  
*How:* The gain is a trapezoid sum of g(w)/w in log scale: error by d^2/8 times the variation of its derivative (GainBound2), tails by Gamma-type estimates (GmwRoundTrip), Css by C94_accuracy and the exact Gamma value (DefaultRoundTrip); Parseval turns the gain into a root-mean-square error; dropped coefficients by the triangle inequality (SsqRoundTrip).  
*Outcome:* Second-order quadrature error of the scale sum plus both tails; the constant adm_ssq returns for the default wavelet is within 1/400 of the exact integral. Exact arithmetic; the signal must have no content outside the scale range (band condition in the statement).  
*Theorems* (`PropertiesRoundTrip`; proofs in `DefaultRoundTrip`, `GmwRoundTrip`, `RoundTripGain2`, `SsqRoundTrip`): `C105_bound` (cfns), `C105_gmw` (cfns), `C105_default` (cfns), `C105_ssq_icwt` (cfns), `C105_ssq_default` (cfns).

### C106 packed_poly and poly_cubic hold their documented bands at every N

*Status:* partial.  *Code:* `_test_signals.py:TestSignals.packed_poly`, `_test_signals.py:TestSignals.poly_cubic`.  
*How:* PolySignals.v models both generators (scipy's sweep_poly from its documentation). The phases are differentiated (PolySignalsThms.v) and the resulting frequencies bounded on (0, 10]. poly_cubic holds in full. packed_poly: the bands are ordered for N >= 129; the ripple .3*sin(t) of the second component is not multiplied by adj, so for N = 64 the bands cross and for N = 32 the frequency is negative (refuted).  
*Outcome:* poly_cubic: in full. packed_poly: frequencies, sampling and (N >= 129) the order of the bands; refuted for small N: x2's ripple .3*sin(t) is not multiplied by adj  
*Theorems* (`PropertiesPoly`, `PropertiesTighten10`; proofs in `PolySignalsThms`, `Tighten10`): `C106_packed_fm` (cfns), `C106_packed_sampled` (cfns), `C106_packed_order_partial` (cfns), `C106_packed_adjusts_partial` (cfns), `C106_packed_order_refuted` (cfns), `C106_cubic_fm` (fns), `C106_cubic_bands` (fs), `C106_cubic_adjusts` (fs), `C106_packed_start` (cfns).

### C107 The phase transform's error is the spread of the row's spectrum

*Status:* proved.  *Code:* `_ssq_cwt.py:phase_cwt`, `_cwt.py:cwt`.  
*How:* W and dW at a cell are sums over DFT bins; |dW - 2 pi i F W| bounds the ratio (Separate.v). Decay of the default GMW an octave off its peak: 20 ln u - u with numeric bounds on e and ln 2 (OctaveSep.v); tones occupy one bin each (ChordSep.v).  
*Outcome:* any wavelet with real spectrum, any signal and padding; octave separation for the default GMW  
*Theorems* (`PropertiesSeparate`; proofs in `ChordSep`, `OctaveSep`, `Separate`): `C107_spread` (cfns), `C107_dominant` (cfns), `C107_octave` (cfns), `C107_chord` (cfns).

### C108 Synchrosqueezing separates components

*Status:* proved.  *Code:* `_ssq_cwt.py:ssq_cwt`, `_ssq_cwt.py:issq_cwt`, `ssqueezing.py:ssqueeze`, `_ssq_cwt.py:_invert_components`.  
*How:* The squeezing sum is inverted through nearest_log (Reassign.v). Chord: linearity of the rows, decay of the wavelet below u = 1/4 and above u = 128 (1e-25), so one tone at most is above any scale's threshold and the phase transform lands within a row of it; sums over a band are the scale sum of one tone (ChordSqueeze.v); gain within 3% from the quadrature bound of C105 (ChordRecover.v). Unpadded input; uncached wavelet.  
*Outcome:* any signal for the row assignment; tones three octaves apart, default GMW, unpadded, for the components  
*Theorems* (`PropertiesSeparate`; proofs in `ChordRecover`, `ChordSqueeze`, `Reassign`): `C108_reassigned` (cfns), `C108_sparse` (cfns), `C108_components` (cfns), `C108_recovered` (cfns).

### C109 Arguments the synchrosqueezing functions accept are usable

*Status:* partial.  *Code:* `ssqueezing.py:_check_ssqueezing_args`, `ssqueezing.py:_ssq_freqrange`, `ssqueezing.py:_compute_associated_frequencies`, `ssqueezing.py:ssqueeze`.  
*How:* Arguments as Python values of any type (Validate.v). The accepted set is characterised by an iff against the documented one; a list, None or a tuple not of length 2 as maprange passes and fails later; an unknown ssq_freqs string is treated as linear frequencies, with a logarithmic search if it begins with log.  
*Outcome:* Acceptance characterised exactly and errors classified; strings and pairs give the model's range. Refuted: list, None and wrong-length maprange fail later; unknown ssq_freqs strings are accepted and may misplace energy.  
*Theorems* (`PropertiesTighten3`, `PropertiesValidate`; proofs in `Tighten3`, `ValidateThms`): `C109_messages_partial` (fs), `C109_wrong_kind_partial` (fs), `C109_accepted_partial` (fs), `C109_refused_partial` (fs), `C109_order_partial` (fs), `C109_same_check_partial` (fs), `C109_usable_partial` (fs), `C109_list_refuted` (fs), `C109_none_refuted` (fs), `C109_length_refuted` (fs), `C109_scheme_refuted` (cfns).

### C110 NaN and infinite samples count as zeros, and the caller's array is left alone

*Status:* partial.  *Code:* `_cwt.py:cwt`, `algos.py:replace_at_inf_or_nan`, `_cwt.py:cwt_higher_order`.  
*How:* Samples as finite, infinite or NaN (NanInput.v on top of Pointwise.v and Cwt.v); the max/min test is shown to see every bad sample; the model returns the caller array afterwards. Refuted: the array is overwritten; nan_checks=False is ignored with order > 0.  
*Outcome:* Zeroing, warning and untouched finite input proved for all arrays. Refuted: the caller's array is overwritten; nan_checks=False has no effect with order > 0.  
*Theorems* (`PropertiesInputs`; proofs in `NanInputThms`): `C110_zeroed_partial` (cfns), `C110_finite_partial` (cfns), `C110_warned_partial` (fs), `C110_batch_partial` (fs), `C110_orders_partial` (cfns), `C110_empty_partial` (cfns), `C110_caller_refuted` (cfns), `C110_unchecked_refuted` (cfns).

### C111 cwt transforms with the GMW normalisation l1_norm asks for

*Status:* partial.  *Code:* `_cwt.py:_process_gmw_wavelet`, `_cwt.py:cwt`, `_cwt.py:cwt_higher_order`, `wavelets.py:_fn_to_name`.  
*How:* _process_gmw_wavelet on the constructor model of WaveletInit.v, with the dictionary afterwards (CwtWavelet.v). Refuted: the norm written into a tuple by one call decides later ones; tuples naming the other norm, and every GMW of order > 0, are accepted.  
*Outcome:* Proved for names, tuples without norm, and instances of order 0. Refuted: a tuple used twice, tuples naming a norm, higher orders, misspelt names.  
*Theorems* (`PropertiesInputs`; proofs in `ByNameThms`, `CwtWaveletThms`): `C111_name_partial` (fs), `C111_tuple_partial` (fs), `C111_instance_partial` (fs), `C111_others_partial` (fs), `C111_reuse_partial` (fs), `C111_reuse_refuted` (fs), `C111_tuple_refuted` (fs), `C111_higher_instance_partial` (fs), `C111_orders_refuted` (fs), `C111_typo_refuted` (fs).

### C112 The sampling rate only relabels frequencies

*Status:* partial.  *Code:* `_ssq_cwt.py:ssq_cwt`, `ssqueezing.py:_compute_associated_frequencies`, `_ssq_cwt.py:phase_cwt`, `utils/cwt_utils.py:infer_scaletype`.  
*How:* Two runs of the model of ssq_cwt related step by step (Transport.v, RateThms.v): bins are unchanged because the grid start and step shift alike. Refuted: difftype phase returns the same w at every rate; which frequency arrays count as linear depends on the unit.  
*Outcome:* Proved for order 0 and difftypes trig and numeric with log-spaced rows (or steps of at least EPS64). Refuted: difftype phase; recognition of linear frequency arrays depends on the unit.  
*Theorems* (`PropertiesSymmetry`; proofs in `ExperimentalThms`, `RateThms`, `RateWitness`): `C112_rate_partial` (cfns), `C112_cwt` (cfns), `C112_phase_refuted` (cfns), `C112_unit_refuted` (cfns).

### C113 Scaling the signal scales the synchrosqueezed transform

*Status:* partial.  *Code:* `_ssq_cwt.py:ssq_cwt`, `ssqueezing.py:ssqueeze`, `algos.py:ssqueeze_fast`.  
*How:* ssq_cwt_map (SymmThms.v): maps of the coefficients that keep phases carry through squeezing, given cwt_linear. Refuted for an unscaled threshold: a tone of amplitude EPS64 gives Tx = 0.  
*Outcome:* Proved for order 0, difftype trig, squeezing sum and abs, with gamma scaled alike. Refuted for the default gamma.  
*Theorems* (`PropertiesSymmetry`; proofs in `SymmInst`, `SymmWitness`): `C113_scale_partial` (cfns), `C113_threshold_partial` (cfns), `C113_default_gamma_refuted` (cfns).

### C114 Shifting or reversing the signal shifts or reverses the synchrosqueezed transform

*Status:* partial.  *Code:* `_ssq_cwt.py:ssq_cwt`, `_cwt.py:cwt`, `utils/common.py:p2up`, `utils/common.py:padsignal`.  
*How:* DFT shift and conjugation identities on the padded signal (SymmInst.v), carried through ssq_cwt_map. Refuted for reflect padding, whose length-parity and content break both symmetries.  
*Outcome:* Proved for order 0, difftype trig: rotation unpadded, delay with zero padding, reversal unpadded, zero-padded or even length. Refuted for reflect padding.  
*Theorems* (`PropertiesSymmetry`; proofs in `SymmInst`): `C114_roll_partial` (cfns), `C114_delay_partial` (cfns), `C114_reverse_partial` (cfns), `C114_reflect_refuted` (cfns).

### C115 ssq_stft puts a tone of a bin's frequency in that bin alone

*Status:* proved.  *Code:* `_stft.py:stft`, `_ssq_stft.py:ssq_stft`, `_ssq_stft.py:phase_stft`, `_ssq_stft.py:_make_Sfs`, `_ssq_stft.py:issq_stft`.  
*How:* StftTone.v computes the transform of a bin-centred tone in every interior frame: the negative-frequency part falls outside the rows, the positive part factors as amplitude times phase times the window spectrum, and the derivative window multiplies it by the offset of the row, so the phase transform cancels exactly. StftToneThms.v carries this through the nearest-bin search and the accumulation; StftToneWitness.v shows the Hann window qualifies.  
*Outcome:* Exact, in every frame wholly inside the signal; at the borders padding breaks the tone.  
*Theorems* (`PropertiesStftTone`; proofs in `CwtTone`, `StftToneThms`, `StftToneWitness`): `C115_phase` (fns), `C115_one_row` (cfns), `C115_value` (cfns), `C115_inverse` (cfns), `C115_hann` (cfns).

### C116 The frequencies assigned to stft's rows are those of its bins for odd n_fft too

*Status:* partial.  *Code:* `_ssq_stft.py:_make_Sfs`, `_ssq_stft.py:phase_stft`.  
*How:* The same computation for odd n_fft gives m + k/(n-1) bins in row k, because _make_Sfs spreads (n-1)/2+1 rows up to fs/2. The partial theorem is that exact value; the refutation is its Hann instance.  
*Outcome:* False: the rows of an odd n_fft are labelled as if there were n_fft-1 bins. The partial theorem gives the exact frequency found in each row.  
*Theorems* (`PropertiesStftTone`; proofs in `StftToneWitness`): `C116_odd_partial` (fns), `C116_odd_refuted` (fns).

### C117 cwt's rows have bounded energy

*Status:* proved.  *Code:* `_cwt.py:cwt`.  
*How:* Parseval on each row of the closed form of cwt (CwtEnergy.v); cropping only removes terms.  
*Outcome:* Row energies exactly where nothing is cropped, bounds everywhere.  
*Theorems* (`PropertiesEnergy`; proofs in `CwtEnergy`): `C117_energy` (cfns), `C117_bounded` (cfns), `C117_stable` (cfns).

### C118 cwt determines the signal up to its mean, and no further

*Status:* proved.  *Code:* `_cwt.py:cwt`, `utils/common.py:padsignal`, `_gmw.py:gmw`.  
*How:* By linearity a difference with zero rows has zero spectrum at each covered frequency, hence is constant; padding extends the signal, so the signal is too. Conversely a constant list pads to a constant list and its spectrum lives at zero frequency.  
*Outcome:* For transforms that are not cropped (padtype=None or rpadded=True).  
*Theorems* (`PropertiesEnergy`; proofs in `CwtEnergy`, `CwtEnergyWitness`): `C118_determines` (cfns), `C118_constant` (cfns), `C118_gmw` (cfns).

### C119 extract_ridges returns several components in order of strength

*Status:* proved.  *Code:* `ridge_extraction.py:11-146`, `ridge_extraction.py:149-232`.  
*How:* Induction on the ridges: once the earlier ridges are the earlier curves, what zero_band leaves is the energy outside their bands, and the band argument of C101 with a band of one row applies.  
*Outcome:* For curves at least bw rows from the top, each outweighing what is left by a factor exceeding the price of two of its jumps.  
*Theorems* (`PropertiesRidgeBand`; proofs in `RidgeBand`): `C119_components` (cfns), `C119_bands` (cfns).

### C120 ssq_cwt, extract_ridges and issq_cwt together take a chord apart

*Status:* proved.  *Code:* `_ssq_cwt.py:ssq_cwt`, `ridge_extraction.py:extract_ridges`, `_ssq_cwt.py:issq_cwt`.  
*How:* C108 places every coefficient within a row of its tone; summing them (they share one phase) bounds each row of Tx above and the strongest row of each tone below; the band theorem (C119_bands) then keeps ridge r on tone r, and C108_recovered inverts along it.  
*Outcome:* Exact real arithmetic, default GMW, unpadded; tones at least three octaves apart and inside the scales.  
*Theorems* (`PropertiesChordRidge`; proofs in `ChordRidge`): `C120_strength` (cfns), `C120_ridges` (cfns), `C120_recovered` (cfns).

### C121 scales= and nv= accept exactly the documented forms

*Status:* proved.  *Code:* `utils/cwt_utils.py:process_scales`, `utils/cwt_utils.py:_assert_positive_integer`.  
*How:* process_scales on values of any type; a string is accepted iff it is one of the twelve documented spellings, by inverting the split at the colon; nv by the characterisation of float.is_integer. The computed scales are those of ScaleBounds.v.  
*Outcome:* strings, nv and refusals; float nan/inf as nv not represented  
*Theorems* (`PropertiesProcScales`; proofs in `ProcScalesThms`): `C121_voices` (fs), `C121_string` (cfns), `C121_refused` (cfns), `C121_other` (cfns).

### C122 An nv that contradicts the scales array is refused

*Status:* partial.  *Code:* `utils/cwt_utils.py:process_scales`.  
*How:* Case analysis on infer_scaletype; agrees with the typed version used by ssq_cwt. Refuted for linear scales (any nv is accepted and returned) and for piecewise ones (nv is not looked at, whatever it is).  
*Outcome:* proved for logarithmic arrays; refuted for linear and piecewise ones  
*Theorems* (`PropertiesProcScales`; proofs in `ProcScalesThms`): `C122_same_partial` (cfns), `C122_log_partial` (cfns), `C122_linear_partial` (cfns), `C122_linear_refuted` (cfns), `C122_piecewise_refuted` (cfns).

### C123 A test signal's title names the parameters it was made with

*Status:* partial.  *Code:* `_test_signals.py:TestSignals._title`, `_test_signals.py:TestSignals._process_varname_alias`.  
*How:* The parameters of the title against _generate: equal when given, and for the default fmax when N is even; for odd N the title says N/2 while the signal used N//2 (witness: 3 samples, differing in the last).  
*Outcome:* proved for given parameters, N, and the default fmax with an even number of samples; refuted for odd  
*Theorems* (`PropertiesByName`; proofs in `TitleThms`): `C123_given_partial` (fs), `C123_N_partial` (fs), `C123_fmax_partial` (fns), `C123_fmax_refuted` (fns).

### C124 A Wavelet object is used as it is

*Status:* partial.  *Code:* `wavelets.py:isinstance_by_name`, `wavelets.py:Wavelet._init_if_not_isinstance`.  
*How:* isinstance_by_name compares module and class name only; refuted for derived classes, whose instances raise TypeError.  
*Outcome:* proved for Wavelet itself and unrelated classes; refuted for derived classes  
*Theorems* (`PropertiesByName`; proofs in `ByNameThms`): `C124_own_partial` (-), `C124_other_partial` (-), `C124_derived_refuted` (-).

### C125 Ridges ignore gains and units

*Status:* partial.  *Code:* `ridge_extraction.py:extract_ridges`.  
*How:* Column gains cancel in energy / max, so the whole loop (tracking and zeroing) is the same function of the store; scales enter only through the jump matrix at indices below n_rows, an invariant of the backward pass for every schedule. For STFT a unit changes the jumps; the hop example shows another ridge (refuted).  
*Outcome:* gains, and units for transform=cwt: in full. transform=stft: the penalty is in squared frequency units, so the same frequencies in another unit may give another ridge (refuted); offset invariance and the exact change of penalty are proved.  
*Theorems* (`PropertiesRidgeInv`; proofs in `RidgeInv`): `C125_gain_partial` (cfns), `C125_cwt_unit_partial` (cfns), `C125_stft_offset_partial` (cfns), `C125_stft_unit_partial` (cfns), `C125_stft_unit_refuted` (cfns).

### C126 The ridge penalty trades energy for smoothness

*Status:* partial.  *Code:* `ridge_extraction.py:extract_ridges`.  
*How:* Exchange argument on the near-optimality of C30 for both penalties; single-column changes for penalty 0; a jump costs more than any constant row for large penalties.  
*Outcome:* As C30: needs at least as many times as rows and energy in every column; slack (T-1)*eps from the backward pass. With more rows than times refuted for every penalty (C126_more_rows_refuted): the last index is taken modulo the number of times.  
*Theorems* (`PropertiesRidgeInv`, `PropertiesRidgeMod`; proofs in `RidgePenalty`): `C126_smoother_partial` (cfns), `C126_none_partial` (cfns), `C126_large_partial` (cfns), `C126_more_rows_refuted` (cfns).

### C127 Wrap padding of a power of two of samples is the circular transform

*Status:* proved.  *Code:* `_cwt.py:cwt`, `utils/common.py:padsignal`.  
*How:* padsignal in wrap mode makes a repetition of the rotated signal; the odd DFT bins of a repetition vanish and the even ones are twice those of the signal (circ), the wavelet at bin 2k of 2N is the wavelet at bin k of N (psih_twice), the Nyquist halving included; the window [n1, n1+N) undoes the rotation.  
*Theorems* (`PropertiesCircular`; proofs in `CircThms`): `C127_wrap_circular` (cfns).

### C128 icwt(one_int=False) after cwt is a zero-phase filter with the squared wavelets as response

*Status:* partial.  *Code:* `_cwt.py:icwt`, `_cwt.py:_icwt_2int`.  
*How:* As C127 for every row of Wx, the sign (-1)^k and ifftshift cancelling; then the two passes of the same wavelet multiply to its square, the real part folds positive and negative bins (Re_fold), and the error bound is Parseval (filter_error).  
*Outcome:* proved for padtype=None/wrap in cwt and wrap in icwt with power-of-two lengths; with the default padtype=reflect of icwt the claim is false (refuted: a tone returned at half its size).  
*Theorems* (`PropertiesCircular`; proofs in `Icwt2`): `C128_filter_partial` (cfns), `C128_error_partial` (cfns), `C128_rows_partial` (fns), `C128_reflect_refuted` (cfns).

### C129 stft is linear and ssq_stft scales with the signal

*Status:* proved.  *Code:* `_stft.py:stft`, `_ssq_stft.py:ssq_stft`.  
*How:* StftMap.v writes each cell as a sum over padded samples (stft_cells); padsignal is linear (padded_lin). StftMap2.v (ssq_stft_follow) transports a run of ssq_stft along cellwise maps of Sx and dSx that commute with the phase transform and the threshold.  
*Theorems* (`PropertiesStftSymm`; proofs in `StftMap`, `StftMap3`): `C129_linear` (fns), `C129_scale` (cfns).

### C130 A column of stft and ssq_stft depends only on the samples under its window

*Status:* proved.  *Code:* `_stft.py:stft`, `_ssq_stft.py:ssq_stft`.  
*How:* Interior frames never touch padding, so equal samples give equal cells (stft_local); ssq_stft_follow with the identity maps then gives equal columns of Tx.  
*Theorems* (`PropertiesStftSymm`; proofs in `StftMap`, `StftMap3`, `StftMapWit`): `C130_stft` (fns), `C130_ssq` (cfns), `C130_shift` (cfns).

### C131 The sampling rate only relabels ssq_stft's frequencies

*Status:* proved.  *Code:* `_ssq_stft.py:ssq_stft`, `_ssq_stft.py:_make_Sfs`, `algos.py:phase_stft_cpu`.  
*How:* stft_rate: only the derivative window carries fs. The phase transform, the bin grid and the constant all scale by c, so every cell is reassigned to the same row (ssq_stft_follow with factor c).  
*Theorems* (`PropertiesStftSymm`; proofs in `StftMap`, `StftMap3`): `C131_stft` (fns), `C131_ssq` (cfns).

### C132 Energy of stft

*Status:* proved.  *Code:* `_stft.py:stft`.  
*How:* Each cell is a unit factor times a DFT of the windowed frame (cell_dft); Parseval and the folding of mirrored bins (fold_half) give the column energy, exchanging sums gives the total.  
*Theorems* (`PropertiesStftSymm`; proofs in `StftEnergy`): `C132_energy` (fns), `C132_zero_padded` (fns), `C132_frame` (fns).

### C133 Time reversal conjugates stft and ssq_stft

*Status:* proved.  *Code:* `_stft.py:stft`, `_ssq_stft.py:ssq_stft`, `_stft.py:get_window`.  
*How:* A window even about n/2 has a real DFT, so its derivative window is odd (diff_odd); reversing the summation conjugates each cell (stft_mirror); the phase transform is unchanged by (conj, -conj).  
*Theorems* (`PropertiesStftSymm`; proofs in `StftMapWit`, `StftMirror`): `C133_stft` (fns), `C133_ssq` (cfns), `C133_reverse` (cfns).

### C134 modulated=False finds the same frequencies as modulated=True

*Status:* partial.  *Code:* `_stft.py:stft`, `algos.py:phase_stft_cpu`.  
*How:* unmodulated_phase: each unmodulated cell is a unit factor times the modulated one at fs=1, so the ratio of dSx and Sx is the one for fs=1 whatever fs is. Equal at fs=1 (partial); refuted at fs=4 on a tone under the Hann window.  
*Outcome:* proved at fs=1; refuted at other rates: with modulated=False the derivative window is not multiplied by fs.  
*Theorems* (`PropertiesStftSymm`; proofs in `StftMapWit`): `C134_unit_rate_partial` (fns), `C134_ratio_partial` (fns), `C134_refuted` (fns).

### C135 Tick labels of imshow/plot tell the values at their rows

*Status:* partial.  *Code:* `visuals.py:_ticks`, `visuals.py:_fmt`, `visuals.py:imshow`.  
*How:* Visuals.ticks models the truncated linspace of rows and the %d/%.2f labels; index arithmetic and the rounding lemmas of Round.v. Distinguishing labels refuted by eight increasing frequencies below 0.005.  
*Outcome:* positions and accuracy proved; labels need not tell values apart (refuted).  
*Theorems* (`PropertiesVisuals`; proofs in `VisualsThms`): `C135_ticks_partial` (fs), `C135_refuted` (fs).

### C136 Frequency axes of the wavelet plots are right

*Status:* partial.  *Code:* `visuals.py:wavelet_filterbank`, `visuals.py:wavelet_heatmap`, `visuals.py:viz_gmw_orders`, `visuals.py:wavelet_tf`.  
*How:* linspace(0, pi, N//2) against _xifn: the ratio is N/(N-2) (partial: at most one bin off; refuted as exact for N=8); viz_gmw_orders evaluates on the 1024-point grid whatever N is (right for 1024, refuted for 512); wavelet_tf is exact for even N and half a bin off for odd N.  
*Outcome:* exact only for wavelet_tf with even N and viz_gmw_orders with N=1024; elsewhere refuted, with the exact error proved.  
*Theorems* (`PropertiesVisuals`; proofs in `VisualsThms`): `C136_filterbank_partial` (fns), `C136_filterbank_refuted` (fns), `C136_gmw_partial` (fns), `C136_gmw_refuted` (fns), `C136_tf_partial` (fns), `C136_tf_odd_partial` (fns), `C136_tf_refuted` (fns).

### C137 plots draws every pair and every line asked for

*Status:* partial.  *Code:* `visuals.py:plots`, `visuals.py:plot`, `visuals.py:_vhlines`.  
*How:* plots_all: the zip of the axes with the pairs, when the grid holds more than one axis and all pairs. Refuted by five pairs on an n/2-row grid, by Y=None, by a single pair, by vlines=0 and by an array of lines.  
*Outcome:* proved when the grid has at least two axes and room for all pairs; refuted otherwise, and for vlines=0 and arrays.  
*Theorems* (`PropertiesTighten9`, `PropertiesVisuals`; proofs in `Tighten9`, `VisualsThms`): `C137_given_partial` (-), `C137_exactly_partial` (-), `C137_plots_partial` (-), `C137_default_partial` (-), `C137_dropped_refuted` (-), `C137_without_y_refuted` (-), `C137_single_refuted` (-), `C137_lines_partial` (fs), `C137_zero_refuted` (fs), `C137_array_refuted` (fs).

### C138 wavelet_tf_anim never overwrites a file

*Status:* partial.  *Code:* `visuals.py:wavelet_tf_anim`.  
*How:* never_overwrites: a numbered sibling counts in the maximum, since removing a stem with a non-digit from stem+digits leaves the digits. Refuted for a stem of digits; a sibling such as wavanim_old makes int() raise.  
*Outcome:* proved for stems with a non-digit; refuted for stems of digits, and a file extending the stem raises ValueError.  
*Theorems* (`PropertiesVisuals`; proofs in `VisualsAnim`): `C138_partial` (-), `C138_shape_partial` (-), `C138_digits_refuted` (-), `C138_neighbour_refuted` (-).

### C139 imshow's colour limits hold all the data

*Status:* proved.  *Code:* `visuals.py:imshow`.  
*How:* lmax bounds every modulus; real and imaginary parts are bounded by the modulus.  
*Theorems* (`PropertiesVisuals`; proofs in `VisualsThms`): `C139_limits` (fns).

### C140 The animation runs through its scales in order

*Status:* proved.  *Code:* `visuals.py:wavelet_tf_anim`.  
*How:* The three pieces are nondecreasing and lie in consecutive intervals (nondec_app).  
*Theorems* (`PropertiesVisuals`; proofs in `VisualsAnim`): `C140_order` (fs), `C140_keeps` (fs).

### C141 wavelet_tf finds a scale that shows well

*Status:* partial.  *Code:* `visuals.py:wavelet_tf`.  
*How:* Induction on the remaining iterations; the window is wider than a step of 1.1, so the search cannot jump over it. Refuted when a step lands on the upper end exactly: it then goes back and forth.  
*Outcome:* soundness, and success unless a step hits the upper end exactly; refuted then.  
*Theorems* (`PropertiesVisuals`; proofs in `VisualsAnim`): `C141_sound_partial` (fs), `C141_found_partial` (fs), `C141_refuted` (fs).

### C142 plot shows its whole curve

*Status:* partial.  *Code:* `visuals.py:_scale_plot`, `visuals.py:plot`.  
*How:* The default margins of 5% and the shrink by 1.8% of the span as functions of the limits in force; two plots keep the data inside, the third does not.  
*Outcome:* proved for up to two plots on the same axes; the third cuts the data off (refuted); ax_equal with xlims raises (refuted).  
*Theorems* (`PropertiesVisuals`; proofs in `VisualsThms`): `C142_two_partial` (fs), `C142_equal_partial` (fs), `C142_third_refuted` (fs), `C142_third_partial` (fs), `C142_equal_refuted` (fs).

### C143 istft is the least-squares inverse

*Status:* partial.  *Code:* `_stft.py:istft`, `_stft.py:stft`, `utils/stft_utils.py:unbuffer`, `utils/stft_utils.py:window_norm`.  
*How:* istft_any: overlap-add and window norm give the docstring's quotient sample by sample; the squared misfit at a sample is a quadratic in its value with that quotient as its minimum (best_value); sums over (column, row) are regrouped by sample (by_samples); irfft is shown to be Parseval-isometric on Hermitian columns (rfft_irfft, irfft_energy) and the imaginary parts at bins 0 and n/2 that irfft drops contribute the same for every signal (edge), which turns slices into |stft - Tx|^2. For reflect padding the margins depend on the signal and three samples with slices of three refute it.  
*Outcome:* proved for zero padding, and for any padding with the margins held fixed; with reflect (the default) another signal's stft can be nearer (refuted).  
*Theorems* (`PropertiesStftInv`; proofs in `StftInverse`, `StftLsq`): `C143_formula_partial` (fns), `C143_nearest_partial` (fns), `C143_only_nearest_partial` (fns), `C143_slices_partial` (fns), `C143_reflect_refuted` (fns).

### C144 istft is linear

*Status:* proved.  *Code:* `_stft.py:istft`.  
*How:* From istft_any: irfft is real-linear, so is the sum over columns; the divisor depends on the window only.  
*Theorems* (`PropertiesStftInv`; proofs in `StftLsqCase`): `C144_linear` (fns).

### C145 istft does not amplify errors

*Status:* proved.  *Code:* `_stft.py:istft`.  
*How:* Linearity, Cauchy-Schwarz at every sample (cauchy_over, from best_value at 0) and the Parseval identity of C143.  
*Theorems* (`PropertiesStftInv`; proofs in `StftLsqCase`): `C145_stable` (fns).

### C146 ssq_stft takes a chord apart and issq_stft returns each tone

*Status:* partial.  *Code:* `_ssq_stft.py:ssq_stft`, `_ssq_stft.py:issq_stft`, `_ssq_stft.py:phase_stft`, `ssqueezing.py:ssqueeze`, `_ssq_cwt.py:_invert_components`.  
*How:* chord_stft: a cell of the stft of a chord is the sum of its tones' cells, and so is the derivative's; with lobes that share no bin every cell belongs to at most one tone (owner), its phase transform is that tone's bin frequency, and located turns the reassignment into a sum over the cells a tone owns, which the window's partition (wspec_sum) evaluates. The inversion follows from component_is_band and residual_is_rest (C33). With the Hann window and tones two bins apart the shared bin is reassigned to a row of its own and the tone's row holds 3/4 of it: refuted.  
*Outcome:* proved for window lobes that share no bin (Hann: three bins apart); two bins apart a quarter of each tone goes to the row between (refuted).  
*Theorems* (`PropertiesStftChord`; proofs in `StftChordThms`): `C146_rows_partial` (cfns), `C146_each_partial` (cfns), `C146_all_partial` (cfns), `C146_hann_partial` (fns), `C146_shared_refuted` (cfns).

### C147 ssq_stft, extract_ridges and issq_stft together take a chord apart

*Status:* proved.  *Code:* `_ssq_stft.py:ssq_stft`, `_ssq_stft.py:issq_stft`, `ridge_extraction.py:extract_ridges`.  
*How:* wrap_chord: wrap padding of whole periods continues every tone, so every column is clean; C146 gives every energy of Tx; bands_found (C119) with half-width 0 gives the ridges, whatever the penalty, as a ridge that stays in its row pays none; C146 inverts along them.  
*Theorems* (`PropertiesStftRidge`; proofs in place): `C147_ridges` (cfns), `C147_recovered` (cfns).

### C148 cwt's dWx is the time derivative of Wx

*Status:* proved.  *Code:* `_cwt.py:cwt`, `utils/cwt_utils.py:_process_fs_and_t`, `_ssq_cwt.py:phase_cwt`, `utils/common.py:trigdiff`.  
*How:* The DFT of a returned row is the wavelet array times the signal spectrum (dft_idft), so multiplying it by i*xi*fs and inverting gives the dWx row; bin_cis: harmonic k at j/fs is the DFT kernel whatever the sign of the bin frequency; the coefficients of an interpolating polynomial are unique (through_coeffs); derivative of each harmonic by the chain rule.  
*Theorems* (`PropertiesCwtDeriv`; proofs in `CwtDeriv`): `C148_derivative` (cfns), `C148_trigdiff` (cfns), `C148_cut` (cfns).

### C149 Rows of cwt are analytic signals

*Status:* proved.  *Code:* `_cwt.py:cwt`, `wavelets.py:_halve_nyquist`, `wavelets.py:_xifn`.  
*How:* psih_val is zero in bins 0 and above n/2 and real in bin n/2; parts of a row have spectra (Z_k +- conj Z_(n-k))/2; sum of squares of a row = (1/n) sum Z_k Z_(n-k), where only the Nyquist product survives.  
*Outcome:* The wavelet is an arbitrary real one-sided function; gmw_spectrum shows the default gmw is one. Runs that reuse a cached wavelet array are excluded here.  
*Theorems* (`PropertiesCwtDeriv`; proofs in `CwtAnalytic`): `C149_spectrum` (cfns), `C149_hilbert` (cfns), `C149_sums` (cfns), `C149_energy` (cfns).

### C150 Transforms of one band-limited periodic signal at two sampling rates agree

*Status:* proved.  *Code:* `_cwt.py:cwt`, `_ssq_cwt.py:ssq_cwt`, `ssqueezing.py:ssqueeze`, `utils/cwt_utils.py:_process_fs_and_t`.  
*How:* Row values of a sum of tones (row_chord, drow_chord) written through scale/n and column/n, quantities that do not depend on the rate; the mean drops out since the wavelet is zero at frequency 0; Tx by the bin formula (tx_formula), whose threshold and bins depend only on Wx, dWx, gamma and ssq_freqs.  
*Outcome:* norm, padding and cache: padtype=None (periodic extension of the sampled period) and runs that compute their wavelet array. ssq_cwt part: order 0, squeezing "sum", difftype "trig", log scales with the same nv at both rates.  
*Theorems* (`PropertiesResample`; proofs in `CwtResample`, `SsqResample`): `C150_cwt` (cfns), `C150_ssq_cwt` (cfns).

### C151 The synchrosqueezed round trip is stable under perturbation of the signal

*Status:* proved.  *Code:* `_ssq_cwt.py:ssq_cwt`, `_ssq_cwt.py:issq_cwt`, `ssqueezing.py:ssqueeze`, `algos.py:ssqueeze_fast`.  
*How:* Column sums of Tx are sums of the coefficients that pass gamma (squeeze_col_kept: bins are in range, so every one lands in some row); |kept a - kept b| <= |a - b| + gamma by cases; real parts and sums of absolute values; coefficients by cwt_stable (C117). Witness: constant signals either side of gamma, for which no Lipschitz constant works (C151_jumps).  
*Outcome:* Order 0; "numeric" excluded. As in C34, the frequencies found must be within reach of int64 bin indices (caught), and ssq_freqs no longer than scales when log.  
*Theorems* (`PropertiesSsqStable`; proofs in `IcwtLinThms`, `SsqStable`, `SsqStableWitness`): `C151_moves` (cfns), `C151_stable` (cfns), `C151_jumps` (cfns).

### C152 The ssq_stft round trip is stable under perturbation of the signal

*Status:* proved.  *Code:* `_ssq_stft.py:ssq_stft`, `_ssq_stft.py:issq_stft`, `_stft.py:stft`, `algos.py:ssqueeze_fast`.  
*How:* Column sums of Tx are sums of the STFT coefficients that pass gamma (issq_kept); |kept a - kept b| <= |a - b| + gamma; coefficients differ by at most e times the sum of |window| since stft is linear (C129) and padding only repeats samples or zeros (padsignal_all). Witness: a single sample either side of gamma.  
*Outcome:* As in C14, frequencies found must be within reach of int64 bin indices; with get_w gamma > 0.  
*Theorems* (`PropertiesStftStable`; proofs in `StftStable2`, `StftStableWitness`): `C152_stable` (cfns), `C152_jumps` (cfns).

### C153 cwt is convolution with the wavelet psifn returns; an impulse shows it

*Status:* partial.  *Code:* `_cwt.py:cwt`, `wavelets.py:Wavelet.psifn`, `_ssq_cwt.py:phase_cwt`.  
*How:* Convolution theorem on the padded signal (row_conv); psifn is the same inverse DFT rolled by half its length (nth_psifn); conjugate symmetry of inverse DFTs of real spectra, triangle inequality for the peak; the derivative row for the frequency. Witness: the default GMW; the refutation computes both sides for length 3.  
*Outcome:* Convolution with psifn needs a padded signal or an even length: psifn for odd N is rolled a sample off (C70), refuted in C153_odd_length_refuted. C153_impulse and C153_frequency hold for every length (they compare with the inverse DFT itself).  
*Theorems* (`PropertiesCwtConv`; proofs in `CwtConv`, `CwtImpulse`): `C153_convolves_partial` (cfns), `C153_impulse` (cfns), `C153_frequency` (cfns), `C153_odd_length_refuted` (cfns).

### C154 hop_len only thins out the columns of stft and ssq_stft

*Status:* partial.  *Code:* `_stft.py:stft`, `_ssq_stft.py:ssq_stft`, `utils/stft_utils.py:buffer`.  
*How:* Both transforms cut the same padded signal at (q*j)*h, cell by cell (stft_cells); squeezing acts on a column at a time with the same grid (ssq_stft_follow).  
*Outcome:* n_fft must be given: its default is len(x)//hop_len, so a larger hop changes the rows as well (C154_default_n_fft_refuted). ssq part not for a callable squeezing.  
*Theorems* (`PropertiesStftHop`; proofs in `StftHop`): `C154_stft_partial` (fns), `C154_ssq_partial` (cfns), `C154_default_n_fft_refuted` (fns).

### C155 A larger n_fft for the same window only adds rows

*Status:* partial.  *Code:* `_stft.py:stft`, `_stft.py:get_window`.  
*How:* The padded signals agree where the window is nonzero because half of the extra padding goes either side (padded_at, padded_window); twiddles of m*k in m*n are those of k in n (tw_refine).  
*Outcome:* For n_fft even or the multiple odd; not padtype symmetric. Otherwise the window is centred a sample away (C155_odd_n_fft_refuted).  
*Theorems* (`PropertiesStftHop`; proofs in `StftHop`): `C155_rows_partial` (fns), `C155_odd_n_fft_refuted` (fns).

### C156 icwt, issq_cwt and issq_stft are linear in the transform they invert

*Status:* proved.  *Code:* `_cwt.py:icwt`, `_cwt.py:_icwt_2int`, `_ssq_cwt.py:issq_cwt`, `_ssq_cwt.py:_invert_components`, `_ssq_stft.py:issq_stft`.  
*How:* Rows of pairs: padding, shifting, slicing and summing commute with the map (p, q) -> a p + b q (padsignal_map, ifftshift_map, pyslice_map); induction on the depth of the piecewise recursion (rec_mix). Bounds: the inverse of the difference, |Re z| <= |z|.  
*Outcome:* Exact arithmetic. The bound on icwt is for one_int=True and scales of one kind.  
*Theorems* (`PropertiesIcwtLin`; proofs in `IcwtLin`, `IcwtLinThms`): `C156_icwt` (cfns), `C156_icwt_errors` (cfns), `C156_round_trip` (cfns), `C156_issq_cwt` (fs), `C156_issq_stft` (fs), `C156_icwt_stable` (cfns), `C156_issq_stable` (fns).

### C157 ssqueeze reassigns linearly and never adds modulus to a column

*Status:* proved.  *Code:* `ssqueezing.py:ssqueeze`, `algos.py:indexed_sum_onfly`, `algos.py:ssqueeze_fast`.  
*How:* From one_cells, which gives each cell of Tx as the sum of the coefficients assigned to it; column bound by swapping the sums, as each coefficient goes to at most one row; own_bin shows each grid frequency is nearest to itself.  
*Outcome:* Exact arithmetic. C157_abs_bounds_sum needs nonnegative weights; C157_still evenly spaced or geometric frequencies.  
*Theorems* (`PropertiesSsqLinear`; proofs in `SsqLinear`): `C157_linear` (cfns), `C157_column` (cfns), `C157_silent` (cfns), `C157_abs_bounds_sum` (cfns), `C157_still` (cfns).

### C158 Wavelet parameters trade frequency resolution as documented

*Status:* proved.  *Code:* `_gmw.py:gmw_l1`, `_gmw.py:gmw_l2`, `_gmw.py:morsewave`, `wavelets.py:morlet`, `wavelets.py:bump`, `wavelets.py:cmhat`.  
*How:* Closed form of the profile relative to the centre frequency; ln x < x - 1; 1 + x < exp x for the comparison of two Morlets; bounds on e for the numbers.  
*Outcome:* Exact arithmetic, order 0. Frequency side only: no statement on time resolution.  
*Theorems* (`PropertiesWaveTrade`; proofs in `WaveTrade`): `C158_gmw_profile` (cfns), `C158_gmw_profile_l2` (cfns), `C158_gmw_narrower` (cfns), `C158_gmw_band` (cfns), `C158_gmw_sharp` (cfns), `C158_morlet_gaussian` (cfns), `C158_morlet_profile` (cfns), `C158_morlet_narrower` (cfns), `C158_morlet_recommended` (cfns), `C158_bump_width` (fns), `C158_cmhat_width` (cfns).

### C159 Alternating the signs of the samples turns stft and ssq_stft upside down

*Status:* proved.  *Code:* `_stft.py:stft`, `_ssq_stft.py:ssq_stft`, `_ssq_stft.py:phase_stft`, `algos.py:indexed_sum_onfly`, `utils/common.py:padsignal`.  
*How:* Multiplying by (-1)^u is the twiddle of half n, so the transform at n/2 - k is the conjugate of that at k; each padding index keeps its parity; the phase ratio changes sign under conjugation; off ties the nearest row of fs/2 - w is the mirrored nearest row, and the bins' sums are re-indexed.  
*Outcome:* Exact arithmetic, even n_fft. Tx for ssq_freqs=None, squeezing='sum' and columns whose kept frequencies are within [0, fs/2] and off half-way points (outside, abs and clipping fold differently on the two sides).  
*Theorems* (`PropertiesStftFlip`; proofs in `StftFlip`, `StftFlip2`): `C159_stft` (fns), `C159_phase` (fns), `C159_ssq_stft` (cfns).

### C160 Ridges do not depend on the direction of time or the order of rows

*Status:* proved.  *Code:* `ridge_extraction.py:extract_ridges`, `ridge_extraction.py:_accumulated_penalty_energy_fw`, `ridge_extraction.py:_accumulated_penalty_energy_bw`.  
*How:* From optimality within (n_times-1) eps (C30): a path cheaper by more than that is the only candidate; path costs are unchanged by reversal since the penalty is symmetric; induction over ridges, the energies after removal being reversed too.  
*Outcome:* Exact arithmetic. n_freqs <= n_times (C30 refutes optimality otherwise). Only the first ridge for reversed rows: the band removed, [r-bw, r+bw), is not symmetric.  
*Theorems* (`PropertiesRidgeTurn`; proofs in `RidgeTurn`): `C160_best` (cfns), `C160_backwards` (cfns), `C160_upside` (cfns), `C160_curve` (cfns).

### C161 Weighting the rows of stft and inverting is a time-invariant filter

*Status:* proved.  *Code:* `_stft.py:stft`, `_stft.py:istft`, `utils/stft_utils.py:buffer`.  
*How:* Each frame of the weighted transform is the circular convolution of the windowed frame with the inverse transform of the weights (convolution theorem with the Hermitian extension irfft applies); at hop 1 every interior sample is covered by all n window positions, so overlap-add sums over both indices and regrouping by their difference gives the kernel. The gain is the kernel summed against the tone; it factors into squared moduli of the shifted window spectrum, whose sum is fixed by Parseval.  
*Outcome:* Exact arithmetic, hop 1, interior samples; the gain for exponent 1 (the default).  
*Theorems* (`PropertiesStftFilter`; proofs in `StftFilter`, `StftFilter2`, `StftFilterWit`): `C161_filter` (fns), `C161_wave` (fns), `C161_scales` (fns), `C161_bound` (fns), `C161_flat` (fns).

### C162 Selecting or weighting rows of cwt before icwt is a zero-phase filter

*Status:* proved.  *Code:* `_cwt.py:cwt`, `_cwt.py:icwt`, `_cwt.py:_icwt_1int`.  
*How:* As C104 with each wavelet multiplied by its weight: the weighted sum of rows is one inverse DFT; real parts fold bins k and n-k together. The separation bound applies Parseval to each part.  
*Outcome:* Exact arithmetic; a wavelet not cached with other parameters (uncached) as in C104.  
*Theorems* (`PropertiesCwtFilter`; proofs in `CwtFilter`): `C162_filter` (cfns), `C162_mask` (cfns), `C162_between` (cfns), `C162_picks` (cfns).

### C163 gamma removes small coefficients from the synchrosqueezed transform, and nothing else

*Status:* proved.  *Code:* `ssqueezing.py:ssqueeze`, `algos.py:ssqueeze_fast`.  
*How:* From the cell formula of the fast kernels for any schedule (one_cells): each cell is a sum of contributions of the coefficients above gamma, and a contribution does not mention gamma.  
*Outcome:* squeezing='sum'; with the other squeezings the code compares the transformed array, not Wx, with gamma.  
*Theorems* (`PropertiesThreshold`; proofs in `Threshold`): `C163_gate` (cfns), `C163_step` (cfns).

### C164 Bounded noise does not move the ridges of stft

*Status:* proved.  *Code:* `_stft.py:stft`, `ridge_extraction.py:extract_ridges`.  
*How:* stft is linear and a signal below e has cells below e times the window's absolute sum, so each peak keeps (1-kappa) and every other row stays under ratio+kappa of it; then C119's theorem for components over a floor.  
*Outcome:* Real arithmetic; for stft itself. C165 is the counterpart for ssq_stft.  
*Theorems* (`PropertiesNoiseRidge`; proofs in `NoiseRidge`, `NoiseRidgeWit`): `C164_ridges` (cfns), `C164_hann` (cfns).

### C165 Bounded noise sends no tone of ssq_stft to another row

*Status:* proved.  *Code:* `_ssq_stft.py:ssq_stft`, `_ssq_stft.py:phase_stft`, `ssqueezing.py:ssqueeze`.  
*How:* stft and its derivative are linear, so noise moves them by at most e times the absolute sums of window and derivative window; a quotient estimate bounds the shift of the phase transform by half a bin for the lobe rows, and the bin search picks the nearest row. The remaining coefficients are noise alone and are summed by the triangle inequality.  
*Outcome:* Real arithmetic. The error allowed in a row is rate/n_fft*(n_fft/2+1)*e*sum|window|, the worst case in which all noise coefficients land in it.  
*Theorems* (`PropertiesNoiseSsq`; proofs in `NoiseSsq`, `NoiseSsqWit`): `C165_ssq` (cfns), `C165_hann` (cfns), `C165_phase` (fns).

### C166 preserve_transform changes the returned Wx (Sx) only

*Status:* proved.  *Code:* `_ssq_stft.py:ssq_stft`, `_ssq_cwt.py:ssq_cwt`, `ssqueezing.py:ssqueeze`.  
*How:* a memory of matrix and vector buffers; the two drivers rewritten on references, statement by statement, and shown to refine the value models of C23/C24/C61 for every preserve_transform.  
*Outcome:* ssq_cwt from the transform on, difftype trig and phase (numeric squeezes a slice of Wx, not modelled on memory). User functions touch only their argument. 1-D signals.  
*Theorems* (`PropertiesPreserve`, `PropertiesTighten6`; proofs in `PreserveThms2`, `Tighten6`): `C166_stft_same` (cfns), `C166_stft_values` (cfns), `C166_cwt_same` (cfns), `C166_cwt_values` (cfns), `C166_stft_asked` (cfns), `C166_cwt_asked` (cfns).

### C167 Arrays returned by ssq_cwt and ssq_stft are the caller's own

*Status:* partial.  *Code:* `_ssq_stft.py:ssq_stft`, `_ssq_cwt.py:ssq_cwt`, `ssqueezing.py:ssqueeze`, `utils/cwt_utils.py:process_scales`.  
*How:* from the same refinement: new buffers are numbered past the old ones; views of one buffer see the same writes.  
*Outcome:* Tx, Wx/Sx, dWx are new arrays and old ones are not written (proved). Refuted: by default ssq_stft's ssq_freqs and Sfs are one array; an ssq_freqs array passed in comes back as a view of itself (reversed for ssq_cwt), and a scales array comes back as itself.  
*Theorems* (`PropertiesPreserve`; proofs in `PreserveThms2`): `C167_stft_fresh_partial` (cfns), `C167_stft_shared_partial` (cfns), `C167_cwt_shared_partial` (cfns), `C167_Sfs_refuted` (cfns), `C167_caller_refuted` (cfns).

### C168 issq_stft takes a noisy chord apart with an error in proportion to the noise

*Status:* proved.  *Code:* `_ssq_stft.py:ssq_stft`, `_ssq_stft.py:issq_stft`, `ssqueezing.py:ssqueeze`.  
*How:* C165 sharpened: each stft row goes to one row of Tx at most, so any set of rows shares one bound of the noise; issq_stft sums such sets.  
*Outcome:* Hann window of length n_fft, even n_fft >= 4, hop 1, wrap padding, squeezing 'sum', gamma given; exact real arithmetic. The result is rate times the signal, as C146 records.  
*Theorems* (`PropertiesNoiseComp`; proofs in `NoiseCompWit`): `C168_rows` (cfns), `C168_components` (cfns), `C168_whole` (cfns).

### C169 An offset shows only in the lowest rows of stft and ssq_stft

*Status:* proved.  *Code:* `_stft.py:stft`, `_ssq_stft.py:ssq_stft`, `utils/common.py:padsignal`.  
*How:* stft_linear with the constant signal, whose padding is constant too for every padtype but zero, whose frames are c times the window; then one_cells for both signals, in which equal cells of Sx and dSx go to equal rows of Tx.  
*Outcome:* modulated=True; the ssq_stft part takes squeezing 'sum'. Exact real arithmetic.  
*Theorems* (`PropertiesOffset`; proofs in `Offset`, `OffsetSsq`, `OffsetWit`): `C169_rows` (fns), `C169_unchanged` (fns), `C169_hann` (fns), `C169_agree` (cfns), `C169_ssq` (cfns).

### C170 cwt and ssq_cwt do not see an offset

*Status:* proved.  *Code:* `_cwt.py:cwt`, `_cwt.py:cwt_higher_order`, `_ssq_cwt.py:ssq_cwt`, `utils/common.py:padsignal`.  
*How:* cwt_linear with the constant signal: its padding is constant, its transform is 0 off frequency 0, where the wavelet is 0; so Wx and dWx are equal as arrays and all later steps get equal inputs.  
*Outcome:* padtype 'zero' is left out (the padded constant has edges, so the claim does not hold there); a cached psih is left out. Exact real arithmetic. Wavelets that are not 0 at frequency 0 are left out.  
*Theorems* (`PropertiesOffsetCwt`; proofs in `OffsetCwt`, `OffsetCwtWit`): `C170_cwt` (cfns), `C170_ssq` (cfns), `C170_higher` (cfns), `C170_ssq_higher` (cfns), `C170_gmw` (cfns), `C170_gmw_orders` (cfns).

### C171 ssq_stft leaves a click as it is

*Status:* proved.  *Code:* `_stft.py:stft`, `_ssq_stft.py:ssq_stft`, `_ssq_stft.py:phase_stft`.  
*How:* the sum over the frame has one term, so Sx and dSx are real multiples of one twiddle factor and the phase transform is the row frequency itself; near_bins then sends each coefficient to its own row.  
*Outcome:* ssq_freqs=None, squeezing 'sum', even n_fft (the grid of make_Sfs is that of the bins). Exact real arithmetic.  
*Theorems* (`PropertiesClick`; proofs in `Click`): `C171_stft` (fns), `C171_ssq` (cfns), `C171_silence` (cfns).

### C172 Noise of bounded energy hardly moves a tone in ssq_cwt

*Status:* proved.  *Code:* `_cwt.py:cwt`, `_ssq_cwt.py:ssq_cwt`, `_ssq_cwt.py:phase_cwt`, `ssqueezing.py:ssqueeze`.  
*How:* linearity of cwt with the energy bound per row (Parseval) bounds each coefficient of the noise and its derivative; the bound of the phase transform under errors (phase_noise) and of rows nearest to near frequencies (rows_close) place the coefficients, and each coefficient goes to one row only.  
*Outcome:* padtype=None, l1_norm, default squeezing, 'trig' derivative, flipud; scales and ssq_freqs log-spaced with ratio 2^d, d <= 1. A row is clear when c > nu and c >= nu*(1 + 4n/(k*d)) for k periods in n samples. Row indices below 2^62. Exact real arithmetic.  
*Theorems* (`PropertiesCwtNoise`; proofs in `CwtNoise`, `CwtNoiseSsq`): `C172_size` (cfns), `C172_stable` (cfns), `C172_phase` (cfns), `C172_ssq` (cfns).

### C173 issq_cwt takes a tone out of noise

*Status:* proved.  *Code:* `_ssq_cwt.py:issq_cwt`, `_ssq_cwt.py:ssq_cwt`, `_ssq_cwt.py:_invert_components`.  
*How:* sums of the rows of Tx inside and outside the band by C172, real parts, and for the default wavelet the gain bound of the default wavelet (default_gain).  
*Outcome:* as C172; one band per call. Exact real arithmetic.  
*Theorems* (`PropertiesCwtNoise`; proofs in `CwtNoiseInv`, `CwtNoiseInv2`): `C173_issq` (cfns), `C173_default` (cfns).

### C174 issq_cwt takes the tones of a chord out of noise

*Status:* proved.  *Code:* `_ssq_cwt.py:ssq_cwt`, `_ssq_cwt.py:issq_cwt`, `_ssq_cwt.py:_invert_components`, `_cwt.py:cwt`.  
*How:* as C172 with the other tones counted as part of the disturbance of each row (their derivatives obey the same bound, since no tone is above fs/2); a row dominated by another tone leaves the band, so only c(i,r) is lost there.  
*Outcome:* padtype=None, l1_norm, default squeezing, 'trig' derivative, flipud; log scales and frequencies of ratio 2^d, d <= 1. Extends C108 (no noise, octave-spaced tones, default wavelet) to any wavelet and to noise. Exact real arithmetic.  
*Theorems* (`PropertiesChordNoise`; proofs in `ChordNoise`, `ChordNoiseInv`): `C174_ssq` (cfns), `C174_issq` (cfns).

### C175 sine, cosine, cos_f and sin_f return the tones asked for

*Status:* proved.  *Code:* `_test_signals.py:TestSignals.sine`, `_test_signals.py:TestSignals.cosine`, `_test_signals.py:TestSignals._process_params`, `toolkit.py:cos_f`, `toolkit.py:sin_f`.  
*How:* the time vector is computed once for both end point settings; whole numbers of turns drop out of sin and cos; induction over the segments of cos_f.  
*Outcome:* Real arithmetic; aliasing warnings are not modelled. C175_whole ties cosine to the tones of C28, C108, C172 and others.  
*Theorems* (`PropertiesTones`; proofs in `Tones`): `C175_samples` (fns), `C175_whole` (fns), `C175_closed` (fns), `C175_sine_cosine` (fns), `C175_segments` (fns), `C175_whole_segments` (fns).

### C176 Default frequencies of jumps and packed do not alias

*Status:* partial.  *Code:* `_test_signals.py:TestSignals.jumps`, `_test_signals.py:TestSignals.packed`.  
*How:* the step of the time vector is bounded by 1/M (1/(N-1) for packed) and compared with every frequency of the list; the counterexample is computed.  
*Outcome:* Holds for packed with any end point setting and for jumps with tmin = 0 and endpoint=False. Refuted for jumps with its default times for every N: the end point is included, the rate is then (4M-1)/4 < M, and M/2 exceeds half of it.  
*Theorems* (`PropertiesJumpsExact`, `PropertiesTones`; proofs in `JumpsExact`, `Tones`): `C176_jumps_every_refuted` (fns), `C176_jumps_partial` (fns), `C176_jumps_refuted` (fns), `C176_packed_partial` (fns).


## Findings about the code

Behaviour the proofs brought out that a caller may trip over.  Those with a theorem are marked by its property.

* Padding: 'symmetric' with an empty left pad or a pad longer than the signal returns an array of the wrong length (C02).
* STFT: with `modulated=False` the derivative is not scaled by fs (C08); n_fft of 1 or 2 inverts to an empty array (C10); an array window shorter than n_fft is accepted by `stft` and rejected by `istft` (C12).
* Squeezing: bins may overflow int64, the piecewise kernels' lower branch is unclamped, and the CUDA piecewise kernel wraps to int32 (C18); CPU and GPU round ties differently (C22); `flipud=False` returns frequencies reversed against the rows (C23); 'lebesgue' divides by the batch size (C26); a single-row `Wx` raises TypeError (C16).
* `ssqueeze` with two or fewer logarithmic `ssq_freqs` raises ValueError; logarithmic frequencies with the fast STFT path raise TypeError (C50 and comments in `Ssqueeze.v`).
* CWT: complex input is cast to its real part (C28); whether the imaginary part of a wavelet is dropped is decided for the whole array, so a row depends on the other rows (C36); a raising call with `patience` leaves a state in which every later call raises (C38); the NaN check writes to the caller's `x`.
* `icwt`: on log-piecewise scales the mean is added once per piece; `one_int=False` with `rpadded=True` raises UnboundLocalError (C35).
* `ssq_cwt`: 'numeric' differentiation and `order>0` change the number of columns, and N=11 with padding raises IndexError (C57); the 'phase' difftype gives cycles per sample, not Hz, and its last column holds the whole phase advance instead of a frequency (C102).
* Ridges: a ridge at row r < bw removes nothing, so the same ridge is returned again (C31); ties make the result depend on the schedule (C32).
* Configuration: `parallel=False` is ignored by several functions (C42); `rstrip('.py')` strips characters (C62).
* `Wavelet.Psih`'s cache ignores `nohalf`, compares scales by `allclose` and hands out the cached array itself (C39); time-frequency properties stay stale until reset (C56).
* The FFT-plan cache key omits the direction and reuses the output buffer; `patience` is not validated on a hit (C40).
* GMW functions overwrite negative frequencies in the caller's array (C63); float orders pass the check and raise TypeError (C66); the order-1 bandpass value at the centre frequency is not 2 (C67); `morsewave` with negative frequencies raises and beta=0 divides by zero (C68); `norm='energy'` rejects float32 only when given explicitly.
* Morlet is negative at negative frequencies, so not exactly analytic (C44).
* `aifftshift` leaves odd-length arrays unsorted (C43), which makes `freq_resolution` integrate over unsorted frequencies (C72) and `window_resolution` start at +pi for even lengths (C89, C90).
* `force_int or True` makes the argument inert, and `freq_resolution` calls `center_frequency` without N (C71, C72); `center_frequency(scale=None)` with a string wavelet raises AttributeError.
* `find_maximum` and `find_first_occurrence` never end when `int(steps*step_size) == 0` (C48).
* `nCk` outside its range returns 1 (C49); `scale_to_freq` of a single scale raises TypeError, and N=1 unpadded AssertionError (C52); `echirp` with tmax=0 divides by zero (C55).
* Scale bounds: the documented monotonicity in `cutoff` is reversed (C74); `max_cutoff` is unused (C76); 'maximal' can give max_scale=0 (C77); `bin_loc` past N/2 gives a negative scale (C75).
* `infer_scaletype`'s linear test is absolute (C79).
* `phase_ssqueeze`: several arguments have no effect or make it raise (C82).
* Test signals: see the outcomes of C83-C88.
* `Wavelet(dtype=np.float64)` raises, `dtype` is ignored for functions, and a rejected tuple may have been written to (C96, C97).
* `backend.array` ignores its `dtype` on the CPU.
* `integrate_analytic`: skipped strip, absolute thresholds, misleading warning (C94).
* `packed_poly`: the ripple of the second component is not scaled with N, so its bands cross for N=64 and go negative for N=32; the keywords of `packed_poly` and `poly_cubic` are accepted and ignored (C106).
* Argument checks: `maprange` as a list (declared acceptable by the check and its message) or None raises UnboundLocalError in `_ssq_freqrange`, a tuple not of length 2 fails to unpack; an `ssq_freqs` string is never checked: any unknown name gives linear frequencies, and one beginning with log gives linear frequencies searched logarithmically (C109). The message for a bad `transform` prints `squeezing`.
* `cwt` overwrites NaN and infinite samples in the caller's array; `nan_checks` is ignored with `order > 0` (C110).
* `_process_gmw_wavelet` writes 'norm' into the caller's dictionary: `w = ('gmw', {'beta': 20}); cwt(x, w); cwt(x, w, l1_norm=False)` transforms the second time with the L1 wavelet, silently; a tuple naming the other norm is accepted where the instance is refused; GMWs of order > 0 are named 'GMW L1 K' / 'GMW L2 K' and escape the check, so `cwt(x, 'gmw', order=1, l1_norm=False)` uses the L1 wavelet; any string starting with gmw passes for 'gmw' (C111).
* Default `gamma` is absolute (10 eps): a signal of amplitude below it has Tx = 0 though Wx is accurate; scale `gamma` with the signal (C113). Padding widths differ by one for odd lengths, so reversing an odd-length signal under a padding other than zeros is not a reversal of the transform (C114).
* With odd `n_fft`, `_make_Sfs` labels the rows of `stft` k fs/(n_fft-1) although their bins are k fs/n_fft; `phase_stft` is too high by k fs/(n_fft (n_fft-1)) in row k (C116).
* `issq_stft(ssq_stft(x, fs=fs))` returns fs times a bin-centred tone: `ssqueeze` multiplies by the frequency step of `ssq_freqs`, fs/n_fft, and `issq_stft` only makes up for n_fft (C115).
* process_scales ignores nv next to an array of scales at two rates (even a string), and accepts and returns any positive nv next to linear scales (C122).
* A chirp's title shows fmax=N/2 where the signal was made with N//2 (C123); par_lchirp etc. use N/2.
* An instance of a class derived from Wavelet is refused with TypeError, although the docstring of _init_if_not_isinstance says isinstance is checked first (C124).
* ssq_cwt with the default padtype='reflect' moves energy of a bin-centred tone to other rows even for an ideal analytic wavelet, because the reflected signal is not a tone: one period in four samples puts its third column one row too high (C99); icwt returns a nonzero number for a zero sample (C100).
* With 'log:maximal' and 3 to 5 samples max_scale is 0, which make_scales takes as missing: the scales run up to N (C78).
* extract_ridges with transform='stft' measures jumps in squared frequency units: the same transform with frequencies in another unit (fs given or not) gives another ridge for the same penalty (C125).
* icwt(one_int=False) pads Wx by reflection by default. A bin-centred tone's rows are complex exponentials, which reflection reverses in frequency; in the worked case half of the tone is lost, whereas padtype='wrap' returns it exactly (C128).
* `stft(modulated=False, derivative=True)` does not multiply the differentiated window by `fs` (the multiplication sits inside `if modulated`), so `ssq_stft(modulated=False, fs != 1)` subtracts a frequency in cycles per sample from one in Hz: a 1 Hz tone at fs=4 is given the frequency 11/8 Hz in the neighbouring row (C134).
* `_ticks` labels with two decimals, so an axis of small frequencies reads 0.00 throughout (C135).
* `wavelet_filterbank` and `wavelet_heatmap` draw the `N//2` samples on `linspace(0, pi, N//2)`, which stretches the frequency axis by N/(N-2); `viz_gmw_orders(N)` evaluates the wavelets at the frequencies of N=1024 whatever `N` is; `wavelet_tf` is half a bin off for odd `N` (C136).
* `plots` silently drops pairs when the grid derived from `ncols` has too few axes (`len(X)//ncols` rows), draws only the first item when `Y=None`, and raises AttributeError on a single item; `vlines=0` draws nothing and an array of lines raises ValueError (C137).
* `wavelet_tf_anim` overwrites an existing file when the stem consists of digits (`1.gif` beside `11.gif`), and raises ValueError when the directory holds e.g. `wavanim_old.gif` (C138); a single scale raises TypeError (`len` of a squeezed array).
* `wavelet_tf`'s scale search goes back and forth for ever (101 steps, then ValueError) if a step lands on the upper end exactly (C141).
* From the third `plot` on the same axes the horizontal limits cut the curves off; `ax_equal=True` with `xlims` raises UnboundLocalError (C142).
* `istft` is the least-squares inverse for zero padding only; with the default reflect padding the margins of `stft` repeat samples that `istft` recovers without them, and another signal's `stft` can be nearer to a modified array (C143).
* `ssq_stft` with a Hann window gives two equal tones two bins apart three quarters of their amplitude each in their own rows; the rest goes to the row between (C146).
* find_first_occurrence accepts a search as soon as any value is within the largest step of that search, wherever the step occurred: a wavelet with one steep step lets find_min_scale stop in the first search, far from the crossing (C74_false_stop_refuted).
* stft with the default n_fft = len(x)//hop_len: doubling hop_len halves the frequency resolution as well as the number of columns (C154_default_n_fft_refuted).
* stft of a window in an even n_fft that was in an odd n_fft: every column comes one sample late (C155_odd_n_fft_refuted), because window and signal padding round in different directions.
* ssq_stft without `ssq_freqs` returns one and the same array as `ssq_freqs` and `Sfs`, so converting one in place (say to Hz or rad) converts both (C167_Sfs_refuted); an `ssq_freqs` or `scales` array passed in comes back as a view of itself (C167_caller_refuted).
* C176: `jumps(N)` with default arguments aliases slightly: its third frequency, M/2 with M = N//4, is above half the sampling rate because the default time vector includes the end point (`C176_jumps_refuted`, N = 16).

## Which code is modelled

Every function of `/repo/ssqueezepy`, with the model files that cite its lines.  Nested helpers are listed with their parent.

* `__init__.py`
  * not modelled (plotting and printing): `wavs`
* `_cwt.py`
  * `Cwt`: `icwt`, `_icwt_2int`, `_icwt_1int`, `_icwt_norm`
  * `Cwt`, `CwtWavelet`: `_process_gmw_wavelet`
  * `Cwt`, `CwtWavelet`, `NanInput`: `cwt`
  * `Cwt`, `NanInput`, `WaveletInit`: `cwt_higher_order`
* `_gmw.py`
  * `Comb`: `_moments_to_cumulants`
  * `CwtWavelet`, `GmwOrders`: `gmw`
  * `GmwOrders`: `compute_gmw`, `gmw_l1_k`, `_gmw_l1_k`, `_gmw_l1_k_par`, `_gmw_l1_k_gpu`, `gmw_l2_k`, `_gmw_l2_k`, `_gmw_l2_k_par`, `_gmw_l2_k_gpu`, `_gmw_k_constants`, `morsewave`, `_morsewave1`, `_morsewave_first_family`, `morseafun`, `laguerre`, `morsefreq`, `_morsemom`
  * `GmwOrders`, `WaveletInit`, `Wavelets`: `_check_args`
  * `Wavelets`: `gmw_l1`, `_gmw_l1`, `_gmw_l1_par`, `_gmw_l1_gpu`, `gmw_l2`, `_gmw_l2`, `_gmw_l2_par`, `_gmw_l2_gpu`
* `_ssq_cwt.py`
  * `Config`, `SsqCwt`: `phase_cwt`
  * `Preserve`, `SsqCwt`: `ssq_cwt`
  * `SsqCwt`: `phase_cwt_num`
  * `Ssqueeze`: `issq_cwt`, `_invert_components`, `_process_component_inversion_args`
* `_ssq_stft.py`
  * `Config`: `phase_stft`
  * `Preserve`, `Ssqueeze`: `ssq_stft`
  * `Ssqueeze`: `issq_stft`, `_make_Sfs`
* `_stft.py`
  * `Stft`: `stft`, `istft`, `get_window`, `_check_NOLA`
* `_test_signals.py`
  * `ChirpProofs`: `TestSignals.echirp`
  * `Chirp`: `TestSignals._lchirp_fn`, `TestSignals._echirp_fn`, `TestSignals._echirp_pc_fn`, `TestSignals._hchirp_fn`
  * `MakeSignals`: `TestSignals.make_signals`, `TestSignals._process_input`
  * `MakeSignals`, `Signals`: `TestSignals.__init__`
  * `PolySignals`: `TestSignals.packed_poly`, `TestSignals.poly_cubic`
  * `Signals`: `TestSignals._maybe_warn_alias`, `TestSignals.sine`, `TestSignals.cosine`, `TestSignals._generate`, `TestSignals.lchirp`, `TestSignals.echirp_pc`, `TestSignals.hchirp`, `TestSignals.par_lchirp`, `TestSignals.par_echirp`, `TestSignals.par_hchirp`, `TestSignals.am_sine`, `TestSignals.am_cosine`, `TestSignals.am_exp`, `TestSignals.am_gauss`, `TestSignals.jumps`, `TestSignals.packed`, `TestSignals._process_params`, `TestSignals._est_N_nonalias`, `_t`
  * `Title`: `TestSignals._process_varname_alias`
  * not modelled (runs and plots transforms): `TestSignals.demo`, `TestSignals.test_transforms`, `TestSignals._title`, `TestSignals.wavcomp`, `TestSignals._wavcomp_fn`, `TestSignals.cwt_vs_stft`, `TestSignals._cwt_vs_stft_fn`, `TestSignals._title_cwt`, `TestSignals._title_stft`, `TestSignals.ridgecomp`, `TestSignals._ridgecomp_fn`
* `algos.py`
  * `Admiss`: `_min_neglect_idx`
  * `Comb`: `nCk`
  * `Config`: `replace_under_abs`, `zero_denormals`, `phase_cwt_cpu`, `phase_stft_cpu`
  * `Config`, `Squeeze`: `indexed_sum`, `_process_ssq_params`, `ssqueeze_fast`, `indexed_sum_onfly`, `find_closest`
  * `Pointwise`: `_process_replace_fn_args`, `replace_at_inf_or_nan`, `replace_at_inf`, `replace_at_nan`, `replace_at_value`, `_replace_at_inf_or_nan`, `_replace_at_inf`, `_replace_at_nan`, `_replace_at_value`, `_replace_under_abs`, `_replace_under_abs_par`, `_replace_under_abs_gpu`, `_zero_denormals`, `_zero_denormals_par`, `_phase_cwt`, `_phase_cwt_par`, `phase_cwt_gpu`, `_phase_stft`, `_phase_stft_par`, `phase_stft_gpu`
  * `ScaleBounds`, `Search`: `find_maximum`
  * `Search`: `find_first_occurrence`
  * `Squeeze`: `_indexed_sum`, `_indexed_sum_par`, `_indexed_sum_log`, `_indexed_sum_log_par`, `_indexed_sum_log_piecewise`, `_indexed_sum_log_piecewise_par`, `_indexed_sum_lin`, `_indexed_sum_lin_par`, `find_closest_brute`, `find_closest_smart`, `_ensure_nonzero_nonnegative`, `_get_params_find_closest_log`, `find_closest_log`, `_find_closest_log`, `_find_closest_log_par`, `_find_closest_log_piecewise`, `_find_closest_log_piecewise_par`, `find_closest_lin`, `_find_closest_lin`, `_find_closest_lin_par`, `_ssq_cwt_log_piecewise`, `_ssq_cwt_log_piecewise_par`, `_ssq_cwt_log`, `_ssq_cwt_log_par`, `_ssq_cwt_lin`, `_ssq_cwt_lin_par`, `_ssq_stft`, `_ssq_stft_par`
* `configs.py`
  * `Config`: `gdefaults`, `_get_gdefaults`, `IS_PARALLEL`
  * not modelled (a flag; models take it as an argument): `USE_GPU`
* `experimental.py`
  * `Experimental`: `freq_to_scale`, `phase_ssqueeze`, `phase_transform`
  * `FreqScale`: `scale_to_freq`
* `ridge_extraction.py`
  * `Ridge`: `extract_ridges`, `__accumulated_penalty_energy_fw`, `__accumulated_penalty_energy_fwp`, `_accumulated_penalty_energy_bw`, `__accumulated_penalty_energy_bw`, `__accumulated_penalty_energy_bwp`
  * `Ridge`, `RidgeMod`: `_accumulated_penalty_energy_fw`
* `ssqueezing.py`
  * `Preserve`, `Ssqueeze`, `Validate`: `ssqueeze`
  * `SsqCwt`, `Validate`: `_check_ssqueezing_args`
  * `Ssqueeze`: `_exp_fm`, `_get_center_frequency`
  * `Ssqueeze`, `Validate`: `_ssq_freqrange`, `_compute_associated_frequencies`
* `toolkit.py`
  * `Signals`: `_t`, `cos_f`, `sin_f`
  * `Toolkit`: `lin_band`, `mad_rms`, `where_amax`
* `utils/backend.py`
  * `Cwt`: `allclose`
  * `Wavelets`: `atleast_1d`
  * not modelled (thin wrapper over numpy/torch): `astype`, `array`, `asarray`, `zeros`, `ones`, `is_tensor`, `is_array_or_tensor`, `is_dtype`, `asnumpy`, `arange`, `vstack`, `warn_if_tensor_and_par`, `_torch_dtype`, `TorchDummy.__init__`, `CupyDummy.memoize`, `_Q.__getattr__`
* `utils/common.py`
  * `Cwt`: `trigdiff`
  * `Padding`: `p2up`, `padsignal`
  * `Toolkit`: `est_riskshrink_thresh`, `mad`
  * `Validate`, `WaveletInit`: `assert_is_one_of`
  * not modelled (times two kernels): `find_closest_parallel_is_faster`
  * not modelled (plotting and printing): `_textwrap`
* `utils/cwt_utils.py`
  * `Admiss`: `adm_ssq`, `adm_cwt`, `integrate_analytic`
  * `Cwt`, `ProcScales`, `ScaleBounds`, `Scales`: `process_scales`
  * `ProcScales`: `_assert_positive_integer`
  * `ScaleBounds`: `cwt_scalebounds`, `find_min_scale`, `find_max_scale`, `find_max_scale_alt`
  * `ScaleBounds`, `Scales`: `make_scales`
  * `Scales`: `infer_scaletype`, `nv_from_scales`, `find_downsampling_scale`, `_process_fs_and_t`
  * `Squeeze`: `logscale_transition_idx`
* `utils/fft_utils.py`
  * `Buffer`, `Icwt2`: `FFT.ifftshift`
  * `Cwt`: `FFT.__init__`, `FFT.threads`, `FFT.patience`, `FFT.patience`, `FFT._validate_patience`, `FFT._process_patience`
  * `Cwt`, `FftCache`: `FFT.fft`, `FFT.rfft`, `FFT.ifft`, `FFT.irfft`
  * `FftCache`: `FFT.fftshift`, `FFT._maybe_gpu`, `FFT._get_save_fill`, `FFT.get_fft_object`, `FFT._get_fft_object`, `FFT._process_input`, `FFT._get_output_shape`, `FFT._validate_input`
  * not modelled (file input/output of pyfftw): `FFT.load_wisdom`, `FFT.save_wisdom`
* `utils/gpu_utils.py`
  * `Pointwise`: `_get_kernel_params`
  * not modelled (starts a kernel through cupy): `_run_on_gpu`, `load_kernel`
* `utils/stft_utils.py`
  * `Buffer`: `_buffer`, `_buffer_par`
  * `Buffer`, `Config`: `buffer`
  * `Buffer`, `Pointwise`: `_buffer_gpu`
  * `Stft`: `unbuffer`, `window_norm`, `_overlap_add`, `_window_norm`
  * `WindowRes`: `window_resolution`, `window_area`
* `visuals.py`
  * `Visuals`: `wavelet_tf`, `wavelet_tf_anim`, `wavelet_heatmap`, `wavelet_filterbank`, `viz_gmw_orders`, `imshow`, `plot`, `plots`, `_vhlines`, `_ticks`, `_scale_plot`
  * not modelled (computes with functions modelled elsewhere and draws): `sweep_std_t`, `sweep_std_w`, `sweep_harea`, `wavelet_waveforms`, `_viz_cwt_scalebounds`, `viz_cwt_higher_order`
  * not modelled (plotting and printing): `scat`, `plotscat`, `hist`, `_fmt`, `_maybe_title`, `_annotate`
* `wavelets.py`
  * `ByName`: `Wavelet._init_if_not_isinstance`, `isinstance_by_name`
  * `Config`: `Wavelet.name`
  * `CwtWavelet`: `_fn_to_name`
  * `Cwt`: `Wavelet._halve_nyquist`
  * `Cwt`, `Resol`: `Wavelet.__call__`
  * `Cwt`, `Wavelets`: `Wavelet.Psih`
  * `Freqs`: `_xifn`, `afftshift`, `_afftshift_even`, `aifftshift`, `_aifftshift_even`
  * `GmwOrders`, `WaveletInit`: `Wavelet.dtype`
  * `MorletPeak`, `WaveletInit`, `Wavelets`: `morlet`
  * `Resol`: `Wavelet.psifn`
  * `Resol`, `Wavelets`: `center_frequency`, `freq_resolution`, `time_resolution`
  * `WaveletInit`: `Wavelet.__init__`, `Wavelet._process_dtype`, `Wavelet._validate_and_set_wavelet`, `_process_params_dtype`
  * `WaveletInit`, `Wavelets`: `bump`, `cmhat`, `hhhat`
  * `Wavelets`: `Wavelet.xifn`, `Wavelet.N`, `Wavelet.N`, `Wavelet.xi`, `Wavelet.wc`, `Wavelet.wc_ct`, `Wavelet.scalec_ct`, `Wavelet.std_t`, `Wavelet.std_w`, `Wavelet.std_f`, `Wavelet.harea`, `Wavelet.std_t_d`, `Wavelet.std_w_d`, `Wavelet.std_f_d`, `Wavelet.reset_properties`, `_morlet`, `_morlet_par`, `_morlet_gpu`, `_bump`, `_bump_par`, `_bump_gpu`, `_cmhat`, `_cmhat_par`, `_cmhat_gpu`, `_hhhat`, `_hhhat_par`, `_hhhat_gpu`
  * not modelled (plotting and printing): `Wavelet.config_str`, `Wavelet.info`, `Wavelet.viz`, `Wavelet._viz`, `Wavelet._desc`

## Trusted base

* Coq 8.16.1's kernel (checked with `coqc`; no kernel check is switched off).
* The axioms `Print Assumptions` lists, all from Coq's standard library:

  * `ClassicalDedekindReals.sig_forall_dec` (s)
  * `ClassicalDedekindReals.sig_not_dec` (n)
  * `Classical_Prop.classic` (c)
  * `FunctionalExtensionality.functional_extensionality_dep` (f)

  69 of 777 property theorems are closed under the global context (no axioms).  The axioms enter through
  the standard library's real numbers (`Reals`), and through `classic` where its analysis files use it.
  The development adds no axiom, parameter, functor or module type.
* The reading of `/repo` recorded in the comments of the model files, with the simplifications stated
  there and summarised in the first section.

