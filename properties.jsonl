{"id": "C01", "title": "Default padded length is a power of two that always has room", "statement": "p2up(n) returns (n_up, n1, n2) where n_up is a power of two with sqrt(2)*n <= n_up <= 2*sqrt(2)*n, n1 + n + n2 == n_up, both pads are nonnegative and n1 is n2 or n2+1. A float error below 1/2 in log2 never makes a pad negative.", "quantifier": "every signal length n >= 1, and every rounding error of log2 smaller than 1/2", "why_tests_cant": "the length range is unbounded and the rounding boundary 2^(k+1/2) is irrational, so no finite set of lengths shows the bound", "anchors": ["ssqueezepy/utils/common.py:p2up"]}
{"id": "C02", "title": "padsignal returns exactly padlength samples and keeps the signal at n1", "statement": "padsignal(x, padtype, padlength, get_params=True) returns xp, n_up, n1, n2 with len(xp) == n_up == padlength (p2up(len(x)) when padlength is None) and xp[n1:n1+len(x)] == x.", "quantifier": "every nonempty signal, every padtype (zero, reflect, symmetric, replicate, wrap), every padlength >= len(x)", "why_tests_cant": "depends on parity of padlength-N and on how far the pad exceeds the signal; tests sample two or three lengths", "anchors": ["ssqueezepy/utils/common.py:padsignal"]}
{"id": "C03", "title": "Padded samples follow the documented extension rule", "statement": "For each padtype every sample outside the original range is the documented one: 0 (zero), mirrored without repeating the edge (reflect), mirrored repeating the edge (symmetric), the edge value (replicate), the periodic continuation (wrap).", "quantifier": "every signal of every length and every pad size, including pads longer than the signal for the numpy modes", "why_tests_cant": "long pads reflect several times and the formula must hold for each number of reflections", "anchors": ["ssqueezepy/utils/common.py:padsignal"]}
{"id": "C04", "title": "buffer columns are exactly the hop-spaced slices of the signal", "statement": "buffer(x, seg_len, n_overlap, modulated=False)[:, h] == x[h*hop : h*hop+seg_len] with hop = seg_len-n_overlap, there are (len(x)-seg_len)//hop + 1 columns, no column reads past the end of x and one more column would.", "quantifier": "every signal, seg_len >= 1, 0 <= n_overlap < seg_len <= len(x), every column and row", "why_tests_cant": "parity and remainder cases over three unbounded integers", "anchors": ["ssqueezepy/utils/stft_utils.py:buffer", "ssqueezepy/utils/stft_utils.py:_buffer"]}
{"id": "C05", "title": "modulated buffering is ifftshift of every slice", "statement": "buffer(x, ..., modulated=True)[:, h] == ifftshift(x[h*hop : h*hop+seg_len]) for even and odd seg_len, so fftshift undoes it.", "quantifier": "every signal, even and odd seg_len, every overlap and column", "why_tests_cant": "off-by-one in the odd case is only visible for some lengths; must hold for all of them", "anchors": ["ssqueezepy/utils/stft_utils.py:buffer", "ssqueezepy/utils/stft_utils.py:_buffer", "ssqueezepy/_stft.py:stft", "ssqueezepy/_stft.py:istft"]}
{"id": "C06", "title": "buffer gives one answer on one thread, many threads and GPU", "statement": "The serial, prange and CUDA versions of buffer fill every cell with the same value, for any order in which the parallel iterations or GPU threads run.", "quantifier": "every input and every schedule of parallel iterations/threads", "why_tests_cant": "a test run sees one schedule; GPU versions are skipped in CI", "anchors": ["ssqueezepy/utils/stft_utils.py:_buffer", "ssqueezepy/utils/stft_utils.py:_buffer_par", "ssqueezepy/utils/stft_utils.py:_buffer_gpu"]}
{"id": "C07", "title": "stft output shape and coverage", "statement": "stft(x, n_fft=, hop_len=) has n_fft//2+1 rows and (len(x)-1)//hop_len+1 columns; column u is centred on sample u*hop_len, and every sample of x is the centre of a hop or lies less than hop_len after one.", "quantifier": "every signal length, n_fft >= 1, 1 <= hop_len <= n_fft", "why_tests_cant": "integer arithmetic over three unbounded parameters and both parities", "anchors": ["ssqueezepy/_stft.py:stft", "ssqueezepy/utils/stft_utils.py:buffer"]}
{"id": "C08", "title": "stft computes the documented formula", "statement": "stft(x, modulated=True)[k,u] == sum_n xp[n+u*hop] * g[n] * exp(-2*pi*i*k*(n - n_fft//2)/n_fft) over the padded signal, i.e. the DFT of the windowed hop with phase referenced to the window centre; modulated=False references the phase to the window start.", "quantifier": "every signal, window, n_fft (even or odd), hop, frequency row and hop", "why_tests_cant": "tests compare with librosa on a few random sizes only", "anchors": ["ssqueezepy/_stft.py:stft"]}
{"id": "C09", "title": "istft inverts stft exactly", "statement": "istft(stft(x, window, n_fft, hop_len, modulated), same args, N=len(x)) == x in exact arithmetic whenever the summed window powers w[t-h*hop]^(win_exp+1) exceed the smallest normal float at every sample of x, for both modulated settings and any integer win_exp >= 0. (The NOLA condition that istft checks for is not by itself enough.)", "quantifier": "every signal, window, n_fft >= 3, hop_len, win_exp, padtype, modulated", "why_tests_cant": "the repository test uses Gaussian noise of two lengths and three hops; the algebra must hold for every window and parity", "anchors": ["ssqueezepy/_stft.py:stft", "ssqueezepy/_stft.py:istft", "ssqueezepy/utils/stft_utils.py:unbuffer", "ssqueezepy/utils/stft_utils.py:window_norm"]}
{"id": "C10", "title": "istft returns exactly N samples", "statement": "istft(Sx, n_fft=n_fft, N=N) returns exactly N samples.", "quantifier": "every n_fft >= 1, hop_len, N and spectrum", "why_tests_cant": "slices with a computed negative bound degenerate for particular n_fft only", "anchors": ["ssqueezepy/_stft.py:istft"]}
{"id": "C11", "title": "istft default length is the largest that produced the spectrum", "statement": "With N omitted, istft assumes N = hop_len*n_hops; that N gives the same number of hops as the original signal and is the largest length that does, and the original length lies within hop_len-1 below it.", "quantifier": "every signal length and hop_len", "why_tests_cant": "inverse of an integer division; fixed once already in the changelog", "anchors": ["ssqueezepy/_stft.py:istft", "ssqueezepy/_stft.py:stft"]}
{"id": "C12", "title": "get_window always yields n_fft samples, window centred", "statement": "get_window(window, win_len, n_fft) returns n_fft samples: the window zero-padded by (n_fft-win_len)//2 on the left and the rest on the right. An ndarray window makes win_len irrelevant (as documented), and stft/istft called with the same window and n_fft agree on it.", "quantifier": "every window array length, win_len and n_fft", "why_tests_cant": "mismatch between array length and win_len is a three-parameter case split", "anchors": ["ssqueezepy/_stft.py:get_window", "ssqueezepy/_stft.py:stft", "ssqueezepy/_stft.py:istft"]}
{"id": "C13", "title": "The frequency-domain window derivative is real and has zero sum", "statement": "The derivative window returned by get_window(derivative=True) is the inverse DFT of i*xi*fft(window) with the Nyquist bin zeroed; its imaginary part is identically zero before it is dropped, and its samples sum to zero.", "quantifier": "every real window of every length, even or odd", "why_tests_cant": "the imaginary part is silently discarded; a numeric test cannot tell rounding from a real loss for all windows", "anchors": ["ssqueezepy/_stft.py:get_window"]}
{"id": "C14", "title": "issq_stft of ssq_stft: exact reconstruction formula", "statement": "With hop_len=1, modulated=True and nothing below gamma, issq_stft(ssq_stft(x, fs)) equals fs*(x + (DC + Nyquist rows)/(n_fft*g[centre])) sample by sample for even n_fft: reconstruction scale depends on fs and the DC and Nyquist rows are counted twice.", "quantifier": "every signal, window with nonzero centre, even n_fft, sampling rate fs and phase transform w", "why_tests_cant": "the test only checks fs=1 with a 10% tolerance, so neither the fs factor nor the double counting is visible", "anchors": ["ssqueezepy/_ssq_stft.py:ssq_stft", "ssqueezepy/_ssq_stft.py:issq_stft", "ssqueezepy/ssqueezing.py:ssqueeze"]}
{"id": "C15", "title": "Parallel squeezing is bit-for-bit the serial result", "statement": "indexed_sum, indexed_sum_onfly and ssqueeze_fast return the same array with parallel=True as with parallel=False for every interleaving of the threads, even though floating-point addition is not associative.", "quantifier": "every input array, every index/frequency map, every interleaving of column iterations, every (non-associative) addition", "why_tests_cant": "schedules cannot be enumerated by running; tests use allclose and one schedule", "anchors": ["ssqueezepy/algos.py:indexed_sum", "ssqueezepy/algos.py:indexed_sum_onfly", "ssqueezepy/algos.py:ssqueeze_fast", "ssqueezepy/algos.py:_indexed_sum_par"]}
{"id": "C16", "title": "Synchrosqueezing only moves coefficients: column sums are conserved", "statement": "For each time j, sum over rows of Tx[:, j] equals the sum over rows i of const_i*Wx[i, j] over exactly the coefficients that are not excluded by gamma (finite phase transform); no coefficient is lost, duplicated or moved in time.", "quantifier": "every Wx, dWx, w, gamma, flipud setting, every linear array or log array of bin frequencies the kernels keep in range (C18), frequencies less than 2^62 bins above the first", "why_tests_cant": "must hold for all data-dependent index maps", "anchors": ["ssqueezepy/algos.py:indexed_sum_onfly", "ssqueezepy/algos.py:ssqueeze_fast", "ssqueezepy/ssqueezing.py:ssqueeze"]}
{"id": "C17", "title": "flipud=True is exactly np.flipud of flipud=False", "statement": "ssqueeze_fast and indexed_sum_onfly with flipud=True return the row-reversed array of flipud=False, for each of the linear, log and log-piecewise kernels.", "quantifier": "every input, each scaletype", "why_tests_cant": "data-dependent writes; test only checks agreement of serial/parallel per flag", "anchors": ["ssqueezepy/algos.py:ssqueeze_fast", "ssqueezepy/algos.py:indexed_sum_onfly"]}
{"id": "C18", "title": "Squeezing never writes outside Tx", "statement": "For every frequency value (zero, beyond the range, huge) the row index computed by each squeezing kernel lies in [0, len(Tx)-1]; numba does no bounds checks, so an out-of-range index would corrupt memory.", "quantifier": "every phase-transform value including 0, every bin count, every monotone frequency grid", "why_tests_cant": "out-of-range writes in numba do not raise, and the piecewise kernels clamp only one of the two branches", "anchors": ["ssqueezepy/algos.py:_ssq_cwt_log_piecewise", "ssqueezepy/algos.py:_indexed_sum_log_piecewise", "ssqueezepy/algos.py:_indexed_sum_log", "ssqueezepy/algos.py:_indexed_sum_lin"]}
{"id": "C19", "title": "Linear squeezing sends each coefficient to the nearest frequency bin", "statement": "With linear ssq_freqs, the bin chosen for a frequency w has minimal |w - ssq_freqs[k]| over all k, with frequencies beyond either end going to the end bin.", "quantifier": "every uniformly spaced increasing ssq_freqs (step >= EPS64) with as many bins as rows, every w from 0 up to 2^62 bin widths above the first bin (beyond that see C18), every schedule", "why_tests_cant": "nearest-bin optimality quantifies over all real w, including ties and out-of-range values", "anchors": ["ssqueezepy/algos.py:find_closest_lin", "ssqueezepy/algos.py:_indexed_sum_lin", "ssqueezepy/algos.py:_ssq_cwt_lin", "ssqueezepy/algos.py:_ssq_stft"]}
{"id": "C20", "title": "Log squeezing sends each coefficient to the nearest bin in log-frequency", "statement": "With log (or log-piecewise) ssq_freqs the bin chosen for w minimises |log2 w - log2 ssq_freqs[k]| over all k (piecewise: within the piece w falls in), with out-of-range values going to the end bins.", "quantifier": "every geometric or two-piece geometric ssq_freqs (log2 steps >= EPS64), every w >= 0 up to 2^62 bins above the piece it falls in (w = 0 goes to bin 0), every schedule", "why_tests_cant": "quantifies over all real w and both sides of the piece boundary", "anchors": ["ssqueezepy/algos.py:_find_closest_log", "ssqueezepy/algos.py:_find_closest_log_piecewise", "ssqueezepy/algos.py:_indexed_sum_log", "ssqueezepy/algos.py:_indexed_sum_log_piecewise"]}
{"id": "C21", "title": "find_closest always returns an index in range of v nearest to each a", "statement": "find_closest(a, v) (smart version) returns for each a[i,j] an index of v at minimal distance, whatever the order of v and with duplicates; the log/linear versions return an index within [0, len(v)-1].", "quantifier": "every a, every nonempty v in any order", "why_tests_cant": "argsort plus searchsorted plus back-mapping over arbitrary permutations", "anchors": ["ssqueezepy/algos.py:find_closest", "ssqueezepy/algos.py:find_closest_smart", "ssqueezepy/algos.py:_find_closest_lin"]}
{"id": "C22", "title": "CPU and GPU squeezing choose the same bin", "statement": "The CUDA kernels and the numba kernels choose the same row for the same frequency value.", "quantifier": "every frequency value and grid", "why_tests_cant": "GPU tests are skipped in CI, and the two differ only on exact half-way values", "anchors": ["ssqueezepy/algos.py:_kernel_codes", "ssqueezepy/algos.py:_indexed_sum_lin", "ssqueezepy/algos.py:_ssq_cwt_lin"]}
{"id": "C23", "title": "ssq_freqs[i] is the frequency of row i of Tx", "statement": "For ssq_cwt and ssq_stft, the returned ssq_freqs lists the bin frequencies in the same order as the rows of Tx, with flipud True or False.", "quantifier": "every transform, flipud setting and number of bins", "why_tests_cant": "a symmetric test signal hides a reversal", "anchors": ["ssqueezepy/ssqueezing.py:ssqueeze", "ssqueezepy/_ssq_cwt.py:ssq_cwt", "ssqueezepy/_ssq_stft.py:ssq_stft"]}
{"id": "C24", "title": "Tx has one row per ssq_freqs entry", "statement": "Tx.shape == (len(ssq_freqs), n_times), also when ssq_freqs is passed by the user.", "quantifier": "every user-supplied ssq_freqs length", "why_tests_cant": "default ssq_freqs always have as many entries as Wx has rows, so tests never separate the two", "anchors": ["ssqueezepy/ssqueezing.py:ssqueeze", "ssqueezepy/_ssq_cwt.py:ssq_cwt", "ssqueezepy/algos.py:_process_ssq_params"]}
{"id": "C25", "title": "get_w does not change Tx", "statement": "ssq_cwt(..., get_w=True) and get_w=False return the same Tx (as documented) for each squeezing option.", "quantifier": "every Wx, dWx, gamma, squeezing in (sum, lebesgue, abs) and frequency grid", "why_tests_cant": "the two paths use different code and differ only on boundary values or non-default squeezing", "anchors": ["ssqueezepy/_ssq_cwt.py:ssq_cwt", "ssqueezepy/ssqueezing.py:ssqueeze", "ssqueezepy/algos.py:ssqueeze_fast", "ssqueezepy/algos.py:phase_cwt_cpu"]}
{"id": "C26", "title": "A batch is squeezed like its members", "statement": "ssqueeze on a 3D batch returns for each item what it returns for that item alone, for squeezing sum, abs and lebesgue.", "quantifier": "every batch size and content, every squeezing option", "why_tests_cant": "batch of one or of equal shape hides normalisations by the wrong axis", "anchors": ["ssqueezepy/ssqueezing.py:ssqueeze"]}
{"id": "C27", "title": "Phase transform: value, sign and exclusion", "statement": "phase_cwt(Wx, dWx) equals |Im(dWx/Wx)|/(2 pi) and phase_stft equals |Sfs - Im(dSx/Sx)/(2 pi)| (with the source constant for 2 pi); it is nonnegative, and infinite exactly where |Wx| < gamma; parallel, serial and GPU agree for every schedule.", "quantifier": "every complex Wx, dWx, gamma > 0, Sfs, cell and schedule", "why_tests_cant": "pointwise identity over all complex pairs and all schedules", "anchors": ["ssqueezepy/algos.py:_phase_cwt", "ssqueezepy/algos.py:_phase_stft", "ssqueezepy/_ssq_cwt.py:phase_cwt", "ssqueezepy/_ssq_stft.py:phase_stft"]}
{"id": "C28", "title": "A pure tone is located at its exact frequency at every scale", "statement": "For a complex tone of integer frequency k cycles per N samples (k <= N/2) and padtype=None, the phase transform of the CWT is exactly k*fs/N at every scale and time where |Wx| >= gamma, for any wavelet.", "quantifier": "every N, k, scale, time, wavelet and fs", "why_tests_cant": "tests use tolerance on a few frequencies; the claim is an identity for all of them", "anchors": ["ssqueezepy/_cwt.py:cwt", "ssqueezepy/_ssq_cwt.py:phase_cwt", "ssqueezepy/algos.py:_phase_cwt", "ssqueezepy/wavelets.py:_xifn"]}
{"id": "C29", "title": "Numeric phase transform differentiates exactly to its order", "statement": "phase_cwt_num's finite differences are exact for polynomials of degree <= difforder (1, 2, 4) at interior samples.", "quantifier": "every polynomial of that degree, sampling step and interior sample", "why_tests_cant": "exactness for all polynomials cannot be sampled", "anchors": ["ssqueezepy/_ssq_cwt.py:phase_cwt_num"]}
{"id": "C30", "title": "Extracted ridge is a minimum-cost path", "statement": "extract_ridges' first ridge minimises total energy cost plus jump penalty over all index paths, up to (n_times-1)*eps, and all its indices are valid rows.", "quantifier": "every energy matrix, penalty, frequency grid, number of rows and columns", "why_tests_cant": "there are n_freqs^n_times paths; optimality is a statement about all of them", "anchors": ["ssqueezepy/ridge_extraction.py:extract_ridges", "ssqueezepy/ridge_extraction.py:_accumulated_penalty_energy_fw", "ssqueezepy/ridge_extraction.py:_accumulated_penalty_energy_bw"]}
{"id": "C31", "title": "Each ridge removes its own band before the next is sought", "statement": "After a ridge is found, energy within bw bins of it is zeroed at every time, so a later ridge cannot count that energy again.", "quantifier": "every ridge position, including ones near the first row, every bw", "why_tests_cant": "only ridges closer than bw to row 0 expose negative slice starts", "anchors": ["ssqueezepy/ridge_extraction.py:extract_ridges"]}
{"id": "C32", "title": "Ridge extraction does not depend on threading", "statement": "extract_ridges with parallel=True returns what parallel=False returns for every schedule.", "quantifier": "every energy matrix and every schedule of the parallel loops", "why_tests_cant": "data races appear only under particular schedules and ties", "anchors": ["ssqueezepy/ridge_extraction.py:__accumulated_penalty_energy_fwp", "ssqueezepy/ridge_extraction.py:__accumulated_penalty_energy_bwp"]}
{"id": "C33", "title": "Component inversion partitions the signal", "statement": "issq_cwt(Tx, cc, cw): for non-overlapping bands the extracted components plus the residual (last row) sum to the full inverse; the residual contains exactly the coefficients in no band; cc == -1 contributes nothing.", "quantifier": "every Tx, number of components, centre curve and width", "why_tests_cant": "bands vary per time sample and per component; clipping at both ends", "anchors": ["ssqueezepy/_ssq_cwt.py:_invert_components", "ssqueezepy/_ssq_cwt.py:issq_cwt"]}
{"id": "C34", "title": "issq_cwt and icwt agree", "statement": "With log scales, squeezing='sum' and nothing below gamma, issq_cwt(ssq_cwt(x)) equals icwt(cwt(x), one_int=True) with x_mean=0 sample by sample, whatever the phase transform.", "quantifier": "every signal, wavelet, log scale grid and phase transform", "why_tests_cant": "equality of two different code paths for every reassignment", "anchors": ["ssqueezepy/_ssq_cwt.py:issq_cwt", "ssqueezepy/_cwt.py:icwt", "ssqueezepy/ssqueezing.py:ssqueeze"]}
{"id": "C35", "title": "icwt adds the mean once", "statement": "icwt(Wx, x_mean=m) == icwt(Wx, x_mean=0) + m for every kind of scales.", "quantifier": "every Wx, m, and scaletype (log, linear, log-piecewise)", "why_tests_cant": "all tests use x_mean=0", "anchors": ["ssqueezepy/_cwt.py:icwt"]}
{"id": "C36", "title": "cwt is linear and each row depends only on its own scale", "statement": "cwt(a*x + b*y) == a*cwt(x) + b*cwt(y); row i depends only on scales[i]; the vectorized and loop implementations and the batched and single-signal calls agree.", "quantifier": "every pair of signals, coefficients, scale list, wavelet and padtype", "why_tests_cant": "linearity is an identity over all inputs", "anchors": ["ssqueezepy/_cwt.py:cwt"]}
{"id": "C37", "title": "cwt output columns correspond to input samples", "statement": "cwt(x) with padding has len(x) columns, and column j is column n1+j of the padded transform; rpadded=True returns all n_up columns.", "quantifier": "every signal length, padtype and scale list", "why_tests_cant": "slicing arithmetic for all lengths", "anchors": ["ssqueezepy/_cwt.py:cwt"]}
{"id": "C38", "title": "cwt leaves the wavelet and FFT settings as it found them", "statement": "After cwt returns, wavelet.N and the global FFT patience equal their values before the call; and a call that raises does not change the result of later calls.", "quantifier": "every sequence of cwt calls, with valid or invalid arguments, with or without pyfftw", "why_tests_cant": "needs every history of calls and every raising point", "anchors": ["ssqueezepy/_cwt.py:cwt", "ssqueezepy/utils/fft_utils.py:FFT"]}
{"id": "C39", "title": "Caching wavelets never changes a result", "statement": "Wavelet.Psih(scale, N, nohalf) returns what a fresh evaluation would, whatever was requested before on the same object.", "quantifier": "every history of Psih calls and N changes", "why_tests_cant": "stale caches depend on call history", "anchors": ["ssqueezepy/wavelets.py:Wavelet.Psih", "ssqueezepy/wavelets.py:Wavelet.N"]}
{"id": "C40", "title": "Caching FFT plans never changes a result", "statement": "FFT(cache_fft_objects=True).fft/ifft/rfft/irfft return what the uncached calls return, for every sequence of calls.", "quantifier": "every history of transform calls with any shapes and directions", "why_tests_cant": "depends on call history", "anchors": ["ssqueezepy/utils/fft_utils.py:FFT.get_fft_object", "ssqueezepy/utils/fft_utils.py:FFT"]}
{"id": "C41", "title": "Explicit arguments beat configured defaults", "statement": "gdefaults(module.fn, **kw) returns every non-None argument unchanged, fills None arguments from configs.ini when listed there, leaves the rest None, and with get_all adds only missing keys; default_order changes order only.", "quantifier": "every configuration, function name and argument set", "why_tests_cant": "quantifies over all configurations and argument dictionaries", "anchors": ["ssqueezepy/configs.py:gdefaults"]}
{"id": "C42", "title": "parallel=False is honoured", "statement": "Passing parallel=False makes indexed_sum, ssqueeze_fast, indexed_sum_onfly, phase_cwt, buffer run single-threaded regardless of the global default; None follows the environment variable, else configs.ini.", "quantifier": "every combination of argument, environment variable and configuration", "why_tests_cant": "results are equal either way, so output-based tests cannot see it", "anchors": ["ssqueezepy/algos.py:indexed_sum", "ssqueezepy/algos.py:_process_ssq_params", "ssqueezepy/utils/stft_utils.py:buffer", "ssqueezepy/configs.py:IS_PARALLEL"]}
{"id": "C43", "title": "Frequency layout matches the DFT and centring sorts it", "statement": "Wavelet frequencies are 2*pi*k/N for k=0..N/2 then negative frequencies, matching the DFT bin order; aifftshift puts them in increasing order and afftshift undoes aifftshift.", "quantifier": "every N, even or odd", "why_tests_cant": "odd lengths behave differently", "anchors": ["ssqueezepy/wavelets.py:_xifn", "ssqueezepy/wavelets.py:afftshift", "ssqueezepy/wavelets.py:aifftshift"]}
{"id": "C44", "title": "GMW peaks at its centre frequency and is analytic", "statement": "The L1-normalised generalized Morse wavelet is 0 for w < 0, nonnegative, attains its maximum 2 exactly at w = (beta/gamma)^(1/gamma) and nowhere else; Morlet is 0 at w = 0 and nonnegative for w >= 0; cmhat and bump vanish outside their support.", "quantifier": "every gamma, beta > 0 and every real frequency", "why_tests_cant": "a maximum over a continuum", "anchors": ["ssqueezepy/_gmw.py:_gmw_l1", "ssqueezepy/_gmw.py:morsefreq", "ssqueezepy/wavelets.py:morlet", "ssqueezepy/wavelets.py:bump", "ssqueezepy/wavelets.py:cmhat"]}
{"id": "C45", "title": "Log scales are an exact geometric grid inside the requested range", "statement": "make_scales(scaletype='log') is strictly increasing with ratio 2^(1/nv), starts within one voice below min_scale (never above it), ends below max_scale and within two voices of it.", "quantifier": "every real 0 < min_scale < max_scale and nv >= 1", "why_tests_cant": "floor/ceil interplay over real bounds", "anchors": ["ssqueezepy/utils/cwt_utils.py:make_scales"]}
{"id": "C46", "title": "Log-piecewise scales switch spacing once and the switch is recovered", "statement": "make_scales(scaletype='log-piecewise') keeps spacing 1/nv up to the transition index and downsample/nv after it, is a subsequence of the log scales, and logscale_transition_idx / nv_from_scales recover exactly that index and those spacings.", "quantifier": "every log grid, transition index, downsample factor > 1", "why_tests_cant": "recovery must work for every length and index", "anchors": ["ssqueezepy/utils/cwt_utils.py:make_scales", "ssqueezepy/utils/cwt_utils.py:logscale_transition_idx", "ssqueezepy/utils/cwt_utils.py:nv_from_scales"]}
{"id": "C47", "title": "Time/sampling-rate arguments always yield a positive rate", "statement": "_process_fs_and_t accepts only inputs giving fs > 0 and dt == 1/fs, and rejects non-uniform or wrong-length t.", "quantifier": "every fs, t, N", "why_tests_cant": "rejection must cover every bad t", "anchors": ["ssqueezepy/utils/cwt_utils.py:_process_fs_and_t"]}
{"id": "C48", "title": "The maximum search terminates with a maximum", "statement": "find_maximum and find_first_occurrence terminate for every function and step parameters, and return a value attained at the returned argument that is at least every sampled value before the stop.", "quantifier": "every function and every step_size, steps_per_search, step_start, step_limit", "why_tests_cant": "termination is not testable", "anchors": ["ssqueezepy/algos.py:find_maximum", "ssqueezepy/algos.py:find_first_occurrence"]}
{"id": "C49", "title": "Combinatorial helpers are exact", "statement": "nCk(n, k) is the binomial coefficient for 0 <= k <= n, and the cumulants returned by morsemom reproduce its moments through the moment-cumulant recursion.", "quantifier": "every n, k and every moment sequence with nonzero zeroth moment", "why_tests_cant": "infinite families", "anchors": ["ssqueezepy/algos.py:nCk", "ssqueezepy/_gmw.py:_moments_to_cumulants"]}
{"id": "C50", "title": "ssq_freqs span the requested range monotonically", "statement": "Computed ssq_freqs start at the minimum and end at the maximum of the chosen range, are strictly increasing before reversal, and have one entry per scale, for each scale type.", "quantifier": "every range 0 < fm < fM and number of scales", "why_tests_cant": "continuum of ranges", "anchors": ["ssqueezepy/ssqueezing.py:_compute_associated_frequencies", "ssqueezepy/ssqueezing.py:_exp_fm", "ssqueezepy/ssqueezing.py:_ssq_freqrange"]}
{"id": "C51", "title": "In-place replacement helpers touch only matching cells", "statement": "replace_under_abs, replace_at_inf/nan/inf_or_nan/value and zero_denormals write the replacement exactly where the condition holds on the reference array and leave every other cell unchanged, for every thread schedule; applying them twice equals once.", "quantifier": "every array, reference, threshold and schedule", "why_tests_cant": "frame condition over all cells and schedules", "anchors": ["ssqueezepy/algos.py:replace_under_abs", "ssqueezepy/algos.py:replace_at_inf_or_nan", "ssqueezepy/algos.py:zero_denormals"]}
{"id": "C52", "title": "scale_to_freq returns frequencies between 0 and Nyquist", "statement": "scale_to_freq never trips its internal assertion and every returned frequency lies in (0, fs/2].", "quantifier": "every wavelet response matrix, scale list, N, fs", "why_tests_cant": "depends on argmax positions in arbitrary responses", "anchors": ["ssqueezepy/experimental.py:scale_to_freq"]}
{"id": "C53", "title": "GPU launches cover every cell exactly once", "statement": "The block/grid sizes computed for CUDA launches, together with the kernels' bounds checks, make exactly one thread process each column (1D) or cell (2D).", "quantifier": "every array shape", "why_tests_cant": "boundary sizes around multiples of the block size", "anchors": ["ssqueezepy/utils/gpu_utils.py:_get_kernel_params", "ssqueezepy/algos.py:_kernel_codes"]}
{"id": "C54", "title": "trigdiff differentiates tones exactly and returns the input length", "statement": "trigdiff(A, fs) of a complex tone of bin k is i*2*pi*k/N*fs times it, and for any A the output has as many samples as A (with the default arguments).", "quantifier": "every length, tone and argument combination", "why_tests_cant": "default-argument interplay of padding and length", "anchors": ["ssqueezepy/utils/common.py:trigdiff"]}
{"id": "C55", "title": "Chirp generators sweep exactly from fmin to fmax", "statement": "lchirp, echirp, echirp_pc and hchirp have instantaneous frequency fmin at tmin and fmax at tmax, and that frequency is the derivative of the phase actually used.", "quantifier": "every 0 < fmin < fmax and tmin < tmax", "why_tests_cant": "identities over real parameters", "anchors": ["ssqueezepy/_test_signals.py:_lchirp_fn", "ssqueezepy/_test_signals.py:_echirp_fn", "ssqueezepy/_test_signals.py:_echirp_pc_fn", "ssqueezepy/_test_signals.py:_hchirp_fn"]}
{"id": "C56", "title": "Resetting wavelet properties does not depend on set order", "statement": "Wavelet.reset_properties recomputes every cached time-frequency property for the current N, giving the same values whatever order the (hash-ordered) property set is visited in; changing N alone leaves cached values in place.", "quantifier": "every visiting order and every history of N changes", "why_tests_cant": "iteration order of a set of strings varies between processes", "anchors": ["ssqueezepy/wavelets.py:Wavelet.reset_properties", "ssqueezepy/wavelets.py:Wavelet.wc", "ssqueezepy/wavelets.py:Wavelet.scalec_ct"]}
{"id": "C57", "title": "ssq_cwt returns Wx and Tx on the same time axis", "statement": "ssq_cwt returns Tx and Wx with len(x) columns for difftype trig, phase and numeric.", "quantifier": "every signal length, padtype and difftype", "why_tests_cant": "shape arithmetic for all lengths and options", "anchors": ["ssqueezepy/_ssq_cwt.py:ssq_cwt"]}
{"id": "C58", "title": "Discrete Fourier identities used by the transforms", "statement": "ifft(fft(x)) == x and irfft(rfft(x), n=len(x)) == x for the transforms the library calls, and rfft of a real signal is the first n//2+1 entries of fft.", "quantifier": "every complex/real signal of every length, even or odd", "why_tests_cant": "identity over all lengths", "anchors": ["ssqueezepy/utils/fft_utils.py:FFT", "ssqueezepy/_stft.py:stft", "ssqueezepy/_stft.py:istft"]}
{"id": "C59", "title": "cwt_higher_order averages transforms of single orders", "statement": "cwt_higher_order(x, order=range) with averaging equals the arithmetic mean of the single-order transforms, and behaves per signal on batched input.", "quantifier": "every signal, order list and batch", "why_tests_cant": "identity over all order lists", "anchors": ["ssqueezepy/_cwt.py:cwt_higher_order"]}
{"id": "C60", "title": "Every scale is weighted by its logarithmic step", "statement": "The constant ssqueeze multiplies each row by is the distance in log scale to the neighbouring scale: ln(scales[i+1]/scales[i]) for log scales, the step to the previous scale for log-piecewise ones.", "quantifier": "every scale array accepted as log or log-piecewise", "why_tests_cant": "tests use library-made scales with an integer number of voices; a user array with a fractional number of voices is rounded", "anchors": ["ssqueezepy/ssqueezing.py:ssqueeze", "ssqueezepy/utils/cwt_utils.py:infer_scaletype", "ssqueezepy/utils/cwt_utils.py:nv_from_scales"]}
{"id": "C61", "title": "ssq_cwt of a 2-D array is ssq_cwt of each signal", "statement": "ssq_cwt on a 2-D array returns, for each signal, the Tx, Wx, dWx, ssq_freqs and scales that a call on that signal alone returns, and succeeds whenever the single calls do.", "quantifier": "every batch of equal-length signals, wavelet, scales, padding and order", "why_tests_cant": "tests compare a few random batches with default options; equality must hold for every option and any cached wavelet state", "anchors": ["ssqueezepy/_ssq_cwt.py:ssq_cwt", "ssqueezepy/ssqueezing.py:ssqueeze", "ssqueezepy/_cwt.py:cwt"]}
{"id": "C62", "title": "Defaults are looked up under the calling module", "statement": "gdefaults(**kw) called without a module.fn name looks up configs.ini under the name of the calling file without its .py extension, and the calling function's name.", "quantifier": "every calling file name and function", "why_tests_cant": "depends on the characters the file name ends in; tests only see the library's own file names", "anchors": ["ssqueezepy/configs.py:gdefaults"]}
{"id": "C63", "title": "Evaluating a wavelet leaves its input alone", "statement": "Calling a Wavelet (or a function made by gmw) on an array of frequencies does not change that array, and calling it twice on the same array gives the same values.", "quantifier": "every array of frequencies, dtype and centered_scale", "why_tests_cant": "whether the array is aliased depends on its dtype; a test with non-negative frequencies cannot see it", "anchors": ["ssqueezepy/_gmw.py:_gmw_l1", "ssqueezepy/_gmw.py:_gmw_l2", "ssqueezepy/wavelets.py:Wavelet.__call__", "ssqueezepy/utils/backend.py:atleast_1d"]}
{"id": "C64", "title": "GMW orders are orthogonal and energy-normalised", "statement": "For every gamma, beta > 0 the functions returned by gmw for different orders are orthogonal over frequency in both norms; norm='energy' wavelets, rescaled as compute_gmw does, have unit energy at every scale; bandpass wavelets of all orders share one energy; every order is zero at w <= 0; order 0 equals what the general-order code computes.", "quantifier": "all gamma, beta > 0, all orders, scales, both norms, centered_scale on or off", "why_tests_cant": "orthogonality is an identity between improper integrals for every pair of orders and all real parameters", "anchors": ["ssqueezepy/_gmw.py:gmw", "ssqueezepy/_gmw.py:gmw_l1_k", "ssqueezepy/_gmw.py:gmw_l2_k", "ssqueezepy/_gmw.py:_gmw_k_constants"]}
{"id": "C65", "title": "GMW frequency measures and moments are the integrals they document", "statement": "_morsemom returns the p-th moment, energy moment, cumulant and energy cumulant of the bandpass order-0 GMW; morsefreq returns its peak, the mean frequency of its energy density, its mean frequency, and minus its skewness.", "quantifier": "all gamma, beta > 0, all p", "why_tests_cant": "closed forms with Gamma functions against improper integrals over all real parameters", "anchors": ["ssqueezepy/_gmw.py:_morsemom", "ssqueezepy/_gmw.py:morsefreq", "ssqueezepy/_gmw.py:morseafun"]}
{"id": "C66", "title": "gmw accepts what its argument check accepts", "statement": "gmw(gamma, beta, norm, order) with gamma, beta > 0, a supported norm and an order passing _check_args (a non-negative integer, possibly as float) returns a wavelet function.", "quantifier": "all arguments", "why_tests_cant": "the check admits infinitely many values of several types", "anchors": ["ssqueezepy/_gmw.py:gmw", "ssqueezepy/_gmw.py:_check_args"]}
{"id": "C67", "title": "Bandpass GMWs peak at 2 at the centre frequency", "statement": "For norm='bandpass' and every order, max(psih) == 2 and it is attained at wc = morsefreq(gamma, beta), as the docstring says.", "quantifier": "all gamma, beta > 0 and orders", "why_tests_cant": "an extremum over a continuum for all real parameters", "anchors": ["ssqueezepy/_gmw.py:gmw", "ssqueezepy/_gmw.py:gmw_l1_k"]}
{"id": "C68", "title": "morsewave and compute_gmw agree", "statement": "For every list of frequencies, morsewave returns for each frequency f and order k the arrays compute_gmw gives at scale morsefreq/|f| (conjugated and mirrored for negative f); beta = 0 is supported.", "quantifier": "all N, frequencies, gamma > 0, beta >= 0, K, norms", "why_tests_cant": "agreement of two independent implementations for all lengths and parameters", "anchors": ["ssqueezepy/_gmw.py:morsewave", "ssqueezepy/_gmw.py:_morsewave1", "ssqueezepy/_gmw.py:_morsewave_first_family", "ssqueezepy/_gmw.py:compute_gmw"]}
{"id": "C69", "title": "Time-domain wavelets are centred and analytic-symmetric", "statement": "For a real-valued psih, wavelet.psifn(scale, N) satisfies psi[N-n] == conj(psi[n]); if psih >= 0 and N is even, |psi| is largest at index N//2, where psi is real; psih (Nyquist bin halved) is recovered by fft(psi)*(-1)**arange(N), and compute_gmw(..., time=True) returns the same psi.", "quantifier": "all wavelets, scales and N >= 1", "why_tests_cant": "an identity for every length and every wavelet function", "anchors": ["ssqueezepy/wavelets.py:Wavelet.psifn", "ssqueezepy/wavelets.py:Wavelet._halve_nyquist", "ssqueezepy/_gmw.py:compute_gmw"]}
{"id": "C70", "title": "center_frequency lies in (0, pi]", "statement": "For a wavelet that vanishes at w <= 0 and does not vanish on every positive bin, kinds 'peak' and 'energy' return a value in (0, pi]; 'peak' is a DFT bin at which |psih| is largest; 'peak-ct' depends on neither scale nor N.", "quantifier": "all analytic wavelets, scales, N >= 1", "why_tests_cant": "a range over all wavelets and lengths, including odd N where the frequency axis is not sorted", "anchors": ["ssqueezepy/wavelets.py:center_frequency"]}
{"id": "C71", "title": "force_int=False computes widths by formula", "statement": "With force_int=False, center_frequency(kind='energy') integrates at the well-behaved scale and rescales, so scale*wc is the same at every scale; likewise (scale < 4 or scale > N/5, nondim=False) scale*freq_resolution and time_resolution/scale are the same at every scale.", "quantifier": "all wavelets, scales, N", "why_tests_cant": "an invariance over a continuum of scales", "anchors": ["ssqueezepy/wavelets.py:center_frequency", "ssqueezepy/wavelets.py:freq_resolution", "ssqueezepy/wavelets.py:time_resolution"]}
{"id": "C72", "title": "freq_resolution is the standard deviation of the wavelet's spectrum at length N", "statement": "freq_resolution(wavelet, scale, N, nondim=False) is the standard deviation of w under weights |psih(scale*w)|^2 on the N-point frequency grid; in particular it is a number for every N.", "quantifier": "all analytic wavelets, scales, N", "why_tests_cant": "the default N hides that the mean is taken on another grid", "anchors": ["ssqueezepy/wavelets.py:freq_resolution", "ssqueezepy/wavelets.py:center_frequency"]}
{"id": "C73", "title": "time_resolution measures spread about the wavelet's centre", "statement": "time_resolution(nondim=False)^2 is the |psi|^2-weighted mean of t^2 over a grid of mult*N points whose zero is psi's centre of symmetry, so the first moment over the interior points is zero; the result lies in [0, mult*N/2]; it raises iff no mult in min_mult..max_mult meets min_decay.", "quantifier": "all wavelets, scales, N, min_decay, min_mult, max_mult", "why_tests_cant": "a symmetry of the grid and the wavelet for all lengths", "anchors": ["ssqueezepy/wavelets.py:time_resolution", "ssqueezepy/wavelets.py:Wavelet.psifn"]}
{"id": "C74", "title": "find_min_scale lands where asked", "statement": "find_min_scale(wavelet, cutoff) returns s such that the last frequency bin, at which the wavelet is evaluated at s*pi, lies left of the wavelet's peak for cutoff <= 0 and right of it for cutoff > 0, within one search step (1e-3) of where the wavelet equals |cutoff| times its maximum; cutoff = 1 or -1 gives the peak itself; and, as cwt_scalebounds documents, a lesser cutoff gives a lesser min_scale, always.", "quantifier": "all unimodal wavelets, all cutoffs", "why_tests_cant": "a monotonicity claim over a continuum of cutoffs and wavelets", "anchors": ["ssqueezepy/utils/cwt_utils.py:find_min_scale", "ssqueezepy/utils/cwt_utils.py:cwt_scalebounds", "ssqueezepy/algos.py:find_first_occurrence"]}
{"id": "C75", "title": "find_max_scale places the wavelet's rising edge on bin bin_loc", "statement": "At scale find_max_scale(wavelet, N, bin_loc, bin_amp), bin bin_loc samples the wavelet at the last grid frequency left of its peak at which it is below bin_amp times its maximum, the next grid frequency being at or above it; a greater bin_loc or a lesser bin_amp gives a lesser max_scale, always.", "quantifier": "all real wavelets, N, bin_loc, bin_amp", "why_tests_cant": "relates a returned scale to a sampled edge for all wavelets and lengths", "anchors": ["ssqueezepy/utils/cwt_utils.py:find_max_scale"]}
{"id": "C76", "title": "find_max_scale_alt straddles the peak symmetrically between the cutoffs", "statement": "At scale find_max_scale_alt(wavelet, N, min_cutoff, max_cutoff) two consecutive bins lie on either side of the wavelet's peak, symmetrically up to the search resolution, none at the peak; the wavelet's values there fall between min_cutoff and max_cutoff times its maximum.", "quantifier": "all unimodal wavelets, N, valid cutoffs", "why_tests_cant": "the two bins depend on an integer found by a search over a real interval", "anchors": ["ssqueezepy/utils/cwt_utils.py:find_max_scale_alt"]}
{"id": "C77", "title": "cwt_scalebounds' presets", "statement": "preset='naive' returns (1, N); preset='maximal' and 'minimal' give results independent of min_cutoff, max_cutoff and cutoff; preset=None without cutoffs equals 'minimal'; an unknown preset, min_cutoff <= 0 or max_cutoff <= min_cutoff raise ValueError; with use_padded_N the result is that for N=p2up(N) unpadded; the returned range is non-empty, min_scale < max_scale.", "quantifier": "all wavelets, N, arguments", "why_tests_cant": "covers every combination of optional arguments", "anchors": ["ssqueezepy/utils/cwt_utils.py:cwt_scalebounds"]}
{"id": "C78", "title": "default scales reach Nyquist", "statement": "With scales given by name ('log', 'log-piecewise', 'linear', with or without a ':preset' other than 'naive'), the smallest scale s puts the wavelet's peak at or beyond the Nyquist frequency (s*pi <= w_peak), and the log scales stop within two voices below the max_scale of the bounds.", "quantifier": "all wavelets, N, nv, presets", "why_tests_cant": "composition of three searches and a rounding, for all wavelets", "anchors": ["ssqueezepy/utils/cwt_utils.py:process_scales", "ssqueezepy/utils/cwt_utils.py:make_scales", "ssqueezepy/utils/cwt_utils.py:cwt_scalebounds"]}
{"id": "C79", "title": "infer_scaletype recognises the spacing", "statement": "infer_scaletype says 'log' exactly for positive arrays whose logarithms are evenly spaced and 'linear' exactly for evenly spaced arrays, up to stated tolerances, nv being the rounded number of entries per octave; the answer does not depend on the unit the scales or frequencies are expressed in.", "quantifier": "all arrays, both precisions, all positive unit changes", "why_tests_cant": "an iff over all real arrays and an invariance under all rescalings", "anchors": ["ssqueezepy/utils/cwt_utils.py:infer_scaletype", "ssqueezepy/utils/cwt_utils.py:process_scales"]}
{"id": "C80", "title": "phase_ssqueeze reproduces ssq_cwt", "statement": "phase_ssqueeze(Wx, dWx, ssq_freqs, scales, ...) on the Wx and dWx that ssq_cwt returned (order None), with ssq_cwt's options, scales, rate and an explicit difftype, returns ssq_cwt's Tx, ssq_freqs and w; without ssq_freqs too when ssq_cwt had none and scales was an array; with difftype='numeric' on the padded transform it returns ssq_cwt's Tx and w with the four margin columns at either end still on.", "quantifier": "all signals, wavelets, scales, options, schedules", "why_tests_cant": "agreement of two code paths over all inputs and thread schedules", "anchors": ["ssqueezepy/experimental.py:phase_ssqueeze", "ssqueezepy/experimental.py:phase_transform", "ssqueezepy/_ssq_cwt.py:ssq_cwt"]}
{"id": "C81", "title": "phase_ssqueeze reproduces ssq_stft", "statement": "phase_ssqueeze(Sx, dSx, ssq_freqs, transform='stft', ...) on stft's output, with ssq_stft's options and rate and ssq_freqs set to ssq_stft's (or its Sfs), returns ssq_stft's Tx, Sx, ssq_freqs and Sfs.", "quantifier": "all signals, windows, options, schedules", "why_tests_cant": "agreement of two code paths over all inputs and thread schedules", "anchors": ["ssqueezepy/experimental.py:phase_ssqueeze", "ssqueezepy/_ssq_stft.py:ssq_stft"]}
{"id": "C82", "title": "phase_ssqueeze's arguments take effect", "statement": "rpadded=True with N unpads the result to N columns; Sfs, when passed, is the rows' frequencies; t, when passed, overrides fs as documented, so that the STFT rows' frequencies go up to half of t's rate; the documented defaults (difftype, difforder, ssq_freqs None) give a result.", "quantifier": "all transforms and arguments", "why_tests_cant": "a claim about every combination of optional arguments", "anchors": ["ssqueezepy/experimental.py:phase_ssqueeze", "ssqueezepy/experimental.py:phase_transform"]}
{"id": "C83", "title": "Automatic N of a sweep prevents aliasing, minimally", "statement": "TestSignals().lchirp/echirp/echirp_pc/hchirp called with tmin, tmax, fmin, fmax but no N choose an N for which consecutive samples' phases differ by at most pi and fmax is at most half the sampling rate, and the least such N.", "quantifier": "all sweeps, time ranges, frequencies, endpoint settings", "why_tests_cant": "a claim about every frequency range and about all smaller N", "anchors": ["ssqueezepy/_test_signals.py:TestSignals._est_N_nonalias", "ssqueezepy/_test_signals.py:TestSignals._process_params", "ssqueezepy/_test_signals.py:TestSignals._generate"]}
{"id": "C84", "title": "Parallel chirps are the sum of the two sweeps asked for", "statement": "par_lchirp/par_echirp/par_hchirp return, at the requested time points, the sum of a sweep from fmin1 to fmax1 and one from fmin2 to fmax2; frequencies given are used; those not given are chosen so that the second sweep lies above the first and below N/2.", "quantifier": "all N, frequencies, time ranges", "why_tests_cant": "quantifies over all frequencies and which of them are given", "anchors": ["ssqueezepy/_test_signals.py:TestSignals.par_lchirp", "ssqueezepy/_test_signals.py:TestSignals.par_echirp", "ssqueezepy/_test_signals.py:TestSignals.par_hchirp"]}
{"id": "C85", "title": "Amplitude modulators stay within [amin, amax]", "statement": "am_sine, am_cosine, am_exp and am_gauss return len-N envelopes with every value in [amin, amax]; am_exp goes from amin to amax; am_gauss is symmetric, rises to its centre and equals amax there for odd N.", "quantifier": "all N, amplitudes, frequencies, phases, time ranges", "why_tests_cant": "bounds over all samples of all parameter choices", "anchors": ["ssqueezepy/_test_signals.py:TestSignals.am_sine", "ssqueezepy/_test_signals.py:TestSignals.am_cosine", "ssqueezepy/_test_signals.py:TestSignals.am_exp", "ssqueezepy/_test_signals.py:TestSignals.am_gauss"]}
{"id": "C86", "title": "jumps and packed generate the documented tones", "statement": "jumps(N, freqs) returns N samples made of consecutive equal-length segments, segment i being a cosine of freqs[i], on an increasing time vector from tmin; packed(N, freqs, overlap) returns N samples in which even-numbered tones cover the first overlap*N samples and odd-numbered tones the last overlap*N.", "quantifier": "all N, frequency lists, overlaps, time ranges", "why_tests_cant": "all list lengths and overlap values", "anchors": ["ssqueezepy/_test_signals.py:TestSignals.jumps", "ssqueezepy/_test_signals.py:TestSignals.packed"]}
{"id": "C87", "title": "make_signals makes one signal per request, with the requested parameters", "statement": "make_signals(signals) returns one signal per request, in order; parameters given in the request are used, others come from default_args; 'carrier:am-x' multiplies carrier by modulator, 'am-x' alone means cosine carrier, '#' adds the time reversal (so the clean signal is a palindrome); tmin/tmax/endpoint given for the modulator take precedence.", "quantifier": "all request lists, defaults, generators", "why_tests_cant": "all combinations of names and dicts", "anchors": ["ssqueezepy/_test_signals.py:TestSignals.make_signals", "ssqueezepy/_test_signals.py:TestSignals._process_input"]}
{"id": "C88", "title": "Noise is reproducible and has the requested SNR", "statement": "With seed set, make_signals called again with the same requests returns the same signals whatever happened in between; the noise added has SNR snr up to the sample variance of the deviates; any snr that is not None, and any seed that is not None, is honoured.", "quantifier": "all requests, generator states, seeds, SNRs", "why_tests_cant": "depends on generator state and on mutation of the caller's dicts across calls", "anchors": ["ssqueezepy/_test_signals.py:TestSignals.__init__", "ssqueezepy/_test_signals.py:TestSignals.make_signals"]}
{"id": "C89", "title": "window_resolution measures a window's widths", "statement": "window_resolution(window) returns finite, nonnegative widths for every nonnegative nonzero window: std_w < pi is the root-mean-square frequency of its spectrum, std_t the root-mean-square distance from the window's centre, harea their product; scaling the window changes nothing.", "quantifier": "all nonnegative windows of every length", "why_tests_cant": "tests look at a few particular windows; the sign of the integrand's step at +pi depends on parity of N", "anchors": ["ssqueezepy/utils/stft_utils.py:window_resolution"]}
{"id": "C90", "title": "window_area is the window's energy, in time and frequency", "statement": "window_area(window) is nonnegative in both domains; the time area is the trapezoid energy, the frequency area at most 2*pi times the energy of the window.", "quantifier": "all real windows", "why_tests_cant": "tests check chosen windows only", "anchors": ["ssqueezepy/utils/stft_utils.py:window_area"]}
{"id": "C91", "title": "mad_rms is a scale-invariant relative error", "statement": "mad_rms(x, xrec) is unchanged when both are multiplied by any nonzero constant, nonnegative, zero exactly when xrec equals x, and never above the relative RMS error.", "quantifier": "all real signals of equal length", "why_tests_cant": "needs all signals and scalings", "anchors": ["ssqueezepy/toolkit.py:mad_rms"]}
{"id": "C92", "title": "where_amax finds all maxima; lin_band stays on its line and in the plane", "statement": "where_amax(x) lists, row by row and once each, exactly the entries whose modulus is greatest. lin_band returns one centre per column within one row of the line slope*(t+offset)*na, monotone with the slope, of constant nonzero half-width, inside the plane for lines inside it.", "quantifier": "all 2D arrays; all slopes, offsets, widths, shapes", "why_tests_cant": "ties and rounding cannot be enumerated", "anchors": ["ssqueezepy/toolkit.py:where_amax", "ssqueezepy/toolkit.py:lin_band"]}
{"id": "C93", "title": "est_riskshrink_thresh is a robust, homogeneous noise level", "statement": "est_riskshrink_thresh(Wx, nv) depends only on the moduli of the first nv rows, scales with |c| when Wx is multiplied by c, is nonnegative and zero only when there is nothing to separate; a single coefficient cannot change it arbitrarily, and it is larger the more high-frequency content there is.", "quantifier": "all transforms, nv >= 1", "why_tests_cant": "robustness is about unbounded perturbations", "anchors": ["ssqueezepy/utils/common.py:est_riskshrink_thresh", "ssqueezepy/utils/common.py:mad"]}
{"id": "C94", "title": "integrate_analytic integrates from 0 to infinity", "statement": "integrate_analytic(int_fn) returns the trapezoid integral of a nonnegative, decaying, unimodal int_fn over (0, inf): nonnegative, bounded by 160*max, proportional to int_fn, changing sign with it, counting every sample that is not negligible; it raises only when there is nothing to integrate, and warns exactly when part of the range was left out.", "quantifier": "all integrands", "why_tests_cant": "all functions and units", "anchors": ["ssqueezepy/utils/cwt_utils.py:integrate_analytic", "ssqueezepy/algos.py:_min_neglect_idx"]}
{"id": "C95", "title": "Admissibility constants are positive", "statement": "adm_cwt(wavelet) is positive for every wavelet without zeros on w > 0 and unchanged by the wavelet's sign; adm_ssq(wavelet) is positive for positive wavelets and changes sign with the wavelet; in particular both are positive for GMW (any gamma, beta) and Morlet (any mu), so icwt and issq_cwt never divide by 0.", "quantifier": "all wavelets, all gamma, beta, mu", "why_tests_cant": "continuum of parameters", "anchors": ["ssqueezepy/utils/cwt_utils.py:adm_ssq", "ssqueezepy/utils/cwt_utils.py:adm_cwt"]}
{"id": "C96", "title": "Wavelet(dtype=...) generates at the dtype asked for", "statement": "Wavelet(w, dtype=d).dtype is the string naming d, for d given as a string, np.dtype, torch.dtype or NumPy type, and w a name, a (name, parameters) tuple or a function; without d it is the parameters' dtype, else that of configs.ini; with norm='energy' it is 'float64'. It is always one of Wavelet.DTYPES.", "quantifier": "every wavelet argument, parameter dictionary, dtype and configuration file", "why_tests_cant": "the outcome depends on every combination of name, parameters, dtype object and configuration text", "anchors": ["ssqueezepy/wavelets.py:Wavelet.__init__", "ssqueezepy/wavelets.py:Wavelet._process_dtype", "ssqueezepy/wavelets.py:Wavelet._validate_and_set_wavelet"]}
{"id": "C97", "title": "A Wavelet's configuration is what was asked for, completed by configs.ini", "statement": "Wavelet((name, params)).config maps each parameter to the caller's value unless missing or None, else to that of configs.ini, and has no other entries; names are case-insensitive and unknown ones raise ValueError; Wavelet((name, w.config)) is w again; the caller's dictionary is left unchanged.", "quantifier": "all names, parameter dictionaries and configurations", "why_tests_cant": "dictionaries and configurations are unbounded", "anchors": ["ssqueezepy/wavelets.py:Wavelet._validate_and_set_wavelet", "ssqueezepy/configs.py:gdefaults", "ssqueezepy/utils/common.py:assert_is_one_of"]}
{"id": "C98", "title": "cwt_higher_order's wavelets differ only in order", "statement": "For a GMW wavelet w and orders ks, cwt_higher_order transforms with one wavelet per k whose order is k and whose other parameters and dtype are those of w, however w was configured; wavelets that are not GMWs are rejected.", "quantifier": "all configurations of w, all lists of orders", "why_tests_cant": "configurations and order lists are unbounded", "anchors": ["ssqueezepy/_cwt.py:cwt_higher_order", "ssqueezepy/wavelets.py:Wavelet._validate_and_set_wavelet"]}
{"id": "C99", "title": "The synchrosqueezed transform of a tone is one row, at the tone's frequency", "statement": "If x has a whole number k of cosine periods in n samples (0 < 2k < n), then ssq_cwt(x) with an analytic wavelet, log scales and frequencies reaching the tone is zero except in the row whose ssq_freqs entry is nearest, in log-frequency, to k*fs/n; there it is the analytic tone times a real gain not depending on time.", "quantifier": "all k, n, amplitudes, phases, sampling rates, wavelets, scales, gamma > 0 and parallel schedules", "why_tests_cant": "infinitely many tones, wavelets and grids", "anchors": ["ssqueezepy/_ssq_cwt.py:ssq_cwt", "ssqueezepy/_ssq_cwt.py:phase_cwt", "ssqueezepy/ssqueezing.py:ssqueeze"]}
{"id": "C100", "title": "Inverting the transform of a tone gives the tone back up to an exact gain", "statement": "issq_cwt(ssq_cwt(x)) and icwt(cwt(x)) of a tone x are x times a constant, the sum of the wavelet's response over the scales times the scale step over adm_ssq; inverting along the tone's own row leaves a zero residual.", "quantifier": "all tones, wavelets, log scales, component half-widths and parallel schedules", "why_tests_cant": "infinitely many tones and wavelets; tests only bound an error", "anchors": ["ssqueezepy/_ssq_cwt.py:issq_cwt", "ssqueezepy/_cwt.py:icwt"]}
{"id": "C101", "title": "extract_ridges follows the curve that carries the energy", "statement": "If at every time exactly one row of the transform is nonzero and the curve of those rows moves slowly enough for the penalty, the first ridge returned by extract_ridges is that curve, with its scales and energies; in particular the ridge of a squeezed tone is constant at the tone's frequency.", "quantifier": "all transforms supported on a curve, penalties >= 0, bandwidths and parallel schedules", "why_tests_cant": "infinitely many curves and penalties", "anchors": ["ssqueezepy/ridge_extraction.py:extract_ridges", "ssqueezepy/_ssq_cwt.py:ssq_cwt"]}
{"id": "C102", "title": "Both difftypes of phase_cwt give the frequency in Hz", "statement": "For a tone, ssq_cwt's phase transform is the tone's frequency in Hz at every time whether difftype is 'trig' or 'phase'.", "quantifier": "all tones, sampling rates and rows with coefficients above gamma", "why_tests_cant": "infinitely many tones and rates; the tests only use fs=1 and skip the edges", "anchors": ["ssqueezepy/_ssq_cwt.py:phase_cwt", "ssqueezepy/_ssq_cwt.py:ssq_cwt"]}
{"id": "C103", "title": "icwt(l1_norm=False) undoes cwt(l1_norm=False) exactly as in the L1 norm", "statement": "For a wavelet accepted in both norms, cwt(x, l1_norm=False) returns the rows of cwt(x, l1_norm=True) times sqrt(scale), and icwt of the former with l1_norm=False equals icwt of the latter with l1_norm=True, errors included, with one integral or two, for every scale type and padding.", "quantifier": "all signals, wavelets, scales, scale types, paddings", "why_tests_cant": "infinitely many inputs and real-valued weights", "anchors": ["ssqueezepy/_cwt.py:cwt", "ssqueezepy/_cwt.py:icwt", "ssqueezepy/_cwt.py:_icwt_norm"]}
{"id": "C104", "title": "icwt after cwt is a zero-phase filter with a known response", "statement": "For any signal and padding and any log-spaced scales, icwt(cwt(x)) (L1 norm, one integral) equals the padded signal, cut to x's length, with its DFT multiplied by a real gain: the wavelet summed over the scales at that bin's frequency (and its negative), times ln 2/nv/Css. No cross-talk between frequencies, no phase shift; the zero frequency is replaced by x_mean.", "quantifier": "every real signal, padding scheme, wavelet with real spectrum (analytic or not), log scales, Css", "why_tests_cant": "a round-trip test checks a few signals to a loose tolerance; it cannot tell a filter from signal-dependent distortion", "anchors": ["ssqueezepy/_cwt.py:icwt", "ssqueezepy/_cwt.py:cwt", "ssqueezepy/_cwt.py:_icwt_norm"]}
{"id": "C105", "title": "The round trip reproduces the signal within a stated error", "statement": "icwt(cwt(x)) and issq_cwt(ssq_cwt(x)) differ from x (about its mean) by at most a stated fraction in root mean square when the signal's spectrum lies inside the scale range: 3% for the default wavelet with at least 32 voices and the library's own admissibility constant; for issq_cwt additionally at most gamma per scale for the coefficients under the threshold.", "quantifier": "every signal and padding whose occupied DFT bins are inside the scale range, every GMW with beta, gamma > 0, every log scale range, every number of voices", "why_tests_cant": "tests measure the error on a handful of signals; the bound is over all of them and needs the quadrature error of the scale sum, the wavelet's tails and the error of adm_ssq", "anchors": ["ssqueezepy/_cwt.py:icwt", "ssqueezepy/_ssq_cwt.py:issq_cwt", "ssqueezepy/utils/cwt_utils.py:adm_ssq", "ssqueezepy/utils/cwt_utils.py:make_scales"]}
{"id": "C106", "title": "packed_poly and poly_cubic hold their documented bands at every N", "statement": "TestSignals.packed_poly(N) and poly_cubic(N) are sums of three frequency-modulated components over 10 seconds whose instantaneous frequencies are below half the sampling rate, in a fixed order, and occupy the same place in the time-frequency plane (frequency relative to the sampling rate) whatever N.", "quantifier": "every N, every time", "why_tests_cant": "the tests plot the signals for one N; the claim is about continuous-time frequencies for all N", "anchors": ["ssqueezepy/_test_signals.py:TestSignals.packed_poly", "ssqueezepy/_test_signals.py:TestSignals.poly_cubic"]}
{"id": "C107", "title": "The phase transform's error is the spread of the row's spectrum", "statement": "For any signal and padding, phase_cwt at a row and time misses any frequency F by at most the sum over DFT bins of |bin frequency - F| times the bin's level in that row, divided by |Wx|. So where one component dominates a row, |Wx| is that component's level and the phase transform is its frequency, up to a stated relative error: for the default wavelet and other components at least an octave away, within a millionth of their relative size.", "quantifier": "every real signal, padding, wavelet with real spectrum, scale, time and reference frequency; every number of components", "why_tests_cant": "tests look at the ridge of a few two-component signals by eye; the interference bound is over all signals and needs the wavelet's decay", "anchors": ["ssqueezepy/_ssq_cwt.py:phase_cwt", "ssqueezepy/_cwt.py:cwt"]}
{"id": "C108", "title": "Synchrosqueezing separates components", "statement": "ssq_cwt adds each coefficient above gamma, times ln2/nv, to the row whose ssq_freqs is nearest its phase transform in octaves, and adds nothing else. For a sum of any number of tones at least three octaves apart, with the default wavelet, every entry of Tx further than one row from a tone's frequency is exactly 0, and issq_cwt with one band about each tone's row returns the tones one by one, each within 3% of its amplitude plus a multiple of gamma, and a remainder of exactly 0.", "quantifier": "every number of tones, amplitudes, phases and frequencies three octaves apart inside the scales, log scales with at least 32 voices, threshold, bands covering one tone's rows each", "why_tests_cant": "tests invert one or two specific signals and compare by a loose norm; exact zeros and the bound hold for all of them", "anchors": ["ssqueezepy/_ssq_cwt.py:ssq_cwt", "ssqueezepy/_ssq_cwt.py:issq_cwt", "ssqueezepy/ssqueezing.py:ssqueeze", "ssqueezepy/_ssq_cwt.py:_invert_components"]}
{"id": "C109", "title": "Arguments the synchrosqueezing functions accept are usable", "statement": "ssq_cwt, ssqueeze and ssq_stft refuse a bad squeezing, maprange, difftype, difforder or transform with ValueError or TypeError before computing anything, accept exactly the documented values, and an accepted value does not make the call fail or misplace energy later.", "quantifier": "every Python value of every argument, in every combination", "why_tests_cant": "tests try a handful of bad values; which values slip through a chain of isinstance checks is a question about all of them", "anchors": ["ssqueezepy/ssqueezing.py:_check_ssqueezing_args", "ssqueezepy/ssqueezing.py:_ssq_freqrange", "ssqueezepy/ssqueezing.py:_compute_associated_frequencies", "ssqueezepy/ssqueezing.py:ssqueeze"]}
{"id": "C110", "title": "NaN and infinite samples count as zeros, and the caller's array is left alone", "statement": "cwt of a signal with NaN or infinite samples is cwt of the same signal with zeros in their place, with a warning exactly if there is such a sample; nan_checks=False turns the check off; finite signals are transformed as they are; the caller's array is not modified.", "quantifier": "all 1-D and 2-D arrays with any mixture of finite, infinite and NaN entries, all wavelets and options, all orders", "why_tests_cant": "the test is on the maximum and minimum only, which must catch every placement of every kind of bad sample; tests try one", "anchors": ["ssqueezepy/_cwt.py:cwt", "ssqueezepy/algos.py:replace_at_inf_or_nan", "ssqueezepy/_cwt.py:cwt_higher_order"]}
{"id": "C111", "title": "cwt transforms with the GMW normalisation l1_norm asks for", "statement": "cwt with a GMW wavelet, however given (name, tuple, instance) and of whatever order, uses norm='bandpass' if l1_norm else 'energy', or raises ValueError; a call's wavelet depends only on its own arguments, and the caller's dictionary is not modified.", "quantifier": "all wavelet arguments, parameter dictionaries, configurations, orders, and sequences of calls with the same tuple", "why_tests_cant": "it is about sequences of calls sharing an argument and all parameter dictionaries", "anchors": ["ssqueezepy/_cwt.py:_process_gmw_wavelet", "ssqueezepy/_cwt.py:cwt", "ssqueezepy/_cwt.py:cwt_higher_order", "ssqueezepy/wavelets.py:_fn_to_name"]}
{"id": "C112", "title": "The sampling rate only relabels frequencies", "statement": "ssq_cwt of the same samples with fs (and any given frequencies) multiplied by c returns the same Tx, Wx and scales; ssq_freqs, dWx and w are multiplied by c.", "quantifier": "all signals, wavelets, rates, scale and frequency arguments, factors c > 0", "why_tests_cant": "tests compare a few rates on one signal; thresholds on absolute quantities hidden in grid construction only matter for some units", "anchors": ["ssqueezepy/_ssq_cwt.py:ssq_cwt", "ssqueezepy/ssqueezing.py:_compute_associated_frequencies", "ssqueezepy/_ssq_cwt.py:phase_cwt", "ssqueezepy/utils/cwt_utils.py:infer_scaletype"]}
{"id": "C113", "title": "Scaling the signal scales the synchrosqueezed transform", "statement": "ssq_cwt(al*x) = al*ssq_cwt(x) in Tx, Wx and dWx, with the same w, ssq_freqs and scales (absolute value of al in Tx for squeezing='abs'); if gamma is not scaled with the signal this fails for quiet signals.", "quantifier": "all signals, wavelets, options, nonzero real factors", "why_tests_cant": "the threshold is absolute, so the answer depends on the magnitude of every coefficient", "anchors": ["ssqueezepy/_ssq_cwt.py:ssq_cwt", "ssqueezepy/ssqueezing.py:ssqueeze", "ssqueezepy/algos.py:ssqueeze_fast"]}
{"id": "C114", "title": "Shifting or reversing the signal shifts or reverses the synchrosqueezed transform", "statement": "Rotating an unpadded signal rotates the columns of Tx, Wx, dWx, w; delaying a zero-padded signal by k samples of silence moves the columns by k; reversing the signal reverses the columns of Tx and Wx and conjugates them.", "quantifier": "all signals, shifts, wavelets (with real spectrum for reversal), padding types, options", "why_tests_cant": "needs every shift and length, and the interplay of padding widths with parity", "anchors": ["ssqueezepy/_ssq_cwt.py:ssq_cwt", "ssqueezepy/_cwt.py:cwt", "ssqueezepy/utils/common.py:p2up", "ssqueezepy/utils/common.py:padsignal"]}
{"id": "C115", "title": "ssq_stft puts a tone of a bin's frequency in that bin alone", "statement": "For x[t] = A cos(2 pi m t/n_fft + phi), even n_fft and a window whose spectrum vanishes more than b bins away from its centre (Hann: b = 1), at every frame wholly inside the signal: phase_stft is m fs/n_fft wherever Sx is not zero; Tx is zero in all rows but the one whose ssq_freqs entry is m fs/n_fft, and with a threshold below the window's coefficients holds fs*window[n_fft//2]*A/2*exp(i phase) there; issq_stft(Tx) then returns fs times the tone.", "quantifier": "all amplitudes, phases, signal lengths, hops, rates, even n_fft, bins m with b < m and m + b < n_fft/2, windows of that kind, orders of accumulation, flipped or not", "why_tests_cant": "every length, bin, phase and hop; a test sees a plot or a tolerance, not that all other rows are exactly zero", "anchors": ["ssqueezepy/_stft.py:stft", "ssqueezepy/_ssq_stft.py:ssq_stft", "ssqueezepy/_ssq_stft.py:phase_stft", "ssqueezepy/_ssq_stft.py:_make_Sfs", "ssqueezepy/_ssq_stft.py:issq_stft"]}
{"id": "C116", "title": "The frequencies assigned to stft's rows are those of its bins for odd n_fft too", "statement": "For odd n_fft, phase_stft of a tone m fs/n_fft is m fs/n_fft, i.e. row k of stft is labelled k fs/n_fft by _make_Sfs.", "quantifier": "all tones, windows and odd n_fft", "why_tests_cant": "tests use even n_fft; the error is small and depends on the row", "anchors": ["ssqueezepy/_ssq_stft.py:_make_Sfs", "ssqueezepy/_ssq_stft.py:phase_stft"]}
{"id": "C117", "title": "cwt's rows have bounded energy", "statement": "Without cropping, the energy of row i of Wx is (1 for l1_norm, scales[i] for L2)/n times the sum over frequencies of |psih(scales[i] xi)|^2 |fft(xp)|^2, and likewise for dWx with (xi fs)^2; in any case it is at most that gain times the square of the wavelet's peak times the energy of the padded signal, and so rows of the transforms of two signals differ by at most that for the padded difference.", "quantifier": "all signals, wavelets with real spectra, scales, padding, norms", "why_tests_cant": "a bound over every signal and wavelet", "anchors": ["ssqueezepy/_cwt.py:cwt"]}
{"id": "C118", "title": "cwt determines the signal up to its mean, and no further", "statement": "If two signals have the same Wx (unpadded, or padded and returned whole), and at each nonzero frequency some scale's wavelet does not vanish, they differ by a constant; conversely adding a constant does not change Wx for wavelets vanishing at zero frequency, for every padding except with zeros. For every GMW and any positive scales both hold.", "quantifier": "all pairs of signals, wavelets, scales, options", "why_tests_cant": "injectivity over all pairs of signals", "anchors": ["ssqueezepy/_cwt.py:cwt", "ssqueezepy/utils/common.py:padsignal", "ssqueezepy/_gmw.py:gmw"]}
{"id": "C119", "title": "extract_ridges returns several components in order of strength", "statement": "If curve k of Tf carries, at every time, more energy than every row outside the bands (bw rows either side) of the curves before it, by a factor large beside the penalty paid by the curves' own jumps, then extract_ridges(Tf, scales, penalty, n_ridges, bw) returns curve k as its k-th ridge at every time, with the scale of its row and the energy |Tf|^2 found there, however strong the other components and the background are below that factor.", "quantifier": "all Tf, scales, penalties >= 0, n_ridges, bw >= 0, curves at least bw rows from the top and ending below row number n_times, serial and every parallel schedule, float32 or float64 eps", "why_tests_cant": "Tests run two fixed synthetic signals and look at plots or a loose error; the claim is about every matrix with that separation and every row count, path and schedule.", "anchors": ["ssqueezepy/ridge_extraction.py:11-146", "ssqueezepy/ridge_extraction.py:149-232"]}
{"id": "C120", "title": "ssq_cwt, extract_ridges and issq_cwt together take a chord apart", "statement": "For a chord of sinusoids at least three octaves apart, in decreasing order of amplitude, let Tx, ..., ssq_freqs, scales = ssq_cwt(x) (default wavelet, log scales inside which the tones lie, 32 voices or more, unpadded) and ridge_idxs = extract_ridges(Tx, scales, penalty, n_ridges=M, bw). Then ridge r stays within one row of the row nearest tone r's frequency at every time (exactly on it when every tone is near the middle of its row), and issq_cwt(Tx, cc=ridge_idxs, cw=v) with any v between 2 and bw returns tone r as component r within 3% plus a multiple of the threshold, and a zero remainder.", "quantifier": "all numbers of tones, amplitudes, phases, bins, lengths, sampling rates, penalties, bw, schedules; amplitudes in ratio above 3.2 (or just above 1.07 for centred tones); tones' rows at least bw from the top and numbered below the number of samples", "why_tests_cant": "Composes three stages over all chords; tests show two or three fixed signals and compare plots.", "anchors": ["ssqueezepy/_ssq_cwt.py:ssq_cwt", "ssqueezepy/ridge_extraction.py:extract_ridges", "ssqueezepy/_ssq_cwt.py:issq_cwt"]}
{"id": "C121", "title": "scales= and nv= accept exactly the documented forms", "statement": "process_scales, and with it cwt and ssq_cwt, accepts as a string for scales exactly 'log', 'log-piecewise' or 'linear', alone or followed by ':maximal', ':minimal' or ':naive', and as nv exactly None (meaning 32) or a positive integer in any numeric type (16, 16.0, True); the scales are then those of that kind and preset with that many voices, and nv is returned as an int. Any other string, number or type is refused with ValueError or TypeError before anything is computed.", "quantifier": "all strings, all Python values for nv, all wavelets, signal lengths and padding settings", "why_tests_cant": "Infinitely many strings and values; tests try three or four valid ones.", "anchors": ["ssqueezepy/utils/cwt_utils.py:process_scales", "ssqueezepy/utils/cwt_utils.py:_assert_positive_integer"]}
{"id": "C122", "title": "An nv that contradicts the scales array is refused", "statement": "If scales is an array, nv is accepted only if it agrees with the number of voices per octave the array has, and the returned nv is that number.", "quantifier": "all arrays, all values of nv", "why_tests_cant": "Needs all pairs of arrays and nv; tests pass nv=None or the matching nv.", "anchors": ["ssqueezepy/utils/cwt_utils.py:process_scales"]}
{"id": "C123", "title": "A test signal's title names the parameters it was made with", "statement": "The title TestSignals puts on a signal shows N, and every frequency parameter, with the value the signal was generated with; in particular for a chirp with fmax left out, the fmax shown is the one that reproduces the signal.", "quantifier": "all signals, parameters, lengths", "why_tests_cant": "Tests only check that plotting does not crash.", "anchors": ["ssqueezepy/_test_signals.py:TestSignals._title", "ssqueezepy/_test_signals.py:TestSignals._process_varname_alias"]}
{"id": "C124", "title": "A Wavelet object is used as it is", "statement": "Every function taking wavelet= uses an instance of Wavelet (or of a class derived from it, or of Wavelet as loaded again) as it is, and makes a Wavelet from anything else.", "quantifier": "all objects and classes", "why_tests_cant": "Tests pass strings, tuples and direct instances only.", "anchors": ["ssqueezepy/wavelets.py:isinstance_by_name", "ssqueezepy/wavelets.py:Wavelet._init_if_not_isinstance"]}
{"id": "C125", "title": "Ridges ignore gains and units", "statement": "extract_ridges returns the same ridge indices when every column of Tf (every time) is multiplied by its own nonzero complex number, and when the scales or frequencies are given in another unit; the returned energies and frequencies change by exactly those factors.", "quantifier": "all transforms, scales, penalties, numbers of ridges, bandwidths, parallel or not, all schedules", "why_tests_cant": "Tests run one signal in one unit; invariance under every per-column gain and every unit, with any schedule, cannot be sampled.", "anchors": ["ssqueezepy/ridge_extraction.py:extract_ridges"]}
{"id": "C126", "title": "The ridge penalty trades energy for smoothness", "statement": "Between two penalties, the larger gives a ridge with no larger sum of squared (log-)scale steps and no more energy, up to the tolerance of the backward pass; penalty 0 follows the largest energy of every column; a large enough penalty gives a constant row, the best one.", "quantifier": "all transforms, scales, pairs of penalties, schedules", "why_tests_cant": "A statement about all pairs of penalties and every transform; tests look at plots for one penalty.", "anchors": ["ssqueezepy/ridge_extraction.py:extract_ridges"]}
{"id": "C127", "title": "Wrap padding of a power of two of samples is the circular transform", "statement": "For a signal whose length is a power of two, cwt(x, padtype='wrap') returns the same Wx, scales and dWx as cwt(x, padtype=None), for every wavelet with real Fourier transform, every scales and both norms.", "quantifier": "all signals of power-of-two length, wavelets, scales, norms, sampling rates", "why_tests_cant": "An identity between two FFT sizes for every signal and wavelet; sampling cannot show it and no test compares the two.", "anchors": ["ssqueezepy/_cwt.py:cwt", "ssqueezepy/utils/common.py:padsignal"]}
{"id": "C128", "title": "icwt(one_int=False) after cwt is a zero-phase filter with the squared wavelets as response", "statement": "icwt(cwt(x), one_int=False) returns x filtered circularly by the sum over scales of the squared wavelet transforms (positive and negative frequency together) times ln2/nv/Cpsi, plus x_mean; hence x - mean(x) is recovered up to how flat that sum is.", "quantifier": "all signals, wavelets, log scales, Cpsi, x_mean", "why_tests_cant": "The existing test compares a relative error on one signal with a tolerance; the exact response for all signals cannot be read off that.", "anchors": ["ssqueezepy/_cwt.py:icwt", "ssqueezepy/_cwt.py:_icwt_2int"]}
{"id": "C129", "title": "stft is linear and ssq_stft scales with the signal", "statement": "stft(a*x + b*y) = a*stft(x) + b*stft(y), dSx included, for every window, n_fft, hop_len and padtype; ssq_stft(a*x, gamma=|a|*gamma) = a*ssq_stft(x, gamma) with the same ssq_freqs and Sfs ('sum': any nonzero a; 'abs': a > 0).", "quantifier": "all signals, windows, hops, paddings, factors, thresholds, execution orders", "why_tests_cant": "An identity over all signals and all factors; ssq_stft is not linear, so only a proof separates this from accidental agreement.", "anchors": ["ssqueezepy/_stft.py:stft", "ssqueezepy/_ssq_stft.py:ssq_stft"]}
{"id": "C130", "title": "A column of stft and ssq_stft depends only on the samples under its window", "statement": "If column h of one signal and column h' of another (of any lengths) cover the same n_fft samples without padding, then stft and ssq_stft give equal columns, in Tx too; in particular dropping s hops of samples from the front shifts the columns by s.", "quantifier": "all pairs of signals, columns, windows, hops, squeezings other than user functions", "why_tests_cant": "Quantifies over everything outside the window and over all shifts.", "anchors": ["ssqueezepy/_stft.py:stft", "ssqueezepy/_ssq_stft.py:ssq_stft"]}
{"id": "C131", "title": "The sampling rate only relabels ssq_stft's frequencies", "statement": "With modulated=True and ssq_freqs=None, multiplying fs by c leaves Sx unchanged, multiplies dSx, Sfs and ssq_freqs by c and multiplies Tx by c (the bin width).", "quantifier": "all signals, rates and factors whose bin width is at least machine epsilon, windows, hops, squeezings other than user functions", "why_tests_cant": "Equality of the reassignment at every cell for every pair of rates.", "anchors": ["ssqueezepy/_ssq_stft.py:ssq_stft", "ssqueezepy/_ssq_stft.py:_make_Sfs", "ssqueezepy/algos.py:phase_stft_cpu"]}
{"id": "C132", "title": "Energy of stft", "statement": "Counting each bin together with its mirror image, sum |Sx|^2 over a column is n_fft times the energy of the windowed frame; over all columns it is n_fft times the padded signal's energy weighted by the sum of the squared windows over each sample; with padtype='zero' it lies between n_fft*lo*|x|^2 and n_fft*hi*|x|^2 for the least and greatest weight lo, hi.", "quantifier": "all signals, windows, hops, n_fft even or odd, paddings", "why_tests_cant": "Exact identity and two-sided bound for all signals; says that no signal is lost where windows cover.", "anchors": ["ssqueezepy/_stft.py:stft"]}
{"id": "C133", "title": "Time reversal conjugates stft and ssq_stft", "statement": "For a window symmetric about n_fft/2, a column which sees another column's samples in reverse order has the conjugate Sx, minus the conjugate dSx and the conjugate Tx; in particular ssq_stft(x[::-1]) is conj(ssq_stft(x))[:, ::-1] away from the ends (hop_len=1, even n_fft, window zero at its first sample).", "quantifier": "all signals, symmetric windows, columns; 'sum' and 'abs' squeezing", "why_tests_cant": "Symmetry for all signals through a nonlinear reassignment.", "anchors": ["ssqueezepy/_stft.py:stft", "ssqueezepy/_ssq_stft.py:ssq_stft", "ssqueezepy/_stft.py:get_window"]}
{"id": "C134", "title": "modulated=False finds the same frequencies as modulated=True", "statement": "ssq_stft's phase transform w does not depend on modulated: Sx changes by a phase factor per row only.", "quantifier": "all signals, windows, hops, rates", "why_tests_cant": "Tests use fs=1 or modulated=True; the failure needs both off.", "anchors": ["ssqueezepy/_stft.py:stft", "ssqueezepy/algos.py:phase_stft_cpu"]}
{"id": "C135", "title": "Tick labels of imshow/plot tell the values at their rows", "statement": "imshow(..., xticks=v, yticks=v) puts 8 ticks, the first on row 0 and the last on row len(v)-1, in increasing order when len(v) >= 8; each is labelled with v at its row to within 1/200, exactly when all values are integers; so different values (ssq_freqs, scales) can be read off the axis.", "quantifier": "all non-empty sequences of values", "why_tests_cant": "Rounding at every row of every sequence; plots are not asserted on at all.", "anchors": ["ssqueezepy/visuals.py:_ticks", "ssqueezepy/visuals.py:_fmt", "ssqueezepy/visuals.py:imshow"]}
{"id": "C136", "title": "Frequency axes of the wavelet plots are right", "statement": "In wavelet_filterbank, wavelet_heatmap, viz_gmw_orders and wavelet_tf a sample of the wavelet's spectrum is drawn at (or labelled with) the radian frequency at which it was evaluated.", "quantifier": "all N and all sample indices", "why_tests_cant": "Off-by-one in an axis is invisible to the smoke tests which only call the functions.", "anchors": ["ssqueezepy/visuals.py:wavelet_filterbank", "ssqueezepy/visuals.py:wavelet_heatmap", "ssqueezepy/visuals.py:viz_gmw_orders", "ssqueezepy/visuals.py:wavelet_tf"]}
{"id": "C137", "title": "plots draws every pair and every line asked for", "statement": "plots(X, Y, nrows, ncols) draws every pair (X[i], Y[i]) once and in order, whatever the grid; vlines/hlines given as a number, a list, an array or a (value, options) tuple are all drawn.", "quantifier": "all sequences X, Y, all grids, all line arguments", "why_tests_cant": "Dropped items raise no error; needs all lengths and grids.", "anchors": ["ssqueezepy/visuals.py:plots", "ssqueezepy/visuals.py:plot", "ssqueezepy/visuals.py:_vhlines"]}
{"id": "C138", "title": "wavelet_tf_anim never overwrites a file", "statement": "The path wavelet_tf_anim saves to does not exist beforehand, whatever files the directory holds and whatever savepath is, and it is savepath or savepath with a number added to its stem.", "quantifier": "all directory contents, all savepaths", "why_tests_cant": "Quantifies over directory contents; a wrong answer destroys a file silently.", "anchors": ["ssqueezepy/visuals.py:wavelet_tf_anim"]}
{"id": "C139", "title": "imshow's colour limits hold all the data", "statement": "With norm=None and norm_scaling=1 the colour limits contain every |z| (abs=1) or every real and imaginary part (abs=0) of the data, and the upper limit is attained by the largest magnitude.", "quantifier": "all non-empty real or complex arrays", "why_tests_cant": "All arrays; clipping is not visible to a test.", "anchors": ["ssqueezepy/visuals.py:imshow"]}
{"id": "C140", "title": "The animation runs through its scales in order", "statement": "For at least two nondecreasing scales, the scales animated by wavelet_tf_anim are nondecreasing, begin with the first and end with the last given scale, stay between them, and include every given scale away from the two ends.", "quantifier": "all nondecreasing sequences of at least two scales", "why_tests_cant": "All lengths; the splice of three pieces depends on len(scales).", "anchors": ["ssqueezepy/visuals.py:wavelet_tf_anim"]}
{"id": "C141", "title": "wavelet_tf finds a scale that shows well", "statement": "With scale=None the scale picked has a time resolution strictly between 65N/2048 and 75N/2048, and one is found whenever time resolution is proportional to scale and such a scale lies within 101 steps of 1.1.", "quantifier": "all N, starting scales, proportional resolutions", "why_tests_cant": "Termination of a search over all starting points.", "anchors": ["ssqueezepy/visuals.py:wavelet_tf"]}
{"id": "C142", "title": "plot shows its whole curve", "statement": "After plot(...) the horizontal limits contain the curve, also when several curves are drawn on the same axes, and ax_equal=True may be combined with xlims.", "quantifier": "all data ranges, all numbers of plots on the same axes", "why_tests_cant": "The limits depend on the history of calls; nothing raises when a curve is cut.", "anchors": ["ssqueezepy/visuals.py:_scale_plot", "ssqueezepy/visuals.py:plot"]}
{"id": "C143", "title": "istft is the least-squares inverse", "statement": "For an array Tx that need not be any signal's stft (e.g. a modified stft), istft(Tx) with the default win_exp=1 is the signal whose stft is nearest to Tx: for every signal x of the same length, sum |stft(x) - Tx|^2 over all bins (mirrored ones included) exceeds that of istft(Tx) by n_fft * sum_i s_i (x_i - istft(Tx)_i)^2, s_i the squared window values over sample i; for any win_exp it is given by the docstring's equation.", "quantifier": "all arrays, windows, hops, lengths and modulated settings; all competing signals", "why_tests_cant": "Optimality over all signals; tests only invert arrays that are an stft.", "anchors": ["ssqueezepy/_stft.py:istft", "ssqueezepy/_stft.py:stft", "ssqueezepy/utils/stft_utils.py:unbuffer", "ssqueezepy/utils/stft_utils.py:window_norm"]}
{"id": "C144", "title": "istft is linear", "statement": "istft(c*S + d*T) = c*istft(S) + d*istft(T) for real c, d and arrays S, T of the same shape, any window, hop, win_exp and modulated.", "quantifier": "all arrays of one shape, all real coefficients, all settings where no window sum equals the smallest float exactly", "why_tests_cant": "All arrays and coefficients; the branch on small window sums must not depend on the data.", "anchors": ["ssqueezepy/_stft.py:istft"]}
{"id": "C145", "title": "istft does not amplify errors", "statement": "With win_exp=1, n_fft * sum_i s_i (istft(S)_i - istft(T)_i)^2 <= sum |S - T|^2 over all bins, s_i the squared window values over sample i: a change of the array changes the signal by no more than its own energy.", "quantifier": "all pairs of arrays of one shape, all windows, hops and lengths with positive window sums", "why_tests_cant": "A bound over all pairs of arrays.", "anchors": ["ssqueezepy/_stft.py:istft"]}
{"id": "C146", "title": "ssq_stft takes a chord apart and issq_stft returns each tone", "statement": "For a sum of tones in different frequency bins, ssq_stft puts each tone into the one row of its own frequency, with magnitude fs*|A|/2*window[n_fft//2] and the tone's phase, and leaves every other row empty (away from the signal's ends, or everywhere with padtype='wrap' and a length that is a multiple of n_fft); issq_stft with (cc, cw) bands around those rows returns fs times each tone as its own component and a zero remainder, and without bands fs times the signal.", "quantifier": "all numbers of tones, amplitudes, phases, bins, windows with a limited lobe, even n_fft, execution orders, flipud and gamma below every coefficient", "why_tests_cant": "Exactness for every chord, window and execution order; a test compares one signal within a tolerance.", "anchors": ["ssqueezepy/_ssq_stft.py:ssq_stft", "ssqueezepy/_ssq_stft.py:issq_stft", "ssqueezepy/_ssq_stft.py:phase_stft", "ssqueezepy/ssqueezing.py:ssqueeze", "ssqueezepy/_ssq_cwt.py:_invert_components"]}
{"id": "C147", "title": "ssq_stft, extract_ridges and issq_stft together take a chord apart", "statement": "For a sum of tones in bins further apart than extract_ridges' bw and the window's lobe, each stronger than the next, with padtype='wrap' and a length that is a multiple of n_fft: extract_ridges on ssq_stft's Tx returns the tones' rows, one ridge per tone in order of strength, constant in time, with the tones' frequencies and energies; issq_stft along those ridges returns fs times each tone at every sample and a zero remainder.", "quantifier": "all numbers of tones, amplitudes, phases, bins, limited-lobe windows, execution orders and thread schedules, penalties, scales arrays, flipud, lengths", "why_tests_cant": "Exactness of a three-stage pipeline for all chords and schedules; tests check one noisy signal visually.", "anchors": ["ssqueezepy/_ssq_stft.py:ssq_stft", "ssqueezepy/_ssq_stft.py:issq_stft", "ssqueezepy/ridge_extraction.py:extract_ridges"]}
{"id": "C148", "title": "cwt's dWx is the time derivative of Wx", "statement": "With rpadded=True or padtype=None, each row of dWx returned by cwt(derivative=True) is the exact derivative, at the sample times j/fs, of the trigonometric polynomial (frequencies in (-pi*fs, pi*fs]) through the same row of Wx, whatever wavelet, norm, cache and vectorisation; so trigdiff applied to that Wx returns dWx, and the default call's dWx is trigdiff of the padded transform cut to the signal.", "quantifier": "all wavelets (real or complex), signals, scales, fs or t, norms, cache states, column windows", "why_tests_cant": "Tests compare trigdiff with dWx numerically on one or two signals; that dWx is a derivative of the rows for every wavelet and every cached array is an identity between infinitely many transforms.", "anchors": ["ssqueezepy/_cwt.py:cwt", "ssqueezepy/utils/cwt_utils.py:_process_fs_and_t", "ssqueezepy/_ssq_cwt.py:phase_cwt", "ssqueezepy/utils/common.py:trigdiff"]}
{"id": "C149", "title": "Rows of cwt are analytic signals", "statement": "With a wavelet that is real and zero at non-positive frequencies (gmw, the default), real input and rpadded=True or padtype=None, every row of Wx has zero mean and no negative frequencies: its imaginary part is the discrete Hilbert transform of its real part, the two parts are orthogonal, and their energies are equal for odd lengths and differ for even lengths by exactly the energy of the Nyquist bin, in favour of the real part.", "quantifier": "all such wavelets, signals, positive scales, norms, lengths of either parity", "why_tests_cant": "abs(Wx) is the envelope and angle(Wx) the phase only if this holds for all inputs; tests look at a few signals and never at the even/odd difference.", "anchors": ["ssqueezepy/_cwt.py:cwt", "ssqueezepy/wavelets.py:_halve_nyquist", "ssqueezepy/wavelets.py:_xifn"]}
{"id": "C150", "title": "Transforms of one band-limited periodic signal at two sampling rates agree", "statement": "Sample one period of a real signal whose frequencies lie below both Nyquist rates at n and at n' points, pass fs (or t) accordingly, padtype=None, and scales that last the same number of seconds: then Wx and dWx agree at every common instant (norm='L1'; with 'L2' after dividing by the square root of the scale), and so do Tx and ssq_freqs of ssq_cwt when ssq_freqs is given in Hz.", "quantifier": "all signals (mean, number of components, amplitudes, phases, harmonics), both sample counts, all real one-sided wavelets, scales and gamma", "why_tests_cant": "The claim relates runs at different lengths and rates for every band-limited signal; tests use one rate per signal.", "anchors": ["ssqueezepy/_cwt.py:cwt", "ssqueezepy/_ssq_cwt.py:ssq_cwt", "ssqueezepy/ssqueezing.py:ssqueeze", "ssqueezepy/utils/cwt_utils.py:_process_fs_and_t"]}
{"id": "C151", "title": "The synchrosqueezed round trip is stable under perturbation of the signal", "statement": "For two signals of the same length, the outputs of issq_cwt(ssq_cwt(x)) and issq_cwt(ssq_cwt(y)) (same options, squeezing='sum', log scales) differ at every sample by at most (2/|Css|) * (ln 2/nv) times the sum over scales of |Wx - Wy| + gamma, however differently their coefficients were reassigned; hence by at most (2/|Css|) * (ln 2/nv) * len(scales) * (P * ||pad(x - y)|| + gamma), P the wavelet's peak. The gamma term is needed: the output jumps when a coefficient crosses gamma.", "quantifier": "all pairs of signals, wavelets, log scales, ssq_freqs, gamma >= 0, difftypes 'trig' and 'phase', get_w, padtype, schedules", "why_tests_cant": "Reassignment is discontinuous in the signal, so a sampled comparison of two noisy runs bounds nothing; the claim is a uniform bound over all pairs of signals.", "anchors": ["ssqueezepy/_ssq_cwt.py:ssq_cwt", "ssqueezepy/_ssq_cwt.py:issq_cwt", "ssqueezepy/ssqueezing.py:ssqueeze", "ssqueezepy/algos.py:ssqueeze_fast"]}
{"id": "C152", "title": "The ssq_stft round trip is stable under perturbation of the signal", "statement": "For two signals that differ by at most e at every sample, the outputs of issq_stft(ssq_stft(x)) and issq_stft(ssq_stft(y)) (same options, squeezing='sum', hop_len=1, modulated=True) differ at every sample by at most 2/|window[n_fft//2]| * (Sfs[1]-Sfs[0]) * len(Sfs) * (e * sum|window| + gamma), however differently their coefficients were reassigned. The gamma term is needed.", "quantifier": "all pairs of signals, windows, n_fft >= 3, win_len, padtypes, sampling rates, gamma, get_w, flipud and schedules", "why_tests_cant": "Reassignment is discontinuous in the signal; a uniform bound over all pairs of signals cannot be sampled.", "anchors": ["ssqueezepy/_ssq_stft.py:ssq_stft", "ssqueezepy/_ssq_stft.py:issq_stft", "ssqueezepy/_stft.py:stft", "ssqueezepy/algos.py:ssqueeze_fast"]}
{"id": "C153", "title": "cwt is convolution with the wavelet psifn returns; an impulse shows it", "statement": "For a real-valued frequency-domain wavelet, row i of cwt(x) is the circular convolution of the padded signal with Wavelet.psifn(scale=scales[i], N=padded length), centred at half its length (times sqrt(scale) for l1_norm=False). So the transform of an impulse c at sample p is c times the wavelet centred at p: conjugate symmetric about p, and of greatest modulus at p if the wavelet is nonnegative in frequency; phase_cwt at p is the wavelet-weighted mean frequency of the bins.", "quantifier": "all signals, real frequency-domain wavelets, scales, padtypes (impulse: none or zero), lengths, positions and heights of the impulse", "why_tests_cant": "Two pieces of code (the FFT product in cwt and the shifted inverse FFT in psifn) must agree for every signal, length and scale; tests compare a picture of one wavelet.", "anchors": ["ssqueezepy/_cwt.py:cwt", "ssqueezepy/wavelets.py:Wavelet.psifn", "ssqueezepy/_ssq_cwt.py:phase_cwt"]}
{"id": "C154", "title": "hop_len only thins out the columns of stft and ssq_stft", "statement": "With hop_len multiplied by q, column j of stft (and of its derivative, and of ssq_stft's Tx with the same frequencies) is column q*j of the transform with the original hop_len; nothing else changes.", "quantifier": "all signals, windows, n_fft, hop lengths, factors q, padtypes, modulated, squeezing modes that act per column, schedules", "why_tests_cant": "A relation between two calls for every pair of hops; tests use hop_len=1 mostly, and one other.", "anchors": ["ssqueezepy/_stft.py:stft", "ssqueezepy/_ssq_stft.py:ssq_stft", "ssqueezepy/utils/stft_utils.py:buffer"]}
{"id": "C155", "title": "A larger n_fft for the same window only adds rows", "statement": "With n_fft multiplied by m and the window kept (win_len given), row m*k of stft is row k of the original one, up to the phase of the window's position when modulated=False; the new rows lie between.", "quantifier": "all signals, windows, n_fft, multiples m, hops, padtypes", "why_tests_cant": "Padding of the signal, padding of the window and the FFT shift must cancel for every n_fft, win_len and multiple; tests fix one n_fft.", "anchors": ["ssqueezepy/_stft.py:stft", "ssqueezepy/_stft.py:get_window"]}
{"id": "C156", "title": "icwt, issq_cwt and issq_stft are linear in the transform they invert", "statement": "For arrays of the same shape, icwt(a*W + b*V, x_mean=a*m + b*k) = a*icwt(W, x_mean=m) + b*icwt(V, x_mean=k), for one or two integrals and log, linear or piecewise scales; issq_cwt and issq_stft likewise, for every component and the remainder; whether they raise depends on the shapes only. So icwt(cwt(x)) is linear in x, and an error in the coefficients changes each output sample by at most the step times the sum over rows of |error| / norm.", "quantifier": "all pairs of transforms of one shape, real factors a and b, wavelets, scale arrays, nv, norms, x_len, means, padtypes, components", "why_tests_cant": "An identity over all pairs of arrays and all options, including the recursion over piecewise scales; tests invert one transform at a time.", "anchors": ["ssqueezepy/_cwt.py:icwt", "ssqueezepy/_cwt.py:_icwt_2int", "ssqueezepy/_ssq_cwt.py:issq_cwt", "ssqueezepy/_ssq_cwt.py:_invert_components", "ssqueezepy/_ssq_stft.py:issq_stft"]}
{"id": "C157", "title": "ssqueeze reassigns linearly and never adds modulus to a column", "statement": "With the frequencies w given and squeezing='sum', ssqueeze(a*X + b*Y, w) = a*ssqueeze(X, w) + b*ssqueeze(Y, w) and all succeed together. For any squeezing the sum of |Tx| over a column is at most the sum of |Wx| times the weight over the coefficients reassigned. A column with no modulus above gamma gives a zero column. 'abs' gives a real array that bounds |Tx| of 'sum' cell by cell. If w is the frequency of each row, Tx is Wx times the weight: nothing moves.", "quantifier": "all transforms, frequency arrays, real factors, weights, schedules of the parallel loop, flip directions, linear and logarithmic frequency grids", "why_tests_cant": "Identities and bounds over all arrays and every order of the parallel accumulation; tests compare a few outputs.", "anchors": ["ssqueezepy/ssqueezing.py:ssqueeze", "ssqueezepy/algos.py:indexed_sum_onfly", "ssqueezepy/algos.py:ssqueeze_fast"]}
{"id": "C158", "title": "Wavelet parameters trade frequency resolution as documented", "statement": "'smaller beta: lower freq resolution': as a function of frequency over centre frequency and relative to its peak, the GMW of given gamma is one function to the power beta, so a greater beta gives a strictly lesser value at every frequency but the centre, a narrower band above any fraction of the peak, and in the end separates any two frequencies. 'Higher mu -> greater frequency resolution': the same for Morlet at r*mu relative to mu whenever 2r <= (r-1)^2 (exp(r mu^2) - 1), in particular in the recommended range mu >= 4 for r >= 1/2 a tenth or more from 1; 'for mu > 6 almost exactly Gaussian': within 2e-8 of its peak. bump's width is proportional to s, cmhat's to 1/s.", "quantifier": "all gamma, beta1 < beta2, mu1 < mu2, s > 0, all frequencies, both GMW norms", "why_tests_cant": "A comparison of functions of a real variable for all pairs of parameters; tests draw a few wavelets.", "anchors": ["ssqueezepy/_gmw.py:gmw_l1", "ssqueezepy/_gmw.py:gmw_l2", "ssqueezepy/_gmw.py:morsewave", "ssqueezepy/wavelets.py:morlet", "ssqueezepy/wavelets.py:bump", "ssqueezepy/wavelets.py:cmhat"]}
{"id": "C159", "title": "Alternating the signs of the samples turns stft and ssq_stft upside down", "statement": "Let x'[i] = (-1)^i x[i] (a shift by half the sampling rate) and n_fft be even. Then stft(x')[n/2-k, h] is, up to a sign depending on the column only, the conjugate of stft(x)[k, h], and the same for dSx, in every column whose window lies inside the signal, and in all columns when padding keeps parity (reflect, zero, or wrap with even length). Where a cell's instantaneous frequency w before abs lies within [0, fs/2], phase_stft finds fs/2 - w in the mirrored cell. With default ssq_freqs and squeezing='sum', if every cell of a column at or above gamma is so and not half-way between two rows, then Tx(x')[n/2-q, h] is up to the same sign the conjugate of Tx(x)[q, h].", "quantifier": "all non-empty real signals, even n_fft, hop lengths, windows, usable padtypes, modulated or not, preserve_transform / get_w paths, gammas, fs, parallel orders", "why_tests_cant": "An identity between outputs for all signals, windows and hops; it fails in particular columns if padding, the Nyquist row or the rounding of bins is wrong by one, which a test on one tone in one row does not see.", "anchors": ["ssqueezepy/_stft.py:stft", "ssqueezepy/_ssq_stft.py:ssq_stft", "ssqueezepy/_ssq_stft.py:phase_stft", "ssqueezepy/algos.py:indexed_sum_onfly", "ssqueezepy/utils/common.py:padsignal"]}
{"id": "C160", "title": "Ridges do not depend on the direction of time or the order of rows", "statement": "If, when extract_ridges seeks a ridge, one path of rows costs less than every other by more than (n_times-1)*eps, that path is the ridge. Hence, when this holds at every ridge, extract_ridges of a transform reversed in time (or with the moduli of one) returns the same ridges reversed: rows, frequencies and energies. And with the rows and the scales both in the opposite order, the first ridge has the same frequencies and energies, at the mirrored rows. Energy on a single curve with cheap jumps is such a case.", "quantifier": "all transforms with n_freqs <= n_times, penalties, scale arrays, bandwidths, numbers of ridges, schedules of the parallel loops (possibly different in the two calls)", "why_tests_cant": "The tracker runs forward then backward and resolves ties and near-ties by order; that the result does not depend on the direction is a statement over all paths and transforms.", "anchors": ["ssqueezepy/ridge_extraction.py:extract_ridges", "ssqueezepy/ridge_extraction.py:_accumulated_penalty_energy_fw", "ssqueezepy/ridge_extraction.py:_accumulated_penalty_energy_bw"]}
{"id": "C161", "title": "Weighting the rows of stft and inverting is a time-invariant filter", "statement": "With hop 1, multiply each row k of stft(x) by a weight M[k] (a mask, an equaliser) and call istft: away from the ends the result is the convolution of x with a fixed kernel, the inverse transform of the weights times the correlation of the two windows over the sum of win^(e+1), the same at every sample. With the default exponent 1, a tone of any frequency comes out multiplied by a complex gain which is an average of the weights (each weighted by the window's squared spectrum at the tone's distance from the bin); so real weights in [lo, hi] scale a tone by a factor in [lo, hi] without shifting it in time, |M| <= B never amplifies a tone by more than B, weights 1 change nothing, and with a rectangular window a tone on a bin gets exactly its row's weight.", "quantifier": "all signals, complex weights, windows, n_fft >= 3, padtypes, modulated or not, both dtypes' framing, exponents of the window, tone frequencies, amplitudes and phases, samples at least a window from the ends", "why_tests_cant": "A universal statement over signals, weights and frequencies; tests can compare a few filtered tones with tolerances.", "anchors": ["ssqueezepy/_stft.py:stft", "ssqueezepy/_stft.py:istft", "ssqueezepy/utils/stft_utils.py:buffer"]}
{"id": "C162", "title": "Selecting or weighting rows of cwt before icwt is a zero-phase filter", "statement": "Multiply row i of cwt(x) by a real weight m[i] (keep some scales, drop others) and call icwt (L1 norm, one integral, log scales): the result is the padded signal, cut to x's length, with its DFT multiplied by a real gain, the wavelets at that frequency weighted by m and summed, times ln 2/nv/Css, plus x_mean. Keeping adjacent rows gives the gain their scales alone would give. Weights in [lo, hi] give a gain between lo and hi times that of the plain round trip. For a sum of two signals, if the gain is within eps of 1 wherever the first has energy and of 0 wherever the second has, the result is the first (about its mean) within sqrt(2)*eps of the padded signals' deviations.", "quantifier": "all signals, paddings, wavelets with real spectrum, log scales, real weights, x_mean", "why_tests_cant": "Universal over signals, weights and wavelets; tests can only try a few masks with tolerances.", "anchors": ["ssqueezepy/_cwt.py:cwt", "ssqueezepy/_cwt.py:icwt", "ssqueezepy/_cwt.py:_icwt_1int"]}
{"id": "C163", "title": "gamma removes small coefficients from the synchrosqueezed transform, and nothing else", "statement": "With frequencies computed from dWx and squeezing='sum', ssqueeze(Wx, gamma=g) is what any smaller nonnegative gamma gives for Wx with the coefficients of modulus <= g set to zero: the threshold does not influence where the others go. Raising gamma from g1 to g2 subtracts exactly the squeezed transform of the coefficients with modulus in (g1, g2]; the moduli of the change in a column sum to at most g2 times the sum of the rows' weights.", "quantifier": "all transforms (CWT or STFT), derivative arrays, frequency arrays, scale kinds, flipud, thresholds, schedules of the parallel loops", "why_tests_cant": "Statement over all coefficient arrays and thresholds, including coefficients equal to the threshold.", "anchors": ["ssqueezepy/ssqueezing.py:ssqueeze", "ssqueezepy/algos.py:ssqueeze_fast"]}
{"id": "C164", "title": "Bounded noise does not move the ridges of stft", "statement": "Let y differ at every sample by at most e from a sum of tones in bins of their own (padtype='wrap', length a multiple of n_fft), each tone weaker than the one before by a factor, and e small beside every amplitude. Then extract_ridges(stft(y)[0], scales, penalty, n_ridges, bw) returns the tones' bins, one ridge per tone in order of strength, constant at every time, and each ridge's energy is the tone's within the noise. With a Hann window, e up to a sixteenth of the weakest amplitude and factor 2 suffice, whatever the noise looks like.", "quantifier": "all numbers of tones, amplitudes, phases, bins, limited-lobe windows, hops, noises of the bounded size, penalties, scales arrays, precisions and thread schedules", "why_tests_cant": "Tests add one random noise; the claim is for every noise of the size.", "anchors": ["ssqueezepy/_stft.py:stft", "ssqueezepy/ridge_extraction.py:extract_ridges"]}
{"id": "C165", "title": "Bounded noise sends no tone of ssq_stft to another row", "statement": "Let y differ at every sample by at most e from a sum of tones in bins of their own (padtype='wrap', length a multiple of n_fft), and e small beside every amplitude. Then ssq_stft(y) still puts every coefficient of a tone's lobe into the row of the tone's frequency: at every time that row is the clean signal's value, and every row that is no tone's is 0, up to the total the noise's own coefficients can contribute. With a Hann window e below a twentieth of the weakest amplitude suffices, whatever the noise looks like.", "quantifier": "all numbers of tones, amplitudes, phases, bins, limited-lobe windows, hops, noises of the bounded size, gammas below the coefficients, flipud, get_w, schedules", "why_tests_cant": "Reassignment divides by the coefficient and rounds to a row, so it is discontinuous in the signal; tests add one random noise, the claim is for every noise of the size.", "anchors": ["ssqueezepy/_ssq_stft.py:ssq_stft", "ssqueezepy/_ssq_stft.py:phase_stft", "ssqueezepy/ssqueezing.py:ssqueeze"]}
{"id": "C166", "title": "preserve_transform changes the returned Wx (Sx) only", "statement": "ssq_stft and ssq_cwt return the same Tx, ssq_freqs, Sfs or scales, w and dWx whatever preserve_transform is and whether a squeezing function works in place or returns a new array. With preserve_transform true (the NumPy default) the returned Wx (Sx) is exactly what cwt (stft) computed; otherwise it is that too, unless a user's squeezing function writes into its argument, and then it is what the function left there.", "quantifier": "all signals, options, squeezing functions with any in-place effect on their argument, preserve_transform None/True/False, CPU and tensor defaults, schedules", "why_tests_cant": "The option only matters for squeezing functions with side effects, and a test would have to try all such functions and all aliasings.", "anchors": ["ssqueezepy/_ssq_stft.py:ssq_stft", "ssqueezepy/_ssq_cwt.py:ssq_cwt", "ssqueezepy/ssqueezing.py:ssqueeze"]}
{"id": "C167", "title": "Arrays returned by ssq_cwt and ssq_stft are the caller's own", "statement": "After ssq_cwt or ssq_stft returned, no array that existed before has changed, and writing into one returned array changes no other returned array and none of the caller's inputs.", "quantifier": "all calls, options, and later writes", "why_tests_cant": "Whether arrays share memory shows only when something is written later; tests compare values right after the call.", "anchors": ["ssqueezepy/_ssq_stft.py:ssq_stft", "ssqueezepy/_ssq_cwt.py:ssq_cwt", "ssqueezepy/ssqueezing.py:ssqueeze", "ssqueezepy/utils/cwt_utils.py:process_scales"]}
{"id": "C168", "title": "issq_stft takes a noisy chord apart with an error in proportion to the noise", "statement": "Let the signal be tones on separate bins plus any disturbance of at most e per sample, e below a twentieth of each amplitude, with a Hann window as long as n_fft, hop 1 and wrap padding. Then issq_stft with components that hold each tone's row and no other's returns each tone to within rate*(n_fft/2+1)*e at every sample, the residual is at most that, and without components it returns the (rate-scaled) noisy signal to within rate*(n_fft/2+2)*e.", "quantifier": "all numbers of tones, amplitudes, phases, bins, disturbances, signal lengths (multiples of n_fft), sampling rates, component bands, schedules", "why_tests_cant": "A disturbance can send coefficients of empty rows anywhere; a test tries a few noise realisations, the claim is about all of them.", "anchors": ["ssqueezepy/_ssq_stft.py:ssq_stft", "ssqueezepy/_ssq_stft.py:issq_stft", "ssqueezepy/ssqueezing.py:ssqueeze"]}
{"id": "C169", "title": "An offset shows only in the lowest rows of stft and ssq_stft", "statement": "Adding a constant c to every sample changes stft (modulated=True) by the same amount in every column: row k of Sx rises by c times the window's k-th Fourier coefficient (Hann: c*n_fft/2 in row 0, c*n_fft/4 in row 1), and rows beyond the window's bandwidth b do not change at all, neither in Sx nor in dSx. ssq_stft of the raised signal succeeds with the same frequencies, and in each column the changes of Tx add up to at most the bin width times what rows 0..b of Sx hold before and after. With zero padding this holds for the columns whose window lies in the signal, with every other padding for all columns.", "quantifier": "all signals, offsets, windows, n_fft, hops, padtypes, sampling rates, gamma, ssq frequencies, schedules", "why_tests_cant": "ssq_stft reassigns coefficients non-linearly, so a changed row 0 could disturb any row of Tx; tests compare a few signals with and without mean.", "anchors": ["ssqueezepy/_stft.py:stft", "ssqueezepy/_ssq_stft.py:ssq_stft", "ssqueezepy/utils/common.py:padsignal"]}
{"id": "C170", "title": "cwt and ssq_cwt do not see an offset", "statement": "Adding a constant to every sample changes nothing that cwt and ssq_cwt return: Wx, dWx, Tx, w, the scales and the frequencies are the same, with every padding but 'zero', every difftype, squeezing, gamma, norm, order and average, for each real-valued wavelet whose transform is 0 at frequency 0, in particular each generalized Morse wavelet of any order. (stft and ssq_stft do see it, in their lowest rows: C169.)", "quantifier": "all signals, constants, wavelets that vanish at frequency 0, arguments, padtypes but zero, orders, schedules, generator states without a cached transform", "why_tests_cant": "In floating point the two results differ by rounding that tests must tolerate, so a leak of the offset through padding, through dWx or through the thresholds of the phase transform stays hidden.", "anchors": ["ssqueezepy/_cwt.py:cwt", "ssqueezepy/_cwt.py:cwt_higher_order", "ssqueezepy/_ssq_cwt.py:ssq_cwt", "ssqueezepy/utils/common.py:padsignal"]}
{"id": "C171", "title": "ssq_stft leaves a click as it is", "statement": "In a column of stft whose window sees a single non-zero sample (a click, or one of several further apart than the window is long) every row of Sx has the same modulus, the sample's times the window's value there. ssq_stft moves no coefficient of such a column to another row: row k of Tx is row k of Sx times the bin width, or the whole column is removed when that modulus does not pass gamma. Columns whose window sees zeros only are 0 in Sx and Tx.", "quantifier": "all signals, click positions and sizes, windows, even n_fft, hops, sampling rates, gamma, flipud, get_w, modulated, schedules; zero padding, or any padding for columns whose window lies in the signal", "why_tests_cant": "Reassignment of a click rests on dSx/Sx being exactly real; tests look at tones and chirps, and would not notice a click smeared over neighbouring rows at some position of the window.", "anchors": ["ssqueezepy/_stft.py:stft", "ssqueezepy/_ssq_stft.py:ssq_stft", "ssqueezepy/_ssq_stft.py:phase_stft"]}
{"id": "C172", "title": "Noise of bounded energy hardly moves a tone in ssq_cwt", "statement": "Let y be any signal and x a tone of frequency F of the same length, nu the root of the energy of y - x times the wavelet's largest value. Every coefficient of cwt(y) is that of cwt(x) within nu, dWx within pi*fs*nu. In a row where the tone's coefficients are of size c > nu, the phase transform of y is F within fs*nu/(c - nu). In ssq_cwt(y), rows whose c is large enough against nu all go to the row nearest F or to one of its two neighbours: over all other rows, the moduli of Tx in a column sum to at most ln2/nv times the sum of c + nu over the remaining rows; and the three rows at F sum to the analytic tone times the gain of the scales, within ln2/nv times the sum of gamma + nu over the clear rows and c + nu over the others.", "quantifier": "all signals, tones, wavelets (bounded, real, vanishing at the mirror frequency), log scales, sampling rates, gamma > 0, get_w, schedules", "why_tests_cant": "Tests add noise from one seed at one level and look at the plot; the claim is about every noise signal of given energy, every tone and every wavelet at once.", "anchors": ["ssqueezepy/_cwt.py:cwt", "ssqueezepy/_ssq_cwt.py:ssq_cwt", "ssqueezepy/_ssq_cwt.py:phase_cwt", "ssqueezepy/ssqueezing.py:ssqueeze"]}
{"id": "C173", "title": "issq_cwt takes a tone out of noise", "statement": "Under the hypotheses of C172, issq_cwt of all rows of Tx, or of a band (cc, cw) covering the row nearest the tone's frequency and its two neighbours, returns the tone times the gain of the scales over Css within 2/Css*ln2/nv times the sum of gamma + nu over the rows the tone dominates and of c + nu over the others; what the band leaves over is at most 2/Css*ln2/nv times the sum of c + nu over the rows it does not dominate. With the default wavelet, at least 32 voices and scales reaching past the tone on both sides this is the tone itself within 3% of its amplitude and 5.5*ln2/nv times those sums.", "quantifier": "all signals of any noise, tones, wavelets, log scales, bands, sampling rates, gamma > 0, schedules", "why_tests_cant": "Denoising by inversion along a ridge is shown in examples with one noise seed; the bound holds for every noise and is stated in the noise's energy.", "anchors": ["ssqueezepy/_ssq_cwt.py:issq_cwt", "ssqueezepy/_ssq_cwt.py:ssq_cwt", "ssqueezepy/_ssq_cwt.py:_invert_components"]}
{"id": "C174", "title": "issq_cwt takes the tones of a chord out of noise", "statement": "Let y be any signal, x a sum of M tones of the same length, nu the root of the energy of y - x times the wavelet's largest value, c(i,r) the size of tone r in row i and rest(i,r) = nu + the sum of c(i,p) over the other tones p. Tone r dominates row i when c(i,r) > rest(i,r) and c(i,r) >= rest(i,r)*(1 + 4n/(k_r*d)), n samples, k_r periods, rows 2^d apart. ssq_cwt(y) sends every coefficient above gamma of a row that r dominates to the row nearest r's frequency or a neighbour. issq_cwt with a band per tone, each covering its tone's row and neighbours and no other tone's, returns each tone times the gain of the scales over Css, within 2/Css*ln2/nv times the sum over rows of: gamma + rest where r dominates, c(i,r) where another tone does, c + rest where none does. The remainder is at most 2/Css*ln2/nv times the sum, over rows no tone dominates, of all sizes and nu.", "quantifier": "all signals, numbers of tones, amplitudes, phases, frequencies, wavelets (bounded, real, vanishing at the mirror frequencies), log scales, bands, sampling rates, gamma > 0, schedules", "why_tests_cant": "Tests separate one or two chosen components at one noise seed and tolerance; the bound covers every chord and every noise and says how it depends on the wavelet's overlap of the tones.", "anchors": ["ssqueezepy/_ssq_cwt.py:ssq_cwt", "ssqueezepy/_ssq_cwt.py:issq_cwt", "ssqueezepy/_ssq_cwt.py:_invert_components", "ssqueezepy/_cwt.py:cwt"]}
{"id": "C175", "title": "sine, cosine, cos_f and sin_f return the tones asked for", "statement": "TestSignals.sine/cosine(N, f, phi0, **tkw) return N samples of sin/cos(2 pi f t + phi0) and the N time points, evenly spaced from tmin, with tmax left out unless endpoint=True is passed (whatever default_tkw says); a negative N raises ValueError. If f*(tmax - tmin) is a whole number m the cosine is the tone of exactly m periods in N samples, and with endpoint=True the last sample repeats the first. A sine with phi0 + pi/2 is a cosine with phi0. toolkit.cos_f/sin_f(freqs, N, phi, endpoint) return len(freqs)*N samples: segment i is the tone of freqs[i] at times i to i+1, with phi added to the time; for whole frequencies every segment is a tone of that many periods; no frequencies or a negative N raise ValueError.", "quantifier": "all N, frequencies, phases, time ranges, default keywords, lists of frequencies", "why_tests_cant": "The package's tests only plot or transform a few of these signals; the claim covers every argument and the end point convention that every statement about whole periods depends on.", "anchors": ["ssqueezepy/_test_signals.py:TestSignals.sine", "ssqueezepy/_test_signals.py:TestSignals.cosine", "ssqueezepy/_test_signals.py:TestSignals._process_params", "ssqueezepy/toolkit.py:cos_f", "ssqueezepy/toolkit.py:sin_f"]}
{"id": "C176", "title": "Default frequencies of jumps and packed do not alias", "statement": "Called without freqs over at most a second (per segment), jumps(N) and packed(N) use their documented frequencies, [1, M/4, M/2, M/16] with M = N//4 and the ten of packed, and each of these is at most half the sampling rate of the returned time points.", "quantifier": "all N >= 8, time ranges, endpoint settings, overlaps", "why_tests_cant": "The frequencies depend on N, the sampling rate on N, endpoint and the time range; tests use one N.", "anchors": ["ssqueezepy/_test_signals.py:TestSignals.jumps", "ssqueezepy/_test_signals.py:TestSignals.packed"]}
