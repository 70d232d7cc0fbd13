{"id": "C01", "title": "linear_regression returns the unique weighted least-squares line", "statement": "For positive weights and at least two distinct abscissae, linear_regression(x, y, nj) returns (a, b) with sum_j nj*(y-(a x+b))^2 strictly smaller than for every other line (a', b').", "quantifier": "all list lengths, abscissae, ordinates and positive weights", "why_tests_cant": "optimality compares against uncountably many competing lines, for every data set", "anchors": ["pymultifracs/utils.py:linear_regression"]}
{"id": "C02", "title": "linear_regression is affine-equivariant and exact on lines", "statement": "Replacing y by alpha*y + beta*x + gamma maps the returned (a, b) to (alpha*a + beta, alpha*b + gamma); on data lying exactly on a line it returns that line.", "quantifier": "all data, all alpha, beta, gamma", "why_tests_cant": "a universally quantified algebraic identity", "anchors": ["pymultifracs/utils.py:linear_regression"]}
{"id": "C03", "title": "linear_regression invariances and slope variance", "statement": "The fit does not change when all weights are multiplied by the same non-zero constant or when the scales are listed in another order; shifting x by t keeps the slope and moves the intercept by -a*t; the returned slope variance is V0/(V0*V2-V1^2), i.e. 1 over the weighted scatter of x, and is positive.", "quantifier": "all data, all non-zero weight factors, all permutations, all shifts", "why_tests_cant": "permutations and data sets cannot be enumerated", "anchors": ["pymultifracs/utils.py:linear_regression"]}
{"id": "C04", "title": "Degenerate scale ranges", "statement": "A fit over a single scale (or with all abscissae equal) returns NaN slope and intercept whatever the data; it never returns a finite number that looks like an estimate. (An empty scale range must not return a finite number either.)", "quantifier": "all data and weights on a degenerate support", "why_tests_cant": "boundary behaviour for every y", "anchors": ["pymultifracs/utils.py:linear_regression", "pymultifracs/structurefunction.py:StructureFunction._compute_zeta"]}
{"id": "C05", "title": "fast_power is the elementwise power with NaN kept", "statement": "For every exponent (whichever fast path is taken) fast_power(a, e) equals a**e elementwise on real entries and is NaN exactly where a is NaN (including e = 0).", "quantifier": "all arrays, all real exponents, python ints and others", "why_tests_cant": "six code paths over an infinite exponent domain", "anchors": ["pymultifracs/utils.py:fast_power"]}
{"id": "C06", "title": "fixednansum / fixednanmax ignore NaN and only return NaN on all-NaN input", "statement": "fixednansum returns NaN iff every entry is NaN and otherwise the sum of the non-NaN entries; fixednanmax returns NaN iff every entry is NaN and otherwise the largest non-NaN entry.", "quantifier": "all arrays", "why_tests_cant": "all lengths and NaN patterns", "anchors": ["pymultifracs/utils.py:fixednansum", "pymultifracs/utils.py:fixednanmax"]}
{"id": "C07", "title": "scale2freq and freq2scale are mutually inverse and decreasing", "statement": "freq2scale(scale2freq(j, fs), fs) = j, scale2freq(freq2scale(f, fs), fs) = f, and a larger scale is a strictly smaller frequency.", "quantifier": "all real scales, all positive frequencies and sampling rates", "why_tests_cant": "real-valued round trip", "anchors": ["pymultifracs/utils.py:scale2freq", "pymultifracs/utils.py:freq2scale"]}
{"id": "C08", "title": "fband2scale returns exactly the integer scales inside the band", "statement": "For an integer j and (j1, j2) = fband2scale((f_lo, f_hi), fs): j1 <= j <= j2 iff f_lo <= scale2freq(j, fs) <= f_hi.", "quantifier": "all bands, sampling rates and integer scales", "why_tests_cant": "rounding direction at every boundary", "anchors": ["pymultifracs/utils.py:fband2scale"]}
{"id": "C09", "title": "build_q_log grid", "statement": "build_q_log(q_min, q_max, n) raises ValueError iff q_min <= 0 or q_max <= 0; otherwise the result is strictly increasing, closed under negation, contains -2,-1,0,1,2, q_min (n>=1) and q_max (n>=2), contains nothing besides these and the log-spaced values, and has at most 2n+5 entries.", "quantifier": "all q_min, q_max, n", "why_tests_cant": "sorting and de-duplication for every n", "anchors": ["pymultifracs/utils.py:build_q_log"]}
{"id": "C10", "title": "nj always counts the non-NaN coefficients", "statement": "After any sequence of add_values calls on a fresh MultiResolutionQuantity, values and nj have the same scales in the same order, values[j] is the last array stored at j, and nj[j][r] is the number of non-NaN entries of column r of values[j].", "quantifier": "all sequences of add_values calls, with repeated scales", "why_tests_cant": "histories of arbitrary length", "anchors": ["pymultifracs/multiresquantity.py:MultiResolutionQuantity.add_values", "pymultifracs/multiresquantity.py:MultiResolutionQuantityBase.get_nj"]}
{"id": "C11", "title": "get_nj_interv returns the weights of exactly the scales j1..j2", "statement": "get_nj_interv(j1, j2) raises KeyError iff some scale of j1..j2 is missing, and otherwise returns the j2-j1+1 counts in increasing scale order.", "quantifier": "all quantities and all scale ranges", "why_tests_cant": "all ranges and key sets", "anchors": ["pymultifracs/multiresquantity.py:MultiResolutionQuantityBase.get_nj_interv"]}
{"id": "C12", "title": "Maximum decomposition level", "statement": "decomposition_level(length, wavelet) is the largest integer m with (filter_len+1)*2^m <= length (also when negative), the internal limit used by wavelet_analysis agrees with it, and it is monotone in the length; length 0 raises.", "quantifier": "all lengths >= 1 and filter lengths", "why_tests_cant": "floor/log2 boundaries for every length", "anchors": ["pymultifracs/wavelet.py:decomposition_level", "pymultifracs/wavelet.py:_decomposition_level"]}
{"id": "C13", "title": "One filtering step: size, border and padding independence", "statement": "Each step halves the length (floor), marks as NaN exactly the outputs whose position is within filter_len-1 of either end, and every retained coefficient is the inner product of the filter with genuine samples: it does not depend on what is assumed outside the signal.", "quantifier": "all approximations, filters and padding values", "why_tests_cant": "quantifies over all possible out-of-range values", "anchors": ["pymultifracs/wavelet.py:filtering"]}
{"id": "C14", "title": "NaN pattern depends only on the length", "statement": "For signals without NaN/inf, which coefficients and leaders are NaN at each scale, the counts nj, the stored scales and j2_eff depend only on the signal length, the filter length, j2 and the formalism, not on the data; so two signals of equal length always have equal nj (the precondition of the bivariate analysis).", "quantifier": "all pairs of finite signals of equal length", "why_tests_cant": "relational property over pairs of inputs", "anchors": ["pymultifracs/wavelet.py:wavelet_analysis", "pymultifracs/bivariate/bivariate_cumulants.py:BiCumulants.__post_init__"]}
{"id": "C15", "title": "Locality of wavelet coefficients", "statement": "The coefficient at scale j and position k depends only on the samples with index in [2^j k + (2^j-1)(c+2-L), 2^j k + (2^j-1)(c+1)] where L is the filter length and c = (L-1)//2: changing the signal elsewhere leaves it unchanged.", "quantifier": "all scales, positions and pairs of signals", "why_tests_cant": "relational over all signals, induction on scale", "anchors": ["pymultifracs/wavelet.py:filtering", "pymultifracs/wavelet.py:wavelet_analysis"]}
{"id": "C16", "title": "Wavelet coefficients are linear in the signal", "statement": "For finite signals of equal length the coefficients of alpha*x + beta*y are alpha*d_x + beta*d_y at every scale and position, with the same NaN pattern and j2_eff.", "quantifier": "all signals, all reals alpha, beta", "why_tests_cant": "infinite input space", "anchors": ["pymultifracs/wavelet.py:wavelet_analysis"]}
{"id": "C17", "title": "Blindness to polynomial trends", "statement": "If the high-pass filter has M vanishing moments, adding any polynomial of degree < M to the signal changes no wavelet coefficient at any scale (hence no estimate); a constant signal gives zero coefficients as soon as the high-pass filter sums to zero.", "quantifier": "all signals, polynomials, scales", "why_tests_cant": "all polynomials of all degrees below M, all scales", "anchors": ["pymultifracs/wavelet.py:filtering", "pymultifracs/wavelet.py:wavelet_analysis"]}
{"id": "C18", "title": "Fractional integration and normalization only rescale each scale", "statement": "Coefficients computed with (normalization p, gamint g) are those of (p=2, g=0) multiplied at scale j by 2^(j(1/2-1/p+g)); in particular changing the normalization is the same as changing gamint by 1/p - 1/p'.", "quantifier": "all signals, normalizations, gamint, scales", "why_tests_cant": "real parameters", "anchors": ["pymultifracs/wavelet.py:wavelet_analysis", "pymultifracs/wavelet.py:_wavelet_coef_analysis"]}
{"id": "C19", "title": "Shape of the wavelet transform result", "statement": "Whenever wavelet_analysis returns, the stored scales are 1..n without gaps, every stored scale has at least 3 usable coefficients in every realisation, leaders exist for all scales 1..j2_eff and coefficients for at least those, j2_eff <= j2 and j2_eff <= the decomposition level; so any regression with 1 <= j1 <= j2_eff finds all its scales.", "quantifier": "all signals, wavelets and parameters", "why_tests_cant": "loop invariant over all break positions", "anchors": ["pymultifracs/wavelet.py:wavelet_analysis", "pymultifracs/wavelet.py:_wavelet_coef_analysis"]}
{"id": "C20", "title": "Coefficients do not depend on the formalism", "statement": "For every scale stored by both, the wavelet coefficients returned with p_exp=None, np.inf or a number are identical.", "quantifier": "all signals and parameters", "why_tests_cant": "relational over two runs", "anchors": ["pymultifracs/wavelet.py:wavelet_analysis", "pymultifracs/wavelet.py:_wavelet_coef_analysis"]}
{"id": "C21", "title": "Leaders are suprema over the time-scale cone", "statement": "With p_exp=np.inf the leader stored at scale j, position k is the maximum of the non-NaN |d(j',k')| over all finer-or-equal scales j' <= j and positions k' whose dyadic interval lies under k, k+1 or k+2, and is NaN iff all of these are NaN.", "quantifier": "all coefficient sequences, scales and positions", "why_tests_cant": "induction over scales for every coefficient tree", "anchors": ["pymultifracs/wavelet.py:_compute_leaders", "pymultifracs/wavelet.py:_find_sans_voisin"]}
{"id": "C22", "title": "Leaders dominate coefficients and grow with scale", "statement": "Every non-NaN |d(j,k..k+2)| is <= leader(j,k), and every non-NaN leader(j-1, 2k..2k+3) is <= leader(j,k).", "quantifier": "all signals, scales, positions", "why_tests_cant": "inductive inequality", "anchors": ["pymultifracs/wavelet.py:_compute_leaders"]}
{"id": "C23", "title": "p-leaders are the l^p cone averages", "statement": "Before correction the p-leader at (j,k) is (sum over the same cone of 2^(j'-j)|d(j',k')|^p)^(1/p), summing the non-NaN coefficients only, NaN iff all are NaN.", "quantifier": "all coefficients, p > 0", "why_tests_cant": "all trees, all p", "anchors": ["pymultifracs/wavelet.py:_compute_leaders", "pymultifracs/wavelet.py:_find_sans_voisin"]}
{"id": "C24", "title": "p-leader finite-resolution correction", "statement": "When eta_p > 0 in every realisation, the leaders at scale j are multiplied by ((1-2^(-j eta))/(1-2^(-eta)))^(-1/p), a factor in (0,1], equal to 1 at scale 1 and non-increasing with j; NaN positions and nj are unchanged.", "quantifier": "all leaders, eta_p > 0, p > 0, scales", "why_tests_cant": "real-valued monotonicity", "anchors": ["pymultifracs/wavelet.py:_correct_leaders"]}
{"id": "C25", "title": "p-leaders are available for every p", "statement": "wavelet_analysis(signal, p_exp=p) returns a transform for every finite p > 0 documented as an accepted value.", "quantifier": "all signals and p", "why_tests_cant": "would need all p", "anchors": ["pymultifracs/wavelet.py:_estimate_eta_p", "pymultifracs/structurefunction.py:StructureFunction._get_H"]}
{"id": "C26", "title": "eta_p <= 0 is handled by a warning", "statement": "When eta_p <= 0 the p-leader correction is skipped with a warning and the uncorrected leaders are returned.", "quantifier": "all signals with eta_p <= 0", "why_tests_cant": "error path for every such signal", "anchors": ["pymultifracs/wavelet.py:_correct_leaders", "pymultifracs/wavelet.py:wavelet_analysis"]}
{"id": "C27", "title": "nj of the returned leaders counts usable leaders", "statement": "In every transform returned by wavelet_analysis nj[j] equals the number of non-NaN entries of values[j], for coefficients and leaders, also after the p-leader correction.", "quantifier": "all signals and parameters", "why_tests_cant": "includes degenerate eta estimates", "anchors": ["pymultifracs/wavelet.py:_correct_leaders", "pymultifracs/multiresquantity.py:MultiResolutionQuantity.add_values"]}
{"id": "C28", "title": "Structure functions are log2 of moments and zeta its regression", "statement": "logvalues[q, j] is log2 of the mean of |values[j]|^q over the non-NaN coefficients, and zeta[q], intercept[q] are the (nj-weighted or unweighted) least-squares line of logvalues[q] over exactly the scales j1..j2.", "quantifier": "all quantities, q arrays, 1 <= j1 <= j2 <= number of scales", "why_tests_cant": "all shapes and index ranges", "anchors": ["pymultifracs/structurefunction.py:StructureFunction"]}
{"id": "C29", "title": "zeta(0) = 0", "statement": "For q = 0 the structure function is identically 0 at every scale with at least one usable coefficient, and the scaling exponent is exactly 0.", "quantifier": "all quantities", "why_tests_cant": "all data", "anchors": ["pymultifracs/structurefunction.py:StructureFunction"]}
{"id": "C30", "title": "Estimates do not depend on the signal's amplitude", "statement": "Multiplying the signal by a non-zero constant leaves zeta, H, all log-cumulants and cumulants C_m (m>=2), D(q), h(q), hmin, nj and j2_eff unchanged; log2 S(j,q) moves by q*log2|alpha|, C_1 by ln|alpha|, and all coefficients, leaders and p-leaders are multiplied by alpha (|alpha|).", "quantifier": "all signals, all non-zero constants, all formalisms", "why_tests_cant": "relational over the whole pipeline", "anchors": ["pymultifracs/mfa.py:mf_analysis", "pymultifracs/mfa.py:mf_analysis_full"]}
{"id": "C31", "title": "Fractional integration shifts the exponents of wavelet coefficients by gamint", "statement": "For wavelet coefficients, using gamint = g instead of 0 changes zeta(q) to zeta(q)+q*g, leaves H unchanged, c_1 -> c_1+g, c_m unchanged for m>=2, h(q) -> h(q)+g, D(q) unchanged, hmin -> hmin+g.", "quantifier": "all signals, g, q, m", "why_tests_cant": "relational over real parameters", "anchors": ["pymultifracs/structurefunction.py:StructureFunction._get_H", "pymultifracs/wavelet.py:_wavelet_coef_analysis"]}
{"id": "C32", "title": "H is None when 2 is not among the moments", "statement": "StructureFunction(..., q, ...) can be built for every q array; H is zeta(2)/2 - gamint when 2 is in q and None otherwise.", "quantifier": "all q arrays", "why_tests_cant": "all q", "anchors": ["pymultifracs/structurefunction.py:StructureFunction._get_H"]}
{"id": "C33", "title": "Structure functions are log-convex in q and power means increase", "statement": "For q = t q1 + (1-t) q2 with t in [0,1]: log2 S(j,q) <= t log2 S(j,q1) + (1-t) log2 S(j,q2) (Hoelder), and q -> log2 S(j,q)/q is non-decreasing for q > 0.", "quantifier": "all coefficients, q1, q2, t", "why_tests_cant": "real inequality over all data", "anchors": ["pymultifracs/structurefunction.py:StructureFunction._compute"]}
{"id": "C34", "title": "Cumulants satisfy the moment-cumulant relations", "statement": "For every order m, moment_m = sum_{n=1}^m binom(m-1,n-1) C_n moment_{m-n} holds between the returned C_m(j) and the empirical moments of ln|values[j]|; C_1 is the mean, C_2 the (non-negative) variance, C_3 the third central moment, C_4 the fourth central moment minus 3 variance^2; log_cumulants are log2(e) times the regression slopes.", "quantifier": "all orders m, all data", "why_tests_cant": "recursion for every order", "anchors": ["pymultifracs/cumulants.py:Cumulants._compute", "pymultifracs/cumulants.py:Cumulants._compute_log_cumulants"]}
{"id": "C35", "title": "Cumulants of order >= 2 are shift invariant and homogeneous at every order", "statement": "Adding a constant a to all ln|values[j]| adds a to C_1 and changes no C_m, m >= 2; multiplying them by s multiplies C_m by s^m.", "quantifier": "all orders, data, shifts and factors", "why_tests_cant": "identity at every order, by induction", "anchors": ["pymultifracs/cumulants.py:Cumulants._compute"]}
{"id": "C36", "title": "Cumulant accessors", "statement": "c<m>/C<m> for 1 <= m <= min(9, n_cumul) return the m-th log-cumulant / cumulant; M is -c2; other digits give an empty selection, other unknown names AttributeError.", "quantifier": "all names and n_cumul", "why_tests_cant": "all attribute names", "anchors": ["pymultifracs/cumulants.py:Cumulants.__getattr__"]}
{"id": "C37", "title": "Spectrum entropy bounds", "statement": "For every scale and q, 0 <= U(j,q) <= log2 nj(j), and V(j,q) lies between the smallest and the largest log2|values[j]|; R(j,q,.) is a probability vector.", "quantifier": "all data with non-zero usable coefficients, all q", "why_tests_cant": "Gibbs inequality over all data", "anchors": ["pymultifracs/mfspectrum.py:MultifractalSpectrum._compute"]}
{"id": "C38", "title": "The spectrum at q = 0", "statement": "D(0) = 1 exactly, and h(0) equals the first log-cumulant c_1 returned by Cumulants on the same quantity and scales.", "quantifier": "all quantities with non-zero usable coefficients", "why_tests_cant": "cross-API identity", "anchors": ["pymultifracs/mfspectrum.py:MultifractalSpectrum._compute", "pymultifracs/cumulants.py:Cumulants"]}
{"id": "C39", "title": "Spectrum and scaling function are Legendre-consistent", "statement": "On the same quantity, scales and weights: D(q) = 1 + q*h(q) - zeta(q) for every q.", "quantifier": "all quantities with non-zero usable coefficients, all q", "why_tests_cant": "cross-API identity over all data", "anchors": ["pymultifracs/mfspectrum.py:MultifractalSpectrum._compute", "pymultifracs/structurefunction.py:StructureFunction"]}
{"id": "C40", "title": "Exact monofractals are recovered exactly", "statement": "If |values[j][k]| = C*2^(j*h) for all usable k and all j, then zeta(q) = q*h, H = h - gamint, c_1 = h, c_m = 0 (m>=2), h(q) = h, D(q) = 1 and hmin = h.", "quantifier": "all C > 0, h, q, orders, nj patterns", "why_tests_cant": "all sizes and parameters", "anchors": ["pymultifracs/mfa.py:mf_analysis"]}
{"id": "C41", "title": "hmin is the regression of log2 sup", "statement": "estimate_hmin returns slope and intercept of the (weighted) fit of log2 max_k |d(j,k)| over j1..j2_eff, and warns whenever the estimate is negative.", "quantifier": "all quantities", "why_tests_cant": "all data; warning condition for every value", "anchors": ["pymultifracs/estimation.py:estimate_hmin"]}
{"id": "C42", "title": "compute_hurst returns zeta(2)/2", "statement": "compute_hurst(wt_coefs, j1, j2, weighted) returns the Hurst estimate zeta(2)/2, the structure function and log2 S(j,2).", "quantifier": "all quantities", "why_tests_cant": "all inputs", "anchors": ["pymultifracs/estimation.py:compute_hurst"]}
{"id": "C43", "title": "mf_analysis assembles independent estimators", "statement": "mf_analysis returns for coefficients (and for leaders iff they are given) exactly what StructureFunction, Cumulants, MultifractalSpectrum and estimate_hmin return on the same scale range and weighting; q=None means q=[2] and list or array q give the same result.", "quantifier": "all transforms and parameters", "why_tests_cant": "all argument combinations", "anchors": ["pymultifracs/mfa.py:mf_analysis"]}
{"id": "C44", "title": "minimal analysis is a projection of the full one", "statement": "minimal_mf_analysis returns the dwt.structure and lwt.cumulants of mf_analysis on the same arguments, for every q accepted there (None, list, array) and also when no leaders are given.", "quantifier": "all transforms and parameters", "why_tests_cant": "all argument combinations", "anchors": ["pymultifracs/mfa.py:minimal_mf_analysis", "pymultifracs/mfa.py:mf_analysis_full"]}
{"id": "C45", "title": "Realisations do not influence each other", "statement": "Analysing several realisations at once gives, for each realisation and each stored scale, the coefficients, leaders, counts and estimates obtained from analysing it alone on the same scales.", "quantifier": "all numbers of realisations and signals", "why_tests_cant": "relational over batches of any size", "anchors": ["pymultifracs/wavelet.py:wavelet_analysis", "pymultifracs/structurefunction.py:StructureFunction"]}
{"id": "C46", "title": "Signal: wavelet PSD is never stale", "statement": "For every history of method calls on a fresh Signal, estimate_wavelet_psd(args) returns what wavelet_estimation(data, fs, args) returns.", "quantifier": "all histories of method calls", "why_tests_cant": "histories of any length", "anchors": ["pymultifracs/signal.py:Signal.estimate_wavelet_psd"]}
{"id": "C47", "title": "Signal: Welch PSD cache is coherent", "statement": "For every history of method calls, estimate_welch_psd(args) returns what welch_estimation(data, fs, args) returns.", "quantifier": "all histories including failing calls", "why_tests_cant": "histories and exceptions", "anchors": ["pymultifracs/signal.py:Signal.estimate_welch_psd"]}
{"id": "C48", "title": "Signal: wavelet transform cache is coherent", "statement": "For every history of method calls, wavelet_analysis(params) returns the transform of the data with these parameters, recomputing only if parameters changed.", "quantifier": "all histories including failing calls", "why_tests_cant": "histories and exceptions", "anchors": ["pymultifracs/signal.py:Signal._wavelet_analysis"]}
{"id": "C49", "title": "Signal: estimators use the parameters of the last wavelet analysis", "statement": "After a successful wavelet_analysis(params), and any other calls that are not a wavelet analysis, hmin() equals estimate_hmin on that transform with these j1 and weighted.", "quantifier": "all histories", "why_tests_cant": "interleavings of PSD and wavelet calls", "anchors": ["pymultifracs/signal.py:Signal.estimate_wavelet_psd", "pymultifracs/signal.py:Signal.hmin"]}
{"id": "C50", "title": "Signal: mf_analysis returns (and caches) the multifractal analysis", "statement": "After a successful wavelet analysis, Signal.mf_analysis(q, n_cumul) returns the same as the function mf_analysis on the stored transform, and a second identical call returns the cached value.", "quantifier": "all histories", "why_tests_cant": "all reachable states", "anchors": ["pymultifracs/signal.py:Signal.mf_analysis", "pymultifracs/signal.py:same_params"]}
{"id": "C51", "title": "Signal: fractal analysis is coherent and guarded calls fail cleanly", "statement": "fractal_analysis(args) equals estimate_beta of the wavelet PSD with the same arguments in every history; hurst/hmin/mf_analysis before any wavelet analysis raise AttributeError and change nothing.", "quantifier": "all histories", "why_tests_cant": "histories of any length", "anchors": ["pymultifracs/signal.py:Signal.fractal_analysis", "pymultifracs/signal.py:Signal._check_wt_transform"]}
{"id": "C52", "title": "estimate_beta recovers the exponent of a power-law PSD", "statement": "On psd = C*f^(-beta) estimate_beta returns beta and log(C) as documented (PSD(f) = C|f|^-beta), for both log bases, whenever the band holds two distinct frequencies.", "quantifier": "all C > 0, beta, frequency grids, bands", "why_tests_cant": "all parameters", "anchors": ["pymultifracs/fractal_analysis.py:estimate_beta", "pymultifracs/psd.py:_log_psd"]}
{"id": "C53", "title": "Spectral slope and Hurst exponent agree", "statement": "The spectral exponent from wavelet_estimation + estimate_beta over the band of scales j1..j2 equals -(2H+1), with H the unweighted StructureFunction estimate on the same wavelet and scales (any gamint), and does not depend on the log base nor on fs.", "quantifier": "all signals, wavelets, scale ranges, gamint", "why_tests_cant": "cross-API identity over all signals", "anchors": ["pymultifracs/fractal_analysis.py:estimate_beta", "pymultifracs/psd.py:wavelet_estimation", "pymultifracs/structurefunction.py:StructureFunction._get_H"]}
{"id": "C54", "title": "PSD estimators: supports and parameter sanitising", "statement": "wavelet_estimation returns at index i the frequency scale2freq(i+1, fs) and the mean squared coefficient at scale i+1; welch_estimation always calls welch with nfft >= nperseg and its frequency grid has n_fft//2+1 points from 0 to fs/2.", "quantifier": "all signals, fs, n_fft, seg_size", "why_tests_cant": "all parameters", "anchors": ["pymultifracs/psd.py:wavelet_estimation", "pymultifracs/psd.py:welch_estimation"]}
{"id": "C55", "title": "Coherence is bounded by 1", "statement": "At every scale |coherence| <= 1 (jointly usable coefficients, not all zero), and it is 1 when both quantities are the same.", "quantifier": "all pairs of quantities", "why_tests_cant": "Cauchy-Schwarz over all data", "anchors": ["pymultifracs/bivariate/bivariate_structurefunction.py:BiStructureFunction._compute"]}
{"id": "C56", "title": "Multifractal correlation is bounded by 1 and marginals agree", "statement": "|RHO_MF(j)| <= 1 at every scale; C_m0 and C_0m equal the univariate Cumulants of the two quantities when their NaN patterns agree; C_11 is the covariance of the log-quantities; swapping the arguments transposes everything.", "quantifier": "all pairs of quantities, all orders", "why_tests_cant": "Cauchy-Schwarz and recursion over all data", "anchors": ["pymultifracs/bivariate/bivariate_cumulants.py:BiCumulants"]}
{"id": "C57", "title": "Joint cumulants of every order are computed", "statement": "BiCumulants.C<m1><m2> is the joint cumulant of order (m1, m2) of the two log-quantities, for all 0 <= m1, m2 <= n_cumul.", "quantifier": "all orders", "why_tests_cant": "all orders and data", "anchors": ["pymultifracs/bivariate/bivariate_cumulants.py:BiCumulants._compute"]}
{"id": "C58", "title": "Bivariate analysis works in the coefficient formalism", "statement": "bivariate_analysis(WT1, WT2, ...) returns the wavelet-coefficient results with lwt = None when no leaders are present.", "quantifier": "all transforms", "why_tests_cant": "all inputs", "anchors": ["pymultifracs/bivariate/bimfa.py:bivariate_analysis"]}
{"id": "C59", "title": "Bivariate Legendre surface peaks at the first-order cumulants", "statement": "compute_legendre: L(h1,h2) is symmetric under exchanging the two components, equals 1 at (c10, c01), and is <= 1 everywhere when c20 < 0, c02 < 0 and c20*c02 > c11^2.", "quantifier": "all cumulants and h", "why_tests_cant": "quadratic-form inequality over reals", "anchors": ["pymultifracs/bivariate/bivariate_cumulants.py:BiCumulants.compute_legendre"]}
{"id": "C60", "title": "Generator argument checks and shapes", "statement": "fgn/fbm raise ValueError iff H is outside [0,1] (or the method is unknown), mrw also iff L > N; otherwise the result has N samples, R columns for tuple shapes and one dimension for integer shapes; gaussian_w builds a non-negative, non-increasing covariance, zero from lag floor(L).", "quantifier": "all shapes and parameters", "why_tests_cant": "all parameter values", "anchors": ["pymultifracs/simul/fbm.py:fgn", "pymultifracs/simul/mrw.py:mrw", "pymultifracs/simul/mrw.py:gaussian_w"]}
{"id": "C61", "title": "fbm has the fractional Brownian covariance", "statement": "The increments covariance built by fgn gives Var(B(k)) = sigma^2 (k dt)^(2H) for the cumulative sum and Cov(B(k),B(l)) = sigma^2/2 dt^(2H) (k^2H + l^2H - |k-l|^2H); for H = 1/2 increments are uncorrelated; for every H in [0,1] lag 0 has variance sigma^2 dt^(2H).", "quantifier": "all H, sigma, dt, k, l", "why_tests_cant": "double sums of any size", "anchors": ["pymultifracs/simul/fbm.py:fgn", "pymultifracs/simul/fbm.py:fbm"]}
{"id": "C62", "title": "Circulant embedding imposes the requested covariance", "statement": "If the circulant eigenvalues are non-negative, the linear map from the real and imaginary white noise to the output of gaussian_cme has covariance exactly cov[|a-b|].", "quantifier": "all N, covariances with non-negative spectrum", "why_tests_cant": "DFT identity for every size", "anchors": ["pymultifracs/simul/pzutils.py:gaussian_cme"]}
{"id": "C63", "title": "Cholesky synthesis imposes the requested covariance", "statement": "The output L @ z of gaussian_chol for white z has covariance toeplitz(cov).", "quantifier": "all positive definite covariances", "why_tests_cant": "all sizes", "anchors": ["pymultifracs/simul/pzutils.py:gaussian_chol"]}
{"id": "C64", "title": "Skewness convolution by FFT equals the direct causal sum", "statement": "skewness_convolution(e)[k] = sum_{tau=1..N} K0/tau^alpha/dt^beta e[N+k-tau] without wrap-around, for e of length 2N; with zero past it equals skewness_convolution_dumb on the second half.", "quantifier": "all N, e, K0, alpha, beta, dt", "why_tests_cant": "convolution theorem for every size", "anchors": ["pymultifracs/simul/mrw.py:skewness_convolution", "pymultifracs/simul/mrw.py:skewness_convolution_dumb"]}
{"id": "C65", "title": "skewed_mrw returns a realisation", "statement": "skewed_mrw(shape, H, lam, L) returns an array of N samples for all admissible parameters.", "quantifier": "all admissible parameters", "why_tests_cant": "all parameters", "anchors": ["pymultifracs/simul/mrw.py:skewed_mrw"]}
{"id": "C66", "title": "from_dict forwards exactly the constructor's parameters", "statement": "from_dict(d) equals calling the constructor with the entries of d whose key is a constructor parameter; extra keys never matter, and a missing required key raises TypeError.", "quantifier": "all dictionaries", "why_tests_cant": "all dictionaries", "anchors": ["pymultifracs/multiresquantity.py:MultiResolutionQuantityBase.from_dict"]}
{"id": "C67", "title": "plot_fractal draws the spectrum with its slope", "statement": "plot_fractal(signal, ...) and Signal.plot_fractal(...) return (after drawing) whenever the spectra and the slope can be computed.", "quantifier": "all signals, histories and arguments", "why_tests_cant": "all inputs and histories", "anchors": ["pymultifracs/fractal_analysis.py:plot_fractal", "pymultifracs/signal.py:Signal.plot_fractal"]}
{"id": "C68", "title": "psd_difference compares two signals on their common frequencies", "statement": "psd_difference(other) holds the frequencies common to both wavelet PSDs in increasing order with the difference of the two spectra there; with log=(g, g^-1), g^-1 is applied to the difference of the g-values shifted so that its minimum is 0.1; the result can be analysed further like any Signal.", "quantifier": "all pairs of spectra", "why_tests_cant": "all frequency grids", "anchors": ["pymultifracs/signal.py:Signal.psd_difference"]}
{"id": "C69", "title": "Joint structure functions are log2 joint moments with a least-squares exponent", "statement": "BiStructureFunction: S(q1,q2,j) stored in log2 is the mean of |x|^q1 |y|^q2 over the positions where both coefficients are usable; zeta(q1,q2) and the intercept are the weighted least-squares line over j1..j2; zeta(q,0) and zeta(0,q) are the univariate StructureFunction exponents when the NaN agree; exchanging the quantities transposes the tables.", "quantifier": "all pairs of quantities, all moment orders, scale ranges and weights", "why_tests_cant": "all data and orders", "anchors": ["pymultifracs/bivariate/bivariate_structurefunction.py:BiStructureFunction._compute"]}
{"id": "C70", "title": "Joint log-moments are jointly convex in the moment orders", "statement": "At every scale log2 S(q1,q2,j) is convex along every segment of orders (q1,q2), whenever the values are finite.", "quantifier": "all pairs of quantities, all segments of orders", "why_tests_cant": "Hoelder inequality over all data", "anchors": ["pymultifracs/bivariate/bivariate_structurefunction.py:BiStructureFunction._compute"]}
{"id": "C71", "title": "A noise given by the caller determines the generated series", "statement": "fgn, fbm and mrw called twice with the same noise argument z0 return the same series, whatever the state of the random generator.", "quantifier": "all noises, shapes, methods and parameters", "why_tests_cant": "quantifies over every state of the random generator", "anchors": ["pymultifracs/simul/fbm.py:fgn", "pymultifracs/simul/fbm.py:fbm", "pymultifracs/simul/mrw.py:gaussian_w"]}
{"id": "C72", "title": "sigma and the sampling step only scale fgn and fbm", "statement": "For the same noise, fgn and fbm with parameters sigma, dt equal |sigma| dt^H times the result with sigma = dt = 1.", "quantifier": "all noises, shapes, H in (0,1], sigma and dt > 0", "why_tests_cant": "all parameters and noises", "anchors": ["pymultifracs/simul/fbm.py:fgn", "pymultifracs/simul/fbm.py:fbm", "pymultifracs/simul/pzutils.py:gaussian_cme"]}
{"id": "C73", "title": "mrw is the cumulative sum of fGn modulated by the exponential of the log-volatility", "statement": "mrw(N, H, lam, L) at time k is sum_{i<=k} e_i exp(w_i - mean(w) - lam^2/2 ln L) with e the fGn of the same parameters and w the log-volatility; the centred log-volatility averages to -lam^2/2 ln L over time; with lam = 0 the result is exactly the fbm of the same noise.", "quantifier": "all noises, shapes and parameters with 0 < L <= N", "why_tests_cant": "all noises and parameters", "anchors": ["pymultifracs/simul/mrw.py:mrw", "pymultifracs/simul/mrw.py:gaussian_w"]}
{"id": "C74", "title": "mrw_cumul is mrw with the prescribed log-cumulants", "statement": "For c2 <= 0 mrw_cumul(c1, c2) is the mrw with H, lam >= 0 such that c1 = H + lam^2 and c2 = -lam^2; a positive c2 is never reported as an error by the default method: the whole result is NaN.", "quantifier": "all c1, c2, shapes and noises", "why_tests_cant": "all parameters", "anchors": ["pymultifracs/simul/mrw.py:mrw_cumul"]}
{"id": "C75", "title": "Cumulants.plot shows every order", "statement": "For a Cumulants object of one realisation plot() returns for every nrow >= 1 and shows exactly one panel per order m = 1..n_cumul, with the points (j, C_m(j)) and the regression line between j1 and j2 labelled with the log-cumulant; unused panels are removed.", "quantifier": "all cumulant objects, numbers of orders and rows", "why_tests_cant": "grid arithmetic for every n_cumul and nrow", "anchors": ["pymultifracs/cumulants.py:Cumulants.plot"]}
{"id": "C76", "title": "StructureFunction.plot shows every order", "statement": "plot(nrow, ignore_q0) returns and shows one panel per order q (order 0 left out when ignore_q0), with log2 S(j,q) and the regression line labelled zeta(q); plot_scaling draws zeta(q) for every realisation.", "quantifier": "all structure functions, lists of orders, numbers of rows", "why_tests_cant": "grid arithmetic for every list of orders", "anchors": ["pymultifracs/structurefunction.py:StructureFunction.plot", "pymultifracs/structurefunction.py:StructureFunction.plot_scaling"]}
{"id": "C77", "title": "BiCumulants.plot shows the cumulants with their log-cumulants", "statement": "plot() returns the two figures: C_m0(j) and C_0m(j) for m = 1..n_cumul, and C_11(j), each with its regression line and labelled with the log-cumulant c of the same orders.", "quantifier": "all bivariate cumulants", "why_tests_cant": "all data and orders", "anchors": ["pymultifracs/bivariate/bivariate_cumulants.py:BiCumulants.plot"]}
{"id": "C78", "title": "BiStructureFunction.plot shows every pair of orders", "statement": "Every BiStructureFunction that can be built can be plotted: one panel per pair (q1, q2) with log2 S(q1,q2,j) and the regression line labelled zeta(q1,q2).", "quantifier": "all pairs of quantities and lists of orders", "why_tests_cant": "all lists of orders", "anchors": ["pymultifracs/bivariate/bivariate_structurefunction.py:BiStructureFunction.plot"]}
{"id": "C79", "title": "log_plot draws every spectrum", "statement": "log_plot draws one curve per spectrum with the points (log f, log S(f)) for the frequencies different from 0 and below lowpass_freq, then the given slopes; an unknown log raises KeyError.", "quantifier": "all spectra, slopes, styles and cut frequencies", "why_tests_cant": "all arrays", "anchors": ["pymultifracs/psd.py:log_plot", "pymultifracs/psd.py:_log_psd"]}
{"id": "C80", "title": "plot_legendre draws the bivariate spectrum over the requested support", "statement": "plot_legendre(h_support, resolution) and plot_legendre_pv draw L(h1, h2) >= 0 over h_support, with h1 on the horizontal axis.", "quantifier": "all bivariate cumulants, supports and resolutions", "why_tests_cant": "grids of any size over real cumulants", "anchors": ["pymultifracs/bivariate/bivariate_cumulants.py:BiCumulants.plot_legendre", "pymultifracs/bivariate/bivariate_cumulants.py:BiCumulants.plot_legendre_pv"]}
{"id": "C81", "title": "fract_int_2d is fractional integration on the torus", "statement": "For an array of N x N x R values, N even, fract_int_2d(x, alpha) is the real array whose discrete Fourier coefficients are those of x times |k|^(-alpha), k the centred frequency, and times 1 at frequency 0: nothing is lost by keeping the real part, the mean is kept, plane waves are eigenvectors, orders add up and -alpha undoes alpha; any other shape raises ValueError.", "quantifier": "all even N >= 2, all numbers of realisations, all data and orders", "why_tests_cant": "all sizes and real data: Fourier inversion on every array", "anchors": ["pymultifracs/simul/mrw.py:fract_int_2d"]}
{"id": "C82", "title": "The log-volatility of mrw2D has the covariance of a multifractal random walk", "statement": "mrw2D draws X = noise * exp(omega) with omega centred, realisations uncorrelated, and covariance lam^2 log+(L/(1+d)), d the distance of the two pixels on the torus.", "quantifier": "all sizes, lam, L and every white noise", "why_tests_cant": "an expectation over all draws, for every size", "anchors": ["pymultifracs/simul/mrw.py:mrw2D"]}
{"id": "C83", "title": "mrw2D returns the walk and its increments in the documented shape with variance parameter sigma", "statement": "mrw2D(shape, ...) returns the walk, which is the fractional integral of order H+1 of its increments, and the increments; shape (N,) for a scalar shape, (N, N, R) otherwise; sigma scales the process.", "quantifier": "all shapes, parameters and noises", "why_tests_cant": "all shapes and draws", "anchors": ["pymultifracs/simul/mrw.py:mrw2D", "pymultifracs/simul/mrw.py:fract_int_2d"]}
{"id": "C84", "title": "A longer recording keeps the coefficients", "statement": "Adding samples before (a multiple of 2^j of them, 2^j s) and after a signal leaves every non-NaN wavelet coefficient of scale j unchanged, moved by s positions; the leaders can only grow, and are unchanged where every coefficient under them was usable.", "quantifier": "all signals, extensions, wavelets, positions, and every scale stored for both recordings", "why_tests_cant": "relational over all signals and extensions; induction on the scale", "anchors": ["pymultifracs/wavelet.py:filtering", "pymultifracs/wavelet.py:wavelet_analysis", "pymultifracs/wavelet.py:_compute_leaders"]}
{"id": "C85", "title": "MultifractalSpectrum.plot shows the spectrum", "statement": "plot() draws for every realisation exactly the points (h(q), D(q)) in the order of q, and every point is inside the axes.", "quantifier": "all quantities, scale ranges, weights and moment orders", "why_tests_cant": "all data and orders", "anchors": ["pymultifracs/mfspectrum.py:MultifractalSpectrum.plot"]}
{"id": "C86", "title": "plot_psd draws both spectra", "statement": "plot_psd(signal, ...) draws the Welch and the wavelet spectrum, each with all its non-zero frequencies in the chosen logarithm, whenever both estimations succeed; an unknown log raises KeyError; Signal.plot_psd draws the same figure after any history of calls.", "quantifier": "all signals, parameters and histories", "why_tests_cant": "all inputs and histories", "anchors": ["pymultifracs/psd.py:plot_psd", "pymultifracs/psd.py:log_plot", "pymultifracs/signal.py:Signal.plot_psd"]}
{"id": "C87", "title": "plot_multiscale averages over the subjects at equal frequency", "statement": "plot_multiscale(results, seg2color) draws one thin curve per subject and segment in the colour of the segment and one thick curve per segment with, at every frequency of the common band, the mean over the subjects of their values at that frequency; the enumeration order of the set of segments does not matter.", "quantifier": "all result frames and every enumeration order of the set of segments", "why_tests_cant": "arbitrary numbers of subjects, segments and frequencies; unspecified set order", "anchors": ["pymultifracs/viz.py:plot_multiscale"]}
{"id": "C88", "title": "Fitted exponents are unbiased, their variance is the reported one, and no linear estimator does better", "statement": "For ordinates whose means lie on a line and which are uncorrelated with variance s2/n[i], linear_regression(x, y, n) returns a slope and an intercept whose expectations are those of the line, a slope whose variance is s2 times the returned variance, and every other unbiased linear estimator of the slope has a larger variance.", "quantifier": "all weights, abscissae, probability spaces and random ordinates meeting the moment conditions", "why_tests_cant": "an expectation over all draws, and an optimality claim over all estimators", "anchors": ["pymultifracs/utils.py:linear_regression"]}
{"id": "C89", "title": "Bivariate estimates do not depend on the units of the two signals", "statement": "Multiplying the two signals of bivariate_analysis_full by non-zero constants al1, al2 leaves zeta(q1,q2), the log-cumulants, rho and rho_mf unchanged for coefficients and leaders; the coherence is multiplied by the sign of al1 al2 for coefficients and unchanged for leaders. (Cumulants and rho: at scales without zero values.)", "quantifier": "all pairs of signals of equal length, factors, wavelets, scale ranges, orders", "why_tests_cant": "relational over pairs of runs for all data", "anchors": ["pymultifracs/bivariate/bimfa.py:bivariate_analysis_full", "pymultifracs/bivariate/bivariate_structurefunction.py:BiStructureFunction", "pymultifracs/bivariate/bivariate_cumulants.py:BiCumulants"]}
{"id": "C90", "title": "Bivariate estimates follow fractional integration", "statement": "Changing gamint of bivariate_analysis_full by d adds (q1+q2) d to every zeta(q1,q2) of the coefficients and d to c10 and c01, and leaves the coherence and all other log-cumulants and rho unchanged.", "quantifier": "all pairs of signals of equal length, both values of gamint, wavelets, scale ranges, orders", "why_tests_cant": "relational over pairs of runs for all data", "anchors": ["pymultifracs/bivariate/bimfa.py:bivariate_analysis_full", "pymultifracs/wavelet.py:wavelet_analysis"]}
{"id": "C91", "title": "An estimate is a number exactly when every fitted scale determines it", "statement": "For every quantity without infinities and j1 < j2: zeta(q), D(q), c_k, hmin and H are numbers (not NaN, not infinite) exactly when at every scale j1..j2 the defining average exists: some usable value, some non-zero one (q > 0, hmin, H), no zero one (q < 0, c_k of every order); so is h(q). No scale is silently dropped or replaced.", "quantifier": "all quantities without infinities, scale ranges, weights, moment orders, cumulant orders and realisations", "why_tests_cant": "an equivalence over all values and patterns of zeros and missing values", "anchors": ["pymultifracs/structurefunction.py:StructureFunction", "pymultifracs/cumulants.py:Cumulants", "pymultifracs/mfspectrum.py:MultifractalSpectrum", "pymultifracs/estimation.py:estimate_hmin", "pymultifracs/utils.py:fixednansum"]}
{"id": "C92", "title": "The transform computed in floating point is the exact one up to a stated bound", "statement": "Let every addition, product, fused multiply-add and power of two be computed with relative error at most u (powers v) and absolute underflow error at most eta, with the inner products of the convolution summed in any order and grouping. For every signal with samples at most X in modulus (missing ones allowed), wavelet, j2, gamint and normalization, wavelet_analysis of that machine succeeds or raises exactly as the exact one, with the same warnings, j2_eff, scales, counts nj and missing values, and every coefficient at scale j is within 2^(j(1/2-1/norm)) 2^(gamint j) H A^(j-1) X ((1+u)^(Lj+2) (1+v)^2 - 1) (plus a multiple of eta) of the exact one, every leader within the largest such bound of scales 1..j. IEEE binary64 is such a machine with u = v = 2^-53, eta = 2^-1075.", "quantifier": "all machines with rounding errors u, v, eta, all summation orders, signals, wavelets with equally long filters, levels, exponents; p_exp None and np.inf", "why_tests_cant": "floating-point results depend on the summation order chosen by the library; tests see one machine and one order", "anchors": ["pymultifracs/wavelet.py:filtering", "pymultifracs/wavelet.py:wavelet_analysis", "pymultifracs/wavelet.py:_wavelet_coef_analysis", "pymultifracs/wavelet.py:_compute_leaders"]}
{"id": "C93", "title": "Leaders and p-leaders of one signal bound each other", "statement": "For every signal (missing samples allowed), when wavelet_analysis returns both leaders (p_exp = np.inf) and p-leaders (numeric p_exp, every eta_p defined) with the same wavelet, gamint and normalization, both have the same scales, lengths and missing values, and at every scale j the p-leader lies between f 2^(-(j-1)/p) and f (3j)^(1/p) times the leader, with f in (0,1] the finite-resolution correction of that realisation and scale.", "quantifier": "all signals, good wavelets, p > 0 for which the call returns, gamint, norms, scales, realisations, positions", "why_tests_cant": "a two-sided inequality between two different analyses, for every signal, scale and position", "anchors": ["pymultifracs/wavelet.py:_compute_leaders", "pymultifracs/wavelet.py:_find_sans_voisin", "pymultifracs/wavelet.py:_correct_leaders"]}
{"id": "C94", "title": "Estimates are stable under small relative changes of the analysed quantity", "statement": "If two multi-resolution quantities have the same shape and missing values and at every fitted scale each value of one is within a factor 2^-d..2^d of the other's, then for every q zeta(q) moves by at most |q| d/sd, hmin and c1 by at most d/sd and c2 by at most d (2S + d ln 2)/sd, where sd is the (weighted) standard deviation of the fitted scales, sqrt((n^2-1)/12) for the n scales of an unweighted fit, and S bounds the spread of log |value| in natural units at the fitted scales. In particular, leaders computed in floating point give zeta(q), hmin and c1 within these amounts of the exact ones whenever C92's error bound is at most the fraction 1 - 2^-d of every exact leader.", "quantifier": "all pairs of regular quantities, moments q, fit ranges, weightings, realisations, d >= 0; all machines with bounded rounding errors and all signals", "why_tests_cant": "a bound on the change of the output over all pairs of inputs; a test compares a few perturbations", "anchors": ["pymultifracs/structurefunction.py:StructureFunction", "pymultifracs/cumulants.py:Cumulants", "pymultifracs/estimation.py:estimate_hmin", "pymultifracs/utils.py:linear_regression", "pymultifracs/wavelet.py:wavelet_analysis"]}
{"id": "C95", "title": "Signal: results follow the data when it is reassigned", "statement": "For every history of method calls and assignments to data, fs and log on a Signal, the methods return what the functions they wrap return on the current data, fs and log.", "quantifier": "all data, sampling frequencies and logs, all finite histories of calls and assignments, all parameters", "why_tests_cant": "stale caches only show after particular histories; a test exercises a few", "anchors": ["pymultifracs/signal.py:Signal", "pymultifracs/signal.py:estimate_wavelet_psd", "pymultifracs/signal.py:estimate_welch_psd", "pymultifracs/signal.py:_wavelet_analysis", "pymultifracs/signal.py:hmin"]}
{"id": "C96", "title": "Estimates computed in floating point are within explicit bounds of the exact ones", "statement": "On any machine whose operations have a bounded relative error plus underflow, and whose sums may be accumulated in any order, hmin, zeta(q), H, the log-cumulants (with intercepts and variances) and, for realisations without zero values, h(q) and D(q) returned by the estimators are numbers whenever the exact estimates are, and differ from them by at most an explicit bound; composed with the transform, this bounds the error from the signal to the estimate.", "quantifier": "all multi-resolution quantities with finite or NaN values, all moment orders, cumulant orders, scale ranges and weightings, all machines (rounding functions, summation orders) with given unit roundoff and underflow, all signals and wavelets for the composition", "why_tests_cant": "a test compares one computation on one machine with an expected value computed with the same rounding; the bound must hold for all values and summation orders", "anchors": ["pymultifracs/utils.py:linear_regression", "pymultifracs/utils.py:fast_power", "pymultifracs/structurefunction.py:StructureFunction", "pymultifracs/cumulants.py:Cumulants", "pymultifracs/estimation.py:estimate_hmin"]}
{"id": "C97", "title": "Fractional integration of images of odd size", "statement": "The documented properties of the 2-D fractional integral (the mean of the image is kept, orders alpha and -alpha undo each other, frequencies are multiplied by |k|^-alpha) hold for every N x N x R array, including odd N.", "quantifier": "all odd sizes N, all numbers of realisations, all real images, all orders alpha; all widths for one-row images", "why_tests_cant": "the docstring only says that the size is assumed divisible by two: nothing is checked, and a test at a few sizes cannot say what is returned at every odd size", "anchors": ["pymultifracs/simul/mrw.py:fract_int_2d"]}
{"id": "C98", "title": "Estimates depend only on the distribution of the magnitudes at every scale", "statement": "All scaling estimates (structure functions and exponents, log-cumulants, D(q) and h(q), minimum exponent) see the coefficients of a scale only through the multiset of their absolute values: reordering the positions, changing signs, adding or removing NaN changes nothing; repeating every value the same number of times changes no estimated value.", "quantifier": "all multi-resolution quantities (any scales, any columns, infinities and NaN included), all fitted ranges, all q, all cumulant orders, weighted or not; all repetition counts k(j) >= 1 (equal on the fitted scales when weighted)", "why_tests_cant": "ranges over all permutations, sign patterns, NaN placements and repetition counts of arrays of every size", "anchors": ["pymultifracs/structurefunction.py:StructureFunction", "pymultifracs/cumulants.py:Cumulants", "pymultifracs/mfspectrum.py:MultifractalSpectrum", "pymultifracs/estimation.py:estimate_hmin"]}
{"id": "C99", "title": "Usable coefficients in closed form: borders and missing samples", "statement": "At scale j (filter length L, n samples) coefficient k is NaN exactly when it is too close to a border (L > 2k+2 or 2k+1+L > floor(n/2^(j-1))) or one of the samples in its dyadic support is missing (NaN); so a complete signal has exactly floor((floor(n/2^(j-1))+1-L)/2) - floor((L-1)/2) usable coefficients at scale j, scale j is returned exactly when this is at least three, and every missing sample costs at most L-1 coefficients per scale; a leader is a number exactly when a scale-1 coefficient below it is usable.", "quantifier": "all signals with or without missing samples, any number of realisations, all lengths, all wavelets, all scales and positions, all gamint, normalizations and formalisms", "why_tests_cant": "ranges over all lengths, wavelet filters, missing-sample patterns and scales; borders accumulate over the recursion, so finitely many cases do not determine the general formula", "anchors": ["pymultifracs/wavelet.py:filtering", "pymultifracs/wavelet.py:wavelet_analysis", "pymultifracs/wavelet.py:_wavelet_coef_analysis", "pymultifracs/multiresquantity.py:MultiResolutionQuantity"]}
{"id": "C100", "title": "Parameters are recognised as unchanged exactly when they are equal", "statement": "same_params(old, new), the test that decides whether a stored multifractal analysis may be reused, answers True exactly when the moment orders and the number of cumulants are equal, False otherwise.", "quantifier": "all pairs of MFParameters, with the orders given as arrays or as python lists of any lengths", "why_tests_cant": "ranges over all pairs of order arrays of all lengths; numpy's broadcasting makes the answer depend on the lengths", "anchors": ["pymultifracs/signal.py:same_params", "pymultifracs/signal.py:MFParameters"]}
{"id": "C101", "title": "A quantity is perfectly correlated with itself", "statement": "The bivariate analysis of a quantity with itself, or with a fixed power e of itself times a positive factor at every scale, has at every scale the correlation RHO_MF equal to the sign of e, the cumulants C11 = e C20 and C02 = e^2 C20, the joint exponents zeta(q1, q2) = zeta(q1 + e q2) (plus h q2 when the factor is a0 2^(h j)), and the multifractal correlation rho_mf equal to the sign of e.", "quantifier": "all single-realisation quantities with non-zero values, any exponent e, any positive factor at every scale, all scale ranges, weighted or not, all moment orders", "why_tests_cant": "ranges over all quantities, exponents and factors; the ratio defining rho_mf is only determined algebraically", "anchors": ["pymultifracs/bivariate/bivariate_cumulants.py:BiCumulants", "pymultifracs/bivariate/bivariate_structurefunction.py:BiStructureFunction"]}
{"id": "C102", "title": "The log-cumulants are the derivatives of the scaling function at 0, and h(q) is its derivative", "statement": "For one realisation and one range of scales there is one infinitely differentiable function Z such that zeta(q) = Z(q) for every requested order q, the log-cumulant c_k is the k-th derivative of Z at 0 for every k, the exponent h(q) is Z'(q) and D(q) is 1 + q Z'(q) - Z(q). For two quantities there is one function Z(q1, q2) with zeta(q1, q2) = Z(q1, q2), the joint log-cumulant c11 is its mixed second derivative at (0, 0), and c_k0, c_0k are its k-th derivatives along the axes.", "quantifier": "all quantities with finite non-zero values, all realisations, scale ranges, weighted or not, all lists of orders and all numbers of cumulants", "why_tests_cant": "it relates three estimators through derivatives of every order; finitely many evaluations can only approximate a derivative", "anchors": ["pymultifracs/structurefunction.py:StructureFunction", "pymultifracs/cumulants.py:Cumulants", "pymultifracs/mfspectrum.py:MultifractalSpectrum", "pymultifracs/bivariate/bivariate_cumulants.py:BiCumulants", "pymultifracs/bivariate/bivariate_structurefunction.py:BiStructureFunction"]}
{"id": "C103", "title": "Bivariate cumulants are read by name", "statement": "For a BiCumulants object with orders 0..n, the attribute c<u><v> (two decimal digits at most n) is the log-cumulant of orders (u, v) and C<u><v> the sequence of the joint cumulants of these orders over all scales; orders that were not computed give an empty array; every other name that is not an attribute raises AttributeError, and no name reads an order above 9.", "quantifier": "all pairs of quantities, numbers of cumulants, scale ranges, and all names", "why_tests_cant": "ranges over all strings and all orders", "anchors": ["pymultifracs/bivariate/bivariate_cumulants.py:__getattr__"]}
{"id": "C104", "title": "A multi-resolution quantity is a faithful store", "statement": "MultiResolutionQuantity(formalism, gamint) can be created with each documented formalism name and with no other, gives an empty store that can be printed, and after any history of add_values lists the scales in the order of their first appearance, each with the array given last and its counts of usable values; nrep is the number of realisations stored.", "quantifier": "all formalism names, all histories of add_values (any scales, repeated or not, any arrays)", "why_tests_cant": "ranges over all strings and all histories of calls", "anchors": ["pymultifracs/multiresquantity.py:MultiResolutionQuantity", "pymultifracs/multiresquantity.py:add_values", "pymultifracs/multiresquantity.py:get_nj"]}
{"id": "C105", "title": "Noise in the samples reaches coefficients, leaders and estimates in a bounded way", "statement": "If two recordings have the same missing samples and every other sample differs by at most e, wavelet_analysis behaves alike on both: the same exception, or the same warnings, effective j2, scales, counts and missing values, each wavelet coefficient at scale j differing by at most e 2^(j(1/2-1/normalization)) 2^(j gamint) |hi|_1 |lo|_1^(j-1), and each leader by at most the largest of these over the scales up to j; at the finest scale no smaller bound holds for any recording, wavelet or position. Where the noise reaching a leader is at most the fraction 1-2^-d of it, hmin, H and c1 move by at most d divided by the spread of the scales, zeta(q) by |q| times that, and c2 by d(2S + d ln 2) over the spread.", "quantifier": "all recordings (missing samples included), all noises bounded by e, all wavelets, normalisations, gamint, j1, j2, numbers of realisations, scale ranges and weightings", "why_tests_cant": "ranges over all signals and all perturbations", "anchors": ["pymultifracs/wavelet.py:wavelet_analysis", "pymultifracs/wavelet.py:filtering", "pymultifracs/wavelet.py:_compute_leaders", "pymultifracs/structurefunction.py:StructureFunction", "pymultifracs/cumulants.py:Cumulants", "pymultifracs/estimation.py:estimate_hmin"]}
{"id": "C106", "title": "Shape of the estimated scaling function and spectrum: when zeta is concave, h decreases, D stays below 1 and c2 is non-positive", "statement": "The theory of multifractals says that zeta is concave, h(q) non-increasing, D(q) at most 1 with its top at q = 0, and c2 non-positive; users read the estimates that way. The estimates of a realisation with finite non-zero values obey: zeta, as a function of the requested order, is twice differentiable, vanishes at 0, has derivative h, its second derivative is ln 2 times the best-line slope across scales of the variance of log2|value| under the weights |value|^q, D = 1 + q h - zeta, and c2 is that second derivative at 0. Hence if these variances do not grow with the scale, all the expected facts hold for the requested orders, and if they do not decrease every one is reversed. The expectation itself is false in general: for the leaders of a 24-sample recording, zeta is strictly convex, h increases, D(1) > 1 and c2 > 0.", "quantifier": "all regular multi-resolution quantities, realisations, scale ranges, weightings, lists of orders, and all triples of requested orders in the interval where the hypothesis on variances holds", "why_tests_cant": "ranges over all data and over a continuum of moment orders; concavity and the sign of the curvature are facts about all triples of orders", "anchors": ["pymultifracs/structurefunction.py:StructureFunction", "pymultifracs/mfspectrum.py:MultifractalSpectrum", "pymultifracs/cumulants.py:Cumulants", "pymultifracs/wavelet.py:wavelet_analysis"]}
{"id": "C107", "title": "Log-cumulant expansion of the scaling function and of the spectrum, with an error bound", "statement": "The log-cumulants c1, c2, c3, ... are used as the coefficients of the expansion zeta(q) = c1 q + c2 q^2/2 + c3 q^3/6 + ... . For every multi-resolution quantity whose non-zero values at each scale of the range lie within a factor 2^S of each other, keeping the first n >= 1 log-cumulants gives, for every requested order q, the estimated zeta(q) up to (2 S ln2 |q|)^(n+1) / ((n+1) ln2 sd), the estimated h(q) up to (2 S ln2)^(n+1) |q|^n / (ln2 sd) and the estimated D(q) up to (1 + 1/(n+1)) (2 S ln2 |q|)^(n+1) / (ln2 sd), where sd is the standard deviation of the scales in the fit; and for |q| <= 1/(2 S ln2) the whole series converges to zeta(q), so that the log-cumulants determine the scaling function near 0.", "quantifier": "all regular multi-resolution quantities, realisations, scale ranges, weightings, numbers n of log-cumulants and lists of orders", "why_tests_cant": "a bound at every order n of a Taylor remainder, and the convergence of an infinite series, for all data and a continuum of moment orders", "anchors": ["pymultifracs/structurefunction.py:StructureFunction", "pymultifracs/cumulants.py:Cumulants", "pymultifracs/mfspectrum.py:MultifractalSpectrum"]}
{"id": "C108", "title": "Wavelet coefficients of stationary signals, white noise and fractional Brownian motion", "statement": "For a random recording with stationary covariance, the wavelet coefficients returned at each scale (away from the borders) are centred and stationary, with the covariance given by the filters; for uncorrelated samples and an orthonormal wavelet all coefficients, of all positions and all scales, are uncorrelated and have the variance of the samples up to the normalisation of the scale. Consequently 2^S(j,2) is unbiased for the variance of a coefficient and wavelet_estimation of white noise is flat, with the variance of the samples as mean at every frequency. If the increments only are stationary (fbm of the package), the same holds as soon as the wavelet ignores constants.", "quantifier": "every expectation on every sample space, signal length, number of realisations, filters, normalisation, fractional integration order, formalism, scale and pair of positions", "why_tests_cant": "a statement about means and covariances over all random recordings, at all scales: simulations estimate it on a few sizes with sampling error", "anchors": ["pymultifracs/wavelet.py:wavelet_analysis", "pymultifracs/wavelet.py:filtering", "pymultifracs/psd.py:wavelet_estimation", "pymultifracs/structurefunction.py:StructureFunction", "pymultifracs/simul/fbm.py:fbm"]}
{"id": "C109", "title": "Energy: the wavelet coefficients of a recording never carry more energy than its samples", "statement": "With an orthonormal wavelet, the squares of all coefficients returned for a realisation, summed over positions and scales after undoing the normalisation of the scales, are at most the sum of the squares of the samples that are present, whatever the missing samples. Hence every coefficient is bounded by the norm of the recording, every leader too, the coefficients of two recordings are at most as far apart as the recordings, and the values of wavelet_estimation, weighted by the numbers of coefficients, sum to at most the energy of the recording.", "quantifier": "every multi-realisation recording (with any pattern of missing samples for the energy bound), every orthonormal wavelet of any length, normalisation, fractional integration, formalism, scale and position", "why_tests_cant": "an inequality between sums over all scales for all signals of all lengths and all orthonormal filters", "anchors": ["pymultifracs/wavelet.py:wavelet_analysis", "pymultifracs/wavelet.py:filtering", "pymultifracs/psd.py:wavelet_estimation"]}
{"id": "C110", "title": "Decorrelation: wavelet coefficients of simulated fractional noise and motion have short memory", "statement": "For fbm(H) analysed with a wavelet of M >= 1 vanishing moments, the covariance of two coefficients of the same scale that are further apart than the width of the wavelet at that scale is at most an explicit constant times the remaining distance to the power 2H - 2M; for fgn(H) the power is 2H - 2 - 2M. With M >= 2 (fbm) or M >= 1 (fgn), whatever H, the absolute covariances of one coefficient with all the others of its scale have a sum bounded by a constant that does not depend on the length of the simulated signal: the long memory of the signal is removed.", "quantifier": "every H in (0, 1], sigma, sampling step, length, number of realisations, finite wavelet filter pair with M vanishing moments, normalisation, fractional integration, formalism, scale and pair of positions away from the borders; expectations over any white noise drawn", "why_tests_cant": "an asymptotic statement about expectations over the random input, for all lengths, lags, filters and Hurst parameters", "anchors": ["pymultifracs/wavelet.py:wavelet_analysis", "pymultifracs/wavelet.py:filtering", "pymultifracs/simul/fbm.py:fbm", "pymultifracs/simul/fbm.py:fgn"]}
{"id": "C111", "title": "Haar analysis of simulated fractional noise and motion recovers the Hurst exponent", "statement": "For fgn(H) analysed with the orthonormal Haar wavelet the expected mean square coefficient is an exact power law of the scale at every scale, so a weighted least-squares fit of its log2 over any two or more scales has slope exactly 2H - 2/norm + 2 gamint, and the expected wavelet spectrum with one vanishing moment is exactly proportional to f^(1 - 2H) at the reported frequencies. For fbm(H) the expected mean square coefficient of scale j lies between two explicit bounds, and for every tolerance there is a scale, depending on the parameters only and not on the length of the simulation, above which any such fit has a slope within the tolerance of 2H + 2 - 2/norm + 2 gamint.", "quantifier": "every H in (0, 1) (fgn) or (0, 1] (fbm), sigma, sampling step, length, number of realisations, normalisation, fractional integration, formalism, set of at least two scales, positive weights and tolerance; expectations over any white noise drawn", "why_tests_cant": "a statement about expectations over the random input and a limit over scales, for all lengths, parameters and weights", "anchors": ["pymultifracs/simul/fbm.py:fgn", "pymultifracs/simul/fbm.py:fbm", "pymultifracs/wavelet.py:wavelet_analysis", "pymultifracs/psd.py:wavelet_estimation", "pymultifracs/utils.py:linear_regression"]}
{"id": "C112", "title": "The estimated exponent converges to the simulated one as the simulation gets longer", "statement": "Over Gaussian noise, the mean square wavelet coefficient of a scale of simulated fgn (wavelet with one vanishing moment) or fbm (two vanishing moments) has a variance at most a constant divided by the number of coefficients of that scale, the constant depending only on H, the wavelet, the scale and the normalisation. Hence for fgn(H) simulated, analysed with the Haar wavelet and fitted with the structure function over any two or more scales j1..j2, the probability that any step fails or that the reported exponent differs from H - 1/norm by more than eps is at most K/N for a K independent of the length N, of sigma, of the sampling step, of the realisation and of the weighting. For fbm(H), analysed with the Haar wavelet over scales above some scale that depends on H and eps, the probability that any step fails or that the reported exponent differs from H + 1 - 1/norm by more than eps tends to 0 as the length grows. For any wavelet with a vanishing moment (none is needed for fgn) the estimate converges in the same sense to the exponent of any line fitting the logarithms of the ideal variances of the scaling range, within the error of that line.", "quantifier": "every H in (0, 1), sigma <> 0, sampling step, length, number of realisations, normalisation, fractional integration, scaling range, weighting and tolerance; probabilities over any noise with the moments up to order four of complex Gaussian noise", "why_tests_cant": "a bound on a probability over the random input, for all lengths, parameters and tolerances", "anchors": ["pymultifracs/simul/fbm.py:fgn", "pymultifracs/simul/fbm.py:fbm", "pymultifracs/wavelet.py:wavelet_analysis", "pymultifracs/structurefunction.py:StructureFunction", "pymultifracs/utils.py:linear_regression"]}
{"id": "C113", "title": "The wavelet coherence of simulated signals converges to their correlation", "statement": "Take two realisations x, y of one call of fgn or fbm and any two mixtures u = a x + b y, v = c x + d y, neither of them zero. Analyse u and v with the same wavelet (one vanishing moment) and form the bivariate structure function. As the simulation gets longer, the probability that any step fails, or that the coherence reported at some scale of j1..j2 differs from the correlation (ac + bd)/sqrt((a^2+b^2)(c^2+d^2)) by more than eps, goes to zero. In particular the coherence of independent realisations tends to 0 and that of proportional signals is +-1. With the Haar wavelet this holds for every scale of fgn and from some scale on for fbm; with another wavelet, at scales where the ideal wavelet variance is not zero.", "quantifier": "every H in (0, 1), mixing coefficients, sigma <> 0, sampling step, wavelet, normalisation, fractional integration, scales, pair of realisations, moments containing 0, 1, 2, tolerance and probability; any noise with the moments up to order four of complex Gaussian noise", "why_tests_cant": "a limit in probability over the random input as the length grows, for all parameters", "anchors": ["pymultifracs/bivariate/bivariate_structurefunction.py:BiStructureFunction", "pymultifracs/simul/fbm.py:fgn", "pymultifracs/simul/fbm.py:fbm", "pymultifracs/wavelet.py:wavelet_analysis"]}
{"id": "C114", "title": "The Fourier (Welch) spectrum: value, mean, total power, and agreement with the wavelet spectrum", "statement": "welch_estimation returns, for every recording for which half of a segment fits, one non-negative number per frequency: the mean over half-overlapping Hamming-windowed segments of the squared Fourier transform, which is multiplied by c^2 when the recording is multiplied by c. For a stationary signal its mean is the covariance seen through the window; for white noise it is flat; the values sum to the variance. On white noise it agrees with wavelet_estimation, the other spectrum drawn on the same figure.", "quantifier": "every recording, segment length, transform length and sampling frequency; every stationary random signal with finite second moments; every frequency", "why_tests_cant": "for all inputs and in the mean over the random input", "anchors": ["pymultifracs/psd.py:welch_estimation", "pymultifracs/psd.py:wavelet_estimation", "pymultifracs/psd.py:plot_psd"]}
{"id": "C115", "title": "A sinusoid shows as a peak at its frequency in the Welch spectrum", "statement": "For a sinusoid at one of the Fourier frequencies of the transform (not within two of the ends), of any phase and amplitude, recorded for at least one segment, the Welch spectrum has a single strict maximum at the entry of that frequency, (23/54)^2 of it at the two neighbours and exactly zero elsewhere, and the frequency returned for the maximum is that of the sinusoid.", "quantifier": "every amplitude, phase, transform length, frequency number, recording length and sampling frequency", "why_tests_cant": "for all lengths, phases and amplitudes", "anchors": ["pymultifracs/psd.py:welch_estimation"]}
{"id": "C116", "title": "The spectral exponent that fractal_analysis gives for simulated fractional noise and Brownian motion", "statement": "Simulating fgn (or fbm) with the method cme and calling fractal_analysis with the one-moment Daubechies wavelet, over a band of frequencies that holds the scales j1 to j2, returns with probability tending to one as the length grows, and gives the exponent of the power law that the simulated process has: |f|^(1 - 2H) for fgn, |f|^(-(2H + 1)) for fbm, with the documented reading C |f|^(-beta).", "quantifier": "every H in (0, 1), sigma, sampling step, number of realisations, frequency band, sampling frequency, logarithm, tolerance, and every random noise with the moments of complex Gaussian noise", "why_tests_cant": "in probability over the random input, and in the limit of long recordings", "anchors": ["pymultifracs/simul/noisegen.py:fgn", "pymultifracs/simul/noisegen.py:fbm", "pymultifracs/fractal_analysis.py:fractal_analysis", "pymultifracs/psd.py:wavelet_estimation"]}
{"id": "C117", "title": "The Fourier spectrum of simulated fractional noise converges, at all frequencies at once", "statement": "Simulating fgn with the method cme and calling welch_estimation on a realisation returns, and as the recording gets longer all the returned values get as close as wanted, with probability as close to one as wanted, to the covariance of the noise seen through the window. For white noise (H = 1/2) this is a flat spectrum. The probability of a deviation is at most K / N for H < 3/4, K N^(4H - 4) for H > 3/4, and K N^(-a) for any a < 1 at H = 3/4.", "quantifier": "every H in (0, 1), transform and segment length, sigma, sampling step, sampling frequency, realisation, tolerance, and every random noise with the moments of complex Gaussian noise", "why_tests_cant": "in probability over the random input, and in the limit of long recordings", "anchors": ["pymultifracs/simul/noisegen.py:fgn", "pymultifracs/psd.py:welch_estimation"]}
{"id": "C118", "title": "Every sample of a recording counts", "statement": "Every sample of a recording has an influence on its analysis, and reversing the recording in time does not change the analysis with symmetric filters.", "quantifier": "all recordings (any length, any number of realisations, numbers, infinities and NaN), all wavelets with filters of even length, all formalisms and parameters, all positions of the sample in the recording", "why_tests_cant": "a test perturbs a few samples of a few recordings; that a sample is never read, whatever the recording and the parameters, is a universal statement", "anchors": ["pymultifracs/wavelet.py:filtering", "pymultifracs/wavelet.py:wavelet_analysis", "pymultifracs/psd.py:wavelet_estimation", "pymultifracs/fractal_analysis.py:fractal_analysis"]}
{"id": "C119", "title": "The wavelet spectrum of simulated noise and motion converges, and agrees with the Fourier spectrum", "statement": "Simulating fgn (or fbm) with the method cme and calling wavelet_estimation returns, and as the recording gets longer the values of the spectrum at the first J scales get as close as wanted, with probability at least 1 - K / N, to the covariance of the noise seen through the wavelet; on white noise the spectrum is flat, and agrees with the one of welch_estimation, which Signal.plot_psd draws on the same axes.", "quantifier": "every H in (0, 1), wavelet with vanishing moments, number of scales, sigma, sampling step, sampling frequency, realisation, tolerance, transform and segment length, and every random noise with the moments of complex Gaussian noise", "why_tests_cant": "in probability over the random input, and in the limit of long recordings: a test sees a few draws of a few lengths", "anchors": ["pymultifracs/psd.py:wavelet_estimation", "pymultifracs/psd.py:welch_estimation", "pymultifracs/psd.py:plot_psd", "pymultifracs/simul/fbm.py:fgn", "pymultifracs/simul/fbm.py:fbm"]}
{"id": "C120", "title": "Second- and fourth-order statistics of the multifractal random walk", "statement": "mrw with the method cme returns a walk whose increments are centred, have the covariance of fractional Gaussian noise times the exponential of the log-volatility covariance, are uncorrelated between realisations, and whose squares are correlated by the log-volatility (for H = 1/2: uncorrelated increments, squares correlated by exp(4 g)); sigma is the variance of the process, as the documentation says.", "quantifier": "every number of samples and realisations, H in (0, 1], lam, integral scale L in (0, N], sigma, pair of positions and realisations, and every pair of random noises with the moments of independent complex Gaussian noise", "why_tests_cant": "expectations over the random input: a test averages a few draws with a tolerance, and cannot tell a variance off by L^(lam^2 / 2) from a fluctuation of a heavy-tailed estimate", "anchors": ["pymultifracs/simul/mrw.py:mrw", "pymultifracs/simul/mrw.py:gaussian_w", "pymultifracs/simul/fbm.py:fgn"]}
{"id": "C121", "title": "mrw_cumul: the walk has the log-cumulants asked for", "statement": "mrw_cumul(shape, c1, c2, L) generates a walk whose first two log-cumulants are c1 and c2: the moment of order q of its displacement over l samples follows, up to the integral scale, the power law of exponent c1 q + c2 q^2 / 2, within constants that depend neither on l nor on L nor on the number of samples.", "quantifier": "every c1 and c2 < 0 with c1 + c2 in (0, 1], integral scale, sigma, shape, position and length of the displacement, and every pair of random noises with the moments of independent complex Gaussian noise", "why_tests_cant": "a law of expectations over a range of scales that grows with the parameters: estimates on a few draws cannot tell an exponent from a nearby one, nor see the limit", "anchors": ["pymultifracs/simul/mrw.py:mrw_cumul", "pymultifracs/simul/mrw.py:mrw", "pymultifracs/simul/mrw.py:gaussian_w"]}
{"id": "C122", "title": "wavelet analysis of a multifractal random walk: the coefficients follow the log-cumulants asked for", "statement": "The Haar wavelet analysis of the increments of mrw_cumul(shape, c1, c2, L) with c1 + c2 = 1/2: the mean square of the coefficients follows, along the scales, the power law of exponent 2 c1 + 2 c2 (plus what the normalisation and the fractional integration add), and their flatness (mean fourth power over the square of the mean square, 3 for Gaussian coefficients) the power law of exponent 4 c2, within constants that depend on c2 only; so the decrease of the flatness between two scales j < j' below the integral scale gives c2 within C(c2) / (j' - j).", "quantifier": "every c2 in (-1/4, 0], integral scale, number of samples above 64 L ln L, sigma, shape, pair of random noises with the moments of independent complex Gaussian noise, p-exponent option, normalisation and fractional integration, and every pair of scales", "why_tests_cant": "a law of expectations over every draw and a range of scales that grows with the parameters: the expected flatness of a heavy-tailed field is far from the one of a few draws", "anchors": ["pymultifracs/simul/mrw.py:mrw_cumul", "pymultifracs/simul/mrw.py:mrw", "pymultifracs/simul/mrw.py:gaussian_w", "pymultifracs/wavelet.py:wavelet_analysis"]}
{"id": "C123", "title": "mrw2D generates images with the spectrum and the intermittency asked for", "statement": "The image mrw2D(shape, H, lam, L) generates: the mean energy of the motion at the frequency k is proportional to |k|^-(2 H + 2); its increments are centred and uncorrelated; their flatness is the one of the multifractal random walk, 3 L^(4 lam^2), and the squares of two increments at distance d have the correlation (L / (1 + d))^(4 lam^2).", "quantifier": "every shape, H, lam, L, sigma, pixel, frequency and realisation, and every pair of independent Gaussian noises", "why_tests_cant": "laws of expectations, for every size of the image: no number of draws tells an exponent from a nearby one, or sees the limit", "anchors": ["pymultifracs/simul/mrw.py:mrw2D", "pymultifracs/simul/mrw.py:fract_int_2d"]}
{"id": "C124", "title": "the analysis of Gaussian signals shows no intermittency", "statement": "For simulated fractional Gaussian noise and every wavelet, and for simulated fractional Brownian motion and every wavelet that ignores constants: at every scale of the transform, the expected mean fourth power of the coefficients is exactly three times the square of their expected mean square. So, with the Haar wavelet and fgn, the flatness is 3 at every scale, the second moment follows the power law of exponent 2 (H - 1/norm + gamint), the fourth one the power law of exponent 4 (H - 1/norm + gamint), exactly, and the flatness, whose decrease gives c2 for a multifractal signal (C122), does not change.", "quantifier": "every H, number of samples and realisations, sigma, sampling step, wavelet, p-exponent option, normalisation, fractional integration, realisation and scale, and every random noise with the moments of complex Gaussian noise", "why_tests_cant": "exact equality of expectations over every draw: a test of a few realisations sees fluctuations of the fourth moment, and takes a weak intermittency for them", "anchors": ["pymultifracs/simul/fbm.py:fgn", "pymultifracs/simul/fbm.py:fbm", "pymultifracs/wavelet.py:wavelet_analysis"]}
{"id": "C125", "title": "the structure function finds simulated Gaussian signals monofractal", "statement": "For simulated fractional Gaussian noise or fractional Brownian motion and every wavelet whose coefficients do not vanish identically at the scales of the fit, StructureFunction on the wavelet coefficients gives exponents of orders 2 and 4 that are proportional, zeta(4) = 2 zeta(2), within any tolerance, outside an event of probability as small as wanted, for every long enough simulation. With the Haar wavelet and fgn the two exponents tend to 2 (H - 1/norm + gamint) and 4 (H - 1/norm + gamint).", "quantifier": "every H, wavelet, tolerance and probability; then every long enough signal, number of realisations, sigma, sampling step, fit (weighted or not), list of orders that contains 2 and 4, realisation, and every random noise with the moments of order at most eight of complex Gaussian noise", "why_tests_cant": "convergence in probability over all the draws and all lengths: a test sees finitely many realisations, of one length", "anchors": ["pymultifracs/simul/fbm.py:fgn", "pymultifracs/simul/fbm.py:fbm", "pymultifracs/wavelet.py:wavelet_analysis", "pymultifracs/structurefunction.py:StructureFunction"]}
{"id": "C126", "title": "every wavelet sees simulated Gaussian signals at every scale", "statement": "For simulated fractional Gaussian noise with 0 < H < 1 and sigma nonzero, and every wavelet with two non-zero filters of the same length, the expected mean square of the wavelet coefficients is positive at every scale of the transform (so its logarithm, and the exponents deduced from it, are defined), and the flatness is exactly 3. The same holds for fractional Brownian motion when the wavelet ignores constants.", "quantifier": "every H in (0, 1), number of samples and realisations, sigma, sampling step, wavelet, p-exponent option, normalisation, fractional integration, realisation and scale", "why_tests_cant": "a variance is positive over every wavelet and every scale only if no combination of the samples is degenerate; a test tries a few wavelets", "anchors": ["pymultifracs/simul/fbm.py:fgn", "pymultifracs/simul/fbm.py:fbm", "pymultifracs/wavelet.py:wavelet_analysis"]}
{"id": "C127", "title": "fits within a tolerance: data close to a line give its slope", "statement": "linear_regression of ordinates that stay within delta of a line alpha x + beta, with any weights that make the fit well posed, gives a slope within delta / (weighted standard deviation of the abscissae) of alpha and an intercept within delta (1 + |mean abscissa| / standard deviation) of beta; with equal weights at n consecutive scales the slope is within delta sqrt(12 / (n^2 - 1)) of alpha. Two sets of ordinates that stay within delta of each other, up to a shift, have slopes within the same distances.", "quantifier": "every number of points, abscissae, ordinates, non-negative weights with two distinct abscissae of positive weight, line and tolerance", "why_tests_cant": "the bound is over every perturbation of the ordinates, a continuum, and every number of points", "anchors": ["pymultifracs/utils.py:linear_regression"]}
{"id": "C128", "title": "regressions over a range of scales find the log-cumulants of a multifractal random walk", "statement": "For mrw_cumul(shape, c1, c2, L) with c1 + c2 = 1/2, -1/4 < c2 <= 0 analysed with the Haar wavelet: the slope that linear_regression gives for log2 of the flatness of the coefficients against the scale, over n consecutive scales below the integral scale, is 4 c2 within a constant of c2 times sqrt(12 / (n^2 - 1)); the slope for log2 of the mean square is 2 c1 + 2 c2 plus what the normalisation and the fractional integration add, within the same order. So c1 and c2 are recovered within any tolerance when the regression has enough scales.", "quantifier": "every log-cumulants in the range, integral scale, number of samples and realisations, sigma, p-exponent option, normalisation, fractional integration, realisation, range of scales and common weight", "why_tests_cant": "the statement is about the limit of many scales and about expectations over all draws", "anchors": ["pymultifracs/utils.py:linear_regression", "pymultifracs/simul/mrw.py:mrw_cumul", "pymultifracs/wavelet.py:wavelet_analysis"]}
{"id": "C129", "title": "to second order, every wavelet sees a multifractal random walk as Brownian motion", "statement": "For mrw_cumul(shape, c1, c2, L) with c1 + c2 = 1/2 and c2 <= 0, analysed with any wavelet that ignores constants and whose filters have a tap: at every scale with coefficients no border reaches, the expected mean square of the coefficients is the variance of the increments of the walk times the mean square that Brownian motion has at that scale for that wavelet, within the factor exp(|c2| / 4). So, scale by scale, it is proportional to what the same analysis gives for fbm(1/2) simulated with fbm, within that factor, with the same proportion for all wavelets and scales; and the slopes that linear_regression gives for log2 of the mean squares over n scales differ by at most |c2| / (4 ln 2) sqrt(12 / (n^2 - 1)).", "quantifier": "every log-cumulants in the range, integral scale, number of samples and realisations, sigma, wavelet, p-exponent option, normalisation, fractional integration, realisation and scale", "why_tests_cant": "it compares two infinite families of expectations over every wavelet and every scale", "anchors": ["pymultifracs/simul/mrw.py:mrw_cumul", "pymultifracs/simul/fbm.py:fbm", "pymultifracs/wavelet.py:wavelet_analysis"]}
