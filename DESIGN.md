# DESIGN — a Rocq model of neurospin/mfanalysis (pymultifracs)

## 1. What is modelled, and how

The code is a numerical library (numpy float64).  It is modelled as total
Gallina functions over **extended reals**

    Inductive xr := Fin (r : R) | PInf | NInf | NaN.

with the IEEE/numpy rules for NaN and infinities (`theories/XReal.v`), but with
exact real arithmetic instead of 53-bit rounding.  All control flow that depends on NaN,
on empty ranges, on missing keys, on Python types (`list` vs `ndarray`, `None`,
`int`), and all exceptions, are modelled: a call returns `Ok v` or
`Err <exception class>` (`theories/PyBase.v`), with warnings as data where a
property talks about them.

* 2-D arrays of shape (n, nrep) are lists of columns (`list (list xr)`); every reduction in
  the code is along axis 0, so this is only a transposition of the memory order.
* dicts are insertion-ordered association lists.
* The mutable `Signal` object is a record with a step function over a type of
  method calls; the numerical kernels it calls are parameters of the state
  machine (they may fail), and are instantiated by the models where a witness is needed.
* External code: `pywt.Wavelet` is a parameter giving the two filters;
  `scipy.signal.convolve(mode='same', method='direct')` is written out from its
  documentation; `sklearn LinearRegression` is written out as ordinary least
  squares with intercept; `scipy.signal.welch` is a parameter in ModelPSD.v, given a meaning in exact arithmetic in ModelWelch.v;
  `scipy.linalg.cholesky` is a parameter with its documented contract (upper triangular factor `U` with
  `U^T U = A`); random noise is an argument; `numpy.fft` is the DFT sum.

### Which parts of /repo are modelled

| file | modelled in | not modelled |
|---|---|---|
| utils.py | ModelUtils.v (all functions) | |
| multiresquantity.py | ModelMRQ.v (all), from_dict in ModelMFA.v | |
| wavelet.py | ModelWavelet.v (all functions), ModelRounded.v (the transform in rounded arithmetic) | pywt itself: a wavelet is its two filters |
| structurefunction.py, cumulants.py, mfspectrum.py | ModelStructure.v, ModelCumulants.v, ModelSpectrum.v; plots in ModelPlot.v, ModelViz.v | |
| estimation.py | ModelEstimation.v (plot_hmin up to its unconditional exception) | |
| mfa.py | ModelMFA.v (all functions) | |
| psd.py, fractal_analysis.py | ModelPSD.v, ModelWelch.v, ModelPlot.v, ModelViz.v | nothing left out; scipy.signal.welch is a parameter of ModelPSD.v, instantiated in ModelWelch.v (a segment with a NaN or an infinity gives NaN everywhere) |
| signal.py | ModelSignal.v (state machine with exceptions), ModelViz.v | |
| viz.py | ModelViz.v (plot_multiscale) | start_xvfb (starts an X server), pandas for unsorted or duplicated indices |
| bivariate/*.py | ModelBivariate.v, ModelPlot.v | the 3-D drawing libraries |
| simul/fbm.py, mrw.py, pzutils.py | ModelSimul.v, Model2D.v | the random generator (draws are arguments), rounding inside scipy.linalg.cholesky (the factor is computed exactly) |

Rounding is modelled for the wavelet transform (ModelRounded.v, C92: coefficients and leaders on any machine with bounded rounding
errors, in particular binary64) and for hmin, the structure functions, the cumulants (ModelRoundedEst.v) and the multifractal spectrum (ModelRoundedSpec.v) (C96: error bounds for hmin, zeta(q), H, the log-cumulants, the intercepts, h(q) and D(q);
the integers of the regression and the binomials are taken as exact); every other statement is about exact arithmetic ("equal" means equal over the reals). Not modelled anywhere: overflow and signed zeros; colours,
fonts, titles and files of the figures (a figure is its panels and the points of its curves); timing; warnings emitted by numpy itself; memory aliasing (no function of the
library mutates an array it has handed out except `_correct_leaders`, which is modelled as an update of the dict).

## 2. Files

(see section 4 for the map from properties to theorems)

| file | content |
|---|---|
| XReal.v | extended reals, numpy scalar operations and NaN-aware reductions |
| PyBase.v | exceptions, results, slices, dicts, numpy helpers |
| Model*.v | the model, one file per module of the package; no proofs |
| Spec.v, SpecMRQ.v, SpecBi.v, SpecSimul.v, Spec2D.v | independent textbook specifications used in theorem statements |
| L*.v | lemmas |
| Props*.v | the property theorems and the examples showing that their hypotheses can be met |

A property that is false of the code is kept: its theorem has the suffix `_refuted`, states the failure for all inputs where possible,
and the part that does hold is proved beside it (status `partial` in MANIFEST.json, with the word REFUTED in the note).

## 3. Trusted base

* Coq 8.16.1 kernel (and coqchk).  No axiom is declared, no check is switched off.
* Axioms: only four of the standard library: `ClassicalDedekindReals.sig_forall_dec` (S), `ClassicalDedekindReals.sig_not_dec` (N),
  `FunctionalExtensionality.functional_extensionality_dep` (F) and `Classical_Prop.classic` (C).  What `Print Assumptions` lists for each theorem
  is in section 5.
* Libraries beyond the standard one: Flocq (PropsBinary64.v, binary64 as an instance of the rounded arithmetic) and Coquelicot (LGaussLimit.v, limits
  and derivatives).  Neither brings an axiom of its own: `Print Assumptions` lists the four above only.
* The reading of /repo: every model definition cites file and lines.
* The reading of numpy/scipy/pywt/sklearn/pandas/matplotlib semantics described above.

## 4. Properties: what is modelled and how it is proved

| id | property | approach |
|---|---|---|
| C01 | linear_regression returns the unique weighted least-squares line | linear_regression on lists; Lagrange identity V0V2-V1^2 = sum of squared differences > 0, then quadratic expansion of the error around the fit. |
| C02 | linear_regression is affine-equivariant and exact on lines | same model; linearity of the sums. |
| C03 | linear_regression invariances and slope variance | same model; Permutation on zipped lists; field. |
| C04 | Degenerate scale ranges | same model in xr: 0/0 = NaN. The empty range is checked separately (expected: the code returns 0 -> refuted part). |
| C05 | fast_power is the elementwise power with NaN kept | fast_power branch by branch against xpow. |
| C06 | fixednansum / fixednanmax ignore NaN and only return NaN on all-NaN input | induction on the list. |
| C07 | scale2freq and freq2scale are mutually inverse and decreasing | Rpower/ln algebra. |
| C08 | fband2scale returns exactly the integer scales inside the band | up/Int_part characterisation of ceil/floor. |
| C09 | build_q_log grid | model of logspace, sort, unique on R lists; invariants of insertion sort. |
| C10 | nj always counts the non-NaN coefficients | record with two association lists; induction over the list of add_values calls. |
| C11 | get_nj_interv returns the weights of exactly the scales j1..j2 | induction on the range. |
| C12 | Maximum decomposition level | floor(log2) model, Rpower monotonicity. |
| C13 | One filtering step: size, border and padding independence | convolution model with an explicit pad value; index arithmetic. |
| C14 | NaN pattern depends only on the length | mask function of the length; induction over the scale loop. |
| C15 | Locality of wavelet coefficients | induction on scale with explicit window arithmetic. |
| C16 | Wavelet coefficients are linear in the signal | induction on scale. |
| C17 | Blindness to polynomial trends | Horner-form polynomials closed under z -> 2z+t and filtering; induction on scale. |
| C18 | Fractional integration and normalization only rescale each scale | xmul algebra; loop lemma. |
| C19 | Shape of the wavelet transform result | loop invariant. |
| C20 | Coefficients do not depend on the formalism | loop lemma relating both loops. |
| C21 | Leaders are suprema over the time-scale cone | induction on scale; dyadic cone specification. |
| C22 | Leaders dominate coefficients and grow with scale | corollary of C21. |
| C23 | p-leaders are the l^p cone averages | induction on scale. |
| C24 | p-leader finite-resolution correction | real analysis of the factor. |
| C25 | p-leaders are available for every p | expected refuted: StructureFunction needs 2 in q. |
| C26 | eta_p <= 0 is handled by a warning | expected refuted: unpacking a non-tuple. |
| C27 | nj of the returned leaders counts usable leaders | invariant of add_values + correction; expected refuted for NaN eta. |
| C28 | Structure functions are log2 of moments and zeta its regression | unfold and slice arithmetic. |
| C29 | zeta(0) = 0 | S(j,0)=1. |
| C30 | Estimates do not depend on the signal's amplitude | multiplication by a non-zero constant is an automorphism of xr; every estimator lemma; pipeline theorem. |
| C31 | Fractional integration shifts the exponents of wavelet coefficients by gamint | same technique with per-scale factors. |
| C32 | H is None when 2 is not among the moments | expected refuted (IndexError). |
| C33 | Structure functions are log-convex in q and power means increase | convexity of exp (weighted AM-GM / Jensen) on lists. |
| C34 | Cumulants satisfy the moment-cumulant relations | strong induction on order; real algebra for orders 1-4. |
| C35 | Cumulants of order >= 2 are shift invariant and homogeneous at every order | binomial convolution algebra on sequences (Leibniz + associativity). |
| C36 | Cumulant accessors | attribute lookup model on strings. |
| C37 | Spectrum entropy bounds | ln x <= x-1 (Gibbs). |
| C38 | The spectrum at q = 0 | R = 1/nj. |
| C39 | Spectrum and scaling function are Legendre-consistent | U = qV - log2 S scale by scale, then linearity of the regression. |
| C40 | Exact monofractals are recovered exactly | direct computation. |
| C41 | hmin is the regression of log2 sup | unfold; warning condition expected refuted. |
| C42 | compute_hurst returns zeta(2)/2 | expected refuted (attribute `values` never set). |
| C43 | mf_analysis assembles independent estimators | unfold of the monadic code. |
| C44 | minimal analysis is a projection of the full one | unfold; expected refuted for None/list q and missing leaders. |
| C45 | Realisations do not influence each other | column-wise lemmas. |
| C46 | Signal: wavelet PSD is never stale | state machine invariant. |
| C47 | Signal: Welch PSD cache is coherent | invariant under no-failure; refuted otherwise. |
| C48 | Signal: wavelet transform cache is coherent | invariant under no-failure; refuted otherwise. |
| C49 | Signal: estimators use the parameters of the last wavelet analysis | refuted by an interleaved PSD call; positive version proved. |
| C50 | Signal: mf_analysis returns (and caches) the multifractal analysis | refuted: unexpected keyword arguments. |
| C51 | Signal: fractal analysis is coherent and guarded calls fail cleanly | state machine. |
| C52 | estimate_beta recovers the exponent of a power-law PSD | OLS algebra; sign expected refuted. |
| C53 | Spectral slope and Hurst exponent agree | affine change of abscissa in the regression. |
| C54 | PSD estimators: supports and parameter sanitising | unfold. |
| C55 | Coherence is bounded by 1 | Cauchy-Schwarz on lists. |
| C56 | Multifractal correlation is bounded by 1 and marginals agree | Cauchy-Schwarz; recursion equality. |
| C57 | Joint cumulants of every order are computed | expected refuted: entries stay 0. |
| C58 | Bivariate analysis works in the coefficient formalism | expected refuted: UnboundLocalError. |
| C59 | Bivariate Legendre surface peaks at the first-order cumulants | quadratic form. |
| C60 | Generator argument checks and shapes | argument checks and shape model. |
| C61 | fbm has the fractional Brownian covariance | telescoping double sums. |
| C62 | Circulant embedding imposes the requested covariance | roots of unity orthogonality. |
| C63 | Cholesky synthesis imposes the requested covariance | expected refuted: upper factor, witness N=2. |
| C64 | Skewness convolution by FFT equals the direct causal sum | convolution theorem. |
| C65 | skewed_mrw returns a realisation | expected refuted: broadcast error 2N vs 2N+1. |
| C66 | from_dict forwards exactly the constructor's parameters | filter on an association list. |
| C67 | plot_fractal draws the spectrum with its slope | expected refuted: TypeError in the legend. |
| C68 | psd_difference compares two signals on their common frequencies | sorting and index lemmas on lists. |
| C69 | Joint structure functions are log2 joint moments with a least-squares exponent | moments over jointly usable positions; least-squares lemmas. |
| C70 | Joint log-moments are jointly convex in the moment orders | two-function Hoelder inequality. |
| C71 | A noise given by the caller determines the generated series | non-interference in the draw argument; expected refuted for cme. |
| C72 | sigma and the sampling step only scale fgn and fbm | square roots of scaled eigenvalues. |
| C73 | mrw is the cumulative sum of fGn modulated by the exponential of the log-volatility | unfold and column lemmas. |
| C74 | mrw_cumul is mrw with the prescribed log-cumulants | algebra; NaN propagation. |
| C75 | Cumulants.plot shows every order | panel index arithmetic (div/mod); permutation of the surviving panels. |
| C76 | StructureFunction.plot shows every order | same; exact failure condition; expected refuted for default arguments. |
| C77 | BiCumulants.plot shows the cumulants with their log-cumulants | unfold; label expected refuted. |
| C78 | BiStructureFunction.plot shows every pair of orders | C55_needed_moments gives at least 3 orders, so the grid is never squeezed. |
| C79 | log_plot draws every spectrum | filter/map algebra. |
| C80 | plot_legendre draws the bivariate spectrum over the requested support | selection by masks = filter; expected refuted for h_support and axes. |
| C81 | fract_int_2d is fractional integration on the torus | 2-D DFT as complex double sums; orthogonality, inversion; evenness of the filter. |
| C82 | The log-volatility of mrw2D has the covariance of a multifractal random walk | linear combinations of white noise over a duplicate-free index list; |csqrt z|^2=|z|; Parseval. Expected refuted (factor N^2). |
| C83 | mrw2D returns the walk and its increments in the documented shape with variance parameter sigma | unfold; shape and sigma expected refuted. |
| C84 | A longer recording keeps the coefficients | PropsShift.v: the filtering step maps a signal found inside another one to a result found inside the other result (fstep_inside), by induction on the scale for the coefficients; the leaders through their characterisation as suprema over cones (C21). |
| C85 | MultifractalSpectrum.plot shows the spectrum | ModelViz.mfs_plot; row lemmas of C37-C40 for the window witness. |
| C86 | plot_psd draws both spectra | ModelViz.log_plot_any: masks as filters on the paired list; C46/C47 for the histories. |
| C87 | plot_multiscale averages over the subjects at equal frequency | ModelViz.plot_multiscale with the enumeration of the Python set as an argument; Permutation of the figures. |
| C88 | Fitted exponents are unbiased, their variance is the reported one, and no linear estimator does better | SpecSimul expectations; linear_regression as explicit weights (LReg), Gauss-Markov identity var(u) = var(w) + sum (u-w)^2/n. |
| C89 | Bivariate estimates do not depend on the units of the two signals | both tables rescaled by f1(j), f2(j) (C30); every entry of the bivariate tables shifts by a line in j; the fit is equivariant. |
| C90 | Bivariate estimates follow fractional integration | same general lemma with f(j) = 2^(j d) (C31). |
| C91 | An estimate is a number exactly when every fitted scale determines it | PropsFinite.v: NaN and infinity propagation through the least-squares sums in one direction, the finite formulas of C28-C42 in the other; h(q), q < 0 expected refuted (0 * log2 of a finite value at a scale whose sum is infinite). |
| C92 | The transform computed in floating point is the exact one up to a stated bound | ModelRounded.v runs the loops of ModelWavelet.v on an abstract machine; PropsRounded.v bounds an inner product in any order (induction on the summation tree), then simulates the exact loops by the rounded ones with a per-scale error; PropsBinary64.v instantiates with Flocq's binary64. |
| C93 | Leaders and p-leaders of one signal bound each other | C23_returned_leaders gives the returned p-leader in closed form (cone energy and correction), C21 the leader; the cone has weight 3j and its maximum enters with weight at least 2^(1-j). |
| C94 | Estimates are stable under small relative changes of the analysed quantity | A weighted least-squares slope is a weighted covariance over the variance of the scales, so by Cauchy-Schwarz it moves by at most max |dy| / sd; then bound the change of each ordinate (log2 of a mean of powers, log2 of a maximum, mean and variance of logs). |
| C95 | Signal: results follow the data when it is reassigned | Histories over calls and assignments (ModelAssign.v); invariant: data, fs, log are the last assigned and wt_psd_param is never set; the caches compare only the parameters. |
| C96 | Estimates computed in floating point are within explicit bounds of the exact ones | ModelRoundedEst.v runs the estimators with rounded operations; errors are propagated operation by operation through pairs (size, error); the regression weights are bounded by the spread of the scales. |
| C97 | Fractional integration of images of odd size | Model2D.fract_int_2d covers every size; conjugate-symmetrisation (the real part of the inverse transform) averages the gains of k and -k. |
| C98 | Estimates depend only on the distribution of the magnitudes at every scale | NaN-skipping sums and maxima factor through the permutation class of the non-NaN magnitudes; k copies multiply sums and counts by k; entropy of k copies drops by log2 k while log2 nj grows by it; the fit is invariant under rescaled weights. |
| C99 | Usable coefficients in closed form: borders and missing samples | Induction on the filtering steps: the support intervals of consecutive positions overlap, so the union over a filter window is the interval of the next scale; positions kept at one scale only use positions kept at the previous one. |
| C100 | Parameters are recognised as unchanged exactly when they are equal | Case analysis on the two representations; induction on the two arrays for the elementwise comparison. |
| C101 | A quantity is perfectly correlated with itself | The logarithms of the second quantity are an affine function of those of the first at every scale: covariance and variances follow; the regressions are linear in the fitted values. |
| C102 | The log-cumulants are the derivatives of the scaling function at 0, and h(q) is its derivative | The recursion of the cumulants is differentiated: the k-th derivative of the logarithm of the exponential moment is the k-th cumulant of the tilted sample (LCgf); the three estimators fit with the same linear weights. |
| C103 | Bivariate cumulants are read by name | Case analysis on the name; the two masks select one cell of the table of cumulants. |
| C104 | A multi-resolution quantity is a faithful store | Induction over the history of add_values on the association lists that model the two dicts; case analysis on the name. |
| C105 | Noise in the samples reaches coefficients, leaders and estimates in a bounded way | Lock-step simulation of the two runs (coefficients and leaders) with the relation 'NaN together, or numbers within e and bounded', each filter multiplying the error by its 1-norm; leaders by 1-Lipschitz maxima; estimates through C94. |
| C106 | Shape of the estimated scaling function and spectrum: when zeta is concave, h decreases, D stays below 1 and c2 is non-positive | Write zeta, h, c2 as weighted sums over scales of the cumulant generating function of the logs and its derivatives (LCgf); the second derivative of a cumulant generating function is a tilted variance; Chebyshev's sum inequality signs the regression slope of a monotone series; mean value theorem. Counterexample: samples whose scale-1 differences are constant and whose scale-2 differences are not. |
| C107 | Log-cumulant expansion of the scaling function and of the spectrum, with an error bound | zeta is a fixed linear combination over scales of cumulant generating functions; bound the n-th cumulant of numbers in an interval of length w by (n-1)! (2w)^n by strong induction on the recursion of cumulants.py; Taylor's theorem with remainder by induction. |
| C108 | Wavelet coefficients of stationary signals, white noise and fractional Brownian motion | means and products of the filter outputs by induction on the scale with a linear expectation; the orthonormality of the filters makes the covariance flat at every scale; a concrete white noise (a random sign at a random position) and the normalised Haar wavelet meet the hypotheses |
| C109 | Energy: the wavelet coefficients of a recording never carry more energy than its samples | Bessel's inequality for one filtering step (the windows of the two filters are orthonormal vectors, missing outputs are dropped), then induction over the scales |
| C110 | Decorrelation: wavelet coefficients of simulated fractional noise and motion have short memory | the covariance of coefficients is a finite combination of translates of |t|^(2H) which annihilates polynomials of degree < 2M (binomial expansion); Taylor with the 2M-th derivative of the power; comparison with the series of inverse squares |
| C111 | Haar analysis of simulated fractional noise and motion recovers the Hurst exponent | Haar filters turn covariances into second and fourth differences of |t|^(2H) (exact for fGn) or into double block sums (fBm), which are compared with integrals of powers by the mean value theorem; a weighted least-squares slope is a convex combination of the slopes between pairs of points |
| C112 | The estimated exponent converges to the simulated one as the simulation gets longer | fourth moments of linear combinations of the noise are Gaussian, so covariances of squares are squares of covariances (Wick); the covariances of coefficients are summable (C109); Chebyshev for each scale, then the exact power law of C111 and the stability of the weighted least-squares slope |
| C113 | The wavelet coherence of simulated signals converges to their correlation | the coefficients of u, v and u + v are linear combinations of the noise; each mean power concentrates (C112); the cross moment is recovered from the three powers by polarisation (C16); the quotient is continuous; existence and value of the coherence from C55 |
| C114 | The Fourier (Welch) spectrum: value, mean, total power, and agreement with the wavelet spectrum | ModelWelch.v gives a meaning to the numerical part of scipy.signal.welch; the power of a segment is a quadratic form; expectation by linearity; Parseval from the orthogonality of the roots of unity; C108_psd for the wavelet side |
| C115 | A sinusoid shows as a peak at its frequency in the Welch spectrum | product-to-sum formulas and orthogonality give the transform of the windowed sinusoid; its modulus does not depend on the phase, hence not on the segment; C54 for the frequencies |
| C116 | The spectral exponent that fractal_analysis gives for simulated fractional noise and Brownian motion | a finite Hurst exponent comes only from positive mean powers, so fractal_analysis returns whenever the structure function of every realisation is finite; C53_beta_is_hurst turns the exponent into -(2h + 1); C112 bounds the probability column by column |
| C117 | The Fourier spectrum of simulated fractional noise converges, at all frequencies at once | real and imaginary part of each windowed segment are linear in the noise; LWick.sumsq_var gives the variance of their sums of squares from the squared covariances between segments, which vanish with the lag; Chebyshev, and a union over the frequencies |
| C118 | Every sample of a recording counts | the retained positions of the first filtering step and the taps they read give the set of samples that are read; the loops only use the output of that step |
| C119 | The wavelet spectrum of simulated noise and motion converges, and agrees with the Fourier spectrum | C112_fluctuation_fgn / _fbm bound the variance of the mean power of a scale; the spectrum is that mean power (value_power); Chebyshev and a union over the scales; union with C117_white_flat for the ratio |
| C120 | Second- and fourth-order statistics of the multifractal random walk | gaussian_w is linear in its noise (cme_coef), so exp of combinations has the moment generating function; joint moments by polarisation; independent noises realised as limits (Lim_seq) of averages over walks with steps 1/sqrt n |
| C121 | mrw_cumul: the walk has the log-cumulants asked for | the second and fourth moments of a displacement are sums over two or four increments (disp2, disp4: Isserlis with weights by polarisation over eight signs); sums of the correlation of fractional noise over pairs telescope (fcor_total), their sign is by convexity; sums of powers of the lag by the mean value theorem |
| C122 | wavelet analysis of a multifractal random walk: the coefficients follow the log-cumulants asked for | a Haar coefficient is a triangle-weighted sum of increments (haar_value); its second and fourth moments are bounded by the ones of sums over pairs of lags (wsum2, wsum4), with the volatility correlation replaced by its values at the ends of the range (volL_near); averages over the coefficients of a scale keep the bounds (average_between) |
| C123 | mrw2D generates images with the spectrum and the intermittency asked for | omega is a combination of its noise with the covariance of C82 (omega_lin, omega_cov); moments of products of a combination of one Gaussian noise with the exponential of a combination of another (gjoint1, 2, 4); the Fourier coefficients are combinations of uncorrelated pixels (lin_lin, white_pixels) |
| C124 | the analysis of Gaussian signals shows no intermittency | each coefficient is a combination of the Gaussian noise (coef_comb), so its fourth moment is three times its squared variance (comb_pow4); the variance does not depend on the position (moments_2, C108_increments); average_between with equal bounds |
| C125 | the structure function finds simulated Gaussian signals monofractal | eighth moments of a pair of combinations by polarisation (comb_wick4); the variance of the mean fourth power of a scale tends to 0 since the covariances fade; Chebyshev for the mean powers of orders 2 and 4 of each scale; the slopes of the regression are continuous functions of the logarithms (mono_near) |
| C126 | every wavelet sees simulated Gaussian signals at every scale | fgn_pd: the covariance of fgn is positive definite; filtering, after inserting zeros, a non-zero sequence by a filter with a tap gives a non-zero sequence (last value times first tap); for fbm, summation by parts on sequences of sum zero |
| C127 | fits within a tolerance: data close to a line give its slope | the error of the slope is a weighted inner product of the centred abscissae with the residuals: Cauchy-Schwarz; closed forms of the sums of j and j^2 |
| C128 | regressions over a range of scales find the log-cumulants of a multifractal random walk | C122 puts log2 of the moments within a constant of a line in the scale; C127_scales bounds the slope |
| C129 | to second order, every wavelet sees a multifractal random walk as Brownian motion | LRepr.v: a coefficient is a balanced linear form of the samples, so a linear form of the uncorrelated increments of the walk; the sum of the squares of its weights is the quadratic form of Brownian motion, which the recursion on the filters computes |

## 5. Print Assumptions for each theorem

S, N, F, C as in section 3; '-' is "Closed under the global context".

| property | theorem (file) | axioms |
|---|---|---|
| C01 | C01_least_squares (PropsRegression.v) | S F |
| C02 | C02_affine_equivariance (PropsRegression.v) | S F |
| C02 | C02_exact_on_lines (PropsRegression.v) | S F |
| C03 | C03_order_invariance (PropsRegression.v) | S F |
| C03 | C03_weight_scale_invariance (PropsRegression.v) | S F |
| C03 | C03_abscissa_shift (PropsRegression.v) | S F |
| C03 | C03_slope_variance (PropsRegression.v) | S F |
| C04 | C04_equal_abscissae_nan (PropsRegression.v) | S F |
| C04 | C04_empty_fit_refuted (PropsRegression.v) | S |
| C05 | C05_fast_power (PropsUtils.v) | S N C F |
| C05 | C05_power_unique (PropsUtils.v) | S N C F |
| C06 | C06_fixednansum (PropsUtils.v) | S |
| C06 | C06_fixednanmax (PropsUtils.v) | S F |
| C07 | C07_freq2scale_scale2freq (PropsUtils.v) | S N C F |
| C07 | C07_scale2freq_freq2scale (PropsUtils.v) | S N C F |
| C07 | C07_decreasing (PropsUtils.v) | S N C F |
| C08 | C08_fband2scale (PropsUtils.v) | S N C F |
| C09 | C09_error_iff (PropsUtils.v) | S N C F |
| C09 | C09_grid (PropsUtils.v) | S N C F |
| C10 | C10_nj_counts (PropsUtils.v) | - |
| C10 | C10_scale_order (PropsUtils.v) | - |
| C11 | C11_nj_interval (PropsUtils.v) | - |
| C12 | C12_largest_level (PropsUtils.v) | S N C F |
| C12 | C12_empty_signal_raises (PropsUtils.v) | S N C F |
| C12 | C12_monotone (PropsUtils.v) | S N C F |
| C12 | C12_internal_limit_agrees (PropsUtils.v) | S N C F |
| C13 | C13_filtering_step (PropsWavelet.v) | S F |
| C14 | C14_nan_structure (PropsWavelet.v) | S N C F |
| C14 | C14_returns (PropsWavelet.v) | S N C F |
| C14 | C14_leader_pattern (PropsPLeaders.v) | S N C F |
| C15 | C15_locality (PropsWavelet.v) | S N C F |
| C16 | C16_linear (PropsWavelet.v) | S N C F |
| C17 | C17_trend_invariant (PropsWavelet.v) | S N C F |
| C17 | C17_polynomial_zero (PropsWavelet.v) | S N C F |
| C18 | C18_rescale (PropsWavelet.v) | S N C F |
| C18 | C18_normalization_is_gamint (PropsWavelet.v) | S N C F |
| C19 | C19_shape (PropsWavelet.v) | S N C F |
| C19 | C19_scales_available (PropsWavelet.v) | S N C F |
| C20 | C20_coefs_formalism (PropsWavelet.v) | S N C F |
| C21 | C21_leader_sup (PropsLeaders.v) | S N C F |
| C22 | C22_leaders_dominate (PropsLeaders.v) | S N C F |
| C23 | C23_p_leader_average (PropsLeaders.v) | S N C F |
| C23 | C23_returned_leaders (PropsPLeaders.v) | S N C F |
| C24 | C24_correction_factor (PropsLeaders.v) | S N C F |
| C24 | C24_correction_applied (PropsLeaders.v) | S N C F |
| C25 | C25_only_two_refuted (PropsLeaders.v) | S N C F |
| C25 | C25_index_error_refuted (PropsLeaders.v) | S N C F |
| C26 | C26_eta_decides_refuted (PropsLeaders.v) | S N C F |
| C27 | C27_counts_partial (PropsLeaders.v) | S N C F |
| C27 | C27_nan_leaders_refuted (PropsLeaders.v) | S N C F |
| C28 | C28_log_moments (PropsEstimators.v) | S N C F |
| C28 | C28_zeta_best_line (PropsEstimators.v) | S N C F |
| C29 | C29_zeta_zero (PropsEstimators.v) | S N C F |
| C30 | C30_transform (PropsInvariance.v) | S N C F |
| C30 | C30_structure_functions (PropsInvariance.v) | S N C F |
| C30 | C30_cumulants (PropsInvariance.v) | S N C F |
| C30 | C30_spectrum (PropsInvariance.v) | S N C F |
| C30 | C30_hmin (PropsInvariance.v) | S N C F |
| C30 | C30_applies (PropsInvariance.v) | S N C F |
| C30 | C30_signal_exponents (PropsInvariance.v) | S N C F |
| C31 | C31_coefficients (PropsInvariance.v) | S N C F |
| C31 | C31_estimates (PropsInvariance.v) | S N C F |
| C32 | C32_H_value (PropsEstimators.v) | S N C F |
| C32 | C32_get_intercept (PropsEstimators.v) | S N C F |
| C32 | C32_no_two_refuted (PropsEstimators.v) | S N C F |
| C33 | C33_log_convex (PropsEstimators.v) | S N C F |
| C33 | C33_power_means (PropsEstimators.v) | S N C F |
| C34 | C34_moment_cumulant (PropsCumulants.v) | S N C F |
| C34 | C34_low_orders (PropsCumulants.v) | S N C F |
| C34 | C34_log_cumulants (PropsCumulants.v) | S N C F |
| C35 | C35_shift (PropsCumulants.v) | S N C F |
| C35 | C35_homogeneous (PropsCumulants.v) | S N C F |
| C36 | C36_accessors (PropsCumulants.v) | S N C F |
| C36 | C36_unknown (PropsCumulants.v) | S |
| C37 | C37_entropy_bounds (PropsSpectrum.v) | S N C F |
| C37 | C37_probability (PropsSpectrum.v) | S N C F |
| C38 | C38_spectrum_zero (PropsSpectrum.v) | S N C F |
| C39 | C39_legendre (PropsSpectrum.v) | S N C F |
| C40 | C40_monofractal (PropsMono.v) | S N C F |
| C41 | C41_hmin_best_line (PropsMono.v) | S N C F |
| C41 | C41_warning_refuted (PropsMono.v) | S N C F |
| C42 | C42_compute_hurst_refuted (PropsMono.v) | S N C F |
| C43 | C43_assembles (PropsMFA.v) | S N C F |
| C43 | C43_q_forms (PropsMFA.v) | S N C F |
| C43 | C43_succeeds (PropsMFA.v) | S N C F |
| C43 | C43_pipeline (PropsMFA.v) | S N C F |
| C44 | C44_projection_partial (PropsMFA.v) | S N C F |
| C44 | C44_minimal_refuted (PropsMFA.v) | S N C F |
| C45 | C45_transform (PropsRealisations.v) | S N C F |
| C45 | C45_structure_functions (PropsRealisations.v) | S N C F |
| C45 | C45_cumulants (PropsRealisations.v) | S N C F |
| C45 | C45_spectrum (PropsRealisations.v) | S N C F |
| C45 | C45_hmin (PropsRealisations.v) | S N C F |
| C46 | C46_wavelet_psd_never_stale (PropsSignal.v) | S N C F |
| C47 | C47_welch_psd_partial (PropsSignal.v) | S N C F |
| C47 | C47_stale_refuted (PropsSignal.v) | S N C F |
| C48 | C48_wavelet_cache_partial (PropsSignal.v) | S N C F |
| C48 | C48_stale_refuted (PropsSignal.v) | S N C F |
| C49 | C49_last_analysis_partial (PropsSignal.v) | S N C F |
| C49 | C49_overwritten_refuted (PropsSignal.v) | S N C F |
| C50 | C50_mf_analysis_refuted (PropsSignal.v) | S N C F |
| C50 | C50_stored_parameters (PropsSignal.v) | S N C F |
| C51 | C51_fractal_coherent (PropsSignal.v) | S N C F |
| C51 | C51_guarded (PropsSignal.v) | S N C F |
| C52 | C52_least_squares (PropsPSD.v) | S N C F |
| C52 | C52_power_law (PropsPSD.v) | S N C F |
| C52 | C52_documented_sign_refuted (PropsPSD.v) | S N C F |
| C52 | C52_one_frequency (PropsPSD.v) | S N C F |
| C52 | C52_no_result (PropsPSD.v) | S N C F |
| C52 | C52_no_result_rows (PropsPSD.v) | S N C F |
| C52 | C52_unknown_log (PropsUnknownLog.v) | S N C F |
| C52 | C52_unknown_log_case (PropsUnknownLog.v) | S N C F |
| C53 | C53_beta_is_hurst (PropsSlope.v) | S N C F |
| C53 | C53_base_and_sampling (PropsSlope.v) | S N C F |
| C53 | C53_returns (PropsSlope.v) | S N C F |
| C54 | C54_wavelet_support (PropsSlope.v) | S N C F |
| C54 | C54_wavelet_returns (PropsSlope.v) | S N C F |
| C54 | C54_welch (PropsSlope.v) | S N F |
| C54 | C54_odd_grid_refuted (PropsSlope.v) | S N F |
| C55 | C55_coherence (PropsBivariate.v) | S N C F |
| C55 | C55_self (PropsBivariate.v) | S N C F |
| C55 | C55_needed_moments (PropsBivariate.v) | S N C F |
| C56 | C56_returns (PropsBivariate.v) | S N C F |
| C56 | C56_limits (PropsBivariate.v) | S N C F |
| C56 | C56_values (PropsBivariate.v) | S N C F |
| C56 | C56_RHO (PropsBivariate.v) | S N C F |
| C56 | C56_marginals (PropsBivariate.v) | S N C F |
| C56 | C56_swap (PropsBivariate.v) | S N C F |
| C57 | C57_cross_cumulants_refuted (PropsBivariate.v) | S N C F |
| C57 | C57_witness_refuted (PropsBivariate.v) | S N C F |
| C58 | C58_no_leaders_refuted (PropsBivariate.v) | S N C F |
| C58 | C58_with_leaders (PropsBivariate.v) | S N C F |
| C58 | C58_pipeline (PropsBiPipeline.v) | S N C F |
| C59 | C59_legendre (PropsBiStructure.v) | S F |
| C59 | C59_surface (PropsBiStructure.v) | S F |
| C59 | C59_swap (PropsBiStructure.v) | S N C F |
| C59 | C59_low_orders (PropsBiLow.v) | S F |
| C60 | C60_fgn_arguments (PropsSimul.v) | S N C F |
| C60 | C60_one_sample_refuted (PropsSimul.v) | S N C F |
| C60 | C60_one_sample_chol_refuted (PropsChol.v) | S N C F |
| C60 | C60_log_volatility (PropsMrw.v) | S N C F |
| C60 | C60_log_volatility_support (PropsMrw.v) | S N C F |
| C60 | C60_mrw_arguments (PropsMrw2.v) | S N C F |
| C60 | C60_mrw_unknown_method_refuted (PropsMrw2.v) | S N C F |
| C61 | C61_fgn (PropsSimul.v) | S N C F |
| C61 | C61_fbm (PropsSimul.v) | S N C F |
| C61 | C61_variance (PropsSimul.v) | S N C F |
| C61 | C61_brownian (PropsSimul.v) | S N C F |
| C61 | C61_H0_is_zero_refuted (PropsSimul.v) | S N C F |
| C62 | C62_embedding (PropsSimul.v) | S N F |
| C62 | C62_noise_exists (PropsSimul.v) | S N F |
| C62 | C62_convex_exact (PropsSimul.v) | S N F |
| C63 | C63_success (PropsChol.v) | S N C F |
| C63 | C63_output_covariance (PropsChol.v) | S N C F |
| C63 | C63_wrong_covariance_refuted (PropsChol.v) | S N C F |
| C63 | C63_case_refuted (PropsChol.v) | S N C F |
| C63 | C63_fgn_chol_refuted (PropsChol.v) | S N C F |
| C64 | C64_convolution (PropsSkew.v) | S N C F |
| C64 | C64_reference (PropsSkew.v) | S N C F |
| C64 | C64_odd_length_refuted (PropsSkew.v) | S N C F |
| C65 | C65_skewed_mrw_refuted (PropsSkew.v) | S N C F |
| C66 | C66_from_dict (PropsMFA.v) | - |
| C66 | C66_classes (PropsMFA.v) | S N C F |
| C67 | C67_plot_fractal_refuted (PropsSignal.v) | S N C F |
| C68 | C68_difference (PropsDiff.v) | S F |
| C68 | C68_log_difference (PropsDiff.v) | S F |
| C68 | C68_result_unusable_refuted (PropsDiff.v) | S N C F |
| C69 | C69_log_moments (PropsBiStructure.v) | S N C F |
| C69 | C69_zeta_best_line (PropsBiStructure.v) | S N C F |
| C69 | C69_marginals (PropsBiStructure.v) | S N C F |
| C69 | C69_swap (PropsBiStructure.v) | S N C F |
| C70 | C70_log_convex (PropsBiStructure.v) | S N C F |
| C71 | C71_chol_reproducible (PropsMrw2.v) | S N C F |
| C71 | C71_w_reproducible (PropsMrw2.v) | S N C F |
| C71 | C71_cme_ignores_noise_refuted (PropsMrw2.v) | S N C F |
| C72 | C72_homogeneous (PropsMrw2.v) | S N C F |
| C73 | C73_mean_volatility (PropsMrw.v) | S N C F |
| C73 | C73_mrw_values (PropsMrw.v) | S N C F |
| C73 | C73_lam0_is_fbm (PropsMrw.v) | S N C F |
| C74 | C74_mrw_cumul (PropsMrw2.v) | S N C F |
| C74 | C74_positive_c2 (PropsMrw2.v) | S N C F |
| C75 | C75_cumulants_plot (PropsPlot.v) | S F |
| C75 | C75_constructed (PropsPlot.v) | S N C F |
| C76 | C76_structure_plot (PropsPlot.v) | S N C F |
| C76 | C76_default_refuted (PropsPlot.v) | S N C F |
| C76 | C76_several_refuted (PropsPlot.v) | S N C F |
| C76 | C76_returns (PropsPlot.v) | S N C F |
| C76 | C76_scaling (PropsPlot.v) | S N C F |
| C77 | C77_bicumulants_plot (PropsPlotBi.v) | S N C F |
| C77 | C77_label_refuted (PropsPlotBi.v) | S N C F |
| C77 | C77_witness_refuted (PropsPlotBi.v) | S N C F |
| C78 | C78_bistructure_plot (PropsPlotBi.v) | S N C F |
| C79 | C79_log_plot (PropsPlotBi.v) | S N C F |
| C79 | C79_styles_partial (PropsPlotBi.v) | S N C F |
| C79 | C79_points (PropsPlotBi.v) | S F |
| C80 | C80_plot_legendre (PropsPlotBi.v) | S F |
| C80 | C80_support_refuted (PropsPlotBi.v) | S F |
| C80 | C80_range_refuted (PropsPlotBi.v) | S F |
| C80 | C80_axes_refuted (PropsPlotBi.v) | S F |
| C81 | C81_spectrum (Props2D.v) | S N C F |
| C81 | C81_semigroup (Props2D.v) | S N C F |
| C81 | C81_inverse (Props2D.v) | S N C F |
| C81 | C81_linear (Props2D.v) | S N C F |
| C81 | C81_mean (Props2D.v) | S N C F |
| C81 | C81_plane_wave (Props2D.v) | S N C F |
| C81 | C81_refused (Props2D.v) | S N C F |
| C82 | C82_covariance (Props2D.v) | S N C F |
| C82 | C82_off_by_N2 (Props2D.v) | S N C F |
| C82 | C82_variance_too_small (Props2D.v) | S N C F |
| C83 | C83_shapes (Props2D.v) | S N C F |
| C83 | C83_integral (Props2D.v) | S N C F |
| C83 | C83_sigma_ignored (Props2D.v) | S N C F |
| C84 | C84_coefficients (PropsShift.v) | S N C F |
| C84 | C84_leaders (PropsShift.v) | S N C F |
| C85 | C85_spectrum_plot (PropsViz.v) | S N C F |
| C85 | C85_window_refuted (PropsViz.v) | S N C F |
| C86 | C86_plot_psd (PropsViz.v) | S N C F |
| C86 | C86_signal_plot_psd (PropsViz.v) | S N C F |
| C86 | C86_plot_psd_welch (PropsWelch.v) | S N C F |
| C87 | C87_plot_multiscale (PropsViz.v) | S N C F |
| C87 | C87_order_irrelevant (PropsViz.v) | S N C F |
| C87 | C87_grids_refuted (PropsViz.v) | S N C F |
| C87 | C87_missing_color (PropsVizColor.v) | S N C F |
| C88 | C88_unbiased (PropsGauss.v) | S F |
| C88 | C88_best (PropsGauss.v) | S F |
| C89 | C89_amplitude (PropsBiScale.v) | S N C F |
| C90 | C90_integration (PropsBiScale.v) | S N C F |
| C91 | C91_exponents (PropsFinite.v) | S N C F |
| C91 | C91_log_cumulants (PropsFinite.v) | S N C F |
| C91 | C91_hmin (PropsFinite.v) | S N C F |
| C91 | C91_spectrum (PropsFinite.v) | S N C F |
| C91 | C91_h_negative_refuted (PropsFinite.v) | S N C F |
| C92 | C92_rounded_transform (PropsRounded.v) | S N C F |
| C92 | C92_no_underflow (PropsRounded.v) | S N C F |
| C92 | C92_binary64 (PropsBinary64.v) | S N C F |
| C92 | C92_exact_machine (PropsRoundedExact.v) | S N C F |
| C93 | C93_p_leaders_comparable (PropsPLeaders.v) | S N C F |
| C94 | C94_exponents (PropsStable.v) | S N C F |
| C94 | C94_hmin (PropsStable.v) | S N C F |
| C94 | C94_log_cumulants (PropsStable.v) | S N C F |
| C94 | C94_spread_unweighted (PropsStable.v) | S N F |
| C94 | C94_floating_point (PropsStableFloat.v) | S N C F |
| C95 | C95_psd_current (PropsAssign.v) | S N C F |
| C95 | C95_new_parameters (PropsAssign.v) | S N C F |
| C95 | C95_stale_refuted (PropsAssign.v) | S N C F |
| C95 | C95_stored_kept (PropsAssign.v) | S N C F |
| C96 | C96_hmin (PropsRoundedEst.v) | S N C F |
| C96 | C96_exponents (PropsRoundedEst.v) | S N C F |
| C96 | C96_log_cumulants (PropsRoundedEst.v) | S N C F |
| C96 | C96_signal (PropsRoundedSignal.v) | S N C F |
| C96 | C96_hmin_rest (PropsRoundedFit.v) | S N C F |
| C96 | C96_structure_intercepts (PropsRoundedFit.v) | S N C F |
| C96 | C96_cumulants_rest (PropsRoundedFit.v) | S N C F |
| C96 | C96_spectrum (PropsRoundedSpec.v) | S N C F |
| C96 | C96_spectrum_missing (PropsRoundedGap.v) | S N C F |
| C96 | C96_missing (PropsRoundedGap.v) | S N C F |
| C96 | C96_exact_regression (PropsRoundedExact.v) | S N C F |
| C96 | C96_exact_structure (PropsRoundedExact.v) | S N C F |
| C96 | C96_exact_cumulants (PropsRoundedExact.v) | S N C F |
| C96 | C96_exact_hmin (PropsRoundedExact.v) | S N C F |
| C96 | C96_exact_spectrum (PropsRoundedExact.v) | S N C F |
| C97 | C97_odd_spectrum (PropsFractOdd.v) | S N C F |
| C97 | C97_odd_mean (PropsFractOdd.v) | S N C F |
| C97 | C97_mean_refuted (PropsFractOdd.v) | S N C F |
| C97 | C97_inverse_refuted (PropsFractOdd.v) | S N C F |
| C97 | C97_one_row (PropsFractOdd.v) | S N C F |
| C97 | C97_refused (PropsFractOdd.v) | S N C F |
| C98 | C98_reordered (PropsDistribution.v) | S N C F |
| C98 | C98_duplicated (PropsDistribution.v) | S N C F |
| C99 | C99_usable (PropsMissing.v) | S N C F |
| C99 | C99_count (PropsMissing.v) | S N C F |
| C99 | C99_lost (PropsMissing.v) | S N C F |
| C99 | C99_scales (PropsMissing.v) | S N C F |
| C99 | C99_leaders (PropsMissing.v) | S N C F |
| C100 | C100_equal_lengths (PropsReuse.v) | S F |
| C100 | C100_lists (PropsReuse.v) | S F |
| C100 | C100_broadcast_refuted (PropsReuse.v) | S F |
| C100 | C100_list_array_refuted (PropsReuse.v) | S F |
| C101 | C101_one_scale (PropsBiSelf.v) | S N C F |
| C101 | C101_rho (PropsBiSelf.v) | S N C F |
| C101 | C101_self_refuted (PropsBiSelf.v) | S N C F |
| C101 | C101_joint_exponents (PropsBiSelf.v) | S N C F |
| C101 | C101_self_exponents (PropsBiSelf.v) | S N C F |
| C101 | C101_witness_refuted (PropsBiSelf.v) | S N C F |
| C102 | C102_derivatives (PropsCgf.v) | S N C F |
| C102 | C102_bivariate (PropsCgfBi.v) | S N C F |
| C103 | C103_accessors (PropsBiAccess.v) | S N C F |
| C103 | C103_high_orders (PropsBiAccess.v) | - |
| C104 | C104_names (PropsStore.v) | - |
| C104 | C104_documented_refuted (PropsStore.v) | - |
| C104 | C104_history (PropsStore.v) | - |
| C104 | C104_printing_refuted (PropsStore.v) | - |
| C105 | C105_transform (PropsNoise.v) | S N C F |
| C105 | C105_estimates (PropsNoise.v) | S N C F |
| C105 | C105_scale1_sharp (PropsNoise.v) | S N C F |
| C106 | C106_curvature (PropsShape.v) | S N C F |
| C106 | C106_narrowing (PropsShape.v) | S N C F |
| C106 | C106_widening (PropsShape.v) | S N C F |
| C106 | C106_shape_refuted (PropsShape.v) | S N C F |
| C107 | C107_expansion (PropsTaylor.v) | S N C F |
| C107 | C107_series (PropsTaylor.v) | S N C F |
| C108 | C108_stationary (PropsWhite.v) | S N C F |
| C108 | C108_white (PropsWhite.v) | S N C F |
| C108 | C108_power (PropsWhitePower.v) | S N C F |
| C108 | C108_psd (PropsWhitePower.v) | S N C F |
| C108 | C108_increments (PropsWhiteFbm.v) | S N C F |
| C108 | C108_fbm (PropsWhiteFbm.v) | S N C F |
| C109 | C109_energy (PropsEnergy.v) | S N C F |
| C109 | C109_coefficient (PropsEnergy.v) | S N C F |
| C109 | C109_leader (PropsEnergy.v) | S N C F |
| C109 | C109_distance (PropsEnergy.v) | S N C F |
| C109 | C109_psd (PropsEnergy.v) | S N C F |
| C110 | C110_fbm (PropsDecorr.v) | S N C F |
| C110 | C110_fgn (PropsDecorr.v) | S N C F |
| C110 | C110_short_fbm (PropsShortRange.v) | S N C F |
| C110 | C110_short_fgn (PropsShortRange.v) | S N C F |
| C111 | C111_power (PropsHaarFgn.v) | S N C F |
| C111 | C111_exponent (PropsHaarFgn.v) | S N C F |
| C111 | C111_psd (PropsHaarFgn.v) | S N C F |
| C111 | C111_fbm_bounds (PropsHaarFbm.v) | S N C F |
| C111 | C111_fbm_exponent (PropsHaarFbm.v) | S N C F |
| C112 | C112_fluctuation_fgn (PropsFluct.v) | S N C F |
| C112 | C112_fluctuation_fbm (PropsFluct.v) | S N C F |
| C112 | C112_fgn_estimate (PropsConsist.v) | S N C F |
| C112 | C112_fgn_consistent (PropsConsist.v) | S N C F |
| C112 | C112_noise_exists (PropsConsistCase.v) | S N F |
| C112 | C112_case (PropsConsistCase.v) | S N C F |
| C112 | C112_case_fbm (PropsConsistCase.v) | S N C F |
| C112 | C112_fgn_line (PropsConsistGen.v) | S N C F |
| C112 | C112_fbm_line (PropsConsistGen.v) | S N C F |
| C112 | C112_fbm_consistent (PropsConsistGen.v) | S N C F |
| C112 | C112_fgn_line_rate (PropsConsistRate.v) | S N C F |
| C112 | C112_fbm_line_rate (PropsConsistRate.v) | S N C F |
| C112 | C112_fbm_rate (PropsConsistRate.v) | S N C F |
| C112 | C112_case_rate (PropsConsistRate.v) | S N C F |
| C113 | C113_fgn (PropsCoherence.v) | S N C F |
| C113 | C113_fbm (PropsCoherence.v) | S N C F |
| C113 | C113_fgn_haar (PropsCoherence.v) | S N C F |
| C113 | C113_fbm_haar (PropsCoherence.v) | S N C F |
| C113 | C113_case (PropsCoherence.v) | S N C F |
| C113 | C113_fgn_any (PropsPosVar.v) | S N C F |
| C113 | C113_fbm_any (PropsPosVar.v) | S N C F |
| C114 | C114_value (PropsWelch.v) | S N F |
| C114 | C114_returns (PropsWelch.v) | S N F |
| C114 | C114_scaling (PropsWelch.v) | S N F |
| C114 | C114_total (PropsWelch.v) | S N F |
| C114 | C114_mean (PropsWelch.v) | S N F |
| C114 | C114_white (PropsWelch.v) | S N F |
| C114 | C114_total_mean (PropsWelch.v) | S N F |
| C114 | C114_methods_refuted (PropsWelch.v) | S N C F |
| C114 | C114_missing (PropsWelchMiss.v) | S N F |
| C114 | C114_tail (PropsWelchMiss.v) | S N F |
| C115 | C115_sinusoid (PropsWelchSine.v) | S N F |
| C115 | C115_peak (PropsWelchSine.v) | S N F |
| C115 | C115_frequency_refuted (PropsWelchSine.v) | S N F |
| C116 | C116_fgn_beta (PropsBeta.v) | S N C F |
| C116 | C116_documented_refuted (PropsBeta.v) | S N C F |
| C116 | C116_fbm_beta (PropsBeta.v) | S N C F |
| C116 | C116_case (PropsBeta.v) | S N C F |
| C116 | C116_fbm_rate (PropsBetaRate.v) | S N C F |
| C116 | C116_case_rate (PropsBetaRate.v) | S N C F |
| C117 | C117_fgn_consistent (PropsWelchConsist.v) | S N C F |
| C117 | C117_fgn_rate (PropsWelchConsist.v) | S N C F |
| C117 | C117_white_flat (PropsWelchConsist.v) | S N C F |
| C117 | C117_case (PropsWelchConsist.v) | S N C F |
| C118 | C118_ignored (PropsEnds.v) | S N C F |
| C118 | C118_last_refuted (PropsEnds.v) | S N C F |
| C118 | C118_used (PropsEnds.v) | S N C F |
| C118 | C118_reversal_refuted (PropsEnds.v) | S N C F |
| C119 | C119_fgn_wavelet (PropsSpecConsist.v) | S N C F |
| C119 | C119_fbm_wavelet (PropsSpecConsist.v) | S N C F |
| C119 | C119_white_flat (PropsSpecConsist.v) | S N C F |
| C119 | C119_ratio_refuted (PropsSpecConsist.v) | S N C F |
| C119 | C119_case (PropsSpecConsist.v) | S N C F |
| C120 | C120_increments (PropsMrwStat.v) | S N C F |
| C120 | C120_log_volatility (PropsMrwStat.v) | S N C F |
| C120 | C120_uncorrelated (PropsMrwStat.v) | S N C F |
| C120 | C120_variance (PropsMrwStat.v) | S N C F |
| C120 | C120_sigma_refuted (PropsMrwStat.v) | S N C F |
| C120 | C120_noise_exists (PropsMrwCase.v) | S N C F |
| C120 | C120_case (PropsMrwCase.v) | S N C F |
| C121 | C121_persistent (PropsMrwScale.v) | S N C F |
| C121 | C121_antipersistent (PropsMrwScale.v) | S N C F |
| C121 | C121_brownian (PropsMrwScale.v) | S N C F |
| C121 | C121_cumulants_refuted (PropsMrwScale.v) | S N C F |
| C121 | C121_order_four (PropsMrwScale4.v) | S N C F |
| C121 | C121_cumulants (PropsMrwScale4.v) | S N C F |
| C121 | C121_run_exists (PropsMrwScaleCase.v) | S N C F |
| C121 | C121_case (PropsMrwScaleCase.v) | S N C F |
| C121 | C121_refuted_case (PropsMrwScaleCase.v) | S N C F |
| C122 | C122_energy (PropsMrwIntermit.v) | S N C F |
| C122 | C122_flatness (PropsMrwIntermit.v) | S N C F |
| C122 | C122_intermittency (PropsMrwIntermit.v) | S N C F |
| C122 | C122_consistent (PropsMrwIntermitCase.v) | S N C F |
| C122 | C122_run_exists (PropsMrwIntermitCase.v) | S N C F |
| C122 | C122_case (PropsMrwIntermitCase.v) | S N C F |
| C123 | C123_white (PropsImage.v) | S N C F |
| C123 | C123_squares (PropsImage.v) | S N C F |
| C123 | C123_flatness (PropsImage.v) | S N C F |
| C123 | C123_volatility_correlation (PropsImage.v) | S N C F |
| C123 | C123_spectrum (PropsImage.v) | S N C F |
| C123 | C123_intermittency_refuted (PropsImageCase.v) | S N C F |
| C123 | C123_gaussian (PropsImageCase.v) | S N C F |
| C123 | C123_exponent (PropsImageCase.v) | S N C F |
| C123 | C123_noise_exists (PropsImageCase.v) | S N C F |
| C123 | C123_run_exists (PropsImageCase.v) | S N C F |
| C123 | C123_case (PropsImageCase.v) | S N C F |
| C124 | C124_fgn (PropsGaussFlat.v) | S N C F |
| C124 | C124_fbm (PropsGaussFlat.v) | S N C F |
| C124 | C124_fgn_haar (PropsGaussFlat.v) | S N C F |
| C124 | C124_case (PropsGaussFlat.v) | S N C F |
| C125 | C125_fgn (PropsMonofractal.v) | S N C F |
| C125 | C125_fbm (PropsMonofractal.v) | S N C F |
| C125 | C125_noise_exists (PropsMonofractalCase.v) | S N F |
| C125 | C125_case (PropsMonofractalCase.v) | S N C F |
| C125 | C125_fgn_haar (PropsMonofractalCase.v) | S N C F |
| C125 | C125_fgn_any (PropsPosVar.v) | S N C F |
| C125 | C125_fbm_any (PropsPosVar.v) | S N C F |
| C126 | C126_fgn (PropsPosVar.v) | S N C F |
| C126 | C126_fbm (PropsPosVar.v) | S N C F |
| C126 | C126_case (PropsPosVar.v) | S N C F |
| C127 | C127_tolerance (PropsTolerance.v) | S N F |
| C127 | C127_intercept (PropsTolerance.v) | S N F |
| C127 | C127_perturbation (PropsTolerance.v) | S N F |
| C127 | C127_scales (PropsTolerance.v) | S N F |
| C127 | C127_scales_perturbation (PropsTolerance.v) | S N F |
| C128 | C128_intermittency (PropsMrwRegress.v) | S N C F |
| C128 | C128_energy (PropsMrwRegress.v) | S N C F |
| C128 | C128_consistent (PropsMrwRegress.v) | S N C F |
| C128 | C128_case (PropsMrwRegress.v) | S N C F |
| C129 | C129_energy (PropsMrwAny.v) | S N C F |
| C129 | C129_brownian (PropsMrwAny.v) | S N C F |
| C129 | C129_slope (PropsMrwAny.v) | S N C F |
| C129 | C129_case (PropsMrwAny.v) | S N C F |

## 6. Findings: properties that are false of the code

* C04: REFUTED for the empty range: an unweighted fit over no scale returns finite zeros (C04_empty_fit_refuted); the single-scale / equal-abscissae half is proved.
* C25: REFUTED: for every finite p > 0 other than 2 wavelet_analysis never returns (IndexError); p = 2 works exactly when every eta_p > 0 (C26_eta_decides_refuted).
* C26: REFUTED: eta_p <= 0 raises TypeError instead of warning and returning uncorrected leaders; the case eta_p > 0 is characterised.
* C27: REFUTED when eta_p is NaN (p=2, single scale): all leaders NaN with stale nj; proved in every other case (C27_counts_partial).
* C32: REFUTED when 2 is not in q (IndexError, C32_no_two_refuted) and for python lists; proved when 2 is in the array.
* C41: Regression part proved; the warning part is REFUTED: it is issued exactly when some estimate is exactly 0 (C41_warning_refuted).
* C42: REFUTED: compute_hurst never returns (AttributeError), C42_compute_hurst_refuted.
* C44: Proved for array q and given leaders (C44_projection_partial); REFUTED otherwise: q=None or a list (IndexError), no leaders (AttributeError).
* C47: Proved when the estimation succeeds and for the first use of any parameters (C47_welch_psd_partial); REFUTED otherwise: repeating a failed call returns the estimate of the previous parameters (C47_stale_refuted).
* C48: Proved when the analysis succeeds and for the first use of any parameters, with no recomputation on repetition (C48_wavelet_cache_partial); REFUTED otherwise: repeating a failed call returns a stale transform or None (C48_stale_refuted).
* C49: Proved for histories without wavelet-PSD calls in between (C49_last_analysis_partial); REFUTED otherwise (C49_overwritten_refuted): estimate_wavelet_psd, fractal_analysis and the plots overwrite wt_param. hurst() equals compute_hurst, which itself never returns (C42).
* C50: REFUTED: Signal.mf_analysis and mf_analysis_full raise in every state (TypeError after a successful analysis); C50_stored_parameters: the call stores the parameters, no result, and changes nothing else.
* C52: REFUTED as documented: on PSD = C f^-beta the field beta is -beta (C52_documented_sign_refuted), log C is exact; least-squares optimality, both log bases and array shapes are proved (C52_least_squares, C52_power_law); a band with a single frequency silently gives exponent 0 (C52_one_frequency); a null frequency in the band never returns (C52_no_result, C52_no_result_rows). A logarithm other than log2 or log raises KeyError (C52_unknown_log).
* C54: Supports, sanitising and the exact success condition are proved; finding (C54_odd_grid_refuted): for odd n_fft the Welch frequency grid is not the DFT grid.
* C57: REFUTED: every cross-cumulant with both orders >= 1 other than (1,1) is stored as 0 whatever the data (C57_cross_cumulants_refuted); witness with true value 2/27 (C57_witness_refuted). The orders (k,0), (0,k), (1,1) are proved in C56_values.
* C58: REFUTED without leaders: UnboundLocalError (C58_no_leaders_refuted). With leaders: exact characterisation (C58_with_leaders) and success of the whole pipeline on every pair of equally long finite signals (C58_pipeline).
* C60: Proved for N >= 2; REFUTED for N = 1 (cme always raises, C60_one_sample_refuted; chol gives a 0-dimensional array where the documentation says shape (N,), C60_one_sample_chol_refuted) and for an unknown method of mrw (UnboundLocalError, C60_mrw_unknown_method_refuted).
* C61: Proved for 0 < H <= 1 with the default method; REFUTED at H = 0: the result is identically zero (C61_H0_is_zero_refuted).
* C63: REFUTED: scipy returns the upper factor, so the covariance is U U^T; it is the requested one only for uncorrelated covariances (C63_wrong_covariance_refuted), for fgn only when H = 1/2 (C63_fgn_chol_refuted). Success condition and actual covariance are proved.
* C65: REFUTED: skewed_mrw raises ValueError for every argument (C65_skewed_mrw_refuted).
* C67: REFUTED: both plot_fractal raise for every input and history.
* C68: Support and values are proved, also with a log pair; REFUTED that the result can be analysed further: it has no data, so every estimation on it raises (C68_result_unusable_refuted).
* C71: Proved for method 'chol' and for the log-volatility; REFUTED for fgn/fbm/mrw with the default method 'cme', which ignores z0 (C71_cme_ignores_noise_refuted).
* C76: Exact condition of failure proved (C76_structure_plot); REFUTED: IndexError for q = -2..2 with the default arguments (C76_default_refuted), never returns for several realisations (C76_several_refuted). Proved whenever 0 is not in q or ignore_q0 is false (C76_returns).
* C77: Proved for the figures and curves; REFUTED for the label c11, which shows the slope and not the log-cumulant (C77_label_refuted, C77_witness_refuted), and n_cumul = 1 raises IndexError.
* C80: Exact description of what is drawn (C80_plot_legendre); REFUTED: h_support is ignored (C80_support_refuted), nothing outside [0, 1.5] is drawn (C80_range_refuted), the axes are swapped (C80_axes_refuted).
* C82: Exact covariance for every size and white noise (C82_covariance); REFUTED: it is the wanted one divided by N^2 when the spectrum is non-negative (C82_off_by_N2), and the variance is always below lam^2 log+ L / N (C82_variance_too_small; 2x2 example C82_example).
* C83: The walk is the fractional integral of order H+1 of the increments (C83_integral); REFUTED: the shape is always (N, N, R) with N rounded up to even, never (N,) (C83_shapes), and sigma is ignored (C83_sigma_ignored).
* C85: Points proved (C85_spectrum_plot); REFUTED that they are all visible: the axes are fixed to h in [0, 1.5] and D in [0, 1.05] (C85_window_refuted, C85_case: data with exponent 2 show nothing).
* C87: Proved for complete frames in which the subjects share the frequency grid of a segment, for every enumeration order; REFUTED for different grids: values are averaged by index, mixing frequencies, or ValueError (C87_grids_refuted). A segment without a colour entry raises KeyError and nothing is drawn (C87_missing_color).
* C91: Both directions proved for zeta, H, c_k, hmin, D(q) and h(q), q >= 0. REFUTED for h(q), q < 0: at a scale holding a zero the fitted ordinate is silently 0, so h(q) is a number unrelated to the values (exactly 0 if every fitted scale holds a zero) while D(q) is NaN (C91_h_negative_refuted, C91_holed).
* C95: Proved for estimate_wavelet_psd and fractal_analysis in every history (C95_psd_current), and for estimate_welch_psd and wavelet_analysis with parameters not used before (C95_new_parameters). REFUTED for the two caches (C95_stale_refuted): repeating a call after assigning data or fs returns the result for the old values, and hmin uses it; witnesses C95_welch_case, C95_wavelet_case.
* C97: REFUTED for every odd size (C81 proves it for even ones): the call succeeds silently, but the frequency grid is then off by half a step. C97_odd_spectrum gives the exact gain of every frequency, the mean of |k-(1/2,1/2)|^-alpha and |k+(1/2,1/2)|^-alpha; C97_odd_mean: the mean is multiplied by 2^(alpha/2), so it is never kept (C97_mean_refuted) unless alpha = 0; C97_inverse_refuted: for odd N >= 3 and alpha <> 0 orders alpha and -alpha do not undo each other. C97_one_row: with one row any width is accepted and the image is scaled by 2^(alpha/2). C97_refused: other shapes raise ValueError. mrw2D is not affected: it rounds the size up to an even number.
* C100: REFUTED for arrays of different lengths: a single order is broadcast, so [2] and [] or [2, 2] are 'the same' (C100_broadcast_refuted), other lengths raise AttributeError, and a list against an array of as many (>= 2) orders raises ValueError even when equal (C100_list_array_refuted). Proved for two arrays of equal lengths and for two lists (C100_equal_lengths, C100_lists).
* C101: REFUTED for rho_mf: it is minus the sign of e c20, hence -1 for a quantity with itself when its second log-cumulant is positive and NaN when it is 0 (C101_self_refuted, C101_rho; C101_witness_refuted shows both signs); 1 when it is negative. The scale-wise correlation, the cumulant relations and the joint exponents are proved (C101_one_scale, C101_joint_exponents, C101_self_exponents).
* C104: REFUTED for the documented name 'wavelet p-leaders' (the class accepts 'wavelet p-leader' and raises ValueError for the documented plural, C104_documented_refuted) and for printing a new object (AttributeError, since the generated __repr__ reads nrep, C104_printing_refuted). The accepted names, the order of the scales, the stored arrays and counts and nrep are proved for every history (C104_names, C104_history).
* C106: REFUTED in general (C106_shape_refuted, weighted or not, on the leaders returned by wavelet_analysis); C106_curvature says exactly what decides the shape, C106_narrowing and C106_widening give the positive and the reversed facts.
* C114: Value, success condition, sign, scaling, Parseval, mean for stationary signals and flatness for white noise are proved (C114_value, C114_returns, C114_scaling, C114_total, C114_mean, C114_white). REFUTED: the values do not sum to the variance, but to four times it with the angular step 2 pi / n_fft and to 2 fs / pi times it with the step of the returned frequencies (C114_total_mean), because psd.py multiplies a density that scipy already made one-sided by 4 and computes it for fs = 2 pi; and the two spectra of one figure disagree on white noise by the factor 4 / pi (C114_methods_refuted). A missing sample in a full segment makes every value missing and the samples after the last full segment are never used, missing or not (C114_missing, C114_tail). scipy.signal.welch is modelled in exact arithmetic in ModelWelch.v.
* C115: The shape is proved (C115_sinusoid, C115_peak). REFUTED for the frequency when n_fft is odd: k0 fs / (n_fft - 1) is returned instead of k0 fs / n_fft (C115_frequency_refuted, which also proves it for even n_fft).
* C116: Proved with the sign that the code uses: the exponent converges to 1 - 2H for fgn at the rate K / N for each realisation, K independent of N, sigma, the step, the band and the logarithm (C116_fgn_beta), and to -(2H + 1) for fbm at coarse enough scales (C116_fbm_beta; with the rate N^(-a), a <= 1, a <= 4 - 4H, a < 1 at H = 3/4: C116_fbm_rate, C116_case_rate). REFUTED for the documented sign, C |f|^(-beta): with H = 3/4 the probability of an exponent within 1/2 of 2H - 1 goes to zero (C116_documented_refuted).
* C118: REFUTED: the last sample never counts, whatever the wavelet, the formalism and the parameters (C118_last_refuted: same result or same exception for any two values, also for the spectrum and the spectral exponent), and the reversed recording is not analysed as the recording, even with the symmetric Haar filters and at any length from 7 on (C118_reversal_refuted). Exact positive part: with a filter of length L, exactly the first L/2 - 1 and the last L/2 samples (L/2 + 1 when the length is even) are ignored: C118_ignored (nothing returned depends on them) and C118_used (changing any other sample changes a coefficient of scale 1).
* C119: Proved: C119_fgn_wavelet (rate K / N, any wavelet with a vanishing moment), C119_fbm_wavelet (two vanishing moments), C119_white_flat (white noise: flat at sigma^2 dt). REFUTED: agreement of the two spectra. C119_ratio_refuted: on white noise the ratio of the Fourier to the wavelet spectrum converges in probability to 4 / pi, at all inner frequencies and scales. C119_case: long enough simulations have such draws.
* C120: Proved: C120_increments (means, covariance, correlations between realisations, moments of the squares, exactly, for every N), C120_log_volatility (the demeaned log-volatility covariance is lam^2 ln+(L / (lag + 1)) up to 4 L lam^2 ln L / N), C120_uncorrelated (H = 1/2), C120_variance (variance of an increment = sigma^2 N^(-2H) L^(lam^2) exp(u), u at most 8 L lam^2 ln L / N). REFUTED: the role of sigma. C120_sigma_refuted: for L > 1, N >= 16 L, lam and sigma nonzero, every increment has a variance larger than nominal by at least L^(lam^2 / 2): the code subtracts lam^2 / 2 ln L from the log-volatility where lam^2 ln L is needed (skewed_mrw subtracts lam^2 ln L). C120_noise_exists: a positive expectation with such independent noises, for every shape. C120_case: 64 samples, H = 1/2, lam = 1/2, L = 4.
* C121: Proved for c1 + c2 = 1/2 (the random walk of Bacry, Delour and Muzy): C121_cumulants, orders 2 and 4 (exponents 2 c1 + 2 c2 and 4 c1 + 8 c2, for -1/4 < c2 <= 0), from C121_brownian and C121_order_four. REFUTED for every other c1 + c2 in (0, 1]: C121_cumulants_refuted: whatever the constants, the moment of order 2 leaves the range of the power law of exponent 2 c1 + 2 c2. The reason: the volatility weights the correlations of the noise by (lag)^(-lam^2): with H > 1/2 (C121_persistent) the second moment grows strictly slower than l^(2 H), with H < 1/2 (C121_antipersistent) it grows linearly. C121_run_exists: such runs exist for all parameters. C121_case, C121_refuted_case: concrete runs.
* C123: Proved: the spectrum (C123_spectrum, C123_exponent: exponent 2 H + 2 exactly, between any two frequencies) and the increments (C123_white, and C123_squares for the exact moments of order four). REFUTED: the intermittency. C123_flatness, C123_volatility_correlation: the flatness is at most 3 L^(4 lam^2 / N) and the correlation of the squares at most L^(4 lam^2 / N), N the size of the image; C123_intermittency_refuted: never the wanted one; C123_gaussian: the flatness tends to 3, whatever lam: the larger the image, the less multifractal. The cause is the normalisation of C82 (ifft2 where the spectral synthesis needs a factor N). C123_run_exists: such noises and runs exist for every shape and parameters. C123_case: a concrete image.
