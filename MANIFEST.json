{
 "claims": [
  {
   "property": "C01",
   "status": "proved",
   "theorems": [
    "C01_least_squares"
   ],
   "note": ""
  },
  {
   "property": "C02",
   "status": "proved",
   "theorems": [
    "C02_affine_equivariance",
    "C02_exact_on_lines"
   ],
   "note": ""
  },
  {
   "property": "C03",
   "status": "proved",
   "theorems": [
    "C03_order_invariance",
    "C03_weight_scale_invariance",
    "C03_abscissa_shift",
    "C03_slope_variance"
   ],
   "note": ""
  },
  {
   "property": "C04",
   "status": "partial",
   "theorems": [
    "C04_equal_abscissae_nan",
    "C04_empty_fit_refuted"
   ],
   "note": "REFUTED for the empty range: an unweighted fit over no scale returns finite zeros (C04_empty_fit_refuted); the single-scale / equal-abscissae half is proved."
  },
  {
   "property": "C05",
   "status": "proved",
   "theorems": [
    "C05_fast_power",
    "C05_power_unique"
   ],
   "note": ""
  },
  {
   "property": "C06",
   "status": "proved",
   "theorems": [
    "C06_fixednansum",
    "C06_fixednanmax"
   ],
   "note": ""
  },
  {
   "property": "C07",
   "status": "proved",
   "theorems": [
    "C07_freq2scale_scale2freq",
    "C07_scale2freq_freq2scale",
    "C07_decreasing"
   ],
   "note": ""
  },
  {
   "property": "C08",
   "status": "proved",
   "theorems": [
    "C08_fband2scale"
   ],
   "note": ""
  },
  {
   "property": "C09",
   "status": "proved",
   "theorems": [
    "C09_error_iff",
    "C09_grid"
   ],
   "note": ""
  },
  {
   "property": "C10",
   "status": "proved",
   "theorems": [
    "C10_nj_counts",
    "C10_scale_order"
   ],
   "note": ""
  },
  {
   "property": "C11",
   "status": "proved",
   "theorems": [
    "C11_nj_interval"
   ],
   "note": ""
  },
  {
   "property": "C12",
   "status": "proved",
   "theorems": [
    "C12_largest_level",
    "C12_empty_signal_raises",
    "C12_monotone",
    "C12_internal_limit_agrees"
   ],
   "note": ""
  },
  {
   "property": "C13",
   "status": "proved",
   "theorems": [
    "C13_filtering_step"
   ],
   "note": ""
  },
  {
   "property": "C14",
   "status": "proved",
   "theorems": [
    "C14_nan_structure",
    "C14_returns",
    "C14_leader_pattern"
   ],
   "note": ""
  },
  {
   "property": "C15",
   "status": "proved",
   "theorems": [
    "C15_locality"
   ],
   "note": ""
  },
  {
   "property": "C16",
   "status": "proved",
   "theorems": [
    "C16_linear"
   ],
   "note": ""
  },
  {
   "property": "C17",
   "status": "proved",
   "theorems": [
    "C17_trend_invariant",
    "C17_polynomial_zero"
   ],
   "note": ""
  },
  {
   "property": "C18",
   "status": "proved",
   "theorems": [
    "C18_rescale",
    "C18_normalization_is_gamint"
   ],
   "note": ""
  },
  {
   "property": "C19",
   "status": "proved",
   "theorems": [
    "C19_shape",
    "C19_scales_available"
   ],
   "note": ""
  },
  {
   "property": "C20",
   "status": "proved",
   "theorems": [
    "C20_coefs_formalism"
   ],
   "note": ""
  },
  {
   "property": "C21",
   "status": "proved",
   "theorems": [
    "C21_leader_sup"
   ],
   "note": ""
  },
  {
   "property": "C22",
   "status": "proved",
   "theorems": [
    "C22_leaders_dominate"
   ],
   "note": ""
  },
  {
   "property": "C23",
   "status": "proved",
   "theorems": [
    "C23_p_leader_average",
    "C23_returned_leaders"
   ],
   "note": ""
  },
  {
   "property": "C24",
   "status": "proved",
   "theorems": [
    "C24_correction_factor",
    "C24_correction_applied"
   ],
   "note": ""
  },
  {
   "property": "C25",
   "status": "partial",
   "theorems": [
    "C25_only_two_refuted",
    "C25_index_error_refuted"
   ],
   "note": "REFUTED: for every finite p > 0 other than 2 wavelet_analysis never returns (IndexError); p = 2 works exactly when every eta_p > 0 (C26_eta_decides_refuted)."
  },
  {
   "property": "C26",
   "status": "partial",
   "theorems": [
    "C26_eta_decides_refuted"
   ],
   "note": "REFUTED: eta_p <= 0 raises TypeError instead of warning and returning uncorrected leaders; the case eta_p > 0 is characterised."
  },
  {
   "property": "C27",
   "status": "partial",
   "theorems": [
    "C27_counts_partial",
    "C27_nan_leaders_refuted"
   ],
   "note": "REFUTED when eta_p is NaN (p=2, single scale): all leaders NaN with stale nj; proved in every other case (C27_counts_partial)."
  },
  {
   "property": "C28",
   "status": "proved",
   "theorems": [
    "C28_log_moments",
    "C28_zeta_best_line"
   ],
   "note": ""
  },
  {
   "property": "C29",
   "status": "proved",
   "theorems": [
    "C29_zeta_zero"
   ],
   "note": ""
  },
  {
   "property": "C30",
   "status": "proved",
   "theorems": [
    "C30_transform",
    "C30_structure_functions",
    "C30_cumulants",
    "C30_spectrum",
    "C30_hmin",
    "C30_applies",
    "C30_signal_exponents"
   ],
   "note": ""
  },
  {
   "property": "C31",
   "status": "proved",
   "theorems": [
    "C31_coefficients",
    "C31_estimates"
   ],
   "note": ""
  },
  {
   "property": "C32",
   "status": "partial",
   "theorems": [
    "C32_H_value",
    "C32_get_intercept",
    "C32_no_two_refuted"
   ],
   "note": "REFUTED when 2 is not in q (IndexError, C32_no_two_refuted) and for python lists; proved when 2 is in the array."
  },
  {
   "property": "C33",
   "status": "proved",
   "theorems": [
    "C33_log_convex",
    "C33_power_means"
   ],
   "note": ""
  },
  {
   "property": "C34",
   "status": "proved",
   "theorems": [
    "C34_moment_cumulant",
    "C34_low_orders",
    "C34_log_cumulants"
   ],
   "note": ""
  },
  {
   "property": "C35",
   "status": "proved",
   "theorems": [
    "C35_shift",
    "C35_homogeneous"
   ],
   "note": ""
  },
  {
   "property": "C36",
   "status": "proved",
   "theorems": [
    "C36_accessors",
    "C36_unknown"
   ],
   "note": ""
  },
  {
   "property": "C37",
   "status": "proved",
   "theorems": [
    "C37_entropy_bounds",
    "C37_probability"
   ],
   "note": ""
  },
  {
   "property": "C38",
   "status": "proved",
   "theorems": [
    "C38_spectrum_zero"
   ],
   "note": ""
  },
  {
   "property": "C39",
   "status": "proved",
   "theorems": [
    "C39_legendre"
   ],
   "note": ""
  },
  {
   "property": "C40",
   "status": "proved",
   "theorems": [
    "C40_monofractal"
   ],
   "note": ""
  },
  {
   "property": "C41",
   "status": "partial",
   "theorems": [
    "C41_hmin_best_line",
    "C41_warning_refuted"
   ],
   "note": "Regression part proved; the warning part is REFUTED: it is issued exactly when some estimate is exactly 0 (C41_warning_refuted)."
  },
  {
   "property": "C42",
   "status": "partial",
   "theorems": [
    "C42_compute_hurst_refuted"
   ],
   "note": "REFUTED: compute_hurst never returns (AttributeError), C42_compute_hurst_refuted."
  },
  {
   "property": "C43",
   "status": "proved",
   "theorems": [
    "C43_assembles",
    "C43_q_forms",
    "C43_succeeds",
    "C43_pipeline"
   ],
   "note": ""
  },
  {
   "property": "C44",
   "status": "partial",
   "theorems": [
    "C44_projection_partial",
    "C44_minimal_refuted"
   ],
   "note": "Proved for array q and given leaders (C44_projection_partial); REFUTED otherwise: q=None or a list (IndexError), no leaders (AttributeError)."
  },
  {
   "property": "C45",
   "status": "proved",
   "theorems": [
    "C45_transform",
    "C45_structure_functions",
    "C45_cumulants",
    "C45_spectrum",
    "C45_hmin"
   ],
   "note": ""
  },
  {
   "property": "C46",
   "status": "proved",
   "theorems": [
    "C46_wavelet_psd_never_stale"
   ],
   "note": ""
  },
  {
   "property": "C47",
   "status": "partial",
   "theorems": [
    "C47_welch_psd_partial",
    "C47_stale_refuted"
   ],
   "note": "Proved when the estimation succeeds and for the first use of any parameters (C47_welch_psd_partial); REFUTED otherwise: repeating a failed call returns the estimate of the previous parameters (C47_stale_refuted)."
  },
  {
   "property": "C48",
   "status": "partial",
   "theorems": [
    "C48_wavelet_cache_partial",
    "C48_stale_refuted"
   ],
   "note": "Proved when the analysis succeeds and for the first use of any parameters, with no recomputation on repetition (C48_wavelet_cache_partial); REFUTED otherwise: repeating a failed call returns a stale transform or None (C48_stale_refuted)."
  },
  {
   "property": "C49",
   "status": "partial",
   "theorems": [
    "C49_last_analysis_partial",
    "C49_overwritten_refuted"
   ],
   "note": "Proved for histories without wavelet-PSD calls in between (C49_last_analysis_partial); REFUTED otherwise (C49_overwritten_refuted): estimate_wavelet_psd, fractal_analysis and the plots overwrite wt_param. hurst() equals compute_hurst, which itself never returns (C42)."
  },
  {
   "property": "C50",
   "status": "partial",
   "theorems": [
    "C50_mf_analysis_refuted",
    "C50_stored_parameters"
   ],
   "note": "REFUTED: Signal.mf_analysis and mf_analysis_full raise in every state (TypeError after a successful analysis); C50_stored_parameters: the call stores the parameters, no result, and changes nothing else."
  },
  {
   "property": "C51",
   "status": "proved",
   "theorems": [
    "C51_fractal_coherent",
    "C51_guarded"
   ],
   "note": ""
  },
  {
   "property": "C52",
   "status": "partial",
   "theorems": [
    "C52_least_squares",
    "C52_power_law",
    "C52_documented_sign_refuted",
    "C52_one_frequency",
    "C52_no_result",
    "C52_no_result_rows",
    "C52_unknown_log",
    "C52_unknown_log_case"
   ],
   "note": "REFUTED as documented: on PSD = C f^-beta the field beta is -beta (C52_documented_sign_refuted), log C is exact; least-squares optimality, both log bases and array shapes are proved (C52_least_squares, C52_power_law); a band with a single frequency silently gives exponent 0 (C52_one_frequency); a null frequency in the band never returns (C52_no_result, C52_no_result_rows). A logarithm other than log2 or log raises KeyError (C52_unknown_log)."
  },
  {
   "property": "C53",
   "status": "proved",
   "theorems": [
    "C53_beta_is_hurst",
    "C53_base_and_sampling",
    "C53_returns"
   ],
   "note": ""
  },
  {
   "property": "C54",
   "status": "partial",
   "theorems": [
    "C54_wavelet_support",
    "C54_wavelet_returns",
    "C54_welch",
    "C54_odd_grid_refuted"
   ],
   "note": "Supports, sanitising and the exact success condition are proved; finding (C54_odd_grid_refuted): for odd n_fft the Welch frequency grid is not the DFT grid."
  },
  {
   "property": "C55",
   "status": "proved",
   "theorems": [
    "C55_coherence",
    "C55_self",
    "C55_needed_moments"
   ],
   "note": "Proved for single-realisation quantities with aligned arrays; the exact set of moment orders needed is C55_needed_moments."
  },
  {
   "property": "C56",
   "status": "proved",
   "theorems": [
    "C56_returns",
    "C56_limits",
    "C56_values",
    "C56_RHO",
    "C56_marginals",
    "C56_swap"
   ],
   "note": "Proved for single-realisation quantities. Limits proved in C56_limits: with several realisations the comparison of nj raises ValueError, and n_cumul < 2 with leaders never returns."
  },
  {
   "property": "C57",
   "status": "partial",
   "theorems": [
    "C57_cross_cumulants_refuted",
    "C57_witness_refuted"
   ],
   "note": "REFUTED: every cross-cumulant with both orders >= 1 other than (1,1) is stored as 0 whatever the data (C57_cross_cumulants_refuted); witness with true value 2/27 (C57_witness_refuted). The orders (k,0), (0,k), (1,1) are proved in C56_values."
  },
  {
   "property": "C58",
   "status": "partial",
   "theorems": [
    "C58_no_leaders_refuted",
    "C58_with_leaders",
    "C58_pipeline"
   ],
   "note": "REFUTED without leaders: UnboundLocalError (C58_no_leaders_refuted). With leaders: exact characterisation (C58_with_leaders) and success of the whole pipeline on every pair of equally long finite signals (C58_pipeline)."
  },
  {
   "property": "C59",
   "status": "proved",
   "theorems": [
    "C59_legendre",
    "C59_surface",
    "C59_swap",
    "C59_low_orders"
   ],
   "note": ""
  },
  {
   "property": "C60",
   "status": "partial",
   "theorems": [
    "C60_fgn_arguments",
    "C60_one_sample_refuted",
    "C60_one_sample_chol_refuted",
    "C60_log_volatility",
    "C60_log_volatility_support",
    "C60_mrw_arguments",
    "C60_mrw_unknown_method_refuted"
   ],
   "note": "Proved for N >= 2; REFUTED for N = 1 (cme always raises, C60_one_sample_refuted; chol gives a 0-dimensional array where the documentation says shape (N,), C60_one_sample_chol_refuted) and for an unknown method of mrw (UnboundLocalError, C60_mrw_unknown_method_refuted)."
  },
  {
   "property": "C61",
   "status": "partial",
   "theorems": [
    "C61_fgn",
    "C61_fbm",
    "C61_variance",
    "C61_brownian",
    "C61_H0_is_zero_refuted"
   ],
   "note": "Proved for 0 < H <= 1 with the default method; REFUTED at H = 0: the result is identically zero (C61_H0_is_zero_refuted)."
  },
  {
   "property": "C62",
   "status": "proved",
   "theorems": [
    "C62_embedding",
    "C62_noise_exists",
    "C62_convex_exact"
   ],
   "note": "For any covariance sequence of N >= 2 terms; exactness when no warning is issued, the warning exactly when an eigenvalue is negative, and sufficient convexity."
  },
  {
   "property": "C63",
   "status": "partial",
   "theorems": [
    "C63_success",
    "C63_output_covariance",
    "C63_wrong_covariance_refuted",
    "C63_case_refuted",
    "C63_fgn_chol_refuted"
   ],
   "note": "REFUTED: scipy returns the upper factor, so the covariance is U U^T; it is the requested one only for uncorrelated covariances (C63_wrong_covariance_refuted), for fgn only when H = 1/2 (C63_fgn_chol_refuted). Success condition and actual covariance are proved."
  },
  {
   "property": "C64",
   "status": "proved",
   "theorems": [
    "C64_convolution",
    "C64_reference",
    "C64_odd_length_refuted"
   ],
   "note": "Proved for noise of even length as documented; every odd length raises ValueError (C64_odd_length_refuted)."
  },
  {
   "property": "C65",
   "status": "partial",
   "theorems": [
    "C65_skewed_mrw_refuted"
   ],
   "note": "REFUTED: skewed_mrw raises ValueError for every argument (C65_skewed_mrw_refuted)."
  },
  {
   "property": "C66",
   "status": "proved",
   "theorems": [
    "C66_from_dict",
    "C66_classes"
   ],
   "note": ""
  },
  {
   "property": "C67",
   "status": "partial",
   "theorems": [
    "C67_plot_fractal_refuted"
   ],
   "note": "REFUTED: both plot_fractal raise for every input and history."
  },
  {
   "property": "C68",
   "status": "partial",
   "theorems": [
    "C68_difference",
    "C68_log_difference",
    "C68_result_unusable_refuted"
   ],
   "note": "Support and values are proved, also with a log pair; REFUTED that the result can be analysed further: it has no data, so every estimation on it raises (C68_result_unusable_refuted)."
  },
  {
   "property": "C69",
   "status": "proved",
   "theorems": [
    "C69_log_moments",
    "C69_zeta_best_line",
    "C69_marginals",
    "C69_swap"
   ],
   "note": ""
  },
  {
   "property": "C70",
   "status": "proved",
   "theorems": [
    "C70_log_convex"
   ],
   "note": ""
  },
  {
   "property": "C71",
   "status": "partial",
   "theorems": [
    "C71_chol_reproducible",
    "C71_w_reproducible",
    "C71_cme_ignores_noise_refuted"
   ],
   "note": "Proved for method 'chol' and for the log-volatility; REFUTED for fgn/fbm/mrw with the default method 'cme', which ignores z0 (C71_cme_ignores_noise_refuted)."
  },
  {
   "property": "C72",
   "status": "proved",
   "theorems": [
    "C72_homogeneous"
   ],
   "note": ""
  },
  {
   "property": "C73",
   "status": "proved",
   "theorems": [
    "C73_mean_volatility",
    "C73_mrw_values",
    "C73_lam0_is_fbm"
   ],
   "note": ""
  },
  {
   "property": "C74",
   "status": "proved",
   "theorems": [
    "C74_mrw_cumul",
    "C74_positive_c2"
   ],
   "note": ""
  },
  {
   "property": "C75",
   "status": "proved",
   "theorems": [
    "C75_cumulants_plot",
    "C75_constructed"
   ],
   "note": "For several realisations the panels are drawn empty (second part of C75_cumulants_plot); n_cumul = 0 raises UnboundLocalError (C75_constructed)."
  },
  {
   "property": "C76",
   "status": "partial",
   "theorems": [
    "C76_structure_plot",
    "C76_default_refuted",
    "C76_several_refuted",
    "C76_returns",
    "C76_scaling"
   ],
   "note": "Exact condition of failure proved (C76_structure_plot); REFUTED: IndexError for q = -2..2 with the default arguments (C76_default_refuted), never returns for several realisations (C76_several_refuted). Proved whenever 0 is not in q or ignore_q0 is false (C76_returns)."
  },
  {
   "property": "C77",
   "status": "partial",
   "theorems": [
    "C77_bicumulants_plot",
    "C77_label_refuted",
    "C77_witness_refuted"
   ],
   "note": "Proved for the figures and curves; REFUTED for the label c11, which shows the slope and not the log-cumulant (C77_label_refuted, C77_witness_refuted), and n_cumul = 1 raises IndexError."
  },
  {
   "property": "C78",
   "status": "proved",
   "theorems": [
    "C78_bistructure_plot"
   ],
   "note": ""
  },
  {
   "property": "C79",
   "status": "partial",
   "theorems": [
    "C79_log_plot",
    "C79_styles_partial",
    "C79_points"
   ],
   "note": "Proved with default styles; with given lists of styles the spectra and slopes beyond the shortest list are silently dropped (C79_styles_partial), also slopes beyond the number of spectra."
  },
  {
   "property": "C80",
   "status": "partial",
   "theorems": [
    "C80_plot_legendre",
    "C80_support_refuted",
    "C80_range_refuted",
    "C80_axes_refuted"
   ],
   "note": "Exact description of what is drawn (C80_plot_legendre); REFUTED: h_support is ignored (C80_support_refuted), nothing outside [0, 1.5] is drawn (C80_range_refuted), the axes are swapped (C80_axes_refuted)."
  },
  {
   "property": "C81",
   "status": "proved",
   "theorems": [
    "C81_spectrum",
    "C81_semigroup",
    "C81_inverse",
    "C81_linear",
    "C81_mean",
    "C81_plane_wave",
    "C81_refused"
   ],
   "note": "Complete for even N (the documented domain); odd N is not covered."
  },
  {
   "property": "C82",
   "status": "partial",
   "theorems": [
    "C82_covariance",
    "C82_off_by_N2",
    "C82_variance_too_small"
   ],
   "note": "Exact covariance for every size and white noise (C82_covariance); REFUTED: it is the wanted one divided by N^2 when the spectrum is non-negative (C82_off_by_N2), and the variance is always below lam^2 log+ L / N (C82_variance_too_small; 2x2 example C82_example)."
  },
  {
   "property": "C83",
   "status": "partial",
   "theorems": [
    "C83_shapes",
    "C83_integral",
    "C83_sigma_ignored"
   ],
   "note": "The walk is the fractional integral of order H+1 of the increments (C83_integral); REFUTED: the shape is always (N, N, R) with N rounded up to even, never (N,) (C83_shapes), and sigma is ignored (C83_sigma_ignored)."
  },
  {
   "property": "C84",
   "status": "proved",
   "theorems": [
    "C84_coefficients",
    "C84_leaders"
   ],
   "note": "Proved for every scale stored in both results; coefficients for every formalism, the leaders for p_exp = inf and signals without infinities. C84_case: 24 samples preceded by 4."
  },
  {
   "property": "C85",
   "status": "partial",
   "theorems": [
    "C85_spectrum_plot",
    "C85_window_refuted"
   ],
   "note": "Points proved (C85_spectrum_plot); REFUTED that they are all visible: the axes are fixed to h in [0, 1.5] and D in [0, 1.05] (C85_window_refuted, C85_case: data with exponent 2 show nothing)."
  },
  {
   "property": "C86",
   "status": "proved",
   "theorems": [
    "C86_plot_psd",
    "C86_signal_plot_psd",
    "C86_plot_psd_welch"
   ],
   "note": "C86_plot_psd is for any scipy.signal.welch that returns n_fft//2+1 values; C86_plot_psd_welch is for the one of ModelWelch.v."
  },
  {
   "property": "C87",
   "status": "partial",
   "theorems": [
    "C87_plot_multiscale",
    "C87_order_irrelevant",
    "C87_grids_refuted",
    "C87_missing_color"
   ],
   "note": "Proved for complete frames in which the subjects share the frequency grid of a segment, for every enumeration order; REFUTED for different grids: values are averaged by index, mixing frequencies, or ValueError (C87_grids_refuted). A segment without a colour entry raises KeyError and nothing is drawn (C87_missing_color)."
  },
  {
   "property": "C88",
   "status": "proved",
   "theorems": [
    "C88_unbiased",
    "C88_best"
   ],
   "note": "Second-order statement over any linear expectation (SpecSimul); C88_case: three uncorrelated perturbations with unequal weights and two other unbiased estimators."
  },
  {
   "property": "C89",
   "status": "proved",
   "theorems": [
    "C89_amplitude"
   ],
   "note": "One signal on each side (the code only supports that); log-cumulants and rho are compared at scales where no usable value is zero."
  },
  {
   "property": "C90",
   "status": "proved",
   "theorems": [
    "C90_integration"
   ],
   "note": "For the coefficients, where the effect is exact; leaders of a fractionally integrated signal are not a rescaling of the leaders."
  },
  {
   "property": "C91",
   "status": "partial",
   "theorems": [
    "C91_exponents",
    "C91_log_cumulants",
    "C91_hmin",
    "C91_spectrum",
    "C91_h_negative_refuted"
   ],
   "note": "Both directions proved for zeta, H, c_k, hmin, D(q) and h(q), q >= 0. REFUTED for h(q), q < 0: at a scale holding a zero the fitted ordinate is silently 0, so h(q) is a number unrelated to the values (exactly 0 if every fitted scale holds a zero) while D(q) is NaN (C91_h_negative_refuted, C91_holed)."
  },
  {
   "property": "C92",
   "status": "proved",
   "theorems": [
    "C92_rounded_transform",
    "C92_no_underflow",
    "C92_binary64",
    "C92_exact_machine"
   ],
   "note": "Overflow excluded; numeric p_exp (p-leaders) not covered by the rounded model."
  },
  {
   "property": "C93",
   "status": "proved",
   "theorems": [
    "C93_p_leaders_comparable"
   ],
   "note": "The calls only return for p = 2 (C25)."
  },
  {
   "property": "C94",
   "status": "proved",
   "theorems": [
    "C94_exponents",
    "C94_hmin",
    "C94_log_cumulants",
    "C94_spread_unweighted",
    "C94_floating_point"
   ],
   "note": "The fits themselves are in exact arithmetic; D(q), h(q) and c_m for m >= 3 are not bounded."
  },
  {
   "property": "C95",
   "status": "partial",
   "theorems": [
    "C95_psd_current",
    "C95_new_parameters",
    "C95_stale_refuted",
    "C95_stored_kept"
   ],
   "note": "Proved for estimate_wavelet_psd and fractal_analysis in every history (C95_psd_current), and for estimate_welch_psd and wavelet_analysis with parameters not used before (C95_new_parameters). REFUTED for the two caches (C95_stale_refuted): repeating a call after assigning data or fs returns the result for the old values, and hmin uses it; witnesses C95_welch_case, C95_wavelet_case."
  },
  {
   "property": "C96",
   "status": "proved",
   "theorems": [
    "C96_hmin",
    "C96_exponents",
    "C96_log_cumulants",
    "C96_signal",
    "C96_hmin_rest",
    "C96_structure_intercepts",
    "C96_cumulants_rest",
    "C96_spectrum",
    "C96_spectrum_missing",
    "C96_missing",
    "C96_exact_regression",
    "C96_exact_structure",
    "C96_exact_cumulants",
    "C96_exact_hmin",
    "C96_exact_spectrum"
   ],
   "note": "C96_hmin, C96_exponents (zeta and H), C96_log_cumulants (every order); C96_signal composes them with the floating-point transform of C92 for hmin, zeta(q) and c_1. Binary64 is such a machine (accurate_arith64); C96_case and C96_signal_case are concrete cases with errors below 1e-13 and 3e-11. Simplifications: no overflow; the integers of the regression and the binomials are exact (below 2^53). C96_hmin_rest, C96_structure_intercepts and C96_cumulants_rest bound the intercepts and the variances of the log-cumulants and say when the warning is issued. C96_spectrum bounds the computed h(q) and D(q) for realisations without zero values and powers far from underflow (C96_spectrum_case: 13 digits in binary64); realisations with zero values are not covered for the spectrum. C96_spectrum_missing and C96_missing: when a scale of the range has no value left, every estimate of that realisation is NaN in any arithmetic."
  },
  {
   "property": "C97",
   "status": "partial",
   "theorems": [
    "C97_odd_spectrum",
    "C97_odd_mean",
    "C97_mean_refuted",
    "C97_inverse_refuted",
    "C97_one_row",
    "C97_refused"
   ],
   "note": "REFUTED for every odd size (C81 proves it for even ones): the call succeeds silently, but the frequency grid is then off by half a step. C97_odd_spectrum gives the exact gain of every frequency, the mean of |k-(1/2,1/2)|^-alpha and |k+(1/2,1/2)|^-alpha; C97_odd_mean: the mean is multiplied by 2^(alpha/2), so it is never kept (C97_mean_refuted) unless alpha = 0; C97_inverse_refuted: for odd N >= 3 and alpha <> 0 orders alpha and -alpha do not undo each other. C97_one_row: with one row any width is accepted and the image is scaled by 2^(alpha/2). C97_refused: other shapes raise ValueError. mrw2D is not affected: it rounds the size up to an even number."
  },
  {
   "property": "C98",
   "status": "proved",
   "theorems": [
    "C98_reordered",
    "C98_duplicated"
   ],
   "note": "C98_reordered: the whole result objects are equal (same nj), for any quantity, including the errors raised. C98_duplicated: k(j) copies of every value with nj multiplied by k(j) give the same log S, zeta, intercepts, H, cumulants, log-cumulants, hmin and, where the spectrum is defined, the same U, V, D(q), h(q); with weighted = True k must be the same at all fitted scales (the weights then scale together). Only the variances of the log-cumulants may change."
  },
  {
   "property": "C99",
   "status": "proved",
   "theorems": [
    "C99_usable",
    "C99_count",
    "C99_lost",
    "C99_scales",
    "C99_leaders"
   ],
   "note": "C99_usable (exact NaN positions, signals with NaN), C99_count (nj in closed form), C99_scales (which scales are returned, coefficient formalism: the documented maximum level is the effective one except when the top scale has only two usable positions), C99_lost (missing samples), C99_leaders (positions of usable leaders). C99_case: 24 samples, one missing."
  },
  {
   "property": "C100",
   "status": "partial",
   "theorems": [
    "C100_equal_lengths",
    "C100_lists",
    "C100_broadcast_refuted",
    "C100_list_array_refuted"
   ],
   "note": "REFUTED for arrays of different lengths: a single order is broadcast, so [2] and [] or [2, 2] are 'the same' (C100_broadcast_refuted), other lengths raise AttributeError, and a list against an array of as many (>= 2) orders raises ValueError even when equal (C100_list_array_refuted). Proved for two arrays of equal lengths and for two lists (C100_equal_lengths, C100_lists)."
  },
  {
   "property": "C101",
   "status": "partial",
   "theorems": [
    "C101_one_scale",
    "C101_rho",
    "C101_self_refuted",
    "C101_joint_exponents",
    "C101_self_exponents",
    "C101_witness_refuted"
   ],
   "note": "REFUTED for rho_mf: it is minus the sign of e c20, hence -1 for a quantity with itself when its second log-cumulant is positive and NaN when it is 0 (C101_self_refuted, C101_rho; C101_witness_refuted shows both signs); 1 when it is negative. The scale-wise correlation, the cumulant relations and the joint exponents are proved (C101_one_scale, C101_joint_exponents, C101_self_exponents)."
  },
  {
   "property": "C102",
   "status": "proved",
   "theorems": [
    "C102_derivatives",
    "C102_bivariate"
   ],
   "note": "C102_derivatives (one quantity, every order) and C102_bivariate (two quantities). The cumulants of mixed order other than (1, 1) are stored as 0 by the code, which is C57."
  },
  {
   "property": "C103",
   "status": "proved",
   "theorems": [
    "C103_accessors",
    "C103_high_orders"
   ],
   "note": "C103_accessors, C103_high_orders."
  },
  {
   "property": "C104",
   "status": "partial",
   "theorems": [
    "C104_names",
    "C104_documented_refuted",
    "C104_history",
    "C104_printing_refuted"
   ],
   "note": "REFUTED for the documented name 'wavelet p-leaders' (the class accepts 'wavelet p-leader' and raises ValueError for the documented plural, C104_documented_refuted) and for printing a new object (AttributeError, since the generated __repr__ reads nrep, C104_printing_refuted). The accepted names, the order of the scales, the stored arrays and counts and nrep are proved for every history (C104_names, C104_history)."
  },
  {
   "property": "C105",
   "status": "proved",
   "theorems": [
    "C105_transform",
    "C105_estimates",
    "C105_scale1_sharp"
   ],
   "note": "p-leaders with finite p are not covered (their correction factor depends on the coefficients through an estimated exponent). Sharpness is proved for scale 1; at coarser scales the product of 1-norms is an upper bound of the 1-norm of the composed filter."
  },
  {
   "property": "C106",
   "status": "proved",
   "theorems": [
    "C106_curvature",
    "C106_narrowing",
    "C106_widening",
    "C106_shape_refuted"
   ],
   "note": "REFUTED in general (C106_shape_refuted, weighted or not, on the leaders returned by wavelet_analysis); C106_curvature says exactly what decides the shape, C106_narrowing and C106_widening give the positive and the reversed facts."
  },
  {
   "property": "C107",
   "status": "proved",
   "theorems": [
    "C107_expansion",
    "C107_series"
   ],
   "note": "C107_expansion (remainders for zeta, h, D at every order), C107_series (convergence). The same log-cumulants are returned whatever n_cumul was asked for."
  },
  {
   "property": "C108",
   "status": "proved",
   "theorems": [
    "C108_stationary",
    "C108_white",
    "C108_power",
    "C108_psd",
    "C108_increments",
    "C108_fbm"
   ],
   "note": "C108_stationary, C108_white, C108_power, C108_psd, C108_increments, and C108_fbm composed with the generator theorem C61_fbm. Positions whose filter windows overlap the borders are not random numbers (they are NaN, C99) and are excluded."
  },
  {
   "property": "C109",
   "status": "proved",
   "theorems": [
    "C109_energy",
    "C109_coefficient",
    "C109_leader",
    "C109_distance",
    "C109_psd"
   ],
   "note": "C109_energy, C109_coefficient, C109_leader, C109_distance (finite recordings, coefficients or leaders formalism), C109_psd."
  },
  {
   "property": "C110",
   "status": "proved",
   "theorems": [
    "C110_fbm",
    "C110_fgn",
    "C110_short_fbm",
    "C110_short_fgn"
   ],
   "note": "C110_fbm, C110_fgn (pointwise decay), C110_short_fbm, C110_short_fgn (summability uniform in the length). Composes C61 (covariance of the generators) and C108 (covariance of the coefficients)."
  },
  {
   "property": "C111",
   "status": "proved",
   "theorems": [
    "C111_power",
    "C111_exponent",
    "C111_psd",
    "C111_fbm_bounds",
    "C111_fbm_exponent"
   ],
   "note": "C111_power, C111_exponent, C111_psd (fGn, exact at all scales), C111_fbm_bounds (explicit bounds), C111_fbm_exponent (limit). The fit is of the logarithm of the expectation, not the expectation of the logarithm."
  },
  {
   "property": "C112",
   "status": "proved",
   "theorems": [
    "C112_fluctuation_fgn",
    "C112_fluctuation_fbm",
    "C112_fgn_estimate",
    "C112_fgn_consistent",
    "C112_noise_exists",
    "C112_case",
    "C112_case_fbm",
    "C112_fgn_line",
    "C112_fbm_line",
    "C112_fbm_consistent",
    "C112_fgn_line_rate",
    "C112_fbm_line_rate",
    "C112_fbm_rate",
    "C112_case_rate"
   ],
   "note": "C112_fluctuation_fgn, C112_fluctuation_fbm (variance of the mean power, any wavelet), C112_fgn_estimate (any formalism), C112_fgn_consistent (from the simulator to the estimate, no hypothesis on the transform), C112_fgn_line and C112_fbm_line (any wavelet), C112_fbm_consistent (fbm, Haar), C112_noise_exists, C112_case and C112_case_fbm (hypotheses met). Probabilities are outer probabilities of an abstract expectation; prob_at_most_sound links them to expectations of indicators. Rates: C112_fgn_line_rate (fgn, K / N, any wavelet), C112_fbm_line_rate (fbm, any wavelet with M vanishing moments, N^(-a) with a <= 1 and a <= 4M - 4H, a < 1 in the case of equality of both), C112_fbm_rate (Haar), C112_case_rate."
  },
  {
   "property": "C113",
   "status": "proved",
   "theorems": [
    "C113_fgn",
    "C113_fbm",
    "C113_fgn_haar",
    "C113_fbm_haar",
    "C113_case",
    "C113_fgn_any",
    "C113_fbm_any"
   ],
   "note": "C113_fgn, C113_fbm (any wavelet), C113_fgn_haar, C113_fbm_haar (no condition on the wavelet variance), C113_case (draws exist for which the coherence is within eps of 0, and of 3/5). correlation_independent, correlation_self, correlation_bound say what the limit is. Probabilities are outer probabilities of an abstract expectation."
  },
  {
   "property": "C114",
   "status": "partial",
   "theorems": [
    "C114_value",
    "C114_returns",
    "C114_scaling",
    "C114_total",
    "C114_mean",
    "C114_white",
    "C114_total_mean",
    "C114_methods_refuted",
    "C114_missing",
    "C114_tail"
   ],
   "note": "Value, success condition, sign, scaling, Parseval, mean for stationary signals and flatness for white noise are proved (C114_value, C114_returns, C114_scaling, C114_total, C114_mean, C114_white). REFUTED: the values do not sum to the variance, but to four times it with the angular step 2 pi / n_fft and to 2 fs / pi times it with the step of the returned frequencies (C114_total_mean), because psd.py multiplies a density that scipy already made one-sided by 4 and computes it for fs = 2 pi; and the two spectra of one figure disagree on white noise by the factor 4 / pi (C114_methods_refuted). A missing sample in a full segment makes every value missing and the samples after the last full segment are never used, missing or not (C114_missing, C114_tail). scipy.signal.welch is modelled in exact arithmetic in ModelWelch.v."
  },
  {
   "property": "C115",
   "status": "partial",
   "theorems": [
    "C115_sinusoid",
    "C115_peak",
    "C115_frequency_refuted"
   ],
   "note": "The shape is proved (C115_sinusoid, C115_peak). REFUTED for the frequency when n_fft is odd: k0 fs / (n_fft - 1) is returned instead of k0 fs / n_fft (C115_frequency_refuted, which also proves it for even n_fft)."
  },
  {
   "property": "C116",
   "status": "partial",
   "theorems": [
    "C116_fgn_beta",
    "C116_documented_refuted",
    "C116_fbm_beta",
    "C116_case",
    "C116_fbm_rate",
    "C116_case_rate"
   ],
   "note": "Proved with the sign that the code uses: the exponent converges to 1 - 2H for fgn at the rate K / N for each realisation, K independent of N, sigma, the step, the band and the logarithm (C116_fgn_beta), and to -(2H + 1) for fbm at coarse enough scales (C116_fbm_beta; with the rate N^(-a), a <= 1, a <= 4 - 4H, a < 1 at H = 3/4: C116_fbm_rate, C116_case_rate). REFUTED for the documented sign, C |f|^(-beta): with H = 3/4 the probability of an exponent within 1/2 of 2H - 1 goes to zero (C116_documented_refuted)."
  },
  {
   "property": "C117",
   "status": "proved",
   "theorems": [
    "C117_fgn_consistent",
    "C117_fgn_rate",
    "C117_white_flat",
    "C117_case"
   ],
   "note": "C117_fgn_consistent: for every H in (0, 1) some length, which depends neither on sigma nor on the step nor on the sampling frequency, is enough; C117_fgn_rate: K N^(-a) for every H in (0, 1), a = 1 below 3/4, any a < 1 at 3/4, a = 4 - 4H beyond; C117_white_flat: for white noise the limit is 4 sigma^2 dt / pi, half of it at frequency 0 and at the Nyquist frequency; C117_case: an instance with an explicit positive expectation. The scipy routine is the one of ModelWelch (real arithmetic)."
  },
  {
   "property": "C118",
   "status": "partial",
   "theorems": [
    "C118_ignored",
    "C118_last_refuted",
    "C118_used",
    "C118_reversal_refuted"
   ],
   "note": "REFUTED: the last sample never counts, whatever the wavelet, the formalism and the parameters (C118_last_refuted: same result or same exception for any two values, also for the spectrum and the spectral exponent), and the reversed recording is not analysed as the recording, even with the symmetric Haar filters and at any length from 7 on (C118_reversal_refuted). Exact positive part: with a filter of length L, exactly the first L/2 - 1 and the last L/2 samples (L/2 + 1 when the length is even) are ignored: C118_ignored (nothing returned depends on them) and C118_used (changing any other sample changes a coefficient of scale 1)."
  },
  {
   "property": "C119",
   "status": "partial",
   "theorems": [
    "C119_fgn_wavelet",
    "C119_fbm_wavelet",
    "C119_white_flat",
    "C119_ratio_refuted",
    "C119_case"
   ],
   "note": "Proved: C119_fgn_wavelet (rate K / N, any wavelet with a vanishing moment), C119_fbm_wavelet (two vanishing moments), C119_white_flat (white noise: flat at sigma^2 dt). REFUTED: agreement of the two spectra. C119_ratio_refuted: on white noise the ratio of the Fourier to the wavelet spectrum converges in probability to 4 / pi, at all inner frequencies and scales. C119_case: long enough simulations have such draws."
  },
  {
   "property": "C120",
   "status": "partial",
   "theorems": [
    "C120_increments",
    "C120_log_volatility",
    "C120_uncorrelated",
    "C120_variance",
    "C120_sigma_refuted",
    "C120_noise_exists",
    "C120_case"
   ],
   "note": "Proved: C120_increments (means, covariance, correlations between realisations, moments of the squares, exactly, for every N), C120_log_volatility (the demeaned log-volatility covariance is lam^2 ln+(L / (lag + 1)) up to 4 L lam^2 ln L / N), C120_uncorrelated (H = 1/2), C120_variance (variance of an increment = sigma^2 N^(-2H) L^(lam^2) exp(u), u at most 8 L lam^2 ln L / N). REFUTED: the role of sigma. C120_sigma_refuted: for L > 1, N >= 16 L, lam and sigma nonzero, every increment has a variance larger than nominal by at least L^(lam^2 / 2): the code subtracts lam^2 / 2 ln L from the log-volatility where lam^2 ln L is needed (skewed_mrw subtracts lam^2 ln L). C120_noise_exists: a positive expectation with such independent noises, for every shape. C120_case: 64 samples, H = 1/2, lam = 1/2, L = 4."
  },
  {
   "property": "C121",
   "status": "partial",
   "theorems": [
    "C121_persistent",
    "C121_antipersistent",
    "C121_brownian",
    "C121_cumulants_refuted",
    "C121_order_four",
    "C121_cumulants",
    "C121_run_exists",
    "C121_case",
    "C121_refuted_case"
   ],
   "note": "Proved for c1 + c2 = 1/2 (the random walk of Bacry, Delour and Muzy): C121_cumulants, orders 2 and 4 (exponents 2 c1 + 2 c2 and 4 c1 + 8 c2, for -1/4 < c2 <= 0), from C121_brownian and C121_order_four. REFUTED for every other c1 + c2 in (0, 1]: C121_cumulants_refuted: whatever the constants, the moment of order 2 leaves the range of the power law of exponent 2 c1 + 2 c2. The reason: the volatility weights the correlations of the noise by (lag)^(-lam^2): with H > 1/2 (C121_persistent) the second moment grows strictly slower than l^(2 H), with H < 1/2 (C121_antipersistent) it grows linearly. C121_run_exists: such runs exist for all parameters. C121_case, C121_refuted_case: concrete runs."
  },
  {
   "property": "C122",
   "status": "proved",
   "theorems": [
    "C122_energy",
    "C122_flatness",
    "C122_intermittency",
    "C122_consistent",
    "C122_run_exists",
    "C122_case"
   ],
   "note": "C122_energy, C122_flatness, C122_intermittency, C122_consistent: constants exp(c2)/16, exp(-c2)/8 and exp(2 c2), 8 exp(-2 c2)/(1 + 4 c2). The expectation is of the mean over the coefficients of the transform (coef_moment), for scales that hold a coefficient free of border effects (full_scale). Stated for c1 + c2 = 1/2, the case where mrw_cumul follows the law asked for (C121 refutes the others). The logarithm is of the expectation: the expectation of the logarithm (the cumulants cm of C06) is not covered. C122_run_exists: for all parameters and any number of scales there are runs that meet the hypotheses. C122_case: c1 = 5/8, c2 = -1/8, L = 2^126: c2 within 1/100."
  },
  {
   "property": "C123",
   "status": "partial",
   "theorems": [
    "C123_white",
    "C123_squares",
    "C123_flatness",
    "C123_volatility_correlation",
    "C123_spectrum",
    "C123_intermittency_refuted",
    "C123_gaussian",
    "C123_exponent",
    "C123_noise_exists",
    "C123_run_exists",
    "C123_case"
   ],
   "note": "Proved: the spectrum (C123_spectrum, C123_exponent: exponent 2 H + 2 exactly, between any two frequencies) and the increments (C123_white, and C123_squares for the exact moments of order four). REFUTED: the intermittency. C123_flatness, C123_volatility_correlation: the flatness is at most 3 L^(4 lam^2 / N) and the correlation of the squares at most L^(4 lam^2 / N), N the size of the image; C123_intermittency_refuted: never the wanted one; C123_gaussian: the flatness tends to 3, whatever lam: the larger the image, the less multifractal. The cause is the normalisation of C82 (ifft2 where the spectral synthesis needs a factor N). C123_run_exists: such noises and runs exist for every shape and parameters. C123_case: a concrete image."
  },
  {
   "property": "C124",
   "status": "proved",
   "theorems": [
    "C124_fgn",
    "C124_fbm",
    "C124_fgn_haar",
    "C124_case"
   ],
   "note": "C124_fgn, C124_fbm (exact second moment of a scale, integrability and the ratio 3), C124_fgn_haar (0 < H < 1, sigma nonzero: flatness 3, exponents), for the scales that hold a coefficient free of border effects (scale_held). The moments are expectations of averages over the coefficients of a scale; the logarithm is of the expectation. C124_case: two realisations of 64 samples, three scales."
  },
  {
   "property": "C125",
   "status": "proved",
   "theorems": [
    "C125_fgn",
    "C125_fbm",
    "C125_noise_exists",
    "C125_case",
    "C125_fgn_haar",
    "C125_fgn_any",
    "C125_fbm_any"
   ],
   "note": "C125_fgn, C125_fbm (hypothesis: the ideal variance high_cov of the coefficients is positive at the scales of the fit; LWick8.gaussian_complex8 is the noise), C125_fgn_haar (positivity proved, both exponents). C125_noise_exists: a five-point Gauss-Hermite grid (LFive) is such a noise for every shape, with a positive expectation. C125_case: fgn, H = 3/4, Haar, scales 1 to 3."
  },
  {
   "property": "C126",
   "status": "proved",
   "theorems": [
    "C126_fgn",
    "C126_fbm",
    "C126_case"
   ],
   "note": "C126_fgn, C126_fbm (hypothesis: proper wavelet, that is two filters of the same length with a tap each). They remove the hypothesis on the variance from C113 (C113_fgn_any, C113_fbm_any) and from C125 (C125_fgn_any, C125_fbm_any). db2, the wavelet of Daubechies with two vanishing moments, is shown proper, orthonormal and with two vanishing moments (proper_db2, db2_orthonormal, vanish_db2), so the theorems on general wavelets apply to another wavelet than Haar; C126_case uses it."
  },
  {
   "property": "C127",
   "status": "proved",
   "theorems": [
    "C127_tolerance",
    "C127_intercept",
    "C127_perturbation",
    "C127_scales",
    "C127_scales_perturbation"
   ],
   "note": "C127_tolerance (slope), C127_intercept, C127_scales (equal weights, consecutive scales), C127_perturbation and C127_scales_perturbation (two sets of ordinates). C127_case: three scales. Exact arithmetic, as C01-C04."
  },
  {
   "property": "C128",
   "status": "proved",
   "theorems": [
    "C128_intermittency",
    "C128_energy",
    "C128_consistent",
    "C128_case"
   ],
   "note": "C128_intermittency, C128_energy (explicit constants), C128_consistent (both log-cumulants within eps, with a number of scales that depends on c1, c2, eps only). The moments are expectations, not the averages of one draw: the convergence of these averages for a multifractal random walk is not claimed. C128_case: c1 = 5/8, c2 = -1/8, 126 scales give c2 within 1/50."
  },
  {
   "property": "C129",
   "status": "proved",
   "theorems": [
    "C129_energy",
    "C129_brownian",
    "C129_slope",
    "C129_case"
   ],
   "note": "C129_energy (explicit power brownian_power), C129_brownian (comparison with fbm), C129_slope (regressions). Holds for every wavelet, where C122 is about Haar; the condition 64 L ln L <= N makes the centring of the log-volatility negligible, as in C122. C129_case: db2."
  }
 ]
}