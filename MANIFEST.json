{
 "claims": [
  {
   "property": "C01",
   "status": "proved",
   "theorems": [
    "C01_fir_estimate",
    "C01_fir_returns"
   ],
   "note": "estimate for every call that returns; existence for valid arguments on both paths"
  },
  {
   "property": "C02",
   "status": "proved",
   "theorems": [
    "C02_fir_cov_exact",
    "C02_fir_var_exact",
    "C02_fir_lowpass_cascade"
   ],
   "note": "mean and covariance of every pair of independent finite-support distributions with the given moments; point-wise path; low-pass as cascade"
  },
  {
   "property": "C03",
   "status": "proved",
   "theorems": [
    "C03_fir_cov_psd"
   ],
   "note": "p.s.d. of the result from p.s.d. of the continued input covariance and of Utheta"
  },
  {
   "property": "C04",
   "status": "proved",
   "theorems": [
    "C04_fast_equals_general",
    "C04_pointwise_is_diagonal"
   ],
   "note": "efficient path equals root of diagonal of general path; general point-wise result is root of |diagonal|"
  },
  {
   "property": "C05",
   "status": "partial",
   "theorems": [
    "C05_shift_moves_both_refuted",
    "C05_efficient_path_refuted",
    "C05_shift_estimate_partial",
    "C05_covariance_partial",
    "C05_pointwise_partial",
    "C05_efficient_partial"
   ],
   "note": "REFUTED: general path rolls the covariance as a flattened array, efficient path ignores shift. Partial: the estimate of the general path is shifted circularly by -s; every entry of its covariance is the one 2s places later row by row, point-wise uncertainties accordingly; the efficient path does not depend on the shift"
  },
  {
   "property": "C06",
   "status": "partial",
   "theorems": [
    "C06_float_utheta_refuted",
    "C06_float_utheta_partial"
   ],
   "note": "REFUTED: float Utheta is used as a variance. Partial: it acts like standard uncertainties sqrt(u)"
  },
  {
   "property": "C07",
   "status": "partial",
   "theorems": [
    "C07_no_negative_variance_refuted",
    "C07_pointwise_noise_partial"
   ],
   "note": "REFUTED: stationary continuation of a p.s.d. covariance can be indefinite (variance -1). Partial: white/point-wise noise gives p.s.d. result"
  },
  {
   "property": "C08",
   "status": "proved",
   "theorems": [
    "C08_argument_table"
   ],
   "note": "decision table proved for all argument kinds of fitting shape"
  },
  {
   "property": "C09",
   "status": "proved",
   "theorems": [
    "C09_homogeneous_full",
    "C09_homogeneous_pointwise",
    "C09_homogeneous_filter"
   ],
   "note": "full covariance, point-wise, and filter scaling"
  },
  {
   "property": "C10",
   "status": "proved",
   "theorems": [
    "C10_causal_pointwise",
    "C10_causal_full"
   ],
   "note": "point-wise and full covariance for white or point-wise noise"
  },
  {
   "property": "C11",
   "status": "proved",
   "theorems": [
    "C11_numpy_modes",
    "C11_ndimage_modes",
    "C11_continuation_exists"
   ],
   "note": "three numpy modes and three ndimage modes, all lengths"
  },
  {
   "property": "C12",
   "status": "proved",
   "theorems": [
    "C12_numpy_cov_exact",
    "C12_ndimage_cov_exact"
   ],
   "note": "all six modes, any independent finite-support distributions with the given moments"
  },
  {
   "property": "C13",
   "status": "proved",
   "theorems": [
    "C13_convolution_commutes"
   ],
   "note": "three numpy modes, symmetric covariances"
  },
  {
   "property": "C14",
   "status": "proved",
   "theorems": [
    "C14_convolution_psd"
   ],
   "note": "all six modes"
  },
  {
   "property": "C15",
   "status": "partial",
   "theorems": [
    "C15_any_two_signals_refuted",
    "C15_length_one_always_fails",
    "C15_modes_partial"
   ],
   "note": "REFUTED: a kernel of length one raises ValueError in every mode. Partial: lengths >= 2 succeed, unknown modes raise ValueError"
  },
  {
   "property": "C16",
   "status": "partial",
   "theorems": [
    "C16_iir_returns_refuted",
    "C16_iir_never_returns"
   ],
   "note": "REFUTED: tf2ss is not defined in the module; no call returns (C16_iir_never_returns)"
  },
  {
   "property": "C17",
   "status": "proved",
   "theorems": [
    "C17_shift_moves_together",
    "C17_assertions",
    "C17_shift_composes"
   ],
   "note": "all shifts, all uncertainty kinds, composition, inverse, assertion failures"
  },
  {
   "property": "C18",
   "status": "proved",
   "theorems": [
    "C18_trimOrPad",
    "C18_modes",
    "C18_mode_errors",
    "C18_statistics_modes"
   ],
   "note": "all arrays, lengths and all padding modes of numpy.pad"
  },
  {
   "property": "C19",
   "status": "proved",
   "theorems": [
    "C19_semiposdef",
    "C19_not_square",
    "C19_dense_smallest_eigenvalue"
   ],
   "note": "exact eigenvalue routine as hypothesis; sparse storage from 8 x 8 on (smaller: C89)"
  },
  {
   "property": "C20",
   "status": "partial",
   "theorems": [
    "C20_maxiter_refuted",
    "C20_endless_refuted",
    "C20_maxiter_partial"
   ],
   "note": "REFUTED: the dense branch never counts (maxiter=1, two shifts). Partial: the sparse branch respects maxiter"
  },
  {
   "property": "C21",
   "status": "partial",
   "theorems": [
    "C21_means_refuted",
    "C21_means_partial",
    "C21_lengths_checked"
   ],
   "note": "REFUTED: np.mean without axis gives numbers, not vectors. Partial: mean and covariance asked for (a vector is taken as variances), the numbers are the overall means, covariance of the draws symmetric of size 2N; length checks"
  },
  {
   "property": "C22",
   "status": "proved",
   "theorems": [
    "C22_dft_estimate",
    "C22_dft_returns",
    "C22_dft_short_N_rejected"
   ],
   "note": "DFT of windowed, zero padded signal for every call that returns; existence; short N rejected"
  },
  {
   "property": "C23",
   "status": "proved",
   "theorems": [
    "C23_dft_cov_exact"
   ],
   "note": "covariance of the DFT for every finite-support distribution with covariance Ux; scalar, vector, matrix, window, padding"
  },
  {
   "property": "C24",
   "status": "proved",
   "theorems": [
    "C24_scalar_variance_lossless"
   ],
   "note": "off-diagonal covariances are exactly zero, so the vector form is lossless"
  },
  {
   "property": "C25",
   "status": "partial",
   "theorems": [
    "C25_window_vector_refuted",
    "C25_window_vector_always_fails",
    "C25_window_diagonal_partial"
   ],
   "note": "REFUTED: window with 1D Ux raises IndexError (always). Partial: the diagonal matrix is accepted and exact"
  },
  {
   "property": "C26",
   "status": "partial",
   "theorems": [
    "C26_odd_length_refuted",
    "C26_odd_length_always_short",
    "C26_even_length_partial",
    "C26_rejects"
   ],
   "note": "REFUTED: signals of odd length come back one sample short (every odd n>=3) and asking for n samples raises ValueError. Partial: even lengths are recovered"
  },
  {
   "property": "C27",
   "status": "proved",
   "theorems": [
    "C27_idft_variances_exact"
   ],
   "note": "variances and symmetrised covariances for all distributions, all Nx"
  },
  {
   "property": "C28",
   "status": "partial",
   "theorems": [
    "C28_idft_symmetric_refuted",
    "C28_uncorrelated_parts_partial",
    "C28_round_trip_partial"
   ],
   "note": "REFUTED: 2*Cc RI Cs^T is not symmetric; round trip of variances (0,1,0,0) gives V13-V31=-1. Partial: exact without covariance between real and imaginary parts; symmetric part of the round trip is Ux"
  },
  {
   "property": "C29",
   "status": "proved",
   "theorems": [
    "C29_amp_phase_exact"
   ],
   "note": "every branch of the phase, vector and matrix, dense and sparse storage"
  },
  {
   "property": "C30",
   "status": "proved",
   "theorems": [
    "C30_real_imag_exact",
    "C30_shape_errors"
   ],
   "note": "vector and dense matrix"
  },
  {
   "property": "C31",
   "status": "proved",
   "theorems": [
    "C31_round_trip"
   ],
   "note": "dense storage, vector or matrix UF (sparse storage: see C32)"
  },
  {
   "property": "C32",
   "status": "partial",
   "theorems": [
    "C32_sparse_equals_dense_refuted",
    "C32_sparse_round_trip_refuted",
    "C32_sparse_error_partial"
   ],
   "note": "REFUTED: line 676 uses CIA instead of CIP; also on matrices returned by DFT2AmpPhase. Partial: exact size of the error, all other entries agree"
  },
  {
   "property": "C33",
   "status": "proved",
   "theorems": [
    "C33_amp_phase_to_time",
    "C33_rejected",
    "C33_not_square"
   ],
   "note": "estimate, variances, symmetrised covariances; lengths that do not fit are rejected"
  },
  {
   "property": "C34",
   "status": "partial",
   "theorems": [
    "C34_symmetric_refuted",
    "C34_uncorrelated_partial"
   ],
   "note": "REFUTED: same asymmetry as C28. Partial: exact and symmetric without amplitude/phase covariance"
  },
  {
   "property": "C35",
   "status": "proved",
   "theorems": [
    "C35_multi_rowwise",
    "C35_number_of_variances_checked",
    "C35_selector"
   ],
   "note": "rows of equal length; also numbers of variances and selected lines that do not exist"
  },
  {
   "property": "C36",
   "status": "proved",
   "theorems": [
    "C36_deconv_inverts_multiply"
   ],
   "note": "estimate for any UH; also the covariance when H is exactly known"
  },
  {
   "property": "C37",
   "status": "partial",
   "theorems": [
    "C37_deconv_jacobian_refuted",
    "C37_deconv_partial",
    "C37_deconv_sparse_UH_fails",
    "C37_deconv_shape_errors"
   ],
   "note": "REFUTED: line 1007 has iH*iH**2 instead of iY*iH**2 (variance 1 instead of 4). Partial: estimate, contribution of UY, imaginary block, and everything when iH=0 or iY=iH on every line"
  },
  {
   "property": "C38",
   "status": "proved",
   "theorems": [
    "C38_multiply_exact",
    "C38_length_errors"
   ],
   "note": "full matrices, UF optional"
  },
  {
   "property": "C39",
   "status": "partial",
   "theorems": [
    "C39_vector_variances_refuted",
    "C39_vector_and_matrix_refuted",
    "C39_vector_two_rows_partial",
    "C39_two_vectors_partial",
    "C39_vector_and_matrix_partial",
    "C39_number_partial"
   ],
   "note": "REFUTED: two rows instead of 2M, and broadcast over all rows in combination with a full UF. Partial: the two rows hold the true variances and same-line covariances; also with variances for both factors, and a number as UY or UF"
  },
  {
   "property": "C40",
   "status": "proved",
   "theorems": [
    "C40_linear_law",
    "C40_linear_returns"
   ],
   "note": "every call that returns; any distribution with uncorrelated nodes; calls with points inside always return"
  },
  {
   "property": "C41",
   "status": "proved",
   "theorems": [
    "C41_sensitivities",
    "C41_same_with_and_without"
   ],
   "note": "also outside the range when extrapolating; returnC=False gives the same"
  },
  {
   "property": "C42",
   "status": "proved",
   "theorems": [
    "C42_linear_at_node",
    "C42_linear_bounds",
    "C42_lookup_kinds"
   ],
   "note": ""
  },
  {
   "property": "C43",
   "status": "proved",
   "theorems": [
    "C43_out_of_range_rejected",
    "C43_other_kinds",
    "C43_fill_values",
    "C43_inside_unaffected"
   ],
   "note": "all kinds; n>=2 for in-range uncertainties of the linear kind (C91); int fill_unc: C90"
  },
  {
   "property": "C44",
   "status": "partial",
   "theorems": [
    "C44_extrapolate_alone_refuted",
    "C44_extrapolate_with_bounds_error_partial"
   ],
   "note": "REFUTED: bounds_error stays None and scipy raises ValueError. Partial: with bounds_error=False in addition"
  },
  {
   "property": "C45",
   "status": "proved",
   "theorems": [
    "C45_order_irrelevant",
    "C45_equals_sorted"
   ],
   "note": "all permutations, all kinds and options"
  },
  {
   "property": "C46",
   "status": "partial",
   "theorems": [
    "C46_length_checked_refuted",
    "C46_length_checked_partial"
   ],
   "note": "REFUTED: assume_sorted=False drops superfluous entries of uy before the check. Partial: checked for sorted data; missing entries always raise"
  },
  {
   "property": "C47",
   "status": "proved",
   "theorems": [
    "C47_never_leaves_range",
    "C47_equidistant",
    "C47_no_extent"
   ],
   "note": "exact arithmetic, and any non-decreasing grid for the claim that the range is not left"
  },
  {
   "property": "C48",
   "status": "proved",
   "theorems": [
    "C48_mean",
    "C48_returns",
    "C48_degenerate"
   ],
   "note": "any blocksize, any permutation of the results of a block; the number of runs is rounded up to full blocks (C50); exceptions for no draws, blocksize 0, runs 0"
  },
  {
   "property": "C49",
   "status": "partial",
   "theorems": [
    "C49_sample_covariance_refuted",
    "C49_covariance_error_partial",
    "C49_small_blocks_partial"
   ],
   "note": "REFUTED: the scatter matrix of the first block is not normalised (one block 0,1,2: 2 instead of 1). Partial: exact size of the error for all partitions; exact for blocksize 1 (two runs or more) and 2"
  },
  {
   "property": "C50",
   "status": "partial",
   "theorems": [
    "C50_requested_runs_refuted",
    "C50_multiples_partial"
   ],
   "note": "REFUTED: runs=3, blocksize=2 evaluates 4 samples, and return_samples raises ValueError. Partial: runs a multiple of blocksize"
  },
  {
   "property": "C51",
   "status": "partial",
   "theorems": [
    "C51_histogram_partial",
    "C51_every_sample_refuted"
   ],
   "note": "REFUTED: results above the initial maximum are dropped and lie beyond the last edge (np.min in line 740). Partial: exact content of the histogram, edges non-decreasing, first edge below everything"
  },
  {
   "property": "C52",
   "status": "partial",
   "theorems": [
    "C52_pairing_refuted",
    "C52_serial_partial"
   ],
   "note": "REFUTED: imap_unordered may deliver another order. Partial: n_cpu=1"
  },
  {
   "property": "C53",
   "status": "partial",
   "theorems": [
    "C53_nbins_refuted",
    "C53_hundred_bins_partial",
    "C53_no_bins_partial"
   ],
   "note": "REFUTED: nbins is not passed on; always 100 bins, further rows of bounds stay 0. Partial: exactly that, for all calls"
  },
  {
   "property": "C54",
   "status": "proved",
   "theorems": [
    "C54_quantile",
    "C54_no_counts",
    "C54_bounds_ordered"
   ],
   "note": "for every histogram with nonnegative counts and non-decreasing edges, and for every result of UMC; no counted sample: NaN; credibility outside [0,1]: ValueError"
  },
  {
   "property": "C55",
   "status": "proved",
   "theorems": [
    "C55_stable_draws",
    "C55_unstable_no_influence",
    "C55_errors",
    "C55_sizes"
   ],
   "note": "any stability verdict; both forms of the result, with the special cases of np.cov for one draw and one sample; low-pass; exceptions; covariance matrix of the signal positive definite (see C124)"
  },
  {
   "property": "C56",
   "status": "partial",
   "theorems": [
    "C56_opposite_partial",
    "C56_same_direction_refuted"
   ],
   "note": "REFUTED: MC rolls by +shift, FIRuncFilter by -shift. Partial: MC with shift s equals FIRuncFilter with shift -s for signals starting with 0"
  },
  {
   "property": "C57",
   "status": "partial",
   "theorems": [
    "C57_never_returns",
    "C57_smc_refuted",
    "C57_empty_partial"
   ],
   "note": "REFUTED: every call with a non-empty signal raises IndexError or ValueError. Partial: only the empty signal returns"
  },
  {
   "property": "C58",
   "status": "proved",
   "theorems": [
    "C58_broadcast"
   ],
   "note": ""
  },
  {
   "property": "C59",
   "status": "partial",
   "theorems": [
    "C59_arma_refuted",
    "C59_ma_refuted",
    "C59_first_order_partial",
    "C59_reversed_partial",
    "C59_palindromic_partial"
   ],
   "note": "REFUTED: coefficients are applied in reversed order, wrong from order 2 on. Partial: order <= 1 for all n; any order past the start with reversed coefficients; palindromic coefficients"
  },
  {
   "property": "C60",
   "status": "proved",
   "theorems": [
    "C60_mean_std",
    "C60_returns",
    "C60_white",
    "C60_errors"
   ],
   "note": "exact mean, standard deviation, length; succeeds exactly for non-constant input; white gives the standardised input; exceptions"
  },
  {
   "property": "C61",
   "status": "proved",
   "theorems": [
    "C61_digital",
    "C61_unknown_type"
   ],
   "note": "root finder assumed exact"
  },
  {
   "property": "C62",
   "status": "partial",
   "theorems": [
    "C62_analog_refuted",
    "C62_unstable_refuted",
    "C62_analog_partial"
   ],
   "note": "REFUTED: the analog verdict is inverted. Partial: True exactly if no root has negative real part"
  },
  {
   "property": "C63",
   "status": "proved",
   "theorems": [
    "C63_mapinside",
    "C63_roots",
    "C63_real",
    "C63_magnitude"
   ],
   "note": "also: real coefficients, magnitude on the unit circle kept up to a constant factor"
  },
  {
   "property": "C64",
   "status": "proved",
   "theorems": [
    "C64_rect",
    "C64_noise"
   ],
   "note": "including the noise branches"
  },
  {
   "property": "C65",
   "status": "proved",
   "theorems": [
    "C65_pulse",
    "C65_width"
   ],
   "note": "also strictly decreasing with the distance from t0; height m0/sqrt(e) at the distance sigma"
  },
  {
   "property": "C66",
   "status": "partial",
   "theorems": [
    "C66_location_refuted",
    "C66_extrema_partial"
   ],
   "note": "REFUTED: the maximum is at t0 - sigma and the value at t0 is 0. Partial: bound m0 and all extrema"
  },
  {
   "property": "C67",
   "status": "partial",
   "theorems": [
    "C67_sine_refuted",
    "C67_multi_sine_refuted",
    "C67_period_partial",
    "C67_multi_sine_angular_partial"
   ],
   "note": "REFUTED: freq acts as the period in sine and as angular frequency in multi_sine. Partial: the actual laws"
  },
  {
   "property": "C68",
   "status": "partial",
   "theorems": [
    "C68_covariance_refuted",
    "C68_moving_average_partial",
    "C68_noise_partial"
   ],
   "note": "REFUTED: calc_noise realises binom(4,l)(1-w)^l w^(4-l) instead of binom(4,l) w^l. Partial: calc_cov is a valid covariance (that of the intended moving average), agreement for w = 0"
  },
  {
   "property": "C69",
   "status": "partial",
   "theorems": [
    "C69_offset_refuted",
    "C69_from_zero_partial",
    "C69_empty_partial"
   ],
   "note": "REFUTED: pulses are placed relative to time 0. Partial: exact for time[0] = 0, values 0 or height always"
  },
  {
   "property": "C70",
   "status": "proved",
   "theorems": [
    "C70_same_system",
    "C70_columns",
    "C70_gain",
    "C70_physical"
   ],
   "note": ""
  },
  {
   "property": "C71",
   "status": "proved",
   "theorems": [
    "C71_least_squares",
    "C71_exact_inverse",
    "C71_enough_frequencies",
    "C71_mismatch",
    "C71_unc_least_squares",
    "C71_unc_exact_inverse",
    "C71_single_response"
   ],
   "note": "least squares solver / SVD assumed exact (finite-dimensional contract); also least squares optimality, enough distinct interior frequencies, invLSFIR_unc estimate, length mismatch, one response value for all frequencies"
  },
  {
   "property": "C72",
   "status": "partial",
   "theorems": [
    "C72_inverts_partial",
    "C72_fits_response_refuted"
   ],
   "note": "REFUTED: LSFIR is the same code as invLSFIR and fits the reciprocal. Partial: it returns the exact inverse filter"
  },
  {
   "property": "C73",
   "status": "partial",
   "theorems": [
    "C73_weighted_fit_partial",
    "C73_constant_weight_partial",
    "C73_weights_refuted",
    "C73_matrix_raises",
    "C73_matrix_refuted",
    "C73_unc_weights_raise",
    "C73_unc_weights_refuted",
    "C73_weight_lengths",
    "C73_weight_matrix_size"
   ],
   "note": "REFUTED: weights multiply the design matrix only (a constant weight q gives h/q); weight matrices raise LinAlgError for len(f) <> 1; invLSFIR_unc raises ValueError for every weighting. Partial: the criterion actually minimised; weights of a wrong length raise ValueError"
  },
  {
   "property": "C74",
   "status": "partial",
   "theorems": [
    "C74_conjugate_partial",
    "C74_no_uncertainty_partial",
    "C74_covariance_refuted"
   ],
   "note": "REFUTED: the draws are reciprocals of the conjugate response, the covariance has the wrong sign of the correlations. Partial: covariance of the fits to the conjugates; zero for zero uncertainty"
  },
  {
   "property": "C75",
   "status": "partial",
   "theorems": [
    "C75_LSIIR_loop_partial",
    "C75_invLSIIR_loop_partial",
    "C75_integer_delay",
    "C75_delay_refuted",
    "C75_justfit_delay_refuted",
    "C75_mismatch",
    "C75_terminates"
   ],
   "note": "REFUTED: invLSIIR/LSIIR return int(tau), LSIIR with justFit returns 0. Partial: at most 50 fits, early stop only with stable filter, delay = int of the one used; exact for integer tau; termination"
  },
  {
   "property": "C76",
   "status": "proved",
   "theorems": [
    "C76_exact",
    "C76_with_uncertainty",
    "C76_monte_carlo",
    "C76_rejects"
   ],
   "note": "numpy.linalg.solve/inv assumed exact; weightings None, other string, array; linear propagation also diag; Monte Carlo with vanishing uncertainty; rejected arguments"
  },
  {
   "property": "C77",
   "status": "partial",
   "theorems": [
    "C77_jacobian_partial",
    "C77_delta_refuted"
   ],
   "note": "REFUTED: the derivatives of the damping use |mu0+mu2| instead of |mu0 mu2| (variance 1/4 instead of 1/2 in the witness, the Monte Carlo path gives 1/2). Partial: rows and columns of S0 and f0"
  },
  {
   "property": "C78",
   "status": "partial",
   "theorems": [
    "C78_cube_partial",
    "C78_derived_time_base_partial",
    "C78_equidistant_partial",
    "C78_given_interval_partial",
    "C78_pointwise_partial",
    "C78_rejects",
    "C78_consistent_refuted"
   ],
   "note": "REFUTED: Fs alone, Fs with matching Ts, or an integer Ts leave Fs (and Ts) without value; a Ts contradicting the time axis and a covariance of another size are accepted; one value with one uncertainty raises IndexError. Partial: derived and given Ts, point-wise uncertainties; rejected arguments"
  },
  {
   "property": "C79",
   "status": "partial",
   "theorems": [
    "C79_autocovariance_partial",
    "C79_pointwise_refuted"
   ],
   "note": "REFUTED: the point-wise uncertainties are handed to FIRuncFilter as an autocovariance (kind corr): the identity filter turns 2 into sqrt 2. Partial: exact propagation for a signal with this autocovariance"
  },
  {
   "property": "C80",
   "status": "partial",
   "theorems": [
    "C80_scalar_variance_partial",
    "C80_fir_partial",
    "C80_iir_partial",
    "C80_iir_runs_unchanged_partial",
    "C80_applied_refuted",
    "C80_raises"
   ],
   "note": "REFUTED: an IIR filter together with MonteCarloRuns leaves the signal unchanged. Partial: FIR values; IIR without runs gives mean and covariance of the simulated outputs; remaining combinations raise"
  },
  {
   "property": "C81",
   "status": "partial",
   "theorems": [
    "C81_vector_utheta_refuted",
    "C81_diagonal_utheta_partial"
   ],
   "note": "REFUTED: ValueError on the general path. Partial: the corresponding diagonal matrix is accepted"
  },
  {
   "property": "C82",
   "status": "partial",
   "theorems": [
    "C82_integer_arrays_refuted",
    "C82_full_result_partial"
   ],
   "note": "REFUTED: np.full_like truncates the variance for integer y. Partial: the full covariance does not depend on the element type"
  },
  {
   "property": "C83",
   "status": "proved",
   "theorems": [
    "C83_mask_selects_lines",
    "C83_mask_length_checked"
   ],
   "note": ""
  },
  {
   "property": "C84",
   "status": "proved",
   "theorems": [
    "C84_reuse_sensitivities"
   ],
   "note": "including windows, masks, padding, exceptions"
  },
  {
   "property": "C85",
   "status": "proved",
   "theorems": [
    "C85_amp_phase_psd",
    "C85_real_imag_psd",
    "C85_multiply_psd",
    "C85_deconv_psd",
    "C85_dft_psd"
   ],
   "note": "one theorem per function; amplitudes and denominators different from zero"
  },
  {
   "property": "C86",
   "status": "proved",
   "theorems": [
    "C86_frequencies_of_lines",
    "C86_refused"
   ],
   "note": ""
  },
  {
   "property": "C87",
   "status": "proved",
   "theorems": [
    "C87_time_to_amp_phase"
   ],
   "note": "chain rule through the DFT, any branch of the phase"
  },
  {
   "property": "C88",
   "status": "proved",
   "theorems": [
    "C88_progress_bar",
    "C88_no_iterations"
   ],
   "note": ""
  },
  {
   "property": "C89",
   "status": "partial",
   "theorems": [
    "C89_sparse_any_size_refuted",
    "C89_small_sparse_always_fails",
    "C89_large_sparse_partial"
   ],
   "note": "REFUTED: eigs with k=6 raises TypeError for sizes up to 7. Partial: from 8 x 8 on dense and sparse agree up to the multiple of the identity"
  },
  {
   "property": "C90",
   "status": "partial",
   "theorems": [
    "C90_int_fill_unc_refuted",
    "C90_int_fill_partial"
   ],
   "note": "REFUTED: TypeError for int fill_unc with the linear kind. Partial: the look-up kinds, and fill_value for all kinds"
  },
  {
   "property": "C91",
   "status": "partial",
   "theorems": [
    "C91_single_point_refuted",
    "C91_single_point_partial"
   ],
   "note": "REFUTED: NaN uncertainty for the linear kind. Partial: look-up kinds"
  },
  {
   "property": "C92",
   "status": "proved",
   "theorems": [
    "C92_lfilter",
    "C92_evaluate",
    "C92_umc",
    "C92_empty_lowpass"
   ],
   "note": "ARMA noise and uniform draws are arguments"
  },
  {
   "property": "C98",
   "status": "partial",
   "theorems": [
    "C98_spectrum_refuted",
    "C98_actual_law_partial"
   ],
   "note": "REFUTED: linspace(0,steps,steps)+1 is not 1,2,3,...  Partial: the spectrum follows (k*steps/(steps-1)+1)^(alpha/2)"
  },
  {
   "property": "C99",
   "status": "proved",
   "theorems": [
    "C99_acf",
    "C99_errors"
   ],
   "note": ""
  },
  {
   "property": "C100",
   "status": "proved",
   "theorems": [
    "C100_realimag",
    "C100_returns"
   ],
   "note": "randn values are arguments"
  },
  {
   "property": "C101",
   "status": "partial",
   "theorems": [
    "C101_calc_noise2_refuted",
    "C101_always_fails_partial"
   ],
   "note": "REFUTED: np.ceil returns a float, randn rejects it. Partial: every call raises"
  },
  {
   "property": "C93",
   "status": "partial",
   "theorems": [
    "C93_group_delay_partial",
    "C93_frequencies",
    "C93_long_filter_refuted"
   ],
   "note": "REFUTED: filters with more than 2 nfft combined coefficients are silently cut. Partial: exact otherwise (bins with |B||A| < 1e-12 give -(len(a)-1))"
  },
  {
   "property": "C94",
   "status": "proved",
   "theorems": [
    "C94_polynomials",
    "C94_pderiv",
    "C94_least_squares",
    "C94_shape",
    "C94_index_error",
    "C94_rising_lines"
   ],
   "note": "pinv assumed to be a left inverse / to fulfil the normal equations"
  },
  {
   "property": "C95",
   "status": "partial",
   "theorems": [
    "C95_linearity_refuted",
    "C95_interior_linear_partial",
    "C95_scale_shift_partial"
   ],
   "note": "REFUTED: edge padding takes absolute values. Partial: linear in the interior, commutes with non-negative scaling and shifts everywhere"
  },
  {
   "property": "C96",
   "status": "partial",
   "theorems": [
    "C96_delay_partial",
    "C96_rate_partial",
    "C96_shift_refuted"
   ],
   "note": "REFUTED: shift = L/2 is half a sample too much and never an integer. Partial: the delay is shift - 1/2; length, cutoff and errors passed on to firwin"
  },
  {
   "property": "C97",
   "status": "partial",
   "theorems": [
    "C97_impulse_invariance_partial",
    "C97_complex_residues_refuted",
    "C97_zero_start_refuted",
    "C97_repeated_poles",
    "C97_direct_part",
    "C97_simple_poles_partial",
    "C97_iff_partial",
    "C97_advance_partial"
   ],
   "note": "REFUTED: complex residues (to_real), responses with h(0)=0 (invres drops the constant, result is one sample early); repeated poles raise. Partial: for distinct poles and k = sum |r| sign(Re r) <> 0 the exact response, impulse invariant if and only if k = h(0); advanced by one sample if k = h(0) = 0"
  },
  {
   "property": "C102",
   "status": "partial",
   "theorems": [
    "C102_marginal_refuted",
    "C102_strictly_inside_partial"
   ],
   "note": "REFUTED: poles on the unit circle are accepted. Partial: bounded outputs if all poles are strictly inside"
  },
  {
   "property": "C103",
   "status": "proved",
   "theorems": [
    "C103_angle",
    "C103_jumps",
    "C103_recovers"
   ],
   "note": ""
  },
  {
   "property": "C104",
   "status": "proved",
   "theorems": [
    "C104_causal"
   ],
   "note": ""
  },
  {
   "property": "C105",
   "status": "proved",
   "theorems": [
    "C105_mean_and_covariance_of_fits",
    "C105_no_uncertainty",
    "C105_rejects"
   ],
   "note": "draws nonzero, least squares solver exact; also rejected arguments"
  },
  {
   "property": "C106",
   "status": "proved",
   "theorems": [
    "C106_response_lengths",
    "C106_least_squares",
    "C106_inverse_least_squares",
    "C106_exact_recovery",
    "C106_inverse_exact_recovery"
   ],
   "note": "least squares solver assumed exact; also one response value for all frequencies and rejected lengths"
  },
  {
   "property": "C107",
   "status": "proved",
   "theorems": [
    "C107_mean_and_covariance",
    "C107_no_uncertainty",
    "C107_shape"
   ],
   "note": "least squares solver assumed exact, draws are arguments; wrong shape of UH"
  },
  {
   "property": "C108",
   "status": "partial",
   "theorems": [
    "C108_negative_gain_partial",
    "C108_negative_gain_refuted"
   ],
   "note": "REFUTED: the damping has the wrong sign for S0 < 0. Partial: (S0, sign(S0) delta, f0) is returned"
  },
  {
   "property": "C109",
   "status": "proved",
   "theorems": [
    "C109_least_squares",
    "C109_linear_propagation",
    "C109_monte_carlo"
   ],
   "note": "numpy.linalg.solve/inv assumed exact; full covariance weighting cov is not covered"
  },
  {
   "property": "C110",
   "status": "partial",
   "theorems": [
    "C110_divides_partial",
    "C110_weights_refuted"
   ],
   "note": "REFUTED: the weights act as variances (the deviations are divided by them). Partial: what is minimised"
  },
  {
   "property": "C111",
   "status": "partial",
   "theorems": [
    "C111_normalised_partial",
    "C111_pulse_partial",
    "C111_denominator_refuted",
    "C111_UMC_refuted"
   ],
   "note": "REFUTED: a[0] is dropped and replaced by 1, by MC and by UMC. Partial: a[0] = 1; for a[0] <> 1 the response to a pulse is always wrong"
  },
  {
   "property": "C112",
   "status": "proved",
   "theorems": [
    "C112_truncated"
   ],
   "note": "singular value decomposition assumed exact"
  },
  {
   "property": "C113",
   "status": "partial",
   "theorems": [
    "C113_array_partial",
    "C113_array_refuted",
    "C113_order_partial",
    "C113_estimate_partial",
    "C113_noise_refuted",
    "C113_coefficients_refuted",
    "C113_alias_refuted",
    "C113_alias_partial",
    "C113_noise_partial"
   ],
   "note": "REFUTED: even with tf2ss, an ndarray as Uab and every order other than one raise; the noise variance is counted twice, the uncertainty of b_0 is ignored at the first sample, the sensitivity to a_1 is that of the next sample. Partial: the output is the filter response whenever a call returns; formulas of what is reported for noise and for a_1"
  },
  {
   "property": "C114",
   "status": "partial",
   "theorems": [
    "C114_absphase_partial",
    "C114_order_refuted"
   ],
   "note": "REFUTED: the phases are unwrapped from run to run, so that the covariance depends on the order of the draws. Partial: correct if the phases of the draws differ by less than pi"
  },
  {
   "property": "C115",
   "status": "proved",
   "theorems": [
    "C115_decibel",
    "C115_product"
   ],
   "note": ""
  },
  {
   "property": "C116",
   "status": "proved",
   "theorems": [
    "C116_vector",
    "C116_matrix"
   ],
   "note": "number format is an argument"
  },
  {
   "property": "C117",
   "status": "proved",
   "theorems": [
    "C117_deconvolution_fir",
    "C117_deconvolution_iir",
    "C117_identification"
   ],
   "note": "least squares solver, SVD, solve assumed exact, draws are arguments"
  },
  {
   "property": "C118",
   "status": "proved",
   "theorems": [
    "C118_recovers_system",
    "C118_quotient",
    "C118_errors"
   ],
   "note": "covariance for exactly known X only; the part due to UX is subject to C37"
  },
  {
   "property": "C119",
   "status": "partial",
   "theorems": [
    "C119_multi_sine_refuted",
    "C119_multi_sine_partial",
    "C119_std_partial",
    "C119_negative_partial"
   ],
   "note": "REFUTED: multi_sine scales the noise by noise**2. Partial: correct for the other five signals; multi_sine has standard deviation noise**2"
  },
  {
   "property": "C120",
   "status": "partial",
   "theorems": [
    "C120_float_partial",
    "C120_real_imag_refuted",
    "C120_amp_phase_refuted",
    "C120_multiply_refuted",
    "C120_window_refuted",
    "C120_integers_partial",
    "C120_error_partial"
   ],
   "note": "REFUTED: products are truncated to integers: variance 0 instead of 1 (AmpPhase2DFT, DFT2AmpPhase), 0 instead of 1/4 (DFT_multiply), 0 instead of 1/2 (window). Partial: float matrices; exact for integer sensitivities; error at most 6 + 2 max|A| per entry of AmpPhase2DFT"
  },
  {
   "property": "C121",
   "status": "partial",
   "theorems": [
    "C121_main_diagonal_refuted",
    "C121_main_diagonal_fails_partial",
    "C121_sorted_refuted",
    "C121_sorted_dft_refuted",
    "C121_own_order_partial",
    "C121_sorted_partial",
    "C121_sizes_partial"
   ],
   "note": "REFUTED: sparse.diags(variances) always raises IndexError; sparse.dia_matrix(array) makes AmpPhase2Time take covariances for variances (1/4 instead of 1/2) and AmpPhase2DFT raise ValueError. Partial: storage order main, upper, lower; sizes that do not fit are rejected alike"
  },
  {
   "property": "C122",
   "status": "partial",
   "theorems": [
    "C122_integer_time_refuted",
    "C122_kinds_partial"
   ],
   "note": "REFUTED: squarepulse (with a pulse or noise) and multi_sine raise TypeError for integer time instants. Partial: float instants; always TypeError with pulses or noise"
  },
  {
   "property": "C123",
   "status": "proved",
   "theorems": [
    "C123_autocorr",
    "C123_periodic",
    "C123_no_noise"
   ],
   "note": ""
  },
  {
   "property": "C124",
   "status": "partial",
   "theorems": [
    "C124_definite_partial",
    "C124_singular_partial",
    "C124_indefinite_partial",
    "C124_one_sample_partial",
    "C124_accepted_refuted"
   ],
   "note": "REFUTED: every singular covariance matrix raises LinAlgError; a single sample with a covariance matrix raises ValueError. Partial: definite matrices of two samples or more are accepted, others are rejected with ValueError"
  },
  {
   "property": "C125",
   "status": "partial",
   "theorems": [
    "C125_matrix_partial",
    "C125_single_partial",
    "C125_single_refuted",
    "C125_som_partial",
    "C125_som_refuted",
    "C125_freqresp_partial",
    "C125_freqresp_refuted"
   ],
   "note": "REFUTED: for one (stable) run np.cov takes the single row for the observations: MC returns the variance over time, fit_som the variance over (S0, delta, f0), FreqResp2RealImag the variance over all real and imaginary parts, as one number (1/2, more than 1/2, 1/2 for exactly known inputs). Partial: covariance matrix for two runs or more; the value returned for one"
  },
  {
   "property": "C126",
   "status": "partial",
   "theorems": [
    "C126_only_w_partial",
    "C126_both_partial",
    "C126_ignored_refuted"
   ],
   "note": "REFUTED: N together with w raises UserWarning, also for N = len(w). Partial: w alone is used as it is"
  },
  {
   "property": "C127",
   "status": "partial",
   "theorems": [
    "C127_interp_partial",
    "C127_linear_partial",
    "C127_interp_refuted",
    "C127_matrices_partial",
    "C127_matrices_refuted"
   ],
   "note": "REFUTED: a list t_new raises TypeError for the linear kind as soon as one point lies within the range of the data; lists always raise AttributeError in make_semiposdef, print_mat, FreqResp2RealImag. Partial: kinds previous, next, nearest; linear kind outside the range"
  },
  {
   "property": "C128",
   "status": "proved",
   "theorems": [
    "C128_superposition",
    "C128_superposition_of_filters",
    "C128_uncertainty_without_signal",
    "C128_pointwise_without_signal"
   ],
   "note": "estimate for all options; uncertainty with known coefficients, full covariance with any noise and low-pass, standard deviations for pointwise noise"
  },
  {
   "property": "C129",
   "status": "proved",
   "theorems": [
    "C129_time_invariant_full",
    "C129_time_invariant_pointwise"
   ],
   "note": "full covariance for stationary noise (float, corr), standard deviations for pointwise noise; coefficients with any covariance"
  },
  {
   "property": "C130",
   "status": "proved",
   "theorems": [
    "C130_fir_full",
    "C130_fir_pointwise",
    "C130_convolution",
    "C130_interpolation",
    "C130_dft",
    "C130_idft",
    "C130_amp_phase",
    "C130_real_imag",
    "C130_multiply",
    "C130_deconv"
   ],
   "note": "order of semidefinite matrices, hence also of all variances; FIRuncFilter full covariance and standard deviations; interpolation inside the range; amplitudes and denominators different from zero"
  },
  {
   "property": "C131",
   "status": "proved",
   "theorems": [
    "C131_fir_full",
    "C131_fir_pointwise",
    "C131_convolution",
    "C131_interpolation",
    "C131_dft",
    "C131_idft",
    "C131_amp_phase",
    "C131_real_imag",
    "C131_multiply",
    "C131_deconv"
   ],
   "note": "all listed functions; interpolation inside the range; amplitudes and denominators different from zero"
  },
  {
   "property": "C132",
   "status": "proved",
   "theorems": [
    "C132_units"
   ],
   "note": "equality of the complete result including error cases; axis increasing (unsorted axes: C45), two nodes or more for the linear kind (one node: C91), integer fill values excluded (C90)"
  },
  {
   "property": "C133",
   "status": "proved",
   "theorems": [
    "C133_dft",
    "C133_idft",
    "C133_amp_phase",
    "C133_real_imag",
    "C133_multiply"
   ],
   "note": "covariance entry by entry; DFT2AmpPhase for c > 0 and non-zero amplitudes; AmpPhase2DFT with a full covariance matrix"
  },
  {
   "property": "C134",
   "status": "partial",
   "theorems": [
    "C134_deconv_units_refuted",
    "C134_exact_system_partial"
   ],
   "note": "REFUTED: Y in other units with an uncertain transfer function (line 1007 adds iH^3 where iY iH^2 is meant, C37). Partial: holds for an exactly known transfer function"
  },
  {
   "property": "C135",
   "status": "partial",
   "theorems": [
    "C135_odd_length_always_short",
    "C135_odd_length_refuted",
    "C135_even_length_partial"
   ],
   "note": "REFUTED: for an odd number n >= 3 of samples the returned signal has n-1 samples. Partial: for even lengths without vanishing spectral lines the signal, its variances and the symmetrised covariance are recovered"
  },
  {
   "property": "C136",
   "status": "proved",
   "theorems": [
    "C136_nested"
   ],
   "note": "elements with at least one counted sample (others have no bounds: C54)"
  },
  {
   "property": "C137",
   "status": "proved",
   "theorems": [
    "C137_unbiased"
   ],
   "note": "all draws stable, two runs or more, two samples or more; distributions with finitely many outcomes, draws pairwise independent"
  },
  {
   "property": "C138",
   "status": "partial",
   "theorems": [
    "C138_expectations_partial",
    "C138_unbiased_refuted"
   ],
   "note": "REFUTED: the expected covariance is too large by the factor 1 + (bs-1)(bs-2)/(B bs - 1) for B blocks of size bs (consequence of C49). Partial: the factor for every block size; mean unbiased"
  },
  {
   "property": "C139",
   "status": "proved",
   "theorems": [
    "C139_fir",
    "C139_iir"
   ],
   "note": "equality of the complete results including errors; least squares, roots, SVD and random numbers as oracles"
  },
  {
   "property": "C140",
   "status": "partial",
   "theorems": [
    "C140_estimate_partial",
    "C140_monte_carlo_partial",
    "C140_linear_partial",
    "C140_damping_refuted"
   ],
   "note": "REFUTED: doubling all frequencies changes the variance of the (dimensionless) damping from 1/4 to 1/10 in the linear propagation (mu_0 + mu_2 is added in lines 153-168, quantities of different dimension). Partial: estimates; mean and covariance of Monte Carlo; covariances of gain and resonance frequency"
  },
  {
   "property": "C141",
   "status": "proved",
   "theorems": [
    "C141_fir",
    "C141_iir",
    "C141_som",
    "C141_sos",
    "C141_freqresp"
   ],
   "note": "two runs or more; distributions with finitely many outcomes, draws pairwise independent; least squares solver, roots and SVD as oracles"
  },
  {
   "property": "C142",
   "status": "partial",
   "theorems": [
    "C142_all_but_last_partial",
    "C142_unchanged_refuted"
   ],
   "note": "REFUTED: in exact arithmetic np.arange(min, max, dt) excludes the end, the last sample is lost. Partial: all other samples come back with value and uncertainty"
  },
  {
   "property": "C143",
   "status": "partial",
   "theorems": [
    "C143_past_transient_partial",
    "C143_transient_refuted"
   ],
   "note": "REFUTED: in the transient (first len(b)-1 samples) MC starts at rest while FIRuncFilter continues the signal into the past: mean 1 against 2, variance 3 against 4. Partial: equal for all later samples"
  },
  {
   "property": "C144",
   "status": "proved",
   "theorems": [
    "C144_estimate",
    "C144_variance"
   ],
   "note": "full covariance or uncertainty vector; sensitivities computed by the function itself for the variances"
  },
  {
   "property": "C145",
   "status": "proved",
   "theorems": [
    "C145_psd",
    "C145_arguments"
   ],
   "note": "keyword arguments of scipy.signal.periodogram at their defaults"
  },
  {
   "property": "C146",
   "status": "proved",
   "theorems": [
    "C146_scale_offset"
   ],
   "note": "w given; real numbers"
  },
  {
   "property": "C147",
   "status": "proved",
   "theorems": [
    "C147_fir_delay",
    "C147_convolve_delay"
   ],
   "note": "full covariance requested; filter coefficients certain"
  },
  {
   "property": "C148",
   "status": "partial",
   "theorems": [
    "C148_cascade_partial",
    "C148_short_signal_refuted"
   ],
   "note": "REFUTED: for signals shorter than the second filter the low-pass path loses the covariance of lags beyond the signal: variance 6 instead of 8 for two samples, [1,1,1] followed by [1,0,1]. Partial: estimates everywhere; covariances after the transient and whenever |i-j| + len(b2) <= len(y)"
  },
  {
   "property": "C149",
   "status": "proved",
   "theorems": [
    "C149_straight_line",
    "C149_between_neighbours",
    "C149_middle",
    "C149_monotone"
   ],
   "note": "kind linear, points inside the range of the nodes"
  },
  {
   "property": "C150",
   "status": "proved",
   "theorems": [
    "C150_associative"
   ],
   "note": "lengths two or more"
  },
  {
   "property": "C151",
   "status": "partial",
   "theorems": [
    "C151_gum_dft",
    "C151_deconv",
    "C151_next_partial",
    "C151_next_refuted",
    "C151_back_partial",
    "C151_back_refuted"
   ],
   "note": "REFUTED: functions that take the covariance (GUM_iDFT, DFT2AmpPhase, hence Time2AmpPhase) raise AttributeError for the tuple of blocks. Partial: blocks are those of the matrix for GUM_DFT and DFT_deconv; scalar variances unaffected"
  },
  {
   "property": "C152",
   "status": "proved",
   "theorems": [
    "C152_convolution_theorem",
    "C152_exact_kernel"
   ],
   "note": "lengths two or more; no window, mask or explicit sensitivities"
  },
  {
   "property": "C153",
   "status": "proved",
   "theorems": [
    "C153_deconvolution"
   ],
   "note": "kernel exactly known; the last part for an even number of samples (odd: C135)"
  },
  {
   "property": "C154",
   "status": "proved",
   "theorems": [
    "C154_delay"
   ],
   "note": "full covariance; all lines with non-zero amplitude"
  },
  {
   "property": "C155",
   "status": "partial",
   "theorems": [
    "C155_stationary_partial",
    "C155_stationary_refuted"
   ],
   "note": "REFUTED: of an autocovariance with more values than the signal has samples the lags >= len(y) are ignored: variance 2 instead of 3 for one sample, theta = [1,1], r = [1,1/2]. Partial: Toeplitz always; the autocovariance of the filtered noise if lags >= len(y) vanish"
  },
  {
   "property": "C156",
   "status": "proved",
   "theorems": [
    "C156_resonance"
   ],
   "note": "scalar parameters (arrays: C70)"
  },
  {
   "property": "C157",
   "status": "partial",
   "theorems": [
    "C157_documented_partial",
    "C157_documented_refuted"
   ],
   "note": "REFUTED: the formula in the documentation has f where the code (rightly) has 2 pi f. Partial: it holds with the angular frequency in place of f"
  },
  {
   "property": "C158",
   "status": "proved",
   "theorems": [
    "C158_linear_phase",
    "C158_cascade",
    "C158_inverse"
   ],
   "note": "len(b) + len(a) - 1 <= 2 nfft, |B||A| >= 1e-12 at the frequency (otherwise C93)"
  },
  {
   "property": "C159",
   "status": "partial",
   "theorems": [
    "C159_twice_partial",
    "C159_twice_refuted"
   ],
   "note": "REFUTED: uncertainties between the grid points are too small after the second step (10/16 against 6/16 for the variance) as correlations of the interpolated values are not passed on. Partial: same values, uncertainty never larger, exact difference, equal at the grid points"
  },
  {
   "property": "C160",
   "status": "partial",
   "theorems": [
    "C160_estimate_partial",
    "C160_monte_carlo_partial",
    "C160_linear_partial",
    "C160_damping_refuted"
   ],
   "note": "REFUTED: the variance of the damping is halved in a unit half as large (1/8 instead of 1/4), as the linear propagation uses mu_0 + mu_2 where mu_0 mu_2 belongs. Partial: estimates, Monte Carlo covariances, gain and resonance part of the linear propagation"
  },
  {
   "property": "C161",
   "status": "proved",
   "theorems": [
    "C161_invLSFIR",
    "C161_invLSFIR_uncMC",
    "C161_invLSFIR_unc",
    "C161_LSIIR",
    "C161_invLSIIR"
   ],
   "note": "least squares solver exact, responses and draws nonzero, the frequencies determine the filter; normal draws scale with mean and standard deviations; IIR: first fit stable or justFit"
  },
  {
   "property": "C162",
   "status": "partial",
   "theorems": [
    "C162_group_delay_partial",
    "C162_stabilisation_refuted"
   ],
   "note": "REFUTED: grpdelay counts |B A| < 1e-12 as a pole, so in a unit 1e13 times as large the delay correction vanishes and LSIIR returns an unstable filter after 49 passes, while it finds a stable one in the original unit. Partial: group delays above the tolerance do not depend on the gain"
  },
  {
   "property": "C163",
   "status": "partial",
   "theorems": [
    "C163_linear",
    "C163_lookup_partial",
    "C163_nearest_refuted",
    "C163_local"
   ],
   "note": "REFUTED: half-way between two nodes \"nearest\" takes the earlier node, so that the result depends on the direction of time. Partial: linear in full, locality, previous/next exchanged, nearest elsewhere"
  },
  {
   "property": "C164",
   "status": "proved",
   "theorems": [
    "C164_superposition",
    "C164_offset",
    "C164_reversed"
   ],
   "note": "superposition: covariances where they are returned in full (matrices or a window), variances always; offset and reversal without window and padding"
  },
  {
   "property": "C165",
   "status": "proved",
   "theorems": [
    "C165_affine",
    "C165_histogram"
   ],
   "note": "more than one draw (a single one has no covariance)"
  },
  {
   "property": "C166",
   "status": "partial",
   "theorems": [
    "C166_backwards_partial",
    "C166_backwards_refuted",
    "C166_local"
   ],
   "note": "REFUTED: the signal is continued below its first and above its last value, so that the ends depend on the direction: 2 against 4/3 at the upper end of [0,1,2]. Partial: away from the ends, and locality; pinv is the Moore-Penrose inverse of the design matrix"
  },
  {
   "property": "C167",
   "status": "partial",
   "theorems": [
    "C167_values",
    "C167_signal_values",
    "C167_white_noise_partial",
    "C167_pointwise_refuted",
    "C167_full_covariance_partial"
   ],
   "note": "REFUTED: the point-wise uncertainties returned by default lose the correlation of the filtered samples (C167_pointwise_refuted: averaging twice gives 1/4 instead of 3/8); values always agree, for white noise both results are given exactly, passing the full covariance gives the right result away from the beginning of the signal"
  },
  {
   "property": "C168",
   "status": "proved",
   "theorems": [
    "C168_lines",
    "C168_white_noise",
    "C168_amp_phase"
   ],
   "note": "lines, white noise, amplitudes and phases with their variances; all lengths, odd and even"
  },
  {
   "property": "C169",
   "status": "proved",
   "theorems": [
    "C169_harmonic",
    "C169_constant"
   ],
   "note": "values for every argument kind; covariance for a constant input and any covariance matrix of the coefficients"
  },
  {
   "property": "C170",
   "status": "proved",
   "theorems": [
    "C170_padding"
   ],
   "note": "values and covariances, with and without window, every kind of uncertainty"
  },
  {
   "property": "C171",
   "status": "partial",
   "theorems": [
    "C171_scalar_variances_partial",
    "C171_scalar_refuted"
   ],
   "note": "REFUTED: with zero padding neighbouring lines are correlated, but the scalar form returns a vector of variances, i.e. covariances 0 (C171_scalar_refuted: one sample padded to two, the lines are equal); variances always agree, with a window everything does"
  },
  {
   "property": "C172",
   "status": "partial",
   "theorems": [
    "C172_numpy_partial",
    "C172_ndimage_partial",
    "C172_even_refuted"
   ],
   "note": "REFUTED: with an even number of coefficients (the shorter signal for \"same\", the kernel for nearest, reflect, mirror) the result is one sample off after reversal (C172_even_refuted); proved for \"full\", \"valid\" and for odd numbers of coefficients in all modes"
  },
  {
   "property": "C173",
   "status": "partial",
   "theorems": [
    "C173_two_ways_partial",
    "C173_covariance_refuted"
   ],
   "note": "REFUTED: the covariance matrices differ and that of AmpPhase2Time is not symmetric (C173_covariance_refuted). Partial: values, variances and the symmetric part of the covariance agree always"
  },
  {
   "property": "C174",
   "status": "proved",
   "theorems": [
    "C174_commutative",
    "C174_associative",
    "C174_one"
   ],
   "note": "covariance matrices for both factors, or an exactly known second factor"
  },
  {
   "property": "C175",
   "status": "proved",
   "theorems": [
    "C175_in_series",
    "C175_reciprocal"
   ],
   "note": "exactly known, nonzero responses"
  },
  {
   "property": "C176",
   "status": "proved",
   "theorems": [
    "C176_linear",
    "C176_lookup",
    "C176_extrapolated"
   ],
   "note": "linear, previous, next, nearest; points inside the range of the nodes, or extrapolated"
  },
  {
   "property": "C177",
   "status": "partial",
   "theorems": [
    "C177_pulses_partial",
    "C177_rect_partial",
    "C177_squarepulse_partial",
    "C177_squarepulse_shift_refuted",
    "C177_sine_partial",
    "C177_sine_refuted",
    "C177_mirrored_partial"
   ],
   "note": "REFUTED: squarepulse computes its widths from differences but its positions from zero, so on a shifted axis the pulses are elsewhere or missing; the argument freq of sine is a period: on an axis twice as long, half the frequency gives another signal. Partial: Gaussian pulses and rect in full, mirrored axes, squarepulse for stretched axes, sine with a stretched period"
  },
  {
   "property": "C178",
   "status": "proved",
   "theorems": [
    "C178_superposition",
    "C178_causal",
    "C178_mean",
    "C178_first_order"
   ],
   "note": "deterministic statements for every noise sequence; moments for every distribution of the noise"
  },
  {
   "property": "C179",
   "status": "partial",
   "theorems": [
    "C179_delay_partial",
    "C179_delay_refuted"
   ],
   "note": "REFUTED: with two autoregressive coefficients the second value uses phi[0] for the previous value, all later ones phi[-1] (C179_delay_refuted); proved for orders up to one"
  },
  {
   "property": "C180",
   "status": "proved",
   "theorems": [
    "C180_synthesis",
    "C180_uncorrelated",
    "C180_amp_phase"
   ],
   "note": "even N (a spectrum of N+2 entries)"
  },
  {
   "property": "C181",
   "status": "proved",
   "theorems": [
    "C181_units",
    "C181_refined"
   ],
   "note": "linear, previous, next, nearest"
  },
  {
   "property": "C182",
   "status": "proved",
   "theorems": [
    "C182_pointwise",
    "C182_fewer_points"
   ],
   "note": "all kinds and options of interp1d_unc that are modelled, sorted or not, with and without sensitivities"
  },
  {
   "property": "C183",
   "status": "proved",
   "theorems": [
    "C183_gain",
    "C183_series",
    "C183_mapinside_stable",
    "C183_mapinside_of_stable",
    "C183_mapinside_twice"
   ],
   "note": "exact roots (numpy.roots is an oracle); series: digital filters"
  },
  {
   "property": "C184",
   "status": "proved",
   "theorems": [
    "C184_fir",
    "C184_iir_order",
    "C184_iir_repeated",
    "C184_som"
   ],
   "note": "exact solvers; FIR without weights or with a vector of non-zero weights; IIR: order with and without stabilisation for any solver, repetition with justFit; fit_som without uncertainty and with explicit or no weights"
  },
  {
   "property": "C185",
   "status": "partial",
   "theorems": [
    "C185_multiply_matrix_partial",
    "C185_multiply_vector_partial",
    "C185_ampphase_matrix_partial",
    "C185_ampphase_vector_partial",
    "C185_ampphase_odd_partial",
    "C185_multiply_matrix_refuted",
    "C185_multiply_vector_refuted",
    "C185_multiply_single_refuted",
    "C185_multiply_odd_refuted",
    "C185_ampphase_refuted"
   ],
   "note": "REFUTED: M+1 variances and (M+1)x(M+1) matrices are accepted by both, 1x1 matrices by DFT_multiply, spectra of 3 values by both; exact characterisation of the accepted sizes for M >= 2 (square matrices; UF None)"
  },
  {
   "property": "C186",
   "status": "proved",
   "theorems": [
    "C186_multiply",
    "C186_deconv",
    "C186_real_imag",
    "C186_full_turns"
   ],
   "note": "frequency response without uncertainty; amplitudes and gains positive where they are divided by; phases compared as angles"
  },
  {
   "property": "C187",
   "status": "proved",
   "theorems": [
    "C187_dft",
    "C187_phase",
    "C187_idft"
   ],
   "note": "GUM_DFT for any padding and window; GUM_iDFT for any admissible Nx"
  },
  {
   "property": "C188",
   "status": "proved",
   "theorems": [
    "C188_poles",
    "C188_verdict",
    "C188_damping",
    "C188_sos"
   ],
   "note": "simple poles (consecutive ones at least tol apart); scipy.signal.residue/invres and numpy.roots are exact oracles"
  },
  {
   "property": "C189",
   "status": "partial",
   "theorems": [
    "C189_idft_refuted",
    "C189_filter_partial",
    "C189_convolution_partial",
    "C189_dft_partial",
    "C189_representation_partial",
    "C189_spectra_partial",
    "C189_symmetric_part_partial"
   ],
   "note": "REFUTED: GUM_iDFT after GUM_DFT gives a sample of variance zero a covariance of -1/2 with another one. Partial: FIRuncFilter (return_full_covariance), convolve_unc, GUM_DFT with all options, DFT2AmpPhase, AmpPhase2DFT, DFT_multiply, DFT_deconv keep the bound (amplitudes, denominators non-zero); for GUM_iDFT the mean of U[i,j] and U[j,i] does"
  },
  {
   "property": "C190",
   "status": "proved",
   "theorems": [
    "C190_filter_value",
    "C190_filter_known_signal",
    "C190_filter_white_noise",
    "C190_convolution",
    "C190_valid_value",
    "C190_valid_covariance"
   ],
   "note": "filters and kernels with at least two coefficients"
  },
  {
   "property": "C191",
   "status": "proved",
   "theorems": [
    "C191_superposition",
    "C191_units",
    "C191_covariances_add"
   ],
   "note": "signals of at least two samples; all six modes"
  },
  {
   "property": "C192",
   "status": "proved",
   "theorems": [
    "C192_order_and_units",
    "C192_transposed",
    "C192_twice"
   ],
   "note": "eigenvalue routine exact; maxiter >= 1; sparse matrices with at least 8 rows (C89)"
  },
  {
   "property": "C193",
   "status": "partial",
   "theorems": [
    "C193_opposite_signs_partial",
    "C193_sign_refuted"
   ],
   "note": "REFUTED: the covariance of S0 and f0 has the wrong sign for mu0 mu2 < 0 (witness mu = (4, 1, -1); Monte Carlo on the same draws has the right sign). Partial: parameters and variances of S0 and f0 agree with the linear propagation, the covariance is its negative"
  },
  {
   "property": "C194",
   "status": "proved",
   "theorems": [
    "C194_rect_tiles",
    "C194_heights_add",
    "C194_multi_sine"
   ],
   "note": "noise-free signals; rect also with user-defined additive noise"
  },
  {
   "property": "C195",
   "status": "proved",
   "theorems": [
    "C195_cov_monte_carlo",
    "C195_cov_linear"
   ],
   "note": "exact linear solver and inverse; the damping is excluded from the linear propagation (C77)"
  },
  {
   "property": "C196",
   "status": "proved",
   "theorems": [
    "C196_order",
    "C196_exact",
    "C196_units"
   ],
   "note": "at least two samples, sizes of amplitudes, phases and covariance that fit together; sparse covariances with stored diagonals of full length"
  },
  {
   "property": "C197",
   "status": "proved",
   "theorems": [
    "C197_order",
    "C197_exact",
    "C197_units"
   ],
   "note": "signals without vanishing spectral line (there the sensitivities of amplitude and phase are 0/0)"
  },
  {
   "property": "C198",
   "status": "proved",
   "theorems": [
    "C198_delay"
   ],
   "note": "sizes of amplitudes, phases and covariance that fit together, symmetric covariance; sparse covariances with stored diagonals of full length; delays by whole samples"
  },
  {
   "property": "C199",
   "status": "proved",
   "theorems": [
    "C199_reversed",
    "C199_polarity"
   ],
   "note": "sizes of amplitudes, phases and covariance that fit together, symmetric covariances; sparse covariances with stored diagonals of full length"
  },
  {
   "property": "C200",
   "status": "proved",
   "theorems": [
    "C200_polarity",
    "C200_reversed"
   ],
   "note": "signals without vanishing spectral line (there the sensitivities of amplitude and phase are 0/0)"
  },
  {
   "property": "C201",
   "status": "proved",
   "theorems": [
    "C201_delay"
   ],
   "note": "full length (Nx not given); the antisymmetric error of the covariance matrix (C28) is excluded by taking the symmetric part"
  },
  {
   "property": "C202",
   "status": "proved",
   "theorems": [
    "C202_multiply",
    "C202_deconv"
   ],
   "note": "full covariance of the first factor in DFT_multiply (C39); responses without vanishing line in DFT_deconv; also with the wrong sensitivity of C37"
  },
  {
   "property": "C203",
   "status": "proved",
   "theorems": [
    "C203_reversed"
   ],
   "note": "full length (Nx not given); symmetric covariance of the spectrum; also with the antisymmetric error of C28"
  },
  {
   "property": "C204",
   "status": "proved",
   "theorems": [
    "C204_amp_phase",
    "C204_real_imag"
   ],
   "note": "spectra without vanishing line in DFT2AmpPhase; dense covariances in AmpPhase2DFT (sparse ones: C32)"
  }
 ]
}