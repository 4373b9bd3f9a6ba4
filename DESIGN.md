# Formal model of PyDynamic: design

Source: `/repo/PyDynamic` (read only, never run).  Prover: Coq 8.16.1, standard library only.
Properties: `properties.jsonl`.  Status per property: `MANIFEST.json`.
Mutation log: `seeded/LOG.jsonl`.

## 1. Modelling conventions

* **Numbers.** numpy floats are exact real numbers (`R` of the standard library).  Rounding
  and overflow are not modelled.  NaN and infinities appear only where they are a documented
  or decisive value, as `None : option R` (fill values of the interpolation, quantiles of an
  empty histogram, 0/0 in the interpolation).
* **Division by zero.** In Coq `x / 0` is some real number, in numpy it is infinite or NaN.  Theorems
  about values with a denominator that may vanish (amplitudes in DFT2AmpPhase, the system in
  DFT_deconv, determinants, `a[0]`) therefore carry the hypothesis that it does not; without it only
  shapes, errors and equalities between two runs with the same denominators are stated.
* **Arrays.** A numpy array is its shape plus an index function (`arr A := {alen; aget}`,
  `vec := arr R`, `mat := {mrows; mcols; mget}`).  Every statement is made for indices inside
  the shape; the length of every result is part of the statements.
* **Exceptions** are values: `res A := Ok a | Err e`, with `e` the Python class.  A Python
  name that is not defined, a wrong shape, a wrong type end in the `Err` the code raises.
* **Dynamic typing.** `isinstance` tests become sum types (`None | float | int | 1D | 2D | ...`).
* **Loops.** `for` loops are structural recursion or `fold_left`.  The `while` loops
  (make_semiposdef, stabilisation of the IIR fits) carry fuel; fuel exhausted is `None`, and
  statements are about calls that finish (plus termination theorems).
* **External code.** Routines with a closed definition (lfilter, lfilter_zi, convolve,
  toeplitz, pad, roll, searchsorted, interp, rfft/irfft, histogram, poly, unwrap, cov) are
  modelled by that definition.  Solvers (lstsq, solve, svd, pinv, eigvals, roots) and random
  draws (randn, multivariate_normal, rvs, the order in which a process pool delivers) are
  function arguments; what is assumed about them is a hypothesis of the theorem, and an
  example next to the theorem exhibits an instance meeting the hypotheses.
* **Statistics.** "The covariance is right" is specified without the code: a finite-support
  distribution is a finite weighted list of outcomes; mean and covariance are weighted sums
  (`Stats.v`).  For linear and bilinear maps the theorems say: whatever distribution has the
  given first two moments, the covariance of the transformed outcomes is the matrix returned.
  For nonlinear maps the GUM law `J U J^T` is stated with `J` characterised through
  `derivable_pt_lim` (`S_Jac.v`), not by a formula.  For Monte Carlo the specification is the
  sample mean and sample covariance over the list of draws (`S_MC.v`).
* **Refuted properties.** When the faithful model violates the property, the theorem
  `..._refuted : exists ...` gives a witness, and `..._partial` theorems say what does hold
  (usually: the exact law the code follows).  The status in the manifest is then `partial`
  and the note starts with REFUTED.

## 2. Layout (`rocq/theories`)

| files | content |
|-------|---------|
| `Base`, `Sums`, `Cplx` | results, arrays, finite sums, complex numbers |
| `Stats`, `StatsFacts` | finite-support distributions (specification) and their laws |
| `M_Filter` | propagate_filter.py, propagate_convolution.py, trimOrPad and shift_uncertainty of tools.py |
| `M_DFT` | propagate_DFT.py |
| `M_Interp` | interpolate.py, the parts of scipy.interpolate.interp1d it uses |
| `M_MC` | propagate_MonteCarlo.py |
| `M_Noise` | noise.py, testsignals.py, SecondOrderSystem.py |
| `M_FilterStuff` | filterstuff.py, impinvar.py |
| `M_Fit` | model_estimation/fit_filter.py, model_estimation/fit_transfer.py |
| `M_SigClass` | signals.py |
| `M_Typed` | element types in propagate_DFT.py and testsignals.py, stored diagonals of a `dia_matrix`, `calc_autocorr`, modes of `trimOrPad` |
| `M_Psd` | corr_noise.calc_psd of testsignals.py, scipy.signal.periodogram |
| `M_Tools` | the rest of tools.py |
| `S_*` | specification vocabulary, no model function is used (some share argument types) |
| `P_*` | lemmas |
| `T_*` | theorems, non-vacuity examples, `Print Assumptions` |

## 3. Properties

For each property: what is modelled, how it is proved, the theorems, what is left open.

### C01 FIR estimate is the convolution with the steadily continued input (proved)

* Modelled: `FIRuncFilter` with `_fir_filter`, `_fir_filter_diag`, all noise kinds; lfilter as transposed direct form II recursion, lfilter_zi as the solution of its linear system
* Method: induction over samples: registers = tail sums of the convolution with the continued signal
* Theorems (T_Filter): `C01_fir_estimate`, `C01_fir_returns`
* Note: estimate for every call that returns; existence for valid arguments on both paths

### C02 FIR output covariance is the exact covariance of a random filter acting on a random signal (proved)

* Modelled: same, with the 2D valid convolution and both continuations of the covariance
* Method: bilinear covariance law for independent finite-support distributions; the low-pass is a second application
* Theorems (T_Filter): `C02_fir_cov_exact`, `C02_fir_var_exact`, `C02_fir_lowpass_cascade`
* Note: mean and covariance of every pair of independent finite-support distributions with the given moments; point-wise path; low-pass as cascade

### C03 FIR output covariance is symmetric and positive semi-definite when the extended input covariance is (proved)

* Modelled: same
* Method: every p.s.d. matrix is the covariance of a finite distribution (LDL^T induction), hence C02 gives a covariance
* Theorems (T_Filter): `C03_fir_cov_psd`
* Note: p.s.d. of the result from p.s.d. of the continued input covariance and of Utheta

### C04 Efficient point-wise path agrees with the general path (proved)

* Modelled: both branches
* Method: double sums collapse on diagonal matrices
* Theorems (T_Filter): `C04_fast_equals_general`, `C04_pointwise_is_diagonal`
* Note: efficient path equals root of diagonal of general path; general point-wise result is root of |diagonal|

### C05 The shift argument moves estimate and uncertainty together (partial)

* Modelled: np.roll of the flattened array
* Method: evaluation of a witness; index arithmetic for the estimate
* Theorems (T_Filter, T_FirShift): `C05_shift_moves_both_refuted`, `C05_efficient_path_refuted`, `C05_shift_estimate_partial`, `C05_covariance_partial`, `C05_pointwise_partial`, `C05_efficient_partial`
* Note: REFUTED: general path rolls the covariance as a flattened array, efficient path ignores shift. Partial: the estimate of the general path is shifted circularly by -s; every entry of its covariance is the one 2s places later row by row, point-wise uncertainties accordingly; the efficient path does not depend on the shift

### C06 A scalar coefficient uncertainty means the same as a constant vector (partial)

* Modelled: fast path branch
* Method: witness; rewriting
* Theorems (T_Filter): `C06_float_utheta_refuted`, `C06_float_utheta_partial`
* Note: REFUTED: float Utheta is used as a variance. Partial: it acts like standard uncertainties sqrt(u)

### C07 A valid input covariance never yields a negative output variance (partial)

* Modelled: `_stationary_prepend_covariance`
* Method: witness (a p.s.d. matrix whose continuation is indefinite); Schur-type argument for white noise
* Theorems (T_Filter): `C07_no_negative_variance_refuted`, `C07_pointwise_noise_partial`
* Note: REFUTED: stationary continuation of a p.s.d. covariance can be indefinite (variance -1). Partial: white/point-wise noise gives p.s.d. result

### C08 FIRuncFilter accepts or rejects by a fixed table of argument kinds (proved)

* Modelled: argument dispatch of FIRuncFilter
* Method: case analysis over the sum types
* Theorems (T_Filter): `C08_argument_table`
* Note: decision table proved for all argument kinds of fitting shape

### C09 FIR propagation is homogeneous (proved)

* Modelled: both branches
* Method: homogeneity of the specification formula
* Theorems (T_Filter): `C09_homogeneous_full`, `C09_homogeneous_pointwise`, `C09_homogeneous_filter`
* Note: full covariance, point-wise, and filter scaling

### C10 FIR filtering is causal (proved)

* Modelled: both branches
* Method: the formula for sample n mentions samples up to n only
* Theorems (T_Filter): `C10_causal_pointwise`, `C10_causal_full`
* Note: point-wise and full covariance for white or point-wise noise

### C11 convolve_unc computes the documented convolution in all six modes (proved)

* Modelled: `convolve_unc`, six modes, np.pad modes as index maps
* Method: index arithmetic, Z.modulo for symmetric and reflected padding
* Theorems (T_Filter): `C11_numpy_modes`, `C11_ndimage_modes`, `C11_continuation_exists`
* Note: three numpy modes and three ndimage modes, all lengths

### C12 convolve_unc covariance is exact for independent inputs (proved)

* Modelled: same
* Method: bilinear covariance law as in C02
* Theorems (T_Filter): `C12_numpy_cov_exact`, `C12_ndimage_cov_exact`
* Note: all six modes, any independent finite-support distributions with the given moments

### C13 Convolution commutes (proved)

* Modelled: same
* Method: re-indexing of the convolution sum
* Theorems (T_Filter): `C13_convolution_commutes`
* Note: three numpy modes, symmetric covariances

### C14 convolve_unc covariance is symmetric positive semi-definite (proved)

* Modelled: same
* Method: as C03
* Theorems (T_Filter): `C14_convolution_psd`
* Note: all six modes

### C15 Any two signals can be convolved (partial)

* Modelled: same, argument checks
* Method: a kernel of length one fails in every mode; success for lengths >= 2
* Theorems (T_Filter): `C15_any_two_signals_refuted`, `C15_length_one_always_fails`, `C15_modes_partial`
* Note: REFUTED: a kernel of length one raises ValueError in every mode. Partial: lengths >= 2 succeed, unknown modes raise ValueError

### C16 IIRuncFilter returns a result for a valid filter (partial)

* Modelled: `IIRuncFilter` up to the undefined name tf2ss (line 450)
* Method: case analysis: no call returns; see C113 for the rest of the body
* Theorems (T_IIR): `C16_iir_returns_refuted`, `C16_iir_never_returns`
* Note: REFUTED: tf2ss is not defined in the module; no call returns (C16_iir_never_returns)

### C17 shift_uncertainty moves values and uncertainties together and is invertible (proved)

* Modelled: `shift_uncertainty`
* Method: modular arithmetic
* Theorems (T_Filter): `C17_shift_moves_together`, `C17_assertions`, `C17_shift_composes`
* Note: all shifts, all uncertainty kinds, composition, inverse, assertion failures

### C18 trimOrPad returns exactly the requested length and never alters kept samples (proved)

* Modelled: `trimOrPad` with all modes of `np.pad`
* Method: case analysis; the continuations of S_Conv.v; the median by sorted permutations
* Theorems (T_Filter, T_Typed): `C18_trimOrPad`, `C18_modes`, `C18_mode_errors`, `C18_statistics_modes`
* Note: all arrays, lengths and all padding modes of numpy.pad

### C19 make_semiposdef returns a symmetric positive definite matrix and only moves the diagonal (proved)

* Modelled: `make_semiposdef`, both loops, symmetrisation
* Method: loop invariants; Rayleigh quotient characterisation of the smallest eigenvalue
* Theorems (T_Tools): `C19_semiposdef`, `C19_not_square`, `C19_dense_smallest_eigenvalue`
* Note: exact eigenvalue routine as hypothesis; sparse storage from 8 x 8 on (smaller: C89)

### C20 make_semiposdef performs at most maxiter iterations (partial)

* Modelled: same
* Method: witness with two passes for maxiter = 1; the counter bounds the sparse loop
* Theorems (T_Tools): `C20_maxiter_refuted`, `C20_endless_refuted`, `C20_maxiter_partial`
* Note: REFUTED: the dense branch never counts (maxiter=1, two shifts). Partial: the sparse branch respects maxiter

### C21 FreqResp2RealImag returns mean vectors (partial)

* Modelled: `FreqResp2RealImag`; draws as function of mean, covariance, number of runs
* Method: shape of np.mean without axis; algebra of sample covariances
* Theorems (T_Tools): `C21_means_refuted`, `C21_means_partial`, `C21_lengths_checked`
* Note: REFUTED: np.mean without axis gives numbers, not vectors. Partial: mean and covariance asked for (a vector is taken as variances), the numbers are the overall means, covariance of the draws symmetric of size 2N; length checks

### C22 GUM_DFT estimate is the discrete Fourier transform (proved)

* Modelled: `GUM_DFT`, `_apply_window`
* Method: definition of the DFT, zero padding
* Theorems (T_DFT): `C22_dft_estimate`, `C22_dft_returns`, `C22_dft_short_N_rejected`
* Note: DFT of windowed, zero padded signal for every call that returns; existence; short N rejected

### C23 GUM_DFT covariance is exact (proved)

* Modelled: same, all kinds of Ux
* Method: linear covariance law
* Theorems (T_DFT): `C23_dft_cov_exact`
* Note: covariance of the DFT for every finite-support distribution with covariance Ux; scalar, vector, matrix, window, padding

### C24 Scalar input variance loses no information in GUM_DFT (proved)

* Modelled: same
* Method: orthogonality of sines and cosines (geometric sums)
* Theorems (T_DFT): `C24_scalar_variance_lossless`
* Note: off-diagonal covariances are exactly zero, so the vector form is lossless

### C25 GUM_DFT accepts a window together with point-wise variances (partial)

* Modelled: same
* Method: evaluation: window * 1D variances indexes a second axis
* Theorems (T_DFT): `C25_window_vector_refuted`, `C25_window_vector_always_fails`, `C25_window_diagonal_partial`
* Note: REFUTED: window with 1D Ux raises IndexError (always). Partial: the diagonal matrix is accepted and exact

### C26 GUM_iDFT inverts GUM_DFT on the estimate (partial)

* Modelled: `GUM_iDFT`, irfft
* Method: orthogonality sums; length arithmetic
* Theorems (T_DFT, T_Reject): `C26_odd_length_refuted`, `C26_odd_length_always_short`, `C26_even_length_partial`, `C26_rejects`
* Note: REFUTED: signals of odd length come back one sample short (every odd n>=3) and asking for n samples raises ValueError. Partial: even lengths are recovered

### C27 GUM_iDFT variances are exact (proved)

* Modelled: same
* Method: linear covariance law
* Theorems (T_DFT): `C27_idft_variances_exact`
* Note: variances and symmetrised covariances for all distributions, all Nx

### C28 GUM_iDFT covariance is symmetric / exact (partial)

* Modelled: same
* Method: witness; exactness of the symmetric part
* Theorems (T_DFT): `C28_idft_symmetric_refuted`, `C28_uncorrelated_parts_partial`, `C28_round_trip_partial`
* Note: REFUTED: 2*Cc RI Cs^T is not symmetric; round trip of variances (0,1,0,0) gives V13-V31=-1. Partial: exact without covariance between real and imaginary parts; symmetric part of the round trip is Ux

### C29 DFT2AmpPhase propagates with the true Jacobian (proved)

* Modelled: `DFT2AmpPhase`, arctan2 by its five cases, dia_matrix storage
* Method: derivatives of sqrt, atan on each branch; block algebra
* Theorems (T_AmpPhase): `C29_amp_phase_exact`
* Note: every branch of the phase, vector and matrix, dense and sparse storage

### C30 AmpPhase2DFT propagates with the true Jacobian (matrix and vector UAP) (proved)

* Modelled: `AmpPhase2DFT`
* Method: derivatives of cos, sin; block algebra
* Theorems (T_AmpPhase): `C30_real_imag_exact`, `C30_shape_errors`
* Note: vector and dense matrix

### C31 Amplitude/phase conversion is reversible (proved)

* Modelled: both
* Method: polar coordinates of the arctan2 model; J2 J1 = 1
* Theorems (T_AmpPhase): `C31_round_trip`
* Note: dense storage, vector or matrix UF (sparse storage: see C32)

### C32 Sparse UAP gives the same result as the dense matrix it represents (partial)

* Modelled: sparse branch of `AmpPhase2DFT`
* Method: witness; exact error term
* Theorems (T_AmpPhase): `C32_sparse_equals_dense_refuted`, `C32_sparse_round_trip_refuted`, `C32_sparse_error_partial`
* Note: REFUTED: line 676 uses CIA instead of CIP; also on matrices returned by DFT2AmpPhase. Partial: exact size of the error, all other entries agree

### C33 AmpPhase2Time variances and estimate (proved)

* Modelled: `AmpPhase2Time`
* Method: chain of derivative matrices, inverse DFT as linear map
* Theorems (T_AmpPhase, T_DFTForms): `C33_amp_phase_to_time`, `C33_rejected`, `C33_not_square`
* Note: estimate, variances, symmetrised covariances; lengths that do not fit are rejected

### C34 AmpPhase2Time covariance is symmetric (partial)

* Modelled: same
* Method: witness
* Theorems (T_AmpPhase): `C34_symmetric_refuted`, `C34_uncorrelated_partial`
* Note: REFUTED: same asymmetry as C28. Partial: exact and symmetric without amplitude/phase covariance

### C35 Time2AmpPhase_multi treats every signal like Time2AmpPhase (proved)

* Modelled: `Time2AmpPhase_multi`
* Method: induction over the list of signals
* Theorems (T_AmpPhase, T_Reject): `C35_multi_rowwise`, `C35_number_of_variances_checked`, `C35_selector`
* Note: rows of equal length; also numbers of variances and selected lines that do not exist

### C36 DFT_deconv inverts DFT_multiply on the estimate (proved)

* Modelled: `DFT_deconv`, `DFT_multiply`
* Method: complex field algebra
* Theorems (T_AmpPhase): `C36_deconv_inverts_multiply`
* Note: estimate for any UH; also the covariance when H is exactly known

### C37 DFT_deconv propagates with the true Jacobian (partial)

* Modelled: `DFT_deconv`, blocks of the sensitivity matrices
* Method: derivatives of the complex quotient; witness for line 1007
* Theorems (T_AmpPhase): `C37_deconv_jacobian_refuted`, `C37_deconv_partial`, `C37_deconv_sparse_UH_fails`, `C37_deconv_shape_errors`
* Note: REFUTED: line 1007 has iH*iH**2 instead of iY*iH**2 (variance 1 instead of 4). Partial: estimate, contribution of UY, imaginary block, and everything when iH=0 or iY=iH on every line

### C38 DFT_multiply propagates with the true Jacobian (proved)

* Modelled: `DFT_multiply`
* Method: derivatives of the complex product
* Theorems (T_AmpPhase): `C38_multiply_exact`, `C38_length_errors`
* Note: full matrices, UF optional

### C39 DFT_multiply with a vector of variances returns a full covariance (partial)

* Modelled: `DFT_multiply` with 1D UY, numpy broadcasting
* Method: evaluation of shapes
* Theorems (T_AmpPhase, T_DFTForms): `C39_vector_variances_refuted`, `C39_vector_and_matrix_refuted`, `C39_vector_two_rows_partial`, `C39_two_vectors_partial`, `C39_vector_and_matrix_partial`, `C39_number_partial`
* Note: REFUTED: two rows instead of 2M, and broadcast over all rows in combination with a full UF. Partial: the two rows hold the true variances and same-line covariances; also with variances for both factors, and a number as UY or UF

### C40 Linear interpolation uncertainty law (proved)

* Modelled: `interp1d_unc`, kind linear
* Method: searchsorted characterised by order; covariance law of the chord
* Theorems (T_Interp): `C40_linear_law`, `C40_linear_returns`
* Note: every call that returns; any distribution with uncorrelated nodes; calls with points inside always return

### C41 Sensitivity matrix reproduces values and uncertainties (proved)

* Modelled: same, returnC
* Method: matrix algebra on the selected nodes
* Theorems (T_Interp): `C41_sensitivities`, `C41_same_with_and_without`
* Note: also outside the range when extrapolating; returnC=False gives the same

### C42 Interpolation at a node returns the node, and never more than the larger neighbouring uncertainty (proved)

* Modelled: same, and the look-up kinds
* Method: convexity of the weights
* Theorems (T_Interp): `C42_linear_at_node`, `C42_linear_bounds`, `C42_lookup_kinds`

### C43 Out-of-range queries (proved)

* Modelled: bounds_error, fill_value, fill_unc
* Method: case analysis on the position of the point
* Theorems (T_Interp): `C43_out_of_range_rejected`, `C43_other_kinds`, `C43_fill_values`, `C43_inside_unaffected`
* Note: all kinds; n>=2 for in-range uncertainties of the linear kind (C91); int fill_unc: C90

### C44 fill_value='extrapolate' alone enables extrapolation (partial)

* Modelled: same
* Method: witness
* Theorems (T_Interp): `C44_extrapolate_alone_refuted`, `C44_extrapolate_with_bounds_error_partial`
* Note: REFUTED: bounds_error stays None and scipy raises ValueError. Partial: with bounds_error=False in addition

### C45 Input order is irrelevant when assume_sorted=False (proved)

* Modelled: argsort (insertion sort, stable), np.take
* Method: sorted permutations of distinct keys coincide
* Theorems (T_Interp): `C45_order_irrelevant`, `C45_equals_sorted`
* Note: all permutations, all kinds and options

### C46 Mismatched lengths of values and uncertainties are rejected (partial)

* Modelled: length checks
* Method: witness; case analysis
* Theorems (T_Interp): `C46_length_checked_refuted`, `C46_length_checked_partial`
* Note: REFUTED: assume_sorted=False drops superfluous entries of uy before the check. Partial: checked for sorted data; missing entries always raise

### C47 make_equidistant never leaves the data range (proved)

* Modelled: `make_equidistant`, np.arange
* Method: arithmetic of ceil; and for any grid
* Theorems (T_Interp): `C47_never_leaves_range`, `C47_equidistant`, `C47_no_extent`
* Note: exact arithmetic, and any non-decreasing grid for the claim that the range is not left

### C48 UMC_generic mean is the mean of all evaluated samples, for every block partition and completion order (proved)

* Modelled: `UMC_generic`: first block, remaining blocks in any order of completion
* Method: induction over the blocks with permutations
* Theorems (T_MC): `C48_mean`, `C48_returns`, `C48_degenerate`
* Note: any blocksize, any permutation of the results of a block; the number of runs is rounded up to full blocks (C50); exceptions for no draws, blocksize 0, runs 0

### C49 UMC_generic covariance is the sample covariance (partial)

* Modelled: same, covariance update
* Method: exact error term by algebra; witness
* Theorems (T_MC): `C49_sample_covariance_refuted`, `C49_covariance_error_partial`, `C49_small_blocks_partial`
* Note: REFUTED: the scatter matrix of the first block is not normalised (one block 0,1,2: 2 instead of 1). Partial: exact size of the error for all partitions; exact for blocksize 1 (two runs or more) and 2

### C50 UMC_generic evaluates exactly the requested number of runs (partial)

* Modelled: same, number of blocks
* Method: arithmetic of ceil(runs/blocksize)
* Theorems (T_MC): `C50_requested_runs_refuted`, `C50_multiples_partial`
* Note: REFUTED: runs=3, blocksize=2 evaluates 4 samples, and return_samples raises ValueError. Partial: runs a multiple of blocksize

### C51 UMC_generic histogram accounts for every sample (partial)

* Modelled: histogram update, closing edge
* Method: counting lemmas; witness
* Theorems (T_MC): `C51_histogram_partial`, `C51_every_sample_refuted`
* Note: REFUTED: results above the initial maximum are dropped and lie beyond the last edge (np.min in line 740). Partial: exact content of the histogram, edges non-decreasing, first edge below everything

### C52 UMC_generic pairs samples with their results (partial)

* Modelled: serial map and pool
* Method: witness with two results swapped
* Theorems (T_MC): `C52_pairing_refuted`, `C52_serial_partial`
* Note: REFUTED: imap_unordered may deliver another order. Partial: n_cpu=1

### C53 UMC honours nbins (partial)

* Modelled: `UMC`
* Method: evaluation: the default nbins is used
* Theorems (T_MC2): `C53_nbins_refuted`, `C53_hundred_bins_partial`, `C53_no_bins_partial`
* Note: REFUTED: nbins is not passed on; always 100 bins, further rows of bounds stay 0. Partial: exactly that, for all calls

### C54 Credible bounds are ordered and inside the histogram range (proved)

* Modelled: `UMC` credible bounds: cumulated relative frequency, np.interp
* Method: monotone interpolation
* Theorems (T_MC2): `C54_quantile`, `C54_no_counts`, `C54_bounds_ordered`
* Note: for every histogram with nonnegative counts and non-decreasing edges, and for every result of UMC; no counted sample: NaN; credibility outside [0,1]: ValueError

### C55 MC returns mean and covariance of the stable draws only (proved)

* Modelled: `MC`
* Method: filter of the list of draws; sample statistics
* Theorems (T_MC3): `C55_stable_draws`, `C55_unstable_no_influence`, `C55_errors`, `C55_sizes`
* Note: any stability verdict; both forms of the result, with the special cases of np.cov for one draw and one sample; low-pass; exceptions; covariance matrix of the signal positive definite (see C124)

### C56 MC and FIRuncFilter use the same shift convention (partial)

* Modelled: `MC`, `FIRuncFilter`
* Method: rolling indices; witness
* Theorems (T_MC3): `C56_opposite_partial`, `C56_same_direction_refuted`
* Note: REFUTED: MC rolls by +shift, FIRuncFilter by -shift. Partial: MC with shift s equals FIRuncFilter with shift -s for signals starting with 0

### C57 SMC returns a result (partial)

* Modelled: `SMC`
* Method: every path of the set-up fails
* Theorems (T_MC3): `C57_never_returns`, `C57_smc_refuted`, `C57_empty_partial`
* Note: REFUTED: every call with a non-empty signal raises IndexError or ValueError. Partial: only the empty signal returns

### C58 Normal_ZeroCorr broadcasts consistently (proved)

* Modelled: `Normal_ZeroCorr`
* Method: case analysis
* Theorems (T_MC3): `C58_broadcast`

### C59 ARMA generates the documented recursion (partial)

* Modelled: `ARMA`
* Method: recursion; witness for order 2
* Theorems (T_Noise): `C59_arma_refuted`, `C59_ma_refuted`, `C59_first_order_partial`, `C59_reversed_partial`, `C59_palindromic_partial`
* Note: REFUTED: coefficients are applied in reversed order, wrong from order 2 on. Partial: order <= 1 for all n; any order past the start with reversed coefficients; palindromic coefficients

### C60 power_law_noise has the requested mean and standard deviation (proved)

* Modelled: `power_law_noise`
* Method: mean and standard deviation of a standardised vector
* Theorems (T_Noise): `C60_mean_std`, `C60_returns`, `C60_white`, `C60_errors`
* Note: exact mean, standard deviation, length; succeeds exactly for non-constant input; white gives the standardised input; exceptions

### C61 isstable is right for digital filters (proved)

* Modelled: `isstable` digital
* Method: definition with exact roots
* Theorems (T_FilterStuff): `C61_digital`, `C61_unknown_type`
* Note: root finder assumed exact

### C62 isstable is right for analog filters (partial)

* Modelled: `isstable` analog
* Method: witness
* Theorems (T_FilterStuff): `C62_analog_refuted`, `C62_unstable_refuted`, `C62_analog_partial`
* Note: REFUTED: the analog verdict is inverted. Partial: True exactly if no root has negative real part

### C63 mapinside yields a stable polynomial (proved)

* Modelled: `mapinside`, numpy.poly
* Method: product of linear factors; conjugate pairs
* Theorems (T_FilterStuff): `C63_mapinside`, `C63_roots`, `C63_real`, `C63_magnitude`
* Note: also: real coefficients, magnitude on the unit circle kept up to a constant factor

### C64 rect is the rectangle on (t0,t1] (proved)

* Modelled: `rect`
* Method: case analysis
* Theorems (T_Signals): `C64_rect`, `C64_noise`
* Note: including the noise branches

### C65 GaussianPulse has its maximum m0 at t0 and the width sigma (proved)

* Modelled: `GaussianPulse`
* Method: monotonicity of exp
* Theorems (T_Signals, T_Signals2): `C65_pulse`, `C65_width`
* Note: also strictly decreasing with the distance from t0; height m0/sqrt(e) at the distance sigma

### C66 shocklikeGaussian has its maximum m0 at t0 (partial)

* Modelled: `shocklikeGaussian`
* Method: x exp(-x^2/2) has its extrema at -1 and 1
* Theorems (T_Signals): `C66_location_refuted`, `C66_extrema_partial`
* Note: REFUTED: the maximum is at t0 - sigma and the value at t0 is 0. Partial: bound m0 and all extrema

### C67 sine has the requested frequency (partial)

* Modelled: `sine`, `multi_sine`
* Method: periodicity of sin; witness
* Theorems (T_Signals): `C67_sine_refuted`, `C67_multi_sine_refuted`, `C67_period_partial`, `C67_multi_sine_angular_partial`
* Note: REFUTED: freq acts as the period in sine and as angular frequency in multi_sine. Partial: the actual laws

### C68 corr_noise covariance matches the generated noise (partial)

* Modelled: `corr_noise.calc_noise`, `calc_cov`
* Method: covariance of a moving average; witness
* Theorems (T_Signals): `C68_covariance_refuted`, `C68_moving_average_partial`, `C68_noise_partial`
* Note: REFUTED: calc_noise realises binom(4,l)(1-w)^l w^(4-l) instead of binom(4,l) w^l. Partial: calc_cov is a valid covariance (that of the intended moving average), agreement for w = 0

### C69 squarepulse places numpulse pulses of the given height in the time range (partial)

* Modelled: `squarepulse`
* Method: loop invariant; witness
* Theorems (T_Signals): `C69_offset_refuted`, `C69_from_zero_partial`, `C69_empty_partial`
* Note: REFUTED: pulses are placed relative to time 0. Partial: exact for time[0] = 0, values 0 or height always

### C70 sos_phys2filter and sos_FreqResp describe the same system (proved)

* Modelled: `sos_phys2filter`, `sos_FreqResp`
* Method: complex algebra
* Theorems (T_Signals): `C70_same_system`, `C70_columns`, `C70_gain`, `C70_physical`

### C71 invLSFIR recovers an exact inverse filter (proved)

* Modelled: `invLSFIR`, `invLSFIR_unc`
* Method: normal equations; polynomial root count for enough frequencies
* Theorems (T_Fit, T_FitArgs): `C71_least_squares`, `C71_exact_inverse`, `C71_enough_frequencies`, `C71_mismatch`, `C71_unc_least_squares`, `C71_unc_exact_inverse`, `C71_single_response`
* Note: least squares solver / SVD assumed exact (finite-dimensional contract); also least squares optimality, enough distinct interior frequencies, invLSFIR_unc estimate, length mismatch, one response value for all frequencies

### C72 LSFIR fits the given frequency response (partial)

* Modelled: `LSFIR`
* Method: same code as invLSFIR
* Theorems (T_Fit): `C72_inverts_partial`, `C72_fits_response_refuted`
* Note: REFUTED: LSFIR is the same code as invLSFIR and fits the reciprocal. Partial: it returns the exact inverse filter

### C73 Weights do not bias an exactly solvable fit (partial)

* Modelled: weights of `LSFIR`/`invLSFIR`/`invLSFIR_unc`
* Method: weighted normal equations; evaluation of the failing branches
* Theorems (T_Fit, T_FitArgs, T_Reject): `C73_weighted_fit_partial`, `C73_constant_weight_partial`, `C73_weights_refuted`, `C73_matrix_raises`, `C73_matrix_refuted`, `C73_unc_weights_raise`, `C73_unc_weights_refuted`, `C73_weight_lengths`, `C73_weight_matrix_size`
* Note: REFUTED: weights multiply the design matrix only (a constant weight q gives h/q); weight matrices raise LinAlgError for len(f) <> 1; invLSFIR_unc raises ValueError for every weighting. Partial: the criterion actually minimised; weights of a wrong length raise ValueError

### C74 invLSFIR_unc propagates through the reciprocal response (partial)

* Modelled: `invLSFIR_unc` covariance
* Method: linear image of the sample covariance; witness
* Theorems (T_Fit): `C74_conjugate_partial`, `C74_no_uncertainty_partial`, `C74_covariance_refuted`
* Note: REFUTED: the draws are reciprocals of the conjugate response, the covariance has the wrong sign of the correlations. Partial: covariance of the fits to the conjugates; zero for zero uncertainty

### C75 LSIIR stabilisation loop (partial)

* Modelled: stabilisation loop of `LSIIR`, `invLSIIR`
* Method: loop invariant; median, ceil
* Theorems (T_FitIIR): `C75_LSIIR_loop_partial`, `C75_invLSIIR_loop_partial`, `C75_integer_delay`, `C75_delay_refuted`, `C75_justfit_delay_refuted`, `C75_mismatch`, `C75_terminates`
* Note: REFUTED: invLSIIR/LSIIR return int(tau), LSIIR with justFit returns 0. Partial: at most 50 fits, early stop only with stable filter, delay = int of the one used; exact for integer tau; termination

### C76 fit_som recovers exact second order system parameters (proved)

* Modelled: `fit_som`
* Method: normal equations of three parameters, full rank from distinct frequencies
* Theorems (T_Som): `C76_exact`, `C76_with_uncertainty`, `C76_monte_carlo`, `C76_rejects`
* Note: numpy.linalg.solve/inv assumed exact; weightings None, other string, array; linear propagation also diag; Monte Carlo with vanishing uncertainty; rejected arguments

### C77 fit_som uses the true Jacobian (partial)

* Modelled: `fit_som` sensitivity matrix
* Method: derivatives; witness
* Theorems (T_Som): `C77_jacobian_partial`, `C77_delta_refuted`
* Note: REFUTED: the derivatives of the damping use |mu0+mu2| instead of |mu0 mu2| (variance 1/4 instead of 1/2 in the witness, the Monte Carlo path gives 1/2). Partial: rows and columns of S0 and f0

### C78 Signal construction sets a consistent time base (partial)

* Modelled: `Signal.__init__`
* Method: case analysis of attributes; bounds of the mean of differences
* Theorems (T_Reject, T_SigClass): `C78_cube_partial`, `C78_derived_time_base_partial`, `C78_equidistant_partial`, `C78_given_interval_partial`, `C78_pointwise_partial`, `C78_rejects`, `C78_consistent_refuted`
* Note: REFUTED: Fs alone, Fs with matching Ts, or an integer Ts leave Fs (and Ts) without value; a Ts contradicting the time axis and a covariance of another size are accepted; one value with one uncertainty raises IndexError. Partial: derived and given Ts, point-wise uncertainties; rejected arguments

### C79 Signal.apply_filter propagates the signal's own uncertainty (partial)

* Modelled: `Signal.apply_filter`, FIR
* Method: rewriting to C02; witness
* Theorems (T_SigClass): `C79_autocovariance_partial`, `C79_pointwise_refuted`
* Note: REFUTED: the point-wise uncertainties are handed to FIRuncFilter as an autocovariance (kind corr): the identity filter turns 2 into sqrt 2. Partial: exact propagation for a signal with this autocovariance

### C80 Signal.apply_filter always applies the filter (partial)

* Modelled: `Signal.apply_filter`, FIR and IIR, MonteCarloRuns
* Method: case analysis
* Theorems (T_Reject, T_SigClass): `C80_scalar_variance_partial`, `C80_fir_partial`, `C80_iir_partial`, `C80_iir_runs_unchanged_partial`, `C80_applied_refuted`, `C80_raises`
* Note: REFUTED: an IIR filter together with MonteCarloRuns leaves the signal unchanged. Partial: FIR values; IIR without runs gives mean and covariance of the simulated outputs; remaining combinations raise

### C81 Coefficient-wise uncertainties are accepted whatever else is requested (partial)

* Modelled: general path with 1D Utheta
* Method: evaluation
* Theorems (T_Filter): `C81_vector_utheta_refuted`, `C81_diagonal_utheta_partial`
* Note: REFUTED: ValueError on the general path. Partial: the corresponding diagonal matrix is accepted

### C82 Integer-typed arrays give the same uncertainty as the same values as floats (partial)

* Modelled: np.full_like with the element type of y
* Method: witness 1/2 truncated to 0
* Theorems (T_Filter): `C82_integer_arrays_refuted`, `C82_full_result_partial`
* Note: REFUTED: np.full_like truncates the variance for integer y. Partial: the full covariance does not depend on the element type

### C83 A mask selects lines of estimate and uncertainty (proved)

* Modelled: mask of GUM_DFT
* Method: selection lemma
* Theorems (T_DFT): `C83_mask_selects_lines`, `C83_mask_length_checked`

### C84 Returned sensitivities can be reused (proved)

* Modelled: returned Cxkc/Cxks
* Method: determinism of the sensitivity matrices
* Theorems (T_DFT): `C84_reuse_sensitivities`
* Note: including windows, masks, padding, exceptions

### C85 Frequency domain covariances are positive semi-definite (proved)

* Modelled: DFT family
* Method: congruence J U J^T of a p.s.d. matrix
* Theorems (T_AmpPhase, T_DFT): `C85_amp_phase_psd`, `C85_real_imag_psd`, `C85_multiply_psd`, `C85_deconv_psd`, `C85_dft_psd`
* Note: one theorem per function; amplitudes and denominators different from zero

### C86 GUM_DFTfreq gives the frequencies of the lines of GUM_DFT (proved)

* Modelled: `GUM_DFTfreq`
* Method: arithmetic
* Theorems (T_DFT): `C86_frequencies_of_lines`, `C86_refused`

### C87 Time2AmpPhase propagates with the true Jacobian (proved)

* Modelled: `Time2AmpPhase`
* Method: chain rule for partial derivatives
* Theorems (T_AmpPhase): `C87_time_to_amp_phase`
* Note: chain rule through the DFT, any branch of the phase

### C88 progress_bar shows the completed fraction (proved)

* Modelled: `progress_bar`
* Method: string lemmas, rounding of the filled length
* Theorems (T_Tools): `C88_progress_bar`, `C88_no_iterations`

### C89 Sparse storage is accepted by make_semiposdef for every size (partial)

* Modelled: sparse branch of make_semiposdef, scipy eigs needs k < n - 1
* Method: evaluation
* Theorems (T_Tools): `C89_sparse_any_size_refuted`, `C89_small_sparse_always_fails`, `C89_large_sparse_partial`
* Note: REFUTED: eigs with k=6 raises TypeError for sizes up to 7. Partial: from 8 x 8 on dense and sparse agree up to the multiple of the identity

### C90 Integer fill values are accepted (partial)

* Modelled: isinstance(fill_unc, float)
* Method: evaluation
* Theorems (T_Interp): `C90_int_fill_unc_refuted`, `C90_int_fill_partial`
* Note: REFUTED: TypeError for int fill_unc with the linear kind. Partial: the look-up kinds, and fill_value for all kinds

### C91 A single data point can be looked up (partial)

* Modelled: single node
* Method: evaluation (0/0)
* Theorems (T_Interp): `C91_single_point_refuted`, `C91_single_point_partial`
* Note: REFUTED: NaN uncertainty for the linear kind. Partial: look-up kinds

### C92 UMC evaluates the documented block diagram (proved)

* Modelled: `UMCevaluate`, `UMC`
* Method: lfilter recursion satisfies the difference equation
* Theorems (T_MC3): `C92_lfilter`, `C92_evaluate`, `C92_umc`, `C92_empty_lowpass`
* Note: ARMA noise and uniform draws are arguments

### C93 grpdelay is the negative slope of the phase (partial)

* Modelled: `grpdelay` through zero-padded FFT ratios
* Method: derivative of the phase of a polynomial quotient on the unit circle
* Theorems (T_FilterStuff): `C93_group_delay_partial`, `C93_frequencies`, `C93_long_filter_refuted`
* Note: REFUTED: filters with more than 2 nfft combined coefficients are silently cut. Partial: exact otherwise (bins with |B||A| < 1e-12 give -(len(a)-1))

### C94 savitzky_golay reproduces polynomials (proved)

* Modelled: `savitzky_golay`, pinv as argument
* Method: Vandermonde evaluation, Horner derivative
* Theorems (T_FilterStuff, T_SgEnds): `C94_polynomials`, `C94_pderiv`, `C94_least_squares`, `C94_shape`, `C94_index_error`, `C94_rising_lines`
* Note: pinv assumed to be a left inverse / to fulfil the normal equations

### C95 savitzky_golay is linear (partial)

* Modelled: edge padding of savitzky_golay
* Method: linearity in the interior; witness
* Theorems (T_FilterStuff): `C95_linearity_refuted`, `C95_interior_linear_partial`, `C95_scale_shift_partial`
* Note: REFUTED: edge padding takes absolute values. Partial: linear in the interior, commutes with non-negative scaling and shifts everywhere

### C96 kaiser_lowpass returns its delay (partial)

* Modelled: `kaiser_lowpass`, firwin/kaiserord as symmetric coefficients
* Method: symmetry of the coefficients
* Theorems (T_FilterStuff): `C96_delay_partial`, `C96_rate_partial`, `C96_shift_refuted`
* Note: REFUTED: shift = L/2 is half a sample too much and never an integer. Partial: the delay is shift - 1/2; length, cutoff and errors passed on to firwin

### C97 impinvar is impulse invariant (partial)

* Modelled: `impinvar`, `imp_loop`, `z_res`, `to_real`; scipy.signal.residue and invres as oracles
* Method: convolution of the denominator with the sampled modes gives the numerator; residues of a real function with distinct poles are conjugate at conjugate poles (evaluation at the poles); the response for sum |r| sign(Re r) <> h(0) differs by a multiple of the response of the denominator cut by one; witnesses for complex residues and h(0) = 0
* Theorems (T_FilterStuff, T_ImpSimple): `C97_impulse_invariance_partial`, `C97_complex_residues_refuted`, `C97_zero_start_refuted`, `C97_repeated_poles`, `C97_direct_part`, `C97_simple_poles_partial`, `C97_iff_partial`, `C97_advance_partial`
* Note: REFUTED: complex residues (to_real), responses with h(0)=0 (invres drops the constant, result is one sample early); repeated poles raise. Partial: for distinct poles and k = sum |r| sign(Re r) <> 0 the exact response, impulse invariant if and only if k = h(0); advanced by one sample if k = h(0) = 0

### C98 power_law_noise shapes the spectrum as announced (partial)

* Modelled: spectral shaping in power_law_noise
* Method: linspace arithmetic; witness
* Theorems (T_Noise): `C98_spectrum_refuted`, `C98_actual_law_partial`
* Note: REFUTED: linspace(0,steps,steps)+1 is not 1,2,3,...  Partial: the spectrum follows (k*steps/(steps-1)+1)^(alpha/2)

### C99 power_law_acf is a valid autocovariance (proved)

* Modelled: `power_law_acf`
* Method: p.s.d. by spectral representation
* Theorems (T_Noise): `C99_acf`, `C99_errors`

### C100 sos_realimag returns mean and sample covariance of the drawn systems (proved)

* Modelled: `sos_realimag`
* Method: sample statistics
* Theorems (T_Signals): `C100_realimag`, `C100_returns`
* Note: randn values are arguments

### C101 corr_noise.calc_noise2 generates noise (partial)

* Modelled: `corr_noise.calc_noise2`
* Method: evaluation
* Theorems (T_Signals): `C101_calc_noise2_refuted`, `C101_always_fails_partial`
* Note: REFUTED: np.ceil returns a float, randn rejects it. Partial: every call raises

### C102 isstable guarantees bounded outputs (partial)

* Modelled: `isstable` and lfilter
* Method: partial fraction free bound: products of first order recursions
* Theorems (T_FilterStuff): `C102_marginal_refuted`, `C102_strictly_inside_partial`
* Note: REFUTED: poles on the unit circle are accepted. Partial: bounded outputs if all poles are strictly inside

### C103 ua returns a continuous phase (proved)

* Modelled: `ua`, numpy.unwrap
* Method: integer multiples of 2 pi, induction
* Theorems (T_FilterStuff): `C103_angle`, `C103_jumps`, `C103_recovers`

### C104 impinvar_causal removes the first value only (proved)

* Modelled: `impinvar_causal`
* Method: algebra of polynomials
* Theorems (T_FilterStuff): `C104_causal`

### C105 invLSFIR_uncMC returns mean and covariance of the fits to the drawn responses (proved)

* Modelled: `invLSFIR_uncMC`
* Method: sample statistics of least squares solutions
* Theorems (T_Fit, T_Reject): `C105_mean_and_covariance_of_fits`, `C105_no_uncertainty`, `C105_rejects`
* Note: draws nonzero, least squares solver exact; also rejected arguments

### C106 LSIIR and invLSIIR fits are least squares solutions of the linearised problem (proved)

* Modelled: `LSIIR`/`invLSIIR` with justFit
* Method: normal equations of the linearised problem
* Theorems (T_FitArgs, T_FitIIR): `C106_response_lengths`, `C106_least_squares`, `C106_inverse_least_squares`, `C106_exact_recovery`, `C106_inverse_exact_recovery`
* Note: least squares solver assumed exact; also one response value for all frequencies and rejected lengths

### C107 invLSIIR_unc returns mean and covariance of the fits to the drawn responses (proved)

* Modelled: `invLSIIR_unc`
* Method: sample statistics
* Theorems (T_FitIIR): `C107_mean_and_covariance`, `C107_no_uncertainty`, `C107_shape`
* Note: least squares solver assumed exact, draws are arguments; wrong shape of UH

### C108 fit_som recovers systems with negative static gain (partial)

* Modelled: `fit_som` for negative gain
* Method: sign of sqrt
* Theorems (T_Som): `C108_negative_gain_partial`, `C108_negative_gain_refuted`
* Note: REFUTED: the damping has the wrong sign for S0 < 0. Partial: (S0, sign(S0) delta, f0) is returned

### C109 fit_som is the weighted least squares fit of the reciprocal response (proved)

* Modelled: `fit_som`
* Method: weighted normal equations; linear propagation; sample statistics
* Theorems (T_Som): `C109_least_squares`, `C109_linear_propagation`, `C109_monte_carlo`
* Note: numpy.linalg.solve/inv assumed exact; full covariance weighting cov is not covered

### C110 fit_som honours user weights (partial)

* Modelled: `fit_som` weighting array
* Method: criterion minimised; witness
* Theorems (T_Som): `C110_divides_partial`, `C110_weights_refuted`
* Note: REFUTED: the weights act as variances (the deviations are divided by them). Partial: what is minimised

### C111 MC and UMC apply the filter (b, a) that was given (partial)

* Modelled: `MC`, `UMC` denominator
* Method: response to a pulse; witness
* Theorems (T_SigClass): `C111_normalised_partial`, `C111_pulse_partial`, `C111_denominator_refuted`, `C111_UMC_refuted`
* Note: REFUTED: a[0] is dropped and replaced by 1, by MC and by UMC. Partial: a[0] = 1; for a[0] <> 1 the response to a pulse is always wrong

### C112 trunc_svd_tol removes ill-determined directions from the filter (proved)

* Modelled: `invLSFIR_unc` with trunc_svd_tol
* Method: singular value expansion, orthogonality
* Theorems (T_Fit2): `C112_truncated`
* Note: singular value decomposition assumed exact

### C113 IIRuncFilter, once tf2ss is importable, returns output and correct uncertainty (partial)

* Modelled: `IIRuncFilter` with scipy.signal.tf2ss supplied (M_IIR.v)
* Method: case analysis of the raised errors; state recursion against the difference equation, impulse response and derivative with respect to a_1; witnesses
* Theorems (T_IIR): `C113_array_partial`, `C113_array_refuted`, `C113_order_partial`, `C113_estimate_partial`, `C113_noise_refuted`, `C113_coefficients_refuted`, `C113_alias_refuted`, `C113_alias_partial`, `C113_noise_partial`
* Note: REFUTED: even with tf2ss, an ndarray as Uab and every order other than one raise; the noise variance is counted twice, the uncertainty of b_0 is ignored at the first sample, the sensitivity to a_1 is that of the next sample. Partial: the output is the filter response whenever a call returns; formulas of what is reported for noise and for a_1

### C114 sos_absphase returns mean and sample covariance of amplitude and phase (partial)

* Modelled: `sos_absphase`, `ua` over the runs
* Method: unwrapped phases up to 2 pi k (C103), sample covariance invariant under shifts; two orders of three draws
* Theorems (T_More): `C114_absphase_partial`, `C114_order_refuted`
* Note: REFUTED: the phases are unwrapped from run to run, so that the covariance depends on the order of the draws. Partial: correct if the phases of the draws differ by less than pi

### C115 db is the decibel scale (proved)

* Modelled: `db`
* Method: logarithm laws
* Theorems (T_More): `C115_decibel`, `C115_product`

### C116 print_vec and print_mat lay out every entry once and in order (proved)

* Modelled: `print_vec`, `print_mat`
* Method: induction over the text, splitting at separators
* Theorems (T_More): `C116_vector`, `C116_matrix`
* Note: number format is an argument

### C117 The deprecated modules deconvolution and identification give the results of model_estimation (proved)

* Modelled: wrappers in `deconvolution`, `identification`
* Method: exact recovery theorems of C71, C105, C106, C107, C76 through the wrappers
* Theorems (T_More): `C117_deconvolution_fir`, `C117_deconvolution_iir`, `C117_identification`
* Note: least squares solver, SVD, solve assumed exact, draws are arguments

### C118 DFT_transferfunction recovers the frequency response of the system (proved)

* Modelled: `DFT_transferfunction` (= `DFT_deconv`)
* Method: through C36 and C37
* Theorems (T_Signals2): `C118_recovers_system`, `C118_quotient`, `C118_errors`
* Note: covariance for exactly known X only; the part due to UX is subject to C37

### C119 The argument noise of the test signals is the standard deviation of the noise (partial)

* Modelled: argument noise of the functions of testsignals.py
* Method: mean and covariance of an affine function of white noise; two-point distribution as witness
* Theorems (T_Signals2): `C119_multi_sine_refuted`, `C119_multi_sine_partial`, `C119_std_partial`, `C119_negative_partial`
* Note: REFUTED: multi_sine scales the noise by noise**2. Partial: correct for the other five signals; multi_sine has standard deviation noise**2

### C120 The propagated covariance does not depend on the element type of the covariance matrix (partial)

* Modelled: `_prod` on a matrix of integers and its callers (M_Typed.v)
* Method: entries as sums of truncated products; bound by 1 + |factor| per product
* Theorems (T_Typed): `C120_float_partial`, `C120_real_imag_refuted`, `C120_amp_phase_refuted`, `C120_multiply_refuted`, `C120_window_refuted`, `C120_integers_partial`, `C120_error_partial`
* Note: REFUTED: products are truncated to integers: variance 0 instead of 1 (AmpPhase2DFT, DFT2AmpPhase), 0 instead of 1/4 (DFT_multiply), 0 instead of 1/2 (window). Partial: float matrices; exact for integer sensitivities; error at most 6 + 2 max|A| per entry of AmpPhase2DFT

### C121 A covariance matrix may be given as sparse diagonal matrix (partial)

* Modelled: reading of a `dia_matrix` in AmpPhase2DFT, AmpPhase2Time (M_Typed.v)
* Method: model of the stored diagonals and of Python slices
* Theorems (T_Typed): `C121_main_diagonal_refuted`, `C121_main_diagonal_fails_partial`, `C121_sorted_refuted`, `C121_sorted_dft_refuted`, `C121_own_order_partial`, `C121_sorted_partial`, `C121_sizes_partial`
* Note: REFUTED: sparse.diags(variances) always raises IndexError; sparse.dia_matrix(array) makes AmpPhase2Time take covariances for variances (1/4 instead of 1/2) and AmpPhase2DFT raise ValueError. Partial: storage order main, upper, lower; sizes that do not fit are rejected alike

### C122 Test signals accept integer time instants (partial)

* Modelled: `squarepulse`, `multi_sine` on an integer time axis (M_Typed.v)
* Method: case analysis
* Theorems (T_Typed): `C122_integer_time_refuted`, `C122_kinds_partial`
* Note: REFUTED: squarepulse (with a pulse or noise) and multi_sine raise TypeError for integer time instants. Partial: float instants; always TypeError with pulses or noise

### C123 calc_autocorr returns the sample autocorrelation of the generated noise (proved)

* Modelled: `corr_noise.calc_autocorr`, `np.corrcoef` (M_Typed.v)
* Method: Cauchy-Schwarz inequality; nan is `None`
* Theorems (T_Typed): `C123_autocorr`, `C123_periodic`, `C123_no_noise`

### C124 MC accepts every covariance matrix of the signal (partial)

* Modelled: `MC`: `scipy.stats.multivariate_normal(x, Ux)`; the smallest eigenvalue is an oracle whose sign is right
* Method: case analysis; singular 2 x 2 matrix as witness
* Theorems (T_MCcov): `C124_definite_partial`, `C124_singular_partial`, `C124_indefinite_partial`, `C124_one_sample_partial`, `C124_accepted_refuted`
* Note: REFUTED: every singular covariance matrix raises LinAlgError; a single sample with a covariance matrix raises ValueError. Partial: definite matrices of two samples or more are accepted, others are rejected with ValueError

### C125 The uncertainty returned by a Monte Carlo evaluation is the covariance matrix of the estimate (partial)

* Modelled: `np.cov` on one row and on no row (M_MC.v), in `MC`, `fit_som`, `FreqResp2RealImag`
* Method: C55, the fits of C109; quadratic form of a sample covariance; witnesses without any uncertainty
* Theorems (T_MCcov, T_MCone): `C125_matrix_partial`, `C125_single_partial`, `C125_single_refuted`, `C125_som_partial`, `C125_som_refuted`, `C125_freqresp_partial`, `C125_freqresp_refuted`
* Note: REFUTED: for one (stable) run np.cov takes the single row for the observations: MC returns the variance over time, fit_som the variance over (S0, delta, f0), FreqResp2RealImag the variance over all real and imaginary parts, as one number (1/2, more than 1/2, 1/2 for exactly known inputs). Partial: covariance matrix for two runs or more; the value returned for one

### C126 N is ignored by power_law_noise if w is given (partial)

* Modelled: `power_law_noise`, argument handling
* Method: case analysis
* Theorems (T_Noise): `C126_only_w_partial`, `C126_both_partial`, `C126_ignored_refuted`
* Note: REFUTED: N together with w raises UserWarning, also for N = len(w). Partial: w alone is used as it is

### C127 A list has the effect of the array with the same entries (partial)

* Modelled: list arguments of `interp1d_unc`, `make_semiposdef`, `print_mat`, `FreqResp2RealImag` (M_Seq.v)
* Method: case analysis; C40 for the array
* Theorems (T_Seq): `C127_interp_partial`, `C127_linear_partial`, `C127_interp_refuted`, `C127_matrices_partial`, `C127_matrices_refuted`
* Note: REFUTED: a list t_new raises TypeError for the linear kind as soon as one point lies within the range of the data; lists always raise AttributeError in make_semiposdef, print_mat, FreqResp2RealImag. Partial: kinds previous, next, nearest; linear kind outside the range

### C128 FIR filtering superposes (proved)

* Modelled: `FIRuncFilter`, all options
* Method: C01 (the estimate), linearity of sums; the covariance of C02 with the signal terms gone
* Theorems (T_Filter2): `C128_superposition`, `C128_superposition_of_filters`, `C128_uncertainty_without_signal`, `C128_pointwise_without_signal`
* Note: estimate for all options; uncertainty with known coefficients, full covariance with any noise and low-pass, standard deviations for pointwise noise

### C129 FIR filtering commutes with a delay (proved)

* Modelled: `FIRuncFilter`
* Method: the formula of the covariance in terms of the stationary continuation of the signal; a delayed signal has the same continuation
* Theorems (T_Filter2): `C129_time_invariant_full`, `C129_time_invariant_pointwise`
* Note: full covariance for stationary noise (float, corr), standard deviations for pointwise noise; coefficients with any covariance

### C130 More input uncertainty never gives less output uncertainty (proved)

* Modelled: `FIRuncFilter`, `convolve_unc`, the DFT functions, `interp1d_unc`
* Method: J U J^T is monotone in U for every J; the difference of the covariances is itself the covariance of a filter output
* Theorems (T_Filter2, T_Interp2, T_Order): `C130_fir_full`, `C130_fir_pointwise`, `C130_convolution`, `C130_interpolation`, `C130_dft`, `C130_idft`, `C130_amp_phase`, `C130_real_imag`, `C130_multiply`, `C130_deconv`
* Note: order of semidefinite matrices, hence also of all variances; FIRuncFilter full covariance and standard deviations; interpolation inside the range; amplitudes and denominators different from zero

### C131 Exactly known inputs give exactly known outputs (proved)

* Modelled: the functions of C130
* Method: every term of the propagated covariance has a factor from the input covariance
* Theorems (T_Filter2, T_Interp2, T_Order): `C131_fir_full`, `C131_fir_pointwise`, `C131_convolution`, `C131_interpolation`, `C131_dft`, `C131_idft`, `C131_amp_phase`, `C131_real_imag`, `C131_multiply`, `C131_deconv`
* Note: all listed functions; interpolation inside the range; amplitudes and denominators different from zero

### C132 Interpolation does not depend on the units (proved)

* Modelled: `interp1d_unc` with scipy's interp1d, np.interp, searchsorted
* Method: every comparison is invariant under a positive affine map; chord and weights by algebra; equality of whole results
* Theorems (T_Interp2): `C132_units`
* Note: equality of the complete result including error cases; axis increasing (unsorted axes: C45), two nodes or more for the linear kind (one node: C91), integer fill values excluded (C90)

### C133 DFT, inverse DFT, amplitudes and phases, products do not depend on the units (proved)

* Modelled: `GUM_DFT`, `GUM_iDFT`, `DFT2AmpPhase`, `AmpPhase2DFT`, `DFT_multiply`
* Method: the propagation formulas of C23, C27, C29, C30, C38 term by term; arctan2(cy, cx) = arctan2(y, x)
* Theorems (T_Order): `C133_dft`, `C133_idft`, `C133_amp_phase`, `C133_real_imag`, `C133_multiply`
* Note: covariance entry by entry; DFT2AmpPhase for c > 0 and non-zero amplitudes; AmpPhase2DFT with a full covariance matrix

### C134 Deconvolution does not depend on the units (partial)

* Modelled: `DFT_deconv`
* Method: one frequency line as witness; algebra for an exactly known transfer function
* Theorems (T_Order): `C134_deconv_units_refuted`, `C134_exact_system_partial`
* Note: REFUTED: Y in other units with an uncertain transfer function (line 1007 adds iH^3 where iY iH^2 is meant, C37). Partial: holds for an exactly known transfer function

### C135 AmpPhase2Time inverts Time2AmpPhase (partial)

* Modelled: `Time2AmpPhase`, `AmpPhase2Time`
* Method: product of the two Jacobians (C29, C30, C27) is the identity for even lengths; C26
* Theorems (T_APRound): `C135_odd_length_always_short`, `C135_odd_length_refuted`, `C135_even_length_partial`
* Note: REFUTED: for an odd number n >= 3 of samples the returned signal has n-1 samples. Partial: for even lengths without vanishing spectral lines the signal, its variances and the symmetrised covariance are recovered

### C136 Credible intervals are nested (proved)

* Modelled: `UMC`
* Method: the q-quantile of a histogram is monotone in q (C54); only the credible bounds depend on the credibility
* Theorems (T_MC4): `C136_nested`
* Note: elements with at least one counted sample (others have no bounds: C54)

### C137 MC returns unbiased estimates (proved)

* Modelled: `MC`; random numbers as sequences with a distribution (S_Rand.v), which exist for every single-draw distribution
* Method: C55 for each outcome; expectations of mean and scatter of pairwise independent draws
* Theorems (T_MC4): `C137_unbiased`
* Note: all draws stable, two runs or more, two samples or more; distributions with finitely many outcomes, draws pairwise independent

### C138 UMC_generic returns unbiased estimates (partial)

* Modelled: `UMC_generic`; random numbers as for C137
* Method: C48, C49 for each outcome; expectation of the scatter of all draws and of the first block; coin as witness
* Theorems (T_MC4): `C138_expectations_partial`, `C138_unbiased_refuted`
* Note: REFUTED: the expected covariance is too large by the factor 1 + (bs-1)(bs-2)/(B bs - 1) for B blocks of size bs (consequence of C49). Partial: the factor for every block size; mean unbiased

### C139 Filter fits use frequencies relative to the sampling rate (proved)

* Modelled: all fits in fit_filter.py
* Method: 2 pi f / Fs is the only use of f and Fs; the group delay is in samples
* Theorems (T_Units): `C139_fir`, `C139_iir`
* Note: equality of the complete results including errors; least squares, roots, SVD and random numbers as oracles

### C140 fit_som does not depend on the unit of frequency (partial)

* Modelled: `fit_som`, all three paths
* Method: the weighted least squares fits (C109) for both units are related by a diagonal matrix, fits are unique; two explicit frequencies as witness
* Theorems (T_Units): `C140_estimate_partial`, `C140_monte_carlo_partial`, `C140_linear_partial`, `C140_damping_refuted`
* Note: REFUTED: doubling all frequencies changes the variance of the (dimensionless) damping from 1/4 to 1/10 in the linear propagation (mu_0 + mu_2 is added in lines 153-168, quantities of different dimension). Partial: estimates; mean and covariance of Monte Carlo; covariances of gain and resonance frequency

### C141 Monte Carlo results of the fits are unbiased (proved)

* Modelled: `invLSFIR_uncMC`, `invLSIIR_unc`, `fit_som`, `sos_realimag`, `FreqResp2RealImag`; random numbers as for C137
* Method: C71, C73, C76, C100, C21 for each outcome; expectations of mean and scatter of pairwise independent draws
* Theorems (T_Unbiased): `C141_fir`, `C141_iir`, `C141_som`, `C141_sos`, `C141_freqresp`
* Note: two runs or more; distributions with finitely many outcomes, draws pairwise independent; least squares solver, roots and SVD as oracles

### C142 make_equidistant leaves equidistant data as they are (partial)

* Modelled: `make_equidistant`
* Method: C47 (the grid) and C42 (interpolation at the nodes)
* Theorems (T_Agree): `C142_all_but_last_partial`, `C142_unchanged_refuted`
* Note: REFUTED: in exact arithmetic np.arange(min, max, dt) excludes the end, the last sample is lost. Partial: all other samples come back with value and uncertainty

### C143 MC and FIRuncFilter agree for FIR filters (partial)

* Modelled: `MC`, `FIRuncFilter`
* Method: C137 (expectation of MC), C02 (covariance of FIRuncFilter), covariance of a product of independent random vectors; one example for the transient
* Theorems (T_Agree): `C143_past_transient_partial`, `C143_transient_refuted`
* Note: REFUTED: in the transient (first len(b)-1 samples) MC starts at rest while FIRuncFilter continues the signal into the past: mean 1 against 2, variance 3 against 4. Partial: equal for all later samples

### C144 Parseval's relation for GUM_DFT (proved)

* Modelled: `GUM_DFT`
* Method: closed forms of estimate and covariance (C22, C23); orthogonality of the roots of unity, folded to the half spectrum
* Theorems (T_Parseval): `C144_estimate`, `C144_variance`
* Note: full covariance or uncertainty vector; sensitivities computed by the function itself for the variances

### C145 Power spectral density of corr_noise.calc_psd (proved)

* Modelled: `corr_noise.calc_psd` with `scipy.signal.periodogram` (default arguments: constant detrending, boxcar, density, one-sided)
* Method: the same orthogonality with the detrended noise; case analysis of the arguments
* Theorems (T_Parseval): `C145_psd`, `C145_arguments`
* Note: keyword arguments of scipy.signal.periodogram at their defaults

### C146 power_law_noise depends on the shape of its input only (proved)

* Modelled: `power_law_noise`, `coloured`
* Method: rfft of a scaled and shifted sequence; standardisation removes factor and offset
* Theorems (T_Inv): `C146_scale_offset`
* Note: w given; real numbers

### C147 A delayed impulse delays and scales, value and uncertainty (proved)

* Modelled: `FIRuncFilter`, `convolve_unc`
* Method: closed forms of C02 and C12; all sums have one term
* Theorems (T_Assoc): `C147_fir_delay`, `C147_convolve_delay`
* Note: full covariance requested; filter coefficients certain

### C148 A low-pass followed by a filter is one filter (partial)

* Modelled: `FIRuncFilter` with `blow`
* Method: closed form of the covariance for both paths; sums over a convolution are double sums; covariances with past samples depend on the lag only; explicit filters as witness
* Theorems (T_Assoc): `C148_cascade_partial`, `C148_short_signal_refuted`
* Note: REFUTED: for signals shorter than the second filter the low-pass path loses the covariance of lags beyond the signal: variance 6 instead of 8 for two samples, [1,1,1] followed by [1,0,1]. Partial: estimates everywhere; covariances after the transient and whenever |i-j| + len(b2) <= len(y)

### C149 Linear interpolation reproduces lines, keeps order and bounds (proved)

* Modelled: `interp1d_unc`
* Method: C40 (the chord), convexity
* Theorems (T_Lines): `C149_straight_line`, `C149_between_neighbours`, `C149_middle`, `C149_monotone`
* Note: kind linear, points inside the range of the nodes

### C150 Full convolution is associative, value and covariance (proved)

* Modelled: `convolve_unc`, mode full
* Method: the second moments U + y y^T are the two-dimensional convolution of the second moments of the factors; this is associative
* Theorems (T_Assoc): `C150_associative`
* Note: lengths two or more

### C151 Results do not depend on the available memory (partial)

* Modelled: `GUM_DFT_mem`, `DFT_deconv_mem`, `GUM_iDFT_mem`, `DFT2AmpPhase_mem`, `Time2AmpPhase_mem` (M_Mem.v): the same code with an oracle that says whether the full matrix can be assembled
* Method: branch by branch comparison with the functions of M_DFT.v; an explicit call as witness
* Theorems (T_Mem): `C151_gum_dft`, `C151_deconv`, `C151_next_partial`, `C151_next_refuted`, `C151_back_partial`, `C151_back_refuted`
* Note: REFUTED: functions that take the covariance (GUM_iDFT, DFT2AmpPhase, hence Time2AmpPhase) raise AttributeError for the tuple of blocks. Partial: blocks are those of the matrix for GUM_DFT and DFT_deconv; scalar variances unaffected

### C152 Convolution theorem with covariances (proved)

* Modelled: `convolve_unc`, `GUM_DFT`, `DFT_multiply`
* Method: second moments of a convolution (C150), closed forms of GUM_DFT (C23) and DFT_multiply (C37), exp(-iw(m+a)) = exp(-iwm) exp(-iwa)
* Theorems (T_ConvThm): `C152_convolution_theorem`, `C152_exact_kernel`
* Note: lengths two or more; no window, mask or explicit sensitivities

### C153 Deconvolution undoes a convolution, value and covariance (proved)

* Modelled: `convolve_unc`, `GUM_DFT`, `DFT_deconv`, `GUM_iDFT`
* Method: C152 for an exactly known factor, the Jacobian of the division (C37) applied to the Jacobian of the product is the identity, C26-C28
* Theorems (T_Pipeline): `C153_deconvolution`
* Note: kernel exactly known; the last part for an even number of samples (odd: C135)

### C154 A cyclic delay changes the phases only (proved)

* Modelled: `Time2AmpPhase`, `GUM_DFT`, `DFT2AmpPhase`
* Method: re-indexing of the DFT sums; the Jacobian of amplitude and phase is unchanged by a rotation of the spectral line
* Theorems (T_Delay): `C154_delay`
* Note: full covariance; all lines with non-zero amplitude

### C155 Stationary noise is stationary after an FIR filter (partial)

* Modelled: `FIRuncFilter`, general path
* Method: closed form of the general path; the continued covariance depends on the lag only
* Theorems (T_Stationary): `C155_stationary_partial`, `C155_stationary_refuted`
* Note: REFUTED: of an autocovariance with more values than the signal has samples the lags >= len(y) are ignored: variance 2 instead of 3 for one sample, theta = [1,1], r = [1,1/2]. Partial: Toeplitz always; the autocovariance of the filtered noise if lags >= len(y) vanish

### C156 sos_FreqResp shows the resonance of a second order system (proved)

* Modelled: `sos_FreqResp`
* Method: |denominator|^2 = (f^2 - f0^2 (1-2d^2))^2 + 4 d^2 (1-d^2) f0^4 (up to the factor (2 pi)^4)
* Theorems (T_Sos): `C156_resonance`
* Note: scalar parameters (arrays: C70)

### C157 sos_FreqResp evaluates its documented formula (partial)

* Modelled: `sos_FreqResp`
* Method: the formula of the documentation as specification; parameters 1, 1, 1 at f = 1 as witness
* Theorems (T_Sos): `C157_documented_partial`, `C157_documented_refuted`
* Note: REFUTED: the formula in the documentation has f where the code (rightly) has 2 pi f. Partial: it holds with the angular frequency in place of f

### C158 Group delays: linear phase, filters in series, inverse filters (proved)

* Modelled: `grpdelay`
* Method: the value is Re(B'/B) - Re(A'/A) with the derivatives of the responses (product rule for convolutions); conjugation for reversed coefficients
* Theorems (T_GrpDelay): `C158_linear_phase`, `C158_cascade`, `C158_inverse`
* Note: len(b) + len(a) - 1 <= 2 nfft, |B||A| >= 1e-12 at the frequency (otherwise C93)

### C159 Interpolating interpolated data (partial)

* Modelled: `interp1d_unc` (linear)
* Method: chord of a chord; difference of the two variances in closed form; two nodes as witness
* Theorems (T_Twice): `C159_twice_partial`, `C159_twice_refuted`
* Note: REFUTED: uncertainties between the grid points are too small after the second step (10/16 against 6/16 for the variance) as correlations of the interpolated values are not passed on. Partial: same values, uncertainty never larger, exact difference, equal at the grid points

### C160 fit_som does not depend on the unit of the response (partial)

* Modelled: `fit_som`
* Method: scaling of the weighted normal equations (unique solution), of the derived parameters and of sample covariances; an explicit fit with two frequencies as witness
* Theorems (T_SomGain): `C160_estimate_partial`, `C160_monte_carlo_partial`, `C160_linear_partial`, `C160_damping_refuted`
* Note: REFUTED: the variance of the damping is halved in a unit half as large (1/8 instead of 1/4), as the linear propagation uses mu_0 + mu_2 where mu_0 mu_2 belongs. Partial: estimates, Monte Carlo covariances, gain and resonance part of the linear propagation

### C161 Filter fits follow the unit of the response (proved)

* Modelled: `invLSFIR`, `invLSFIR_unc`, `invLSFIR_uncMC`, `LSIIR`, `invLSIIR`
* Method: least squares solutions of independent columns are homogeneous in the right hand side; equation error fits: parallelogram identity for uniqueness, scaling of the misfit
* Theorems (T_FitGain): `C161_invLSFIR`, `C161_invLSFIR_uncMC`, `C161_invLSFIR_unc`, `C161_LSIIR`, `C161_invLSIIR`
* Note: least squares solver exact, responses and draws nonzero, the frequencies determine the filter; normal draws scale with mean and standard deviations; IIR: first fit stable or justFit

### C162 Group delays and the stabilisation of IIR fits do not depend on the gain (partial)

* Modelled: `grpdelay`, `LSIIR`
* Method: closed form of the group delay (C158); for the witness 1/(1-2z^-1) at a quarter of the sampling rate all passes of the loop are followed: group delay differences 3/(5-4 cos w), a bound for their median by counting, delay one and a stable fit; below the tolerance all differences are zero for all 49 passes
* Theorems (T_FitTol): `C162_group_delay_partial`, `C162_stabilisation_refuted`
* Note: REFUTED: grpdelay counts |B A| < 1e-12 as a pole, so in a unit 1e13 times as large the delay correction vanishes and LSIIR returns an unstable filter after 49 passes, while it finds a stable one in the original unit. Partial: group delays above the tolerance do not depend on the gain

### C163 Interpolation is local and the same when time is read backwards (partial)

* Modelled: `interp1d_unc` (linear, previous, next, nearest)
* Method: segment i of the data is segment n-2-i of the reversed data, same chord and variance; for lookups uniqueness of the node (C42); two nodes as witness
* Theorems (T_Backwards): `C163_linear`, `C163_lookup_partial`, `C163_nearest_refuted`, `C163_local`
* Note: REFUTED: half-way between two nodes "nearest" takes the earlier node, so that the result depends on the direction of time. Partial: linear in full, locality, previous/next exchanged, nearest elsewhere

### C164 Sums, offsets and reversed signals in the frequency domain (proved)

* Modelled: `GUM_DFT`
* Method: closed forms (C22, C23); orthogonality to line 0 for offsets; re-indexing m -> n-m for reversed signals
* Theorems (T_Superpose): `C164_superposition`, `C164_offset`, `C164_reversed`
* Note: superposition: covariances where they are returned in full (matrices or a window), variances always; offset and reversal without window and padding

### C165 Monte Carlo results of an affine function of the evaluated quantity (proved)

* Modelled: `UMC_generic`
* Method: mean, covariance with its error term (C49) and histogram (C51) as functions of the multiset of results; bilinearity of the scatter
* Theorems (T_Affine): `C165_affine`, `C165_histogram`
* Note: more than one draw (a single one has no covariance)

### C166 savitzky_golay smooths a signal that is read backwards in the same way (partial)

* Modelled: `savitzky_golay`
* Method: the weights of the derivative d are even or odd with d, by uniqueness of the solution of the normal equations; [0,1,2] as witness
* Theorems (T_SgTurn): `C166_backwards_partial`, `C166_backwards_refuted`, `C166_local`
* Note: REFUTED: the signal is continued below its first and above its last value, so that the ends depend on the direction: 2 against 4/3 at the upper end of [0,1,2]. Partial: away from the ends, and locality; pinv is the Moore-Penrose inverse of the design matrix

### C167 Filters applied one after another act like one filter (partial)

* Modelled: `FIRuncFilter` three times, `Signal.apply_filter` three times
* Method: C01 for the values of each call and C148 for the cascade; closed form of the efficient path for white noise; two averages as witness
* Theorems (T_TwoFilters): `C167_values`, `C167_signal_values`, `C167_white_noise_partial`, `C167_pointwise_refuted`, `C167_full_covariance_partial`
* Note: REFUTED: the point-wise uncertainties returned by default lose the correlation of the filtered samples (C167_pointwise_refuted: averaging twice gives 1/4 instead of 3/8); values always agree, for white noise both results are given exactly, passing the full covariance gives the right result away from the beginning of the signal

### C168 Harmonic signals appear in their lines, with the known uncertainty of amplitude and phase (proved)

* Modelled: `GUM_DFT`, `DFT2AmpPhase`, `Time2AmpPhase`
* Method: orthogonality and norms of the rows of the transform; closed form of the amplitude/phase covariance; uniqueness of the angle in (-pi, pi]
* Theorems (T_Harmonic): `C168_lines`, `C168_white_noise`, `C168_amp_phase`
* Note: lines, white noise, amplitudes and phases with their variances; all lengths, odd and even

### C169 FIR filters multiply harmonics by their frequency response (proved)

* Modelled: `FIRuncFilter`
* Method: C01 and the addition theorem; closed form of the covariance (P_Filter2)
* Theorems (T_Harmonic): `C169_harmonic`, `C169_constant`
* Note: values for every argument kind; covariance for a constant input and any covariance matrix of the coefficients

### C170 Zero padding refines the spectrum and keeps the lines (proved)

* Modelled: `GUM_DFT` with N
* Method: row q k of the transform of length q n is row k of that of length n
* Theorems (T_Harmonic): `C170_padding`
* Note: values and covariances, with and without window, every kind of uncertainty

### C171 A scalar variance means independent samples of equal variance, also with zero padding (partial)

* Modelled: `GUM_DFT` with N
* Method: same closed form for both kinds of argument; one sample padded with one zero as witness
* Theorems (T_Harmonic): `C171_scalar_variances_partial`, `C171_scalar_refuted`
* Note: REFUTED: with zero padding neighbouring lines are correlated, but the scalar form returns a vector of variances, i.e. covariances 0 (C171_scalar_refuted: one sample padded to two, the lines are equal); variances always agree, with a window everything does

### C172 Convolving signals read backwards gives the convolution read backwards (partial)

* Modelled: `convolve_unc`, all six modes
* Method: re-indexing of the closed form of the covariance; the reversed continuation of the indices is again the continuation of the mode, hence equal to it
* Theorems (T_ConvTurn): `C172_numpy_partial`, `C172_ndimage_partial`, `C172_even_refuted`
* Note: REFUTED: with an even number of coefficients (the shorter signal for "same", the kernel for nearest, reflect, mirror) the result is one sample off after reversal (C172_even_refuted); proved for "full", "valid" and for odd numbers of coefficients in all modes

### C173 Amplitudes and phases reach the time domain the same way directly or through the spectrum (partial)

* Modelled: `AmpPhase2Time`, `AmpPhase2DFT`, `GUM_iDFT`
* Method: closed forms of both routes; the difference is the antisymmetric part of the cross terms; a spectrum with two lines as witness
* Theorems (T_Product): `C173_two_ways_partial`, `C173_covariance_refuted`
* Note: REFUTED: the covariance matrices differ and that of AmpPhase2Time is not symmetric (C173_covariance_refuted). Partial: values, variances and the symmetric part of the covariance agree always

### C174 Products of spectra do not depend on order or grouping (proved)

* Modelled: `DFT_multiply`
* Method: closed form of product and covariance; cmul as a bilinear map, Jacobians composed line by line
* Theorems (T_Product): `C174_commutative`, `C174_associative`, `C174_one`
* Note: covariance matrices for both factors, or an exactly known second factor

### C175 Dividing by two known responses in turn is dividing by their product (proved)

* Modelled: `DFT_deconv`, `DFT_multiply`
* Method: closed form of the quotient and its Jacobian for a response without uncertainty
* Theorems (T_Product): `C175_in_series`, `C175_reciprocal`
* Note: exactly known, nonzero responses

### C176 Interpolation of superposed signals (proved)

* Modelled: `interp1d_unc`
* Method: chords are linear in the ordinates, variances in the variances; uniqueness of the segment or node
* Theorems (T_InterpSum): `C176_linear`, `C176_lookup`, `C176_extrapolated`
* Note: linear, previous, next, nearest; points inside the range of the nodes, or extrapolated

### C177 Test signals do not depend on where the time axis starts or how it is scaled (partial)

* Modelled: `shocklikeGaussian`, `GaussianPulse`, `rect`, `squarepulse`, `sine`
* Method: substitution in the closed forms; induction over the pulses; axes [10, 11.5, 13] and [1/2] as witnesses
* Theorems (T_Axis): `C177_pulses_partial`, `C177_rect_partial`, `C177_squarepulse_partial`, `C177_squarepulse_shift_refuted`, `C177_sine_partial`, `C177_sine_refuted`, `C177_mirrored_partial`
* Note: REFUTED: squarepulse computes its widths from differences but its positions from zero, so on a shifted axis the pulses are elsewhere or missing; the argument freq of sine is a period: on an axis twice as long, half the frequency gives another signal. Partial: Gaussian pulses and rect in full, mirrored axes, squarepulse for stretched axes, sine with a stretched period

### C178 An ARMA process is a causal linear filter of its noise (proved)

* Modelled: `ARMA`
* Method: strong induction over the recursion; closed form sum phi^(n-j) w_j for a first order autoregression, geometric sum
* Theorems (T_Arma): `C178_superposition`, `C178_causal`, `C178_mean`, `C178_first_order`
* Note: deterministic statements for every noise sequence; moments for every distribution of the noise

### C179 An ARMA process does not depend on when its noise starts (partial)

* Modelled: `ARMA`
* Method: induction for orders up to one; phi = [1/2, 1/4] and noise [1, 0] as witness
* Theorems (T_Arma): `C179_delay_partial`, `C179_delay_refuted`
* Note: REFUTED: with two autoregressive coefficients the second value uses phi[0] for the previous value, all later ones phi[-1] (C179_delay_refuted); proved for orders up to one

### C180 The inverse transform synthesises harmonics (proved)

* Modelled: `GUM_iDFT`, `AmpPhase2Time`
* Method: closed forms of both functions; addition theorem of the cosine
* Theorems (T_Synth): `C180_synthesis`, `C180_uncorrelated`, `C180_amp_phase`
* Note: even N (a spectrum of N+2 entries)

### C181 Resampling does not depend on units and a finer grid contains the coarser (proved)

* Modelled: `make_equidistant`, `np_arange`
* Method: the number of points of arange is the same for both steps; ceil(q x) bounds; C47 for the values on the grids
* Theorems (T_Equi): `C181_units`, `C181_refined`
* Note: linear, previous, next, nearest

### C182 An interpolated value depends on its instant only (proved)

* Modelled: `interp1d_unc`, `scipy_interp1d`
* Method: every branch computes entry k from t_new[k] and the nodes only; errors are raised by some single instant or by all
* Theorems (T_Equi): `C182_pointwise`, `C182_fewer_points`
* Note: all kinds and options of interp1d_unc that are modelled, sorted or not, with and without sensitivities

### C183 Stability does not depend on gain and filters in series are stable if each is (proved)

* Modelled: `isstable`, `mapinside`, `numpy.roots`/`numpy.poly` as oracle/model
* Method: the value of a convolution of coefficients is the product of the values; coefficients are determined by the exact roots
* Theorems (T_Stable): `C183_gain`, `C183_series`, `C183_mapinside_stable`, `C183_mapinside_of_stable`, `C183_mapinside_twice`
* Note: exact roots (numpy.roots is an oracle); series: digital filters

### C184 The order of the frequencies does not matter and listing each k times changes nothing (proved)

* Modelled: `LSFIR`, `invLSFIR`, `LSIIR`, `invLSIIR`, `fit_som`
* Method: the sum of squares over the listed frequencies is k times that over the frequencies, and the minimiser is unique; for IIR filters in another order the normal equations are literally the same
* Theorems (T_FreqList): `C184_fir`, `C184_iir_order`, `C184_iir_repeated`, `C184_som`
* Note: exact solvers; FIR without weights or with a vector of non-zero weights; IIR: order with and without stabilisation for any solver, repetition with justFit; fit_som without uncertainty and with explicit or no weights

### C185 Uncertainties of other sizes are rejected (partial)

* Modelled: `DFT_multiply`, `DFT2AmpPhase` with numpy broadcasting
* Method: shapes of the four blocks and of their broadcast sums; the accepted sizes are those for which min(M,n) and n-M are equal or one of them is 1
* Theorems (T_Sizes): `C185_multiply_matrix_partial`, `C185_multiply_vector_partial`, `C185_ampphase_matrix_partial`, `C185_ampphase_vector_partial`, `C185_ampphase_odd_partial`, `C185_multiply_matrix_refuted`, `C185_multiply_vector_refuted`, `C185_multiply_single_refuted`, `C185_multiply_odd_refuted`, `C185_ampphase_refuted`
* Note: REFUTED: M+1 variances and (M+1)x(M+1) matrices are accepted by both, 1x1 matrices by DFT_multiply, spectra of 3 values by both; exact characterisation of the accepted sizes for M >= 2 (square matrices; UF None)

### C186 Known gains and phases act on amplitudes and phases (proved)

* Modelled: `DFT_multiply`, `DFT_deconv`, `DFT2AmpPhase`, `AmpPhase2DFT`, `AmpPhase2Time`
* Method: closed forms of the products composed with the closed form of amplitudes and phases; uniqueness of polar coordinates; periodicity of cosine and sine
* Theorems (T_GainPhase): `C186_multiply`, `C186_deconv`, `C186_real_imag`, `C186_full_turns`
* Note: frequency response without uncertainty; amplitudes and gains positive where they are divided by; phases compared as angles

### C187 Lines that are real have no imaginary uncertainty (proved)

* Modelled: `GUM_DFT`, `GUM_iDFT`, `Time2AmpPhase`
* Method: sin(pi k) = 0 in the closed forms of the sensitivities
* Theorems (T_RealLines): `C187_dft`, `C187_phase`, `C187_idft`
* Note: GUM_DFT for any padding and window; GUM_iDFT for any admissible Nx

### C188 Sampling by impulse invariance keeps the poles and the stability (proved)

* Modelled: `impinvar`, `impinvar_causal`, `isstable`, `sos_phys2filter`
* Method: the coefficients of the denominator are those of prod (z - exp(p/fs)), which are real as the poles of a real polynomial are closed under conjugation; |exp(s/fs)| = exp(Re s/fs); roots of a quadratic
* Theorems (T_SosStable): `C188_poles`, `C188_verdict`, `C188_damping`, `C188_sos`
* Note: simple poles (consecutive ones at least tol apart); scipy.signal.residue/invres and numpy.roots are exact oracles

### C189 Correlations of results lie between -1 and 1 (partial)

* Modelled: `FIRuncFilter`, `convolve_unc`, `GUM_DFT`, `GUM_iDFT`, `DFT2AmpPhase`, `AmpPhase2DFT`, `DFT_multiply`, `DFT_deconv`
* Method: positive semidefiniteness (C03, C14, C85) evaluated at vectors with two non-zero components; witness from C28 for GUM_iDFT
* Theorems (T_Corr): `C189_idft_refuted`, `C189_filter_partial`, `C189_convolution_partial`, `C189_dft_partial`, `C189_representation_partial`, `C189_spectra_partial`, `C189_symmetric_part_partial`
* Note: REFUTED: GUM_iDFT after GUM_DFT gives a sample of variance zero a covariance of -1/2 with another one. Partial: FIRuncFilter (return_full_covariance), convolve_unc, GUM_DFT with all options, DFT2AmpPhase, AmpPhase2DFT, DFT_multiply, DFT_deconv keep the bound (amplitudes, denominators non-zero); for GUM_iDFT the mean of U[i,j] and U[j,i] does

### C190 A constant signal is multiplied by the static gain, from the first sample on (proved)

* Modelled: `FIRuncFilter`, `_fir_filter`, `_fir_filter_diag`, `convolve_unc`
* Method: closed forms of estimate and covariance (C01, C02, C11, C12) with constant continued signal and covariance
* Theorems (T_Static): `C190_filter_value`, `C190_filter_known_signal`, `C190_filter_white_noise`, `C190_convolution`, `C190_valid_value`, `C190_valid_covariance`
* Note: filters and kernels with at least two coefficients

### C191 Convolutions superpose and do not depend on the units (proved)

* Modelled: `convolve_unc`, `_fir_filter`
* Method: one closed form for all modes (the continuation and the argument that acts as kernel depend on mode and lengths only), which is bilinear in the signals and linear in the covariance of one of them
* Theorems (T_ConvLin): `C191_superposition`, `C191_units`, `C191_covariances_add`
* Note: signals of at least two samples; all six modes

### C192 Regularising a covariance once is enough, and does not depend on order or units (proved)

* Modelled: `make_semiposdef`
* Method: closed form of what is added to the diagonal as a function of the smallest eigenvalue; uniqueness of the smallest eigenvalue and its behaviour under reordering, scaling and diagonal shifts
* Theorems (T_SpdLaws): `C192_order_and_units`, `C192_transposed`, `C192_twice`
* Note: eigenvalue routine exact; maxiter >= 1; sparse matrices with at least 8 rows (C89)

### C193 fit_som reports consistent uncertainties also when the fitted mass and stiffness have opposite signs (partial)

* Modelled: `fit_som`, linear propagation and Monte Carlo
* Method: derivatives of sqrt|mu0/mu2| compared with the matrix C of the code; witness with two draws
* Theorems (T_SomSign): `C193_opposite_signs_partial`, `C193_sign_refuted`
* Note: REFUTED: the covariance of S0 and f0 has the wrong sign for mu0 mu2 < 0 (witness mu = (4, 1, -1); Monte Carlo on the same draws has the right sign). Partial: parameters and variances of S0 and f0 agree with the linear propagation, the covariance is its negative

### C194 Test signals add up from their parts (proved)

* Modelled: `rect`, `squarepulse`, `sine`, `multi_sine`, `GaussianPulse`, `shocklikeGaussian`
* Method: case distinction on the instants; induction on the number of pulses and on the lists of lines (permutations)
* Theorems (T_Parts): `C194_rect_tiles`, `C194_heights_add`, `C194_multi_sine`
* Note: noise-free signals; rect also with user-defined additive noise

### C195 fit_som with weighting 'cov' is a generalised least squares fit (proved)

* Modelled: `fit_som` with weighting="cov", both with and without `MCruns`
* Method: normal equations of generalised least squares for a positive definite symmetric matrix; the deviation of any other parameters exceeds that of the solution by a quadratic form; for the linear propagation the solution is linear in the data, and the sandwich of the code reduces to the inverse of the normal matrix
* Theorems (T_SomCov): `C195_cov_monte_carlo`, `C195_cov_linear`
* Note: exact linear solver and inverse; the damping is excluded from the linear propagation (C77)

### C196 Amplitudes and phases to time: larger uncertainties, exactly known lines, other units (proved)

* Modelled: `AmpPhase2Time`
* Method: closed form of estimate and covariance (C33, C34) with the order of sandwich products; the antisymmetric error of C34 vanishes in variances and symmetric part; sensitivities scale with the unit of the amplitudes
* Theorems (T_APOrder): `C196_order`, `C196_exact`, `C196_units`
* Note: at least two samples, sizes of amplitudes, phases and covariance that fit together; sparse covariances with stored diagonals of full length

### C197 Signals to amplitudes and phases: larger uncertainties, exactly known signals, other units (proved)

* Modelled: `Time2AmpPhase` (GUM_DFT followed by DFT2AmpPhase)
* Method: closed forms of both steps; sandwich products keep the order of matrices, sensitivities of amplitude and phase scale with the unit
* Theorems (T_T2APOrder): `C197_order`, `C197_exact`, `C197_units`
* Note: signals without vanishing spectral line (there the sensitivities of amplitude and phase are 0/0)

### C198 A linear phase delays the signal put together from amplitudes and phases (proved)

* Modelled: `AmpPhase2Time`
* Method: the sensitivities at the delayed sample agree with those at the original sample, up to full turns of the phase; the signal is the sum of amplitude times sensitivity and the covariance a sandwich of the sensitivities
* Theorems (T_APDelay): `C198_delay`
* Note: sizes of amplitudes, phases and covariance that fit together, symmetric covariance; sparse covariances with stored diagonals of full length; delays by whole samples

### C199 Opposite phases reverse the signal, half a turn changes its sign (proved)

* Modelled: `AmpPhase2Time`
* Method: effect of the changed phases on the sensitivities (angles mirrored or turned, up to full turns); the signal is the sum of amplitude times sensitivity and the covariance a sandwich of the sensitivities
* Theorems (T_APMirror): `C199_reversed`, `C199_polarity`
* Note: sizes of amplitudes, phases and covariance that fit together, symmetric covariances; sparse covariances with stored diagonals of full length

### C200 Opposite polarity turns the phases by half a turn, reading a signal backwards turns them to their opposites, and nothing else changes (proved)

* Modelled: `Time2AmpPhase` (GUM_DFT followed by DFT2AmpPhase)
* Method: the spectrum changes sign, arctan2 by half a turn (case distinction on the quadrants); the sensitivities change sign and drop out of the covariance in pairs; a reversed signal has the conjugate spectrum (C164)
* Theorems (T_T2APSign): `C200_polarity`, `C200_reversed`
* Note: signals without vanishing spectral line (there the sensitivities of amplitude and phase are 0/0)

### C201 Spectral lines turned by a linear phase give the delayed signal (proved)

* Modelled: `GUM_iDFT`
* Method: the sensitivities at the delayed sample, applied to the turned lines, are those at the original sample (addition theorems, full turns, lines 0 and N/2 separately); composition of sandwich products
* Theorems (T_iDFTDelay): `C201_delay`
* Note: full length (Nx not given); the antisymmetric error of the covariance matrix (C28) is excluded by taking the symmetric part

### C202 Products and quotients of the spectra of signals read backwards (proved)

* Modelled: `DFT_multiply`, `DFT_deconv`
* Method: closed forms of both (C37, C38); every sensitivity with respect to a real part keeps and every one with respect to an imaginary part changes its sign
* Theorems (T_Conj): `C202_multiply`, `C202_deconv`
* Note: full covariance of the first factor in DFT_multiply (C39); responses without vanishing line in DFT_deconv; also with the wrong sensitivity of C37

### C203 Conjugate spectral lines give the signal read backwards (proved)

* Modelled: `GUM_iDFT`
* Method: sensitivities at the mirrored sample: those with respect to imaginary parts change their sign (full turns, lines 0 and N/2 separately); the signs cancel in pairs in the covariance
* Theorems (T_iDFTMirror): `C203_reversed`
* Note: full length (Nx not given); symmetric covariance of the spectrum; also with the antisymmetric error of C28

### C204 Conjugate lines have opposite phases, with their uncertainties, and conversely (proved)

* Modelled: `DFT2AmpPhase`, `AmpPhase2DFT`
* Method: closed forms of both (C29, C30); arctan2 by cases; sensitivities keep or change their sign together with the lines (C202)
* Theorems (T_ConjAP): `C204_amp_phase`, `C204_real_imag`
* Note: spectra without vanishing line in DFT2AmpPhase; dense covariances in AmpPhase2DFT (sparse ones: C32)

## 4. Findings

Deviations of the code from what its users rely on, each with a kernel-checked witness.
Line numbers refer to `/repo/PyDynamic`.

Filters and convolution
* C05 FIRuncFilter: `shift` rolls the covariance as a flattened array (general path) and is ignored by the efficient path.
* C06 a float `Utheta` is used as variance, a vector as standard uncertainties.
* C07 the stationary continuation of a valid covariance may be indefinite: variance -1, hidden by sqrt(abs()).
* C15 convolve_unc rejects every kernel of length one.
* C16 IIRuncFilter never returns: `tf2ss` is not imported (line 450).
* C81 coefficient-wise uncertainties raise ValueError on the general path.
* C82 integer arrays: np.full_like truncates the variance.

Frequency domain
* C25 GUM_DFT with window and 1D variances raises IndexError.
* C26 GUM_iDFT returns odd-length signals one sample short, and cannot be asked for the right length.
* C28, C34 GUM_iDFT and AmpPhase2Time return non-symmetric "covariances" (2 Cc RI Cs^T instead of the symmetrised product).
* C32 AmpPhase2DFT, sparse storage: CIA used for CIP (line 676).
* C37 DFT_deconv: `iH*iH**2` for `iY*iH**2` (line 1007).
* C39 DFT_multiply with 1D variances returns two rows (or broadcasts them).

Interpolation
* C44 fill_value="extrapolate" alone raises; C46 unsorted data hide superfluous uncertainties;
  C90 an integer fill_unc raises TypeError; C91 a single node has NaN uncertainty (linear kind).

Monte Carlo
* C49 UMC_generic: scatter matrix of the first block not normalised; C50 runs rounded up to full blocks;
  C51 results above the first maximum are lost, closing edge uses np.min (line 740); C52 imap_unordered mixes
  samples and results; C53 UMC ignores nbins.
* C56 MC and FIRuncFilter shift in opposite directions; C57 SMC never returns;
  C111 MC and UMC replace a[0] by 1.

Noise, test signals, tools
* C20 maxiter ignored in the dense branch; C21 FreqResp2RealImag returns two numbers instead of mean vectors;
  C89 sparse make_semiposdef raises up to 7 x 7.
* C59 ARMA applies coefficients in reversed order; C98 spectrum not 1, 2, 3, ...; C101 calc_noise2 always raises;
  C66 maximum of shocklikeGaussian at t0 - sigma; C67 `freq` is a period in sine, angular in multi_sine;
  C68 corr_noise covariance is not that of the noise; C69 squarepulse ignores time[0].
* C62 isstable analog verdict inverted; C102 marginal poles accepted; C93 grpdelay cuts long filters silently;
  C95 savitzky_golay is not linear at the edges (abs); C96 kaiser_lowpass shift half a sample too large;
  C97 impinvar: complex residues, h(0)=0.

Model estimation
* C72 LSFIR is a copy of invLSFIR; C73 weights act on the design matrix only, weight matrices and the weights of
  invLSFIR_unc raise; C74 conjugated draws; C75 non-integer delay truncated (int(tau)), LSIIR with justFit
  returns 0; C77 wrong derivatives of the damping (|mu0+mu2| for |mu0 mu2|); C108 wrong sign of the damping for
  negative gain; C110 weights act as variances.

Signal class
* C78 several constructions leave Fs or Ts unset or contradict the axis; C79 point-wise uncertainties handed over as
  autocovariance; C80 IIR filter with MonteCarloRuns leaves the signal unchanged.

Second look
* C113 IIRuncFilter would fail even with the missing import: an ndarray as `Uab` raises, orders other than one raise,
  the noise at the current sample is counted twice, the derivative with respect to b_0 is misplaced.
* C114 sos_absphase: `ua` unwraps along the last axis, which are the runs, not the frequencies.
* C119 multi_sine multiplies the noise by `noise ** 2`, documented as its standard deviation.
* C120 `_prod` allocates `np.zeros_like(matrix)`: a covariance matrix of integers truncates every product, so that
  e.g. `AmpPhase2DFT(A, P, np.diag([1, 1]))` reports no uncertainty.
* C121 a `dia_matrix` is read by storage order: `sparse.diags(variances)` raises IndexError, `sparse.dia_matrix(array)`
  gives wrong variances (AmpPhase2Time) or ValueError (AmpPhase2DFT).
* C122 squarepulse and multi_sine raise TypeError for integer time instants.
* C124 MC raises LinAlgError for every singular covariance matrix of the signal (e.g. fully correlated errors) and
  ValueError for one sample with a covariance matrix.
* C125 with one run (MC: one stable draw) `np.cov(..., rowvar=False)` takes the single row as the observations: a plain
  number, the variance over time (MC), over the three parameters (fit_som), over all real and imaginary parts
  (FreqResp2RealImag), is returned as uncertainty.
* C21 FreqResp2RealImag takes a vector `Unc` as variances although it is documented as uncertainties.
* C126 power_law_noise is documented to ignore N if w is given; it raises UserWarning.
* C127 arguments documented as array_like do not accept lists: interp1d_unc (t_new, linear kind) raises TypeError,
  make_semiposdef, print_mat and FreqResp2RealImag raise AttributeError.
* C134 the covariance reported by DFT_deconv depends on the unit in which the output signal is expressed (consequence of
  the wrong derivative of C37).
* C135 Time2AmpPhase followed by AmpPhase2Time loses the last sample of every signal of odd length.
* C138 the covariance of UMC_generic (and so of UMC) is too large on average by the factor 1 + (bs-1)(bs-2)/(B bs - 1): for
  the defaults of UMC (1000 runs, blocks of 8) by 4.2 %, for one single block by the factor bs-1 (consequence of C49).
* C140 the uncertainty of the damping reported by fit_som depends on the unit of frequency (consequence of C77).
* C142 make_equidistant drops the last sample of data that are equidistant with the requested spacing (np.arange excludes
  the end; with rounding it may or may not be dropped).
* C143 MC and FIRuncFilter start from different states: in the first len(b)-1 samples their means and uncertainties differ.
* C145 calc_psd(noise) ignores its argument without notice if it is not an ndarray (a list, say) and analyses the stored noise.
* C148 FIRuncFilter with a low-pass understates (or overstates) covariances of signals shorter than the filter: lags that
  are not available in the covariance of the low-pass output are taken as zero.

* C113 (second part) `dz = dz1` (propagate_filter.py:482) makes the two arrays one, so from the second sample on the
  sensitivity to the denominator coefficient is that of the next sample: y[1] = b_1 x[0] is reported to depend on a_1.
  In the same way the state covariance P is updated before it is used (line 478), so that the impulse response
  in the variance is read one sample too late.

* C151 If the covariance matrix does not fit into memory GUM_DFT and DFT_deconv return a tuple of three blocks, but no function of the
  package accepts it: DFT2AmpPhase, GUM_iDFT and Time2AmpPhase raise AttributeError (tuple has no attribute shape).
* C152 convolve_unc includes the term of second order (U1 conv U2) in the covariance, DFT_multiply does not: the two ways to
  filter a signal with an uncertain filter give different uncertainties.

* C155 FIRuncFilter ignores known values of the autocovariance: values at lags of len(y) and more are cut off although they are needed for
  the samples before the start of the signal.

* C157 The formula in the docstring of sos_FreqResp mixes angular frequency and frequency.
* C159 Interpolating twice (for instance make_equidistant followed by interp1d_unc) understates the uncertainty between the intermediate points:
  interpolated values are correlated, only their standard uncertainties are passed on.

* C160 fit_som: the variance of the damping from linear propagation depends on the unit of the response (mu_0 + mu_2 instead of mu_0 mu_2 in the sensitivities).
* C162 grpdelay has an absolute tolerance (1e-12) for |B A|: for responses of small magnitude (for example charge sensitivities in C/(m/s^2)) all
  bins count as poles, the group delay is -len(a)+1 everywhere, LSIIR and invLSIIR never change the delay and return an unstable filter.

* C166 savitzky_golay pads a signal downwards at its start and upwards at its end (values y[0]-|..| and y[-1]+|..|) whatever the slope: a falling ramp is bent at
  both ends while a rising one is reproduced.

* C167 chaining filters with the returned point-wise uncertainties (the only possibility with Signal.apply_filter) ignores the correlation the first filter
  introduced: averaging neighbours twice gives the variance 1/4 instead of 3/8, averaging and then subtracting neighbours gives 1 instead of 1/2.

* C171 GUM_DFT with a scalar Ux and zero padding (N > len(x)) drops the covariances between the lines, which are no longer zero: the vector of variances it
  returns describes another distribution than the matrix returned for Ux * I. Everything computed from it (GUM_iDFT, DFT_deconv) is affected.

* C173 AmpPhase2Time returns a covariance matrix that is not symmetric, AmpPhase2DFT followed by GUM_iDFT does not.
* C177 squarepulse places its pulses relative to time 0 although their width comes from the difference of the last and the first instant.
* C179 ARMA pairs coefficients with past values from the end of the coefficient vector as long as fewer values than coefficients exist, so that the
  start of the series follows another recursion than the rest (phi[0] multiplies the previous value at n = 1, the value before it later on).

* C185 DFT_multiply and DFT2AmpPhase do not check the size of the uncertainty. For M lines an (M+1) x (M+1) covariance matrix or a vector of M+1 variances is
  silently accepted, its last row and column (entry) being spread over all imaginary parts; DFT_multiply returns an empty covariance for a 1 x 1 matrix; spectra
  of 3 values give products of 4 values.

* C189 The covariance matrix returned by GUM_iDFT can contain impossible correlations: a signal of four samples of which only sample 1 is uncertain (variance 1)
  has after GUM_DFT and GUM_iDFT variance 0 for sample 3 but covariance -1/2 between the samples 1 and 3.

* C193 The sensitivities of the resonance frequency in fit_som are derivatives of sqrt(mu0/mu2), while the returned value is sqrt|mu0/mu2|: when the fit gives
  mu0 and mu2 opposite signs both entries have the wrong sign. The variances are not affected, the covariance of gain and resonance frequency is the negative of the right one.

## 5. Trusted base

### 5.1 Coq
The Coq 8.16.1 kernel and `make` with the flags of `_CoqProject` (`-Q theories Verif`).  No axiom of our own, no
`Admitted`, no disabled checks, no plugin.  Only standard library axioms occur (5.4).

### 5.2 Transcription
That the definitions of `M_*.v` say what the Python lines cited next to them do, under the conventions of section 1.

### 5.3 Modelled and not modelled
Modelled: every public function of `uncertainty`, `model_estimation`, `misc` and `signals` listed in section 2.
Not modelled:
* floating point rounding (all numbers exact), integer dtypes except C82 and C90, complex dtype warnings;
* plots (`Signal.plot`, `plot_uncertainty`), console output except `progress_bar`, warnings;
* MemoryErrors other than those caught in `GUM_DFT` and `DFT_deconv` (M_Mem.v);
* spline kinds of interp1d (refused by interp1d_unc);
* numpy zero-size arrays where not stated;
* random number generators and process pools beyond "any draws, any order of delivery";
* numerical quality of lstsq, solve, svd, pinv, eigvals, roots (assumed exact in the theorems that need them).
* the module `uncertainty.interpolation`, `identification.fit_filter`, which only import names.
* `blocksize=0` of UMC_generic with several processes (ValueError of the process pool) and Python integers (not arrays)
  `alow`, `blow` handed to UMC (TypeError, not subscriptable) are not modelled.

### 5.4 Print Assumptions per theorem

* A1 = `ClassicalDedekindReals.sig_forall_dec`
* A2 = `ClassicalDedekindReals.sig_not_dec`
* A3 = `FunctionalExtensionality.functional_extensionality_dep`
* A4 = `Classical_Prop.classic`

**closed under the global context** (11): C11_continuation_exists, C17_assertions, C17_shift_composes, C17_shift_moves_together, C57_empty_partial, C57_never_returns, C88_no_iterations, C88_progress_bar, C116_matrix, C116_vector, C126_both_partial

**A1** (10): C18_trimOrPad, C38_length_errors, C39_number_partial, C39_vector_variances_refuted, C57_smc_refuted, C185_multiply_matrix_partial, C185_multiply_odd_refuted, C185_multiply_single_refuted, C185_multiply_vector_partial, C185_multiply_vector_refuted

**A1, A3** (152): C11_ndimage_modes, C11_numpy_modes, C12_ndimage_cov_exact, C12_numpy_cov_exact, C13_convolution_commutes, C15_any_two_signals_refuted, C15_length_one_always_fails, C15_modes_partial, C18_mode_errors, C18_modes, C18_statistics_modes, C19_dense_smallest_eigenvalue, C19_not_square, C19_semiposdef, C20_endless_refuted, C20_maxiter_partial, C36_deconv_inverts_multiply, C37_deconv_jacobian_refuted, C37_deconv_partial, C37_deconv_shape_errors, C37_deconv_sparse_UH_fails, C38_multiply_exact, C39_two_vectors_partial, C39_vector_and_matrix_partial, C39_vector_and_matrix_refuted, C39_vector_two_rows_partial, C48_degenerate, C48_mean, C48_returns, C49_covariance_error_partial, C49_sample_covariance_refuted, C49_small_blocks_partial, C50_multiples_partial, C50_requested_runs_refuted, C51_every_sample_refuted, C51_histogram_partial, C52_pairing_refuted, C52_serial_partial, C53_hundred_bins_partial, C53_nbins_refuted, C53_no_bins_partial, C54_bounds_ordered, C54_no_counts, C54_quantile, C55_errors, C55_sizes, C55_stable_draws, C55_unstable_no_influence, C58_broadcast, C59_arma_refuted, C59_first_order_partial, C59_ma_refuted, C59_palindromic_partial, C59_reversed_partial, C64_noise, C64_rect, C69_empty_partial, C69_from_zero_partial, C69_offset_refuted, C78_consistent_refuted, C78_cube_partial, C78_derived_time_base_partial, C78_equidistant_partial, C78_given_interval_partial, C78_pointwise_partial, C78_rejects, C85_deconv_psd, C85_multiply_psd, C86_refused, C89_large_sparse_partial, C89_small_sparse_always_fails, C89_sparse_any_size_refuted, C92_empty_lowpass, C92_evaluate, C92_lfilter, C92_umc, C94_index_error, C94_least_squares, C94_pderiv, C94_polynomials, C94_rising_lines, C94_shape, C95_interior_linear_partial, C95_linearity_refuted, C95_scale_shift_partial, C96_rate_partial, C101_calc_noise2_refuted, C111_UMC_refuted, C111_denominator_refuted, C111_normalised_partial, C111_pulse_partial, C118_errors, C118_quotient, C118_recovers_system, C124_accepted_refuted, C124_definite_partial, C124_indefinite_partial, C124_one_sample_partial, C124_singular_partial, C125_matrix_partial, C125_single_partial, C125_single_refuted, C130_deconv, C130_multiply, C131_convolution, C131_deconv, C131_multiply, C133_multiply, C134_deconv_units_refuted, C134_exact_system_partial, C136_nested, C137_unbiased, C138_expectations_partial, C138_unbiased_refuted, C147_convolve_delay, C150_associative, C151_deconv, C165_affine, C165_histogram, C166_backwards_partial, C166_backwards_refuted, C166_local, C172_even_refuted, C172_ndimage_partial, C172_numpy_partial, C174_associative, C174_commutative, C174_one, C175_in_series, C175_reciprocal, C177_rect_partial, C177_squarepulse_partial, C177_squarepulse_shift_refuted, C178_causal, C178_first_order, C178_mean, C178_superposition, C179_delay_partial, C179_delay_refuted, C185_multiply_matrix_refuted, C190_convolution, C190_valid_covariance, C190_valid_value, C191_covariances_add, C191_superposition, C191_units, C192_order_and_units, C192_transposed, C192_twice, C194_rect_tiles, C202_deconv, C202_multiply

**A1, A2, A3** (375): C01_fir_estimate, C01_fir_returns, C02_fir_cov_exact, C02_fir_lowpass_cascade, C02_fir_var_exact, C03_fir_cov_psd, C04_fast_equals_general, C04_pointwise_is_diagonal, C05_covariance_partial, C05_efficient_partial, C05_efficient_path_refuted, C05_pointwise_partial, C05_shift_estimate_partial, C05_shift_moves_both_refuted, C06_float_utheta_partial, C06_float_utheta_refuted, C07_no_negative_variance_refuted, C07_pointwise_noise_partial, C08_argument_table, C09_homogeneous_filter, C09_homogeneous_full, C09_homogeneous_pointwise, C10_causal_full, C10_causal_pointwise, C14_convolution_psd, C16_iir_never_returns, C16_iir_returns_refuted, C20_maxiter_refuted, C21_lengths_checked, C21_means_partial, C21_means_refuted, C22_dft_estimate, C22_dft_returns, C22_dft_short_N_rejected, C23_dft_cov_exact, C24_scalar_variance_lossless, C25_window_diagonal_partial, C25_window_vector_always_fails, C25_window_vector_refuted, C26_even_length_partial, C26_odd_length_always_short, C26_odd_length_refuted, C26_rejects, C27_idft_variances_exact, C28_idft_symmetric_refuted, C28_round_trip_partial, C28_uncorrelated_parts_partial, C30_real_imag_exact, C30_shape_errors, C32_sparse_equals_dense_refuted, C32_sparse_error_partial, C33_amp_phase_to_time, C33_not_square, C33_rejected, C34_symmetric_refuted, C34_uncorrelated_partial, C40_linear_law, C40_linear_returns, C41_same_with_and_without, C41_sensitivities, C42_linear_at_node, C42_linear_bounds, C42_lookup_kinds, C43_fill_values, C43_inside_unaffected, C43_other_kinds, C43_out_of_range_rejected, C44_extrapolate_alone_refuted, C44_extrapolate_with_bounds_error_partial, C45_equals_sorted, C45_order_irrelevant, C46_length_checked_partial, C46_length_checked_refuted, C47_equidistant, C47_never_leaves_range, C47_no_extent, C56_opposite_partial, C56_same_direction_refuted, C61_digital, C61_unknown_type, C62_analog_partial, C62_analog_refuted, C62_unstable_refuted, C63_magnitude, C63_mapinside, C63_real, C63_roots, C66_location_refuted, C67_multi_sine_angular_partial, C67_period_partial, C67_sine_refuted, C68_covariance_refuted, C68_moving_average_partial, C68_noise_partial, C70_columns, C70_gain, C70_physical, C70_same_system, C71_enough_frequencies, C71_exact_inverse, C71_least_squares, C71_mismatch, C71_single_response, C71_unc_exact_inverse, C71_unc_least_squares, C72_fits_response_refuted, C72_inverts_partial, C73_constant_weight_partial, C73_matrix_raises, C73_matrix_refuted, C73_unc_weights_raise, C73_unc_weights_refuted, C73_weight_lengths, C73_weight_matrix_size, C73_weighted_fit_partial, C73_weights_refuted, C74_conjugate_partial, C74_covariance_refuted, C74_no_uncertainty_partial, C75_LSIIR_loop_partial, C75_delay_refuted, C75_integer_delay, C75_invLSIIR_loop_partial, C75_justfit_delay_refuted, C75_mismatch, C75_terminates, C76_exact, C76_monte_carlo, C76_rejects, C76_with_uncertainty, C77_delta_refuted, C77_jacobian_partial, C79_autocovariance_partial, C79_pointwise_refuted, C80_applied_refuted, C80_fir_partial, C80_iir_partial, C80_iir_runs_unchanged_partial, C80_raises, C80_scalar_variance_partial, C81_diagonal_utheta_partial, C81_vector_utheta_refuted, C82_full_result_partial, C82_integer_arrays_refuted, C83_mask_length_checked, C83_mask_selects_lines, C84_reuse_sensitivities, C85_dft_psd, C85_real_imag_psd, C86_frequencies_of_lines, C90_int_fill_partial, C90_int_fill_unc_refuted, C91_single_point_partial, C91_single_point_refuted, C93_frequencies, C93_group_delay_partial, C93_long_filter_refuted, C96_delay_partial, C96_shift_refuted, C97_advance_partial, C97_complex_residues_refuted, C97_direct_part, C97_iff_partial, C97_impulse_invariance_partial, C97_repeated_poles, C97_simple_poles_partial, C100_realimag, C100_returns, C101_always_fails_partial, C102_marginal_refuted, C102_strictly_inside_partial, C104_causal, C105_mean_and_covariance_of_fits, C105_no_uncertainty, C105_rejects, C106_exact_recovery, C106_inverse_exact_recovery, C106_inverse_least_squares, C106_least_squares, C106_response_lengths, C107_mean_and_covariance, C107_no_uncertainty, C107_shape, C108_negative_gain_partial, C108_negative_gain_refuted, C109_least_squares, C109_linear_propagation, C109_monte_carlo, C110_divides_partial, C110_weights_refuted, C112_truncated, C113_alias_partial, C113_alias_refuted, C113_array_partial, C113_array_refuted, C113_coefficients_refuted, C113_estimate_partial, C113_noise_partial, C113_noise_refuted, C113_order_partial, C117_deconvolution_fir, C117_deconvolution_iir, C117_identification, C119_multi_sine_partial, C119_multi_sine_refuted, C119_negative_partial, C119_std_partial, C121_main_diagonal_fails_partial, C121_main_diagonal_refuted, C121_own_order_partial, C121_sizes_partial, C121_sorted_partial, C121_sorted_refuted, C122_integer_time_refuted, C122_kinds_partial, C123_autocorr, C123_no_noise, C123_periodic, C125_freqresp_partial, C125_freqresp_refuted, C125_som_partial, C127_interp_partial, C127_interp_refuted, C127_linear_partial, C127_matrices_partial, C127_matrices_refuted, C128_pointwise_without_signal, C128_superposition, C128_superposition_of_filters, C128_uncertainty_without_signal, C129_time_invariant_full, C129_time_invariant_pointwise, C130_convolution, C130_dft, C130_fir_full, C130_fir_pointwise, C130_idft, C130_interpolation, C130_real_imag, C131_dft, C131_fir_full, C131_fir_pointwise, C131_idft, C131_interpolation, C131_real_imag, C132_units, C133_dft, C133_idft, C133_real_imag, C139_fir, C139_iir, C140_damping_refuted, C140_estimate_partial, C140_linear_partial, C140_monte_carlo_partial, C141_fir, C141_freqresp, C141_iir, C141_som, C141_sos, C142_all_but_last_partial, C142_unchanged_refuted, C143_past_transient_partial, C143_transient_refuted, C144_estimate, C144_variance, C145_arguments, C145_psd, C147_fir_delay, C148_cascade_partial, C148_short_signal_refuted, C149_between_neighbours, C149_middle, C149_monotone, C149_straight_line, C151_back_partial, C151_back_refuted, C151_gum_dft, C152_convolution_theorem, C152_exact_kernel, C153_deconvolution, C155_stationary_partial, C155_stationary_refuted, C156_resonance, C157_documented_partial, C158_cascade, C158_inverse, C158_linear_phase, C159_twice_partial, C159_twice_refuted, C160_damping_refuted, C160_estimate_partial, C160_linear_partial, C160_monte_carlo_partial, C161_LSIIR, C161_invLSFIR, C161_invLSFIR_unc, C161_invLSFIR_uncMC, C161_invLSIIR, C162_group_delay_partial, C162_stabilisation_refuted, C163_linear, C163_local, C163_lookup_partial, C163_nearest_refuted, C164_offset, C164_reversed, C164_superposition, C167_full_covariance_partial, C167_pointwise_refuted, C167_signal_values, C167_values, C167_white_noise_partial, C168_lines, C168_white_noise, C169_constant, C169_harmonic, C170_padding, C171_scalar_refuted, C171_scalar_variances_partial, C173_covariance_refuted, C173_two_ways_partial, C176_extrapolated, C176_linear, C176_lookup, C177_mirrored_partial, C177_pulses_partial, C177_sine_partial, C177_sine_refuted, C180_amp_phase, C180_synthesis, C180_uncorrelated, C181_refined, C181_units, C182_fewer_points, C182_pointwise, C183_gain, C183_mapinside_of_stable, C183_mapinside_stable, C183_mapinside_twice, C183_series, C184_fir, C184_iir_order, C184_iir_repeated, C184_som, C186_full_turns, C186_real_imag, C187_dft, C187_idft, C188_damping, C188_poles, C189_convolution_partial, C189_dft_partial, C189_filter_partial, C189_idft_refuted, C189_spectra_partial, C189_symmetric_part_partial, C190_filter_known_signal, C190_filter_value, C190_filter_white_noise, C193_opposite_signs_partial, C193_sign_refuted, C194_heights_add, C194_multi_sine, C195_cov_linear, C195_cov_monte_carlo, C196_exact, C196_order, C196_units, C198_delay, C199_polarity, C199_reversed, C201_delay, C203_reversed, C204_real_imag

**A1, A2, A3, A4** (67): C29_amp_phase_exact, C31_round_trip, C32_sparse_round_trip_refuted, C35_multi_rowwise, C35_number_of_variances_checked, C35_selector, C60_errors, C60_mean_std, C60_returns, C60_white, C65_pulse, C65_width, C66_extrema_partial, C67_multi_sine_refuted, C85_amp_phase_psd, C87_time_to_amp_phase, C97_zero_start_refuted, C98_actual_law_partial, C98_spectrum_refuted, C99_acf, C99_errors, C103_angle, C103_jumps, C103_recovers, C114_absphase_partial, C114_order_refuted, C115_decibel, C115_product, C120_amp_phase_refuted, C120_error_partial, C120_float_partial, C120_integers_partial, C120_multiply_refuted, C120_real_imag_refuted, C120_window_refuted, C121_sorted_dft_refuted, C125_som_refuted, C126_ignored_refuted, C126_only_w_partial, C130_amp_phase, C131_amp_phase, C133_amp_phase, C135_even_length_partial, C135_odd_length_always_short, C135_odd_length_refuted, C146_scale_offset, C151_next_partial, C151_next_refuted, C154_delay, C157_documented_refuted, C168_amp_phase, C185_ampphase_matrix_partial, C185_ampphase_odd_partial, C185_ampphase_refuted, C185_ampphase_vector_partial, C186_deconv, C186_multiply, C187_phase, C188_sos, C188_verdict, C189_representation_partial, C197_exact, C197_order, C197_units, C200_polarity, C200_reversed, C204_amp_phase
