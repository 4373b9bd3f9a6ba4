{"id": "C01", "title": "FIR estimate is the convolution with the steadily continued input", "statement": "For a filter with at least two coefficients and a non-empty signal, the first array returned by FIRuncFilter(y, sigma_noise, theta, ...) with shift=0 has the length of y, and entry n equals sum_k theta[k]*ytilde[n-k], where ytilde continues y into the past by its first value. With a low-pass blow the same holds with y replaced by the blow-filtered signal. The fast and the general code path return the same estimate.", "quantifier": "every signal length >= 1, every filter length >= 2, every real signal/filter/lowpass, every accepted kind of sigma_noise/Utheta", "why_tests_cant": "tests compare with scipy on a few random signals; the claim ranges over all lengths and values, including signals shorter than the filter", "anchors": ["PyDynamic/uncertainty/propagate_filter.py:FIRuncFilter", "PyDynamic/uncertainty/propagate_filter.py:_fir_filter", "PyDynamic/uncertainty/propagate_filter.py:_fir_filter_diag"]}
{"id": "C02", "title": "FIR output covariance is the exact covariance of a random filter acting on a random signal", "statement": "Let the (past-extended) input be a random vector with mean ytilde and covariance Utilde (the stationary continuation FIRuncFilter documents) and the filter an independent random vector with mean theta and covariance Utheta. Then the full covariance returned by FIRuncFilter(..., return_full_covariance=True), shift=0, is exactly the covariance of the filtered signal - including the second order term - and the estimate is exactly its mean.", "quantifier": "all signals, filters, covariances and all finite-support independent joint distributions with these first two moments", "why_tests_cant": "a Monte Carlo comparison in a unit test only has statistical tolerance and a handful of sizes; the identity is over all distributions", "anchors": ["PyDynamic/uncertainty/propagate_filter.py:FIRuncFilter", "PyDynamic/uncertainty/propagate_filter.py:_fir_filter", "PyDynamic/uncertainty/propagate_filter.py:_stationary_prepend_covariance"]}
{"id": "C03", "title": "FIR output covariance is symmetric and positive semi-definite when the extended input covariance is", "statement": "If Utheta and the past-extended input covariance are symmetric positive semi-definite then the covariance returned by the FIR propagation is symmetric positive semi-definite; in particular every returned variance is >= 0.", "quantifier": "all dimensions and all symmetric positive semi-definite covariance pairs", "why_tests_cant": "positive semi-definiteness quantifies over all test vectors and all matrices; the cross term needs a Schur-product argument", "anchors": ["PyDynamic/uncertainty/propagate_filter.py:_fir_filter"]}
{"id": "C04", "title": "Efficient point-wise path agrees with the general path", "statement": "When FIRuncFilter takes the efficient path (white-noise or point-wise uncertainties, no low-pass, no full covariance requested, shift=0) its standard uncertainties equal the square roots of the diagonal of the covariance computed by the general path for the corresponding diagonal covariance matrices.", "quantifier": "all signals, filters, point-wise uncertainties of signal and coefficients", "why_tests_cant": "the path is selected by argument types; equality is between two different algorithms for all inputs", "anchors": ["PyDynamic/uncertainty/propagate_filter.py:FIRuncFilter", "PyDynamic/uncertainty/propagate_filter.py:_fir_filter_diag", "PyDynamic/uncertainty/propagate_filter.py:_fir_filter"]}
{"id": "C05", "title": "The shift argument moves estimate and uncertainty together", "statement": "FIRuncFilter(..., shift=s) returns the result of shift=0 with estimate and uncertainty re-indexed by the same circular shift, whatever path is taken.", "quantifier": "all integer shifts, signals, filters and covariances", "why_tests_cant": "existing tests only use shift=0; the defect needs s != 0 and a look at which covariance entry lands where", "anchors": ["PyDynamic/uncertainty/propagate_filter.py:FIRuncFilter", "PyDynamic/uncertainty/propagate_filter.py:_fir_filter"]}
{"id": "C06", "title": "A scalar coefficient uncertainty means the same as a constant vector", "statement": "FIRuncFilter(y, sigma, theta, Utheta=u) with a float u returns the same uncertainties as with Utheta=np.full(len(theta), u), the documented coefficient-wise standard uncertainty.", "quantifier": "all u > 0, signals, filters", "why_tests_cant": "needs comparison of two argument encodings for all values; no test passes a float Utheta", "anchors": ["PyDynamic/uncertainty/propagate_filter.py:FIRuncFilter"]}
{"id": "C07", "title": "A valid input covariance never yields a negative output variance", "statement": "For every symmetric positive semi-definite signal covariance matrix handed to FIRuncFilter as sigma_noise (2D), the diagonal of the returned full covariance is non-negative.", "quantifier": "all positive semi-definite signal covariances and all filters", "why_tests_cant": "the violation depends on how the covariance is continued into the past; random well-conditioned test matrices rarely show it", "anchors": ["PyDynamic/uncertainty/propagate_filter.py:FIRuncFilter", "PyDynamic/uncertainty/propagate_filter.py:_stationary_prepend_covariance"]}
{"id": "C08", "title": "FIRuncFilter accepts or rejects by a fixed table of argument kinds", "statement": "Which combinations of sigma_noise (None, float, 1D, 2D, other), Utheta (None, float, 1D, 2D), kind, blow, return_full_covariance are accepted, and which raise which exception, is given by a fixed decision table that depends on the kinds of the arguments only, not on their values.", "quantifier": "all combinations of argument kinds and all values", "why_tests_cant": "the cross product of argument types is large and only a few cells are covered by tests", "anchors": ["PyDynamic/uncertainty/propagate_filter.py:FIRuncFilter"]}
{"id": "C09", "title": "FIR propagation is homogeneous", "statement": "Multiplying signal and signal uncertainty by c multiplies the returned estimate by c and the returned standard uncertainty by |c|; for a certain filter, multiplying theta by c does the same.", "quantifier": "all real c (including negative and zero), all signals and filters", "why_tests_cant": "a metamorphic law over all scalings", "anchors": ["PyDynamic/uncertainty/propagate_filter.py:FIRuncFilter"]}
{"id": "C10", "title": "FIR filtering is causal", "statement": "Entry n of the estimate and entry (n,m) of the covariance returned by FIRuncFilter (shift=0, zero or point-wise uncertainty) depend only on samples (and uncertainties) with index <= max(n,m): changing later samples does not change them.", "quantifier": "all pairs of inputs that agree up to an index", "why_tests_cant": "a two-run (hyper-)property", "anchors": ["PyDynamic/uncertainty/propagate_filter.py:_fir_filter", "PyDynamic/uncertainty/propagate_filter.py:_fir_filter_diag"]}
{"id": "C11", "title": "convolve_unc computes the documented convolution in all six modes", "statement": "For every mode the estimate returned by convolve_unc(x1,U1,x2,U2,mode) equals the numpy convolution (full, valid, same) or the scipy.ndimage convolution with nearest/reflect/mirror continuation, entry by entry, and has the corresponding length.", "quantifier": "all modes, all lengths >= 2 of x2 (after the documented swap), all values", "why_tests_cant": "index arithmetic of padding and cropping must be right for every parity and length relation; tests use three lengths", "anchors": ["PyDynamic/uncertainty/propagate_convolution.py:convolve_unc"]}
{"id": "C12", "title": "convolve_unc covariance is exact for independent inputs", "statement": "If x1 and x2 are independent random vectors with the given means and covariances, the covariance returned by convolve_unc is exactly the covariance of their convolution in the chosen mode (boundary continuation included), for every mode.", "quantifier": "all modes, lengths, values and finite-support distributions", "why_tests_cant": "the tests compare with Monte Carlo at 10% tolerance", "anchors": ["PyDynamic/uncertainty/propagate_convolution.py:convolve_unc", "PyDynamic/uncertainty/propagate_filter.py:_fir_filter"]}
{"id": "C13", "title": "Convolution commutes", "statement": "In the modes full, valid and same convolve_unc(x1,U1,x2,U2,mode) and convolve_unc(x2,U2,x1,U1,mode) return the same estimate and the same covariance (symmetric input covariances).", "quantifier": "all modes full/valid/same, all lengths, all values and symmetric covariances", "why_tests_cant": "equality of two runs for all inputs, including equal lengths where no swap takes place", "anchors": ["PyDynamic/uncertainty/propagate_convolution.py:convolve_unc"]}
{"id": "C14", "title": "convolve_unc covariance is symmetric positive semi-definite", "statement": "For symmetric positive semi-definite U1, U2 the returned covariance is symmetric positive semi-definite in every mode.", "quantifier": "all modes, lengths, values", "why_tests_cant": "universal over matrices and test vectors", "anchors": ["PyDynamic/uncertainty/propagate_convolution.py:convolve_unc"]}
{"id": "C15", "title": "Any two signals can be convolved", "statement": "convolve_unc succeeds for every pair of non-empty signals and every documented mode, and raises ValueError for every other mode string.", "quantifier": "all lengths >= 1, all modes", "why_tests_cant": "the failing length (1) is not among the tested ones", "anchors": ["PyDynamic/uncertainty/propagate_convolution.py:convolve_unc", "PyDynamic/uncertainty/propagate_filter.py:_fir_filter"]}
{"id": "C16", "title": "IIRuncFilter returns a result for a valid filter", "statement": "IIRuncFilter(x, noise, b, a, Uab) returns output and uncertainty for every valid filter with len(b) <= len(a).", "quantifier": "all inputs", "why_tests_cant": "the only test of the function is empty", "anchors": ["PyDynamic/uncertainty/propagate_filter.py:IIRuncFilter"]}
{"id": "C17", "title": "shift_uncertainty moves values and uncertainties together and is invertible", "statement": "For integer s shift_uncertainty(x,ux,s) returns xs with xs[(i+s) mod n]=x[i] and the uncertainty (vector or matrix, both axes) re-indexed in the same way; a scalar uncertainty is unchanged; shifting by s and then by -s is the identity, shifting by s then t equals shifting by s+t; anything else than float/1D/2D raises TypeError.", "quantifier": "all signals, uncertainties, all integer shifts (negative, larger than the length)", "why_tests_cant": "universal over shifts and sizes", "anchors": ["PyDynamic/misc/tools.py:shift_uncertainty"]}
{"id": "C18", "title": "trimOrPad returns exactly the requested length and never alters kept samples", "statement": "trimOrPad(a,L) has length L; entry i is a[i] for i < len(a) and 0 otherwise. With mode edge, reflect, symmetric or wrap the appended entries continue a in that way; an array that is long enough is cut whatever the mode; other modes raise.", "quantifier": "all arrays and all lengths", "why_tests_cant": "universal", "anchors": ["PyDynamic/misc/tools.py:trimOrPad"]}
{"id": "C19", "title": "make_semiposdef returns a symmetric positive definite matrix and only moves the diagonal", "statement": "For every square matrix, tol >= 0 and maxiter >= 1 make_semiposdef terminates; the result is the symmetrised input plus a non-negative multiple of the identity and its smallest eigenvalue is at least tol; matrices whose smallest eigenvalue is already >= tol are only symmetrised. Non-square input raises ValueError.", "quantifier": "all square matrices, tolerances, both storage variants; eigenvalue routine assumed exact", "why_tests_cant": "termination and definiteness are universal statements", "anchors": ["PyDynamic/misc/tools.py:make_semiposdef"]}
{"id": "C20", "title": "make_semiposdef performs at most maxiter iterations", "statement": "The number of eigenvalue computations after the first never exceeds maxiter, in the dense and in the sparse branch.", "quantifier": "all matrices and all maxiter", "why_tests_cant": "a loop bound; a missing counter increment is invisible in the result of small tests", "anchors": ["PyDynamic/misc/tools.py:make_semiposdef"]}
{"id": "C21", "title": "FreqResp2RealImag returns mean vectors", "statement": "FreqResp2RealImag(Abs,Phase,Unc,MCruns) returns real part, imaginary part (each of length N, the means of the draws per frequency) and a symmetric covariance of size 2N.", "quantifier": "all N, all draws", "why_tests_cant": "tests do not look at the shape of the first two results", "anchors": ["PyDynamic/misc/tools.py:FreqResp2RealImag"]}
{"id": "C22", "title": "GUM_DFT estimate is the discrete Fourier transform", "statement": "GUM_DFT(x,Ux,N,window) returns real parts followed by imaginary parts of sum_n w[n]x[n]exp(-2 pi i k n/N') for k=0..N'/2 with N'=max(N,len(x)) after zero padding; N smaller than len(x) raises ValueError.", "quantifier": "all signals, lengths (odd/even), paddings, windows", "why_tests_cant": "universal over lengths and values", "anchors": ["PyDynamic/uncertainty/propagate_DFT.py:GUM_DFT", "PyDynamic/uncertainty/propagate_DFT.py:_apply_window"]}
{"id": "C23", "title": "GUM_DFT covariance is exact", "statement": "If x is random with mean x and covariance Ux (full, vector of variances, or scalar variance) then UF is exactly the covariance of the returned real/imaginary parts (for scalar Ux: exactly the variances).", "quantifier": "all signals, covariances, paddings, windows, all finite-support distributions", "why_tests_cant": "covers all distributions and sizes; cosine/sine sensitivity matrices must be right for every index", "anchors": ["PyDynamic/uncertainty/propagate_DFT.py:GUM_DFT"]}
{"id": "C24", "title": "Scalar input variance loses no information in GUM_DFT", "statement": "For scalar Ux without zero padding the covariances that GUM_DFT omits are all zero: the full propagation of Ux*I is diagonal with exactly the returned vector on its diagonal.", "quantifier": "all signal lengths", "why_tests_cant": "needs orthogonality of the DFT for every length", "anchors": ["PyDynamic/uncertainty/propagate_DFT.py:GUM_DFT"]}
{"id": "C25", "title": "GUM_DFT accepts a window together with point-wise variances", "statement": "GUM_DFT(x,Ux,window=w) with a vector Ux returns the propagation of w[n]^2*Ux[n].", "quantifier": "all x, Ux, w", "why_tests_cant": "the documented type combination is not exercised by any test", "anchors": ["PyDynamic/uncertainty/propagate_DFT.py:GUM_DFT", "PyDynamic/uncertainty/propagate_DFT.py:_apply_window"]}
{"id": "C26", "title": "GUM_iDFT inverts GUM_DFT on the estimate", "statement": "GUM_iDFT(*GUM_DFT(x,Ux)) returns x as estimate, for every length of x.", "quantifier": "all signals, odd and even lengths", "why_tests_cant": "tests use one power-of-two length only", "anchors": ["PyDynamic/uncertainty/propagate_DFT.py:GUM_iDFT", "PyDynamic/uncertainty/propagate_DFT.py:GUM_DFT"]}
{"id": "C27", "title": "GUM_iDFT variances are exact", "statement": "The diagonal of the covariance returned by GUM_iDFT(F,UF) is exactly the variance of the inverse DFT of a random F with covariance UF (matrix or vector), truncated to Nx samples; the symmetric part of the matrix is the exact covariance.", "quantifier": "all F, UF, lengths, distributions", "why_tests_cant": "universal", "anchors": ["PyDynamic/uncertainty/propagate_DFT.py:GUM_iDFT"]}
{"id": "C28", "title": "GUM_iDFT covariance is symmetric / exact", "statement": "For symmetric UF the covariance returned by GUM_iDFT is symmetric (and equals the exact covariance), so GUM_iDFT(*GUM_DFT(x,Ux)) returns Ux for even length.", "quantifier": "all symmetric UF", "why_tests_cant": "the existing test takes max of a signed difference with loose absolute tolerance on tiny numbers", "anchors": ["PyDynamic/uncertainty/propagate_DFT.py:GUM_iDFT"]}
{"id": "C29", "title": "DFT2AmpPhase propagates with the true Jacobian", "statement": "For non-vanishing amplitudes DFT2AmpPhase(F,UF) returns amplitude and phase of each line and UAP=J UF J^T, J being the matrix of partial derivatives of (amplitude, phase) with respect to (real, imaginary part) at F; for vector UF the same with diag(UF). UAP is symmetric when UF is.", "quantifier": "all F with A>0 away from the phase cut, all UF", "why_tests_cant": "correctness of every derivative and block for all inputs", "anchors": ["PyDynamic/uncertainty/propagate_DFT.py:DFT2AmpPhase"]}
{"id": "C30", "title": "AmpPhase2DFT propagates with the true Jacobian (matrix and vector UAP)", "statement": "AmpPhase2DFT(A,P,UAP) returns A cos P, A sin P and UF=J UAP J^T with J the matrix of partial derivatives.", "quantifier": "all A, P, UAP", "why_tests_cant": "correctness of every derivative and block for all inputs", "anchors": ["PyDynamic/uncertainty/propagate_DFT.py:AmpPhase2DFT"]}
{"id": "C31", "title": "Amplitude/phase conversion is reversible", "statement": "AmpPhase2DFT(*DFT2AmpPhase(F,UF)) returns F and UF for non-vanishing amplitudes and symmetric full UF.", "quantifier": "all F with A>0 and all UF", "why_tests_cant": "an inverse law over all inputs", "anchors": ["PyDynamic/uncertainty/propagate_DFT.py:DFT2AmpPhase", "PyDynamic/uncertainty/propagate_DFT.py:AmpPhase2DFT"]}
{"id": "C32", "title": "Sparse UAP gives the same result as the dense matrix it represents", "statement": "AmpPhase2DFT(A,P,UAP) with a sparse diagonal-storage UAP (as returned by DFT2AmpPhase with keep_sparse=True) returns the same F and UF as with the dense matrix.", "quantifier": "all A, P and all band matrices with diagonals -N,0,N", "why_tests_cant": "equality of two code branches for all inputs", "anchors": ["PyDynamic/uncertainty/propagate_DFT.py:AmpPhase2DFT", "PyDynamic/uncertainty/propagate_DFT.py:DFT2AmpPhase"]}
{"id": "C33", "title": "AmpPhase2Time variances and estimate", "statement": "AmpPhase2Time(A,P,UAP) returns the inverse DFT of A exp(iP) and the diagonal of Ux is J UAP J^T with the true partial derivatives.", "quantifier": "all A, P, UAP", "why_tests_cant": "universal", "anchors": ["PyDynamic/uncertainty/propagate_DFT.py:AmpPhase2Time"]}
{"id": "C34", "title": "AmpPhase2Time covariance is symmetric", "statement": "For symmetric UAP the matrix returned by AmpPhase2Time is symmetric.", "quantifier": "all A, P and symmetric UAP", "why_tests_cant": "tests only look at the estimate", "anchors": ["PyDynamic/uncertainty/propagate_DFT.py:AmpPhase2Time"]}
{"id": "C35", "title": "Time2AmpPhase_multi treats every signal like Time2AmpPhase", "statement": "Row m of the results of Time2AmpPhase_multi(x,Ux,selector) is the selected part of amplitude, phase and of the three diagonals of the covariance of Time2AmpPhase(x[m],Ux[m]).", "quantifier": "all numbers of signals, lengths, noise variances, selectors", "why_tests_cant": "universal; state is carried across loop iterations", "anchors": ["PyDynamic/uncertainty/propagate_DFT.py:Time2AmpPhase_multi", "PyDynamic/uncertainty/propagate_DFT.py:Time2AmpPhase"]}
{"id": "C36", "title": "DFT_deconv inverts DFT_multiply on the estimate", "statement": "DFT_deconv(H, DFT_multiply(Y,UY,H)) returns Y wherever H has no zero line.", "quantifier": "all Y, H with |H|>0", "why_tests_cant": "an inverse law over all inputs", "anchors": ["PyDynamic/uncertainty/propagate_DFT.py:DFT_deconv", "PyDynamic/uncertainty/propagate_DFT.py:DFT_multiply"]}
{"id": "C37", "title": "DFT_deconv propagates with the true Jacobian", "statement": "DFT_deconv(H,Y,UH,UY) returns X=Y/H and UX=J_Y UY J_Y^T + J_H UH J_H^T with the true partial derivatives of real and imaginary part of Y/H.", "quantifier": "all H without zero line, all Y, UH, UY", "why_tests_cant": "a single wrong symbol in one of eight derivatives only shows for generic inputs", "anchors": ["PyDynamic/uncertainty/propagate_DFT.py:DFT_deconv", "PyDynamic/uncertainty/propagate_DFT.py:_matprod"]}
{"id": "C38", "title": "DFT_multiply propagates with the true Jacobian", "statement": "DFT_multiply(Y,UY,F,UF) returns the product and UYF=J_Y UY J_Y^T + J_F UF J_F^T with the true partial derivatives, for full matrices.", "quantifier": "all Y, F, UY, UF", "why_tests_cant": "universal", "anchors": ["PyDynamic/uncertainty/propagate_DFT.py:DFT_multiply"]}
{"id": "C39", "title": "DFT_multiply with a vector of variances returns a full covariance", "statement": "DFT_multiply(Y,uy,F) with a vector uy of variances returns the same 2M x 2M covariance as with diag(uy), also in combination with a full UF.", "quantifier": "all Y, F, uy", "why_tests_cant": "shape and value equality of two argument encodings", "anchors": ["PyDynamic/uncertainty/propagate_DFT.py:DFT_multiply"]}
{"id": "C40", "title": "Linear interpolation uncertainty law", "statement": "interp1d_unc(...,kind='linear') inside the range returns the piecewise linear interpolant and uy_new^2 = L1^2 uy_lo^2 + L2^2 uy_hi^2, i.e. exactly the standard deviation of the interpolant when the y values are uncorrelated random variables with standard deviations uy.", "quantifier": "all strictly increasing time axes with >= 2 points, all query points inside, all values and uncertainties", "why_tests_cant": "universal over node positions and values", "anchors": ["PyDynamic/uncertainty/interpolate.py:interp1d_unc"]}
{"id": "C41", "title": "Sensitivity matrix reproduces values and uncertainties", "statement": "With returnC=True the returned C satisfies y_new = C y and uy_new^2 = diag(C diag(uy^2) C^T), each row is non-negative, sums to one and has at most two non-zero (adjacent) entries; y_new and uy_new are the same as with returnC=False.", "quantifier": "all time axes, query points (also outside when extrapolating), values", "why_tests_cant": "two code paths must agree on all inputs", "anchors": ["PyDynamic/uncertainty/interpolate.py:interp1d_unc"]}
{"id": "C42", "title": "Interpolation at a node returns the node, and never more than the larger neighbouring uncertainty", "statement": "At t_new=t[i] the linear result is exactly (y[i],uy[i]); everywhere inside 0 <= uy_new <= max(uy_lo,uy_hi); kinds previous/next/nearest return value and uncertainty of one and the same node.", "quantifier": "all nodes, all kinds, all query points inside", "why_tests_cant": "universal", "anchors": ["PyDynamic/uncertainty/interpolate.py:interp1d_unc"]}
{"id": "C43", "title": "Out-of-range queries", "statement": "With bounds_error True or unset and out-of-range query points interp1d_unc raises ValueError; with bounds_error=False it returns the fill values for values and uncertainties on the respective side, 'extrapolate' meaning constant continuation; no in-range value is altered by the presence of out-of-range points; kinds other than previous, next, nearest and linear raise NotImplementedError.", "quantifier": "all time axes and query vectors", "why_tests_cant": "universal", "anchors": ["PyDynamic/uncertainty/interpolate.py:interp1d_unc"]}
{"id": "C44", "title": "fill_value='extrapolate' alone enables extrapolation", "statement": "As documented, an error is raised by default unless fill_value='extrapolate': interp1d_unc(t_new,t,y,uy,fill_value='extrapolate') with out-of-range t_new returns the constant continuation.", "quantifier": "all time axes and query points", "why_tests_cant": "all extrapolation tests also pass bounds_error=False", "anchors": ["PyDynamic/uncertainty/interpolate.py:interp1d_unc"]}
{"id": "C45", "title": "Input order is irrelevant when assume_sorted=False", "statement": "With assume_sorted=False and distinct time stamps the result is the same for every simultaneous reordering of (t,y,uy) and equals the result for the sorted data.", "quantifier": "all permutations, all kinds", "why_tests_cant": "quantifies over all permutations", "anchors": ["PyDynamic/uncertainty/interpolate.py:interp1d_unc"]}
{"id": "C46", "title": "Mismatched lengths of values and uncertainties are rejected", "statement": "interp1d_unc raises ValueError whenever len(y) != len(uy).", "quantifier": "all length combinations, sorted or not", "why_tests_cant": "tests use the default assume_sorted=True only", "anchors": ["PyDynamic/uncertainty/interpolate.py:interp1d_unc"]}
{"id": "C47", "title": "make_equidistant never leaves the data range", "statement": "make_equidistant(t,y,uy,dt) with sorted t spanning a positive range returns equidistant points starting at t[0], spaced dt, all <= t[-1], covering the range up to one step, and never fails with an out-of-range error; values follow the interpolation law.", "quantifier": "all time axes, all dt > 0; also with arbitrary rounding of the generated grid", "why_tests_cant": "floating point grids may overshoot for some of infinitely many (t,dt)", "anchors": ["PyDynamic/uncertainty/interpolate.py:make_equidistant"]}
{"id": "C48", "title": "UMC_generic mean is the mean of all evaluated samples, for every block partition and completion order", "statement": "The mean returned by UMC_generic is the arithmetic mean of all evaluated results, for every blocksize, every number of runs and every order in which parallel workers deliver their blocks.", "quantifier": "all block partitions, result values, and completion orders of the worker pool", "why_tests_cant": "schedules of a process pool cannot be enumerated by tests", "anchors": ["PyDynamic/uncertainty/propagate_MonteCarlo.py:UMC_generic"]}
{"id": "C49", "title": "UMC_generic covariance is the sample covariance", "statement": "The covariance returned by UMC_generic equals the (n-1)-normalised sample covariance of all evaluated results.", "quantifier": "all block partitions, result values, completion orders", "why_tests_cant": "tests compare only shapes or tiny magnitudes", "anchors": ["PyDynamic/uncertainty/propagate_MonteCarlo.py:UMC_generic"]}
{"id": "C50", "title": "UMC_generic evaluates exactly the requested number of runs", "statement": "The number of evaluated samples equals runs, and return_samples=True returns all of them.", "quantifier": "all runs and blocksizes", "why_tests_cant": "tests use runs divisible by blocksize", "anchors": ["PyDynamic/uncertainty/propagate_MonteCarlo.py:UMC_generic"]}
{"id": "C51", "title": "UMC_generic histogram accounts for every sample", "statement": "For every output element the bin counts sum to the number of evaluated runs and the bin edges are non-decreasing and enclose every result.", "quantifier": "all samples, all initial batches", "why_tests_cant": "whether samples fall outside the initial range depends on the draw", "anchors": ["PyDynamic/uncertainty/propagate_MonteCarlo.py:UMC_generic"]}
{"id": "C52", "title": "UMC_generic pairs samples with their results", "statement": "With return_samples=True row i of results is the evaluation of row i of samples, for every completion order of the worker pool.", "quantifier": "all completion orders", "why_tests_cant": "schedules of a process pool", "anchors": ["PyDynamic/uncertainty/propagate_MonteCarlo.py:UMC_generic"]}
{"id": "C53", "title": "UMC honours nbins", "statement": "UMC(..., nbins=[n1,..,nk]) returns approximations for exactly the requested bin numbers and credible bounds for each of them.", "quantifier": "all nbins lists", "why_tests_cant": "the test only checks isinstance(dict)", "anchors": ["PyDynamic/uncertainty/propagate_MonteCarlo.py:UMC", "PyDynamic/uncertainty/propagate_MonteCarlo.py:UMC_generic"]}
{"id": "C54", "title": "Credible bounds are ordered and inside the histogram range", "statement": "The bounds UMC derives from a non-degenerate histogram satisfy edges[0] <= low <= high <= edges[-1] for every credibility in (0,1).", "quantifier": "all histograms with positive total count, all credibility levels", "why_tests_cant": "universal", "anchors": ["PyDynamic/uncertainty/propagate_MonteCarlo.py:UMC"]}
{"id": "C55", "title": "MC returns mean and covariance of the stable draws only", "statement": "MC returns mean and sample covariance of the filtered outputs over exactly the draws whose denominator passes the stability check; the output is the circularly shifted filter response; unstable draws never influence the result.", "quantifier": "all draws, filters, shifts, stability verdicts", "why_tests_cant": "random draws", "anchors": ["PyDynamic/uncertainty/propagate_MonteCarlo.py:MC"]}
{"id": "C56", "title": "MC and FIRuncFilter use the same shift convention", "statement": "For the same shift argument the estimates returned by MC (with zero uncertainties) and by FIRuncFilter are shifted in the same direction.", "quantifier": "all shifts and signals", "why_tests_cant": "both are only tested with shift=0", "anchors": ["PyDynamic/uncertainty/propagate_MonteCarlo.py:MC", "PyDynamic/uncertainty/propagate_filter.py:FIRuncFilter"]}
{"id": "C57", "title": "SMC returns a result", "statement": "SMC(x, noise_std, b, a) returns the mean and point-wise uncertainty for every non-empty signal.", "quantifier": "all inputs", "why_tests_cant": "the test is commented out in the repository", "anchors": ["PyDynamic/uncertainty/propagate_MonteCarlo.py:SMC"]}
{"id": "C58", "title": "Normal_ZeroCorr broadcasts consistently", "statement": "The constructor either ends with loc and scale of equal size (broadcasting a scalar) or raises; draws have shape (size, len(loc)) and entry loc+scale*z.", "quantifier": "all combinations of scalar/array arguments", "why_tests_cant": "universal over argument kinds and sizes", "anchors": ["PyDynamic/uncertainty/propagate_MonteCarlo.py:Normal_ZeroCorr"]}
{"id": "C59", "title": "ARMA generates the documented recursion", "statement": "ARMA(length,phi,theta,std) returns e with e[n]=w[n]+sum_i phi_i e[n-i]+sum_j theta_j w[n-j] (terms before the start omitted) for white noise w.", "quantifier": "all orders, coefficients, noise realisations", "why_tests_cant": "the test only looks at the shape", "anchors": ["PyDynamic/misc/noise.py:ARMA"]}
{"id": "C60", "title": "power_law_noise has the requested mean and standard deviation", "statement": "For every white noise input whose coloured version is not constant the returned signal has empirical mean `mean` and empirical standard deviation |std| and the length of the input; power_law_acf starts with std^2; passing both N and w is rejected.", "quantifier": "all noise realisations, colours", "why_tests_cant": "universal over realisations", "anchors": ["PyDynamic/misc/noise.py:power_law_noise", "PyDynamic/misc/noise.py:power_law_acf", "PyDynamic/misc/noise.py:get_alpha"]}
{"id": "C61", "title": "isstable is right for digital filters", "statement": "isstable(b,a,'digital') is True exactly if no root of the denominator lies outside the closed unit disc; an unknown ftype raises ValueError.", "quantifier": "all denominators (root finder assumed exact)", "why_tests_cant": "universal", "anchors": ["PyDynamic/misc/filterstuff.py:isstable"]}
{"id": "C62", "title": "isstable is right for analog filters", "statement": "isstable(b,a,'analog') is True exactly if all roots of the denominator have negative real part.", "quantifier": "all denominators", "why_tests_cant": "no test calls the analog branch", "anchors": ["PyDynamic/misc/filterstuff.py:isstable"]}
{"id": "C63", "title": "mapinside yields a stable polynomial", "statement": "mapinside(a) returns a polynomial of the same degree all of whose roots lie in the closed unit disc; roots already inside are kept, roots outside are replaced by their reciprocal conjugates.", "quantifier": "all polynomials (root finder assumed exact)", "why_tests_cant": "universal", "anchors": ["PyDynamic/misc/filterstuff.py:mapinside"]}
{"id": "C64", "title": "rect is the rectangle on (t0,t1]", "statement": "Without noise rect(time,t0,t1,height) is height exactly where t0 < time <= t1 and 0 elsewhere.", "quantifier": "all time axes and parameters", "why_tests_cant": "universal", "anchors": ["PyDynamic/misc/testsignals.py:rect"]}
{"id": "C65", "title": "GaussianPulse has its maximum m0 at t0 and the width sigma", "statement": "Without noise GaussianPulse(time,t0,m0,sigma) never exceeds m0 > 0, attains it exactly at t0, decreases with the distance from t0 and has the height m0/sqrt(e) exactly at the distance sigma.", "quantifier": "all times and parameters", "why_tests_cant": "a maximum over all reals", "anchors": ["PyDynamic/misc/testsignals.py:GaussianPulse"]}
{"id": "C66", "title": "shocklikeGaussian has its maximum m0 at t0", "statement": "Without noise shocklikeGaussian never exceeds m0 > 0 and attains it at t0.", "quantifier": "all times and parameters", "why_tests_cant": "the test checks the maximum value but not its location", "anchors": ["PyDynamic/misc/testsignals.py:shocklikeGaussian"]}
{"id": "C67", "title": "sine has the requested frequency", "statement": "sine(time,amp,freq) is amp*sin(2 pi freq time) with freq in Hz, multi_sine is the corresponding sum.", "quantifier": "all times and frequencies", "why_tests_cant": "the tests check zeros at multiples of the wrong quantity", "anchors": ["PyDynamic/misc/testsignals.py:sine", "PyDynamic/misc/testsignals.py:multi_sine"]}
{"id": "C68", "title": "corr_noise covariance matches the generated noise", "statement": "The covariance matrix of calc_cov is exactly the covariance of the noise generated by calc_noise from white noise.", "quantifier": "all w, sigma, N", "why_tests_cant": "an identity between two moments; a test only sees one realisation", "anchors": ["PyDynamic/misc/testsignals.py:corr_noise"]}
{"id": "C69", "title": "squarepulse places numpulse pulses of the given height in the time range", "statement": "squarepulse(time,height,numpulse) without noise only takes the values 0 and height and consists of numpulse pulses inside the range of time.", "quantifier": "all time axes", "why_tests_cant": "tests use a time axis starting at zero", "anchors": ["PyDynamic/misc/testsignals.py:squarepulse"]}
{"id": "C70", "title": "sos_phys2filter and sos_FreqResp describe the same system", "statement": "The analog filter returned by sos_phys2filter(S,d,f0), evaluated at s=2 pi i f, equals sos_FreqResp(S,d,f0,f); array-valued parameters give, column by column, the scalar result.", "quantifier": "all parameters and frequencies", "why_tests_cant": "universal identity", "anchors": ["PyDynamic/misc/SecondOrderSystem.py:sos_phys2filter", "PyDynamic/misc/SecondOrderSystem.py:sos_FreqResp"]}
{"id": "C71", "title": "invLSFIR recovers an exact inverse filter", "statement": "If 1/H exp(-i w tau) is exactly the frequency response of some FIR filter of order N and the design matrix has full rank, invLSFIR(H,N,tau,f,Fs) returns that filter.", "quantifier": "all filters, frequencies (least squares solver assumed exact)", "why_tests_cant": "universal", "anchors": ["PyDynamic/model_estimation/fit_filter.py:invLSFIR"]}
{"id": "C72", "title": "LSFIR fits the given frequency response", "statement": "If H is exactly the frequency response of an FIR filter of order N (tau=0), LSFIR(H,N,0,f,Fs) returns that filter.", "quantifier": "all filters, frequencies", "why_tests_cant": "no test of LSFIR exists", "anchors": ["PyDynamic/model_estimation/fit_filter.py:LSFIR"]}
{"id": "C73", "title": "Weights do not bias an exactly solvable fit", "statement": "If an exact solution exists, LSFIR/invLSFIR/invLSFIR_unc return the same filter for every positive weighting.", "quantifier": "all weights and exactly representable responses", "why_tests_cant": "metamorphic law", "anchors": ["PyDynamic/model_estimation/fit_filter.py:LSFIR", "PyDynamic/model_estimation/fit_filter.py:invLSFIR", "PyDynamic/model_estimation/fit_filter.py:invLSFIR_unc"]}
{"id": "C74", "title": "invLSFIR_unc propagates through the reciprocal response", "statement": "The Monte Carlo draws used by invLSFIR_unc are draws of 1/(H exp(i w tau)): for vanishing UH every draw equals the reciprocal used for the fit.", "quantifier": "all H, tau", "why_tests_cant": "only visible in the cross-covariances", "anchors": ["PyDynamic/model_estimation/fit_filter.py:invLSFIR_unc"]}
{"id": "C75", "title": "LSIIR stabilisation loop", "statement": "LSIIR and invLSIIR always terminate after at most 50 fits, return a stable filter whenever the loop stopped early, and the returned delay is the one used in the last fit.", "quantifier": "all fit results and stability verdicts", "why_tests_cant": "loop over an external solver", "anchors": ["PyDynamic/model_estimation/fit_filter.py:LSIIR", "PyDynamic/model_estimation/fit_filter.py:invLSIIR"]}
{"id": "C76", "title": "fit_som recovers exact second order system parameters", "statement": "For noise-free responses of a second order system with S0>0, delta>0, f0>0 at frequencies that determine it, fit_som(f,H) returns exactly (S0,delta,f0), for every scaling.", "quantifier": "all parameters, frequency grids and scalings", "why_tests_cant": "universal identity", "anchors": ["PyDynamic/model_estimation/fit_transfer.py:fit_som"]}
{"id": "C77", "title": "fit_som uses the true Jacobian", "statement": "The uncertainty returned by fit_som (without Monte Carlo) is C Umu C^T with C the matrix of partial derivatives of (S0,delta,f0) with respect to the auxiliary parameters.", "quantifier": "all auxiliary parameters", "why_tests_cant": "a wrong derivative only changes numbers", "anchors": ["PyDynamic/model_estimation/fit_transfer.py:fit_som"]}
{"id": "C78", "title": "Signal construction sets a consistent time base", "statement": "Every successfully constructed Signal has Ts, Fs and time axis set with Fs*Ts=1 and uncertainty shape matching the values; inconsistent arguments raise.", "quantifier": "all constructor arguments", "why_tests_cant": "cross product of optional arguments", "anchors": ["PyDynamic/signals.py:Signal.__init__"]}
{"id": "C79", "title": "Signal.apply_filter propagates the signal's own uncertainty", "statement": "For an FIR filter apply_filter replaces values and uncertainty by the FIR propagation of the point-wise standard uncertainties of the signal.", "quantifier": "all signals and filters", "why_tests_cant": "numbers only; not covered by tests", "anchors": ["PyDynamic/signals.py:Signal.apply_filter"]}
{"id": "C80", "title": "Signal.apply_filter always applies the filter", "statement": "After apply_filter returns normally the values are the filtered ones, for FIR and IIR filters, with and without Monte Carlo runs.", "quantifier": "all filters and MonteCarloRuns arguments", "why_tests_cant": "control flow over argument combinations", "anchors": ["PyDynamic/signals.py:Signal.apply_filter"]}
{"id": "C81", "title": "Coefficient-wise uncertainties are accepted whatever else is requested", "statement": "FIRuncFilter accepts the documented 1D Utheta (coefficient-wise standard uncertainties) of the length of theta together with every documented sigma_noise, kind and return_full_covariance.", "quantifier": "all signals, filters and uncertainty vectors of fitting length, all flags", "why_tests_cant": "the outcome depends on which internal path the combination of argument types selects", "anchors": ["PyDynamic/uncertainty/propagate_filter.py:FIRuncFilter", "PyDynamic/uncertainty/propagate_filter.py:_fir_filter"]}
{"id": "C82", "title": "Integer-typed arrays give the same uncertainty as the same values as floats", "statement": "FIRuncFilter called with integer-typed y (or theta) returns the same estimate and uncertainty as with the same numbers as floats.", "quantifier": "all integer valued signals and filters, all float standard uncertainties", "why_tests_cant": "array element types are a dimension the tests do not vary; truncation shows only for variances that are not integers", "anchors": ["PyDynamic/uncertainty/propagate_filter.py:FIRuncFilter"]}
{"id": "C83", "title": "A mask selects lines of estimate and uncertainty", "statement": "GUM_DFT(x,Ux,mask=m) with one boolean per line returns the real and imaginary parts of exactly the lines where m is True, in order, and the corresponding rows and columns (entries) of the unmasked UF; a mask of another length raises IndexError.", "quantifier": "all signals, uncertainties, windows, padded lengths and masks", "why_tests_cant": "universal over masks; two separately coded selections (estimate, loop over sensitivities) have to agree", "anchors": ["PyDynamic/uncertainty/propagate_DFT.py:GUM_DFT"]}
{"id": "C84", "title": "Returned sensitivities can be reused", "statement": "CxCos, CxSin returned by GUM_DFT(..., returnC=True) can be passed to later calls for signals of the same length, padded length and mask: estimate, uncertainty and exceptions are the same as without them.", "quantifier": "all pairs of calls with the same shape", "why_tests_cant": "relates two calls for all inputs", "anchors": ["PyDynamic/uncertainty/propagate_DFT.py:GUM_DFT"]}
{"id": "C85", "title": "Frequency domain covariances are positive semi-definite", "statement": "For symmetric positive semi-definite input covariances the covariance returned by GUM_DFT, DFT2AmpPhase, AmpPhase2DFT (vector or dense), DFT_multiply (full matrices) and DFT_deconv is symmetric positive semi-definite (DFT2AmpPhase and DFT_deconv: lines with non-zero amplitude, or denominator).", "quantifier": "all inputs of fitting shape", "why_tests_cant": "universal; numerical eigenvalue checks only sample", "anchors": ["PyDynamic/uncertainty/propagate_DFT.py:GUM_DFT", "PyDynamic/uncertainty/propagate_DFT.py:DFT2AmpPhase", "PyDynamic/uncertainty/propagate_DFT.py:AmpPhase2DFT", "PyDynamic/uncertainty/propagate_DFT.py:DFT_multiply", "PyDynamic/uncertainty/propagate_DFT.py:DFT_deconv"]}
{"id": "C86", "title": "GUM_DFTfreq gives the frequencies of the lines of GUM_DFT", "statement": "GUM_DFTfreq(N,dt)[k] is the frequency f_k such that line k of GUM_DFT is the correlation of the signal with cos(2 pi f_k t), -sin(2 pi f_k t) at t=m*dt; frequencies start at 0, are equidistant and do not exceed 1/(2 dt); there are as many as lines.", "quantifier": "all N, dt, signals", "why_tests_cant": "relates two functions for all lengths and sampling intervals", "anchors": ["PyDynamic/uncertainty/propagate_DFT.py:GUM_DFTfreq", "PyDynamic/uncertainty/propagate_DFT.py:GUM_DFT"]}
{"id": "C87", "title": "Time2AmpPhase propagates with the true Jacobian", "statement": "Time2AmpPhase(x,Ux) returns amplitude and phase of the DFT of x and J Ux J^T with J the partial derivatives of (amplitude, phase) with respect to the samples, wherever no line vanishes.", "quantifier": "all signals without vanishing line and all Ux", "why_tests_cant": "chain rule through two functions with an intermediate loss of storage format", "anchors": ["PyDynamic/uncertainty/propagate_DFT.py:Time2AmpPhase", "PyDynamic/uncertainty/propagate_DFT.py:GUM_DFT", "PyDynamic/uncertainty/propagate_DFT.py:DFT2AmpPhase"]}
{"id": "C88", "title": "progress_bar shows the completed fraction", "statement": "progress_bar(count,count_max,width) writes exactly width indicator characters; the number of done indicators is the floor of width*(count+1)/count_max, so the bar is complete exactly at the last iteration; count_max=0 raises ZeroDivisionError.", "quantifier": "all counts, maxima and widths", "why_tests_cant": "a rounding law for all combinations of three integers", "anchors": ["PyDynamic/misc/tools.py:progress_bar"]}
{"id": "C89", "title": "Sparse storage is accepted by make_semiposdef for every size", "statement": "A matrix may be handed to make_semiposdef as a scipy.sparse matrix whatever its size; the outcome is the one for the dense matrix up to the multiple of the identity.", "quantifier": "all square sizes", "why_tests_cant": "the failure depends on the size relative to a scipy default (k=6 eigenvalues)", "anchors": ["PyDynamic/misc/tools.py:make_semiposdef"]}
{"id": "C90", "title": "Integer fill values are accepted", "statement": "interp1d_unc accepts an int wherever a float fill value is accepted: fill_value=0 and fill_unc=0 fill out-of-range points with 0.", "quantifier": "all kinds, all time axes and query points", "why_tests_cant": "tests pass floats or arrays only", "anchors": ["PyDynamic/uncertainty/interpolate.py:interp1d_unc"]}
{"id": "C91", "title": "A single data point can be looked up", "statement": "interp1d_unc with one data point evaluated exactly at this point returns its value and its uncertainty, for every kind.", "quantifier": "all values and kinds", "why_tests_cant": "degenerate size never drawn by the tests", "anchors": ["PyDynamic/uncertainty/interpolate.py:interp1d_unc"]}
{"id": "C92", "title": "UMC evaluates the documented block diagram", "statement": "Each result UMC averages is the response described in _UMCevaluate: ARMA noise is added to x, the low-pass (blow, alow) and then the drawn filter (bb, aa) are applied as difference equations starting at rest, and a value from [-Delta, Delta] is added; dividing by alow[0] does not change the result.", "quantifier": "all signals, filters, draws, low-pass normalisations", "why_tests_cant": "random draws; the tests only check shapes", "anchors": ["PyDynamic/uncertainty/propagate_MonteCarlo.py:_UMCevaluate", "PyDynamic/uncertainty/propagate_MonteCarlo.py:UMC"]}
{"id": "C98", "title": "power_law_noise shapes the spectrum as announced", "statement": "Up to one common factor, frequency bin k >= 1 of the signal returned by power_law_noise is bin k of the white noise times (k+1)^(alpha/2), as the comment in the code (k = 1, 2, 3, ...) says.", "quantifier": "all noise realisations, colours, lengths", "why_tests_cant": "a test would have to compare whole spectra for every length", "anchors": ["PyDynamic/misc/noise.py:power_law_noise"]}
{"id": "C99", "title": "power_law_acf is a valid autocovariance", "statement": "For N >= 2 power_law_acf(N, color, std) returns N values, the first is std^2, none exceeds it in absolute value, and the Toeplitz matrix built from them is symmetric positive semi-definite (usable as covariance); bad colours and N <= 1 raise.", "quantifier": "all N, colours, std", "why_tests_cant": "positive semi-definiteness for all sizes and exponents", "anchors": ["PyDynamic/misc/noise.py:power_law_acf"]}
{"id": "C100", "title": "sos_realimag returns mean and sample covariance of the drawn systems", "statement": "sos_realimag returns the average of the frequency responses of the drawn second order systems and the (n-1)-normalised sample covariance of their stacked real and imaginary parts.", "quantifier": "all parameters, uncertainties, frequencies, draws", "why_tests_cant": "random draws; only shapes are visible to a test", "anchors": ["PyDynamic/misc/SecondOrderSystem.py:sos_realimag"]}
{"id": "C101", "title": "corr_noise.calc_noise2 generates noise", "statement": "corr_noise(w, sigma).calc_noise2(N) returns N values.", "quantifier": "all w, sigma, N", "why_tests_cant": "never called by a test", "anchors": ["PyDynamic/misc/testsignals.py:corr_noise"]}
{"id": "C93", "title": "grpdelay is the negative slope of the phase", "statement": "grpdelay(b, a, Fs, nfft) returns at every returned frequency f at which the response does not vanish the value -dphi/dw at w = 2 pi f/Fs, phi being the phase of the filter; the frequencies are k Fs/(2 nfft), k = 0..nfft.", "quantifier": "all real coefficient vectors, sampling frequencies, nfft", "why_tests_cant": "a derivative for all filters and frequencies; tests compare a few designs", "anchors": ["PyDynamic/misc/filterstuff.py:grpdelay"]}
{"id": "C94", "title": "savitzky_golay reproduces polynomials", "statement": "Away from the edges savitzky_golay returns the deriv-th derivative (divided by delta^deriv) of the polynomial of degree at most order that the samples follow, in general the one of the least squares polynomial of the window; the length is kept; even or too small windows raise TypeError; a derivative beyond the order raises IndexError.", "quantifier": "all signals, windows, orders, derivatives, spacings", "why_tests_cant": "all polynomials and windows", "anchors": ["PyDynamic/misc/filterstuff.py:savitzky_golay"]}
{"id": "C95", "title": "savitzky_golay is linear", "statement": "savitzky_golay of a linear combination of signals is the linear combination of the results.", "quantifier": "all signals and factors", "why_tests_cant": "edge effects for particular monotonicity only", "anchors": ["PyDynamic/misc/filterstuff.py:savitzky_golay"]}
{"id": "C96", "title": "kaiser_lowpass returns its delay", "statement": "The second value returned by kaiser_lowpass is the delay in samples (an int) of the returned linear phase filter.", "quantifier": "all lengths, cut-off and sampling frequencies", "why_tests_cant": "half a sample is invisible in plots", "anchors": ["PyDynamic/misc/filterstuff.py:kaiser_lowpass"]}
{"id": "C97", "title": "impinvar is impulse invariant", "statement": "The digital filter returned by impinvar(b, a, fs) has the impulse response h(n/fs)/fs, h being the impulse response of the analog filter b(s)/a(s); filters with a direct part are rejected with ValueError.", "quantifier": "all proper analog filters, sampling frequencies (residue and invres assumed exact)", "why_tests_cant": "an infinite impulse response for every filter", "anchors": ["PyDynamic/misc/impinvar.py:impinvar", "PyDynamic/misc/impinvar.py:z_res", "PyDynamic/misc/impinvar.py:to_real"]}
{"id": "C102", "title": "isstable guarantees bounded outputs", "statement": "If isstable(b, a, 'digital') is True then bounded inputs give bounded outputs.", "quantifier": "all filters and bounded inputs of any length", "why_tests_cant": "unbounded input lengths", "anchors": ["PyDynamic/misc/filterstuff.py:isstable"]}
{"id": "C103", "title": "ua returns a continuous phase", "statement": "ua(vals) differs from the angle of vals by multiples of 2 pi, jumps by at most pi, and recovers every phase course with steps below pi up to one constant multiple of 2 pi.", "quantifier": "all complex sequences without zeros", "why_tests_cant": "all phase courses", "anchors": ["PyDynamic/misc/filterstuff.py:ua"]}
{"id": "C104", "title": "impinvar_causal removes the first value only", "statement": "impinvar_causal returns the filter whose impulse response is that of impinvar with the first value replaced by 0.", "quantifier": "all filters", "why_tests_cant": "an infinite impulse response for every filter", "anchors": ["PyDynamic/misc/impinvar.py:impinvar_causal"]}
{"id": "C105", "title": "invLSFIR_uncMC returns mean and covariance of the fits to the drawn responses", "statement": "invLSFIR_uncMC returns as coefficients the mean and as uncertainty the sample covariance of the least squares FIR fits to the delayed reciprocals of the drawn responses; without uncertainty these are the exact inverse filter and the zero matrix.", "quantifier": "all responses, covariances, orders, delays, frequencies, draws", "why_tests_cant": "statistical output of random draws; tests can only look at a few seeds", "anchors": ["PyDynamic/model_estimation/fit_filter.py:invLSFIR_uncMC"]}
{"id": "C106", "title": "LSIIR and invLSIIR fits are least squares solutions of the linearised problem", "statement": "With justFit=True LSIIR returns the filter (b, a), a_0 = 1, of the given orders minimising the sum of |B(w) - H exp(-i w tau) A(w)|^2 (invLSIIR: with 1/H); a filter of the orders that has exactly the given response and is determined by it is returned exactly.", "quantifier": "all responses, orders, delays, frequencies (exact least squares solver)", "why_tests_cant": "universal identity in all responses", "anchors": ["PyDynamic/model_estimation/fit_filter.py:LSIIR", "PyDynamic/model_estimation/fit_filter.py:invLSIIR", "PyDynamic/model_estimation/fit_filter.py:_fitIIR"]}
{"id": "C107", "title": "invLSIIR_unc returns mean and covariance of the fits to the drawn responses", "statement": "invLSIIR_unc returns the means of numerator and denominator coefficients over the invLSIIR fits to the drawn responses and their joint sample covariance without the fixed a_0; without uncertainty these are the invLSIIR result and the zero matrix.", "quantifier": "all responses, covariances, orders, draws", "why_tests_cant": "statistical output of random draws", "anchors": ["PyDynamic/model_estimation/fit_filter.py:invLSIIR_unc"]}
{"id": "C108", "title": "fit_som recovers systems with negative static gain", "statement": "For noise-free responses of a second order system with S0 <> 0 and f0 > 0 (sensors of inverting polarity have S0 < 0), fit_som returns (S0, delta, f0).", "quantifier": "all parameters including negative gains", "why_tests_cant": "needs a negative gain system; existing checks use positive ones", "anchors": ["PyDynamic/model_estimation/fit_transfer.py:fit_som"]}
{"id": "C109", "title": "fit_som is the weighted least squares fit of the reciprocal response", "statement": "The auxiliary parameters behind the result of fit_som minimise the variance-weighted squared deviation of mu0 + 2 i w mu1 - w^2 mu2 from 1/H over all real mu; the scaling does not matter; with Monte Carlo runs the result is mean and covariance of the parameters of the fits to the draws.", "quantifier": "all frequencies, responses, weightings None/'diag'/array, scalings, draws", "why_tests_cant": "optimality over all parameters", "anchors": ["PyDynamic/model_estimation/fit_transfer.py:fit_som"]}
{"id": "C110", "title": "fit_som honours user weights", "statement": "An array of weights given to fit_som multiplies the squared deviations: a larger weight gives the value more influence.", "quantifier": "all positive weight arrays", "why_tests_cant": "only inconsistent data show the difference", "anchors": ["PyDynamic/model_estimation/fit_transfer.py:fit_som"]}
{"id": "C111", "title": "MC and UMC apply the filter (b, a) that was given", "statement": "If nothing is uncertain (all draws equal the estimates), the mean returned by MC and by UMC is the response of the filter sum a_j y(n-j) = sum b_j x(n-j), for every denominator with a[0] <> 0.", "quantifier": "all signals, numerators and denominators", "why_tests_cant": "needs a denominator that is not normalised; existing checks use a[0] = 1", "anchors": ["PyDynamic/uncertainty/propagate_MonteCarlo.py:MC", "PyDynamic/uncertainty/propagate_MonteCarlo.py:UMC", "PyDynamic/uncertainty/propagate_MonteCarlo.py:_UMCevaluate"]}
{"id": "C112", "title": "trunc_svd_tol removes ill-determined directions from the filter", "statement": "With trunc_svd_tol=t the coefficients and covariance returned by invLSFIR_unc have no component along right singular vectors of the design with singular value below t; among all coefficient vectors without such a component the result minimises the squared deviation from the reciprocal response, and among these minimisers it has the least norm.", "quantifier": "all responses, frequencies, orders, tolerances (exact singular value decomposition)", "why_tests_cant": "optimality over all coefficient vectors", "anchors": ["PyDynamic/model_estimation/fit_filter.py:invLSFIR_unc"]}
{"id": "C113", "title": "IIRuncFilter, once tf2ss is importable, returns output and correct uncertainty", "statement": "If the missing name tf2ss were imported from scipy.signal, IIRuncFilter(x, noise, b, a, Uab) would return, for every filter with len(b) <= len(a) and every covariance Uab, the filter output and its standard uncertainty, to first order in noise and coefficients.", "quantifier": "all inputs, filters, orders, covariances", "why_tests_cant": "the function never gets that far when run (C16)", "anchors": ["PyDynamic/uncertainty/propagate_filter.py:IIRuncFilter"]}
{"id": "C114", "title": "sos_absphase returns mean and sample covariance of amplitude and phase", "statement": "sos_absphase returns the average of the frequency responses of the drawn second order systems and the (n-1)-normalised sample covariance of their stacked amplitudes and phases, whatever the order of the draws.", "quantifier": "all parameters, uncertainties, frequencies, draws", "why_tests_cant": "random draws; the order of the draws cannot be controlled by a test", "anchors": ["PyDynamic/misc/SecondOrderSystem.py:sos_absphase", "PyDynamic/misc/filterstuff.py:ua"]}
{"id": "C115", "title": "db is the decibel scale", "statement": "|v| = 10^(db(v)/20) for every complex value other than zero, db is minus infinity only at zero, and db of a product is the sum of the values.", "quantifier": "all complex vectors", "why_tests_cant": "universal identity", "anchors": ["PyDynamic/misc/filterstuff.py:db"]}
{"id": "C116", "title": "print_vec and print_mat lay out every entry once and in order", "statement": "The text of print_vec consists of the formatted entries in order, each followed by a blank and a tab (newline if vertical); print_mat gives one line for each row (column if vertical) laid out in this way; the printed text equals the returned one.", "quantifier": "all vectors, matrices, precisions, number formats without tabs and newlines", "why_tests_cant": "universal over sizes and formats", "anchors": ["PyDynamic/misc/tools.py:print_vec", "PyDynamic/misc/tools.py:print_mat"]}
{"id": "C117", "title": "The deprecated modules deconvolution and identification give the results of model_estimation", "statement": "deconvolution.LSFIR, LSFIR_unc and LSFIR_uncMC recover the exact inverse FIR filter, deconvolution.LSIIR and LSIIR_unc the exact inverse IIR filter, and identification.fit_sos the exact second order parameters, whenever these exist and are determined by the frequencies.", "quantifier": "all responses, frequencies, orders, delays, weightings", "why_tests_cant": "universal; the deprecated modules have no tests of results", "anchors": ["PyDynamic/deconvolution/fit_filter.py:LSFIR", "PyDynamic/deconvolution/fit_filter.py:LSFIR_unc", "PyDynamic/deconvolution/fit_filter.py:LSFIR_uncMC", "PyDynamic/deconvolution/fit_filter.py:LSIIR", "PyDynamic/deconvolution/fit_filter.py:LSIIR_unc", "PyDynamic/identification/fit_transfer.py:fit_sos"]}
{"id": "C118", "title": "DFT_transferfunction recovers the frequency response of the system", "statement": "If Y is the spectrum X passed through the system H (DFT_multiply), DFT_transferfunction(X, Y, UX, UY) returns H for every X without vanishing lines, and the covariance of H when X is exactly known; for other spectra it returns the quotient Y/X; inputs of other sizes are rejected.", "quantifier": "all spectra, covariances, numbers of frequencies", "why_tests_cant": "universal round trip; no test calls the function", "anchors": ["PyDynamic/uncertainty/propagate_DFT.py:DFT_transferfunction", "PyDynamic/uncertainty/propagate_DFT.py:DFT_deconv"]}
{"id": "C119", "title": "The argument noise of the test signals is the standard deviation of the noise", "statement": "GaussianPulse, shocklikeGaussian, rect, squarepulse, sine and multi_sine with noise > 0 have the signal without noise as mean and uncorrelated deviations of standard deviation noise, for white standard noise drawn.", "quantifier": "all time axes, parameters, noise levels, distributions of the draws with mean 0 and unit covariance", "why_tests_cant": "moments of the random output; a test sees single realisations", "anchors": ["PyDynamic/misc/testsignals.py:GaussianPulse", "PyDynamic/misc/testsignals.py:shocklikeGaussian", "PyDynamic/misc/testsignals.py:rect", "PyDynamic/misc/testsignals.py:squarepulse", "PyDynamic/misc/testsignals.py:sine", "PyDynamic/misc/testsignals.py:multi_sine"]}
{"id": "C120", "title": "The propagated covariance does not depend on the element type of the covariance matrix", "statement": "GUM_DFT with window, DFT2AmpPhase, AmpPhase2DFT, DFT_multiply (and DFT_deconv, which uses the same products) return the same covariance for a covariance matrix of integers, e.g. np.diag([1, 1]), as for the same matrix of floats.", "quantifier": "all spectra, windows, integer covariance matrices", "why_tests_cant": "every test passes float matrices; the intermediate arrays take the integer type (np.zeros_like) and truncate silently", "anchors": ["PyDynamic/uncertainty/propagate_DFT.py:_prod", "PyDynamic/uncertainty/propagate_DFT.py:_apply_window", "PyDynamic/uncertainty/propagate_DFT.py:DFT2AmpPhase", "PyDynamic/uncertainty/propagate_DFT.py:AmpPhase2DFT", "PyDynamic/uncertainty/propagate_DFT.py:DFT_multiply"]}
{"id": "C121", "title": "A covariance matrix may be given as sparse diagonal matrix", "statement": "AmpPhase2DFT and AmpPhase2Time return for a scipy dia_matrix what they return for the same matrix as array, whichever diagonals are stored and in whichever order (sparse.diags(variances), sparse.dia_matrix(array)).", "quantifier": "all amplitudes, phases, stored diagonals", "why_tests_cant": "depends on the storage order, tests only use matrices built by the library itself", "anchors": ["PyDynamic/uncertainty/propagate_DFT.py:AmpPhase2DFT", "PyDynamic/uncertainty/propagate_DFT.py:AmpPhase2Time"]}
{"id": "C122", "title": "Test signals accept integer time instants", "statement": "squarepulse and multi_sine return for integer time instants (np.arange(n)) the signal they return for the same instants as floats.", "quantifier": "all integer time axes, heights, numbers of pulses, amplitudes, frequencies", "why_tests_cant": "tests use float time axes only", "anchors": ["PyDynamic/misc/testsignals.py:squarepulse", "PyDynamic/misc/testsignals.py:multi_sine"]}
{"id": "C123", "title": "calc_autocorr returns the sample autocorrelation of the generated noise", "statement": "corr_noise.calc_autocorr(lag) has max(lag, 1) entries, the first of which is 1; entry i is the sample correlation coefficient of the noise and the noise shifted by i, within [-1, 1], 1 for noise of period i, nan when fewer than two pairs are left or one part is constant; AttributeError before any noise was generated (lag >= 2).", "quantifier": "all noise sequences and lags", "why_tests_cant": "universal over sequences; the method is not tested", "anchors": ["PyDynamic/misc/testsignals.py:corr_noise.calc_autocorr"]}
{"id": "C124", "title": "MC accepts every covariance matrix of the signal", "statement": "MC called with a covariance matrix of the signal (symmetric, positive semidefinite, of the size of the signal) returns a result; a matrix that is no covariance matrix is rejected with ValueError.", "quantifier": "all signals, covariance matrices, filters, numbers of runs", "why_tests_cant": "the tests use a positive definite matrix of the noise only; singular matrices (fully correlated errors, exactly known samples) and signals of one sample are never tried", "anchors": ["PyDynamic/uncertainty/propagate_MonteCarlo.py:MC"]}
{"id": "C125", "title": "The uncertainty returned by a Monte Carlo evaluation is the covariance matrix of the estimate", "statement": "MC, fit_som and FreqResp2RealImag with MCruns return the sample covariance matrix (one row and column per sample, parameter, real and imaginary part) or report that there are too few runs to estimate one.", "quantifier": "all inputs and numbers of runs", "why_tests_cant": "one draw (for MC: one stable draw among many) is a boundary case the tests leave out, and the returned number looks plausible", "anchors": ["PyDynamic/uncertainty/propagate_MonteCarlo.py:MC", "PyDynamic/model_estimation/fit_transfer.py:fit_som", "PyDynamic/misc/tools.py:FreqResp2RealImag"]}
{"id": "C126", "title": "N is ignored by power_law_noise if w is given", "statement": "power_law_noise called with a white noise vector w uses this vector and ignores N, as documented.", "quantifier": "all w, N, colours, means and standard deviations", "why_tests_cant": "the tests never pass both; the documented combination is an interplay of two optional arguments", "anchors": ["PyDynamic/misc/noise.py:power_law_noise"]}
{"id": "C127", "title": "A list has the effect of the array with the same entries", "statement": "Arguments documented as array_like (t_new of interp1d_unc, the matrices of make_semiposdef, print_mat and Unc of FreqResp2RealImag) may be lists: the result is the one for the array.", "quantifier": "all entries, lengths, interpolation kinds", "why_tests_cant": "the tests pass arrays throughout; whether a list works depends on the branch that is reached", "anchors": ["PyDynamic/uncertainty/interpolate.py:interp1d_unc", "PyDynamic/misc/tools.py:make_semiposdef", "PyDynamic/misc/tools.py:print_mat", "PyDynamic/misc/tools.py:FreqResp2RealImag"]}
{"id": "C128", "title": "FIR filtering superposes", "statement": "The output of FIRuncFilter for a x1 + b x2 is a times the output for x1 plus b times the output for x2; likewise for the coefficients; with exactly known coefficients the reported uncertainty does not depend on the signal.", "quantifier": "all signals, coefficients, weights, noise descriptions, low-pass filters, full covariance or standard deviations", "why_tests_cant": "relates three calls on arbitrary signals; the tests look at one call at a time", "anchors": ["PyDynamic/uncertainty/propagate_filter.py:FIRuncFilter"]}
{"id": "C129", "title": "FIR filtering commutes with a delay", "statement": "Delaying the signal by p samples (continuing its first value into the past) delays output and uncertainty of FIRuncFilter by p samples, nothing else changes.", "quantifier": "all signals, delays, coefficients with covariance, stationary noise (full covariance) or pointwise noise (standard deviations)", "why_tests_cant": "a relation between calls on signals of different lengths, for every delay", "anchors": ["PyDynamic/uncertainty/propagate_filter.py:FIRuncFilter"]}
{"id": "C130", "title": "More input uncertainty never gives less output uncertainty", "statement": "If the covariance of the inputs is enlarged (in the order of semidefinite matrices), the estimate stays the same and the reported covariance is enlarged: FIRuncFilter, convolve_unc, GUM_DFT, GUM_iDFT, DFT2AmpPhase, AmpPhase2DFT, DFT_multiply, DFT_deconv, interp1d_unc (DFT2AmpPhase and DFT_deconv: for lines with non-zero amplitude, or denominator).", "quantifier": "all inputs, sizes, pairs of ordered covariances (interp1d_unc: points inside the range)", "why_tests_cant": "an order relation over all pairs of covariance matrices; a misplaced sign is invisible for the few matrices in the tests", "anchors": ["PyDynamic/uncertainty/propagate_filter.py:FIRuncFilter", "PyDynamic/uncertainty/propagate_convolution.py:convolve_unc", "PyDynamic/uncertainty/propagate_DFT.py:GUM_DFT", "PyDynamic/uncertainty/propagate_DFT.py:GUM_iDFT", "PyDynamic/uncertainty/propagate_DFT.py:DFT2AmpPhase", "PyDynamic/uncertainty/propagate_DFT.py:AmpPhase2DFT", "PyDynamic/uncertainty/propagate_DFT.py:DFT_multiply", "PyDynamic/uncertainty/propagate_DFT.py:DFT_deconv", "PyDynamic/uncertainty/interpolate.py:interp1d_unc"]}
{"id": "C131", "title": "Exactly known inputs give exactly known outputs", "statement": "If all input uncertainties are zero so are all reported uncertainties: FIRuncFilter, convolve_unc, GUM_DFT, GUM_iDFT, DFT2AmpPhase, AmpPhase2DFT, DFT_multiply, DFT_deconv, interp1d_unc (DFT2AmpPhase and DFT_deconv: for lines with non-zero amplitude, or denominator).", "quantifier": "all inputs and sizes (interp1d_unc: points inside the range)", "why_tests_cant": "must hold for all estimates, sizes and options; the tests use non-zero uncertainties", "anchors": ["PyDynamic/uncertainty/propagate_filter.py:FIRuncFilter", "PyDynamic/uncertainty/propagate_convolution.py:convolve_unc", "PyDynamic/uncertainty/propagate_DFT.py:GUM_DFT", "PyDynamic/uncertainty/propagate_DFT.py:GUM_iDFT", "PyDynamic/uncertainty/propagate_DFT.py:DFT2AmpPhase", "PyDynamic/uncertainty/propagate_DFT.py:AmpPhase2DFT", "PyDynamic/uncertainty/propagate_DFT.py:DFT_multiply", "PyDynamic/uncertainty/propagate_DFT.py:DFT_deconv", "PyDynamic/uncertainty/interpolate.py:interp1d_unc"]}
{"id": "C132", "title": "Interpolation does not depend on the units", "statement": "Time in other units and with another origin, values in other units with another zero: interp1d_unc returns the same values, uncertainties, sensitivities (or error) expressed in these units.", "quantifier": "all data on an increasing axis, all query points, kinds, treatments of points outside, fill values (no integers), with and without sensitivities", "why_tests_cant": "a relation between two calls for every affine change of both axes", "anchors": ["PyDynamic/uncertainty/interpolate.py:interp1d_unc"]}
{"id": "C133", "title": "DFT, inverse DFT, amplitudes and phases, products do not depend on the units", "statement": "With the signal or spectrum multiplied by c and its covariance by c^2, spectra (signals, amplitudes, products) are multiplied by c and covariances by c^2; phases and their uncertainties do not change.", "quantifier": "all inputs, sizes, windows, paddings, masks, factors (positive for amplitudes)", "why_tests_cant": "a relation between two calls for every factor; mixed amplitude/phase blocks scale differently and are easily confused", "anchors": ["PyDynamic/uncertainty/propagate_DFT.py:GUM_DFT", "PyDynamic/uncertainty/propagate_DFT.py:GUM_iDFT", "PyDynamic/uncertainty/propagate_DFT.py:DFT2AmpPhase", "PyDynamic/uncertainty/propagate_DFT.py:AmpPhase2DFT", "PyDynamic/uncertainty/propagate_DFT.py:DFT_multiply"]}
{"id": "C134", "title": "Deconvolution does not depend on the units", "statement": "With the transfer function multiplied by a, the spectrum of the output by b (and the covariances by a^2, b^2), DFT_deconv returns b/a times the estimate with (b/a)^2 times the covariance.", "quantifier": "all spectra, covariances, factors a <> 0, b", "why_tests_cant": "a relation between two calls for every pair of factors; the tests use one system of units", "anchors": ["PyDynamic/uncertainty/propagate_DFT.py:DFT_deconv"]}
{"id": "C135", "title": "AmpPhase2Time inverts Time2AmpPhase", "statement": "A signal converted to amplitudes and phases and back is the same signal with the same uncertainty.", "quantifier": "all signals, variances or covariance matrices of them, even and odd lengths", "why_tests_cant": "a round trip over all lengths; the parity of the length is not stored in amplitudes and phases; the tests only use even lengths", "anchors": ["PyDynamic/uncertainty/propagate_DFT.py:Time2AmpPhase", "PyDynamic/uncertainty/propagate_DFT.py:AmpPhase2Time"]}
{"id": "C136", "title": "Credible intervals are nested", "statement": "UMC called twice with the same random numbers and credibilities c1 <= c2: mean, covariance and histogram are the same, the interval for c1 lies within the interval for c2.", "quantifier": "all filters, signals, draws, completion orders, block sizes, credibilities in [0, 1], nbins; output elements with a counted sample", "why_tests_cant": "an order relation between two runs with the same random numbers; tests of random output compare with tolerances", "anchors": ["PyDynamic/uncertainty/propagate_MonteCarlo.py:UMC"]}
{"id": "C137", "title": "MC returns unbiased estimates", "statement": "The expectation of the returned mean is the expectation of the filter output for random coefficients and signal, the expectation of the returned covariance is its covariance, for every number of runs.", "quantifier": "all distributions of the draws (finitely many outcomes), filters, signals, low-pass filters, shifts, numbers of runs >= 2, if every draw is stable", "why_tests_cant": "a statement on the expectation over all draws; tests see single draws with tolerances that hide a factor (N-1)/N", "anchors": ["PyDynamic/uncertainty/propagate_MonteCarlo.py:MC"]}
{"id": "C138", "title": "UMC_generic returns unbiased estimates", "statement": "The expectation of the returned mean is the expectation of the evaluations, the expectation of the returned covariance is their covariance, for every block size.", "quantifier": "all distributions of the draws (finitely many outcomes), evaluations, runs, block sizes, completion orders", "why_tests_cant": "a statement on the expectation over all draws and all partitions into blocks", "anchors": ["PyDynamic/uncertainty/propagate_MonteCarlo.py:UMC_generic"]}
{"id": "C139", "title": "Filter fits use frequencies relative to the sampling rate", "statement": "Frequencies and sampling rate expressed in another unit give the same filter, delay and uncertainty: LSFIR, invLSFIR, invLSFIR_unc, invLSFIR_uncMC, LSIIR, invLSIIR, invLSIIR_unc.", "quantifier": "all responses, orders, delays, weights, frequencies, units, options", "why_tests_cant": "a relation between two calls for every unit; the tests use one unit", "anchors": ["PyDynamic/model_estimation/fit_filter.py:LSFIR", "PyDynamic/model_estimation/fit_filter.py:invLSFIR", "PyDynamic/model_estimation/fit_filter.py:invLSFIR_unc", "PyDynamic/model_estimation/fit_filter.py:invLSFIR_uncMC", "PyDynamic/model_estimation/fit_filter.py:LSIIR", "PyDynamic/model_estimation/fit_filter.py:invLSIIR", "PyDynamic/model_estimation/fit_filter.py:invLSIIR_unc"]}
{"id": "C140", "title": "fit_som does not depend on the unit of frequency", "statement": "Frequencies multiplied by c: gain, damping and their uncertainties stay the same, the resonance frequency and its covariances are multiplied by c (its variance by c^2); the parameter scaling has no effect.", "quantifier": "all responses, frequencies, weights, draws, factors c > 0, scalings", "why_tests_cant": "a relation between two calls for every unit; the damping has no dimension, which the tests never exploit", "anchors": ["PyDynamic/model_estimation/fit_transfer.py:fit_som"]}
{"id": "C141", "title": "Monte Carlo results of the fits are unbiased", "statement": "The expectation of the coefficients, parameters or conversions returned by the Monte Carlo methods is the expectation of the fit (or conversion) of one drawn response, the expectation of the returned covariance is its covariance, for every number of runs >= 2: invLSFIR_uncMC, invLSIIR_unc, fit_som, sos_realimag, FreqResp2RealImag.", "quantifier": "all distributions of the draws (finitely many outcomes), responses, orders, delays, weights, numbers of runs >= 2", "why_tests_cant": "a statement on the expectation over all draws; tests compare single random runs with wide tolerances", "anchors": ["PyDynamic/model_estimation/fit_filter.py:invLSFIR_uncMC", "PyDynamic/model_estimation/fit_filter.py:invLSIIR_unc", "PyDynamic/model_estimation/fit_transfer.py:fit_som", "PyDynamic/misc/SecondOrderSystem.py:sos_realimag", "PyDynamic/misc/tools.py:FreqResp2RealImag"]}
{"id": "C142", "title": "make_equidistant leaves equidistant data as they are", "statement": "Data at T0, T0+dt, ..., T0+(n-1)dt regridded with the spacing dt come back unchanged: time instants, values and uncertainties.", "quantifier": "all n >= 2, dt > 0, T0, values, uncertainties, kinds of interpolation", "why_tests_cant": "idempotence over all lengths and spacings; in the tests only the spacing of the output is inspected", "anchors": ["PyDynamic/uncertainty/interpolate.py:make_equidistant"]}
{"id": "C143", "title": "MC and FIRuncFilter agree for FIR filters", "statement": "For an FIR filter with uncertain coefficients and a noisy signal, the expectations of the mean and covariance returned by MC are the estimate and covariance returned by FIRuncFilter.", "quantifier": "all FIR filters with two coefficients or more, coefficient covariances, signals, white, pointwise or fully correlated noise, distributions of the draws (finitely many outcomes) with these moments, numbers of runs >= 2", "why_tests_cant": "two methods documented as alternatives: equality of exact formula and expectation over all draws; tests compare random runs with tolerances and discard the transient", "anchors": ["PyDynamic/uncertainty/propagate_MonteCarlo.py:MC", "PyDynamic/uncertainty/propagate_filter.py:FIRuncFilter"]}
{"id": "C144", "title": "Parseval's relation for GUM_DFT", "statement": "The energy of the spectrum returned by GUM_DFT, each line counted as often as it occurs in the two-sided spectrum, is n times the energy of the (windowed) signal, and the sum of the returned variances counted in the same way is n times the sum of the variances of the (windowed) samples, whatever the correlation of the samples.", "quantifier": "all signals, uncertainties (float, vector, covariance matrix), windows, lengths n >= 1 with or without zero padding", "why_tests_cant": "an identity over all lengths, signals and covariances; the tests compare single lines with a reference", "anchors": ["PyDynamic/uncertainty/propagate_DFT.py:GUM_DFT"]}
{"id": "C145", "title": "Power spectral density of corr_noise.calc_psd", "statement": "calc_psd returns the frequencies 0, Fs/n, ..., up to at most Fs/2 and a density that is not negative, vanishes at frequency 0 and integrates to the variance of the analysed noise. The noise of the object is analysed unless an array is given; a list is ignored; without noise AttributeError, for Fs = 0 ZeroDivisionError.", "quantifier": "all noise sequences of length n >= 1, sampling frequencies > 0", "why_tests_cant": "an identity over all lengths and sequences; calc_psd has no test", "anchors": ["PyDynamic/misc/testsignals.py:corr_noise.calc_psd"]}
{"id": "C146", "title": "power_law_noise depends on the shape of its input only", "statement": "Scaling the white noise w by a factor > 0 and adding an offset does not change the result of power_law_noise; a negative factor mirrors the result at the requested mean. Errors and nan results occur for the same inputs.", "quantifier": "all w (every length), factors, offsets, colours, means, standard deviations", "why_tests_cant": "an invariance over all inputs; the tests check mean and standard deviation of single draws", "anchors": ["PyDynamic/misc/noise.py:power_law_noise"]}
{"id": "C147", "title": "A delayed impulse delays and scales, value and uncertainty", "statement": "FIRuncFilter with the certain filter g * (impulse at d) returns g * y delayed by d with g^2 times the covariance of the signal delayed by d (before that the first sample is repeated); convolve_unc with it (mode full) returns g * x1 at the positions d, d+1, ... with g^2 times its covariance, zeros elsewhere.", "quantifier": "all signals, covariances, filter lengths >= 2, delays d < length, gains g", "why_tests_cant": "identity laws over all lengths and covariances; the tests contain no filter with known exact output", "anchors": ["PyDynamic/uncertainty/propagate_filter.py:FIRuncFilter", "PyDynamic/uncertainty/propagate_convolution.py:convolve_unc"]}
{"id": "C148", "title": "A low-pass followed by a filter is one filter", "statement": "FIRuncFilter with low-pass blow = b1 and filter b2 (both certain) returns the same estimate and covariance as FIRuncFilter with the single filter np.convolve(b1, b2).", "quantifier": "all signals, noise descriptions, filters of length >= 2", "why_tests_cant": "equality of two ways of computing over all lengths, filters and covariances; the tests use one low-pass and compare with Monte Carlo", "anchors": ["PyDynamic/uncertainty/propagate_filter.py:FIRuncFilter"]}
{"id": "C149", "title": "Linear interpolation reproduces lines, keeps order and bounds", "statement": "interp1d_unc of kind linear returns a + b t for data on that line; its values lie between the neighbouring values, for non-decreasing data they are non-decreasing; its uncertainty lies between the smaller neighbouring uncertainty / sqrt 2 and the larger one, with equal uncertainties u it is u / sqrt 2 in the middle.", "quantifier": "all nodes, values, uncertainties, interpolation points inside the range", "why_tests_cant": "statements on all points of all segments; the tests sample points", "anchors": ["PyDynamic/uncertainty/interpolate.py:interp1d_unc"]}
{"id": "C150", "title": "Full convolution is associative, value and covariance", "statement": "Convolving x1 with x2 and the result (with its covariance) with x3 gives the same values and the same covariance as convolving x1 with the result for x2 and x3 (mode full).", "quantifier": "all signals of length >= 2, all symmetric covariance matrices or none", "why_tests_cant": "an algebraic law over all lengths and covariances (including second order terms)", "anchors": ["PyDynamic/uncertainty/propagate_convolution.py:convolve_unc"]}
{"id": "C151", "title": "Results do not depend on the available memory", "statement": "When the full covariance matrix cannot be assembled, GUM_DFT and DFT_deconv return the same estimate, sensitivities and errors, and instead of the matrix U the blocks (A, B, C) with U = [[A, B], [B.T, C]]; the functions that take such a covariance (GUM_iDFT, DFT2AmpPhase, Time2AmpPhase) carry on working with it.", "quantifier": "all signals, covariances, paddings, windows, masks; both outcomes of the allocation", "why_tests_cant": "a MemoryError cannot be provoked in a test suite; the fall-back paths are never executed", "anchors": ["PyDynamic/uncertainty/propagate_DFT.py:GUM_DFT", "PyDynamic/uncertainty/propagate_DFT.py:DFT_deconv", "PyDynamic/uncertainty/propagate_DFT.py:GUM_iDFT", "PyDynamic/uncertainty/propagate_DFT.py:DFT2AmpPhase", "PyDynamic/uncertainty/propagate_DFT.py:Time2AmpPhase"]}
{"id": "C152", "title": "Convolution theorem with covariances", "statement": "The spectrum (GUM_DFT) of the full convolution (convolve_unc) of two signals is the product (DFT_multiply) of their spectra with zero padding to length n1+n2-1. If one signal is known exactly the covariances of both ways agree as well; if both are uncertain they differ by the spectrum covariance of the convolution of the two zero-mean errors only, a term of second order which convolve_unc has and DFT_multiply neglects (at frequency zero it is the product of the sums of all covariances).", "quantifier": "all signals of length >= 2, all symmetric covariance matrices", "why_tests_cant": "an identity between functions of two modules over all lengths and covariances", "anchors": ["PyDynamic/uncertainty/propagate_convolution.py:convolve_unc", "PyDynamic/uncertainty/propagate_DFT.py:GUM_DFT", "PyDynamic/uncertainty/propagate_DFT.py:DFT_multiply"]}
{"id": "C153", "title": "Deconvolution undoes a convolution, value and covariance", "statement": "A signal convolved with an exactly known kernel (convolve_unc, mode full), transformed (GUM_DFT) and divided by the spectrum of the kernel (DFT_deconv) gives the spectrum of the zero-padded signal with the covariance that GUM_DFT assigns to it; for an even number of samples GUM_iDFT returns the signal, its variances and its symmetrised covariance.", "quantifier": "all signals and kernels of length >= 2 whose spectrum does not vanish, all symmetric covariance matrices", "why_tests_cant": "an identity across four functions of two modules for all lengths and covariances", "anchors": ["PyDynamic/uncertainty/propagate_convolution.py:convolve_unc", "PyDynamic/uncertainty/propagate_DFT.py:GUM_DFT", "PyDynamic/uncertainty/propagate_DFT.py:DFT_deconv", "PyDynamic/uncertainty/propagate_DFT.py:GUM_iDFT"]}
{"id": "C154", "title": "A cyclic delay changes the phases only", "statement": "Time2AmpPhase of a signal that is cyclically delayed by s samples (value and uncertainty) returns the same amplitudes, the phases lowered by 2 pi k s / n (up to full turns) and the same covariance of amplitudes and phases.", "quantifier": "all signals without vanishing spectral lines, all uncertainties, all delays", "why_tests_cant": "shift theorem for value and covariance over all signals and shifts", "anchors": ["PyDynamic/uncertainty/propagate_DFT.py:Time2AmpPhase", "PyDynamic/uncertainty/propagate_DFT.py:GUM_DFT", "PyDynamic/uncertainty/propagate_DFT.py:DFT2AmpPhase"]}
{"id": "C155", "title": "Stationary noise is stationary after an FIR filter", "statement": "For a scalar standard deviation or an autocovariance (kind='corr') and exactly known coefficients the covariance returned by FIRuncFilter depends on the lag only and is the autocovariance of the filtered noise; in particular white noise of standard deviation s gives the variance s^2 sum theta_k^2 at every sample.", "quantifier": "all signals, filters, standard deviations and autocovariances", "why_tests_cant": "a statement about all lags and lengths; the error shows for signals shorter than the correlation only", "anchors": ["PyDynamic/uncertainty/propagate_filter.py:FIRuncFilter", "PyDynamic/uncertainty/propagate_filter.py:_fir_filter"]}
{"id": "C156", "title": "sos_FreqResp shows the resonance of a second order system", "statement": "For f0 <> 0 and d <> 0 every value is finite, values at f and -f are complex conjugates, the amplitude is |S| f0^2 / sqrt((f0^2-f^2)^2 + 4 d^2 f0^2 f^2), the value at f0 is S/(2 j d), for d^2 < 1 the amplitude is at most |S|/(2|d| sqrt(1-d^2)), attained at f^2 = f0^2 (1-2d^2), and for d^2 >= 1/2 it never exceeds the static gain.", "quantifier": "all gains, dampings, resonance frequencies and frequencies", "why_tests_cant": "inequalities over all parameters and frequencies", "anchors": ["PyDynamic/misc/SecondOrderSystem.py:sos_FreqResp"]}
{"id": "C157", "title": "sos_FreqResp evaluates its documented formula", "statement": "The documentation gives H(f) = 4 S pi^2 f0^2 / ((2 pi f0)^2 + 2 j d (2 pi f0) f - f^2); the returned values satisfy it with f the given frequency.", "quantifier": "all parameters and frequencies", "why_tests_cant": "a universally quantified formula; existing tests compare with the implementation itself", "anchors": ["PyDynamic/misc/SecondOrderSystem.py:sos_FreqResp"]}
{"id": "C158", "title": "Group delays: linear phase, filters in series, inverse filters", "statement": "Filters with symmetric or antisymmetric coefficients have the group delay (L-1)/2 at every frequency, group delays of filters in series add, the inverse filter has the negative group delay.", "quantifier": "all filters that fit into the transform, all frequencies of the grid where the response does not vanish", "why_tests_cant": "relations between calls for all filters", "anchors": ["PyDynamic/misc/filterstuff.py:grpdelay"]}
{"id": "C159", "title": "Interpolating interpolated data", "statement": "Data linearly interpolated to a grid that contains the original nodes, and then interpolated from this grid, have the values and uncertainties of the direct interpolation.", "quantifier": "all data, grids and instants", "why_tests_cant": "a relation between three calls over all grids; the uncertainties look plausible in every single call", "anchors": ["PyDynamic/uncertainty/interpolate.py:interp1d_unc"]}
{"id": "C160", "title": "fit_som does not depend on the unit of the response", "statement": "Responses and their uncertainties expressed in another unit (factor c) give c times the gain, the same damping and resonance frequency, and uncertainties in the corresponding units.", "quantifier": "all responses, uncertainties, weights, units, with and without Monte Carlo", "why_tests_cant": "a relation between two calls over all responses; every single result looks plausible", "anchors": ["PyDynamic/model_estimation/fit_transfer.py:fit_som"]}
{"id": "C161", "title": "Filter fits follow the unit of the response", "statement": "For responses in another unit (factor c, covariances c^2) invLSFIR, invLSFIR_unc and invLSFIR_uncMC return coefficients divided by c with covariances divided by c^2; the numerator of LSIIR (invLSIIR) is multiplied (divided) by c, denominator and delay are unchanged.", "quantifier": "all responses, orders, delays, frequencies, weights, units; truncation of singular values; IIR fits that are stable at once or justFit", "why_tests_cant": "a relation between two calls over all responses and units", "anchors": ["PyDynamic/model_estimation/fit_filter.py:invLSFIR", "PyDynamic/model_estimation/fit_filter.py:invLSFIR_unc", "PyDynamic/model_estimation/fit_filter.py:invLSFIR_uncMC", "PyDynamic/model_estimation/fit_filter.py:LSIIR", "PyDynamic/model_estimation/fit_filter.py:invLSIIR"]}
{"id": "C162", "title": "Group delays and the stabilisation of IIR fits do not depend on the gain", "statement": "grpdelay of c*b and a is that of b and a, hence LSIIR stabilises the fit to responses in another unit in the same way.", "quantifier": "all filters, gains and responses", "why_tests_cant": "needs responses of very small magnitude (such as charge sensitivities); tests use magnitudes near one", "anchors": ["PyDynamic/misc/filterstuff.py:grpdelay", "PyDynamic/model_estimation/fit_filter.py:LSIIR"]}
{"id": "C163", "title": "Interpolation is local and the same when time is read backwards", "statement": "Interpolated values and uncertainties depend on the two neighbouring nodes only; data in reverse order with the time axis reversed give the same results (with 'previous' and 'next' exchanged).", "quantifier": "all data sets, instants and kinds of interpolation without memory (linear, previous, next, nearest)", "why_tests_cant": "a relation between two calls over all data and instants", "anchors": ["PyDynamic/uncertainty/interpolate.py:interp1d_unc"]}
{"id": "C164", "title": "Sums, offsets and reversed signals in the frequency domain", "statement": "GUM_DFT of the sum of two independent signals has the sum of the lines and of the covariances; a constant added to all samples changes the real part of line 0 only and no uncertainty; a signal read backwards has the complex conjugate lines and the variances of the signal.", "quantifier": "all signals, covariances, windows, transform lengths, masks, offsets", "why_tests_cant": "relations between several calls over all signals and covariances", "anchors": ["PyDynamic/uncertainty/propagate_DFT.py:GUM_DFT"]}
{"id": "C165", "title": "Monte Carlo results of an affine function of the evaluated quantity", "statement": "With M evaluate(x) + b in place of evaluate(x) UMC_generic returns M y + b and M U M^T for the same draws, in whatever order the results arrive; in another unit every histogram has the same counts, and edges in the new unit.", "quantifier": "all draws, evaluations, affine maps, block sizes, orders of completion, numbers of bins", "why_tests_cant": "a relation between two calls over all models and draws; in tests random draws differ", "anchors": ["PyDynamic/uncertainty/propagate_MonteCarlo.py:UMC_generic"]}
{"id": "C166", "title": "savitzky_golay smooths a signal that is read backwards in the same way", "statement": "Values depend on the samples of the window only; a signal read backwards gives the same values backwards, odd derivatives with opposite sign.", "quantifier": "all signals, window lengths, orders, derivatives", "why_tests_cant": "a relation between two calls over all signals; the ends of a signal are rarely compared", "anchors": ["PyDynamic/misc/filterstuff.py:savitzky_golay"]}
{"id": "C167", "title": "Filters applied one after another act like one filter", "statement": "Applying FIRuncFilter (or Signal.apply_filter) with b1 and then with b2 gives the values and the uncertainties of one call with the convolution of b1 and b2; the uncertainty of the first result, as returned, is all the second call needs.", "quantifier": "all signals, pairs of filters of at least two coefficients, kinds of uncertainty", "why_tests_cant": "a relation between three calls over all signals and filters; values agree, so that a test of the estimate cannot tell", "anchors": ["PyDynamic/uncertainty/propagate_filter.py:FIRuncFilter", "PyDynamic/signals.py:Signal.apply_filter"]}
{"id": "C168", "title": "Harmonic signals appear in their lines, with the known uncertainty of amplitude and phase", "statement": "A signal composed of harmonics with whole numbers k of periods has in line k the value n/2 A e^{i phi} (n A at frequency 0 and at half the sampling rate); with white noise of variance u the lines are uncorrelated, amplitudes have the variance n u/2 and phases the variance 2u/(n A^2), and Time2AmpPhase returns exactly these.", "quantifier": "all lengths, amplitudes, phases, variances", "why_tests_cant": "quantifies over all lengths and multi-sines; orthogonality of all pairs of lines", "anchors": ["PyDynamic/uncertainty/propagate_DFT.py:GUM_DFT", "PyDynamic/uncertainty/propagate_DFT.py:Time2AmpPhase"]}
{"id": "C169", "title": "FIR filters multiply harmonics by their frequency response", "statement": "After as many samples as there are coefficients a harmonic input gives a harmonic output, with modulus and phase of the frequency response of the filter; a constant input gives the constant times the sum of the coefficients from the first sample on, with the uncertainty of that sum.", "quantifier": "all filters, frequencies, amplitudes, phases, covariances of the coefficients", "why_tests_cant": "holds at every frequency and sample; tests compare a few signals", "anchors": ["PyDynamic/uncertainty/propagate_filter.py:FIRuncFilter"]}
{"id": "C170", "title": "Zero padding refines the spectrum and keeps the lines", "statement": "GUM_DFT with N = q times the length returns, at every q-th line, value and covariance of the lines without padding, also with a window.", "quantifier": "all signals, covariances, windows, factors q", "why_tests_cant": "a relation between two calls over all lengths and factors", "anchors": ["PyDynamic/uncertainty/propagate_DFT.py:GUM_DFT"]}
{"id": "C171", "title": "A scalar variance means independent samples of equal variance, also with zero padding", "statement": "GUM_DFT with the float u as Ux gives the result of GUM_DFT with the matrix u I, for every padded length.", "quantifier": "all signals, variances, padded lengths, windows", "why_tests_cant": "a relation between two forms of the same argument over all lengths; without padding it holds", "anchors": ["PyDynamic/uncertainty/propagate_DFT.py:GUM_DFT"]}
{"id": "C172", "title": "Convolving signals read backwards gives the convolution read backwards", "statement": "convolve_unc of two reversed signals with reversed covariances returns the reversed result, value and covariance, in every mode.", "quantifier": "all signals, covariances, modes", "why_tests_cant": "a relation between two calls over all lengths and modes; the tests use few kernels of fixed length", "anchors": ["PyDynamic/uncertainty/propagate_convolution.py:convolve_unc"]}
{"id": "C173", "title": "Amplitudes and phases reach the time domain the same way directly or through the spectrum", "statement": "AmpPhase2Time returns the values and uncertainties that AmpPhase2DFT followed by GUM_iDFT returns.", "quantifier": "all amplitudes, phases and covariances of them", "why_tests_cant": "compares two routes through the API for all inputs; the tests run each route on a few spectra", "anchors": ["PyDynamic/uncertainty/propagate_DFT.py:AmpPhase2Time", "PyDynamic/uncertainty/propagate_DFT.py:AmpPhase2DFT", "PyDynamic/uncertainty/propagate_DFT.py:GUM_iDFT"]}
{"id": "C174", "title": "Products of spectra do not depend on order or grouping", "statement": "DFT_multiply is commutative when both factors are uncertain, associative, and multiplying by an exactly known 1 changes neither values nor covariances.", "quantifier": "all spectra with covariance matrices", "why_tests_cant": "algebraic laws over all spectra and covariance matrices; tests check single products", "anchors": ["PyDynamic/uncertainty/propagate_DFT.py:DFT_multiply"]}
{"id": "C175", "title": "Dividing by two known responses in turn is dividing by their product", "statement": "Deconvolving a spectrum by an exactly known response H1 and the result by H2 gives values and covariances of the deconvolution by H1*H2; deconvolving is multiplying by the reciprocal response.", "quantifier": "all spectra, covariance matrices and nonzero responses", "why_tests_cant": "relation between different calls for all arguments", "anchors": ["PyDynamic/uncertainty/propagate_DFT.py:DFT_deconv", "PyDynamic/uncertainty/propagate_DFT.py:DFT_multiply"]}
{"id": "C176", "title": "Interpolation of superposed signals", "statement": "interp1d_unc of a*y1+b*y2 with independent uncertainties gives a*(result for y1)+b*(result for y2), the uncertainties combined in quadrature; for every kind that is modelled and in the extrapolated part.", "quantifier": "all nodes, values, uncertainties and factors", "why_tests_cant": "superposition over all inputs; tests use fixed data", "anchors": ["PyDynamic/uncertainty/interpolate.py:interp1d_unc"]}
{"id": "C177", "title": "Test signals do not depend on where the time axis starts or how it is scaled", "statement": "A test signal with its instants and positions shifted or stretched together has the same values; on a mirrored axis symmetric pulses are mirrored.", "quantifier": "all time axes, positions and widths", "why_tests_cant": "all time axes cannot be sampled; the tests look at shapes and maxima", "anchors": ["PyDynamic/misc/testsignals.py:shocklikeGaussian", "PyDynamic/misc/testsignals.py:GaussianPulse", "PyDynamic/misc/testsignals.py:rect", "PyDynamic/misc/testsignals.py:squarepulse", "PyDynamic/misc/testsignals.py:sine"]}
{"id": "C178", "title": "An ARMA process is a causal linear filter of its noise", "statement": "ARMA values superpose with the noise, depend on noise up to the same instant only, have mean 0 for noise of mean 0, and a first order autoregression driven by white noise has variance sigma^2 (1-phi^(2n+2))/(1-phi^2) and covariance phi^m times that at lag m.", "quantifier": "all noise sequences, coefficients, lengths; all noise distributions with the stated moments", "why_tests_cant": "distributional statements and statements over all noise sequences; tests draw single sequences", "anchors": ["PyDynamic/misc/noise.py:ARMA"]}
{"id": "C179", "title": "An ARMA process does not depend on when its noise starts", "statement": "If the noise is preceded by zeros the ARMA values are preceded by zeros and otherwise unchanged.", "quantifier": "all noise sequences and coefficients", "why_tests_cant": "relation between two calls with the same noise, all orders", "anchors": ["PyDynamic/misc/noise.py:ARMA"]}
{"id": "C180", "title": "The inverse transform synthesises harmonics", "statement": "GUM_iDFT of lines N/lines_k*A_k*exp(i*p_k) (lines_k = 1 for the first and the last line, 2 otherwise) is the sum of the harmonics A_k cos(2 pi k n/N + p_k); AmpPhase2Time likewise. Uncorrelated lines give the covariance of a sum of uncorrelated harmonics; it depends on the distance of the instants only if real and imaginary parts have equal variances.", "quantifier": "all even lengths, amplitudes, phases, variances", "why_tests_cant": "closed forms over all spectra and lengths; tests only transform back and forth", "anchors": ["PyDynamic/uncertainty/propagate_DFT.py:GUM_iDFT", "PyDynamic/uncertainty/propagate_DFT.py:AmpPhase2Time"]}
{"id": "C181", "title": "Resampling does not depend on units and a finer grid contains the coarser", "statement": "make_equidistant with time and values expressed in other units gives the same result in these units; the grid for dt/q contains the grid for dt, with the same values and uncertainties.", "quantifier": "all time axes, values, uncertainties, steps, units, refinement factors, kinds", "why_tests_cant": "relation between two calls for all arguments; the tests check the step of one grid", "anchors": ["PyDynamic/uncertainty/interpolate.py:make_equidistant"]}
{"id": "C182", "title": "An interpolated value depends on its instant only", "statement": "The value, the uncertainty and the sensitivities interp1d_unc returns for an instant do not depend on which other instants are asked for, nor on their order; asking for fewer instants never raises if asking for all does not.", "quantifier": "all nodes, instants, kinds and options", "why_tests_cant": "relation between any two calls; a test compares finitely many grids", "anchors": ["PyDynamic/uncertainty/interpolate.py:interp1d_unc"]}
{"id": "C183", "title": "Stability does not depend on gain and filters in series are stable if each is", "statement": "isstable gives the same answer for any gain and numerator; the series connection of two digital filters is stable exactly if both are; mapinside returns a stable polynomial, leaves a stable one unchanged up to its leading coefficient, and applied twice does what it does once.", "quantifier": "all coefficients and orders, exact roots", "why_tests_cant": "statements about the roots of all polynomials; tests use single filters", "anchors": ["PyDynamic/misc/filterstuff.py:isstable", "PyDynamic/misc/filterstuff.py:mapinside"]}
{"id": "C184", "title": "The order of the frequencies does not matter and listing each k times changes nothing", "statement": "LSFIR, invLSFIR, LSIIR, invLSIIR and fit_som return the same coefficients (parameters) for the same measurements listed in another order; listing every frequency k times, with its response and weight, gives the same fit.", "quantifier": "all responses, frequencies, orders, weights, delays, permutations and repetitions", "why_tests_cant": "relation between two calls for all permutations; the tests fit ascending frequencies only", "anchors": ["PyDynamic/model_estimation/fit_filter.py:LSFIR", "PyDynamic/model_estimation/fit_filter.py:invLSFIR", "PyDynamic/model_estimation/fit_filter.py:LSIIR", "PyDynamic/model_estimation/fit_filter.py:invLSIIR", "PyDynamic/model_estimation/fit_transfer.py:fit_som"]}
{"id": "C185", "title": "Uncertainties of other sizes are rejected", "statement": "For a spectrum of 2M values DFT_multiply and DFT2AmpPhase accept a vector of 2M variances or a 2M x 2M covariance matrix and raise an error for every other size, and for every spectrum of odd length.", "quantifier": "all spectra, all sizes of the uncertainty", "why_tests_cant": "the tests pass arrays of matching size only; which sizes slip through broadcasting is a question about all of them", "anchors": ["PyDynamic/uncertainty/propagate_DFT.py:DFT_multiply", "PyDynamic/uncertainty/propagate_DFT.py:DFT2AmpPhase"]}
{"id": "C186", "title": "Known gains and phases act on amplitudes and phases", "statement": "Multiplying a spectrum by an exactly known frequency response with positive gains g and phases phi multiplies the amplitudes by g and adds phi to the phases as angles; amplitude uncertainties scale with g and phase uncertainties do not change; deconvolution divides and subtracts. The same holds on the way from amplitudes and phases to real and imaginary parts. Adding whole turns to the phases changes neither the spectrum nor the signal nor their uncertainties.", "quantifier": "all spectra, all positive gains, all phases, all covariance matrices, all numbers of turns per line", "why_tests_cant": "tests check single spectra against Monte Carlo with a tolerance; the law concerns every spectrum and every response", "anchors": ["PyDynamic/uncertainty/propagate_DFT.py:DFT_multiply", "PyDynamic/uncertainty/propagate_DFT.py:DFT_deconv", "PyDynamic/uncertainty/propagate_DFT.py:DFT2AmpPhase", "PyDynamic/uncertainty/propagate_DFT.py:AmpPhase2DFT", "PyDynamic/uncertainty/propagate_DFT.py:AmpPhase2Time"]}
{"id": "C187", "title": "Lines that are real have no imaginary uncertainty", "statement": "The imaginary part of the mean value line, and for even length of the Nyquist line, is 0 with zero variance and zero covariances, whatever the padding and the window; the phase of such a line with positive amplitude is 0 or pi without uncertainty. The inverse transform ignores the imaginary parts of these lines and all their variances and covariances.", "quantifier": "all signals, lengths, windows, paddings and covariances", "why_tests_cant": "tests use tolerances; an imaginary part that is only nearly zero would pass them", "anchors": ["PyDynamic/uncertainty/propagate_DFT.py:GUM_DFT", "PyDynamic/uncertainty/propagate_DFT.py:GUM_iDFT", "PyDynamic/uncertainty/propagate_DFT.py:Time2AmpPhase"]}
{"id": "C188", "title": "Sampling by impulse invariance keeps the poles and the stability", "statement": "The poles of the filter returned by impinvar (and impinvar_causal) are exp(s/fs) for the poles s of the continuous filter; isstable calls it stable exactly if no pole of the continuous filter has a positive real part. A second order system with resonance frequency f0 > 0 has all poles in the open left half plane exactly if its damping is positive, and its sampled version is called stable exactly if the damping is not negative.", "quantifier": "all filters with simple poles, all positive sampling frequencies, all second order systems", "why_tests_cant": "tests sample a few filters; stability for all of them follows only from the map of the poles", "anchors": ["PyDynamic/misc/impinvar.py:impinvar", "PyDynamic/misc/impinvar.py:impinvar_causal", "PyDynamic/misc/filterstuff.py:isstable", "PyDynamic/misc/SecondOrderSystem.py:sos_phys2filter"]}
{"id": "C189", "title": "Correlations of results lie between -1 and 1", "statement": "No covariance matrix returned by the library contains a negative variance or a correlation coefficient outside [-1, 1]: |U[i,j]| <= u(i) u(j); in particular a result with variance zero is uncorrelated with all others.", "quantifier": "all inputs with covariance matrices that are positive semidefinite", "why_tests_cant": "tests look at diagonals or at norms of differences; the inequality has to hold for every pair of entries and all inputs", "anchors": ["PyDynamic/uncertainty/propagate_filter.py:FIRuncFilter", "PyDynamic/uncertainty/propagate_convolution.py:convolve_unc", "PyDynamic/uncertainty/propagate_DFT.py:GUM_DFT", "PyDynamic/uncertainty/propagate_DFT.py:GUM_iDFT", "PyDynamic/uncertainty/propagate_DFT.py:DFT2AmpPhase", "PyDynamic/uncertainty/propagate_DFT.py:AmpPhase2DFT", "PyDynamic/uncertainty/propagate_DFT.py:DFT_multiply", "PyDynamic/uncertainty/propagate_DFT.py:DFT_deconv"]}
{"id": "C190", "title": "A constant signal is multiplied by the static gain, from the first sample on", "statement": "FIRuncFilter returns for a constant signal c the constant c times the sum of the coefficients (of the low-pass too) whatever the uncertainties and the shift: there is no transient. If the signal is exactly known all entries of the returned covariance are c^2 times the variance of the sum of the coefficients; with white noise the uncertainty is the same for all samples. convolve_unc in the modes nearest, reflect and mirror returns for a constant signal with a common uncertain offset the constant times the sum of the kernel and a covariance with equal entries; in mode valid, with a signal at least as long as the kernel, it does so too.", "quantifier": "all constants, all filters and kernels with any covariance, all lengths", "why_tests_cant": "tests use signals with transients and compare with Monte Carlo within tolerances; absence of a transient for every filter needs the closed form", "anchors": ["PyDynamic/uncertainty/propagate_filter.py:FIRuncFilter", "PyDynamic/uncertainty/propagate_filter.py:_fir_filter", "PyDynamic/uncertainty/propagate_filter.py:_fir_filter_diag", "PyDynamic/uncertainty/propagate_convolution.py:convolve_unc"]}
{"id": "C191", "title": "Convolutions superpose and do not depend on the units", "statement": "In all six modes the estimate returned by convolve_unc is linear in each of the two signals, whatever their uncertainties; if the signals are multiplied by k and l (and their covariances by k^2 and l^2) the estimate is multiplied by k l and the covariance by (k l)^2; with the other signal known exactly, covariances of uncorrelated contributions to a signal add up.", "quantifier": "all signals and covariances of at least two samples, all modes, all factors", "why_tests_cant": "tests convolve fixed signals; linearity for every mode and length, including the exchange of the arguments if the first is shorter, is a statement about all of them", "anchors": ["PyDynamic/uncertainty/propagate_convolution.py:convolve_unc", "PyDynamic/uncertainty/propagate_filter.py:_fir_filter"]}
{"id": "C192", "title": "Regularising a covariance once is enough, and does not depend on order or units", "statement": "make_semiposdef applied to its own result returns it unchanged. Giving the quantities in another order and another unit (factor k > 0 for matrix and tolerance) reorders and scales the result and needs the same number of passes; a matrix and its transpose give the same result.", "quantifier": "all square matrices, all tolerances, all orders of the quantities, dense and sparse storage", "why_tests_cant": "tests regularise a few random matrices; invariance concerns all reorderings, units and repeated calls", "anchors": ["PyDynamic/misc/tools.py:make_semiposdef"]}
{"id": "C193", "title": "fit_som reports consistent uncertainties also when the fitted mass and stiffness have opposite signs", "statement": "For noisy responses the least squares fit can give auxiliary parameters mu0 and mu2 of opposite signs; fit_som then returns gain and resonance frequency from the magnitudes. The covariance matrix of gain and resonance frequency returned with them is that of the linear propagation of these formulas, in particular the sign of their covariance agrees with Monte Carlo on the same draws.", "quantifier": "all frequencies, responses, draws and weightings with mu0 mu2 < 0", "why_tests_cant": "needs responses whose fit has opposite signs, and the derivative of the returned formulas", "anchors": ["PyDynamic/model_estimation/fit_transfer.py:fit_som"]}
{"id": "C194", "title": "Test signals add up from their parts", "statement": "Two noise-free rectangles of equal height side by side are one rectangle, whether added or given as noise of one another. Heights and amplitudes of rect, squarepulse, GaussianPulse, shocklikeGaussian and sine add up. Joining the lists of amplitudes and frequencies of multi_sine adds the signals, the order of the lines does not matter, two lines of equal frequency act as one, and one line is a sine of period 2 pi/freq.", "quantifier": "all time axes, intervals t0 <= t1 <= t2, heights, lists of lines", "why_tests_cant": "a law over all time axes and parameters", "anchors": ["PyDynamic/misc/testsignals.py:rect", "PyDynamic/misc/testsignals.py:squarepulse", "PyDynamic/misc/testsignals.py:sine", "PyDynamic/misc/testsignals.py:multi_sine", "PyDynamic/misc/testsignals.py:GaussianPulse", "PyDynamic/misc/testsignals.py:shocklikeGaussian"]}
{"id": "C195", "title": "fit_som with weighting 'cov' is a generalised least squares fit", "statement": "With weighting='cov' the auxiliary parameters behind the result of fit_som minimise the deviation of mu0 + 2 i w mu1 - w^2 mu2 from 1/H in the metric of the inverse sample covariance matrix of the drawn 1/H. With MCruns the result is mean and covariance of the parameters of these fits to the draws, without MCruns gain and resonance frequency (mu0 mu2 > 0) get the propagated sample covariance of these fits.", "quantifier": "all frequencies, responses, draws with positive definite sample covariance, scalings", "why_tests_cant": "optimality over all parameters and all covariance matrices", "anchors": ["PyDynamic/model_estimation/fit_transfer.py:fit_som"]}
{"id": "C196", "title": "Amplitudes and phases to time: larger uncertainties, exactly known lines, other units", "statement": "For AmpPhase2Time: a larger covariance of amplitudes and phases leaves the signal as it is and gives variances (and a symmetric part of the covariance) at least as large; exactly known lines give a signal with zero covariance; amplitudes and their uncertainties in another unit (factor c of either sign) give c times the signal and c^2 times the covariance.", "quantifier": "all even lengths N, all amplitudes and phases, all covariances as vector, matrix or sparse matrix", "why_tests_cant": "tests compare single spectra with Monte Carlo; order of covariance matrices and scaling for every spectrum cannot be sampled", "anchors": ["PyDynamic/uncertainty/propagate_DFT.py:AmpPhase2Time"]}
{"id": "C197", "title": "Signals to amplitudes and phases: larger uncertainties, exactly known signals, other units", "statement": "For Time2AmpPhase and signals without vanishing spectral line: a larger covariance of the samples leaves amplitudes and phases as they are and gives a covariance at least as large (in the order of semidefinite matrices); an exactly known signal has exactly known amplitudes and phases; in another unit (factor c > 0) amplitudes and their uncertainties are multiplied by c, phases and their uncertainties stay the same, covariances of amplitude and phase are multiplied by c.", "quantifier": "all lengths, all signals with non-zero lines, all covariances as number, vector or matrix", "why_tests_cant": "tests use a few signals and tolerances; order of covariance matrices and scaling hold for every signal and every covariance", "anchors": ["PyDynamic/uncertainty/propagate_DFT.py:Time2AmpPhase", "PyDynamic/uncertainty/propagate_DFT.py:GUM_DFT", "PyDynamic/uncertainty/propagate_DFT.py:DFT2AmpPhase"]}
{"id": "C198", "title": "A linear phase delays the signal put together from amplitudes and phases", "statement": "AmpPhase2Time with every phase lowered by 2 pi k d / N (line k, N samples) returns the same signal cyclically delayed by d samples: sample (n + d) mod N of the new signal is sample n of the old one, and the covariance of the samples (n + d) mod N and (m + d) mod N is the old covariance of the samples n and m.", "quantifier": "all even lengths, all amplitudes and phases, all delays, all covariances as vector, sparse or full matrix", "why_tests_cant": "tests compare single signals within tolerances; the shift theorem for value and covariance is a statement about all spectra, covariances and delays", "anchors": ["PyDynamic/uncertainty/propagate_DFT.py:AmpPhase2Time"]}
{"id": "C199", "title": "Opposite phases reverse the signal, half a turn changes its sign", "statement": "AmpPhase2Time with all phases (and the covariances of amplitudes with phases) of opposite sign returns the signal read backwards: sample (N - n) mod N of the new signal is sample n of the old one, and likewise for the covariances. With all phases half a turn further it returns the signal with opposite sign and the same covariance.", "quantifier": "all even lengths, all amplitudes and phases, all covariances as vector, sparse or full matrix", "why_tests_cant": "symmetry of value and covariance for all spectra and covariances; tests look at single signals", "anchors": ["PyDynamic/uncertainty/propagate_DFT.py:AmpPhase2Time"]}
{"id": "C200", "title": "Opposite polarity turns the phases by half a turn, reading a signal backwards turns them to their opposites, and nothing else changes", "statement": "Time2AmpPhase of the signal with opposite sign (same uncertainty) returns the same amplitudes, every phase raised or lowered by pi, and the same covariance of amplitudes and phases. For the signal read backwards (sample (n - m) mod n for sample m, the uncertainty along with it) it returns the same amplitudes, the opposite phases up to full turns, and the same covariance with opposite sign between amplitudes and phases.", "quantifier": "all lengths, all signals with non-zero lines, all covariances as number, vector or matrix", "why_tests_cant": "symmetry of value and covariance for all signals and covariances, including the quadrants of the phase; tests look at single signals", "anchors": ["PyDynamic/uncertainty/propagate_DFT.py:Time2AmpPhase", "PyDynamic/uncertainty/propagate_DFT.py:GUM_DFT", "PyDynamic/uncertainty/propagate_DFT.py:DFT2AmpPhase"]}
{"id": "C201", "title": "Spectral lines turned by a linear phase give the delayed signal", "statement": "GUM_iDFT of a spectrum whose line k is multiplied by exp(-2 pi i k d / N) (value and covariance turned alike) returns the signal cyclically delayed by d samples: sample (n + d) mod N of the new signal and its variance are those of sample n of the old one, and so is the symmetric part of the covariances.", "quantifier": "all even lengths, all spectra, all delays, all covariances as vector or matrix", "why_tests_cant": "shift theorem for value and covariance over all spectra, covariances and delays; tests look at single signals", "anchors": ["PyDynamic/uncertainty/propagate_DFT.py:GUM_iDFT"]}
{"id": "C202", "title": "Products and quotients of the spectra of signals read backwards", "statement": "If both factors are replaced by their complex conjugates (the spectra of the signals read backwards; covariances between real and imaginary parts change their sign), DFT_multiply returns the complex conjugate of the product with the covariance of the conjugate; likewise DFT_deconv for the quotient, if no line of the response vanishes.", "quantifier": "all numbers of lines, all spectra and responses, all full covariances (for DFT_deconv also variances)", "why_tests_cant": "symmetry of value and covariance for all spectra and covariances; tests look at single spectra", "anchors": ["PyDynamic/uncertainty/propagate_DFT.py:DFT_multiply", "PyDynamic/uncertainty/propagate_DFT.py:DFT_deconv"]}
{"id": "C203", "title": "Conjugate spectral lines give the signal read backwards", "statement": "GUM_iDFT of the complex conjugate spectrum (imaginary parts and covariances of real with imaginary parts of opposite sign) returns the signal read backwards: sample (N - n) mod N of the new signal is sample n of the old one, and likewise for all covariances.", "quantifier": "all even lengths, all spectra, all covariances as vector or matrix", "why_tests_cant": "symmetry of value and covariance for all spectra and covariances; tests look at single spectra", "anchors": ["PyDynamic/uncertainty/propagate_DFT.py:GUM_iDFT"]}
{"id": "C204", "title": "Conjugate lines have opposite phases, with their uncertainties, and conversely", "statement": "DFT2AmpPhase of the complex conjugate spectrum returns the same amplitudes, the opposite phases (a phase pi stays pi) and the same covariance with opposite sign between amplitudes and phases, if no line vanishes; AmpPhase2DFT with opposite phases (and opposite covariances of amplitudes with phases) returns the complex conjugate spectrum with the covariance of the conjugate.", "quantifier": "all numbers of lines, all spectra, amplitudes and phases, all covariances as vector or matrix", "why_tests_cant": "symmetry of value and covariance for all spectra, including the branch of the phase at negative real lines; tests look at single spectra", "anchors": ["PyDynamic/uncertainty/propagate_DFT.py:DFT2AmpPhase", "PyDynamic/uncertainty/propagate_DFT.py:AmpPhase2DFT"]}
