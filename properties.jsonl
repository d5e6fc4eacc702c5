{"id": "C01", "title": "Torch assignment solver is total and optimal", "statement": "For every rectangular matrix of finite costs the torch linear_sum_assignment terminates without raising and returns min(n,m) pairs (row,col), rows strictly increasing and all columns distinct, whose total cost is minimal among all such complete one-to-one assignments.", "quantifier": "all shapes n x m (n<m, n=m, n>m, n or m = 0) and all finite cost matrices, exact arithmetic", "why_tests_cant": "the set of matrices and of reachable star/prime/cover configurations is unbounded; tests compare against scipy on random matrices with unique optima", "anchors": ["fast_bss_eval/torch/hungarian.py:linear_sum_assignment", "fast_bss_eval/torch/hungarian.py:_step1", "fast_bss_eval/torch/hungarian.py:_step3", "fast_bss_eval/torch/hungarian.py:_step4", "fast_bss_eval/torch/hungarian.py:_step5", "fast_bss_eval/torch/hungarian.py:_step6"]}
{"id": "C02", "title": "Torch assignment solver terminates with a complete matching even with rounding", "statement": "When every subtraction/addition is rounded to floating point (any precision, any monotone rounding, no overflow) the torch linear_sum_assignment still terminates within a bound depending only on the shape, never raises, and returns a complete one-to-one assignment.", "quantifier": "all shapes and all matrices of representable numbers, all rounding modes/precisions", "why_tests_cant": "an infinite loop caused by rounding (cf. changelog 0.1.1) may need a very particular matrix", "anchors": ["fast_bss_eval/torch/hungarian.py:_step1", "fast_bss_eval/torch/hungarian.py:_step6"]}
{"id": "C03", "title": "NaN costs are rejected, not looped on", "statement": "If any entry of the cost matrix is NaN the assignment step raises ValueError (numpy and torch) (and in no other way), whatever the other entries.", "quantifier": "all matrices containing at least one NaN at any position", "why_tests_cant": "position and company of the NaN is unbounded", "anchors": ["fast_bss_eval/torch/hungarian.py:linear_sum_assignment", "fast_bss_eval/torch/helpers.py:_linear_sum_assignment_with_inf", "fast_bss_eval/numpy/helpers.py:_linear_sum_assignment_with_inf"]}
{"id": "C04", "title": "+inf losses are avoided as much as possible, then the finite part is optimal", "statement": "When the loss matrix contains +inf (and no -inf, no NaN) entries and at least one finite entry, the assignment used by sdr/bss_eval_sources uses the minimum possible number of +inf entries among complete assignments and, among those, one minimising the sum of the finite entries.", "quantifier": "all shapes, all placements of +inf, all finite values", "why_tests_cant": "depends on the placeholder constant dominating every possible finite sum", "anchors": ["fast_bss_eval/numpy/helpers.py:_linear_sum_assignment_with_inf", "fast_bss_eval/torch/helpers.py:_linear_sum_assignment_with_inf"]}
{"id": "C05", "title": "-inf losses (perfect matches) are used as much as possible, then the finite part is optimal", "statement": "When the loss matrix contains -inf (and no +inf, no NaN) entries and at least one finite entry, the assignment uses the maximum possible number of -inf entries among complete assignments and, among those, minimises the sum of the finite entries.", "quantifier": "all shapes, all placements of -inf, all finite values", "why_tests_cant": "depends on the placeholder constant dominating every possible finite sum", "anchors": ["fast_bss_eval/numpy/helpers.py:_linear_sum_assignment_with_inf", "fast_bss_eval/torch/helpers.py:_linear_sum_assignment_with_inf"]}
{"id": "C06", "title": "Infinite losses that cannot be handled raise", "statement": "A loss matrix with both +inf and -inf raises ValueError; a non-empty loss matrix with only infinite entries raises as well. Consequently si_sdr/sdr without clamp_db is NOT total: a perfect single-channel estimate raises instead of returning +inf, and a perfect pair next to an exactly orthogonal pair raises.", "quantifier": "all matrices of these two kinds; existence of concrete finite signals reaching them", "why_tests_cant": "tests never use exactly perfect or exactly orthogonal signals", "anchors": ["fast_bss_eval/numpy/helpers.py:_linear_sum_assignment_with_inf", "fast_bss_eval/torch/helpers.py:_linear_sum_assignment_with_inf", "fast_bss_eval/numpy/metrics.py:sdr"]}
{"id": "C07", "title": "Outputs are read from the loss matrix at the returned permutation", "statement": "Whenever sdr(return_perm=True) returns, there are min(n_ref,n_est) values; perm has pairwise distinct in-range entries; and value i is the (unmodified, possibly infinite) negated pairwise loss of pair (ref i, est perm[i]) when n_ref <= n_est, of pair (ref perm[i], est i) when n_ref > n_est.", "quantifier": "all inputs, channel counts and options", "why_tests_cant": "rectangular cases and infinite entries are combinatorial", "anchors": ["fast_bss_eval/numpy/helpers.py:_solve_permutation", "fast_bss_eval/torch/helpers.py:_solve_permutation", "fast_bss_eval/numpy/metrics.py:sdr"]}
{"id": "C08", "title": "sdr picks the assignment with the best total SDR", "statement": "For finite pairwise SDRs, the sum of the SDRs returned by sdr() is >= the sum over any other one-to-one assignment of min(n_ref,n_est) pairs; in particular sum(sdr_pit_loss) <= sum(sdr_loss) for equal channel counts.", "quantifier": "all signals and all competing assignments, any channel count", "why_tests_cant": "number of assignments is factorial", "anchors": ["fast_bss_eval/numpy/metrics.py:sdr", "fast_bss_eval/torch/metrics.py:sdr", "fast_bss_eval/numpy/helpers.py:_solve_permutation"]}
{"id": "C09", "title": "bss_eval_sources picks the assignment with the best total SIR and applies it to all three metrics", "statement": "For finite pairwise SIRs, the assignment used by bss_eval_sources(compute_permutation=True) maximises the sum of SIRs over all one-to-one assignments, and sdr, sir and sar returned at position i belong to the same (ref,est) pair given by perm.", "quantifier": "all signals, all competing assignments", "why_tests_cant": "factorial; selection by SIR differs from selection by SDR", "anchors": ["fast_bss_eval/numpy/metrics.py:bss_eval_sources", "fast_bss_eval/numpy/helpers.py:_solve_permutation"]}
{"id": "C10", "title": "perm maps references to estimates, not estimates to references", "statement": "With n_ref <= n_est, perm[i] is the index of the estimate matched with reference i. The documented reading (perm[i] is the reference matching estimate i) is false for non-involutive permutations.", "quantifier": "all inputs (positive part); existence of a counterexample (negative part)", "why_tests_cant": "requires a permutation of order >= 3", "anchors": ["fast_bss_eval/numpy/metrics.py:sdr", "fast_bss_eval/__init__.py:sdr", "fast_bss_eval/__init__.py:bss_eval_sources"]}
{"id": "C11", "title": "Batch items are independent", "statement": "For any batch shape, the permutation-solving loop gives at every multi-index exactly the result of solving that batch item alone; it raises iff some item raises.", "quantifier": "all batch shapes (any number of dims), all items", "why_tests_cant": "unbounded shapes", "anchors": ["fast_bss_eval/numpy/helpers.py:_solve_permutation", "fast_bss_eval/torch/helpers.py:_solve_permutation"]}
{"id": "C12", "title": "clamp_db bounds every returned dB value", "statement": "With clamp_db = D >= 0, every non-NaN value returned by the decibel conversion lies in [-D, D], and the bounds are attained.", "quantifier": "all coherence values including infinities and values outside [0,1], all D >= 0", "why_tests_cant": "continuum of inputs", "anchors": ["fast_bss_eval/numpy/helpers.py:_db_clamp_eps", "fast_bss_eval/numpy/helpers.py:_coherence_to_neg_sdr", "fast_bss_eval/torch/helpers.py:_coherence_to_neg_sdr"]}
{"id": "C13", "title": "clamp_db is exactly saturation of the unclamped value", "statement": "The value with clamp_db = D >= 0 equals min(D, max(-D, v)) where v is the value without clamp_db.", "quantifier": "all non-NaN coherences, all D >= 0", "why_tests_cant": "continuum of inputs", "anchors": ["fast_bss_eval/numpy/helpers.py:_coherence_to_neg_sdr"]}
{"id": "C14", "title": "The dB mapping is strictly monotone on [0,1] and never creates NaN", "statement": "Without clamping, a larger coherence in [0,1] gives a strictly smaller negative SDR (with -inf/+inf at the ends), values outside [0,1] give the end values, and the result is NaN only if the coherence is NaN.", "quantifier": "all pairs of coherence values", "why_tests_cant": "continuum of inputs; cf. issue #5", "anchors": ["fast_bss_eval/numpy/helpers.py:_coherence_to_neg_sdr", "fast_bss_eval/torch/helpers.py:_coherence_to_neg_sdr"]}
{"id": "C15", "title": "FFT statistics equal time-domain correlations when the filter is not longer than the signals", "statement": "For filter_length <= max(n_samples_ref, n_samples_est) the auto/cross-correlations used for the metrics equal the plain (zero-padded, non-circular) correlations sum_t x[t] y[t+l] for every lag used.", "quantifier": "all signal lengths, contents and filter lengths within the bound", "why_tests_cant": "circular wrap-around only shows for particular length combinations", "anchors": ["fast_bss_eval/numpy/metrics.py:compute_stats", "fast_bss_eval/numpy/metrics.py:compute_stats_2"]}
{"id": "C16", "title": "Too long filters silently alias", "statement": "For filter_length larger than the signal, the correlations used can differ from the true correlations (wrap-around): there are finite signals where a lag that must be zero is not.", "quantifier": "existence", "why_tests_cant": "tests always use signals much longer than the filter", "anchors": ["fast_bss_eval/numpy/metrics.py:compute_stats"]}
{"id": "C17", "title": "The system matrices are Gram matrices of shifted references", "statement": "For filter_length L <= n_samples the matrix solved for SDR is A_k^T A_k and the one solved for SIR/SAR is A^T A where A_k contains the L shifts of (zero padded) reference k and A=[A_1..A_K] in lag-major order, and right-hand sides are A^T est.", "quantifier": "all channel counts, lengths, contents", "why_tests_cant": "index bookkeeping over unbounded shapes", "anchors": ["fast_bss_eval/numpy/linalg.py:toeplitz", "fast_bss_eval/numpy/linalg.py:block_toeplitz", "fast_bss_eval/numpy/linalg.py:hankel_view", "fast_bss_eval/numpy/metrics.py:compute_stats_2"]}
{"id": "C18", "title": "SDR equals its definition by orthogonal projection", "statement": "With the direct solver, no load_diag, no clamp, 1 <= L <= n_samples, and signals of norm >= 1e-6, the pairwise loss of (ref k, est m) is 10 log10(||e - P e||^2/||P e||^2) where P e is the orthogonal projection of the zero-padded estimate on the span of the L shifts of the reference (with +/-inf when a numerator/denominator vanishes).", "quantifier": "all finite signals, lengths, filter lengths", "why_tests_cant": "real-valued inputs, unbounded sizes", "anchors": ["fast_bss_eval/numpy/metrics.py:sdr_loss", "fast_bss_eval/__init__.py"]}
{"id": "C19", "title": "SIR and SAR equal their definitions by orthogonal projection", "statement": "Under the same conditions, and when the system matrix of all references is invertible, the SIR and SAR of bss_eval_sources are the energy ratios ||P_k e||^2/||P e - P_k e||^2 and ||P e||^2/||e - P e||^2 in dB.", "quantifier": "all finite signals, number of channels, lengths", "why_tests_cant": "real-valued inputs, unbounded sizes", "anchors": ["fast_bss_eval/numpy/metrics.py:square_cosine_metrics", "fast_bss_eval/numpy/metrics.py:_base_metrics_bss_eval", "fast_bss_eval/__init__.py"]}
{"id": "C20", "title": "Coherences are in [0,1]", "statement": "With the direct solver and any load_diag >= 0 the quantities converted to SDR and SAR lie in [0,1] (so no NaN arises from them).", "quantifier": "all finite signals (including zero and tiny ones) for which the solve succeeds", "why_tests_cant": "real-valued inputs", "anchors": ["fast_bss_eval/numpy/metrics.py:sdr_loss", "fast_bss_eval/numpy/metrics.py:square_cosine_metrics"]}
{"id": "C21", "title": "SDR <= SAR and SDR <= SIR", "statement": "For filter_length >= 2 (any load_diag >= 0) or no load_diag, direct solver: every pairwise SDR is <= the SAR of that estimate and <= the SIR of that pair.", "quantifier": "all finite signals", "why_tests_cant": "real-valued inputs", "anchors": ["fast_bss_eval/numpy/metrics.py:square_cosine_metrics", "fast_bss_eval/numpy/metrics.py:_base_metrics_bss_eval"]}
{"id": "C22", "title": "Singular-system errors happen exactly for silent references without load_diag", "statement": "For 1 < L <= n_samples and the direct solver, sdr_loss on finite signals raises LinAlgError iff some reference is identically zero and load_diag is None (or 0); with load_diag > 0 it never raises.", "quantifier": "all finite signals, lengths, load_diag >= 0", "why_tests_cant": "needs linear independence of shifts for every nonzero signal", "anchors": ["fast_bss_eval/numpy/metrics.py:sdr_loss", "fast_bss_eval/numpy/linalg.py:toeplitz"]}
{"id": "C23", "title": "Scale invariance", "statement": "Multiplying any reference or estimate by a nonzero constant leaves every pairwise SDR/SIR/SAR unchanged, as long as norms stay >= 1e-6.", "quantifier": "all finite signals, all nonzero factors, all filter lengths, load_diag, CG or direct solver, zero_mean, clamp", "why_tests_cant": "continuum of factors", "anchors": ["fast_bss_eval/numpy/helpers.py:_normalize", "fast_bss_eval/numpy/metrics.py:sdr_loss", "fast_bss_eval/numpy/metrics.py:bss_eval_sources"]}
{"id": "C24", "title": "Scale invariance fails for signals of norm below 1e-6", "statement": "There are finite nonzero signals and a factor > 0 for which scaling the estimate changes the SDR.", "quantifier": "existence", "why_tests_cant": "tests use unit-variance signals", "anchors": ["fast_bss_eval/numpy/helpers.py:_normalize"]}
{"id": "C25", "title": "zero_mean makes the metrics invariant to DC offsets", "statement": "With zero_mean=True, adding a constant to all samples of any channel of ref or est does not change the result of any of the functions.", "quantifier": "all finite signals, all offsets per channel, all other options", "why_tests_cant": "continuum of offsets", "anchors": ["fast_bss_eval/numpy/helpers.py:_remove_mean", "fast_bss_eval/numpy/metrics.py:sdr_loss", "fast_bss_eval/numpy/metrics.py:bss_eval_sources"]}
{"id": "C26", "title": "Longer distortion filters never decrease the SDR", "statement": "For 1 <= L <= L' <= n_samples (direct solver, no load_diag, norms >= 1e-6) the pairwise SDR with filter length L' is >= the one with L, including L=1 (the si_ functions).", "quantifier": "all finite signals, all L <= L'", "why_tests_cant": "real-valued inputs, unbounded lengths", "anchors": ["fast_bss_eval/numpy/metrics.py:sdr_loss", "fast_bss_eval/numpy/scale_invariant.py:si_sdr_loss"]}
{"id": "C27", "title": "Filtered references are perfect estimates", "statement": "If an estimate is exactly a filtering of the reference by some filter of length <= L (without truncation) then its SDR is +inf without clamp and clamp_db with it; and conversely +inf only happens in this case.", "quantifier": "all filters, signals, lengths", "why_tests_cant": "real-valued inputs", "anchors": ["fast_bss_eval/numpy/metrics.py:sdr_loss"]}
{"id": "C28", "title": "The length-one fast path agrees with the general method", "statement": "For filter_length = 1 the fast path returns the same coherence as the general correlation/Toeplitz/solve method would for a reference of norm >= 1e-6.", "quantifier": "all finite signals with reference norm >= 1e-6", "why_tests_cant": "real-valued inputs", "anchors": ["fast_bss_eval/numpy/metrics.py:square_cosine_metrics_length_one_filter", "fast_bss_eval/numpy/metrics.py:sdr_loss"]}
{"id": "C29", "title": "load_diag is ignored by the SDR when filter_length = 1", "statement": "sdr_loss/sdr with filter_length=1 return the same result for every load_diag; bss_eval_sources with filter_length=1 regularises SAR only, so SDR <= SAR can be violated there.", "quantifier": "all inputs; existence for the violation", "why_tests_cant": "option interaction not tested", "anchors": ["fast_bss_eval/numpy/metrics.py:sdr_loss", "fast_bss_eval/numpy/metrics.py:square_cosine_metrics_length_one_filter"]}
{"id": "C30", "title": "Non-pairwise loss is the diagonal of the pairwise loss", "statement": "For equal channel counts, sdr_loss(pairwise=False)[i] = sdr_loss(pairwise=True)[i][i]; for incompatible channel counts (different and none equal to 1) the non-pairwise form raises; bss_eval_sources(compute_permutation=False) raises AssertionError for any different counts.", "quantifier": "all inputs and options", "why_tests_cant": "different code paths (einsum strings, solve shapes)", "anchors": ["fast_bss_eval/numpy/metrics.py:sdr_loss", "fast_bss_eval/numpy/metrics.py:bss_eval_sources"]}
{"id": "C31", "title": "Permuting the channels permutes the pairwise metrics", "statement": "Permuting reference or estimate channels permutes the rows/columns of the pairwise loss, and the optimal total is unchanged.", "quantifier": "all permutations", "why_tests_cant": "factorial", "anchors": ["fast_bss_eval/numpy/metrics.py:sdr_loss", "fast_bss_eval/numpy/metrics.py:sdr"]}
{"id": "C32", "title": "Silent or orthogonal estimates", "statement": "A finite estimate orthogonal to all shifts of all references (e.g. silent) gets SDR = -clamp_db (-inf without clamp) from the loss functions, but makes bss_eval_sources(compute_permutation=True) raise ValueError, even with clamp_db (SIR is 0/0).", "quantifier": "all such estimates, any number of channels", "why_tests_cant": "exact zeros are never tested", "anchors": ["fast_bss_eval/numpy/metrics.py:_base_metrics_bss_eval", "fast_bss_eval/numpy/metrics.py:bss_eval_sources"]}
{"id": "C33", "title": "Loss functions are negated metrics with swapped arguments", "statement": "sdr_pit_loss(est,ref) = -sdr(ref,est) = sdr(ref,est,change_sign=True) entrywise with identical options; return_perm does not change the values.", "quantifier": "all inputs and options", "why_tests_cant": "option combinations", "anchors": ["fast_bss_eval/numpy/metrics.py:sdr_pit_loss", "fast_bss_eval/numpy/metrics.py:sdr"]}
{"id": "C34", "title": "si_ functions are the filter_length=1 functions", "statement": "Every si_ function equals the corresponding function with filter_length=1, for every value of use_cg_iter (and of load_diag for the SDR-only functions).", "quantifier": "all inputs and options", "why_tests_cant": "option combinations", "anchors": ["fast_bss_eval/numpy/scale_invariant.py", "fast_bss_eval/__init__.py"]}
{"id": "C35", "title": "Backend dispatch", "statement": "With torch installed, a call uses the torch backend iff its first argument is a torch tensor. Without torch, bss_eval_sources, sdr and sdr_loss use numpy, while sdr_pit_loss and all si_ functions raise AttributeError before computing anything.", "quantifier": "all public functions, all argument kinds, torch installed or not", "why_tests_cant": "environment combinations", "anchors": ["fast_bss_eval/__init__.py:_dispatch_backend", "fast_bss_eval/__init__.py"]}
{"id": "C36", "title": "numpy and torch backends agree", "statement": "For equal inputs and options, and at least 2 effective taps in the block path, the numpy and torch array constructions (Toeplitz, block Toeplitz, circulant preconditioners, circulant embeddings) coincide, so both backends return the same pairwise metrics; the permutations have equal total.", "quantifier": "all inputs, lengths", "why_tests_cant": "slicing idioms differ (negative steps vs flip) and differ for one tap", "anchors": ["fast_bss_eval/numpy/linalg.py", "fast_bss_eval/torch/linalg.py", "fast_bss_eval/numpy/cgd.py", "fast_bss_eval/torch/cgd.py"]}
{"id": "C37", "title": "Non-finite samples are reported", "statement": "If any sample of ref or est is NaN or +/-inf then sdr and bss_eval_sources(compute_permutation=True) raise an error and sdr_loss(pairwise) returns NaN exactly in the rows/columns of the affected channels (or raises LinAlgError).", "quantifier": "all positions and kinds of non-finite samples, all other content", "why_tests_cant": "test_nan uses one position", "anchors": ["fast_bss_eval/numpy/helpers.py:_normalize", "fast_bss_eval/numpy/metrics.py:sdr_loss", "fast_bss_eval/torch/hungarian.py:linear_sum_assignment"]}
{"id": "C38", "title": "The FFT Toeplitz operator is the dense Toeplitz matrix", "statement": "Multiplying by the fast symmetric Toeplitz operator of the iterative solver equals multiplying by the dense matrix T[i,j]=acf[|i-j|] of the direct solver.", "quantifier": "all lengths and contents", "why_tests_cant": "unbounded sizes", "anchors": ["fast_bss_eval/numpy/cgd.py:SymmetricToeplitzOperator", "fast_bss_eval/torch/cgd.py:SymmetricToeplitzOperator", "fast_bss_eval/numpy/linalg.py:toeplitz"]}
{"id": "C39", "title": "The FFT block-Toeplitz operator is the dense block-Toeplitz matrix", "statement": "Multiplying by the fast block operator equals multiplying by the dense block_toeplitz matrix.", "quantifier": "all tap counts >= 1 (numpy) / >= 2 (torch), channel counts, contents", "why_tests_cant": "unbounded sizes; sign-of-lag conventions", "anchors": ["fast_bss_eval/numpy/cgd.py:BlockToeplitzOperator", "fast_bss_eval/torch/cgd.py:BlockToeplitzOperator", "fast_bss_eval/numpy/linalg.py:block_toeplitz"]}
{"id": "C40", "title": "Circulant preconditioner columns are Frobenius-optimal", "statement": "The circulant matrices built by the preconditioners minimise the Frobenius distance to the (symmetric / non-symmetric) Toeplitz matrix among all circulant matrices.", "quantifier": "all sizes, contents and competitors", "why_tests_cant": "continuum of competitors", "anchors": ["fast_bss_eval/numpy/cgd.py:optimal_symmetric_circulant_precond_column", "fast_bss_eval/numpy/cgd.py:optimal_nonsymmetric_circulant_precond_column"]}
{"id": "C41", "title": "The iterative solver's residual is always the true residual", "statement": "After any number of iterations the solver state satisfies r = b - A x, with any preconditioner; 0 iterations return the start vector; an exact start vector is kept for any number of iterations (no division by zero); the intended periodic recomputation of the residual never runs but is not needed.", "quantifier": "all iteration counts, operators, right-hand sides", "why_tests_cant": "unbounded iterations", "anchors": ["fast_bss_eval/numpy/cgd.py:conjugate_gradient"]}
{"id": "C42", "title": "Each iteration of the iterative solver does not increase the error", "statement": "On the SDR system with its circulant preconditioner (A positive semidefinite) the A-norm error functional never increases from one iteration to the next, even when the 1e-6 safeguards are active.", "quantifier": "all signals, iteration counts", "why_tests_cant": "unbounded iterations", "anchors": ["fast_bss_eval/numpy/cgd.py:conjugate_gradient", "fast_bss_eval/numpy/cgd.py:CirculantPreconditionerOperator"]}
{"id": "C43", "title": "Enough iterations give the direct solution", "statement": "If the 1e-6 safeguards are not active before convergence, n iterations on an n x n positive definite system give the exact solution, and all further iterations keep it; so sdr_loss with use_cg_iter >= filter_length returns the direct-solver value.", "quantifier": "all systems and sizes", "why_tests_cant": "unbounded sizes", "anchors": ["fast_bss_eval/numpy/cgd.py:conjugate_gradient", "fast_bss_eval/numpy/cgd.py:toeplitz_conjugate_gradient"]}
{"id": "C44", "title": "Filters longer than the FFT", "statement": "If filter_length > n_fft > 1 (very short signals), sdr_loss silently uses an effective filter of n_fft taps (same result as filter_length=n_fft), while bss_eval_sources raises. For one-sample signals (n_fft = 1) the sdr_loss part fails, as filter_length=1 takes the fast path.", "quantifier": "all such lengths", "why_tests_cant": "tests always use long signals", "anchors": ["fast_bss_eval/numpy/metrics.py:compute_stats", "fast_bss_eval/numpy/metrics.py:compute_stats_2", "fast_bss_eval/numpy/metrics.py:square_cosine_metrics"]}
{"id": "C45", "title": "The assignment step does not modify the loss matrix", "statement": "The in-place replacement of infinite losses and the in-place reductions of the Hungarian algorithm act on copies: values returned after permutation solving are the original losses, including infinities.", "quantifier": "all matrices", "why_tests_cant": "aliasing through views", "anchors": ["fast_bss_eval/numpy/helpers.py:_linear_sum_assignment_with_inf", "fast_bss_eval/torch/helpers.py:_linear_sum_assignment_with_inf", "fast_bss_eval/torch/hungarian.py:_Hungary"]}
{"id": "C46", "title": "Output dtype", "statement": "With default options the floating dtype of the inputs is preserved; with numpy float32 inputs it is not preserved by use_cg_iter or by si_bss_eval_sources(load_diag).", "quantifier": "all option combinations, both backends", "why_tests_cant": "option combinations", "anchors": ["fast_bss_eval/numpy/metrics.py", "fast_bss_eval/torch/metrics.py", "fast_bss_eval/numpy/cgd.py", "fast_bss_eval/torch/cgd.py"]}
{"id": "C47", "title": "The dB mapping never creates NaN in IEEE arithmetic", "statement": "In IEEE-754 binary arithmetic (any correctly rounded format) clamp, 1-coh, division and log10 give a non-NaN result for every non-NaN coherence other than -0.0.", "quantifier": "all floats including subnormals, infinities", "why_tests_cant": "2^64 inputs; issue #5", "anchors": ["fast_bss_eval/numpy/helpers.py:_coherence_to_neg_sdr", "fast_bss_eval/torch/helpers.py:_coherence_to_neg_sdr"]}
{"id": "C48", "title": "Diagonal loading never increases the SDR", "statement": "For L >= 2 and 0 <= l1 <= l2, the pairwise SDR computed with load_diag=l2 is <= the one with l1.", "quantifier": "all finite signals and loads", "why_tests_cant": "continuum", "anchors": ["fast_bss_eval/numpy/metrics.py:sdr_loss"]}
{"id": "C49", "title": "sdr and bss_eval_sources agree on SDR", "statement": "For the same inputs and options with the direct solver and L <= n_samples, the pairwise SDR matrix used by bss_eval_sources equals the pairwise matrix of sdr_loss (for L >= 2, or no load_diag).", "quantifier": "all finite signals and options", "why_tests_cant": "two separate statistics code paths", "anchors": ["fast_bss_eval/numpy/metrics.py:sdr_loss", "fast_bss_eval/numpy/metrics.py:square_cosine_metrics"]}
{"id": "C50", "title": "Import succeeds/fails by installed packages", "statement": "Importing the package succeeds when only numpy and scipy are installed, but with torch installed and `packaging` missing the import raises TypeError (except clause with a list).", "quantifier": "all combinations of installed packages", "why_tests_cant": "environment combinations", "anchors": ["fast_bss_eval/torch/compatibility.py", "fast_bss_eval/__init__.py"]}
{"id": "C51", "title": "A negative clamp_db silently makes every value equal", "statement": "With clamp_db = D < 0 the dB conversion does not reject the option: every non-NaN coherence gives the same SDR, D.", "quantifier": "all D < 0, all coherences", "why_tests_cant": "an invalid option no test uses", "anchors": ["fast_bss_eval/numpy/helpers.py:_coherence_to_neg_sdr", "fast_bss_eval/torch/helpers.py:_coherence_to_neg_sdr"]}
{"id": "C52", "title": "The iterative solver underestimates the SDR", "statement": "For filter_length <> 1 with use_cg_iter=n, the pairwise coherence lies in [0,2]; when the 1e-6 safeguards stay inactive it is <= 1, at most the direct-solver value, and does not decrease when one more iteration is made.", "quantifier": "all finite signals, loads >= 0 and iteration counts", "why_tests_cant": "continuum; unbounded iteration count", "anchors": ["fast_bss_eval/numpy/cgd.py:conjugate_gradient", "fast_bss_eval/numpy/cgd.py:toeplitz_conjugate_gradient", "fast_bss_eval/numpy/metrics.py:sdr_loss"]}
{"id": "C53", "title": "Exactly when bss_eval_sources has a singular system", "statement": "With the direct solver, no load and L <= max length, the matrices of bss_eval_sources are computed iff the shifted references are linearly independent, otherwise LinAlgError; in particular it always fails when n_samples + L - 1 < L * n_ref or when two references are equal. With a positive load they are always computed.", "quantifier": "all finite references, all lengths", "why_tests_cant": "singularity is a measure-zero event in tests", "anchors": ["fast_bss_eval/numpy/metrics.py:square_cosine_metrics", "fast_bss_eval/numpy/metrics.py:bss_eval_sources"]}
{"id": "C54", "title": "The dB mapping with rounding is antitone and accurate", "statement": "In IEEE-754 arithmetic of any format, for a monotone log10, a larger coherence never gives a larger loss; and with rounding to nearest the computed ratio (1-coh)/coh has relative error at most 2u + u^2 (u the unit roundoff) for every coherence strictly between 0 and 1 whose ratio does not overflow.", "quantifier": "all floats, all binary formats", "why_tests_cant": "2^64 inputs", "anchors": ["fast_bss_eval/numpy/helpers.py:_coherence_to_neg_sdr", "fast_bss_eval/torch/helpers.py:_coherence_to_neg_sdr"]}
{"id": "C55", "title": "Output shapes with batch axes", "statement": "For inputs (..., C, T) and (..., D, T) with the same batch axes, the pairwise sdr_loss has shape (..., C, D), the non-pairwise one (..., C) (C = D), sdr (..., min(C,D)), and bss_eval_sources three arrays (..., min(C,D)), for every number of batch axes, filter length (1 <= L <= T for bss_eval_sources) and solver; the documented (..., n_channels_est) fails when n_est > n_ref. The non-pairwise claims exclude numpy 2 (C56).", "quantifier": "all shapes, any number of batch axes, both backends and library versions", "why_tests_cant": "unbounded number of axes and sizes", "anchors": ["fast_bss_eval/numpy/metrics.py:sdr_loss", "fast_bss_eval/numpy/metrics.py:sdr", "fast_bss_eval/numpy/metrics.py:bss_eval_sources", "fast_bss_eval/torch/metrics.py:sdr_loss"]}
{"id": "C56", "title": "Non-pairwise metrics under numpy 2", "statement": "Under numpy 2, where linalg.solve takes a 1-D right-hand side as a vector only, sdr_loss(pairwise=False) and bss_eval_sources(compute_permutation=False) with the direct solver raise ValueError for every C <> L, and return an (L, L) array when C = L; the iterative solver is not affected, nor are 1-D inputs.", "quantifier": "all shapes with 2 <= L <= T", "why_tests_cant": "the tests run one numpy version; C = L is never tested", "anchors": ["fast_bss_eval/numpy/metrics.py:sdr_loss", "fast_bss_eval/numpy/metrics.py:square_cosine_metrics"]}
{"id": "C57", "title": "Broadcasting of batch axes", "statement": "With direct solver, sdr broadcasts the batch axes of references and estimates by the numpy rule and fails exactly when they are incompatible; with use_cg_iter it fails with AssertionError when the estimates have more batch axes than the references; non-pairwise sdr_loss with an extra batch axis on the estimates fails.", "quantifier": "all shapes", "why_tests_cant": "combinations of shapes", "anchors": ["fast_bss_eval/numpy/metrics.py:sdr", "fast_bss_eval/numpy/metrics.py:sdr_loss", "fast_bss_eval/numpy/cgd.py:toeplitz_conjugate_gradient"]}
{"id": "C58", "title": "Wrappers for torch < 1.8", "statement": "The wrapper rfft equals torch.fft.rfft for all n; the wrapper irfft equals torch.fft.irfft when there are at least n/2+1 frequencies, raises otherwise (padding on the wrong axis), and without n works only for two frequencies; every call made by the package is of the first kind, so statistics, preconditioner and operators are those of torch >= 1.8; einsum_complex is the complex contraction.", "quantifier": "all lengths and signals", "why_tests_cant": "tests run on one torch version", "anchors": ["fast_bss_eval/torch/compatibility.py:rfft", "fast_bss_eval/torch/compatibility.py:irfft", "fast_bss_eval/torch/compatibility.py:einsum_complex"]}
{"id": "C59", "title": "Accuracy of the scale-invariant coherence in floating point", "statement": "With filter_length=1 and no mean removal, evaluating norm, clamp, division, inner product and square with rounding to nearest (gradual underflow, no overflow), with the sums in any order at most h additions deep and with or without fused multiply-add, gives a coherence within (8h+40)u of the exact one (u = 2^-53 or 2^-24); with clamp_db=D >= 0 the SDR differs by at most 10/(ln10 eps (1-eps)) (8h+40)u dB.", "quantifier": "all finite signals up to 2^46 (float64) or 2^17 (float32) samples, all summation orders", "why_tests_cant": "continuum; rounding patterns; summation order is a library detail", "anchors": ["fast_bss_eval/numpy/metrics.py:square_cosine_metrics_length_one_filter", "fast_bss_eval/numpy/helpers.py:_normalize"]}
{"id": "C60", "title": "Slope of the dB loss", "statement": "The derivative of the loss with respect to the coherence is -10/(ln10 c(1-c)): unbounded near 0 and 1 without clamp_db; with clamp_db=D >= 0 the loss is Lipschitz with constant 10/(ln10 eps(1-eps)), eps the clamping level; relative errors th of c and of 1-c change it by at most 10 log10((1+th)/(1-th)) dB.", "quantifier": "all coherences and all D >= 0", "why_tests_cant": "continuum", "anchors": ["fast_bss_eval/numpy/helpers.py:_coherence_to_neg_sdr", "fast_bss_eval/torch/helpers.py:_coherence_to_neg_sdr"]}
{"id": "C61", "title": "Near-optimality of the float assignment", "statement": "The pure torch assignment run on IEEE floats (any format, precision p, costs below 2^e0 with e0+4 below the overflow exponent, (4N^2+2) 2^-p <= 1/2, rounding to nearest even) returns a valid assignment whose exact cost is at most optimum + 4N(4N^2+1) 2^-p D (N = min(n,m), D the spread of the costs); it is exactly optimal for integer costs small enough; exact optimality fails in general (a 2x2 float64 matrix).", "quantifier": "all finite cost matrices with the stated bounds (N <= 1000 suffices in float32), all binary formats", "why_tests_cant": "2^64 inputs per entry; rounding patterns", "anchors": ["fast_bss_eval/torch/hungarian.py:linear_sum_assignment"]}
{"id": "C62", "title": "Gradient of the SDR loss", "statement": "Along any direction h the pairwise loss (direct solver, no load, no clamp) has derivative 20/ln10 (<r,h>/|r|^2 - <p,h>/|p|^2), p the projection of the estimate on the filtered references and r = y - p, when p and r are non-zero and the norm clamp is inactive. With one tap the gradient never vanishes; in general it vanishes iff p restricted to the samples of y is (|p|^2/|y|^2) y, which happens at 3 dB loss for a concrete pair with two taps; but there is no local minimum: adding any amount of the reference with the sign of the correlation strictly lowers the loss.", "quantifier": "all finite signals, directions, lengths and filter lengths", "why_tests_cant": "continuum; autograd checks sample a few points", "anchors": ["fast_bss_eval/numpy/metrics.py:sdr_loss", "fast_bss_eval/torch/metrics.py:sdr_loss"]}
{"id": "C63", "title": "Convergence rate of the iterative SDR", "statement": "If the preconditioned system matrix lies between mu and Lam, k iterations of conjugate_gradient with its safeguards inactive leave at most 2 (1 - sqrt(mu/Lam))^k of the initial squared error (matrix norm); with the safeguards, at most the larger of that and 1e-6/(mu min(1,mu)). So the iterative coherence q of a pair satisfies (1 - 2 (1 - sqrt(mu/Lam))^k) q' <= q <= q' with q' the direct one, or (q - q')^2 <= q' max(...) in all cases. With load_diag = lam >= 1e-3, (L+lam)/lam ln(2/delta) iterations give relative accuracy delta.", "quantifier": "all positive definite systems, signals, filter lengths, iteration counts", "why_tests_cant": "the rate is a supremum over all systems and all iteration counts", "anchors": ["fast_bss_eval/numpy/cgd.py:conjugate_gradient", "fast_bss_eval/numpy/cgd.py:toeplitz_conjugate_gradient", "fast_bss_eval/torch/cgd.py:conjugate_gradient", "fast_bss_eval/numpy/metrics.py:sdr_loss"]}
{"id": "C64", "title": "Which references the iterative bss_eval refuses", "statement": "With use_cg_iter set and no diagonal loading, bss_eval raises LinAlgError (a singular frequency bin of the block preconditioner) exactly when the references, after mean removal, are linearly dependent as plain signals; with loading it never does. Whenever the direct solver succeeds so does the iterative one. Duplicated references or more references than samples always raise. For signals so short that the direct solver raises, the iterative one returns numbers if the references are independent.", "quantifier": "all finite signals, filter lengths 2..max length, iteration counts, both backends", "why_tests_cant": "singular bins for adversarial signals; the equivalence is over all filters and all signals", "anchors": ["fast_bss_eval/numpy/cgd.py:BlockCirculantPreconditionerOperator", "fast_bss_eval/numpy/cgd.py:block_toeplitz_conjugate_gradient", "fast_bss_eval/torch/cgd.py:block_toeplitz_conjugate_gradient", "fast_bss_eval/numpy/metrics.py:square_cosine_metrics"]}
{"id": "C65", "title": "Accuracy of the iterative bss_eval", "statement": "With filter_length times n_ref iterations or more and the safeguards never active, bss_eval_sources (with or without permutation) with use_cg_iter returns exactly what the direct solver returns. With any number of iterations the SAR coherence q satisfies (q - q')^2 <= q' (2K-1)^2 for K references, and (q - q')^2 <= q' max(2 (1 - sqrt(mu/Lam))^it (2K-1)^2, 1e-6/(mu min(1,mu))) when the preconditioned block system lies between mu and Lam; with load_diag = lam > 0 one may take sqrt(mu/Lam) = mu = lam/(N+lam), N = filter_length K.", "quantifier": "all finite signals, filter lengths, iteration counts", "why_tests_cant": "the bound is over all systems and all iteration counts", "anchors": ["fast_bss_eval/numpy/cgd.py:block_toeplitz_conjugate_gradient", "fast_bss_eval/torch/cgd.py:block_toeplitz_conjugate_gradient", "fast_bss_eval/numpy/metrics.py:square_cosine_metrics", "fast_bss_eval/torch/metrics.py:square_cosine_metrics"]}
{"id": "C66", "title": "The iterative bss_eval leaves the range and order of the direct one", "statement": "With use_cg_iter the SAR coherence need not stay in [0,1] and the returned SDR need not be at most the SIR (both hold for the direct solver, C20, C21): a concrete pair of references with two equal estimates, filter_length 2 and one iteration, gives a SAR coherence above 1 and an SDR of +inf dB beside a finite SIR.", "quantifier": "existence of inputs, both backends", "why_tests_cant": "needs a reference almost orthogonal to the estimate so that the 1e-6 safeguards act", "anchors": ["fast_bss_eval/numpy/cgd.py:conjugate_gradient", "fast_bss_eval/numpy/metrics.py:square_cosine_metrics", "fast_bss_eval/numpy/metrics.py:_base_metrics_bss_eval"]}
{"id": "C67", "title": "SDR, SIR and SAR are tied by one equation", "statement": "For the direct solver without clamp_db, the three ratios returned for a source satisfy 1 + 1/SDR = (1 + 1/SIR)(1 + 1/SAR) as linear power ratios (infinite values included, with 1/0 = inf): any two determine the third, and the SDR is never more than 10 log10 3 dB below the smaller of SIR and SAR when these are >= 0 dB.", "quantifier": "all finite signals, channel counts, filter lengths and loads for which bss_eval_sources returns", "why_tests_cant": "continuum of signals; infinite values", "anchors": ["fast_bss_eval/numpy/metrics.py:_base_metrics_bss_eval", "fast_bss_eval/torch/metrics.py:_base_metrics_bss_eval", "fast_bss_eval/numpy/metrics.py:bss_eval_sources"]}
{"id": "C68", "title": "Silence around the recording does not matter", "statement": "Without mean removal and with filter_length at most the longest signal length, prepending the same number of zeros to references and estimates and appending any numbers of zeros to each (equal numbers for filter_length=1) leaves every output of pairwise_sdr_loss, sdr_loss, sdr, sdr_pit_loss and bss_eval_sources (with or without permutation) unchanged, raised errors included. With zero_mean=True, or filters longer than the signals, it is false.", "quantifier": "all signals (NaN and infinities included), solvers, loads, clamps, both backends", "why_tests_cant": "all paddings and signals; the FFT size and error conditions change with the length", "anchors": ["fast_bss_eval/numpy/metrics.py:sdr_loss", "fast_bss_eval/numpy/metrics.py:bss_eval_sources", "fast_bss_eval/torch/metrics.py:sdr_loss", "fast_bss_eval/numpy/metrics.py:compute_stats"]}
{"id": "C69", "title": "SAR depends on the references only through their span; more references move SIR and SAR one way", "statement": "Replacing the references by invertible mixtures of themselves leaves the SAR of every estimate unchanged; adding references leaves the SDR of a (reference, estimate) pair unchanged, does not increase its SIR and does not decrease its SAR.", "quantifier": "all finite signals, mixtures, channel counts, filter lengths; for the second part all loads >= 0", "why_tests_cant": "continuum of signals and mixtures; norms of the references are divided out by the code", "anchors": ["fast_bss_eval/numpy/metrics.py:square_cosine_metrics", "fast_bss_eval/torch/metrics.py:square_cosine_metrics", "fast_bss_eval/numpy/metrics.py:_base_metrics_bss_eval"]}
{"id": "C70", "title": "The reported ratios are those of the BSS Eval decomposition", "statement": "Each estimate is uniquely s_target + e_interf + e_artif with s_target a filtered version of the matched reference, s_target + e_interf a filtered mixture of all references, e_interf orthogonal to the shifted matched reference and e_artif to all shifted references; the energies add up, and the SDR, SIR and SAR returned are 10 log10 of |s|^2/|i+a|^2, |s|^2/|i|^2 and |s+i|^2/|a|^2.", "quantifier": "all finite signals that do not meet the norm clamp, direct solver without load and clamp_db", "why_tests_cant": "the code never forms the decomposition, only squared cosines", "anchors": ["fast_bss_eval/numpy/metrics.py:bss_eval_sources", "fast_bss_eval/numpy/metrics.py:square_cosine_metrics", "fast_bss_eval/torch/metrics.py:square_cosine_metrics"]}
{"id": "C71", "title": "Which delays the filter forgives", "statement": "A copy of the reference delayed by fewer than filter_length samples is a perfect estimate (loss -inf, or -clamp_db); an estimate whose support starts filter_length or more samples after the end of the reference, or ends before the reference starts, gets the worst loss; lengthening the filter by j and delaying the estimate by j never increases the loss; a delay of exactly filter_length or an advance of one sample may cost everything.", "quantifier": "all finite signals, delays and filter lengths, no mean removal", "why_tests_cant": "all delays; needs both sides of the threshold", "anchors": ["fast_bss_eval/numpy/metrics.py:sdr_loss", "fast_bss_eval/torch/metrics.py:sdr_loss"]}
{"id": "C72", "title": "Batched arrays give item by item the result of one item", "statement": "Written literally on whole arrays (broadcasting einsums, stacked solves, preconditioned conjugate gradient on all right-hand sides at once, the permutation loop), sdr_loss, pairwise loss, sdr and bss_eval_sources (with or without permutation) return arrays whose batch axes are the broadcast of those of the inputs and whose item at each batch index is what the same function returns on that pair of items alone; they raise iff some item raises. Hypotheses: the reference has at least as many axes as the estimate when use_cg_iter is set; for the non-pairwise direct solver the right-hand side is recognised as a stack of vectors (not numpy 2). In torch >= 1.8 a filter longer than the FFT is not rejected when filter_length equals the number of channels: square arrays come out.", "quantifier": "all finite signals, shapes, numbers of batch axes, broadcasts, filter lengths, solvers, four library versions", "why_tests_cant": "all shapes and broadcasts; the stopping of the iteration mixes nothing between items only if each step is columnwise", "anchors": ["fast_bss_eval/numpy/metrics.py:sdr_loss", "fast_bss_eval/numpy/metrics.py:square_cosine_metrics", "fast_bss_eval/numpy/metrics.py:bss_eval_sources", "fast_bss_eval/torch/metrics.py:sdr_loss", "fast_bss_eval/torch/metrics.py:square_cosine_metrics", "fast_bss_eval/numpy/cgd.py:conjugate_gradient", "fast_bss_eval/numpy/cgd.py:block_toeplitz_conjugate_gradient", "fast_bss_eval/numpy/helpers.py:_solve_permutation"]}
{"id": "C73", "title": "How far a change of the estimate moves the metrics", "statement": "Replacing an estimate y by y' changes the square root of the SDR and SAR coherences by at most 2|y-y'|/max(|y|,eps) for the direct solver, whatever the load and the filter length; in decibels, with e = |y-y'|, target t and error r of the estimate, the new SDR, SIR (while e is below the span part) and SAR lie between 20 log10((|t|-e)/(|r|+e)) and 20 log10((|t|+e)/(|r|-e)) whenever those bounds make sense. No such bound exists in the references: two reference sets at arbitrarily small distance give SAR +inf and -inf for the same estimate.", "quantifier": "all finite signals and perturbations, direct solver", "why_tests_cant": "an inequality over all pairs of signals", "anchors": ["fast_bss_eval/numpy/metrics.py:sdr_loss", "fast_bss_eval/numpy/metrics.py:square_cosine_metrics", "fast_bss_eval/numpy/metrics.py:bss_eval_sources", "fast_bss_eval/torch/metrics.py:sdr_loss", "fast_bss_eval/torch/metrics.py:square_cosine_metrics"]}
{"id": "C74", "title": "The scale-invariant metrics depend on inner products only", "statement": "With filter_length = 1 all metric functions return the same result (or raise alike) on two sets of signals with the same inner products, so they are unchanged when all signals undergo one orthogonal transform (even to another length), and when the samples of all signals are reordered in the same way; with two taps time reversal can turn a perfect SDR into the worst one.", "quantifier": "all finite signals, isometries and permutations of the samples", "why_tests_cant": "all transforms", "anchors": ["fast_bss_eval/numpy/metrics.py:sdr_loss", "fast_bss_eval/numpy/metrics.py:square_cosine_metrics", "fast_bss_eval/numpy/scale_invariant.py:si_sdr", "fast_bss_eval/numpy/scale_invariant.py:si_bss_eval_sources", "fast_bss_eval/torch/metrics.py:sdr_loss"]}
{"id": "C75", "title": "Adding estimates of the same source", "statement": "With filter_length = 1, if two estimates are both positively correlated with a reference then every sum of the first and a nonnegative multiple of the second has an SDR at least as good as the worse of the two; with two taps this fails: two estimates with 0.04 dB each can sum to one with -20 dB.", "quantifier": "all finite signals not meeting the norm clamp", "why_tests_cant": "all pairs of estimates; the failure needs a chosen pair", "anchors": ["fast_bss_eval/numpy/metrics.py:sdr_loss", "fast_bss_eval/torch/metrics.py:sdr_loss"]}
{"id": "C76", "title": "Diagonal loading caps the SDR and SAR and its bias vanishes with the load", "statement": "With load_diag = lambda > 0 the SDR never exceeds 10 log10(L/lambda) and the SAR never exceeds 10 log10(L K/lambda) (K references); the SDR coherence falls short of the unloaded one by at least 0 and at most lambda times the energy of the optimal filter, so it tends to the unloaded value as lambda tends to 0.", "quantifier": "all finite signals, filter lengths >= 2 (SDR) or >= 1 (SAR), direct solver", "why_tests_cant": "all loads; a limit", "anchors": ["fast_bss_eval/numpy/metrics.py:sdr_loss", "fast_bss_eval/numpy/metrics.py:square_cosine_metrics", "fast_bss_eval/torch/metrics.py:sdr_loss", "fast_bss_eval/torch/metrics.py:square_cosine_metrics"]}
{"id": "C77", "title": "The gradients of the torch losses", "statement": "For any weights, the backward pass of the torch losses (each operation replaced by its differentiation rule, in reverse) returns for an estimate the gradient of the weighted sum of its losses: finite, and equal to the derivative in every direction, unless the norm is exactly 1e-6, an unclamped loss is infinite or a clamped one is exactly at +-clamp_db. With clamp_db it is finite at every estimate, orthogonal to the estimate, and 0 when all losses are beyond the limits. Without clamp_db (the default) a silent estimate, or an infinite loss with any reference even of weight 0 (an unselected pair of sdr_pit_loss), gives NaN in every sample. k times the estimate gets 1/k times the gradient.", "quantifier": "all finite signals, weights, filter lengths, loads, clamps; direct solver; gradient with respect to the estimates", "why_tests_cant": "continuum; tests of gradients sample a few points away from the singular ones", "anchors": ["fast_bss_eval/torch/metrics.py:sdr_loss", "fast_bss_eval/torch/metrics.py:sdr_pit_loss", "fast_bss_eval/torch/metrics.py:square_cosine_metrics_length_one_filter", "fast_bss_eval/torch/helpers.py:_coherence_to_neg_sdr", "fast_bss_eval/torch/helpers.py:_normalize", "fast_bss_eval/torch/helpers.py:_remove_mean"]}
{"id": "C78", "title": "The gradients of the torch losses with respect to the references", "statement": "For any weights, the backward pass of the torch losses returns for a reference the gradient of the weighted sum of its losses with all estimates: finite, and equal to the derivative in every direction, unless the norm is exactly 1e-6, an unclamped loss is infinite or a clamped one is exactly at +-clamp_db. If the call succeeds at a reference it succeeds around it. With clamp_db the gradient is finite, orthogonal to the reference, and 0 when all losses are beyond the limits. Without clamp_db an infinite loss with any estimate, even of weight 0, gives NaN in every sample. k times the reference gets 1/k times the gradient. With one tap the gradients of references and estimates are the same function.", "quantifier": "all finite signals, weights, filter lengths, loads, clamps for which the call succeeds; direct solver; gradient with respect to the references", "why_tests_cant": "continuum; the references enter through the Toeplitz matrix, its inverse and two FFTs, and tests sample a few points", "anchors": ["fast_bss_eval/torch/metrics.py:sdr_loss", "fast_bss_eval/torch/metrics.py:compute_stats", "fast_bss_eval/torch/metrics.py:square_cosine_metrics_length_one_filter", "fast_bss_eval/torch/linalg.py:toeplitz", "fast_bss_eval/torch/linalg.py:hankel_view", "fast_bss_eval/torch/helpers.py:_coherence_to_neg_sdr", "fast_bss_eval/torch/helpers.py:_normalize", "fast_bss_eval/torch/helpers.py:_remove_mean"]}
{"id": "C79", "title": "conjugate_gradient called on its own: columns, default iterations, x_true, start", "statement": "Columns of the right-hand side are solved independently, each with the same number of iterations. When n_iter is omitted that number is the number of columns: that the default solves the system is refuted, a vector gets a single step of steepest descent. n iterations solve a positive definite system exactly if no iterate has a small nonzero residual; then the distances returned with x_true never grow and vanish after n iterations, and the norm of the result grows. x_true changes nothing but adds the list whose entry i is the mean distance of the result of i iterations. A start matrix that solves the system is returned. One column of the right-hand side, the start or x_true stands for as many as the other arrays have. A start vector beside a vector right-hand side raises for the fast operators and is silently broadcast to a wrong result for a matrix.", "quantifier": "all sizes, right-hand sides, iteration counts, operators that keep the number of rows", "why_tests_cant": "tests call it with matrices of fixed shape and compare with a tolerance; vectors, omitted n_iter and start vectors are not tested", "anchors": ["fast_bss_eval/numpy/cgd.py:conjugate_gradient", "fast_bss_eval/torch/cgd.py:conjugate_gradient", "fast_bss_eval/numpy/cgd.py:toeplitz_conjugate_gradient", "fast_bss_eval/torch/cgd.py:toeplitz_conjugate_gradient", "fast_bss_eval/numpy/cgd.py:IdentityOperator", "fast_bss_eval/numpy/cgd.py:inner_prod"]}
{"id": "C80", "title": "The gradients of the torch losses through the conjugate gradient", "statement": "With use_cg_iter set, the backward pass through the iterations (preconditioner, matrix products, clamped divisions, each update) returns for an estimate the derivative, in every direction, of the weighted sum of the losses that the truncated solver reports, unless the norm or a denominator of an iteration is exactly 1e-6, an unclamped loss is infinite or a clamped one is exactly at +-clamp_db. When the iterations reach the solution, also long before the last one, the gradient is exactly that of the direct solver. With clamp_db it is finite at every estimate, orthogonal to it, and 0 when all losses are beyond the limits. Without clamp_db it is NaN iff a coherence is 0 or 1, even of weight 0; silent estimates give NaN. k times the estimate gets 1/k times the gradient.", "quantifier": "all finite signals, weights, filter lengths >= 2, iteration counts, loads, clamps; gradient with respect to the estimates", "why_tests_cant": "continuum; the backward pass of all iterations is composed by autograd, and tests compare losses, not gradients", "anchors": ["fast_bss_eval/torch/metrics.py:sdr_loss", "fast_bss_eval/torch/metrics.py:sdr_pit_loss", "fast_bss_eval/torch/cgd.py:conjugate_gradient", "fast_bss_eval/torch/cgd.py:toeplitz_conjugate_gradient", "fast_bss_eval/torch/cgd.py:CirculantPreconditionerOperator", "fast_bss_eval/torch/cgd.py:SymmetricToeplitzOperator", "fast_bss_eval/torch/helpers.py:_coherence_to_neg_sdr", "fast_bss_eval/torch/helpers.py:_normalize"]}
{"id": "C81", "title": "The gradients of sdr, sdr_pit_loss and sdr_loss", "statement": "For any weights, the backward pass of torch's sdr and sdr_pit_loss returns the derivative of the weighted outputs in every direction of the space of all estimates, away from the kinks of C77 and C80 and where one assignment only is optimal; around such a point the permutation is constant. At a tie the gradient of sdr_pit_loss with weights 1 still bounds the first-order change of the total loss from above, so minus the gradient descends. With clamp_db the gradient is finite at every estimate and orthogonal to it. Without clamp_db an infinite loss with a reference that is not selected gives NaN in every sample, although all outputs may be finite. The backward pass of the non-pairwise sdr_loss returns the derivative as well, a broadcast estimate collecting all outputs.", "quantifier": "all finite signals, numbers of channels (equal or not), weights, filter lengths, iteration counts, loads, clamps; gradient with respect to the estimates", "why_tests_cant": "continuum, and the selection changes from point to point; tests compare losses, not gradients", "anchors": ["fast_bss_eval/torch/metrics.py:sdr", "fast_bss_eval/torch/metrics.py:sdr_pit_loss", "fast_bss_eval/torch/metrics.py:sdr_loss", "fast_bss_eval/torch/helpers.py:_solve_permutation", "fast_bss_eval/torch/helpers.py:_linear_sum_assignment_with_inf", "fast_bss_eval/torch/helpers.py:_coherence_to_neg_sdr"]}
{"id": "C82", "title": "Signals without channel axis", "statement": "sdr_loss with pairwise=False accepts arrays of any rank and returns, for each pair of signals that broadcasting makes, the loss of that pair alone; for two signals without channel axis this holds with every library version. All other functions raise when one array has no channel axis, and sdr_loss raises when the axes do not broadcast. For the shapes where the solver does not recognise a stack of vectors (for instance one reference without channel axis and several estimates) the result is an exception, except when the number of channels equals the filter length: then wrong values are returned without notice.", "quantifier": "all finite signals, ranks, shapes, library versions, filter lengths, iteration counts, loads, clamps", "why_tests_cant": "every rank and every library version; the tests only use two and three axes", "anchors": ["fast_bss_eval/numpy/metrics.py:sdr_loss", "fast_bss_eval/torch/metrics.py:sdr_loss", "fast_bss_eval/numpy/metrics.py:compute_stats", "fast_bss_eval/numpy/cgd.py:conjugate_gradient", "fast_bss_eval/numpy/metrics.py:square_cosine_metrics_length_one_filter"]}
{"id": "C83", "title": "The gradient of bss_eval_sources", "statement": "For any weights on SDR, SIR and SAR, with or without permutation, the backward pass of torch's bss_eval_sources returns the derivative of the weighted outputs in every direction of the space of all estimates, away from the kinks (norm at the floor, clamping edges, infinite values, ties between assignments); the outputs that carry no weight need not be differentiable. With clamp_db the gradient is finite and orthogonal to each estimate unless the SIR is in the loss and the SAR coherence of an estimate is 0; in that case (for instance a silent estimate) it is NaN in spite of clamp_db. Without clamp_db an infinite value of a weighted metric gives NaN, with permutation also if the pair is not selected.", "quantifier": "all finite signals, numbers of channels (equal or not with permutation), weights, filter lengths, loads, clamps; direct solver; gradient with respect to the estimates", "why_tests_cant": "continuum, and the selection changes from point to point; tests compare metrics, not gradients", "anchors": ["fast_bss_eval/torch/metrics.py:bss_eval_sources", "fast_bss_eval/torch/metrics.py:_base_metrics_bss_eval", "fast_bss_eval/torch/metrics.py:square_cosine_metrics", "fast_bss_eval/torch/metrics.py:square_cosine_metrics_length_one_filter", "fast_bss_eval/torch/helpers.py:_solve_permutation", "fast_bss_eval/torch/helpers.py:_coherence_to_neg_sdr"]}
{"id": "C84", "title": "bss_eval_sources with one reference", "statement": "With a single reference and the direct solver the SAR equals the SDR (for filter_length 1 with load_diag they differ by the factor 1+load in the coherence) and the SIR says nothing about the signals: it is +inf, or clamp_db, or NaN for an orthogonal estimate. Consequently bss_eval_sources with compute_permutation and without clamp_db raises for every input with one reference; with clamp_db the selection among several estimates is arbitrary: for every estimate there is a correct assignment solver with which it is selected. Without clamp_db the gradient of a loss with the SIR is NaN.", "quantifier": "all finite signals, lengths, numbers of estimates, filter lengths, loads, clamps, both back ends; direct solver", "why_tests_cant": "tests use at least two references", "anchors": ["fast_bss_eval/numpy/metrics.py:bss_eval_sources", "fast_bss_eval/numpy/metrics.py:square_cosine_metrics", "fast_bss_eval/torch/metrics.py:bss_eval_sources", "fast_bss_eval/torch/metrics.py:square_cosine_metrics", "fast_bss_eval/numpy/helpers.py:_solve_permutation", "fast_bss_eval/torch/helpers.py:_solve_permutation"]}
{"id": "C85", "title": "Errors of the statistics and of the solver", "statement": "Take any program that follows the steps of sdr_loss or of the SAR with errors: correlations off by at most delta and eta, a filter that leaves a residual of at most rho in the computed system, a final sum off by at most gamma. With load_diag = lambda its coherence differs from that of the exact program by at most gamma + delta S + (delta + rho + eta S) sqrt(K/lambda), K the number of unknowns and S the 1-norm of the computed filter (without load: lambda is any lower bound for the energy of the filtered reference per unit energy of the filter). With clamp_db, errors e of the coherences move every reported value by at most the slope of the clamped dB mapping times e, and the total loss of the assignment selected exceeds the best by at most 2N times that. For bss_eval_sources the same holds with error (e1 + e2)/a for the SIR, e1 and e2 the errors of the SDR and SAR coherences and a a lower bound for the computed SAR coherences.", "quantifier": "all finite signals, error sizes, filters, filter lengths 2..n_samples, loads, clamps; both back ends", "why_tests_cant": "a statement about every possible rounding; tests see one", "anchors": ["fast_bss_eval/numpy/metrics.py:compute_stats", "fast_bss_eval/numpy/metrics.py:sdr_loss", "fast_bss_eval/numpy/metrics.py:square_cosine_metrics", "fast_bss_eval/torch/metrics.py:square_cosine_metrics", "fast_bss_eval/numpy/helpers.py:_solve_permutation", "fast_bss_eval/torch/helpers.py:_coherence_to_neg_sdr"]}
{"id": "C86", "title": "Longer filters and loads: SAR and SIR", "statement": "With more taps, and with less load_diag, the SAR of an estimate never decreases (one tap included). The SIR has no such monotony: from one to two taps it can fall for one channel and rise for another of the same call.", "quantifier": "all finite signals, channel counts, filter lengths L <= L', loads >= 0, both back ends; direct solver", "why_tests_cant": "continuum; tests use one filter length", "anchors": ["fast_bss_eval/numpy/metrics.py:square_cosine_metrics", "fast_bss_eval/torch/metrics.py:square_cosine_metrics", "fast_bss_eval/numpy/metrics.py:bss_eval_sources", "fast_bss_eval/torch/metrics.py:bss_eval_sources"]}
{"id": "C87", "title": "When the permutation is the expected one", "statement": "If every reference has an estimate of its own (distinct for distinct references) with a smaller loss than every other estimate, that pairing is the permutation returned; likewise if every estimate has a reference of its own; infinite losses included. If the references stay orthogonal under all delays of the filter, a positive SDR of every estimate with a reference of its own is enough (and it is not for correlated references). If every estimate has its own reference by SDR, bss_eval_sources without clamp_db, which selects by SIR, takes the same pairing.", "quantifier": "all loss matrices, all finite signals, channel counts, filter lengths, loads >= 0, both back ends", "why_tests_cant": "continuum of signals; ties and infinities", "anchors": ["fast_bss_eval/numpy/helpers.py:_solve_permutation", "fast_bss_eval/torch/helpers.py:_solve_permutation", "fast_bss_eval/numpy/metrics.py:sdr", "fast_bss_eval/torch/metrics.py:sdr", "fast_bss_eval/numpy/metrics.py:bss_eval_sources", "fast_bss_eval/torch/metrics.py:bss_eval_sources"]}
{"id": "C88", "title": "Toeplitz matrices as views of memory", "statement": "hankel_view of an array with any strides and leading axes never points outside the memory of that array, makes no copy, and has entry i + j at (i, j). The results of toeplitz and block_toeplitz lie in memory allocated by the call and every array that existed before keeps its contents; the entries are those of the definition on lists that the metrics are modelled with. The additions of load_diag in place change only lag 0 (of equal channels), and no array of the caller. Whatever the layouts chosen by the library for new arrays.", "quantifier": "all memories, strides (non-negative for torch), offsets, leading axes, sizes and layouts of new arrays, both back ends", "why_tests_cant": "as_strided reads arbitrary memory for wrong strides or sizes, which a test may not notice; layouts are not under the control of tests", "anchors": ["fast_bss_eval/numpy/linalg.py:hankel_view", "fast_bss_eval/torch/linalg.py:hankel_view", "fast_bss_eval/numpy/linalg.py:toeplitz", "fast_bss_eval/torch/linalg.py:toeplitz", "fast_bss_eval/numpy/linalg.py:block_toeplitz", "fast_bss_eval/torch/linalg.py:block_toeplitz", "fast_bss_eval/numpy/metrics.py:sdr_loss", "fast_bss_eval/torch/metrics.py:sdr_loss", "fast_bss_eval/numpy/metrics.py:square_cosine_metrics", "fast_bss_eval/torch/metrics.py:square_cosine_metrics"]}
{"id": "C89", "title": "Permutations of sdr and of bss_eval_sources", "statement": "sdr chooses the permutation by SDR and bss_eval_sources by SIR; the permutations may differ (counterexample, the claim that they agree is refuted). Whatever is returned, the total of the SDRs of bss_eval_sources is at most that of sdr and the total of its SIRs at least that of the pairs chosen by sdr. When the estimates are combinations of the delayed references (no artifacts), SIR and SDR returned are equal and both choices are equally good. With one estimate the SDR returned is the same (no clamp).", "quantifier": "all signals, lengths, numbers of channels, filter lengths, both back ends, any optimal assignment solver", "why_tests_cant": "the difference shows only for particular correlated signals; an optimum over all pairs of choices cannot be sampled", "anchors": ["fast_bss_eval/numpy/metrics.py:sdr", "fast_bss_eval/torch/metrics.py:sdr", "fast_bss_eval/numpy/metrics.py:bss_eval_sources", "fast_bss_eval/torch/metrics.py:bss_eval_sources", "fast_bss_eval/numpy/helpers.py:_solve_permutation", "fast_bss_eval/torch/helpers.py:_solve_permutation"]}
{"id": "C90", "title": "Recordings without samples", "statement": "With more than one tap, references without samples and estimates with at most one raise ValueError (the logarithm of the transform size), in all five entry points. Otherwise estimates without samples give what silent estimates of any length up to that of the references give. References without samples are a singular system: LinAlgError with the direct solver, the worst value for every pair with load_diag or use_cg_iter, and bss_eval_sources raises always. With one tap, arrays without samples give the worst value for every pair (NaN SIR without permutation), and lengths 0 and at least 2 together raise the error of the shapes.", "quantifier": "all numbers of channels, lengths, filter lengths and options, both back ends", "why_tests_cant": "degenerate shapes are not in the tests, and the outcome depends on the filter length, the other length, the solver and load_diag together", "anchors": ["fast_bss_eval/numpy/metrics.py:compute_stats", "fast_bss_eval/torch/metrics.py:compute_stats", "fast_bss_eval/numpy/metrics.py:compute_stats_2", "fast_bss_eval/torch/metrics.py:compute_stats_2", "fast_bss_eval/numpy/metrics.py:sdr_loss", "fast_bss_eval/torch/metrics.py:sdr_loss", "fast_bss_eval/numpy/metrics.py:bss_eval_sources", "fast_bss_eval/torch/metrics.py:bss_eval_sources", "fast_bss_eval/numpy/metrics.py:square_cosine_metrics_length_one_filter", "fast_bss_eval/torch/metrics.py:square_cosine_metrics_length_one_filter"]}
{"id": "C91", "title": "Any integer for filter_length and use_cg_iter, and filter_length=None", "statement": "filter_length=None is the length of the references for the SDR, while bss_eval_sources raises. filter_length=0 raises in all entry points. filter_length=-j with 0 < j < n_fft-1 is silently the SDR with n_fft-j taps, while bss_eval_sources raises unless 2j = n_fft, where it is the computation with j taps; j >= n_fft raises. use_cg_iter <= 0 runs no iteration: every pair has the worst SDR, bss_eval_sources raises (the SIR is 0/0), and without permutation the SIR is NaN.", "quantifier": "all recordings, integers, options, both back ends", "why_tests_cant": "None and negative values are accepted without a check and meet Python slices from the end; no test uses them", "anchors": ["fast_bss_eval/numpy/metrics.py:compute_stats", "fast_bss_eval/torch/metrics.py:compute_stats", "fast_bss_eval/numpy/metrics.py:compute_stats_2", "fast_bss_eval/torch/metrics.py:compute_stats_2", "fast_bss_eval/numpy/metrics.py:sdr_loss", "fast_bss_eval/torch/metrics.py:sdr_loss", "fast_bss_eval/numpy/metrics.py:square_cosine_metrics", "fast_bss_eval/torch/metrics.py:square_cosine_metrics", "fast_bss_eval/numpy/metrics.py:bss_eval_sources", "fast_bss_eval/torch/metrics.py:bss_eval_sources", "fast_bss_eval/numpy/linalg.py:toeplitz", "fast_bss_eval/torch/linalg.py:toeplitz", "fast_bss_eval/numpy/cgd.py:conjugate_gradient", "fast_bss_eval/torch/cgd.py:conjugate_gradient"]}
{"id": "C92", "title": "Negative load_diag", "statement": "With the direct solver the SDR loss raises exactly when minus load_diag is an eigenvalue of the autocorrelation matrix of a normalised reference. A load below minus the number of taps never raises and gives every finite pair the worst SDR; below minus taps times references the same for the SAR. While the loaded system stays positive the loss increases with the load, so a small negative load raises the SDR; for a reference with orthonormal delays the coherence is divided by 1 + load, so a load of -1/2 turns 0 dB into +inf dB and -1 raises.", "quantifier": "all recordings, all real loads, all filter lengths up to the longer recording, both back ends", "why_tests_cant": "load_diag is not checked for its sign, and tests use positive loads or none", "anchors": ["fast_bss_eval/numpy/metrics.py:sdr_loss", "fast_bss_eval/torch/metrics.py:sdr_loss", "fast_bss_eval/numpy/metrics.py:square_cosine_metrics", "fast_bss_eval/torch/metrics.py:square_cosine_metrics"]}
{"id": "C93", "title": "Time reversal", "statement": "Playing all recordings backwards and delaying the estimates to the end of the longest filtered reference (by filter_length - 1 samples for recordings of equal length) leaves the pairwise SDR losses, the result of sdr and that of bss_eval_sources unchanged, exceptions and NaN included. Without the delay a perfect estimate can become the worst.", "quantifier": "all recordings not longer than the filtered references, filter lengths of 2 up to the longer recording, any load and clamp, both back ends, direct solver", "why_tests_cant": "tests run forward signals only, and the causal filters of the metric make plain reversal wrong", "anchors": ["fast_bss_eval/numpy/metrics.py:sdr_loss", "fast_bss_eval/torch/metrics.py:sdr_loss", "fast_bss_eval/numpy/metrics.py:square_cosine_metrics", "fast_bss_eval/torch/metrics.py:square_cosine_metrics", "fast_bss_eval/numpy/metrics.py:sdr", "fast_bss_eval/numpy/metrics.py:bss_eval_sources"]}
{"id": "C94", "title": "Rounding error with mean removal", "statement": "With filter_length=1 and zero_mean=True, the coherence computed in binary64 or binary32 differs from the exact one by at most (8h + 41 + (5h + 9) (r + e)) u, where h is the depth of the sums, u the unit roundoff, and r, e the ratios of the norms of the reference and the estimate before and after mean removal (1 for signals without mean). The ratio is needed: for the reference [2^53, 2^53 + 2] and the estimate [1, -1], a perfect one, binary64 gives a coherence of about 1/2.", "quantifier": "all signals up to 2^46 (binary64) or 2^17 (binary32) samples, every order of the additions, every rule for ties, with or without fused multiply-add", "why_tests_cant": "rounding depends on the data, the order of the sums and the machine; tests compare a few random signals without large offsets", "anchors": ["fast_bss_eval/numpy/helpers.py:_remove_mean", "fast_bss_eval/torch/helpers.py:_remove_mean", "fast_bss_eval/numpy/helpers.py:_normalize", "fast_bss_eval/numpy/metrics.py:square_cosine_metrics_length_one_filter", "fast_bss_eval/torch/metrics.py:square_cosine_metrics_length_one_filter"]}
{"id": "C95", "title": "Overflow of the norm", "statement": "With filter_length=1 and zero_mean=False, while the norms of the reference and of the estimate are at most 2^511 (binary64) or 2^63 (binary32) nothing overflows and the error bound of C59 holds. One sample of magnitude 2^512 (binary64) or 2^64 (binary32) or more in either signal makes its norm infinite: _normalize returns zeros, the coherence is 0 and the loss is +inf, or the clamp value, without any NaN, even if estimate and reference are equal. So the code is not scale invariant for such signals.", "quantifier": "all signals from 2 up to 2^46 (binary64) or 2^17 (binary32) samples, every order of the additions, every rule for ties, with or without fused multiply-add", "why_tests_cant": "tests use signals of ordinary size, and the failure is silent: a finite clamped value", "anchors": ["fast_bss_eval/numpy/helpers.py:_normalize", "fast_bss_eval/torch/helpers.py:_normalize", "fast_bss_eval/numpy/metrics.py:square_cosine_metrics_length_one_filter", "fast_bss_eval/torch/metrics.py:square_cosine_metrics_length_one_filter"]}
{"id": "C96", "title": "The SDR and plain signal to noise ratios", "statement": "Without loading, clamping and iterative solver: for every FIR-filtered reference s (filter_length taps, for example the reference itself) taken as target, the SDR as a power ratio is at least the plain signal to noise ratio |s|^2 / |estimate - s|^2 minus one; some filtered reference reaches this bound. In decibels the SDR is at most 10 log10(k/(k-1)) below a signal to noise ratio of k or more. One plus the SDR is the energy of the estimate over the least error of a filtered reference. The same holds for the SAR with filters on all references. The SDR itself can be below the plain ratio: reference [1, 1], estimate [1, 0], one tap: 0 dB against 3 dB.", "quantifier": "all finite signals whose norms reach 1e-6, all filters", "why_tests_cant": "relates the returned value to every possible filter; tests compare with another implementation on random signals", "anchors": ["fast_bss_eval/numpy/metrics.py:sdr_loss", "fast_bss_eval/numpy/metrics.py:pairwise_sdr_loss", "fast_bss_eval/numpy/metrics.py:square_cosine_metrics", "fast_bss_eval/torch/metrics.py:sdr_loss", "fast_bss_eval/torch/metrics.py:pairwise_sdr_loss", "fast_bss_eval/torch/metrics.py:square_cosine_metrics"]}
{"id": "C97", "title": "FFT size with a rounded logarithm", "statement": "n_fft = 2 ** ceil(log2(m)) is the least power of two that is at least m, for every m up to 2^45, if math.log2 is exact at powers of two and off by at most 2^-46 elsewhere, in particular if it is correctly rounded in binary64. It is wrong for m = 2^49 + 1, where the correctly rounded logarithm is 49: the FFT is one point too short.", "quantifier": "all lengths with m = n_ref + max(n_ref, n_est) - 1 up to 2^45, all logarithms within that error", "why_tests_cant": "a logarithm rounded to an integer would silently alias; no test can use such lengths", "anchors": ["fast_bss_eval/numpy/metrics.py:compute_stats", "fast_bss_eval/numpy/metrics.py:compute_stats_2", "fast_bss_eval/torch/metrics.py:compute_stats", "fast_bss_eval/torch/metrics.py:compute_stats_2"]}
{"id": "C98", "title": "How references share an estimate and estimates a reference", "statement": "Call 1 / (1 + 10^(-SDR/10)) the share of an SDR. Without loading, clamping and iterative solver: if the references are orthogonal under all delays of the filter, the shares of one estimate over all references sum to at most one, so at most one reference has a positive SDR, and the sum is exactly the share of the SAR. If the estimates are mutually orthogonal, the shares of one reference over all estimates sum to at most filter_length (the shares of the SARs to filter_length times the number of references). Both fail otherwise: the same reference twice; an impulse and its delayed copy with two taps.", "quantifier": "all finite signals whose norms reach 1e-6, any number of references and estimates", "why_tests_cant": "Bessel's inequality over all signals; tests look at single values", "anchors": ["fast_bss_eval/numpy/metrics.py:pairwise_sdr_loss", "fast_bss_eval/numpy/metrics.py:sdr_loss", "fast_bss_eval/numpy/metrics.py:square_cosine_metrics", "fast_bss_eval/torch/metrics.py:pairwise_sdr_loss", "fast_bss_eval/torch/metrics.py:sdr_loss", "fast_bss_eval/torch/metrics.py:square_cosine_metrics"]}
{"id": "C99", "title": "Error of the statistics and of the SDR from the error of the FFT", "statement": "If rfft and irfft have a relative error of at most u in the 2-norm, and the products of spectra a relative error of at most v, then each computed lag of the correlations differs from the correlation by at most e = 2u + u^2 + v(1+u)^2 + sqrt(n_fft) u (1+v)(1+u)^2 times the norms of the two signals. A program with such transforms, whose solver leaves a residual rho, returns a coherence that differs from the exact one by at most gam + e S + (e + rho + (e + tau) S) sqrt(L / load_diag), where S is the sum of the absolute taps, tau the error of adding the load, gam the error of the last sum. For u and v up to 2^-46 and FFTs up to 2^24 points e is at most 2^-33.", "quantifier": "all transforms and products within those errors, all finite signals, all sizes", "why_tests_cant": "the error of an FFT depends on its algorithm and size; tests compare with tolerances for one implementation", "anchors": ["fast_bss_eval/numpy/metrics.py:compute_stats", "fast_bss_eval/torch/metrics.py:compute_stats", "fast_bss_eval/numpy/metrics.py:pairwise_sdr_loss", "fast_bss_eval/torch/metrics.py:pairwise_sdr_loss"]}
{"id": "C100", "title": "Error of the system of all references and of the SAR from the error of the FFT", "statement": "With the transforms and products of C99, both ends of the correlation of two references differ from the correlations at positive and negative lags by at most e times their norms, the matrix that block_toeplitz makes of the normalised references differs from the inner products of the delayed references (plus load on the diagonal) by at most e, and a program with such statistics, whose solver leaves a residual rho, returns a SAR coherence that differs from the exact one by at most gam + e S + (e + rho + (e + tau) S) sqrt(L n_ref / load_diag).", "quantifier": "all transforms and products within those errors, all finite signals, any number of references, all sizes", "why_tests_cant": "as C99, for the multichannel system", "anchors": ["fast_bss_eval/numpy/metrics.py:compute_stats_2", "fast_bss_eval/torch/metrics.py:compute_stats_2", "fast_bss_eval/numpy/metrics.py:square_cosine_metrics", "fast_bss_eval/torch/metrics.py:square_cosine_metrics"]}
{"id": "C101", "title": "A priori bound of the error of the coherences", "statement": "Let lam bound from below the energy of the filtered reference (plus load_diag) per unit of energy of the filter; load_diag itself is such a bound. If the cross-correlations have errors up to delta, the system errors up to eta with eta L <= lam / 4, and the solver leaves a residual rho with (delta + rho) sqrt(L / lam) <= 1/2, then the absolute taps of the computed filter sum to at most 2 sqrt(L / lam) and the coherence is off by at most gam + (3 delta + rho) sqrt(L / lam) + 2 eta L / lam. The same for the SAR with L n_ref in the place of L, and with delta and eta from the errors of the transforms. With the clamp epsilon eps of clamp_db the returned decibels are off by at most 10 / (ln 10 eps (1 - eps)) times that.", "quantifier": "all finite signals, all sizes, all programs with errors of those sizes", "why_tests_cant": "the bound holds for every implementation of the FFT and of the solver", "anchors": ["fast_bss_eval/numpy/metrics.py:compute_stats", "fast_bss_eval/torch/metrics.py:compute_stats", "fast_bss_eval/numpy/metrics.py:pairwise_sdr_loss", "fast_bss_eval/torch/metrics.py:pairwise_sdr_loss", "fast_bss_eval/numpy/metrics.py:square_cosine_metrics", "fast_bss_eval/torch/metrics.py:square_cosine_metrics"]}
{"id": "C102", "title": "Error of the SDR from the error of the normalisation and of the FFT", "statement": "If the signal before the normalisation has an error d in the 2-norm (as after an inexact mean removal), its norm is computed with a relative error del and the divisions with a relative error r, then the normalised signal has an error of at most w = 2 d / max(norm, 1e-6) + (1 + r) / (1 - del) - 1. From signals with an error w, and with the transforms and products of C99, the computed correlations differ from those of the exactly normalised signals by at most e (1 + w)^2 + w (2 + w), and the a priori bound of C101 for the SDR coherence holds with this error in the place of e.", "quantifier": "all transforms, products and normalisations within those errors, all finite signals, all sizes", "why_tests_cant": "no finite set of signals covers every norm routine and every FFT", "anchors": ["fast_bss_eval/numpy/helpers.py:_normalize", "fast_bss_eval/torch/helpers.py:_normalize", "fast_bss_eval/numpy/metrics.py:compute_stats", "fast_bss_eval/torch/metrics.py:compute_stats", "fast_bss_eval/numpy/metrics.py:pairwise_sdr_loss", "fast_bss_eval/torch/metrics.py:pairwise_sdr_loss"]}
