#!/usr/bin/env python3
"""Source of /verif/properties.jsonl (kept as a script so the list is easy to edit)."""
import json
P=[]
def p(id,title,statement,quant,why,anchors):
    P.append(dict(id=id,title=title,statement=statement,quantifier=quant,why_tests_cant=why,anchors=anchors))
H="fast_bss_eval/torch/hungarian.py"; TH="fast_bss_eval/torch/helpers.py"; NH="fast_bss_eval/numpy/helpers.py"
NM="fast_bss_eval/numpy/metrics.py"; TM="fast_bss_eval/torch/metrics.py"; NL="fast_bss_eval/numpy/linalg.py"; TL="fast_bss_eval/torch/linalg.py"
NC="fast_bss_eval/numpy/cgd.py"; TC="fast_bss_eval/torch/cgd.py"; SI="fast_bss_eval/numpy/scale_invariant.py"; API="fast_bss_eval/__init__.py"
p("C01","Torch assignment solver is total and optimal",
 "For every rectangular matrix of finite costs the torch linear_sum_assignment terminates without raising and returns min(n,m) pairs (row,col), rows strictly increasing and all columns distinct, whose total cost is minimal among all such complete one-to-one assignments.",
 "all shapes n x m (n<m, n=m, n>m, n or m = 0) and all finite cost matrices, exact arithmetic",
 "the set of matrices and of reachable star/prime/cover configurations is unbounded; tests compare against scipy on random matrices with unique optima",
 [H+":linear_sum_assignment",H+":_step1",H+":_step3",H+":_step4",H+":_step5",H+":_step6"])
p("C02","Torch assignment solver terminates with a complete matching even with rounding",
 "When every subtraction/addition is rounded to floating point (any precision, any monotone rounding, no overflow) the torch linear_sum_assignment still terminates within a bound depending only on the shape, never raises, and returns a complete one-to-one assignment.",
 "all shapes and all matrices of representable numbers, all rounding modes/precisions",
 "an infinite loop caused by rounding (cf. changelog 0.1.1) may need a very particular matrix",
 [H+":_step1",H+":_step6"])
p("C03","NaN costs are rejected, not looped on",
 "If any entry of the cost matrix is NaN the assignment step raises ValueError (numpy and torch) (and in no other way), whatever the other entries.",
 "all matrices containing at least one NaN at any position",
 "position and company of the NaN is unbounded",[H+":linear_sum_assignment",TH+":_linear_sum_assignment_with_inf",NH+":_linear_sum_assignment_with_inf"])
p("C04","+inf losses are avoided as much as possible, then the finite part is optimal",
 "When the loss matrix contains +inf (and no -inf, no NaN) entries and at least one finite entry, the assignment used by sdr/bss_eval_sources uses the minimum possible number of +inf entries among complete assignments and, among those, one minimising the sum of the finite entries.",
 "all shapes, all placements of +inf, all finite values","depends on the placeholder constant dominating every possible finite sum",
 [NH+":_linear_sum_assignment_with_inf",TH+":_linear_sum_assignment_with_inf"])
p("C05","-inf losses (perfect matches) are used as much as possible, then the finite part is optimal",
 "When the loss matrix contains -inf (and no +inf, no NaN) entries and at least one finite entry, the assignment uses the maximum possible number of -inf entries among complete assignments and, among those, minimises the sum of the finite entries.",
 "all shapes, all placements of -inf, all finite values","depends on the placeholder constant dominating every possible finite sum",
 [NH+":_linear_sum_assignment_with_inf",TH+":_linear_sum_assignment_with_inf"])
p("C06","Infinite losses that cannot be handled raise",
 "A loss matrix with both +inf and -inf raises ValueError; a non-empty loss matrix with only infinite entries raises as well. Consequently si_sdr/sdr without clamp_db is NOT total: a perfect single-channel estimate raises instead of returning +inf, and a perfect pair next to an exactly orthogonal pair raises.",
 "all matrices of these two kinds; existence of concrete finite signals reaching them","tests never use exactly perfect or exactly orthogonal signals",
 [NH+":_linear_sum_assignment_with_inf",TH+":_linear_sum_assignment_with_inf",NM+":sdr"])
p("C07","Outputs are read from the loss matrix at the returned permutation",
 "Whenever sdr(return_perm=True) returns, there are min(n_ref,n_est) values; perm has pairwise distinct in-range entries; and value i is the (unmodified, possibly infinite) negated pairwise loss of pair (ref i, est perm[i]) when n_ref <= n_est, of pair (ref perm[i], est i) when n_ref > n_est.",
 "all inputs, channel counts and options","rectangular cases and infinite entries are combinatorial",
 [NH+":_solve_permutation",TH+":_solve_permutation",NM+":sdr"])
p("C08","sdr picks the assignment with the best total SDR",
 "For finite pairwise SDRs, the sum of the SDRs returned by sdr() is >= the sum over any other one-to-one assignment of min(n_ref,n_est) pairs; in particular sum(sdr_pit_loss) <= sum(sdr_loss) for equal channel counts.",
 "all signals and all competing assignments, any channel count","number of assignments is factorial",
 [NM+":sdr",TM+":sdr",NH+":_solve_permutation"])
p("C09","bss_eval_sources picks the assignment with the best total SIR and applies it to all three metrics",
 "For finite pairwise SIRs, the assignment used by bss_eval_sources(compute_permutation=True) maximises the sum of SIRs over all one-to-one assignments, and sdr, sir and sar returned at position i belong to the same (ref,est) pair given by perm.",
 "all signals, all competing assignments","factorial; selection by SIR differs from selection by SDR",
 [NM+":bss_eval_sources",NH+":_solve_permutation"])
p("C10","perm maps references to estimates, not estimates to references",
 "With n_ref <= n_est, perm[i] is the index of the estimate matched with reference i. The documented reading (perm[i] is the reference matching estimate i) is false for non-involutive permutations.",
 "all inputs (positive part); existence of a counterexample (negative part)","requires a permutation of order >= 3",
 [NM+":sdr",API+":sdr",API+":bss_eval_sources"])
p("C11","Batch items are independent",
 "For any batch shape, the permutation-solving loop gives at every multi-index exactly the result of solving that batch item alone; it raises iff some item raises.",
 "all batch shapes (any number of dims), all items","unbounded shapes", [NH+":_solve_permutation",TH+":_solve_permutation"])
p("C12","clamp_db bounds every returned dB value",
 "With clamp_db = D >= 0, every non-NaN value returned by the decibel conversion lies in [-D, D], and the bounds are attained.",
 "all coherence values including infinities and values outside [0,1], all D >= 0","continuum of inputs",
 [NH+":_db_clamp_eps",NH+":_coherence_to_neg_sdr",TH+":_coherence_to_neg_sdr"])
p("C13","clamp_db is exactly saturation of the unclamped value",
 "The value with clamp_db = D >= 0 equals min(D, max(-D, v)) where v is the value without clamp_db.",
 "all non-NaN coherences, all D >= 0","continuum of inputs",[NH+":_coherence_to_neg_sdr"])
p("C14","The dB mapping is strictly monotone on [0,1] and never creates NaN",
 "Without clamping, a larger coherence in [0,1] gives a strictly smaller negative SDR (with -inf/+inf at the ends), values outside [0,1] give the end values, and the result is NaN only if the coherence is NaN.",
 "all pairs of coherence values","continuum of inputs; cf. issue #5",[NH+":_coherence_to_neg_sdr",TH+":_coherence_to_neg_sdr"])
p("C15","FFT statistics equal time-domain correlations when the filter is not longer than the signals",
 "For filter_length <= max(n_samples_ref, n_samples_est) the auto/cross-correlations used for the metrics equal the plain (zero-padded, non-circular) correlations sum_t x[t] y[t+l] for every lag used.",
 "all signal lengths, contents and filter lengths within the bound","circular wrap-around only shows for particular length combinations",
 [NM+":compute_stats",NM+":compute_stats_2"])
p("C16","Too long filters silently alias",
 "For filter_length larger than the signal, the correlations used can differ from the true correlations (wrap-around): there are finite signals where a lag that must be zero is not.",
 "existence","tests always use signals much longer than the filter",[NM+":compute_stats"])
p("C17","The system matrices are Gram matrices of shifted references",
 "For filter_length L <= n_samples the matrix solved for SDR is A_k^T A_k and the one solved for SIR/SAR is A^T A where A_k contains the L shifts of (zero padded) reference k and A=[A_1..A_K] in lag-major order, and right-hand sides are A^T est.",
 "all channel counts, lengths, contents","index bookkeeping over unbounded shapes",[NL+":toeplitz",NL+":block_toeplitz",NL+":hankel_view",NM+":compute_stats_2"])
p("C18","SDR equals its definition by orthogonal projection",
 "With the direct solver, no load_diag, no clamp, 1 <= L <= n_samples, and signals of norm >= 1e-6, the pairwise loss of (ref k, est m) is 10 log10(||e - P e||^2/||P e||^2) where P e is the orthogonal projection of the zero-padded estimate on the span of the L shifts of the reference (with +/-inf when a numerator/denominator vanishes).",
 "all finite signals, lengths, filter lengths","real-valued inputs, unbounded sizes",[NM+":sdr_loss",API])
p("C19","SIR and SAR equal their definitions by orthogonal projection",
 "Under the same conditions, and when the system matrix of all references is invertible, the SIR and SAR of bss_eval_sources are the energy ratios ||P_k e||^2/||P e - P_k e||^2 and ||P e||^2/||e - P e||^2 in dB.",
 "all finite signals, number of channels, lengths","real-valued inputs, unbounded sizes",[NM+":square_cosine_metrics",NM+":_base_metrics_bss_eval",API])
p("C20","Coherences are in [0,1]",
 "With the direct solver and any load_diag >= 0 the quantities converted to SDR and SAR lie in [0,1] (so no NaN arises from them).",
 "all finite signals (including zero and tiny ones) for which the solve succeeds","real-valued inputs",[NM+":sdr_loss",NM+":square_cosine_metrics"])
p("C21","SDR <= SAR and SDR <= SIR",
 "For filter_length >= 2 (any load_diag >= 0) or no load_diag, direct solver: every pairwise SDR is <= the SAR of that estimate and <= the SIR of that pair.",
 "all finite signals","real-valued inputs",[NM+":square_cosine_metrics",NM+":_base_metrics_bss_eval"])
p("C22","Singular-system errors happen exactly for silent references without load_diag",
 "For 1 < L <= n_samples and the direct solver, sdr_loss on finite signals raises LinAlgError iff some reference is identically zero and load_diag is None (or 0); with load_diag > 0 it never raises.",
 "all finite signals, lengths, load_diag >= 0","needs linear independence of shifts for every nonzero signal",[NM+":sdr_loss",NL+":toeplitz"])
p("C23","Scale invariance",
 "Multiplying any reference or estimate by a nonzero constant leaves every pairwise SDR/SIR/SAR unchanged, as long as norms stay >= 1e-6.",
 "all finite signals, all nonzero factors, all filter lengths, load_diag, CG or direct solver, zero_mean, clamp","continuum of factors",[NH+":_normalize",NM+":sdr_loss",NM+":bss_eval_sources"])
p("C24","Scale invariance fails for signals of norm below 1e-6",
 "There are finite nonzero signals and a factor > 0 for which scaling the estimate changes the SDR.",
 "existence","tests use unit-variance signals",[NH+":_normalize"])
p("C25","zero_mean makes the metrics invariant to DC offsets",
 "With zero_mean=True, adding a constant to all samples of any channel of ref or est does not change the result of any of the functions.",
 "all finite signals, all offsets per channel, all other options","continuum of offsets",[NH+":_remove_mean",NM+":sdr_loss",NM+":bss_eval_sources"])
p("C26","Longer distortion filters never decrease the SDR",
 "For 1 <= L <= L' <= n_samples (direct solver, no load_diag, norms >= 1e-6) the pairwise SDR with filter length L' is >= the one with L, including L=1 (the si_ functions).",
 "all finite signals, all L <= L'","real-valued inputs, unbounded lengths",[NM+":sdr_loss",SI+":si_sdr_loss"])
p("C27","Filtered references are perfect estimates",
 "If an estimate is exactly a filtering of the reference by some filter of length <= L (without truncation) then its SDR is +inf without clamp and clamp_db with it; and conversely +inf only happens in this case.",
 "all filters, signals, lengths","real-valued inputs",[NM+":sdr_loss"])
p("C28","The length-one fast path agrees with the general method",
 "For filter_length = 1 the fast path returns the same coherence as the general correlation/Toeplitz/solve method would for a reference of norm >= 1e-6.",
 "all finite signals with reference norm >= 1e-6","real-valued inputs",[NM+":square_cosine_metrics_length_one_filter",NM+":sdr_loss"])
p("C29","load_diag is ignored by the SDR when filter_length = 1",
 "sdr_loss/sdr with filter_length=1 return the same result for every load_diag; bss_eval_sources with filter_length=1 regularises SAR only, so SDR <= SAR can be violated there.",
 "all inputs; existence for the violation","option interaction not tested",[NM+":sdr_loss",NM+":square_cosine_metrics_length_one_filter"])
p("C30","Non-pairwise loss is the diagonal of the pairwise loss",
 "For equal channel counts, sdr_loss(pairwise=False)[i] = sdr_loss(pairwise=True)[i][i]; for incompatible channel counts (different and none equal to 1) the non-pairwise form raises; bss_eval_sources(compute_permutation=False) raises AssertionError for any different counts.",
 "all inputs and options","different code paths (einsum strings, solve shapes)",[NM+":sdr_loss",NM+":bss_eval_sources"])
p("C31","Permuting the channels permutes the pairwise metrics",
 "Permuting reference or estimate channels permutes the rows/columns of the pairwise loss, and the optimal total is unchanged.",
 "all permutations","factorial",[NM+":sdr_loss",NM+":sdr"])
p("C32","Silent or orthogonal estimates",
 "A finite estimate orthogonal to all shifts of all references (e.g. silent) gets SDR = -clamp_db (-inf without clamp) from the loss functions, but makes bss_eval_sources(compute_permutation=True) raise ValueError, even with clamp_db (SIR is 0/0).",
 "all such estimates, any number of channels","exact zeros are never tested",[NM+":_base_metrics_bss_eval",NM+":bss_eval_sources"])
p("C33","Loss functions are negated metrics with swapped arguments",
 "sdr_pit_loss(est,ref) = -sdr(ref,est) = sdr(ref,est,change_sign=True) entrywise with identical options; return_perm does not change the values.",
 "all inputs and options","option combinations",[NM+":sdr_pit_loss",NM+":sdr"])
p("C34","si_ functions are the filter_length=1 functions",
 "Every si_ function equals the corresponding function with filter_length=1, for every value of use_cg_iter (and of load_diag for the SDR-only functions).",
 "all inputs and options","option combinations",[SI,API])
p("C35","Backend dispatch",
 "With torch installed, a call uses the torch backend iff its first argument is a torch tensor. Without torch, bss_eval_sources, sdr and sdr_loss use numpy, while sdr_pit_loss and all si_ functions raise AttributeError before computing anything.",
 "all public functions, all argument kinds, torch installed or not","environment combinations",[API+":_dispatch_backend",API])
p("C36","numpy and torch backends agree",
 "For equal inputs and options, and at least 2 effective taps in the block path, the numpy and torch array constructions (Toeplitz, block Toeplitz, circulant preconditioners, circulant embeddings) coincide, so both backends return the same pairwise metrics; the permutations have equal total.",
 "all inputs, lengths","slicing idioms differ (negative steps vs flip) and differ for one tap",[NL,TL,NC,TC])
p("C37","Non-finite samples are reported",
 "If any sample of ref or est is NaN or +/-inf then sdr and bss_eval_sources(compute_permutation=True) raise an error and sdr_loss(pairwise) returns NaN exactly in the rows/columns of the affected channels (or raises LinAlgError).",
 "all positions and kinds of non-finite samples, all other content","test_nan uses one position",[NH+":_normalize",NM+":sdr_loss",H+":linear_sum_assignment"])
p("C38","The FFT Toeplitz operator is the dense Toeplitz matrix",
 "Multiplying by the fast symmetric Toeplitz operator of the iterative solver equals multiplying by the dense matrix T[i,j]=acf[|i-j|] of the direct solver.",
 "all lengths and contents","unbounded sizes",[NC+":SymmetricToeplitzOperator",TC+":SymmetricToeplitzOperator",NL+":toeplitz"])
p("C39","The FFT block-Toeplitz operator is the dense block-Toeplitz matrix",
 "Multiplying by the fast block operator equals multiplying by the dense block_toeplitz matrix.",
 "all tap counts >= 1 (numpy) / >= 2 (torch), channel counts, contents","unbounded sizes; sign-of-lag conventions",[NC+":BlockToeplitzOperator",TC+":BlockToeplitzOperator",NL+":block_toeplitz"])
p("C40","Circulant preconditioner columns are Frobenius-optimal",
 "The circulant matrices built by the preconditioners minimise the Frobenius distance to the (symmetric / non-symmetric) Toeplitz matrix among all circulant matrices.",
 "all sizes, contents and competitors","continuum of competitors",[NC+":optimal_symmetric_circulant_precond_column",NC+":optimal_nonsymmetric_circulant_precond_column"])
p("C41","The iterative solver's residual is always the true residual",
 "After any number of iterations the solver state satisfies r = b - A x, with any preconditioner; 0 iterations return the start vector; an exact start vector is kept for any number of iterations (no division by zero); the intended periodic recomputation of the residual never runs but is not needed.",
 "all iteration counts, operators, right-hand sides","unbounded iterations",[NC+":conjugate_gradient"])
p("C42","Each iteration of the iterative solver does not increase the error",
 "On the SDR system with its circulant preconditioner (A positive semidefinite) the A-norm error functional never increases from one iteration to the next, even when the 1e-6 safeguards are active.",
 "all signals, iteration counts","unbounded iterations",[NC+":conjugate_gradient",NC+":CirculantPreconditionerOperator"])
p("C43","Enough iterations give the direct solution",
 "If the 1e-6 safeguards are not active before convergence, n iterations on an n x n positive definite system give the exact solution, and all further iterations keep it; so sdr_loss with use_cg_iter >= filter_length returns the direct-solver value.",
 "all systems and sizes","unbounded sizes",[NC+":conjugate_gradient",NC+":toeplitz_conjugate_gradient"])
p("C44","Filters longer than the FFT",
 "If filter_length > n_fft > 1 (very short signals), sdr_loss silently uses an effective filter of n_fft taps (same result as filter_length=n_fft), while bss_eval_sources raises. For one-sample signals (n_fft = 1) the sdr_loss part fails, as filter_length=1 takes the fast path.",
 "all such lengths","tests always use long signals",[NM+":compute_stats",NM+":compute_stats_2",NM+":square_cosine_metrics"])
p("C45","The assignment step does not modify the loss matrix",
 "The in-place replacement of infinite losses and the in-place reductions of the Hungarian algorithm act on copies: values returned after permutation solving are the original losses, including infinities.",
 "all matrices","aliasing through views", [NH+":_linear_sum_assignment_with_inf",TH+":_linear_sum_assignment_with_inf",H+":_Hungary"])
p("C46","Output dtype",
 "With default options the floating dtype of the inputs is preserved; with numpy float32 inputs it is not preserved by use_cg_iter or by si_bss_eval_sources(load_diag).",
 "all option combinations, both backends","option combinations",[NM,TM,NC,TC])
p("C47","The dB mapping never creates NaN in IEEE arithmetic",
 "In IEEE-754 binary arithmetic (any correctly rounded format) clamp, 1-coh, division and log10 give a non-NaN result for every non-NaN coherence other than -0.0.",
 "all floats including subnormals, infinities","2^64 inputs; issue #5",[NH+":_coherence_to_neg_sdr",TH+":_coherence_to_neg_sdr"])
p("C48","Diagonal loading never increases the SDR",
 "For L >= 2 and 0 <= l1 <= l2, the pairwise SDR computed with load_diag=l2 is <= the one with l1.",
 "all finite signals and loads","continuum",[NM+":sdr_loss"])
p("C49","sdr and bss_eval_sources agree on SDR",
 "For the same inputs and options with the direct solver and L <= n_samples, the pairwise SDR matrix used by bss_eval_sources equals the pairwise matrix of sdr_loss (for L >= 2, or no load_diag).",
 "all finite signals and options","two separate statistics code paths",[NM+":sdr_loss",NM+":square_cosine_metrics"])
p("C50","Import succeeds/fails by installed packages",
 "Importing the package succeeds when only numpy and scipy are installed, but with torch installed and `packaging` missing the import raises TypeError (except clause with a list).",
 "all combinations of installed packages","environment combinations",["fast_bss_eval/torch/compatibility.py",API])
p("C51","A negative clamp_db silently makes every value equal",
 "With clamp_db = D < 0 the dB conversion does not reject the option: every non-NaN coherence gives the same SDR, D.",
 "all D < 0, all coherences","an invalid option no test uses",
 [NH+":_coherence_to_neg_sdr",TH+":_coherence_to_neg_sdr"])
p("C52","The iterative solver underestimates the SDR",
 "For filter_length <> 1 with use_cg_iter=n, the pairwise coherence lies in [0,2]; when the 1e-6 safeguards stay inactive it is <= 1, at most the direct-solver value, and does not decrease when one more iteration is made.",
 "all finite signals, loads >= 0 and iteration counts","continuum; unbounded iteration count",[NC+":conjugate_gradient",NC+":toeplitz_conjugate_gradient",NM+":sdr_loss"])
p("C53","Exactly when bss_eval_sources has a singular system",
 "With the direct solver, no load and L <= max length, the matrices of bss_eval_sources are computed iff the shifted references are linearly independent, otherwise LinAlgError; in particular it always fails when n_samples + L - 1 < L * n_ref or when two references are equal. With a positive load they are always computed.",
 "all finite references, all lengths","singularity is a measure-zero event in tests",[NM+":square_cosine_metrics",NM+":bss_eval_sources"])
p("C54","The dB mapping with rounding is antitone and accurate",
 "In IEEE-754 arithmetic of any format, for a monotone log10, a larger coherence never gives a larger loss; and with rounding to nearest the computed ratio (1-coh)/coh has relative error at most 2u + u^2 (u the unit roundoff) for every coherence strictly between 0 and 1 whose ratio does not overflow.",
 "all floats, all binary formats","2^64 inputs",["fast_bss_eval/numpy/helpers.py:_coherence_to_neg_sdr","fast_bss_eval/torch/helpers.py:_coherence_to_neg_sdr"])
p("C55","Output shapes with batch axes",
 "For inputs (..., C, T) and (..., D, T) with the same batch axes, the pairwise sdr_loss has shape (..., C, D), the non-pairwise one (..., C) (C = D), sdr (..., min(C,D)), and bss_eval_sources three arrays (..., min(C,D)), for every number of batch axes, filter length (1 <= L <= T for bss_eval_sources) and solver; the documented (..., n_channels_est) fails when n_est > n_ref. The non-pairwise claims exclude numpy 2 (C56).",
 "all shapes, any number of batch axes, both backends and library versions","unbounded number of axes and sizes",[NM+":sdr_loss",NM+":sdr",NM+":bss_eval_sources",TM+":sdr_loss"])
p("C56","Non-pairwise metrics under numpy 2",
 "Under numpy 2, where linalg.solve takes a 1-D right-hand side as a vector only, sdr_loss(pairwise=False) and bss_eval_sources(compute_permutation=False) with the direct solver raise ValueError for every C <> L, and return an (L, L) array when C = L; the iterative solver is not affected, nor are 1-D inputs.",
 "all shapes with 2 <= L <= T","the tests run one numpy version; C = L is never tested",[NM+":sdr_loss",NM+":square_cosine_metrics"])
p("C57","Broadcasting of batch axes",
 "With direct solver, sdr broadcasts the batch axes of references and estimates by the numpy rule and fails exactly when they are incompatible; with use_cg_iter it fails with AssertionError when the estimates have more batch axes than the references; non-pairwise sdr_loss with an extra batch axis on the estimates fails.",
 "all shapes","combinations of shapes",[NM+":sdr",NM+":sdr_loss",NC+":toeplitz_conjugate_gradient"])
p("C58","Wrappers for torch < 1.8",
 "The wrapper rfft equals torch.fft.rfft for all n; the wrapper irfft equals torch.fft.irfft when there are at least n/2+1 frequencies, raises otherwise (padding on the wrong axis), and without n works only for two frequencies; every call made by the package is of the first kind, so statistics, preconditioner and operators are those of torch >= 1.8; einsum_complex is the complex contraction.",
 "all lengths and signals","tests run on one torch version",["fast_bss_eval/torch/compatibility.py:rfft","fast_bss_eval/torch/compatibility.py:irfft","fast_bss_eval/torch/compatibility.py:einsum_complex"])
p("C59","Accuracy of the scale-invariant coherence in floating point",
 "With filter_length=1 and no mean removal, evaluating norm, clamp, division, inner product and square with rounding to nearest (gradual underflow, no overflow), with the sums in any order at most h additions deep and with or without fused multiply-add, gives a coherence within (8h+40)u of the exact one (u = 2^-53 or 2^-24); with clamp_db=D >= 0 the SDR differs by at most 10/(ln10 eps (1-eps)) (8h+40)u dB.",
 "all finite signals up to 2^46 (float64) or 2^17 (float32) samples, all summation orders","continuum; rounding patterns; summation order is a library detail",[NM+":square_cosine_metrics_length_one_filter",NH+":_normalize"])
p("C60","Slope of the dB loss",
 "The derivative of the loss with respect to the coherence is -10/(ln10 c(1-c)): unbounded near 0 and 1 without clamp_db; with clamp_db=D >= 0 the loss is Lipschitz with constant 10/(ln10 eps(1-eps)), eps the clamping level; relative errors th of c and of 1-c change it by at most 10 log10((1+th)/(1-th)) dB.",
 "all coherences and all D >= 0","continuum",[NH+":_coherence_to_neg_sdr",TH+":_coherence_to_neg_sdr"])
p("C61","Near-optimality of the float assignment",
 "The pure torch assignment run on IEEE floats (any format, precision p, costs below 2^e0 with e0+4 below the overflow exponent, (4N^2+2) 2^-p <= 1/2, rounding to nearest even) returns a valid assignment whose exact cost is at most optimum + 4N(4N^2+1) 2^-p D (N = min(n,m), D the spread of the costs); it is exactly optimal for integer costs small enough; exact optimality fails in general (a 2x2 float64 matrix).",
 "all finite cost matrices with the stated bounds (N <= 1000 suffices in float32), all binary formats","2^64 inputs per entry; rounding patterns",["fast_bss_eval/torch/hungarian.py:linear_sum_assignment"])
p("C62","Gradient of the SDR loss",
 "Along any direction h the pairwise loss (direct solver, no load, no clamp) has derivative 20/ln10 (<r,h>/|r|^2 - <p,h>/|p|^2), p the projection of the estimate on the filtered references and r = y - p, when p and r are non-zero and the norm clamp is inactive. With one tap the gradient never vanishes; in general it vanishes iff p restricted to the samples of y is (|p|^2/|y|^2) y, which happens at 3 dB loss for a concrete pair with two taps; but there is no local minimum: adding any amount of the reference with the sign of the correlation strictly lowers the loss.",
 "all finite signals, directions, lengths and filter lengths","continuum; autograd checks sample a few points",[NM+":sdr_loss",TM+":sdr_loss"])
p("C63","Convergence rate of the iterative SDR",
 "If the preconditioned system matrix lies between mu and Lam, k iterations of conjugate_gradient with its safeguards inactive leave at most 2 (1 - sqrt(mu/Lam))^k of the initial squared error (matrix norm); with the safeguards, at most the larger of that and 1e-6/(mu min(1,mu)). So the iterative coherence q of a pair satisfies (1 - 2 (1 - sqrt(mu/Lam))^k) q' <= q <= q' with q' the direct one, or (q - q')^2 <= q' max(...) in all cases. With load_diag = lam >= 1e-3, (L+lam)/lam ln(2/delta) iterations give relative accuracy delta.",
 "all positive definite systems, signals, filter lengths, iteration counts","the rate is a supremum over all systems and all iteration counts",[NC+":conjugate_gradient",NC+":toeplitz_conjugate_gradient",TC+":conjugate_gradient",NM+":sdr_loss"])
p("C64","Which references the iterative bss_eval refuses",
 "With use_cg_iter set and no diagonal loading, bss_eval raises LinAlgError (a singular frequency bin of the block preconditioner) exactly when the references, after mean removal, are linearly dependent as plain signals; with loading it never does. Whenever the direct solver succeeds so does the iterative one. Duplicated references or more references than samples always raise. For signals so short that the direct solver raises, the iterative one returns numbers if the references are independent.",
 "all finite signals, filter lengths 2..max length, iteration counts, both backends","singular bins for adversarial signals; the equivalence is over all filters and all signals",[NC+":BlockCirculantPreconditionerOperator",NC+":block_toeplitz_conjugate_gradient",TC+":block_toeplitz_conjugate_gradient",NM+":square_cosine_metrics"])
p("C65","Accuracy of the iterative bss_eval",
 "With filter_length times n_ref iterations or more and the safeguards never active, bss_eval_sources (with or without permutation) with use_cg_iter returns exactly what the direct solver returns. With any number of iterations the SAR coherence q satisfies (q - q')^2 <= q' (2K-1)^2 for K references, and (q - q')^2 <= q' max(2 (1 - sqrt(mu/Lam))^it (2K-1)^2, 1e-6/(mu min(1,mu))) when the preconditioned block system lies between mu and Lam; with load_diag = lam > 0 one may take sqrt(mu/Lam) = mu = lam/(N+lam), N = filter_length K.",
 "all finite signals, filter lengths, iteration counts","the bound is over all systems and all iteration counts",[NC+":block_toeplitz_conjugate_gradient",TC+":block_toeplitz_conjugate_gradient",NM+":square_cosine_metrics",TM+":square_cosine_metrics"])
p("C66","The iterative bss_eval leaves the range and order of the direct one",
 "With use_cg_iter the SAR coherence need not stay in [0,1] and the returned SDR need not be at most the SIR (both hold for the direct solver, C20, C21): a concrete pair of references with two equal estimates, filter_length 2 and one iteration, gives a SAR coherence above 1 and an SDR of +inf dB beside a finite SIR.",
 "existence of inputs, both backends","needs a reference almost orthogonal to the estimate so that the 1e-6 safeguards act",[NC+":conjugate_gradient",NM+":square_cosine_metrics",NM+":_base_metrics_bss_eval"])
p("C67","SDR, SIR and SAR are tied by one equation",
 "For the direct solver without clamp_db, the three ratios returned for a source satisfy 1 + 1/SDR = (1 + 1/SIR)(1 + 1/SAR) as linear power ratios (infinite values included, with 1/0 = inf): any two determine the third, and the SDR is never more than 10 log10 3 dB below the smaller of SIR and SAR when these are >= 0 dB.",
 "all finite signals, channel counts, filter lengths and loads for which bss_eval_sources returns","continuum of signals; infinite values",[NM+":_base_metrics_bss_eval",TM+":_base_metrics_bss_eval",NM+":bss_eval_sources"])
p("C68","Silence around the recording does not matter",
 "Without mean removal and with filter_length at most the longest signal length, prepending the same number of zeros to references and estimates and appending any numbers of zeros to each (equal numbers for filter_length=1) leaves every output of pairwise_sdr_loss, sdr_loss, sdr, sdr_pit_loss and bss_eval_sources (with or without permutation) unchanged, raised errors included. With zero_mean=True, or filters longer than the signals, it is false.",
 "all signals (NaN and infinities included), solvers, loads, clamps, both backends","all paddings and signals; the FFT size and error conditions change with the length",[NM+":sdr_loss",NM+":bss_eval_sources",TM+":sdr_loss",NM+":compute_stats"])
p("C69","SAR depends on the references only through their span; more references move SIR and SAR one way",
 "Replacing the references by invertible mixtures of themselves leaves the SAR of every estimate unchanged; adding references leaves the SDR of a (reference, estimate) pair unchanged, does not increase its SIR and does not decrease its SAR.",
 "all finite signals, mixtures, channel counts, filter lengths; for the second part all loads >= 0","continuum of signals and mixtures; norms of the references are divided out by the code",[NM+":square_cosine_metrics",TM+":square_cosine_metrics",NM+":_base_metrics_bss_eval"])
p("C70","The reported ratios are those of the BSS Eval decomposition",
 "Each estimate is uniquely s_target + e_interf + e_artif with s_target a filtered version of the matched reference, s_target + e_interf a filtered mixture of all references, e_interf orthogonal to the shifted matched reference and e_artif to all shifted references; the energies add up, and the SDR, SIR and SAR returned are 10 log10 of |s|^2/|i+a|^2, |s|^2/|i|^2 and |s+i|^2/|a|^2.",
 "all finite signals that do not meet the norm clamp, direct solver without load and clamp_db","the code never forms the decomposition, only squared cosines",[NM+":bss_eval_sources",NM+":square_cosine_metrics",TM+":square_cosine_metrics"])
p("C71","Which delays the filter forgives",
 "A copy of the reference delayed by fewer than filter_length samples is a perfect estimate (loss -inf, or -clamp_db); an estimate whose support starts filter_length or more samples after the end of the reference, or ends before the reference starts, gets the worst loss; lengthening the filter by j and delaying the estimate by j never increases the loss; a delay of exactly filter_length or an advance of one sample may cost everything.",
 "all finite signals, delays and filter lengths, no mean removal","all delays; needs both sides of the threshold",[NM+":sdr_loss",TM+":sdr_loss"])
p("C72","Batched arrays give item by item the result of one item",
 "Written literally on whole arrays (broadcasting einsums, stacked solves, preconditioned conjugate gradient on all right-hand sides at once, the permutation loop), sdr_loss, pairwise loss, sdr and bss_eval_sources (with or without permutation) return arrays whose batch axes are the broadcast of those of the inputs and whose item at each batch index is what the same function returns on that pair of items alone; they raise iff some item raises. Hypotheses: the reference has at least as many axes as the estimate when use_cg_iter is set; for the non-pairwise direct solver the right-hand side is recognised as a stack of vectors (not numpy 2). In torch >= 1.8 a filter longer than the FFT is not rejected when filter_length equals the number of channels: square arrays come out.",
 "all finite signals, shapes, numbers of batch axes, broadcasts, filter lengths, solvers, four library versions","all shapes and broadcasts; the stopping of the iteration mixes nothing between items only if each step is columnwise",[NM+":sdr_loss",NM+":square_cosine_metrics",NM+":bss_eval_sources",TM+":sdr_loss",TM+":square_cosine_metrics",NC+":conjugate_gradient",NC+":block_toeplitz_conjugate_gradient",NH+":_solve_permutation"])
p("C73","How far a change of the estimate moves the metrics",
 "Replacing an estimate y by y' changes the square root of the SDR and SAR coherences by at most 2|y-y'|/max(|y|,eps) for the direct solver, whatever the load and the filter length; in decibels, with e = |y-y'|, target t and error r of the estimate, the new SDR, SIR (while e is below the span part) and SAR lie between 20 log10((|t|-e)/(|r|+e)) and 20 log10((|t|+e)/(|r|-e)) whenever those bounds make sense. No such bound exists in the references: two reference sets at arbitrarily small distance give SAR +inf and -inf for the same estimate.",
 "all finite signals and perturbations, direct solver","an inequality over all pairs of signals",[NM+":sdr_loss",NM+":square_cosine_metrics",NM+":bss_eval_sources",TM+":sdr_loss",TM+":square_cosine_metrics"])
p("C74","The scale-invariant metrics depend on inner products only",
 "With filter_length = 1 all metric functions return the same result (or raise alike) on two sets of signals with the same inner products, so they are unchanged when all signals undergo one orthogonal transform (even to another length), and when the samples of all signals are reordered in the same way; with two taps time reversal can turn a perfect SDR into the worst one.",
 "all finite signals, isometries and permutations of the samples","all transforms",[NM+":sdr_loss",NM+":square_cosine_metrics",SI+":si_sdr",SI+":si_bss_eval_sources",TM+":sdr_loss"])
p("C75","Adding estimates of the same source",
 "With filter_length = 1, if two estimates are both positively correlated with a reference then every sum of the first and a nonnegative multiple of the second has an SDR at least as good as the worse of the two; with two taps this fails: two estimates with 0.04 dB each can sum to one with -20 dB.",
 "all finite signals not meeting the norm clamp","all pairs of estimates; the failure needs a chosen pair",[NM+":sdr_loss",TM+":sdr_loss"])
p("C76","Diagonal loading caps the SDR and SAR and its bias vanishes with the load",
 "With load_diag = lambda > 0 the SDR never exceeds 10 log10(L/lambda) and the SAR never exceeds 10 log10(L K/lambda) (K references); the SDR coherence falls short of the unloaded one by at least 0 and at most lambda times the energy of the optimal filter, so it tends to the unloaded value as lambda tends to 0.",
 "all finite signals, filter lengths >= 2 (SDR) or >= 1 (SAR), direct solver","all loads; a limit",[NM+":sdr_loss",NM+":square_cosine_metrics",TM+":sdr_loss",TM+":square_cosine_metrics"])
p("C77","The gradients of the torch losses",
 "For any weights, the backward pass of the torch losses (each operation replaced by its differentiation rule, in reverse) returns for an estimate the gradient of the weighted sum of its losses: finite, and equal to the derivative in every direction, unless the norm is exactly 1e-6, an unclamped loss is infinite or a clamped one is exactly at +-clamp_db. With clamp_db it is finite at every estimate, orthogonal to the estimate, and 0 when all losses are beyond the limits. Without clamp_db (the default) a silent estimate, or an infinite loss with any reference even of weight 0 (an unselected pair of sdr_pit_loss), gives NaN in every sample. k times the estimate gets 1/k times the gradient.",
 "all finite signals, weights, filter lengths, loads, clamps; direct solver; gradient with respect to the estimates","continuum; tests of gradients sample a few points away from the singular ones",[TM+":sdr_loss",TM+":sdr_pit_loss",TM+":square_cosine_metrics_length_one_filter",TH+":_coherence_to_neg_sdr",TH+":_normalize",TH+":_remove_mean"])
p("C78","The gradients of the torch losses with respect to the references",
 "For any weights, the backward pass of the torch losses returns for a reference the gradient of the weighted sum of its losses with all estimates: finite, and equal to the derivative in every direction, unless the norm is exactly 1e-6, an unclamped loss is infinite or a clamped one is exactly at +-clamp_db. If the call succeeds at a reference it succeeds around it. With clamp_db the gradient is finite, orthogonal to the reference, and 0 when all losses are beyond the limits. Without clamp_db an infinite loss with any estimate, even of weight 0, gives NaN in every sample. k times the reference gets 1/k times the gradient. With one tap the gradients of references and estimates are the same function.",
 "all finite signals, weights, filter lengths, loads, clamps for which the call succeeds; direct solver; gradient with respect to the references","continuum; the references enter through the Toeplitz matrix, its inverse and two FFTs, and tests sample a few points",[TM+":sdr_loss",TM+":compute_stats",TM+":square_cosine_metrics_length_one_filter",TL+":toeplitz",TL+":hankel_view",TH+":_coherence_to_neg_sdr",TH+":_normalize",TH+":_remove_mean"])
p("C79","conjugate_gradient called on its own: columns, default iterations, x_true, start",
 "Columns of the right-hand side are solved independently, each with the same number of iterations. When n_iter is omitted that number is the number of columns: that the default solves the system is refuted, a vector gets a single step of steepest descent. n iterations solve a positive definite system exactly if no iterate has a small nonzero residual; then the distances returned with x_true never grow and vanish after n iterations, and the norm of the result grows. x_true changes nothing but adds the list whose entry i is the mean distance of the result of i iterations. A start matrix that solves the system is returned. One column of the right-hand side, the start or x_true stands for as many as the other arrays have. A start vector beside a vector right-hand side raises for the fast operators and is silently broadcast to a wrong result for a matrix.",
 "all sizes, right-hand sides, iteration counts, operators that keep the number of rows","tests call it with matrices of fixed shape and compare with a tolerance; vectors, omitted n_iter and start vectors are not tested",[NC+":conjugate_gradient",TC+":conjugate_gradient",NC+":toeplitz_conjugate_gradient",TC+":toeplitz_conjugate_gradient",NC+":IdentityOperator",NC+":inner_prod"])
p("C80","The gradients of the torch losses through the conjugate gradient",
 "With use_cg_iter set, the backward pass through the iterations (preconditioner, matrix products, clamped divisions, each update) returns for an estimate the derivative, in every direction, of the weighted sum of the losses that the truncated solver reports, unless the norm or a denominator of an iteration is exactly 1e-6, an unclamped loss is infinite or a clamped one is exactly at +-clamp_db. When the iterations reach the solution, also long before the last one, the gradient is exactly that of the direct solver. With clamp_db it is finite at every estimate, orthogonal to it, and 0 when all losses are beyond the limits. Without clamp_db it is NaN iff a coherence is 0 or 1, even of weight 0; silent estimates give NaN. k times the estimate gets 1/k times the gradient.",
 "all finite signals, weights, filter lengths >= 2, iteration counts, loads, clamps; gradient with respect to the estimates","continuum; the backward pass of all iterations is composed by autograd, and tests compare losses, not gradients",[TM+":sdr_loss",TM+":sdr_pit_loss",TC+":conjugate_gradient",TC+":toeplitz_conjugate_gradient",TC+":CirculantPreconditionerOperator",TC+":SymmetricToeplitzOperator",TH+":_coherence_to_neg_sdr",TH+":_normalize"])
p("C81","The gradients of sdr, sdr_pit_loss and sdr_loss",
 "For any weights, the backward pass of torch's sdr and sdr_pit_loss returns the derivative of the weighted outputs in every direction of the space of all estimates, away from the kinks of C77 and C80 and where one assignment only is optimal; around such a point the permutation is constant. At a tie the gradient of sdr_pit_loss with weights 1 still bounds the first-order change of the total loss from above, so minus the gradient descends. With clamp_db the gradient is finite at every estimate and orthogonal to it. Without clamp_db an infinite loss with a reference that is not selected gives NaN in every sample, although all outputs may be finite. The backward pass of the non-pairwise sdr_loss returns the derivative as well, a broadcast estimate collecting all outputs.",
 "all finite signals, numbers of channels (equal or not), weights, filter lengths, iteration counts, loads, clamps; gradient with respect to the estimates","continuum, and the selection changes from point to point; tests compare losses, not gradients",[TM+":sdr",TM+":sdr_pit_loss",TM+":sdr_loss",TH+":_solve_permutation",TH+":_linear_sum_assignment_with_inf",TH+":_coherence_to_neg_sdr"])
p("C82","Signals without channel axis",
 "sdr_loss with pairwise=False accepts arrays of any rank and returns, for each pair of signals that broadcasting makes, the loss of that pair alone; for two signals without channel axis this holds with every library version. All other functions raise when one array has no channel axis, and sdr_loss raises when the axes do not broadcast. For the shapes where the solver does not recognise a stack of vectors (for instance one reference without channel axis and several estimates) the result is an exception, except when the number of channels equals the filter length: then wrong values are returned without notice.",
 "all finite signals, ranks, shapes, library versions, filter lengths, iteration counts, loads, clamps","every rank and every library version; the tests only use two and three axes",[NM+":sdr_loss",TM+":sdr_loss",NM+":compute_stats",NC+":conjugate_gradient",NM+":square_cosine_metrics_length_one_filter"])
p("C83","The gradient of bss_eval_sources",
 "For any weights on SDR, SIR and SAR, with or without permutation, the backward pass of torch's bss_eval_sources returns the derivative of the weighted outputs in every direction of the space of all estimates, away from the kinks (norm at the floor, clamping edges, infinite values, ties between assignments); the outputs that carry no weight need not be differentiable. With clamp_db the gradient is finite and orthogonal to each estimate unless the SIR is in the loss and the SAR coherence of an estimate is 0; in that case (for instance a silent estimate) it is NaN in spite of clamp_db. Without clamp_db an infinite value of a weighted metric gives NaN, with permutation also if the pair is not selected.",
 "all finite signals, numbers of channels (equal or not with permutation), weights, filter lengths, loads, clamps; direct solver; gradient with respect to the estimates","continuum, and the selection changes from point to point; tests compare metrics, not gradients",[TM+":bss_eval_sources",TM+":_base_metrics_bss_eval",TM+":square_cosine_metrics",TM+":square_cosine_metrics_length_one_filter",TH+":_solve_permutation",TH+":_coherence_to_neg_sdr"])
p("C84","bss_eval_sources with one reference",
 "With a single reference and the direct solver the SAR equals the SDR (for filter_length 1 with load_diag they differ by the factor 1+load in the coherence) and the SIR says nothing about the signals: it is +inf, or clamp_db, or NaN for an orthogonal estimate. Consequently bss_eval_sources with compute_permutation and without clamp_db raises for every input with one reference; with clamp_db the selection among several estimates is arbitrary: for every estimate there is a correct assignment solver with which it is selected. Without clamp_db the gradient of a loss with the SIR is NaN.",
 "all finite signals, lengths, numbers of estimates, filter lengths, loads, clamps, both back ends; direct solver","tests use at least two references",[NM+":bss_eval_sources",NM+":square_cosine_metrics",TM+":bss_eval_sources",TM+":square_cosine_metrics",NH+":_solve_permutation",TH+":_solve_permutation"])
p("C85","Errors of the statistics and of the solver",
 "Take any program that follows the steps of sdr_loss or of the SAR with errors: correlations off by at most delta and eta, a filter that leaves a residual of at most rho in the computed system, a final sum off by at most gamma. With load_diag = lambda its coherence differs from that of the exact program by at most gamma + delta S + (delta + rho + eta S) sqrt(K/lambda), K the number of unknowns and S the 1-norm of the computed filter (without load: lambda is any lower bound for the energy of the filtered reference per unit energy of the filter). With clamp_db, errors e of the coherences move every reported value by at most the slope of the clamped dB mapping times e, and the total loss of the assignment selected exceeds the best by at most 2N times that. For bss_eval_sources the same holds with error (e1 + e2)/a for the SIR, e1 and e2 the errors of the SDR and SAR coherences and a a lower bound for the computed SAR coherences.",
 "all finite signals, error sizes, filters, filter lengths 2..n_samples, loads, clamps; both back ends","a statement about every possible rounding; tests see one",[NM+":compute_stats",NM+":sdr_loss",NM+":square_cosine_metrics",TM+":square_cosine_metrics",NH+":_solve_permutation",TH+":_coherence_to_neg_sdr"])
p("C86","Longer filters and loads: SAR and SIR",
 "With more taps, and with less load_diag, the SAR of an estimate never decreases (one tap included). The SIR has no such monotony: from one to two taps it can fall for one channel and rise for another of the same call.",
 "all finite signals, channel counts, filter lengths L <= L', loads >= 0, both back ends; direct solver","continuum; tests use one filter length",[NM+":square_cosine_metrics",TM+":square_cosine_metrics",NM+":bss_eval_sources",TM+":bss_eval_sources"])
p("C87","When the permutation is the expected one",
 "If every reference has an estimate of its own (distinct for distinct references) with a smaller loss than every other estimate, that pairing is the permutation returned; likewise if every estimate has a reference of its own; infinite losses included. If the references stay orthogonal under all delays of the filter, a positive SDR of every estimate with a reference of its own is enough (and it is not for correlated references). If every estimate has its own reference by SDR, bss_eval_sources without clamp_db, which selects by SIR, takes the same pairing.",
 "all loss matrices, all finite signals, channel counts, filter lengths, loads >= 0, both back ends","continuum of signals; ties and infinities",[NH+":_solve_permutation",TH+":_solve_permutation",NM+":sdr",TM+":sdr",NM+":bss_eval_sources",TM+":bss_eval_sources"])
p("C88","Toeplitz matrices as views of memory",
 "hankel_view of an array with any strides and leading axes never points outside the memory of that array, makes no copy, and has entry i + j at (i, j). The results of toeplitz and block_toeplitz lie in memory allocated by the call and every array that existed before keeps its contents; the entries are those of the definition on lists that the metrics are modelled with. The additions of load_diag in place change only lag 0 (of equal channels), and no array of the caller. Whatever the layouts chosen by the library for new arrays.",
 "all memories, strides (non-negative for torch), offsets, leading axes, sizes and layouts of new arrays, both back ends","as_strided reads arbitrary memory for wrong strides or sizes, which a test may not notice; layouts are not under the control of tests",[NL+":hankel_view",TL+":hankel_view",NL+":toeplitz",TL+":toeplitz",NL+":block_toeplitz",TL+":block_toeplitz",NM+":sdr_loss",TM+":sdr_loss",NM+":square_cosine_metrics",TM+":square_cosine_metrics"])
p("C89","Permutations of sdr and of bss_eval_sources",
 "sdr chooses the permutation by SDR and bss_eval_sources by SIR; the permutations may differ (counterexample, the claim that they agree is refuted). Whatever is returned, the total of the SDRs of bss_eval_sources is at most that of sdr and the total of its SIRs at least that of the pairs chosen by sdr. When the estimates are combinations of the delayed references (no artifacts), SIR and SDR returned are equal and both choices are equally good. With one estimate the SDR returned is the same (no clamp).",
 "all signals, lengths, numbers of channels, filter lengths, both back ends, any optimal assignment solver","the difference shows only for particular correlated signals; an optimum over all pairs of choices cannot be sampled",[NM+":sdr",TM+":sdr",NM+":bss_eval_sources",TM+":bss_eval_sources",NH+":_solve_permutation",TH+":_solve_permutation"])
p("C90","Recordings without samples",
 "With more than one tap, references without samples and estimates with at most one raise ValueError (the logarithm of the transform size), in all five entry points. Otherwise estimates without samples give what silent estimates of any length up to that of the references give. References without samples are a singular system: LinAlgError with the direct solver, the worst value for every pair with load_diag or use_cg_iter, and bss_eval_sources raises always. With one tap, arrays without samples give the worst value for every pair (NaN SIR without permutation), and lengths 0 and at least 2 together raise the error of the shapes.",
 "all numbers of channels, lengths, filter lengths and options, both back ends","degenerate shapes are not in the tests, and the outcome depends on the filter length, the other length, the solver and load_diag together",[NM+":compute_stats",TM+":compute_stats",NM+":compute_stats_2",TM+":compute_stats_2",NM+":sdr_loss",TM+":sdr_loss",NM+":bss_eval_sources",TM+":bss_eval_sources",NM+":square_cosine_metrics_length_one_filter",TM+":square_cosine_metrics_length_one_filter"])
p("C91","Any integer for filter_length and use_cg_iter, and filter_length=None",
 "filter_length=None is the length of the references for the SDR, while bss_eval_sources raises. filter_length=0 raises in all entry points. filter_length=-j with 0 < j < n_fft-1 is silently the SDR with n_fft-j taps, while bss_eval_sources raises unless 2j = n_fft, where it is the computation with j taps; j >= n_fft raises. use_cg_iter <= 0 runs no iteration: every pair has the worst SDR, bss_eval_sources raises (the SIR is 0/0), and without permutation the SIR is NaN.",
 "all recordings, integers, options, both back ends","None and negative values are accepted without a check and meet Python slices from the end; no test uses them",[NM+":compute_stats",TM+":compute_stats",NM+":compute_stats_2",TM+":compute_stats_2",NM+":sdr_loss",TM+":sdr_loss",NM+":square_cosine_metrics",TM+":square_cosine_metrics",NM+":bss_eval_sources",TM+":bss_eval_sources",NL+":toeplitz",TL+":toeplitz",NC+":conjugate_gradient",TC+":conjugate_gradient"])
p("C92","Negative load_diag",
 "With the direct solver the SDR loss raises exactly when minus load_diag is an eigenvalue of the autocorrelation matrix of a normalised reference. A load below minus the number of taps never raises and gives every finite pair the worst SDR; below minus taps times references the same for the SAR. While the loaded system stays positive the loss increases with the load, so a small negative load raises the SDR; for a reference with orthonormal delays the coherence is divided by 1 + load, so a load of -1/2 turns 0 dB into +inf dB and -1 raises.",
 "all recordings, all real loads, all filter lengths up to the longer recording, both back ends","load_diag is not checked for its sign, and tests use positive loads or none",[NM+":sdr_loss",TM+":sdr_loss",NM+":square_cosine_metrics",TM+":square_cosine_metrics"])
p("C93","Time reversal",
 "Playing all recordings backwards and delaying the estimates to the end of the longest filtered reference (by filter_length - 1 samples for recordings of equal length) leaves the pairwise SDR losses, the result of sdr and that of bss_eval_sources unchanged, exceptions and NaN included. Without the delay a perfect estimate can become the worst.",
 "all recordings not longer than the filtered references, filter lengths of 2 up to the longer recording, any load and clamp, both back ends, direct solver","tests run forward signals only, and the causal filters of the metric make plain reversal wrong",[NM+":sdr_loss",TM+":sdr_loss",NM+":square_cosine_metrics",TM+":square_cosine_metrics",NM+":sdr",NM+":bss_eval_sources"])
p("C94","Rounding error with mean removal",
 "With filter_length=1 and zero_mean=True, the coherence computed in binary64 or binary32 differs from the exact one by at most (8h + 41 + (5h + 9) (r + e)) u, where h is the depth of the sums, u the unit roundoff, and r, e the ratios of the norms of the reference and the estimate before and after mean removal (1 for signals without mean). The ratio is needed: for the reference [2^53, 2^53 + 2] and the estimate [1, -1], a perfect one, binary64 gives a coherence of about 1/2.",
 "all signals up to 2^46 (binary64) or 2^17 (binary32) samples, every order of the additions, every rule for ties, with or without fused multiply-add","rounding depends on the data, the order of the sums and the machine; tests compare a few random signals without large offsets",[NH+":_remove_mean",TH+":_remove_mean",NH+":_normalize",NM+":square_cosine_metrics_length_one_filter",TM+":square_cosine_metrics_length_one_filter"])
p("C95","Overflow of the norm",
 "With filter_length=1 and zero_mean=False, while the norms of the reference and of the estimate are at most 2^511 (binary64) or 2^63 (binary32) nothing overflows and the error bound of C59 holds. One sample of magnitude 2^512 (binary64) or 2^64 (binary32) or more in either signal makes its norm infinite: _normalize returns zeros, the coherence is 0 and the loss is +inf, or the clamp value, without any NaN, even if estimate and reference are equal. So the code is not scale invariant for such signals.",
 "all signals from 2 up to 2^46 (binary64) or 2^17 (binary32) samples, every order of the additions, every rule for ties, with or without fused multiply-add","tests use signals of ordinary size, and the failure is silent: a finite clamped value",[NH+":_normalize",TH+":_normalize",NM+":square_cosine_metrics_length_one_filter",TM+":square_cosine_metrics_length_one_filter"])
p("C96","The SDR and plain signal to noise ratios",
 "Without loading, clamping and iterative solver: for every FIR-filtered reference s (filter_length taps, for example the reference itself) taken as target, the SDR as a power ratio is at least the plain signal to noise ratio |s|^2 / |estimate - s|^2 minus one; some filtered reference reaches this bound. In decibels the SDR is at most 10 log10(k/(k-1)) below a signal to noise ratio of k or more. One plus the SDR is the energy of the estimate over the least error of a filtered reference. The same holds for the SAR with filters on all references. The SDR itself can be below the plain ratio: reference [1, 1], estimate [1, 0], one tap: 0 dB against 3 dB.",
 "all finite signals whose norms reach 1e-6, all filters","relates the returned value to every possible filter; tests compare with another implementation on random signals",[NM+":sdr_loss",NM+":pairwise_sdr_loss",NM+":square_cosine_metrics",TM+":sdr_loss",TM+":pairwise_sdr_loss",TM+":square_cosine_metrics"])
p("C97","FFT size with a rounded logarithm",
 "n_fft = 2 ** ceil(log2(m)) is the least power of two that is at least m, for every m up to 2^45, if math.log2 is exact at powers of two and off by at most 2^-46 elsewhere, in particular if it is correctly rounded in binary64. It is wrong for m = 2^49 + 1, where the correctly rounded logarithm is 49: the FFT is one point too short.",
 "all lengths with m = n_ref + max(n_ref, n_est) - 1 up to 2^45, all logarithms within that error","a logarithm rounded to an integer would silently alias; no test can use such lengths",[NM+":compute_stats",NM+":compute_stats_2",TM+":compute_stats",TM+":compute_stats_2"])
p("C98","How references share an estimate and estimates a reference",
 "Call 1 / (1 + 10^(-SDR/10)) the share of an SDR. Without loading, clamping and iterative solver: if the references are orthogonal under all delays of the filter, the shares of one estimate over all references sum to at most one, so at most one reference has a positive SDR, and the sum is exactly the share of the SAR. If the estimates are mutually orthogonal, the shares of one reference over all estimates sum to at most filter_length (the shares of the SARs to filter_length times the number of references). Both fail otherwise: the same reference twice; an impulse and its delayed copy with two taps.",
 "all finite signals whose norms reach 1e-6, any number of references and estimates","Bessel's inequality over all signals; tests look at single values",[NM+":pairwise_sdr_loss",NM+":sdr_loss",NM+":square_cosine_metrics",TM+":pairwise_sdr_loss",TM+":sdr_loss",TM+":square_cosine_metrics"])
p("C99","Error of the statistics and of the SDR from the error of the FFT",
 "If rfft and irfft have a relative error of at most u in the 2-norm, and the products of spectra a relative error of at most v, then each computed lag of the correlations differs from the correlation by at most e = 2u + u^2 + v(1+u)^2 + sqrt(n_fft) u (1+v)(1+u)^2 times the norms of the two signals. A program with such transforms, whose solver leaves a residual rho, returns a coherence that differs from the exact one by at most gam + e S + (e + rho + (e + tau) S) sqrt(L / load_diag), where S is the sum of the absolute taps, tau the error of adding the load, gam the error of the last sum. For u and v up to 2^-46 and FFTs up to 2^24 points e is at most 2^-33.",
 "all transforms and products within those errors, all finite signals, all sizes","the error of an FFT depends on its algorithm and size; tests compare with tolerances for one implementation",[NM+":compute_stats",TM+":compute_stats",NM+":pairwise_sdr_loss",TM+":pairwise_sdr_loss"])
p("C100","Error of the system of all references and of the SAR from the error of the FFT",
 "With the transforms and products of C99, both ends of the correlation of two references differ from the correlations at positive and negative lags by at most e times their norms, the matrix that block_toeplitz makes of the normalised references differs from the inner products of the delayed references (plus load on the diagonal) by at most e, and a program with such statistics, whose solver leaves a residual rho, returns a SAR coherence that differs from the exact one by at most gam + e S + (e + rho + (e + tau) S) sqrt(L n_ref / load_diag).",
 "all transforms and products within those errors, all finite signals, any number of references, all sizes","as C99, for the multichannel system",[NM+":compute_stats_2",TM+":compute_stats_2",NM+":square_cosine_metrics",TM+":square_cosine_metrics"])
p("C101","A priori bound of the error of the coherences",
 "Let lam bound from below the energy of the filtered reference (plus load_diag) per unit of energy of the filter; load_diag itself is such a bound. If the cross-correlations have errors up to delta, the system errors up to eta with eta L <= lam / 4, and the solver leaves a residual rho with (delta + rho) sqrt(L / lam) <= 1/2, then the absolute taps of the computed filter sum to at most 2 sqrt(L / lam) and the coherence is off by at most gam + (3 delta + rho) sqrt(L / lam) + 2 eta L / lam. The same for the SAR with L n_ref in the place of L, and with delta and eta from the errors of the transforms. With the clamp epsilon eps of clamp_db the returned decibels are off by at most 10 / (ln 10 eps (1 - eps)) times that.",
 "all finite signals, all sizes, all programs with errors of those sizes","the bound holds for every implementation of the FFT and of the solver",[NM+":compute_stats",TM+":compute_stats",NM+":pairwise_sdr_loss",TM+":pairwise_sdr_loss",NM+":square_cosine_metrics",TM+":square_cosine_metrics"])
p("C102","Error of the SDR from the error of the normalisation and of the FFT",
 "If the signal before the normalisation has an error d in the 2-norm (as after an inexact mean removal), its norm is computed with a relative error del and the divisions with a relative error r, then the normalised signal has an error of at most w = 2 d / max(norm, 1e-6) + (1 + r) / (1 - del) - 1. From signals with an error w, and with the transforms and products of C99, the computed correlations differ from those of the exactly normalised signals by at most e (1 + w)^2 + w (2 + w), and the a priori bound of C101 for the SDR coherence holds with this error in the place of e.",
 "all transforms, products and normalisations within those errors, all finite signals, all sizes","no finite set of signals covers every norm routine and every FFT",[NH+":_normalize",TH+":_normalize",NM+":compute_stats",TM+":compute_stats",NM+":pairwise_sdr_loss",TM+":pairwise_sdr_loss"])
with open("/verif/properties.jsonl","w") as f:
    for x in P: f.write(json.dumps(x)+"\n")
print(len(P))
