{
 "C33": {
  "note": "The model always returns the permutation with the values; return_perm only selects what is handed out and is not a flag of the model."
 },
 "C35": {
  "note": "Decision table of the import and dispatch code; the argument kinds are torch tensor or anything else."
 },
 "C36": {
  "note": "Exception found: sdr_loss non-pairwise with one reference and several estimates raises in torch with the direct solver (C36_one_reference_refuted)."
 },
 "C44": {
  "note": "Exception found: one-sample signals, where n_fft is 1 (C44_one_sample_refuted)."
 },
 "C46": {
  "note": "The programs are run on data types; promotion rules of numpy and torch are part of the model. Half precision is not modelled."
 },
 "C47": {
  "note": "Flocq binary floats; log10 of the C library is a parameter that is NaN only on NaN and below zero. The exception -0.0 is C47_negative_zero_refuted."
 },
 "C55": {
  "note": "Model of shapes only (Shapes.v); einsum, broadcasting and solve shape rules of numpy and torch are part of the model."
 },
 "C56": {
  "note": "Finding: setup.py does not exclude numpy 2. The shape rule of linalg.solve in numpy 2 is part of the model."
 },
 "C57": {
  "note": "Findings: the iterative solver and the non-pairwise loss do not broadcast like the direct pairwise one."
 },
 "C58": {
  "note": "torch.rfft and torch.irfft of torch < 1.8 are external and modelled from their documentation."
 },
 "C59": {
  "note": "Overflow, mean removal (C94) and the rounding of the final logarithm are left out (C54 treats the latter). The FFT paths are not covered."
 },
 "C61": {
  "note": "Costs must be finite floats; the infinite placeholder of the wrapper is C04-C06. Refutation of exact optimality: C61_exactly_optimal_refuted."
 },
 "C62": {
  "note": "Finding: with two or more taps the gradient can vanish at a poor estimate (C62_flat_is_perfect_refuted), but never at a local minimum."
 },
 "C63": {
  "note": "Exact arithmetic. The rate is that of accelerated gradient descent (factor 1 - sqrt(mu/Lam)), which conjugate gradient is shown to beat; the classical Chebyshev constant is about twice as good in the exponent."
 },
 "C64": {
  "note": "Exact arithmetic: singularity is exact. filter_length at most the longest signal length, at least 2 (the branch with the block solver)."
 },
 "C65": {
  "note": "Exact arithmetic. The factor (2K-1)^2 bounds the starting point taken from the single-source solutions; without permutation the start is zero and the factor is q'."
 },
 "C66": {
  "note": "Refutation, by a witness; the estimates lie at an angle of 5e-4 to one reference, below the 1e-6 safeguard of conjugate_gradient."
 },
 "C67": {
  "note": "Exact arithmetic; direct solver. Clamping with clamp_db breaks the equation by design."
 },
 "C68": {
  "note": "Exact arithmetic. Holds for the iterative solver too: the statistics and the FFT-free Toeplitz data are equal. Two refutations delimit the hypotheses."
 },
 "C69": {
  "note": "Exact arithmetic, direct solver. The pairs compared must be matched in both runs for SDR and SIR."
 },
 "C70": {
  "note": "Exact arithmetic, direct solver, no load and no clamp_db. The signals are the ones after mean removal when zero_mean is set."
 },
 "C71": {
  "note": "Exact arithmetic. Two refutations show the thresholds are sharp."
 },
 "C72": {
  "note": "Finite samples, at least one sample per signal; exact arithmetic as in the item model. Finding: C72_long_filter_refuted (torch >= 1.8, compute_permutation=False)."
 },
 "C73": {
  "note": "Exact arithmetic, direct solver. The decibel bounds need no load and no clamp_db and an estimate above the norm clamp. C73_reference_refuted shows the references cannot take the place of the estimate."
 },
 "C74": {
  "note": "Exact arithmetic. The orthogonal transform needs zero_mean off; reordering does not. C74_two_taps_refuted: false for two taps."
 },
 "C75": {
  "note": "Exact arithmetic, norms above the clamp. C75_two_taps_refuted: false for two taps."
 },
 "C76": {
  "note": "Exact arithmetic, direct solver. The load is ignored by the SDR with one tap (C29), hence filter_length >= 2 there."
 },
 "C77": {
  "note": "Exact arithmetic, direct solver, all samples finite. The differentiation rules are those of torch >= 1.8, transcribed in Autograd.v (not in /repo). Gradients through use_cg_iter: C80. Not modelled: gradients of bss_eval_sources. Finding: C77_infinite_loss_nan and C77_silent (default clamp_db=None)."
 },
 "C78": {
  "note": "Exact arithmetic, direct solver, all samples finite, filter_length >= 1. The differentiation rules are those of torch >= 1.8, transcribed in AutogradRef.v (not in /repo). Not modelled: gradients with respect to the references through use_cg_iter, and of bss_eval_sources."
 },
 "C79": {
  "note": "Exact arithmetic, real entries, A of ndim 2. Refuted: the default number of iterations is not the size of the system (C79_default_iterations_refuted), and a start vector is not handled like a vector right-hand side (C79_vector_start_refuted)."
 },
 "C80": {
  "note": "Exact arithmetic, all samples finite, filter_length <> 1. The differentiation rules are those of torch >= 1.8, transcribed in AutogradCg.v (not in /repo). Finding: without clamp_db one coherence equal to 0 or 1 makes the whole gradient NaN (C80_unclamped, C80_silent)."
 },
 "C81": {
  "note": "Exact arithmetic, all samples finite. Finding: C81_unselected_nan (default clamp_db=None): two estimates at 0 dB, each orthogonal to the other reference, give sdr_pit_loss = [0, 0] and a gradient that is NaN everywhere."
 },
 "C82": {
  "note": "Finite samples, exact arithmetic. Finding: C82_filter_length_channels_refuted: sdr_loss([[1,0],[0,1]], [3,4], filter_length=2) gives 6.94 dB for the first estimate, whose loss is 0.56 dB."
 },
 "C83": {
  "note": "Exact arithmetic, all samples finite, direct solver. A reference with non-finite samples makes every gradient NaN in the model (in the code those that do not depend on it stay finite). Finding: C83_orthogonal: a silent or orthogonal estimate makes the gradient of a loss with the SIR NaN even with clamp_db, since the SIR coherence is 0/0 before clamping."
 },
 "C84": {
  "note": "Exact arithmetic: in floating point the two coherences, computed along different paths, need not be bit-equal, and the SIR is then a large finite number or +inf. Finding: for one reference bss_eval_sources cannot select among estimates; without clamp_db it raises (the solver rejects a matrix of infinities)."
 },
 "C85": {
  "note": "The errors are hypotheses; how large they are for a given FFT or LAPACK routine is not modelled. The statement is about the exact dB mapping and assignment (rounding of these: C54, C61)."
 },
 "C86": {
  "note": "Exact arithmetic, direct solver."
 },
 "C87": {
  "note": "Direct solver for the statements about signals; scipy's solver under its contract."
 },
 "C88": {
  "note": "Strides in units of elements; the library is assumed to give new arrays a layout without overlap inside their buffer (good_layout); block_toeplitz with at least four lags (filter length 2 or more)."
 },
 "C89": {
  "note": "Totals are stated for finite decibel values; C89_no_artifacts for the direct solver without load."
 },
 "C90": {
  "note": "Transforms of an empty axis pad it with zeros, as in the model of rfft; warnings of the mean of an empty axis are not modelled."
 },
 "C91": {
  "note": "pairwise SDR loss, sdr and bss_eval_sources; the loss of given pairs (pairwise=False) is not in this model."
 },
 "C92": {
  "note": "Direct solver. No claim on the SIR, a quotient of two coherences that may both be negative."
 },
 "C93": {
  "note": "Exact arithmetic, direct solver. With zero_mean the estimates must already have the full length (otherwise the added silence changes the mean). C93_no_delay_refuted: plain reversal of both fails."
 },
 "C94": {
  "note": "No overflow. Mean = sum divided by the number of samples (a reciprocal multiplication, as some devices do, is not covered). C94_offset_refuted: a large offset destroys the result."
 },
 "C95": {
  "note": "Two samples or more. Norms between the two limits (for example 2^511 to 2^512 in binary64) are left out. No mean removal. C95_large_refuted: scale invariance fails for a perfect estimate."
 },
 "C96": {
  "note": "Exact arithmetic. Stated for the loss matrix (minus SDR) and for the SAR matrix of bss_eval_sources. C96_sdr_above_snr_refuted: the SDR is not always at least the plain ratio."
 },
 "C97": {
  "note": "Replaces the assumption that math.log2 is exact by a bound on its error. math.ceil and the integer power are exact."
 },
 "C98": {
  "note": "Exact arithmetic. C98_correlated_refuted and C98_at_most_one_estimate_refuted show that the hypotheses on the references and the factor filter_length are needed."
 },
 "C99": {
  "note": "The relative 2-norm error of the transforms is a hypothesis (rfft_near, irfft_near) and excludes underflow. The signals are normalised exactly (C102 lifts this). C99_sdr takes any lower bound of the smallest eigenvalue in the place of load_diag."
 },
 "C100": {
  "note": "The relative 2-norm error of the transforms is a hypothesis and excludes underflow. The signals are normalised exactly. A residual of the solver is a hypothesis."
 },
 "C101": {
  "note": "C101_sdr takes any lower bound lam; C101_sar, C101_fft_sdr and C101_fft_sar take lam = load_diag > 0. The residual of the solver is a hypothesis."
 },
 "C102": {
  "note": "The relative errors are hypotheses and exclude underflow. The load is load_diag > 0."
 }
}