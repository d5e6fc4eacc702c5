{
 "claims": [
  {
   "property": "C01",
   "status": "proved",
   "theorems": [
    "C01_hungarian_optimal"
   ],
   "note": ""
  },
  {
   "property": "C02",
   "status": "proved",
   "theorems": [
    "C02_hungarian_rounded",
    "C02_hungarian_ieee"
   ],
   "note": ""
  },
  {
   "property": "C03",
   "status": "proved",
   "theorems": [
    "C03_nan_rejected",
    "C03_nan_rejected_perm"
   ],
   "note": ""
  },
  {
   "property": "C04",
   "status": "proved",
   "theorems": [
    "C04_posinf_avoided"
   ],
   "note": ""
  },
  {
   "property": "C05",
   "status": "proved",
   "theorems": [
    "C05_neginf_used"
   ],
   "note": ""
  },
  {
   "property": "C06",
   "status": "proved",
   "theorems": [
    "C06_both_infinities",
    "C06_all_infinite",
    "C06_domain",
    "C06_mono_perfect_raises",
    "C06_perfect_and_orthogonal_raises"
   ],
   "note": ""
  },
  {
   "property": "C07",
   "status": "proved",
   "theorems": [
    "C07_outputs",
    "C07_sdr_outputs",
    "C07_sdr_values"
   ],
   "note": ""
  },
  {
   "property": "C08",
   "status": "proved",
   "theorems": [
    "C08_optimal_loss",
    "C08_sdr_optimal",
    "C08_pit_not_worse"
   ],
   "note": ""
  },
  {
   "property": "C09",
   "status": "proved",
   "theorems": [
    "C09_bss_outputs",
    "C09_bss_optimal"
   ],
   "note": ""
  },
  {
   "property": "C10",
   "status": "proved",
   "theorems": [
    "C10_documented_direction_refuted"
   ],
   "note": ""
  },
  {
   "property": "C11",
   "status": "proved",
   "theorems": [
    "C11_batch_independent"
   ],
   "note": ""
  },
  {
   "property": "C12",
   "status": "proved",
   "theorems": [
    "C12_clamp_bounds",
    "C12_bounds_attained"
   ],
   "note": ""
  },
  {
   "property": "C13",
   "status": "proved",
   "theorems": [
    "C13_clamp_saturates"
   ],
   "note": ""
  },
  {
   "property": "C14",
   "status": "proved",
   "theorems": [
    "C14_strictly_decreasing",
    "C14_interior",
    "C14_ends",
    "C14_no_nan"
   ],
   "note": ""
  },
  {
   "property": "C15",
   "status": "proved",
   "theorems": [
    "C15_cross_correlation",
    "C15_auto_correlation",
    "C15_between_references"
   ],
   "note": ""
  },
  {
   "property": "C16",
   "status": "proved",
   "theorems": [
    "C16_aliasing_refuted",
    "C16_aliasing_raises"
   ],
   "note": ""
  },
  {
   "property": "C17",
   "status": "proved",
   "theorems": [
    "C17_sdr_system",
    "C17_sdr_rhs",
    "C17_sar_system",
    "C17_sar_rhs",
    "C17_sdr_solution",
    "C17_sar_solution"
   ],
   "note": ""
  },
  {
   "property": "C18",
   "status": "proved",
   "theorems": [
    "C18_sdr_projection"
   ],
   "note": ""
  },
  {
   "property": "C19",
   "status": "proved",
   "theorems": [
    "C19_sir_sar_projection"
   ],
   "note": ""
  },
  {
   "property": "C20",
   "status": "proved",
   "theorems": [
    "C20_sdr_range",
    "C20_sar_range",
    "C20_no_nan"
   ],
   "note": ""
  },
  {
   "property": "C21",
   "status": "proved",
   "theorems": [
    "C21_sdr_lowest",
    "C21_outputs_ordered"
   ],
   "note": ""
  },
  {
   "property": "C22",
   "status": "proved",
   "theorems": [
    "C22_singular_iff",
    "C22_singular_iff_diag",
    "C22_loaded_never_raises"
   ],
   "note": ""
  },
  {
   "property": "C23",
   "status": "proved",
   "theorems": [
    "C23_scale_invariance"
   ],
   "note": ""
  },
  {
   "property": "C24",
   "status": "proved",
   "theorems": [
    "C24_tiny_scale_refuted"
   ],
   "note": ""
  },
  {
   "property": "C25",
   "status": "proved",
   "theorems": [
    "C25_offset_invariance"
   ],
   "note": ""
  },
  {
   "property": "C26",
   "status": "proved",
   "theorems": [
    "C26_longer_filter"
   ],
   "note": ""
  },
  {
   "property": "C27",
   "status": "proved",
   "theorems": [
    "C27_filtered_is_perfect"
   ],
   "note": ""
  },
  {
   "property": "C28",
   "status": "proved",
   "theorems": [
    "C28_fast_path",
    "C28_fast_path_loss"
   ],
   "note": ""
  },
  {
   "property": "C29",
   "status": "proved",
   "theorems": [
    "C29_load_ignored",
    "C29_ordering_refuted"
   ],
   "note": ""
  },
  {
   "property": "C30",
   "status": "proved",
   "theorems": [
    "C30_diagonal",
    "C30_mismatch",
    "C30_bss_mismatch",
    "C30_bss_diagonal"
   ],
   "note": ""
  },
  {
   "property": "C31",
   "status": "proved",
   "theorems": [
    "C31_relabel_loss",
    "C31_relabel_bss",
    "C31_sdr_total",
    "C31_bss_total"
   ],
   "note": ""
  },
  {
   "property": "C32",
   "status": "proved",
   "theorems": [
    "C32_orthogonal_worst",
    "C32_bss_raises",
    "C32_silent_is_orthogonal"
   ],
   "note": ""
  },
  {
   "property": "C33",
   "status": "proved",
   "theorems": [
    "C33_pit_is_negated"
   ],
   "note": "The model always returns the permutation with the values; return_perm only selects what is handed out and is not a flag of the model."
  },
  {
   "property": "C34",
   "status": "proved",
   "theorems": [
    "C34_si_sdr_loss",
    "C34_pairwise_si_sdr_loss",
    "C34_si_sdr",
    "C34_si_sdr_pit_loss",
    "C34_si_bss_eval_sources"
   ],
   "note": ""
  },
  {
   "property": "C35",
   "status": "proved",
   "theorems": [
    "C35_torch_installed",
    "C35_no_torch",
    "C35_old_torch"
   ],
   "note": "Decision table of the import and dispatch code; the argument kinds are torch tensor or anything else."
  },
  {
   "property": "C36",
   "status": "proved",
   "theorems": [
    "C36_arrays",
    "C36_backends_loss",
    "C36_backends_sq_cos",
    "C36_backends_noperm",
    "C36_backends_sdr_loss",
    "C36_one_reference_refuted",
    "C36_backends_sdr",
    "C36_backends_bss"
   ],
   "note": "Exception found: sdr_loss non-pairwise with one reference and several estimates raises in torch with the direct solver (C36_one_reference_refuted)."
  },
  {
   "property": "C37",
   "status": "proved",
   "theorems": [
    "C37_nan_iff_nonfinite",
    "C37_sdr_raises",
    "C37_bss_raises"
   ],
   "note": ""
  },
  {
   "property": "C38",
   "status": "proved",
   "theorems": [
    "C38_toeplitz_operator"
   ],
   "note": ""
  },
  {
   "property": "C39",
   "status": "proved",
   "theorems": [
    "C39_block_operator",
    "C39_block_operator_dense"
   ],
   "note": ""
  },
  {
   "property": "C40",
   "status": "proved",
   "theorems": [
    "C40_symmetric_precond",
    "C40_block_precond"
   ],
   "note": ""
  },
  {
   "property": "C41",
   "status": "proved",
   "theorems": [
    "C41_residual",
    "C41_exact_start",
    "C41_zero_iterations",
    "C41_zero_iterations_block",
    "C41_no_recomputation"
   ],
   "note": ""
  },
  {
   "property": "C42",
   "status": "proved",
   "theorems": [
    "C42_descent",
    "C42_toeplitz_descent",
    "C42_sdr_descent"
   ],
   "note": ""
  },
  {
   "property": "C43",
   "status": "proved",
   "theorems": [
    "C43_terminates",
    "C43_toeplitz_exact",
    "C43_equals_direct"
   ],
   "note": ""
  },
  {
   "property": "C44",
   "status": "proved",
   "theorems": [
    "C44_sdr_truncates",
    "C44_one_sample_refuted",
    "C44_bss_raises"
   ],
   "note": "Exception found: one-sample signals, where n_fft is 1 (C44_one_sample_refuted)."
  },
  {
   "property": "C45",
   "status": "proved",
   "theorems": [
    "C45_inputs_unmodified"
   ],
   "note": ""
  },
  {
   "property": "C46",
   "status": "proved",
   "theorems": [
    "C46_numpy_sdr",
    "C46_numpy_bss",
    "C46_numpy_cg_double",
    "C46_numpy_si_load_double",
    "C46_torch",
    "C46_torch_raises"
   ],
   "note": "The programs are run on data types; promotion rules of numpy and torch are part of the model. Half precision is not modelled."
  },
  {
   "property": "C47",
   "status": "proved",
   "theorems": [
    "C47_no_nan",
    "C47_no_nan_clamped",
    "C47_nan_propagates",
    "C47_negative_zero_refuted"
   ],
   "note": "Flocq binary floats; log10 of the C library is a parameter that is NaN only on NaN and below zero. The exception -0.0 is C47_negative_zero_refuted."
  },
  {
   "property": "C48",
   "status": "proved",
   "theorems": [
    "C48_load_monotone"
   ],
   "note": ""
  },
  {
   "property": "C49",
   "status": "proved",
   "theorems": [
    "C49_sdr_of_bss"
   ],
   "note": ""
  },
  {
   "property": "C50",
   "status": "proved",
   "theorems": [
    "C50_import_iff",
    "C50_packaging_missing",
    "C50_otherwise_import_error",
    "C50_has_torch"
   ],
   "note": ""
  },
  {
   "property": "C51",
   "status": "proved",
   "theorems": [
    "C51_negative_clamp"
   ],
   "note": ""
  },
  {
   "property": "C52",
   "status": "proved",
   "theorems": [
    "C52_cg_range",
    "C52_cg_below_direct",
    "C52_more_iterations"
   ],
   "note": ""
  },
  {
   "property": "C53",
   "status": "proved",
   "theorems": [
    "C53_bss_solvable_iff",
    "C53_too_short",
    "C53_duplicate_reference",
    "C53_loaded_ok"
   ],
   "note": ""
  },
  {
   "property": "C54",
   "status": "proved",
   "theorems": [
    "C54_float_antitone",
    "C54_ratio_error"
   ],
   "note": ""
  },
  {
   "property": "C55",
   "status": "proved",
   "theorems": [
    "C55_loss_shape",
    "C55_sdr_shape",
    "C55_documented_shape_refuted",
    "C55_bss_shape"
   ],
   "note": "Model of shapes only (Shapes.v); einsum, broadcasting and solve shape rules of numpy and torch are part of the model."
  },
  {
   "property": "C56",
   "status": "proved",
   "theorems": [
    "C56_numpy2_raises",
    "C56_numpy2_wrong_shape",
    "C56_one_dimensional"
   ],
   "note": "Finding: setup.py does not exclude numpy 2. The shape rule of linalg.solve in numpy 2 is part of the model."
  },
  {
   "property": "C57",
   "status": "proved",
   "theorems": [
    "C57_batch_broadcast",
    "C57_incompatible",
    "C57_matched_more_axes_raises"
   ],
   "note": "Findings: the iterative solver and the non-pairwise loss do not broadcast like the direct pairwise one."
  },
  {
   "property": "C58",
   "status": "proved",
   "theorems": [
    "C58_rfft",
    "C58_irfft",
    "C58_irfft_raises",
    "C58_wrapper_equivalence_refuted",
    "C58_einsum",
    "C58_statistics",
    "C58_iterative_solver"
   ],
   "note": "torch.rfft and torch.irfft of torch < 1.8 are external and modelled from their documentation."
  },
  {
   "property": "C59",
   "status": "proved",
   "theorems": [
    "C59_binary64",
    "C59_binary32",
    "C59_any_order",
    "C59_decibels"
   ],
   "note": "Overflow, mean removal (C94) and the rounding of the final logarithm are left out (C54 treats the latter). The FFT paths are not covered."
  },
  {
   "property": "C60",
   "status": "proved",
   "theorems": [
    "C60_slope",
    "C60_clamped_lipschitz",
    "C60_unclamped_unbounded",
    "C60_relative_error"
   ],
   "note": ""
  },
  {
   "property": "C61",
   "status": "proved",
   "theorems": [
    "C61_near_optimal",
    "C61_binary32",
    "C61_binary64",
    "C61_integers",
    "C61_exactly_optimal_refuted"
   ],
   "note": "Costs must be finite floats; the infinite placeholder of the wrapper is C04-C06. Refutation of exact optimality: C61_exactly_optimal_refuted."
  },
  {
   "property": "C62",
   "status": "proved",
   "theorems": [
    "C62_derivative",
    "C62_one_tap_never_flat",
    "C62_flat_iff",
    "C62_flat_is_perfect_refuted",
    "C62_no_local_minimum"
   ],
   "note": "Finding: with two or more taps the gradient can vanish at a poor estimate (C62_flat_is_perfect_refuted), but never at a local minimum."
  },
  {
   "property": "C63",
   "status": "proved",
   "theorems": [
    "C63_rate",
    "C63_rate_guarded",
    "C63_toeplitz_rate",
    "C63_sdr_rate",
    "C63_sdr_rate_guarded",
    "C63_iterations",
    "C63_loaded_guarded"
   ],
   "note": "Exact arithmetic. The rate is that of accelerated gradient descent (factor 1 - sqrt(mu/Lam)), which conjugate gradient is shown to beat; the classical Chebyshev constant is about twice as good in the exponent."
  },
  {
   "property": "C64",
   "status": "proved",
   "theorems": [
    "C64_raises_iff",
    "C64_loaded_ok",
    "C64_no_worse_than_direct",
    "C64_duplicate",
    "C64_too_many",
    "C64_short"
   ],
   "note": "Exact arithmetic: singularity is exact. filter_length at most the longest signal length, at least 2 (the branch with the block solver)."
  },
  {
   "property": "C65",
   "status": "proved",
   "theorems": [
    "C65_exact",
    "C65_exact_noperm",
    "C65_sar_bounded",
    "C65_sar_rate",
    "C65_sar_rate_noperm",
    "C65_sar_loaded"
   ],
   "note": "Exact arithmetic. The factor (2K-1)^2 bounds the starting point taken from the single-source solutions; without permutation the start is zero and the factor is q'."
  },
  {
   "property": "C66",
   "status": "proved",
   "theorems": [
    "C66_sar_range_refuted",
    "C66_order_refuted"
   ],
   "note": "Refutation, by a witness; the estimates lie at an angle of 5e-4 to one reference, below the 1e-6 safeguard of conjugate_gradient."
  },
  {
   "property": "C67",
   "status": "proved",
   "theorems": [
    "C67_one_equation",
    "C67_power_form",
    "C67_near_min"
   ],
   "note": "Exact arithmetic; direct solver. Clamping with clamp_db breaks the equation by design."
  },
  {
   "property": "C68",
   "status": "proved",
   "theorems": [
    "C68_silence_sdr",
    "C68_silence_bss",
    "C68_zero_mean_refuted",
    "C68_long_filter_refuted"
   ],
   "note": "Exact arithmetic. Holds for the iterative solver too: the statistics and the FFT-free Toeplitz data are equal. Two refutations delimit the hypotheses."
  },
  {
   "property": "C69",
   "status": "proved",
   "theorems": [
    "C69_remix",
    "C69_remix_coherence",
    "C69_more_references"
   ],
   "note": "Exact arithmetic, direct solver. The pairs compared must be matched in both runs for SDR and SIR."
  },
  {
   "property": "C70",
   "status": "proved",
   "theorems": [
    "C70_decomposition",
    "C70_unique",
    "C70_energies_add"
   ],
   "note": "Exact arithmetic, direct solver, no load and no clamp_db. The signals are the ones after mean removal when zero_mean is set."
  },
  {
   "property": "C71",
   "status": "proved",
   "theorems": [
    "C71_longer_filter_undoes_delay",
    "C71_delayed_copy_perfect",
    "C71_out_of_reach",
    "C71_late_refuted",
    "C71_early_refuted"
   ],
   "note": "Exact arithmetic. Two refutations show the thresholds are sharp."
  },
  {
   "property": "C72",
   "status": "proved",
   "theorems": [
    "C72_pairwise_loss",
    "C72_loss",
    "C72_sdr",
    "C72_bss_eval_sources",
    "C72_bss_noperm",
    "C72_long_filter_refuted"
   ],
   "note": "Finite samples, at least one sample per signal; exact arithmetic as in the item model. Finding: C72_long_filter_refuted (torch >= 1.8, compute_permutation=False)."
  },
  {
   "property": "C73",
   "status": "proved",
   "theorems": [
    "C73_sdr_coherence",
    "C73_sar_coherence",
    "C73_sdr_dB",
    "C73_bss_dB",
    "C73_reference_refuted"
   ],
   "note": "Exact arithmetic, direct solver. The decibel bounds need no load and no clamp_db and an estimate above the norm clamp. C73_reference_refuted shows the references cannot take the place of the estimate."
  },
  {
   "property": "C74",
   "status": "proved",
   "theorems": [
    "C74_inner_products",
    "C74_orthogonal",
    "C74_reordered_samples",
    "C74_two_taps_refuted"
   ],
   "note": "Exact arithmetic. The orthogonal transform needs zero_mean off; reordering does not. C74_two_taps_refuted: false for two taps."
  },
  {
   "property": "C75",
   "status": "proved",
   "theorems": [
    "C75_sum_not_worse",
    "C75_two_taps_refuted"
   ],
   "note": "Exact arithmetic, norms above the clamp. C75_two_taps_refuted: false for two taps."
  },
  {
   "property": "C76",
   "status": "proved",
   "theorems": [
    "C76_sdr_ceiling",
    "C76_sar_ceiling",
    "C76_sdr_bias",
    "C76_sdr_limit"
   ],
   "note": "Exact arithmetic, direct solver. The load is ignored by the SDR with one tap (C29), hence filter_length >= 2 there."
  },
  {
   "property": "C77",
   "status": "proved",
   "theorems": [
    "C77_gradient",
    "C77_finite",
    "C77_infinite_loss_nan",
    "C77_silent",
    "C77_saturated",
    "C77_scale"
   ],
   "note": "Exact arithmetic, direct solver, all samples finite. The differentiation rules are those of torch >= 1.8, transcribed in Autograd.v (not in /repo). Gradients through use_cg_iter: C80. Not modelled: gradients of bss_eval_sources. Finding: C77_infinite_loss_nan and C77_silent (default clamp_db=None)."
  },
  {
   "property": "C78",
   "status": "proved",
   "theorems": [
    "C78_gradient",
    "C78_finite",
    "C78_infinite_loss_nan",
    "C78_saturated",
    "C78_silent",
    "C78_scale",
    "C78_one_tap_symmetric"
   ],
   "note": "Exact arithmetic, direct solver, all samples finite, filter_length >= 1. The differentiation rules are those of torch >= 1.8, transcribed in AutogradRef.v (not in /repo). Not modelled: gradients with respect to the references through use_cg_iter, and of bss_eval_sources."
  },
  {
   "property": "C79",
   "status": "proved",
   "theorems": [
    "C79_columns",
    "C79_vector_default",
    "C79_default_iterations_refuted",
    "C79_exact",
    "C79_errors",
    "C79_errors_vector",
    "C79_errors_decrease",
    "C79_norm_grows",
    "C79_start_kept",
    "C79_vector_start_raises",
    "C79_vector_start_raises_block",
    "C79_vector_start_refuted",
    "C79_toeplitz_columns",
    "C79_one_rhs",
    "C79_one_start",
    "C79_one_true"
   ],
   "note": "Exact arithmetic, real entries, A of ndim 2. Refuted: the default number of iterations is not the size of the system (C79_default_iterations_refuted), and a start vector is not handled like a vector right-hand side (C79_vector_start_refuted)."
  },
  {
   "property": "C80",
   "status": "proved",
   "theorems": [
    "C80_gradient",
    "C80_converged",
    "C80_finite",
    "C80_unclamped",
    "C80_saturated",
    "C80_silent",
    "C80_scale"
   ],
   "note": "Exact arithmetic, all samples finite, filter_length <> 1. The differentiation rules are those of torch >= 1.8, transcribed in AutogradCg.v (not in /repo). Finding: without clamp_db one coherence equal to 0 or 1 makes the whole gradient NaN (C80_unclamped, C80_silent)."
  },
  {
   "property": "C81",
   "status": "proved",
   "theorems": [
    "C81_gradient",
    "C81_descent",
    "C81_finite",
    "C81_unselected_nan",
    "C81_sdr_loss"
   ],
   "note": "Exact arithmetic, all samples finite. Finding: C81_unselected_nan (default clamp_db=None): two estimates at 0 dB, each orthogonal to the other reference, give sdr_pit_loss = [0, 0] and a gradient that is NaN everywhere."
  },
  {
   "property": "C82",
   "status": "proved",
   "theorems": [
    "C82_loss",
    "C82_rejected",
    "C82_mismatch",
    "C82_left_out",
    "C82_filter_length_channels_refuted"
   ],
   "note": "Finite samples, exact arithmetic. Finding: C82_filter_length_channels_refuted: sdr_loss([[1,0],[0,1]], [3,4], filter_length=2) gives 6.94 dB for the first estimate, whose loss is 0.56 dB."
  },
  {
   "property": "C83",
   "status": "proved",
   "theorems": [
    "C83_gradient",
    "C83_noperm",
    "C83_clamped",
    "C83_nan",
    "C83_orthogonal"
   ],
   "note": "Exact arithmetic, all samples finite, direct solver. A reference with non-finite samples makes every gradient NaN in the model (in the code those that do not depend on it stay finite). Finding: C83_orthogonal: a silent or orthogonal estimate makes the gradient of a loss with the SIR NaN even with clamp_db, since the SIR coherence is 0/0 before clamping."
  },
  {
   "property": "C84",
   "status": "proved",
   "theorems": [
    "C84_noperm",
    "C84_raises",
    "C84_clamped",
    "C84_gradient"
   ],
   "note": "Exact arithmetic: in floating point the two coherences, computed along different paths, need not be bit-equal, and the SIR is then a large finite number or +inf. Finding: for one reference bss_eval_sources cannot select among estimates; without clamp_db it raises (the solver rejects a matrix of infinities)."
  },
  {
   "property": "C85",
   "status": "proved",
   "theorems": [
    "C85_sdr",
    "C85_sdr_loaded",
    "C85_sar_loaded",
    "C85_selection",
    "C85_bss_selection"
   ],
   "note": "The errors are hypotheses; how large they are for a given FFT or LAPACK routine is not modelled. The statement is about the exact dB mapping and assignment (rounding of these: C54, C61)."
  },
  {
   "property": "C86",
   "status": "proved",
   "theorems": [
    "C86_sar_monotone",
    "C86_sir_refuted"
   ],
   "note": "Exact arithmetic, direct solver."
  },
  {
   "property": "C87",
   "status": "proved",
   "theorems": [
    "C87_own_estimate",
    "C87_own_reference",
    "C87_sdr_own_estimate",
    "C87_sdr_own_reference",
    "C87_uncorrelated",
    "C87_correlated_refuted",
    "C87_bss_own_reference"
   ],
   "note": "Direct solver for the statements about signals; scipy's solver under its contract."
  },
  {
   "property": "C88",
   "status": "proved",
   "theorems": [
    "C88_hankel",
    "C88_toeplitz",
    "C88_block_toeplitz",
    "C88_load_diag",
    "C88_load_diag_block",
    "C88_model_toeplitz",
    "C88_model_block",
    "C88_model_load"
   ],
   "note": "Strides in units of elements; the library is assumed to give new arrays a layout without overlap inside their buffer (good_layout); block_toeplitz with at least four lags (filter length 2 or more)."
  },
  {
   "property": "C89",
   "status": "proved",
   "theorems": [
    "C89_same_permutation_refuted",
    "C89_totals",
    "C89_no_artifacts",
    "C89_one_estimate"
   ],
   "note": "Totals are stated for finite decibel values; C89_no_artifacts for the direct solver without load."
  },
  {
   "property": "C90",
   "status": "proved",
   "theorems": [
    "C90_no_samples_raises",
    "C90_other_lengths",
    "C90_empty_estimate",
    "C90_empty_reference",
    "C90_one_tap",
    "C90_one_tap_bss",
    "C90_one_tap_noperm",
    "C90_one_tap_mismatch"
   ],
   "note": "Transforms of an empty axis pad it with zeros, as in the model of rfft; warnings of the mean of an empty axis are not modelled."
  },
  {
   "property": "C91",
   "status": "proved",
   "theorems": [
    "C91_positive",
    "C91_none",
    "C91_none_bss",
    "C91_zero",
    "C91_negative",
    "C91_negative_bss",
    "C91_negative_large",
    "C91_one_lag",
    "C91_no_iterations"
   ],
   "note": "pairwise SDR loss, sdr and bss_eval_sources; the loss of given pairs (pairwise=False) is not in this model."
  },
  {
   "property": "C92",
   "status": "proved",
   "theorems": [
    "C92_raises_iff",
    "C92_very_negative",
    "C92_very_negative_sar",
    "C92_very_negative_solvable",
    "C92_monotone",
    "C92_white",
    "C92_white_raises",
    "C92_lowers_refuted"
   ],
   "note": "Direct solver. No claim on the SIR, a quotient of two coherences that may both be negative."
  },
  {
   "property": "C93",
   "status": "proved",
   "theorems": [
    "C93_reversed",
    "C93_no_delay_refuted"
   ],
   "note": "Exact arithmetic, direct solver. With zero_mean the estimates must already have the full length (otherwise the added silence changes the mean). C93_no_delay_refuted: plain reversal of both fails."
  },
  {
   "property": "C94",
   "status": "proved",
   "theorems": [
    "C94_binary64",
    "C94_binary32",
    "C94_no_mean",
    "C94_decibels",
    "C94_offset_refuted"
   ],
   "note": "No overflow. Mean = sum divided by the number of samples (a reciprocal multiplication, as some devices do, is not covered). C94_offset_refuted: a large offset destroys the result."
  },
  {
   "property": "C95",
   "status": "proved",
   "theorems": [
    "C95_binary64_no_overflow",
    "C95_binary64_overflow",
    "C95_binary32_no_overflow",
    "C95_binary32_overflow",
    "C95_normalize_binary64",
    "C95_normalize_binary32",
    "C95_large_refuted"
   ],
   "note": "Two samples or more. Norms between the two limits (for example 2^511 to 2^512 in binary64) are left out. No mean removal. C95_large_refuted: scale invariance fails for a perfect estimate."
  },
  {
   "property": "C96",
   "status": "proved",
   "theorems": [
    "C96_snr",
    "C96_snr_reached",
    "C96_snr_decibels",
    "C96_prediction_gain",
    "C96_sar_snr",
    "C96_sar_prediction_gain",
    "C96_reference_in_span",
    "C96_sdr_above_snr_refuted"
   ],
   "note": "Exact arithmetic. Stated for the loss matrix (minus SDR) and for the SAR matrix of bss_eval_sources. C96_sdr_above_snr_refuted: the SDR is not always at least the plain ratio."
  },
  {
   "property": "C97",
   "status": "proved",
   "theorems": [
    "C97_size",
    "C97_rounded",
    "C97_all_lengths_refuted"
   ],
   "note": "Replaces the assumption that math.log2 is exact by a bound on its error. math.ceil and the integer power are exact."
  },
  {
   "property": "C98",
   "status": "proved",
   "theorems": [
    "C98_references",
    "C98_one_positive",
    "C98_sar",
    "C98_correlated_refuted",
    "C98_estimates",
    "C98_count",
    "C98_estimates_sar",
    "C98_at_most_one_estimate_refuted"
   ],
   "note": "Exact arithmetic. C98_correlated_refuted and C98_at_most_one_estimate_refuted show that the hypotheses on the references and the factor filter_length are needed."
  },
  {
   "property": "C99",
   "status": "proved",
   "theorems": [
    "C99_xcorr",
    "C99_acf",
    "C99_size",
    "C99_sdr_loaded",
    "C99_sdr"
   ],
   "note": "The relative 2-norm error of the transforms is a hypothesis (rfft_near, irfft_near) and excludes underflow. The signals are normalised exactly (C102 lifts this). C99_sdr takes any lower bound of the smallest eigenvalue in the place of load_diag."
  },
  {
   "property": "C100",
   "status": "proved",
   "theorems": [
    "C100_acf",
    "C100_system",
    "C100_sar_loaded"
   ],
   "note": "The relative 2-norm error of the transforms is a hypothesis and excludes underflow. The signals are normalised exactly. A residual of the solver is a hypothesis."
  },
  {
   "property": "C101",
   "status": "proved",
   "theorems": [
    "C101_sdr",
    "C101_sar",
    "C101_fft_sdr",
    "C101_fft_sar",
    "C101_decibels"
   ],
   "note": "C101_sdr takes any lower bound lam; C101_sar, C101_fft_sdr and C101_fft_sar take lam = load_diag > 0. The residual of the solver is a hypothesis."
  },
  {
   "property": "C102",
   "status": "proved",
   "theorems": [
    "C102_normalize",
    "C102_prepare",
    "C102_xcorr",
    "C102_acf",
    "C102_sdr"
   ],
   "note": "The relative errors are hypotheses and exclude underflow. The load is load_diag > 0."
  }
 ]
}