# Formal model of fast_bss_eval in Rocq/Coq 8.16

Subject: `/repo` (fakufaku/fast_bss_eval at the pinned commit).  All definitions of the
model cite file and lines of `/repo`.  Nothing was run; the tie to the code is by reading.

## Layout (`/verif/rocq/theories`)

Model of the code:

| file | content |
|---|---|
| `Prelude.v` | result monad (exceptions as values), list helpers |
| `ExtReal.v` | extended reals with NaN (exact arithmetic + IEEE special values) |
| `Slice.v` | Python slices with negative indices and steps |
| `Hungarian.v` | `torch/hungarian.py`, generic in the number type |
| `Helpers.v` | `numpy/helpers.py`, `torch/helpers.py` |
| `Batch.v` | batch loop of `_solve_permutation`, and a heap model of copies and in-place writes |
| `Fft.v` | rfft / irfft as exact DFTs |
| `Linalg.v` | `linalg.py` (hankel view, toeplitz, block_toeplitz) and `solve` |
| `Cgd.v` | `cgd.py`: preconditioners, operators, conjugate gradient |
| `Metrics.v` | `metrics.py` |
| `Api.v` | `scale_invariant.py`, `__init__.py`, import part of `torch/compatibility.py`, data types |
| `DbFloat.v` (first part) | `_coherence_to_neg_sdr` on IEEE floats |
| `Shapes.v` | shapes of all metrics with any number of batch axes, numpy 1/2 and torch |
| `Tensor.v` | the metrics and `cgd.py` again, literally on whole arrays with batch axes |
| `Compat.v` | wrappers of `torch/compatibility.py` for torch < 1.8, and their callers |
| `Autograd.v` | what torch computes when the losses of `torch/metrics.py` are differentiated with respect to the estimates (direct solver) |
| `AutogradRef.v` | the same with respect to the references |
| `AutogradCg.v` | the same with respect to the estimates through `use_cg_iter` |
| `AutogradPit.v` | the backward pass of `sdr`, `sdr_pit_loss` and the non-pairwise `sdr_loss` (selection, broadcast) |
| `AutogradBss.v` | the backward pass of `bss_eval_sources` (three metrics, joint solve for the SAR) with the direct solver |
| `CgApi.v` | `conjugate_gradient` called on its own: all columns, defaults, `x`, `x_true` |
| `Strided.v` | `linalg.py` and the `load_diag` statements on memory with strides: views, copies, in-place writes |
| `SiRound.v` | the `filter_length=1` coherence with rounded operations |

Specification vocabulary, independent of the model: `Spec.v` (assignments, dB), `SpecSig.v`
(correlations, shifted signals, least squares, projections).

Proofs: all other files.  `Properties*.v` contain only the property theorems, each closed by
`exact`, with `Print Assumptions` and examples that the hypotheses can be met.

## Modelling decisions

* **Numbers.** Samples and losses are extended reals `xr = Fin r | PInf | NInf | NaN` over
  Coq's axiomatic `R`: exact arithmetic with IEEE special values (x/0, 0/0, inf-inf, log10 0,
  NaN-propagating min/max).  Rounding is not modelled, except in C02 and C61 (Hungarian algorithm on
  rounded arithmetic), C47, C54 (dB mapping), C59, C94 (coherence of the `filter_length=1`
  path, without overflow) and C95 (with overflow), which use Flocq.  Signed zero is not modelled
  outside `DbFloat.v`.
* **Exceptions** are values: `Ok v | Raise e`.
* **Arrays** are lists, with Python slice semantics.  The functions are modelled on one batch
  item (2-D arrays; at least one sample except in C90); the batch loop of `_solve_permutation` is modelled
  separately (C11), and `Shapes.v` models what every function does to the shapes of arrays with
  any number of batch axes (C55-C57).  `Tensor.v` writes the metrics on whole arrays (finite
  samples); C72 proves that the item model describes every item of the result.
* **External library calls**: `fft.rfft/irfft` = exact (inverse) DFT with NumPy's padding,
  truncation and Hermitian conventions; `linalg.solve`/`inv` = exact Gaussian elimination raising
  `LinAlgError` on singular matrices; `scipy.optimize.linear_sum_assignment` = any function
  returning an optimal assignment (an argument `sp` with the hypothesis `lsa_contract sp`, shown
  to be met by an actual function); `math.log2` is exact (C97: an error of 2^-46 changes nothing up to 2^45 samples); the differentiation rules of torch are
  those of its `derivatives.yaml`, one comment each in `Autograd.v`, `AutogradRef.v`, `AutogradCg.v`, `AutogradPit.v` and `AutogradBss.v`.
* **Non-finite samples**: a channel that contains NaN or infinity after normalisation makes every
  number computed from it NaN.
* **Options** are a record; `return_perm` is not a flag (values and permutation are always
  returned together).

### Not modelled

Rounding in the FFT and the solvers (C85 takes the size of their errors as hypotheses, C99 to C102 only the relative 2-norm error of the transforms, of the normalisation in C102, and the residual of the solver); overflow in C94 and, in C59, beyond what C95 says; speed; devices; gradients through
`use_cg_iter` of `bss_eval_sources` and with respect to the references (C62 differentiates the
function, C77, C78, C80, C81 and C83 the program); gradients of `bss_eval_sources` with a non-finite
reference (NaN in the model, in the code only where that reference enters); arrays of
no samples outside `Empty.v`; half precision; `verbose` of
`conjugate_gradient`; the wrappers `inv`, `einsum`
for torch < 1.8 beyond their shapes (the values of `solve` are in `Tensor.v`, library `Th1`); `setup.py`, tests, examples.
`sdr_loss` non-pairwise with a vector right-hand side follows numpy < 2; in torch with one
reference and several estimates the case n_est = filter_length is left out, and so is (for
`bss_eval_sources` without permutation, torch >= 1.8, direct solver) the case of filter_length >
n_fft with min(filter_length, 2 n_fft) channels, where the item model raises and torch does not
(`C72_long_filter_refuted`).

## Method per property

* C01-C03 Hungarian algorithm: state machine with fuel; invariants (stars = partial matching on
  zeros, one prime per covered row, ranking of primes for path termination, cover/star relation),
  step counts; optimality by LP duality.  C02: the structural invariant only needs five laws of
  arithmetic, which rounded arithmetic satisfies.
* C04-C06 placeholder argument: exchange between number of infinite entries and finite sums.
* C07-C11 `_solve_permutation`: characterisation of outputs; batch loop by induction.
* C12-C14 real analysis of `10 log10((1-c)/c)`.
* C15-C17 DFT orthogonality, correlation theorem, slices => Gram matrices.
* C18-C22, C26-C29, C48, C49, C53 least squares: normal equations <=> orthogonal projection; ridge
  variational characterisation; independence of shifts; Gaussian elimination correctness.
* C23-C25, C30-C34 algebra on the model of metrics.
* C35, C46, C50 the dispatcher, import logic and data types as programs on finite types.
* C36 slices: numpy vs torch constructions.
* C37 NaN propagation.
* C38-C43, C52 circulant embedding; Frobenius optimality; CG invariants, descent, finite termination.
* C44 lengths after slicing.
* C45 heap model with views for the copy/in-place behaviour.
* C47, C54 Flocq binary floats.
* C55-C57 evaluation of the shape programs on symbolic shapes; broadcasting specified axis by axis.
* C58 padding and slicing before the DFT.
* C59 standard model of rounding with underflow term, over trees of additions; C60 mean value theorem.
* C61 the run is followed on exact numbers with a bounded perturbation per subtraction, the number
  of subtractions per entry is bounded by the step count, LP duality with slack; a simulation
  between two number types carries it to IEEE floats.
* C62 the projection is linear, so the loss along a line is the logarithm of a quotient of two
  quadratic polynomials.
* C63 the iterates minimise the error over the span of the directions, which contains the iterates of
  Nesterov's accelerated gradient method; a Lyapunov function bounds those.  The preconditioner is a
  matrix with eigenvalues read off the DFT (Parseval).  When a safeguard acts the error is already small.
* C64-C66 a frequency bin of the block preconditioner is singular iff some complex mixture of the
  references, filtered with an exponential, vanishes; that filter is injective on finite signals.  The
  preconditioner is then a positive definite matrix and the C63 machinery applies; C66 by a system
  without cross-lag terms, for which one step can be computed by hand.
* C67 algebra on the coherences.  C68 padding with zeros changes no lag product, so the statistics are
  equal.  C69 the span of the shifted references is what the SAR sees.  C70 the projections of C21 give
  the decomposition, and orthogonality makes it unique.  C71 shifts of a copy lie in the span; disjoint
  supports have no correlation.
* C72 a relation "this array holds, at batch index m, this function of m" (`rep` in `TensorOps.v`) is
  carried through every array operation; the conjugate gradient by induction on the iterations.
* C73 projections contract and normalising is 2-Lipschitz; the decibel form compares the distances to
  the span with the triangle inequality.  C74 for one tap every statistic is an inner product.  C75 the
  angle of a nonnegative combination.  C76 the loaded solution minimises |y - Xh|^2 + lambda |h|^2.
* C77 the backward pass of every operation is the adjoint of its derivative (for the FFTs by exchanging
  sums); the coherence is a quadratic form divided by the clamped squared norm.
  C78 a nonsingular matrix stays so under small perturbations, with a bounded inverse, so the solution
  of the normal equations is differentiable; the backward pass is the adjoint of that derivative.
* C79 the run on all columns is the run of `Cgd.v` on each; the distance to the solution shrinks by
  the identity of Hestenes and Stiefel.
* C80 every step of the iteration is differentiable away from the clamps and the backward step is its
  adjoint; after a zero residual all later steps are constant, and the chain rule at the solution is
  that of the linear system.
* C81 the losses of each estimate are differentiable (C77, C80); the finitely many other assignments stay
  more expensive nearby, or at a tie none of them is cheaper than the selected one to first order.
* C82 as C72, with the last axis alone as core and all other axes as batch; the rest from the shapes.
* C83 the coherences are quotients of quadratic forms with constant matrices (the normal equations of C18
  and C19); the rest as C77 and C81, with the SIR as a quotient of two coherences.
* C84 with one reference the joint normal equations of the SAR are those of the SDR.
* C85 the error of the value is delta.(g+h) - h.rho - h.E.g; the load bounds h; the rest is the Lipschitz
  constant of C60 and the exchange argument for the assignment.
* C86 least squares over a larger family; an example with orthonormal delays.
* C87 place-by-place comparison of the chosen assignment with the expected one; Bessel's inequality.
* C88 every view is the composition of the array with a map of indices; two writes at different indices of a new array do not meet.
* C89 comparison of two optimal assignments for two cost matrices; projections onto the span of the delayed references.
* C90 the size of the transform computed as in the code (`Empty.v`); zero inner products give a zero system.
* C91 Python slices with any integer bound (`IntOpts.v`), systems of no unknowns, and conjugate gradients of no iterations.
* C92 definite Gram matrices; the kernel of the loaded matrix as an eigenvector equation.
* C93 reversal maps lag k to lag L-1-k and keeps inner products; the solution is reindexed.
* C94 rounding of the mean and the subtraction as in C59, then the Lipschitz bound of normalisation (C73).
* C95 a result that rounds to 2^emax or more is infinite; monotone rounding shows that the sum of squares overflows,
  and that nothing else does once the norms are small enough.
* C96 Cauchy-Schwarz for a target in the span and the projection; the bound is reached by a multiple of the projection.
* C97 distance of log2 of an integer to the integers against the error of the logarithm.
* C98 the projections on orthogonal references add up; Bessel's inequality, by induction on the taps.
* C99 Parseval for the half spectrum and Cauchy-Schwarz turn 2-norm errors of the transforms into errors of single lags; then C85.
* C100 the same for positive and negative lags of two references, then the block Toeplitz matrix of C19 entry by entry.
* C101 the quadratic form of the computed filter against its inner product with the estimate: coercivity bounds the filter by the data.
* C102 Cauchy-Schwarz for the perturbed signals, then C99 for signals of norm at most 1 + w, then C101.

## Wrong programs

`tools/mutate.py` copies `rocq/` to a scratch directory, changes one model definition, rebuilds, and
replaces (in the copy) every proof that no longer checks by `Admitted`.  A property counts as having
noticed the change when its own proof fails or `Print Assumptions` lists such a lemma.
A proof script can also fail for a reason other than its statement becoming false, so the log
(`seeded/LOG.jsonl`) gives an upper bound of what is noticed; the claim named in `breaks` was chosen
by hand as one that the change makes false.

## Trusted base

* The Coq 8.16.1 kernel (and `vm_compute` in a few examples).
* The reading of `/repo` and of the library calls listed above.
* Libraries: standard library, Coquelicot (complex numbers), Flocq.  No axiom of Coquelicot or Flocq
  is used; no axiom was added.
* Axioms listed by `Print Assumptions`, all from the standard library:
  N = `ClassicalDedekindReals.sig_not_dec`, D = `ClassicalDedekindReals.sig_forall_dec`,
  F = `FunctionalExtensionality.functional_extensionality_dep`, C = `Classical_Prop.classic`.

Per theorem (written by `tools/axioms.py`):

<!-- assumptions -->
* no axioms (closed under the global context): `C35_no_torch`, `C35_old_torch`, `C35_torch_installed`, `C41_no_recomputation`, `C46_numpy_bss`, `C46_numpy_cg_double`, `C46_numpy_sdr`, `C46_numpy_si_load_double`, `C46_torch`, `C46_torch_raises`, `C50_has_torch`, `C50_import_iff`, `C50_otherwise_import_error`, `C50_packaging_missing`, `C55_bss_shape`, `C55_documented_shape_refuted`, `C55_loss_shape`, `C55_sdr_shape`, `C56_numpy2_raises`, `C56_numpy2_wrong_shape`, `C56_one_dimensional`, `C57_batch_broadcast`, `C57_incompatible`, `C57_matched_more_axes_raises`, `C59_any_order`, `C72_long_filter_refuted`.
* axioms D: `C88_block_toeplitz`, `C88_hankel`, `C88_model_block`, `C88_model_toeplitz`, `C88_toeplitz`.
* axioms D, F: `C01_hungarian_optimal`, `C03_nan_rejected`, `C03_nan_rejected_perm`, `C04_posinf_avoided`, `C05_neginf_used`, `C06_all_infinite`, `C06_both_infinities`, `C06_domain`, `C07_outputs`, `C08_optimal_loss`, `C11_batch_independent`, `C32_silent_is_orthogonal`, `C40_block_precond`, `C40_symmetric_precond`, `C41_exact_start`, `C41_residual`, `C42_descent`, `C43_terminates`, `C45_inputs_unmodified`, `C58_einsum`, `C70_energies_add`, `C70_unique`, `C87_own_estimate`, `C87_own_reference`, `C88_load_diag`, `C88_load_diag_block`, `C88_model_load`, `C96_reference_in_span`.
* axioms D, F, N: `C100_acf`, `C100_sar_loaded`, `C100_system`, `C101_fft_sar`, `C101_fft_sdr`, `C101_sar`, `C101_sdr`, `C102_acf`, `C102_normalize`, `C102_prepare`, `C102_sdr`, `C102_xcorr`, `C15_auto_correlation`, `C15_between_references`, `C15_cross_correlation`, `C16_aliasing_refuted`, `C17_sar_rhs`, `C17_sar_solution`, `C17_sar_system`, `C17_sdr_rhs`, `C17_sdr_solution`, `C17_sdr_system`, `C20_sar_range`, `C20_sdr_range`, `C28_fast_path`, `C28_fast_path_loss`, `C31_relabel_bss`, `C36_arrays`, `C36_backends_sq_cos`, `C38_toeplitz_operator`, `C39_block_operator`, `C39_block_operator_dense`, `C41_zero_iterations`, `C41_zero_iterations_block`, `C42_sdr_descent`, `C42_toeplitz_descent`, `C43_toeplitz_exact`, `C49_sdr_of_bss`, `C52_cg_below_direct`, `C52_cg_range`, `C52_more_iterations`, `C53_bss_solvable_iff`, `C53_loaded_ok`, `C58_irfft`, `C58_irfft_raises`, `C58_iterative_solver`, `C58_rfft`, `C58_statistics`, `C58_wrapper_equivalence_refuted`, `C63_loaded_guarded`, `C63_rate`, `C63_rate_guarded`, `C63_sdr_rate`, `C63_sdr_rate_guarded`, `C63_toeplitz_rate`, `C64_loaded_ok`, `C64_no_worse_than_direct`, `C64_raises_iff`, `C65_sar_bounded`, `C65_sar_loaded`, `C65_sar_rate`, `C65_sar_rate_noperm`, `C66_sar_range_refuted`, `C68_long_filter_refuted`, `C69_remix_coherence`, `C73_sar_coherence`, `C73_sdr_coherence`, `C76_sdr_bias`, `C76_sdr_limit`, `C79_columns`, `C79_default_iterations_refuted`, `C79_errors`, `C79_errors_decrease`, `C79_errors_vector`, `C79_exact`, `C79_norm_grows`, `C79_one_rhs`, `C79_one_start`, `C79_one_true`, `C79_start_kept`, `C79_toeplitz_columns`, `C79_vector_default`, `C79_vector_start_raises`, `C79_vector_start_raises_block`, `C79_vector_start_refuted`, `C85_sar_loaded`, `C85_sdr`, `C85_sdr_loaded`, `C92_very_negative_solvable`, `C94_no_mean`, `C99_acf`, `C99_sdr`, `C99_sdr_loaded`, `C99_size`, `C99_xcorr`.
* axioms C, D, F, N: `C02_hungarian_ieee`, `C02_hungarian_rounded`, `C06_mono_perfect_raises`, `C06_perfect_and_orthogonal_raises`, `C07_sdr_outputs`, `C07_sdr_values`, `C08_pit_not_worse`, `C08_sdr_optimal`, `C09_bss_optimal`, `C09_bss_outputs`, `C101_decibels`, `C10_documented_direction_refuted`, `C12_bounds_attained`, `C12_clamp_bounds`, `C13_clamp_saturates`, `C14_ends`, `C14_interior`, `C14_no_nan`, `C14_strictly_decreasing`, `C16_aliasing_raises`, `C18_sdr_projection`, `C19_sir_sar_projection`, `C20_no_nan`, `C21_outputs_ordered`, `C21_sdr_lowest`, `C22_loaded_never_raises`, `C22_singular_iff`, `C22_singular_iff_diag`, `C23_scale_invariance`, `C24_tiny_scale_refuted`, `C25_offset_invariance`, `C26_longer_filter`, `C27_filtered_is_perfect`, `C29_load_ignored`, `C29_ordering_refuted`, `C30_bss_diagonal`, `C30_bss_mismatch`, `C30_diagonal`, `C30_mismatch`, `C31_bss_total`, `C31_relabel_loss`, `C31_sdr_total`, `C32_bss_raises`, `C32_orthogonal_worst`, `C33_pit_is_negated`, `C34_pairwise_si_sdr_loss`, `C34_si_bss_eval_sources`, `C34_si_sdr`, `C34_si_sdr_loss`, `C34_si_sdr_pit_loss`, `C36_backends_bss`, `C36_backends_loss`, `C36_backends_noperm`, `C36_backends_sdr`, `C36_backends_sdr_loss`, `C36_one_reference_refuted`, `C37_bss_raises`, `C37_nan_iff_nonfinite`, `C37_sdr_raises`, `C43_equals_direct`, `C44_bss_raises`, `C44_one_sample_refuted`, `C44_sdr_truncates`, `C47_nan_propagates`, `C47_negative_zero_refuted`, `C47_no_nan`, `C47_no_nan_clamped`, `C48_load_monotone`, `C51_negative_clamp`, `C53_duplicate_reference`, `C53_too_short`, `C54_float_antitone`, `C54_ratio_error`, `C59_binary32`, `C59_binary64`, `C59_decibels`, `C60_clamped_lipschitz`, `C60_relative_error`, `C60_slope`, `C60_unclamped_unbounded`, `C61_binary32`, `C61_binary64`, `C61_exactly_optimal_refuted`, `C61_integers`, `C61_near_optimal`, `C62_derivative`, `C62_flat_iff`, `C62_flat_is_perfect_refuted`, `C62_no_local_minimum`, `C62_one_tap_never_flat`, `C63_iterations`, `C64_duplicate`, `C64_short`, `C64_too_many`, `C65_exact`, `C65_exact_noperm`, `C66_order_refuted`, `C67_near_min`, `C67_one_equation`, `C67_power_form`, `C68_silence_bss`, `C68_silence_sdr`, `C68_zero_mean_refuted`, `C69_more_references`, `C69_remix`, `C70_decomposition`, `C71_delayed_copy_perfect`, `C71_early_refuted`, `C71_late_refuted`, `C71_longer_filter_undoes_delay`, `C71_out_of_reach`, `C72_bss_eval_sources`, `C72_bss_noperm`, `C72_loss`, `C72_pairwise_loss`, `C72_sdr`, `C73_bss_dB`, `C73_reference_refuted`, `C73_sdr_dB`, `C74_inner_products`, `C74_orthogonal`, `C74_reordered_samples`, `C74_two_taps_refuted`, `C75_sum_not_worse`, `C75_two_taps_refuted`, `C76_sar_ceiling`, `C76_sdr_ceiling`, `C77_finite`, `C77_gradient`, `C77_infinite_loss_nan`, `C77_saturated`, `C77_scale`, `C77_silent`, `C78_finite`, `C78_gradient`, `C78_infinite_loss_nan`, `C78_one_tap_symmetric`, `C78_saturated`, `C78_scale`, `C78_silent`, `C80_converged`, `C80_finite`, `C80_gradient`, `C80_saturated`, `C80_scale`, `C80_silent`, `C80_unclamped`, `C81_descent`, `C81_finite`, `C81_gradient`, `C81_sdr_loss`, `C81_unselected_nan`, `C82_filter_length_channels_refuted`, `C82_left_out`, `C82_loss`, `C82_mismatch`, `C82_rejected`, `C83_clamped`, `C83_gradient`, `C83_nan`, `C83_noperm`, `C83_orthogonal`, `C84_clamped`, `C84_gradient`, `C84_noperm`, `C84_raises`, `C85_bss_selection`, `C85_selection`, `C86_sar_monotone`, `C86_sir_refuted`, `C87_bss_own_reference`, `C87_correlated_refuted`, `C87_sdr_own_estimate`, `C87_sdr_own_reference`, `C87_uncorrelated`, `C89_no_artifacts`, `C89_one_estimate`, `C89_same_permutation_refuted`, `C89_totals`, `C90_empty_estimate`, `C90_empty_reference`, `C90_no_samples_raises`, `C90_one_tap`, `C90_one_tap_bss`, `C90_one_tap_mismatch`, `C90_one_tap_noperm`, `C90_other_lengths`, `C91_negative`, `C91_negative_bss`, `C91_negative_large`, `C91_no_iterations`, `C91_none`, `C91_none_bss`, `C91_one_lag`, `C91_positive`, `C91_zero`, `C92_lowers_refuted`, `C92_monotone`, `C92_raises_iff`, `C92_very_negative`, `C92_very_negative_sar`, `C92_white`, `C92_white_raises`, `C93_no_delay_refuted`, `C93_reversed`, `C94_binary32`, `C94_binary64`, `C94_decibels`, `C94_offset_refuted`, `C95_binary32_no_overflow`, `C95_binary32_overflow`, `C95_binary64_no_overflow`, `C95_binary64_overflow`, `C95_large_refuted`, `C95_normalize_binary32`, `C95_normalize_binary64`, `C96_prediction_gain`, `C96_sar_prediction_gain`, `C96_sar_snr`, `C96_sdr_above_snr_refuted`, `C96_snr`, `C96_snr_decibels`, `C96_snr_reached`, `C97_all_lengths_refuted`, `C97_rounded`, `C97_size`, `C98_at_most_one_estimate_refuted`, `C98_correlated_refuted`, `C98_count`, `C98_estimates`, `C98_estimates_sar`, `C98_one_positive`, `C98_references`, `C98_sar`.
<!-- end assumptions -->
