# Formal model of curvlinops in Rocq: design and trusted base

## 1. What is trusted

* Coq 8.16.1's kernel (and its `vm_compute` machine, used only in `Example`s on concrete data).
* Libraries: Coq's standard library, mathcomp (ssreflect, algebra, algebra_tactics' `ring`/`field`),
  Coquelicot (real derivatives).  No project-defined axioms.  Everything in mathcomp is axiom-free; files that mention
  Coq's real numbers depend on the standard library's axioms of the reals
  (`ClassicalDedekindReals.sig_forall_dec`, `ClassicalDedekindReals.sig_not_dec`,
  `FunctionalExtensionality.functional_extensionality_dep`, `Classical_Prop.classic` and
  `ClassicalEpsilon.constructive_indefinite_description`).
  `Print Assumptions` is run below every theorem; section 5 lists the result.
* The faithfulness of the hand-written model to the Python text.  Each definition cites the file and lines it models.

## 2. Modelling conventions

* **Scalars.** Theorems hold for an arbitrary field `R : fieldType` (or a real closed field / Coq's `R` where square roots,
  order or calculus are needed).  Floating-point rounding is modelled only for the sums over the batches (C84): all other
  theorems are about the algorithm in exact arithmetic.  Where dtypes matter (integer truncation in the SciPy export; NaN checks; double-precision retries) a
  dedicated model with the relevant distinction is used.
* **Tensors.** `{| tshape : seq nat; tdata : seq T |}`, row major; a tensor is well formed when the data length is the
  product of the shape.  `reshape`, `cat`, `split`, `stack`, `unsqueeze`, trailing-axis selection and `einsum`s are
  Gallina functions on that representation.
* **Exceptions** are values of a result type: `Ok a | Err e` with `e` the Python exception class.
* **Objects** are state machines: constructors and methods are functions `state -> res (state * result)` (state is also
  returned on failure where partial updates are observable).  Histories are lists of calls.
* **Aliasing** (lists and dicts shared between caller and operator) is modelled with an explicit heap where a property
  depends on it.
* **External code** (torch autograd, the user's model and loss, linear solvers, `eigh`, `cholesky`, `qr`, ARPACK, RNG) is a
  function argument (Section variable), with the mathematical contract written as an explicit hypothesis of the theorem.

## 3. Properties: what is modelled and how it is proved

| Properties | Model files | Theorems in | What is modelled | How it is proved |
|---|---|---|---|---|
| C01-C04 | `Tensor.v`, `TorchBase.v` | `Props_Base.v` | input checks/preprocessing, output checks/postprocessing, `__matmul__` with an arbitrary `_matmat` | case analysis on the format, lemmas on concatenation/splitting of row-major data, induction over the shape list |
| C05 | `OpSpec.v` and the operators' files | `Props_Curv.v`, `Props_Fisher.v`, `Props_Jac.v`, `Props_Kfac.v`, `Props_KfacEnd.v` | `adjoint`, matrices of the operators | symmetry of the represented matrices |
| C06, C07 | `Numpy.v`, `Scipy.v` | `Props_Scipy.v` | `to_scipy`, `_scipy_compatible` with dtype tags | same relation as C03; refutation by an integer array |
| C08 | `Alias.v`, `AliasProof.v`, `AliasRefine.v`, `NumpyMem.v`, `ScipyMem.v` | `Props_Alias.v`, `Props_ScipyMem.v` | heap: tensors as views of buffers, lists as objects; NumPy arrays as strided views | frame lemma for every operator except inverse KFAC, refuted there; refinement to the value-level model |
| C09-C13 | `Numpy.v`, `Submatrix.v` | `Props_Sub.v` | `split_list`, all of `submatrix.py` and `outer.py` | induction, sums over index lists, invariant over histories of `set_submatrix` |
| C14, C15, C19-C22 | `Calculus.v`, `Curvature.v`, `HessGGN.v`, `Risk.v`, `CurvOps.v` | `Props_Curv.v` | constructor, data loop, normalisation, batch products, `gradient_and_loss` | induction over batches, chain rule, permutation of sums |
| C16-C18, C25 | `Losses.v`, `Fisher.v`, `FisherMC.v`, `FisherExp.v` | `Props_Fisher.v` | EF and MC-Fisher products, would-be gradients, generator re-seeding | derivatives of the three losses, invariants over histories, expectations as linear functionals |
| C23, C24 | `Jacobian.v` | `Props_Jac.v` | both Jacobian operators | index arithmetic over batches |
| C26-C28 | `Determinism.v` | `Props_Det.v` | `_check_deterministic`, `to_device` | case analysis, refutations by witnesses, exceptions of the oracles at every point |
| C29-C31, C33-C37 | `Kfac.v`, `KfacSpec.v`, `KfacProof.v`, `KfacMap.v`, `KfacBlocks.v`, `KfacScalar.v`, `KfacScalarProof.v` | `Props_Kfac.v`, `Props_KfacEnd.v`, `Props_KfacShared.v`, `Props_KfacSharedInv.v` (C31) | mapping, `_matmat`, trace/det/logdet/frobenius | induction over modules, Kronecker identities, block-diagonal determinants |
| C32, C47, C74 | `KfacCov.v`, `KfacCovHooks.v`, `KfacCovSpec.v`, `KfacCovProof.v` | `Props_KfacCov.v`, `Props_KfacMC.v`, `Props_KfacEx.v` | hooks, backward accumulation, all fisher types | induction over batches; linearity of gradients; expectations |
| C38-C43 | `KfacState.v`, `KfacStateProof.v` | `Props_KfacState.v`, `Props_KfacStateEx.v` | object state machine with shared dictionaries and models | invariants over histories, refutations |
| C44 | `LossHess.v` | `Props_LossHess.v` | `loss_hessian_matrix_sqrt` over the reals | second derivatives, algebra of the roots |
| C45 | `KfacExact.v` | `Props_KfacExact.v` | affine layers inside a differentiable network | chain rule from outputs to parameters; sums of Kronecker products |
| C46 | `Conv.v` | `Props_Conv.v`, `Props_ConvPos.v` | unfold / index patterns | sums over indices; number of positions by division |
| C48-C53 | `KfacInverse.v`, `KfacInvProof.v`, `KfacInvState.v` | `Props_KfacInverse.v`, `Props_KfacInvMore.v`, `Props_KfacInvEx.v`, `Props_KfacInvState.v`, `Props_KfacInvStateEx.v` | all of `KFACInverseLinearOperator`, also as an object | Kronecker inverse, eigenbasis; erasure of caches as a simulation |
| C54-C57 | `Inverse.v` | `Props_Inverse.v`, `Props_Lsmr.v` | Neumann, CG, LSMR wrappers | induction over the number of terms |
| C58-C63 | `Estimators.v` | `Props_Estimators.v` | trace/diagonal/norm estimators and sampling | expectation over all Rademacher vectors and over any isotropic expectation operator |
| C64-C69, C75 | `Lanczos.v`, `LanczosAlg.v`, `LanczosProof.v`, `NumpyMem.v`, `LanczosMem.v` | `Props_Lanczos.v`, `Props_LanczosEx.v`, `Props_LanczosMem.v`, `Props_SpectrumMore.v`, `Props_Spectrum.v`, `Props_SpectrumCache.v`, `Props_SpectrumEx.v` | all of `spectrum.py` | invariant over the iterations; Gauss quadrature; histories of cached runs |
| C70-C72, C76 | `Activation.v`, `ActivationProof.v`, `ActHess.v` | `Props_Activation.v`, `Props_ActHess.v`, `Props_ActHessEx.v` | hooks on arbitrary forward programs, tape of operations, constructor, product | induction over programs; tape semantics |
| C73 | `Functorch.v`, `FunctorchProof.v` | `Props_Functorch.v`, `Props_FunctorchEnv.v` | all of `examples/functorch.py` | block matrix algebra, same derivatives as the operators |
| C79 | `Estimators.v`, `Variance.v` (specification) | `Props_Variance.v` | mean squared error of averages of samples of all four estimators | fourth moments of independent symmetric coordinates, pairwise independence of draws; finite product distributions |
| C80 | `CurvOps.v`, `Jacobian.v`, `FisherMC.v`, `Export.v`, `Submatrix.v`; `ParamSubset.v` (specification) | `Props_Params.v`, `Props_KfacSubset.v` | operators (with KFAC) for a sub-list of the parameters = rows/columns of the full operator; SubmatrixLinearOperator of the export | chain rule for coordinate embeddings, characterisations C10, C14–C17, C20, C23 of both operators |
| C81 | `CurvOps.v`, `FisherMC.v`; `HessSplit.v` (specification side: second-order chain rule, loss gradients and Hessians) | `Props_Split.v` | Hessian = GGN + residual, equality for affine networks, positive semi-definiteness of GGN/EF/MC-Fisher | chain rule twice, closed forms of the loss Hessians, quadratic forms |
| C82 | `Export.v`, `Estimators.v`, `Inverse.v`, `LanczosAlg.v`, `CurvOps.v` (no new code) | `Props_EndToEnd.v` | results of the NumPy algorithms on exported operators, stated in derivatives of the risk | composition of C14/C16 with C54, C58-C60, C65 through the export |
| C83 | `DataSource.v` (state of the data source; constructor, products and check in terms of passes), `Determinism.v` | `Props_Data.v` | `CurvatureLinearOperator.__init__`, `_loop_over_data`, `_matmat`, `_check_deterministic` on shuffling, one-shot and empty sources | invariants over histories of products on top of C14–C16; refutation by witness for iterators |
| C84 | `Rounding.v` (the accumulation loops of `_torch_base.py` with rounding functions as arguments) | `Props_Rounding.v`, `Props_Float32.v` (Flocq instance) | `_matmat`, `gradient_and_loss`, `_check_deterministic` in floating point | error analysis by induction over the batches; with the identity as rounding these are the exact models (`exact_arithmetic`); refutation by computation |
| C85 | `Cg.v` (SciPy's `cg` loop, called by the wrapper of `inverse.py` 36-89) | `Props_Cg.v`, `Props_CgGgn.v` | `CGInverseLinearOperator` products, damped GGN | orthogonality of residuals and conjugacy of directions by induction, at most n non-zero residuals by rank; loop refines the vector recursion; refutations by computation |
| C86 | `KfacCalls.v` (the hooks of `kfac.py` for layers called several times) | `Props_KfacCalls.v`, `Props_KfacCallsEx.v`, `Props_KfacCallsFwd.v`, `Props_KfacCallsFwdEx.v` | `_compute_kfac` with repeated calls | the event list is a permutation of the one in which every call is a layer of its own, with the keys renamed; induction over the events; refutation by a two-position network |
| C87 | `KfacChecked.v` (`kfac.py` 273-281, 1029-1093 with the determinism check) on `KfacState.v` and `Determinism.v` | `Props_KfacChecked.v`, `Props_KfacCheckedEx.v` | the check as a step of the object's state machine | a returned product has used a gradient factor, so the factors are there for the second one; equality of the worlds after both histories; refutations by concrete histories |
| C88 | `Report.v` (`examples/utils.py`) | `Props_Report.v`, `Props_ReportRef.v` | `report_nonclose`; with C73 and C06 the comparisons of `example_matrix_vector_products.py` | zip as a list of indices, loop as filter and count; equality of products with the identity |
| C89 | `Workflow.v` (`example_inverses.py` 79–126, `example_model_merging.py` 131–196) | `Props_Workflow.v` | natural gradient and Fisher-weighted averaging with exported GGNs | C85 for residual and energy of CG, C15/C20 for operator and gradient; strongly convex quadratic functions; induction over tasks |
| C90 | `Autograd.v` (reverse mode on a tape; `_torch_base.py` 621–676 with it), `AutogradProof.v`, `AutogradLoss.v`, `DoubleBack.v`, `DoubleBackMlp.v` (recorded backward passes) | `Props_Autograd.v`, `Props_DoubleBack.v`, `Props_DoubleBackMlp.v` | gradients by back-propagation and gradients of recorded gradients: values, unused, frozen and repeated parameters; agreement with the `pd` model; Hessian products | potential argument (pairing of cotangents with derivatives along a curve is invariant under a backward step), reachability by induction over the tape, induction over batches and layers; simulation of the backward pass by the recorded one |
| C91 | `Power.v` (`example_eigenvalues.py` 123–186) | `Props_Power.v`, `Props_PowerRisk.v` | the power method: shapes, Rayleigh quotients, deflation, monotonicity, rate of convergence, stopping rule, order | induction over iterations and pairs with the vectors as invariant; Cauchy–Schwarz in the operator's form; expansion in an orthonormal eigenbasis |
| C92 | `Blocks.v` (`example_submatrices.py` 91–109, 156–176, 190–221) | `Props_Blocks.v` | extracted blocks, operators of blocks, index lists; with C14 and C80 for Hessians | entries of slices; C10 for the sub-matrix operator, products with the identity |
| C77, C78 | `Devices.v` | `Props_Devices.v` | device and data type inference, `to_device`, devices of products, inverses, exports, loaded states | invariant over histories of calls |

`MANIFEST.json` gives, per property, status, theorems and what is missing in partial ones.
`Props_*Ex.v` and the `Example`s show concrete cases that meet the hypotheses.

## 4. What is modelled and what is not

Modelled function by function (each definition cites its lines): `_torch_base.py`, `hessian.py`, `ggn.py`,
`gradient_moments.py`, `fisher.py`, `jacobian.py`, `kfac.py`, `kfac_utils.py`, `inverse.py`, `submatrix.py`, `outer.py`,
`sampling.py`, `utils.py`, `trace/*`, `diagonal/*`, `norm/*`, `papyan2020traces/spectrum.py`,
`experimental/activation_hessian.py`, `examples/functorch.py`, `examples/utils.py`.

Not modelled:

* floating-point overflow, and rounding other than in the sums over the batches (C84), except where a test on values decides the control flow (NaN checks, retries of
  decompositions in double precision, dtype casts of the SciPy export);
* progress bars, printed reports (except those of C88), warnings (except the retry warnings of C53) and `__init__.py`;
* devices other than as labels; threads; CUDA generators other than as a function from device to generator;
* autograd's own algorithm for second derivatives and Jacobian products: a product with a Hessian/Jacobian is the exact partial
  derivative of the modelled function.  (First derivatives: the reverse-mode algorithm is modelled and shown to agree, C90; the
  backward functions of single calls are a contract, proved for linear layers, activations and the squared error.)
  The activation Hessian is modelled on a tape of operations, the KFAC hooks by the derivative w.r.t. a layer's output;
* layers called more than once per forward pass in the main model of KFAC's factor computation (`KfacCalls.v` covers them for C86); `Conv2d` without batch axis;
* parameters that occur twice in the list of parameters given to an operator.

External code enters as function arguments with explicit contracts in the theorem statements: the user's network and loss
(functions of the parameters, differentiable where the statement says so), `torch.linalg.eigh`, `cholesky_ex`,
`cholesky_inverse`, `qr`, SciPy's `eigsh`, `eigh_tridiagonal`, `cg` (C57; for C85 its iteration is modelled in exact arithmetic from SciPy's documentation), `lsmr`, samplers (first and second moments), `einops`/
`unfold` (by their documented formulas).

## 5. Print Assumptions

`Print Assumptions` follows every theorem in the `Props_*.v` files.  `tools/assumptions.py` collects the result.  All axioms
are those of the standard library: `ClassicalDedekindReals.sig_forall_dec`, `ClassicalDedekindReals.sig_not_dec`,
`FunctionalExtensionality.functional_extensionality_dep`, `Classical_Prop.classic`,
`ClassicalEpsilon.constructive_indefinite_description`.

A whole-library check (coqchk) also lists constants that mathcomp and the standard library seal behind module signatures
(finfun, tuples, permutations, `Rdefinitions`) and the primitive integers and floats that mathcomp's tactics load.  No theorem
depends on them as axioms.

<!-- assumptions -->
* Closed under the global context (203 theorems):
  C01_documented_inputs_are_multiplied, C01_formats, C01_formats_exclusive, C01_other_inputs_are_rejected,
  C02_result_format, C03_formats_agree, C04_bad_output_rejected, C05_adjoint_transpose,
  C05_kfac_exact_inverse_self_adjoint, C05_kfac_inverse_self_adjoint, C05_kfac_self_adjoint, C06_scipy_export,
  C07_integer_arrays_refuted, C07_result_is_cast_product_partial, C08_neumann, C08_outer, C08_repeatable, C08_submatrix,
  C09_split_list_partitions, C09_split_list_wrong_total, C10_single_column_refuted, C10_submatrix_products,
  C11_submatrix_adjoint, C12_accepted, C12_bools_are_integers_refuted, C12_last_valid_setting,
  C12_list_by_reference_refuted, C12_validation_exact, C13_outer_column_refuted, C13_outer_product, C13_projector,
  C16_unsupported_loss, C20_no_loss_function, C26_equal_totals_rejected_refuted, C26_extra_batches_first_refuted,
  C26_extra_batches_refuted, C26_single_batch_partial, C26_total_loss_refuted, C27_batch_difference_caught,
  C27_broadcast_refuted, C27_deterministic_passes, C27_dict_keys_refuted, C27_gradient_difference_caught,
  C27_nan_gradient_caught, C27_outcome, C27_probe_difference_caught, C28_device_restored, C28_function_params_refuted,
  C28_state_restored, C28_to_device_moves, C29_accepted_iff, C29_every_position, C29_positions, C29_rejected,
  C30_kfac_product, C31_det_partial, C31_frobenius_partial, C31_inverse_refuted, C31_inverse_sequence_partial,
  C31_last_layer_partial, C31_not_symmetric_refuted, C31_tied_weight_refuted, C31_trace_partial,
  C33_positive_semidefinite, C34_trace, C35_det, C37_frobenius_norm, C39_load_state_dict, C39_loss_subclass_refuted,
  C40_loss_mismatch_partial, C43_accepted_iff, C43_rejected, C46_average_content, C46_average_positions,
  C46_convolution, C46_mean, C46_patch_content, C46_positions, C46_uneven_same_padding, C47_average, C47_given,
  C47_inferred, C47_no_data, C47_uneven_refuted, C48_indefinite_raises, C48_inverse, C48_inverts_damped_factors,
  C49_exact_damping, C49_psd, C50_below_minimum_refuted, C50_inverse, C50_negative, C50_plain, C50_values,
  C50_zero_inputs_refuted, C52_accepted_iff, C52_rejected, C53_attempts, C53_error_of_factor, C53_first_error,
  C53_nothing_cached, C54_neumann_error, C54_neumann_series, C55_check_nan_exact, C55_checked_result, C55_no_check,
  C55_zero_terms_unchecked_refuted, C56_columns, C56_no_columns_refuted, C57_cg_default, C57_cg_latest,
  C57_lsmr_default, C57_lsmr_default_refuted, C57_lsmr_latest, C57_lsmr_one_iteration, C58_constructor_and_distribution,
  C58_trace_unbiased_normal, C58_trace_unbiased_rademacher, C59_diagonal_exact, C59_diagonal_unbiased_normal,
  C59_diagonal_unbiased_rademacher, C60_frobenius_unbiased_normal, C60_frobenius_unbiased_rademacher,
  C61_exact_on_subspace, C61_unbiased_normal, C61_unbiased_rademacher, C62_interrupted_subspace_refuted,
  C62_subspace_computed_once_partial, C63_basis_dimension, C63_degenerate_refuted, C64_breakdown, C64_in_place,
  C64_lanczos, C64_returned_views_refuted, C65_moments, C65_weights_sum_to_one, C69_missing, C71_mapping_refuted,
  C71_number_of_batches, C71_single_batch, C72_accepted, C72_item, C72_known_names, C72_rejected, C72_watched_module,
  C73_blocks_to_matrix, C75_expected_moments, C77_constructor, C77_infer, C77_products, C77_to_device,
  C78_cached_inverse_refuted, C78_export, C78_exported_before_move_refuted, C78_function_check_refuted,
  C78_loaded_state_refuted, C78_shared_module_refuted, C78_uncached_inverse, C79_diagonal_normal,
  C79_diagonal_rademacher, C79_frobenius_normal, C79_frobenius_rademacher, C79_hutchpp_normal, C79_hutchpp_not_worse,
  C79_hutchpp_rademacher, C79_trace_normal, C79_trace_rademacher, C85_cg_columns, C85_cg_default, C85_cg_energy,
  C85_cg_solves, C85_exact_preconditioner, C85_indefinite_preconditioner_refuted, C85_indefinite_refuted,
  C85_preconditioner_shape, C85_unconverged_refuted, C88_outcome, C88_report, C88_same, C88_swap, C89_merge,
  C89_natural_gradient, C89_no_parameters, C89_no_tasks, C89_sanity_check, C90_no_loss, C91_converges, C91_deflation,
  C91_early_stop_refuted, C91_eigenvectors_stay, C91_first, C91_more_iterations, C91_no_iterations, C91_order_refuted,
  C91_pairs, C91_shape_refuted, C91_within, C92_block_operator, C92_empty_parameter_refuted, C92_extract_block,
  C92_from_the_end, C92_index_lists, C92_last_refuted
* `functional_extensionality_dep` (2 theorems):
  C73_other_values, C73_parameter_values
* `functional_extensionality_dep`, `sig_forall_dec` (5 theorems):
  C69_estimates, C69_given, C69_missing_abs, C69_number_of_calls, C69_solver_fails
* `classic`, `constructive_indefinite_description`, `functional_extensionality_dep`, `sig_forall_dec` (20 theorems):
  C08_kfac, C80_submatrix, C83_empty, C83_iterator_checked, C83_iterator_compared, C83_iterator_counted,
  C83_iterator_given, C83_traversals, C84_check_accepts, C84_gradient_and_loss, C84_order, C84_products, C84_relative,
  C87_data_rejected, C87_probe_never_rejects, C87_restore_computed, C87_restore_empty, C87_spoiled_model_refuted,
  C90_grad_raises, C92_test_refuted
* `classic`, `constructive_indefinite_description`, `functional_extensionality_dep`, `sig_forall_dec`, `sig_not_dec` (198 theorems):
  C05_activation_hessian_self_adjoint, C05_block_hessian_self_adjoint, C05_empirical_fisher_self_adjoint,
  C05_ggn_self_adjoint, C05_hessian_self_adjoint, C05_jacobian_adjoint, C05_monte_carlo_fisher_self_adjoint, C08_ef,
  C08_ggn, C08_hessian, C08_jacobian, C08_kfac_inverse_list_refuted, C08_kfac_inverse_overwrites,
  C08_kfac_inverse_partial, C08_kfac_inverse_values, C08_mc, C14_hessian_of_empirical_risk, C15_ggn_of_empirical_risk,
  C16_empirical_fisher, C17_monte_carlo_fisher, C17_non_binary_labels, C17_would_be_gradients, C17_zero_samples_refuted,
  C18_closed_form, C18_expected_product, C18_second_moment, C19_empirical_fisher_batching, C19_ggn_batching,
  C19_gradient_and_loss_batching, C19_hessian_batching, C20_gradient_and_loss, C21_block_diagonal,
  C21_block_sizes_rejected, C21_blocks_unsupported, C22_empirical_fisher_num_data, C22_ggn_num_data_scaling,
  C22_inferred_num_data, C22_num_data_scaling, C23_jacobian, C23_large_num_data_ignored_refuted, C23_no_columns_raises,
  C23_transposed_jacobian, C23_wrong_num_data_raises, C24_adjoint_identity, C24_adjoint_involution, C25_columns,
  C25_device_after_moves, C25_history_independent, C25_same_device, C30_computed, C31_logdet_partial, C32_batching,
  C32_empirical, C32_forward_only, C32_monte_carlo, C32_type2, C32_type2_cross_terms_refuted, C32_type2_ggn,
  C33_computed, C36_logdet, C37_operators_have_parameters, C38_foreign_state_refuted, C38_properties_match_product,
  C38_reads_agree, C39_bias_only_refuted, C39_from_state_dict, C39_same_behaviour, C40_foreign_layers_accepted_refuted,
  C40_model_overwritten_refuted, C40_settings_overwritten_refuted, C41_independent_partial,
  C41_live_dictionaries_refuted, C41_live_parameters_refuted, C41_shared_restore_refuted, C41_snapshot_partial,
  C42_hooks_stay_refuted, C42_partial_factors_refuted, C42_reported_partial, C42_retry_doubles_refuted,
  C42_success_leaves_no_trace, C42_zero_trace_refuted, C44_documented_formula_refuted, C44_one_class_refuted,
  C44_rejects, C44_rejects_targets, C44_square_root, C45_deep_linear, C45_empirical_one_datum, C45_forward_only,
  C45_monte_carlo_one_datum, C45_type2, C45_type2_one_datum, C48_indefinite_refuted, C51_caching_unobservable_partial,
  C51_hooks_refuted, C51_product_current_partial, C51_shared_refuted, C51_stale_refuted, C52_failed_load,
  C52_from_state_dict, C52_load_state_dict, C52_same_behaviour, C66_kappa, C66_log_grid_refuted, C66_log_spectrum,
  C66_one_vector_refuted, C66_spectrum, C67_average, C67_cached_agrees, C67_cached_log_agrees,
  C67_default_kappa_refuted, C67_log_average, C67_no_repetitions, C68_first_runs, C68_negative_repetitions_refuted,
  C68_number_of_runs, C68_repeated_call, C68_runs_are_kept, C69_negative_minimum_refuted, C70_failing_forward,
  C70_hooks_restored, C72_last_call, C72_not_called, C72_single_tensor_index, C73_empirical_fisher,
  C73_empirical_fisher_scalar_refuted, C73_empty_parameter_refuted, C73_ggn, C73_gradient_and_loss, C73_hessian,
  C73_jacobian, C73_jacobian_scalar_refuted, C74_equals_type2, C74_expectation, C76_any_model,
  C76_network_input_refuted, C76_sequential, C80_empirical_fisher, C80_ggn, C80_gradient, C80_hessian, C80_jacobian,
  C80_kfac, C80_monte_carlo_fisher, C81_empirical_fisher, C81_ggn_positive_semidefinite, C81_ggn_supported_losses,
  C81_hessian_equals_ggn, C81_hessian_is_ggn_plus_residual, C81_hessian_of_affine_network, C81_monte_carlo_fisher,
  C82_empirical_fisher, C82_hessian_hutchinson, C82_hessian_lanczos, C82_hessian_neumann, C83_empirical_fisher, C83_ggn,
  C83_hessian, C83_iterator_refuted, C84_cancellation_refuted, C84_exact_arithmetic, C84_single_precision,
  C85_damped_ggn, C86_calls_add, C86_exact_refuted, C86_forward_only, C86_forward_only_exact_refuted,
  C86_forward_only_separate, C86_forward_only_unused, C86_separate_calls, C86_unused_fails,
  C87_check_decides_matrix_refuted, C87_frozen, C87_nondeterminism_refuted, C87_restore_fills_saved_refuted,
  C87_same_as_unchecked, C88_ggn_example, C88_hessian_example, C89_ggn_semidefinite, C89_natural_step,
  C90_double_backward, C90_grad, C90_gradient_and_loss, C90_hessian, C90_hessian_product, C90_hessian_raises,
  C90_left_out_raises, C90_mlp, C90_mlp_double_backward, C90_mlp_extra, C90_recorded_gradient, C90_refines,
  C90_second_pass, C90_unused_is_zero, C91_ggn, C91_hessian, C92_diagonal_blocks, C92_hessian_blocks
<!-- end -->

## 6. Findings: behaviour of the code that contradicts what a user would expect

Each is a theorem ending in `_refuted` (witness included) unless marked with (text), which are remarks from reading only.

* SciPy export truncates products of integer arrays to the input's dtype (C07).
* Inverse KFAC overwrites the list the caller passes when a matrix is given in list format (C08).
* Sub-matrices fail for matrices with one column (C10), outer products for matrices (C13); booleans count as indices, and index lists
  are kept by reference and can be made invalid later (C12).
* A too large `num_data` makes the transposed Jacobian ignore rows silently (C23).
* The determinism check compares the losses of the last batch instead of the totals and ignores surplus batches (C26),
  broadcasts different shapes and ignores unmatched mapping keys (C27); for models given as functions the parameter objects
  are replaced by the check on another device (C28).
* KFAC with tied weights uses only the last module's factors in the product but all of them in trace and det; the inverse operator applies the inverses of all modules in sequence; with joint biases the product is not symmetric (C31).
* Type-2 KFAC mixes loss terms that read the same layer output (C32).
* States of other layers are accepted (C38, C40); an operator with a bias-only layer rejects its own state (C39);
  `state_dict` fails for subclasses of losses (C39); rejected loads overwrite model parameters and settings (C40);
  saved states share live dictionaries and parameters (C41).
* A factor computation that raises leaves hooks and partial factors; a retry adds to them (C42).
* Cross-entropy with one class is refused, and the documented root is not a root (C44).
* Data with different numbers of loss terms are accepted if the average is whole (C47).
* Indefinite damped factors make every product raise although an inverse exists (C48); heuristic damping can be infinite or
  below `min_damping` (C50); cached inverses are stale after the factors are replaced elsewhere, or changed through hooks that a failed factor computation left on the model (C51).
* Neumann with zero terms does not check its input (C55); solvers fail for matrices without columns (C56).
* An interrupted Hutch++ subspace computation is kept (C62); degenerate basis dimensions (C63).
* `ncv = 1` divides by zero (C66); default `kappa` differs between function and class (C67); negative numbers of
  repetitions give negated densities (C68).
* The activation Hessian rejects mappings (C71); for the network's input every product raises (C76).
* The functorch references fail for parameters without axes or elements (C73).
* Moving an operator breaks the other operators on its module, cached inverses, earlier SciPy exports and operators that load
  its state; functions on a GPU fail the constructor's default determinism check (C78).
* (text) `KFACLinearOperator` ignores its `shape` argument; its product multiplies with `X A`, which needs a symmetric `A`.
* (text) `_get_normalization_factor` divides by the number of data also for "sum" callers of the base class; the docs state
  `[K, *M1]` for list-format results, the code returns `[*M1, K]`.
* LSMR's default `conlim=1e-8` stops after the first iteration, far from the solution (C57).
* `C85_unconverged_refuted`: `CGInverseLinearOperator` drops the convergence report of SciPy's `cg`: with fewer iterations allowed than needed the product is an iterate with a large residual, and nothing is raised. `C85_indefinite_refuted`: for an indefinite invertible matrix (a Hessian may be one) the first step can divide by zero. `C85_indefinite_preconditioner_refuted`: the same happens for a positive definite matrix with an indefinite preconditioner, which is accepted.
* `C86_exact_refuted`: two networks with the same predictions for all weights, one calling a linear layer once for two positions, the other once per position, get different KFAC matrices: the second has twice the first, which is the GGN. The scaling of the input factor by the number of positions is applied per call (kfac.py 702 and 717). `C86_forward_only_exact_refuted`: the same for forward-only factors. `C86_forward_only_unused`: with forward-only factors, a selected layer that is never called is noticed only by the first product (KeyError).
* (text) `pyproject.toml` allows every SciPy below 2.0, but `inverse.py` 70-77 passes `tol`, an argument that SciPy's `cg` no longer has since 1.14.
* KFAC's determinism check multiplies twice with the same cached factors, so it accepts factors that are not reproducible (e.g. Monte-Carlo
  KFAC on a shuffling loader, which the MC-Fisher operator rejects); the default check freezes the matrix at construction, without it the
  parameters at the first use count; a constructor that raises in the factor computation leaves hooks that break every later
  operator on the model; `from_state_dict` with the check fills the saved operator's factors from the new data (C87).
* `mc_samples=0` raises ZeroDivisionError (C17).
* An empty loader raises StopIteration in the constructor.  A one-shot iterator is accepted: the constructor drops its
  first batch, counting the data consumes the rest and the operator is zero; with the determinism check NameError (C83).
* The log-spectrum docs speak of the density of log(|A| + eps), the returned values are a density of |A| + eps (C66);
  boundaries such as (-3, 1) become (3, 1), a negative width and a negative density (C69); `fast_lanczos` updates in place
  and corrupts the iteration if `A @ v` returns a view of `v` (C64).
* The determinism check rejects reordered batches whose gradients cancel, because of rounding alone, although the class does not
  ask for a fixed order (C84).
* (text) the docstring of `functorch_gradient_and_loss` announces (loss, gradient), the code returns (gradient, loss).
* Parameters that a batch does not use (e.g. of a head that is active for some inputs only) make `gradient_and_loss`, and with it the
  default determinism check of the constructor, raise RuntimeError instead of contributing zero gradients (C90).
* `example_submatrices.py`: the test of the off-diagonal block (173–176) multiplies the reference block instead of the operator with
  the identity, so that it accepts every operator (`C92_test_refuted`); `extract_block` returns an empty block for the index −1, while −2,
  −3, … count from the end (`C92_last_refuted`, `C92_from_the_end`); a block of a parameter without entries cannot be multiplied with the
  identity (`C92_empty_parameter_refuted`).
* `power_method` (`example_eigenvalues.py`): the docstring promises descending order and shape `[D, k]`; the code returns
  the reversed order of computation and shape `[k, D]` (C91_order_refuted, C91_shape_refuted).  The stopping rule compares two
  consecutive quotients, which are close whenever the start vector is nearly orthogonal to the leading eigenvector
  (C91_early_stop_refuted); with `max_iterations=0` the eigenvalues are `None` (C91_no_iterations).

## 7. Tests of the theorems against wrong programs

`seeded/LOG.jsonl` lists edits of the model (one per line), the claim each breaks, the theorems that failed and the theorems
that were tightened because of it.  Edits were made in a scratch copy and the whole development rebuilt.
