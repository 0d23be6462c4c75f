{
 "claims": [
  {
   "property": "C01",
   "status": "proved",
   "theorems": [
    "C01_documented_inputs_are_multiplied",
    "C01_formats",
    "C01_other_inputs_are_rejected",
    "C01_formats_exclusive"
   ],
   "note": ""
  },
  {
   "property": "C02",
   "status": "proved",
   "theorems": [
    "C02_result_format"
   ],
   "note": ""
  },
  {
   "property": "C03",
   "status": "proved",
   "theorems": [
    "C03_formats_agree"
   ],
   "note": ""
  },
  {
   "property": "C04",
   "status": "proved",
   "theorems": [
    "C04_bad_output_rejected"
   ],
   "note": ""
  },
  {
   "property": "C05",
   "status": "proved",
   "theorems": [
    "C05_activation_hessian_self_adjoint",
    "C05_hessian_self_adjoint",
    "C05_block_hessian_self_adjoint",
    "C05_ggn_self_adjoint",
    "C05_empirical_fisher_self_adjoint",
    "C05_monte_carlo_fisher_self_adjoint",
    "C05_jacobian_adjoint",
    "C05_kfac_self_adjoint",
    "C05_kfac_inverse_self_adjoint",
    "C05_kfac_exact_inverse_self_adjoint",
    "C05_adjoint_transpose"
   ],
   "note": "adjoint() of any class that keeps its SELF_ADJOINT contract is the transpose (C05_adjoint_transpose); self-adjointness proved for Hessian (whole and block-diagonal), GGN, empirical and Monte-Carlo Fisher, KFAC, inverse KFAC (all dampings) and the activation Hessian; the Jacobian pair keeps the contract. Second derivatives must be continuous where symmetry rests on Schwarz."
  },
  {
   "property": "C06",
   "status": "proved",
   "theorems": [
    "C06_scipy_export"
   ],
   "note": ""
  },
  {
   "property": "C07",
   "status": "partial",
   "theorems": [
    "C07_integer_arrays_refuted",
    "C07_result_is_cast_product_partial"
   ],
   "note": "The integer-array case is refuted (C07_integer_arrays_refuted: the exported operator truncates the result to the input dtype); the proved part gives the exact result as the cast of the product."
  },
  {
   "property": "C08",
   "status": "partial",
   "theorems": [
    "C08_hessian",
    "C08_ggn",
    "C08_ef",
    "C08_mc",
    "C08_jacobian",
    "C08_kfac",
    "C08_repeatable",
    "C08_kfac_inverse_partial",
    "C08_kfac_inverse_values",
    "C08_kfac_inverse_overwrites",
    "C08_kfac_inverse_list_refuted",
    "C08_submatrix",
    "C08_outer",
    "C08_neumann"
   ],
   "note": "Tensors as views of buffers, lists as objects: Hessian, GGN, EF, MC-Fisher (any draws), Jacobian and transposed Jacobian, KFAC leave all existing memory unchanged in every format and when raising, return fresh memory and the values of the value-level model. Inverse KFAC: proved for tensors and list vectors; for list-format matrices the code overwrites the caller's list (C08_kfac_inverse_list_refuted, C08_kfac_inverse_overwrites). SciPy-side operators on NumPy memory (strided views): Submatrix, Outer product and Neumann inverse, also wrapped in one another, leave existing memory unchanged, return new memory and the values of the value-level model."
  },
  {
   "property": "C09",
   "status": "proved",
   "theorems": [
    "C09_split_list_partitions",
    "C09_split_list_wrong_total"
   ],
   "note": ""
  },
  {
   "property": "C10",
   "status": "partial",
   "theorems": [
    "C10_submatrix_products",
    "C10_single_column_refuted"
   ],
   "note": "Holds for vectors and for matrices with K <> 1 columns; (n,1) matrices are refuted by C10_single_column_refuted."
  },
  {
   "property": "C11",
   "status": "proved",
   "theorems": [
    "C11_submatrix_adjoint"
   ],
   "note": ""
  },
  {
   "property": "C12",
   "status": "partial",
   "theorems": [
    "C12_list_by_reference_refuted",
    "C12_validation_exact",
    "C12_accepted",
    "C12_last_valid_setting",
    "C12_bools_are_integers_refuted"
   ],
   "note": "Validation characterised exactly; booleans are accepted as integers (C12_bools_are_integers_refuted). C12_list_by_reference_refuted: index lists are kept by reference, so changing the caller's list later gives products with invalid indices."
  },
  {
   "property": "C13",
   "status": "partial",
   "theorems": [
    "C13_outer_product",
    "C13_projector",
    "C13_outer_column_refuted"
   ],
   "note": "Holds for vectors; matrix and column products fail (C13_outer_column_refuted)."
  },
  {
   "property": "C14",
   "status": "proved",
   "theorems": [
    "C14_hessian_of_empirical_risk"
   ],
   "note": ""
  },
  {
   "property": "C15",
   "status": "proved",
   "theorems": [
    "C15_ggn_of_empirical_risk"
   ],
   "note": ""
  },
  {
   "property": "C16",
   "status": "proved",
   "theorems": [
    "C16_empirical_fisher",
    "C16_unsupported_loss"
   ],
   "note": ""
  },
  {
   "property": "C17",
   "status": "proved",
   "theorems": [
    "C17_monte_carlo_fisher",
    "C17_non_binary_labels",
    "C17_zero_samples_refuted",
    "C17_would_be_gradients"
   ],
   "note": "Every draw sequence, loader and format. C17_zero_samples_refuted: mc_samples = 0 raises ZeroDivisionError in the product."
  },
  {
   "property": "C18",
   "status": "proved",
   "theorems": [
    "C18_second_moment",
    "C18_closed_form",
    "C18_expected_product"
   ],
   "note": "Expectation over the generator state is any linear functional with E 1 = 1; torch's samplers are trusted to have the right first and second moments (hypothesis mc_law, met in C18_ex)."
  },
  {
   "property": "C19",
   "status": "proved",
   "theorems": [
    "C19_hessian_batching",
    "C19_ggn_batching",
    "C19_gradient_and_loss_batching",
    "C19_empirical_fisher_batching"
   ],
   "note": ""
  },
  {
   "property": "C20",
   "status": "proved",
   "theorems": [
    "C20_gradient_and_loss",
    "C20_no_loss_function"
   ],
   "note": ""
  },
  {
   "property": "C21",
   "status": "proved",
   "theorems": [
    "C21_block_diagonal",
    "C21_block_sizes_rejected",
    "C21_blocks_unsupported"
   ],
   "note": ""
  },
  {
   "property": "C22",
   "status": "proved",
   "theorems": [
    "C22_inferred_num_data",
    "C22_num_data_scaling",
    "C22_ggn_num_data_scaling",
    "C22_empirical_fisher_num_data"
   ],
   "note": ""
  },
  {
   "property": "C23",
   "status": "proved",
   "theorems": [
    "C23_jacobian",
    "C23_transposed_jacobian",
    "C23_no_columns_raises",
    "C23_wrong_num_data_raises",
    "C23_large_num_data_ignored_refuted"
   ],
   "note": "K>=1 columns (K=0 always raises: C23_no_columns_raises). A too large num_data makes the transpose ignore rows silently (C23_large_num_data_ignored_refuted)."
  },
  {
   "property": "C24",
   "status": "proved",
   "theorems": [
    "C24_adjoint_identity",
    "C24_adjoint_involution"
   ],
   "note": ""
  },
  {
   "property": "C25",
   "status": "proved",
   "theorems": [
    "C25_history_independent",
    "C25_same_device",
    "C25_device_after_moves",
    "C25_columns"
   ],
   "note": ""
  },
  {
   "property": "C26",
   "status": "partial",
   "theorems": [
    "C26_total_loss_refuted",
    "C26_equal_totals_rejected_refuted",
    "C26_extra_batches_refuted",
    "C26_extra_batches_first_refuted",
    "C26_single_batch_partial"
   ],
   "note": "Refuted for two or more batches: the final comparison uses the losses of the last batch instead of the totals (C26_total_loss_refuted, C26_equal_totals_rejected_refuted) and zip cuts off the longer pass, whichever of the two it is (C26_extra_batches_refuted, C26_extra_batches_first_refuted; of a longer first pass the first extra batch is still computed). Proved for one batch."
  },
  {
   "property": "C27",
   "status": "proved",
   "theorems": [
    "C27_outcome",
    "C27_deterministic_passes",
    "C27_gradient_difference_caught",
    "C27_probe_difference_caught",
    "C27_batch_difference_caught",
    "C27_nan_gradient_caught",
    "C27_broadcast_refuted",
    "C27_dict_keys_refuted"
   ],
   "note": "Exact outcome for comparable passes (same shapes and keys); broadcasting and unmatched dict keys are documented by C27_broadcast_refuted and C27_dict_keys_refuted."
  },
  {
   "property": "C28",
   "status": "proved",
   "theorems": [
    "C28_device_restored",
    "C28_to_device_moves",
    "C28_state_restored",
    "C28_function_params_refuted"
   ],
   "note": "Device attribute restored for every outcome; for Modules the whole parameter state; for plain functions on another device the parameter objects change (C28_function_params_refuted)."
  },
  {
   "property": "C29",
   "status": "proved",
   "theorems": [
    "C29_accepted_iff",
    "C29_rejected",
    "C29_positions",
    "C29_every_position"
   ],
   "note": ""
  },
  {
   "property": "C30",
   "status": "proved",
   "theorems": [
    "C30_kfac_product",
    "C30_computed"
   ],
   "note": "Factors are assumed to be square of the right size and the input factors symmetric (the loop multiplies X A, not X A^T); C32 shows the computed ones are."
  },
  {
   "property": "C31",
   "status": "partial",
   "theorems": [
    "C31_tied_weight_refuted",
    "C31_last_layer_partial",
    "C31_trace_partial",
    "C31_not_symmetric_refuted",
    "C31_inverse_sequence_partial",
    "C31_inverse_refuted",
    "C31_det_partial",
    "C31_frobenius_partial",
    "C31_logdet_partial"
   ],
   "note": "Refuted: for layers sharing a parameter the product takes the parameter's rows from the last layer only (C31_last_layer_partial, all networks), trace and the squared Frobenius norm add all layers' blocks (C31_trace_partial, C31_frobenius_partial), det multiplies their determinants and logdet adds the logarithms (C31_det_partial, C31_logdet_partial), and the inverse operator applies the inverses of all layers one after the other (C31_inverse_sequence_partial); so trace and det (C31_tied_weight_refuted) and the inverse (C31_inverse_refuted) describe other matrices than the product. With biases treated jointly the operator is not even symmetric, although adjoint() returns it (C31_not_symmetric_refuted)."
  },
  {
   "property": "C32",
   "status": "proved",
   "theorems": [
    "C32_empirical",
    "C32_monte_carlo",
    "C32_forward_only",
    "C32_type2",
    "C32_type2_ggn",
    "C32_batching",
    "C32_type2_cross_terms_refuted"
   ],
   "note": "For all networks whose layers meet fits_geometry (linear layers with any leading shared axes, 2d convolutions with any kernel, stride, padding, dilation, groups), both approximations, all four fisher types, both reductions, all loaders of non-empty batches. Input factor and gradient factor in closed form; order and batching do not matter (C32_batching). Type-2 with several loss terms that read the same position mixes the terms (C32_type2_cross_terms_refuted); without mixing it is the Gauss-Newton factor (C32_type2_ggn). Layers called more than once per pass are not modelled."
  },
  {
   "property": "C33",
   "status": "proved",
   "theorems": [
    "C33_positive_semidefinite",
    "C33_computed"
   ],
   "note": "C33_computed: for every network meeting network_ok and every fisher type, the operator with the factors computed from the data is self-adjoint and positive semi-definite over the reals. C33_positive_semidefinite: same for any stored factors that are non-negatively weighted sums of outer products, over any ordered field."
  },
  {
   "property": "C34",
   "status": "proved",
   "theorems": [
    "C34_trace"
   ],
   "note": ""
  },
  {
   "property": "C35",
   "status": "proved",
   "theorems": [
    "C35_det"
   ],
   "note": ""
  },
  {
   "property": "C36",
   "status": "proved",
   "theorems": [
    "C36_logdet"
   ],
   "note": ""
  },
  {
   "property": "C37",
   "status": "proved",
   "theorems": [
    "C37_frobenius_norm",
    "C37_operators_have_parameters"
   ],
   "note": "The constructor rejects an empty parameter list, so the norm is defined in every reachable state (C37_operators_have_parameters)."
  },
  {
   "property": "C38",
   "status": "partial",
   "theorems": [
    "C38_properties_match_product",
    "C38_reads_agree",
    "C38_foreign_state_refuted"
   ],
   "note": "Proved for all histories of constructing, products, property reads, saving, loading states of operators with the same mapping, restoring, copying and training, in which no factor computation or read raises; loads may be rejected, except by the check of the operator's own keys, which comes after the settings were overwritten (C40_settings_overwritten_refuted). Loading a state saved for other parameters is accepted and breaks it (C38_foreign_state_refuted); device moves are not in this state machine (C77, C78 have them; they change no value)."
  },
  {
   "property": "C39",
   "status": "partial",
   "theorems": [
    "C39_from_state_dict",
    "C39_load_state_dict",
    "C39_same_behaviour",
    "C39_bias_only_refuted",
    "C39_loss_subclass_refuted"
   ],
   "note": "from_state_dict and load_state_dict restore settings, factors, cached values and products (C39_from_state_dict, C39_load_state_dict, C39_same_behaviour). load_state_dict needs the target's own factor keys to be complete: an operator with a layer that has only its bias selected rejects its own state (C39_bias_only_refuted). state_dict raises for loss subclasses (C39_loss_subclass_refuted)."
  },
  {
   "property": "C40",
   "status": "partial",
   "theorems": [
    "C40_loss_mismatch_partial",
    "C40_foreign_layers_accepted_refuted",
    "C40_settings_overwritten_refuted",
    "C40_model_overwritten_refuted"
   ],
   "note": "For a loss mismatch the settings, factors and cached values are unchanged, but the model parameters are overwritten (C40_model_overwritten_refuted). After a key mismatch the settings are overwritten (C40_settings_overwritten_refuted). States for other layers are accepted (C40_foreign_layers_accepted_refuted)."
  },
  {
   "property": "C41",
   "status": "partial",
   "theorems": [
    "C41_snapshot_partial",
    "C41_independent_partial",
    "C41_live_dictionaries_refuted",
    "C41_live_parameters_refuted",
    "C41_shared_restore_refuted"
   ],
   "note": "Holds for states saved after the factors were computed. States saved before change when the factors are computed (C41_live_dictionaries_refuted), parameters are live (C41_live_parameters_refuted) and operators restored from such a state share their factors (C41_shared_restore_refuted)."
  },
  {
   "property": "C42",
   "status": "partial",
   "theorems": [
    "C42_reported_partial",
    "C42_success_leaves_no_trace",
    "C42_partial_factors_refuted",
    "C42_retry_doubles_refuted",
    "C42_hooks_stay_refuted",
    "C42_zero_trace_refuted"
   ],
   "note": "A successful computation leaves models, hooks, saved states and other operators as they were (C42_success_leaves_no_trace). An exception is reported by the call and no cached value survives. The rest is refuted: partial factors are used (C42_partial_factors_refuted), a retry doubles the factors (C42_retry_doubles_refuted), hooks stay and change other operators (C42_hooks_stay_refuted), trace can return 0 (C42_zero_trace_refuted)."
  },
  {
   "property": "C43",
   "status": "proved",
   "theorems": [
    "C43_accepted_iff",
    "C43_rejected"
   ],
   "note": ""
  },
  {
   "property": "C44",
   "status": "proved",
   "theorems": [
    "C44_square_root",
    "C44_one_class_refuted",
    "C44_rejects",
    "C44_rejects_targets",
    "C44_documented_formula_refuted"
   ],
   "note": "All three losses, both reductions. Classifiers with one class are refused (C44_one_class_refuted); the root documented for cross-entropy is the transpose of the one returned and is not a root (C44_documented_formula_refuted)."
  },
  {
   "property": "C45",
   "status": "proved",
   "theorems": [
    "C45_type2",
    "C45_type2_one_datum",
    "C45_deep_linear",
    "C45_empirical_one_datum",
    "C45_monte_carlo_one_datum",
    "C45_forward_only"
   ],
   "note": "For every network meeting network_ok and layers that are affine maps followed by a differentiable rest (layers_ok), with one datum: all parameter blocks KFAC keeps (weight, bias, and jointly) equal those of the GGN, empirical Fisher and Monte-Carlo Fisher matrix for KFAC's own drawn labels. Layers with one position, or KFAC-reduce when the predictions use all positions equally. Several loss terms must not read the same position (C32_type2_cross_terms_refuted shows why). C45_deep_linear: squared error and predictions linear in each layer's output: exact for any data, also KFAC-expand with one loss term per position. C45_forward_only: single output layer, scaled."
  },
  {
   "property": "C46",
   "status": "proved",
   "theorems": [
    "C46_patch_content",
    "C46_average_content",
    "C46_mean",
    "C46_convolution",
    "C46_uneven_same_padding",
    "C46_positions",
    "C46_average_positions"
   ],
   "note": "All kernel sizes, strides, dilations, integer and 'same'/'valid' paddings; grouped convolutions average over the groups; C46_convolution links the patches with the convolution for groups=1. Uneven 'same' padding is refused by one function and accepted by the other (C46_uneven_same_padding). C46_positions: the patches are those of exactly the positions at which the dilated kernel fits into the padded image."
  },
  {
   "property": "C47",
   "status": "proved",
   "theorems": [
    "C47_inferred",
    "C47_average",
    "C47_given",
    "C47_no_data",
    "C47_uneven_refuted"
   ],
   "note": "Inferred value is the average number of terms, ValueError if not whole. Data with different numbers of terms are accepted when the average is whole (C47_uneven_refuted)."
  },
  {
   "property": "C48",
   "status": "partial",
   "theorems": [
    "C48_indefinite_refuted",
    "C48_indefinite_raises",
    "C48_inverts_damped_factors",
    "C48_inverse"
   ],
   "note": "Proved for every network without shared parameters, every cache content, every damping for which the decompositions succeed (C48_inverts_damped_factors), and for all positive semi-definite factors with non-negative dampings whose damped factors are invertible (C48_inverse). Refuted for invertible damped factors that are not positive definite, e.g. negative damping: every product raises (C48_indefinite_raises, C48_indefinite_refuted)."
  },
  {
   "property": "C49",
   "status": "proved",
   "theorems": [
    "C49_psd",
    "C49_exact_damping"
   ],
   "note": "Whenever KFAC + d I has an inverse (C49_exact_damping); for positive semi-definite factors and d > 0 it has one (C49_psd). Contract: torch.linalg.eigh returns orthonormal eigenvectors and eigenvalues of symmetric matrices."
  },
  {
   "property": "C50",
   "status": "partial",
   "theorems": [
    "C50_values",
    "C50_plain",
    "C50_negative",
    "C50_zero_inputs_refuted",
    "C50_below_minimum_refuted",
    "C50_inverse"
   ],
   "note": "Values proved for positive traces, and that the operator then inverts the factors damped with them. Refuted: inputs with trace zero give an infinite or nan damping (C50_zero_inputs_refuted); gradients with trace zero give dampings below min_damping (C50_below_minimum_refuted)."
  },
  {
   "property": "C51",
   "status": "partial",
   "theorems": [
    "C51_caching_unobservable_partial",
    "C51_product_current_partial",
    "C51_stale_refuted",
    "C51_hooks_refuted",
    "C51_shared_refuted"
   ],
   "note": "Erasure/simulation proof over all histories of any number of models, KFAC operators, inverse operators and saved states (products, saves, loads, copies, training; loads may be rejected): the program with cache=False sees the same outcomes and products. Partial because the claim is false of the code when factors are replaced under an inverse operator that did not do the load: C51_stale_refuted (A.load_state_dict) and C51_shared_refuted (two inverses on one KFAC operator), and after an exception in a factor computation, whose hooks let another operator change the factors (C51_hooks_refuted)."
  },
  {
   "property": "C52",
   "status": "proved",
   "theorems": [
    "C52_accepted_iff",
    "C52_rejected",
    "C52_from_state_dict",
    "C52_load_state_dict",
    "C52_same_behaviour",
    "C52_failed_load"
   ],
   "note": "Constructor checks (accepted iff, ValueError otherwise) and the state round trip: from_state_dict/load_state_dict of a saved inverse operator succeed on every KFAC operator for the same parameters and give equal settings, cached inverses, factors, events and products. Inherits C39's limits for the inner KFAC state (loss subclasses, stale keys)."
  },
  {
   "property": "C53",
   "status": "proved",
   "theorems": [
    "C53_attempts",
    "C53_error_of_factor",
    "C53_nothing_cached",
    "C53_first_error"
   ],
   "note": "Attempts, warnings and precision for every failure pattern of the decomposition; nothing cached for a failing layer, whatever the outcome of the product."
  },
  {
   "property": "C54",
   "status": "proved",
   "theorems": [
    "C54_neumann_series",
    "C54_neumann_error"
   ],
   "note": ""
  },
  {
   "property": "C55",
   "status": "proved",
   "theorems": [
    "C55_check_nan_exact",
    "C55_no_check",
    "C55_checked_result",
    "C55_zero_terms_unchecked_refuted"
   ],
   "note": "Exact characterisation; with zero terms the input is never checked (C55_zero_terms_unchecked_refuted)."
  },
  {
   "property": "C56",
   "status": "proved",
   "theorems": [
    "C56_columns",
    "C56_no_columns_refuted"
   ],
   "note": "K>=2 columns; a matrix without columns always raises ValueError (C56_no_columns_refuted)."
  },
  {
   "property": "C57",
   "status": "proved",
   "theorems": [
    "C57_cg_latest",
    "C57_cg_default",
    "C57_lsmr_latest",
    "C57_lsmr_default",
    "C57_lsmr_one_iteration",
    "C57_lsmr_default_refuted"
   ],
   "note": "Which dictionary the external solver receives after every history. C57_lsmr_default_refuted: with the default conlim = 1e-8 a solver that observes the documented condition limit returns its first iterate, which is far from the solution already for diag(1, 2)."
  },
  {
   "property": "C58",
   "status": "proved",
   "theorems": [
    "C58_trace_unbiased_rademacher",
    "C58_trace_unbiased_normal",
    "C58_constructor_and_distribution"
   ],
   "note": ""
  },
  {
   "property": "C59",
   "status": "proved",
   "theorems": [
    "C59_diagonal_unbiased_rademacher",
    "C59_diagonal_unbiased_normal",
    "C59_diagonal_exact"
   ],
   "note": ""
  },
  {
   "property": "C60",
   "status": "proved",
   "theorems": [
    "C60_frobenius_unbiased_rademacher",
    "C60_frobenius_unbiased_normal"
   ],
   "note": ""
  },
  {
   "property": "C61",
   "status": "proved",
   "theorems": [
    "C61_unbiased_rademacher",
    "C61_unbiased_normal",
    "C61_exact_on_subspace"
   ],
   "note": ""
  },
  {
   "property": "C62",
   "status": "partial",
   "theorems": [
    "C62_subspace_computed_once_partial",
    "C62_interrupted_subspace_refuted"
   ],
   "note": "Without failures the subspace is computed once; an interrupted first call leaves a half-computed subspace (C62_interrupted_subspace_refuted)."
  },
  {
   "property": "C63",
   "status": "proved",
   "theorems": [
    "C63_basis_dimension",
    "C63_degenerate_refuted"
   ],
   "note": "Degenerate cases dim=0 and basis_dim<=0 are findings (C63_degenerate_refuted)."
  },
  {
   "property": "C64",
   "status": "proved",
   "theorems": [
    "C64_lanczos",
    "C64_breakdown",
    "C64_in_place",
    "C64_returned_views_refuted"
   ],
   "note": "fast_lanczos function by function; V^T V = I and V^T A V tri-diagonal with the coefficients handed to the eigen-solver, for every size, start vector and ncv, over any real-closed field. C64_breakdown: for ncv > n an off-diagonal coefficient vanishes, so the condition of the claim cannot hold. C64_in_place: the in-place updates of vectors give the same run on a memory of views, if A @ v returns new memory; C64_returned_views_refuted: otherwise the coefficients are corrupted."
  },
  {
   "property": "C65",
   "status": "proved",
   "theorems": [
    "C65_moments",
    "C65_weights_sum_to_one"
   ],
   "note": "Gauss quadrature exactness up to degree 2*ncv-1 from the contracts of eigh/eigh_tridiagonal (eigenvalues and orthonormal eigenvectors of the matrix they are given)."
  },
  {
   "property": "C66",
   "status": "proved",
   "theorems": [
    "C66_spectrum",
    "C66_log_spectrum",
    "C66_kappa",
    "C66_one_vector_refuted",
    "C66_log_grid_refuted"
   ],
   "note": "Grid, closed form and sign of the densities over the reals, plain and logarithmic; meaning of kappa. C66_one_vector_refuted: ncv = 1 divides by zero. C66_log_grid_refuted: the returned log-spectrum is not a density over the logarithmic grid the documentation names."
  },
  {
   "property": "C67",
   "status": "proved",
   "theorems": [
    "C67_average",
    "C67_log_average",
    "C67_cached_agrees",
    "C67_cached_log_agrees",
    "C67_no_repetitions",
    "C67_default_kappa_refuted"
   ],
   "note": "Running average = arithmetic mean, classes agree with functions, plain and logarithmic. Findings: default kappa of the logarithmic function and class differ (C67_default_kappa_refuted), zero repetitions raise different errors (C67_no_repetitions)."
  },
  {
   "property": "C68",
   "status": "proved",
   "theorems": [
    "C68_runs_are_kept",
    "C68_number_of_runs",
    "C68_first_runs",
    "C68_repeated_call",
    "C68_negative_repetitions_refuted"
   ],
   "note": "All histories of calls with any repetitions and hyper-parameters, other users of the random numbers in between. Findings: negative numbers of repetitions are accepted and return negated densities (C68_negative_repetitions_refuted)."
  },
  {
   "property": "C69",
   "status": "proved",
   "theorems": [
    "C69_given",
    "C69_missing",
    "C69_missing_abs",
    "C69_solver_fails",
    "C69_number_of_calls",
    "C69_estimates",
    "C69_negative_minimum_refuted"
   ],
   "note": "Values, number and arguments of the eigen-solver calls; what the estimates are for an exact solver. C69_negative_minimum_refuted: boundaries (lo, hi) with lo < -hi give negative densities."
  },
  {
   "property": "C70",
   "status": "proved",
   "theorems": [
    "C70_hooks_restored",
    "C70_failing_forward"
   ],
   "note": "Any sequence of constructions, shape reads and products, over arbitrary forward programs that may raise anywhere, catch exceptions, and carry hooks of the user that raise or replace outputs. Forward passes that themselves install hooks are not modelled."
  },
  {
   "property": "C71",
   "status": "partial",
   "theorems": [
    "C71_number_of_batches",
    "C71_single_batch",
    "C71_mapping_refuted"
   ],
   "note": "Number of batches proved; the \"only if\" direction fails: a single batch whose X is a mapping is always rejected with ValueError, because the class has no batch_size_fn argument (C71_mapping_refuted)."
  },
  {
   "property": "C72",
   "status": "proved",
   "theorems": [
    "C72_item",
    "C72_rejected",
    "C72_accepted",
    "C72_known_names",
    "C72_watched_module",
    "C72_last_call",
    "C72_not_called",
    "C72_single_tensor_index"
   ],
   "note": "Any forward program. All calls of the module (not only the last one) must have the requested element. A module that is never called: IndexError (C72_not_called)."
  },
  {
   "property": "C73",
   "status": "partial",
   "theorems": [
    "C73_blocks_to_matrix",
    "C73_hessian",
    "C73_gradient_and_loss",
    "C73_ggn",
    "C73_jacobian",
    "C73_empirical_fisher",
    "C73_empirical_fisher_scalar_refuted",
    "C73_jacobian_scalar_refuted",
    "C73_empty_parameter_refuted",
    "C73_parameter_values",
    "C73_other_values"
   ],
   "note": "blocks_to_matrix, and agreement of the reference Hessian, GGN, gradient/loss, Jacobian and empirical Fisher with the operators, for models with any number of distinct parameters on one device and data given as tensors or mappings whose other keys the model ignores. Fails in the code for parameters without axes (C73_jacobian_scalar_refuted, C73_empirical_fisher_scalar_refuted) and for parameters without elements (C73_empty_parameter_refuted); the operators accept both."
  },
  {
   "property": "C74",
   "status": "proved",
   "theorems": [
    "C74_expectation",
    "C74_equals_type2"
   ],
   "note": "Moments of one draw are the assumed contract of torch's samplers; C74_ex gives a generator meeting it."
  },
  {
   "property": "C75",
   "status": "proved",
   "theorems": [
    "C75_expected_moments"
   ],
   "note": "Expectation as a positive linear normalised functional with E[v v^T] = I/n."
  },
  {
   "property": "C76",
   "status": "proved",
   "theorems": [
    "C76_any_model",
    "C76_sequential",
    "C76_network_input_refuted"
   ],
   "note": "General computation graphs (tape with parents, detached operations, requires_grad flags) and closed form for Sequential networks of any depth. Finding: the operator for the network input can be constructed but every product raises RuntimeError (C76_network_input_refuted). Derivatives are exact partial derivatives of the recomputed graph."
  },
  {
   "property": "C77",
   "status": "proved",
   "theorems": [
    "C77_infer",
    "C77_to_device",
    "C77_products",
    "C77_constructor"
   ],
   "note": "Contents of tensors are opaque; PyTorch's rule that operations on tensors of different devices raise is part of the model."
  },
  {
   "property": "C78",
   "status": "partial",
   "theorems": [
    "C78_shared_module_refuted",
    "C78_function_check_refuted",
    "C78_uncached_inverse",
    "C78_cached_inverse_refuted",
    "C78_export",
    "C78_exported_before_move_refuted",
    "C78_loaded_state_refuted"
   ],
   "note": "Proved for inverse operators without cache and for exports made after the move. Refuted: other operators on the same module raise (C78_shared_module_refuted), cached inverses stay on the old device (C78_cached_inverse_refuted), so do earlier exports (C78_exported_before_move_refuted), loaded factors stay where they were (C78_loaded_state_refuted), and the default determinism check raises for functions on other devices than the CPU (C78_function_check_refuted)."
  },
  {
   "property": "C79",
   "status": "proved",
   "theorems": [
    "C79_trace_rademacher",
    "C79_trace_normal",
    "C79_diagonal_rademacher",
    "C79_diagonal_normal",
    "C79_frobenius_rademacher",
    "C79_frobenius_normal",
    "C79_hutchpp_rademacher",
    "C79_hutchpp_normal",
    "C79_hutchpp_not_worse"
   ],
   "note": ""
  },
  {
   "property": "C80",
   "status": "proved",
   "theorems": [
    "C80_kfac",
    "C80_hessian",
    "C80_ggn",
    "C80_gradient",
    "C80_empirical_fisher",
    "C80_monte_carlo_fisher",
    "C80_jacobian",
    "C80_submatrix"
   ],
   "note": "All parameter selections and orders, also for KFAC (C80_kfac: number of data counted, not given; the draws of the Monte-Carlo type are the same for both)."
  },
  {
   "property": "C81",
   "status": "proved",
   "theorems": [
    "C81_hessian_is_ggn_plus_residual",
    "C81_hessian_equals_ggn",
    "C81_ggn_positive_semidefinite",
    "C81_ggn_supported_losses",
    "C81_empirical_fisher",
    "C81_hessian_of_affine_network",
    "C81_monte_carlo_fisher"
   ],
   "note": ""
  },
  {
   "property": "C82",
   "status": "proved",
   "theorems": [
    "C82_hessian_hutchinson",
    "C82_hessian_neumann",
    "C82_hessian_lanczos",
    "C82_empirical_fisher"
   ],
   "note": ""
  },
  {
   "property": "C83",
   "status": "partial",
   "theorems": [
    "C83_empty",
    "C83_iterator_counted",
    "C83_iterator_given",
    "C83_iterator_checked",
    "C83_iterator_compared",
    "C83_traversals",
    "C83_hessian",
    "C83_ggn",
    "C83_empirical_fisher",
    "C83_iterator_refuted"
   ],
   "note": "Proved for re-iterable sources, empty sources and the number of passes. The part on one-shot iterators is refuted: without the check the first batch is dropped (peeked at by the constructor) and the operator is zero, with num_data given only the first product sees the remaining batches; with the check NameError. C83_iterator_counted/_given/_checked say what happens. C83_iterator_compared: with num_data given, the check compares the second batch with the third."
  },
  {
   "property": "C84",
   "status": "partial",
   "theorems": [
    "C84_single_precision",
    "C84_cancellation_refuted",
    "C84_products",
    "C84_order",
    "C84_relative",
    "C84_gradient_and_loss",
    "C84_exact_arithmetic",
    "C84_check_accepts"
   ],
   "note": "Error bounds proved for products, gradient and loss; overflow, underflow and the rounding inside the batch computations are not modelled. The check accepts reordered batches if their gradients do not cancel (C84_check_accepts; up to 200 batches of one sign in single precision, C84_single_precision); in general it does not (C84_cancellation_refuted)."
  },
  {
   "property": "C85",
   "status": "partial",
   "theorems": [
    "C85_cg_solves",
    "C85_cg_default",
    "C85_cg_energy",
    "C85_exact_preconditioner",
    "C85_preconditioner_shape",
    "C85_cg_columns",
    "C85_unconverged_refuted",
    "C85_indefinite_refuted",
    "C85_indefinite_preconditioner_refuted",
    "C85_damped_ggn"
   ],
   "note": "SciPy's conjugate gradient iteration is modelled in exact arithmetic (only division by zero is external). Proved for positive definite operators, including the damped GGN, without preconditioner or with any symmetric positive definite one (one iteration suffices if it is the inverse); refuted in part: an unconverged result is returned without a report (C85_unconverged_refuted), and for indefinite invertible matrices the first step can divide by zero (C85_indefinite_refuted), as it can for indefinite preconditioners (C85_indefinite_preconditioner_refuted)."
  },
  {
   "property": "C86",
   "status": "partial",
   "theorems": [
    "C86_unused_fails",
    "C86_calls_add",
    "C86_separate_calls",
    "C86_exact_refuted",
    "C86_forward_only",
    "C86_forward_only_unused",
    "C86_forward_only_separate",
    "C86_forward_only_exact_refuted"
   ],
   "note": "The hooks are modelled for any sequence of calls, forward and backward; every call is described by its input, output and the rest of the network as a function of its output, the other calls' outputs being computed from it by the network. Refuted in part: a linear layer applied to two positions in two calls has twice the KFAC matrix of the same network with one call, which equals the GGN (C86_exact_refuted). Forward-only: C86_forward_only, _separate, _unused (a module never called gets no input factor; only products raise), and refuted by C86_forward_only_exact_refuted (twice the matrix for two calls). C86_unused_fails: parameters of no called layer (torch.autograd.grad rejects them)."
  },
  {
   "property": "C87",
   "status": "partial",
   "theorems": [
    "C87_data_rejected",
    "C87_probe_never_rejects",
    "C87_same_as_unchecked",
    "C87_frozen",
    "C87_restore_computed",
    "C87_restore_empty",
    "C87_nondeterminism_refuted",
    "C87_check_decides_matrix_refuted",
    "C87_spoiled_model_refuted",
    "C87_restore_fills_saved_refuted"
   ],
   "note": "Proved for models without left-over hooks: the check's verdict is that of the loops over the data and of the first probe product (C87_data_rejected, C87_probe_never_rejects), an accepted operator equals the unchecked one after a product (C87_same_as_unchecked, C87_frozen), restored operators (C87_restore_computed, C87_restore_empty). Refuted: the two probe products share the cached factors, so irreproducible factors pass (C87_nondeterminism_refuted); parameters changed before the first use count only without the check (C87_check_decides_matrix_refuted); a constructor that raises leaves hooks that make every later operator on the model raise (C87_spoiled_model_refuted); restoring with the check fills the dictionaries of the saved operator with factors of the new data (C87_restore_fills_saved_refuted)."
  },
  {
   "property": "C88",
   "status": "proved",
   "theorems": [
    "C88_outcome",
    "C88_report",
    "C88_swap",
    "C88_same",
    "C88_hessian_example",
    "C88_ggn_example"
   ],
   "note": "Entries are exact numbers, infinities or NaN; the ratio, maximum and minimum that are only printed are arbitrary functions. C88_hessian_example and C88_ggn_example compose C73, the SciPy export and the comparison."
  },
  {
   "property": "C89",
   "status": "proved",
   "theorems": [
    "C89_natural_gradient",
    "C89_sanity_check",
    "C89_merge",
    "C89_no_tasks",
    "C89_no_parameters",
    "C89_ggn_semidefinite",
    "C89_natural_step"
   ],
   "note": "CG as modelled for C85 (exact arithmetic, default hyperparameters); sums of SciPy operators and the sparse identity are external. C89_sanity_check covers gradients of norm at most 1, for which the documented tolerances suffice. That fisher_loss < average_loss (example_model_merging.py 238) depends on the networks and is not claimed. Without tasks or without parameters the averaging raises (C89_no_tasks, C89_no_parameters)."
  },
  {
   "property": "C90",
   "status": "proved",
   "theorems": [
    "C90_grad",
    "C90_grad_raises",
    "C90_unused_is_zero",
    "C90_gradient_and_loss",
    "C90_left_out_raises",
    "C90_no_loss",
    "C90_refines",
    "C90_hessian",
    "C90_hessian_raises",
    "C90_mlp",
    "C90_mlp_extra",
    "C90_recorded_gradient",
    "C90_double_backward",
    "C90_second_pass",
    "C90_hessian_product",
    "C90_mlp_double_backward"
   ],
   "note": "Tensors are given by their entries. The backward functions of single calls are a contract (vjp_ok), proved for linear layers, entrywise activations, the squared error and the scaling by the normalisation factor. Recorded backward passes (create_graph) and their gradients: DoubleBack.v; the backward functions of backward functions are again a contract (vjp2_ok, at all parameter values), shown for products of scalars and for linear layers, entrywise activations and the squared error, hence for fully connected networks of any depth (C90_mlp_double_backward); C90_hessian_product assumes continuous second derivatives; C90_second_pass says when the second pass returns on the model's tape, where recorded backward calls refer to all arguments of the call; torch's refer only to those needed and may report more inputs as unused. Hessian products on the tape: the first gradient must not raise (C90_hessian_raises); when it does not, the products are those of the model used for C14 (C90_hessian)."
  },
  {
   "property": "C91",
   "status": "partial",
   "theorems": [
    "C91_pairs",
    "C91_within",
    "C91_deflation",
    "C91_first",
    "C91_shape_refuted",
    "C91_eigenvectors_stay",
    "C91_no_iterations",
    "C91_more_iterations",
    "C91_converges",
    "C91_order_refuted",
    "C91_early_stop_refuted",
    "C91_hessian",
    "C91_ggn"
   ],
   "note": "Exact arithmetic; a division by a zero norm (nan in NumPy) ends the modelled run. Refuted: descending order (C91_order_refuted: the order is the reversed order of computation and depends on the start vectors), the documented shape [D, k] (C91_shape_refuted: rows are vectors), and that the top eigenvalue is found up to tol (C91_early_stop_refuted, C91_eigenvectors_stay). Convergence is proved for the first pair. C91_hessian and C91_ggn state it for exported operators in terms of the risk."
  },
  {
   "property": "C92",
   "status": "partial",
   "theorems": [
    "C92_extract_block",
    "C92_from_the_end",
    "C92_last_refuted",
    "C92_block_operator",
    "C92_index_lists",
    "C92_empty_parameter_refuted",
    "C92_hessian_blocks",
    "C92_diagonal_blocks",
    "C92_test_refuted"
   ],
   "note": "Blocks, diagonal operators and index lists are proved for all inputs. Refuted by the documented code: -1 gives an empty block (C92_last_refuted), no product with the identity for a parameter without entries (C92_empty_parameter_refuted), and the documented test of the off-diagonal block accepts every operator (C92_test_refuted)."
  }
 ]
}