{
 "C05": {
  "note": "adjoint() of any class that keeps its SELF_ADJOINT contract is the transpose (C05_adjoint_transpose); self-adjointness proved for Hessian (whole and block-diagonal), GGN, empirical and Monte-Carlo Fisher, KFAC, inverse KFAC (all dampings) and the activation Hessian; the Jacobian pair keeps the contract. Second derivatives must be continuous where symmetry rests on Schwarz.",
  "status": "proved"
 },
 "C07": {
  "note": "The integer-array case is refuted (C07_integer_arrays_refuted: the exported operator truncates the result to the input dtype); the proved part gives the exact result as the cast of the product.",
  "status": "partial"
 },
 "C08": {
  "note": "Tensors as views of buffers, lists as objects: Hessian, GGN, EF, MC-Fisher (any draws), Jacobian and transposed Jacobian, KFAC leave all existing memory unchanged in every format and when raising, return fresh memory and the values of the value-level model. Inverse KFAC: proved for tensors and list vectors; for list-format matrices the code overwrites the caller's list (C08_kfac_inverse_list_refuted, C08_kfac_inverse_overwrites). SciPy-side operators on NumPy memory (strided views): Submatrix, Outer product and Neumann inverse, also wrapped in one another, leave existing memory unchanged, return new memory and the values of the value-level model.",
  "status": "partial"
 },
 "C10": {
  "note": "Holds for vectors and for matrices with K <> 1 columns; (n,1) matrices are refuted by C10_single_column_refuted.",
  "status": "partial"
 },
 "C12": {
  "note": "Validation characterised exactly; booleans are accepted as integers (C12_bools_are_integers_refuted). C12_list_by_reference_refuted: index lists are kept by reference, so changing the caller's list later gives products with invalid indices.",
  "status": "partial"
 },
 "C13": {
  "note": "Holds for vectors; matrix and column products fail (C13_outer_column_refuted).",
  "status": "partial"
 },
 "C18": {
  "note": "Expectation over the generator state is any linear functional with E 1 = 1; torch's samplers are trusted to have the right first and second moments (hypothesis mc_law, met in C18_ex).",
  "status": "proved"
 },
 "C23": {
  "note": "K>=1 columns (K=0 always raises: C23_no_columns_raises). A too large num_data makes the transpose ignore rows silently (C23_large_num_data_ignored_refuted).",
  "status": "proved"
 },
 "C26": {
  "note": "Refuted for two or more batches: the final comparison uses the losses of the last batch instead of the totals (C26_total_loss_refuted, C26_equal_totals_rejected_refuted) and zip cuts off the longer pass, whichever of the two it is (C26_extra_batches_refuted, C26_extra_batches_first_refuted; of a longer first pass the first extra batch is still computed). Proved for one batch.",
  "status": "partial"
 },
 "C27": {
  "note": "Exact outcome for comparable passes (same shapes and keys); broadcasting and unmatched dict keys are documented by C27_broadcast_refuted and C27_dict_keys_refuted.",
  "status": "proved"
 },
 "C28": {
  "note": "Device attribute restored for every outcome; for Modules the whole parameter state; for plain functions on another device the parameter objects change (C28_function_params_refuted).",
  "status": "proved"
 },
 "C30": {
  "note": "Factors are assumed to be square of the right size and the input factors symmetric (the loop multiplies X A, not X A^T); C32 shows the computed ones are.",
  "status": "proved"
 },
 "C31": {
  "note": "Refuted: for layers sharing a parameter the product takes the parameter's rows from the last layer only (C31_last_layer_partial, all networks), trace and the squared Frobenius norm add all layers' blocks (C31_trace_partial, C31_frobenius_partial), det multiplies their determinants and logdet adds the logarithms (C31_det_partial, C31_logdet_partial), and the inverse operator applies the inverses of all layers one after the other (C31_inverse_sequence_partial); so trace and det (C31_tied_weight_refuted) and the inverse (C31_inverse_refuted) describe other matrices than the product. With biases treated jointly the operator is not even symmetric, although adjoint() returns it (C31_not_symmetric_refuted).",
  "status": "partial"
 },
 "C32": {
  "note": "For all networks whose layers meet fits_geometry (linear layers with any leading shared axes, 2d convolutions with any kernel, stride, padding, dilation, groups), both approximations, all four fisher types, both reductions, all loaders of non-empty batches. Input factor and gradient factor in closed form; order and batching do not matter (C32_batching). Type-2 with several loss terms that read the same position mixes the terms (C32_type2_cross_terms_refuted); without mixing it is the Gauss-Newton factor (C32_type2_ggn). Layers called more than once per pass are not modelled.",
  "status": "proved"
 },
 "C33": {
  "note": "C33_computed: for every network meeting network_ok and every fisher type, the operator with the factors computed from the data is self-adjoint and positive semi-definite over the reals. C33_positive_semidefinite: same for any stored factors that are non-negatively weighted sums of outer products, over any ordered field.",
  "status": "proved"
 },
 "C37": {
  "note": "The constructor rejects an empty parameter list, so the norm is defined in every reachable state (C37_operators_have_parameters).",
  "status": "proved"
 },
 "C38": {
  "note": "Proved for all histories of constructing, products, property reads, saving, loading states of operators with the same mapping, restoring, copying and training, in which no factor computation or read raises; loads may be rejected, except by the check of the operator's own keys, which comes after the settings were overwritten (C40_settings_overwritten_refuted). Loading a state saved for other parameters is accepted and breaks it (C38_foreign_state_refuted); device moves are not in this state machine (C77, C78 have them; they change no value).",
  "status": "partial"
 },
 "C39": {
  "note": "from_state_dict and load_state_dict restore settings, factors, cached values and products (C39_from_state_dict, C39_load_state_dict, C39_same_behaviour). load_state_dict needs the target's own factor keys to be complete: an operator with a layer that has only its bias selected rejects its own state (C39_bias_only_refuted). state_dict raises for loss subclasses (C39_loss_subclass_refuted).",
  "status": "partial"
 },
 "C40": {
  "note": "For a loss mismatch the settings, factors and cached values are unchanged, but the model parameters are overwritten (C40_model_overwritten_refuted). After a key mismatch the settings are overwritten (C40_settings_overwritten_refuted). States for other layers are accepted (C40_foreign_layers_accepted_refuted).",
  "status": "partial"
 },
 "C41": {
  "note": "Holds for states saved after the factors were computed. States saved before change when the factors are computed (C41_live_dictionaries_refuted), parameters are live (C41_live_parameters_refuted) and operators restored from such a state share their factors (C41_shared_restore_refuted).",
  "status": "partial"
 },
 "C42": {
  "note": "A successful computation leaves models, hooks, saved states and other operators as they were (C42_success_leaves_no_trace). An exception is reported by the call and no cached value survives. The rest is refuted: partial factors are used (C42_partial_factors_refuted), a retry doubles the factors (C42_retry_doubles_refuted), hooks stay and change other operators (C42_hooks_stay_refuted), trace can return 0 (C42_zero_trace_refuted).",
  "status": "partial"
 },
 "C44": {
  "note": "All three losses, both reductions. Classifiers with one class are refused (C44_one_class_refuted); the root documented for cross-entropy is the transpose of the one returned and is not a root (C44_documented_formula_refuted).",
  "status": "proved"
 },
 "C45": {
  "note": "For every network meeting network_ok and layers that are affine maps followed by a differentiable rest (layers_ok), with one datum: all parameter blocks KFAC keeps (weight, bias, and jointly) equal those of the GGN, empirical Fisher and Monte-Carlo Fisher matrix for KFAC's own drawn labels. Layers with one position, or KFAC-reduce when the predictions use all positions equally. Several loss terms must not read the same position (C32_type2_cross_terms_refuted shows why). C45_deep_linear: squared error and predictions linear in each layer's output: exact for any data, also KFAC-expand with one loss term per position. C45_forward_only: single output layer, scaled.",
  "status": "proved"
 },
 "C46": {
  "note": "All kernel sizes, strides, dilations, integer and 'same'/'valid' paddings; grouped convolutions average over the groups; C46_convolution links the patches with the convolution for groups=1. Uneven 'same' padding is refused by one function and accepted by the other (C46_uneven_same_padding). C46_positions: the patches are those of exactly the positions at which the dilated kernel fits into the padded image.",
  "status": "proved"
 },
 "C47": {
  "note": "Inferred value is the average number of terms, ValueError if not whole. Data with different numbers of terms are accepted when the average is whole (C47_uneven_refuted).",
  "status": "proved"
 },
 "C48": {
  "note": "Proved for every network without shared parameters, every cache content, every damping for which the decompositions succeed (C48_inverts_damped_factors), and for all positive semi-definite factors with non-negative dampings whose damped factors are invertible (C48_inverse). Refuted for invertible damped factors that are not positive definite, e.g. negative damping: every product raises (C48_indefinite_raises, C48_indefinite_refuted).",
  "status": "partial"
 },
 "C49": {
  "note": "Whenever KFAC + d I has an inverse (C49_exact_damping); for positive semi-definite factors and d > 0 it has one (C49_psd). Contract: torch.linalg.eigh returns orthonormal eigenvectors and eigenvalues of symmetric matrices.",
  "status": "proved"
 },
 "C50": {
  "note": "Values proved for positive traces, and that the operator then inverts the factors damped with them. Refuted: inputs with trace zero give an infinite or nan damping (C50_zero_inputs_refuted); gradients with trace zero give dampings below min_damping (C50_below_minimum_refuted).",
  "status": "partial"
 },
 "C51": {
  "note": "Erasure/simulation proof over all histories of any number of models, KFAC operators, inverse operators and saved states (products, saves, loads, copies, training; loads may be rejected): the program with cache=False sees the same outcomes and products. Partial because the claim is false of the code when factors are replaced under an inverse operator that did not do the load: C51_stale_refuted (A.load_state_dict) and C51_shared_refuted (two inverses on one KFAC operator), and after an exception in a factor computation, whose hooks let another operator change the factors (C51_hooks_refuted).",
  "status": "partial"
 },
 "C52": {
  "note": "Constructor checks (accepted iff, ValueError otherwise) and the state round trip: from_state_dict/load_state_dict of a saved inverse operator succeed on every KFAC operator for the same parameters and give equal settings, cached inverses, factors, events and products. Inherits C39's limits for the inner KFAC state (loss subclasses, stale keys).",
  "status": "proved"
 },
 "C53": {
  "note": "Attempts, warnings and precision for every failure pattern of the decomposition; nothing cached for a failing layer, whatever the outcome of the product.",
  "status": "proved"
 },
 "C55": {
  "note": "Exact characterisation; with zero terms the input is never checked (C55_zero_terms_unchecked_refuted).",
  "status": "proved"
 },
 "C56": {
  "note": "K>=2 columns; a matrix without columns always raises ValueError (C56_no_columns_refuted).",
  "status": "proved"
 },
 "C62": {
  "note": "Without failures the subspace is computed once; an interrupted first call leaves a half-computed subspace (C62_interrupted_subspace_refuted).",
  "status": "partial"
 },
 "C63": {
  "note": "Degenerate cases dim=0 and basis_dim<=0 are findings (C63_degenerate_refuted).",
  "status": "proved"
 },
 "C64": {
  "note": "fast_lanczos function by function; V^T V = I and V^T A V tri-diagonal with the coefficients handed to the eigen-solver, for every size, start vector and ncv, over any real-closed field. C64_breakdown: for ncv > n an off-diagonal coefficient vanishes, so the condition of the claim cannot hold. C64_in_place: the in-place updates of vectors give the same run on a memory of views, if A @ v returns new memory; C64_returned_views_refuted: otherwise the coefficients are corrupted.",
  "status": "proved"
 },
 "C65": {
  "note": "Gauss quadrature exactness up to degree 2*ncv-1 from the contracts of eigh/eigh_tridiagonal (eigenvalues and orthonormal eigenvectors of the matrix they are given).",
  "status": "proved"
 },
 "C66": {
  "note": "Grid, closed form and sign of the densities over the reals, plain and logarithmic; meaning of kappa. C66_one_vector_refuted: ncv = 1 divides by zero. C66_log_grid_refuted: the returned log-spectrum is not a density over the logarithmic grid the documentation names.",
  "status": "proved"
 },
 "C67": {
  "note": "Running average = arithmetic mean, classes agree with functions, plain and logarithmic. Findings: default kappa of the logarithmic function and class differ (C67_default_kappa_refuted), zero repetitions raise different errors (C67_no_repetitions).",
  "status": "proved"
 },
 "C68": {
  "note": "All histories of calls with any repetitions and hyper-parameters, other users of the random numbers in between. Findings: negative numbers of repetitions are accepted and return negated densities (C68_negative_repetitions_refuted).",
  "status": "proved"
 },
 "C69": {
  "note": "Values, number and arguments of the eigen-solver calls; what the estimates are for an exact solver. C69_negative_minimum_refuted: boundaries (lo, hi) with lo < -hi give negative densities.",
  "status": "proved"
 },
 "C70": {
  "note": "Any sequence of constructions, shape reads and products, over arbitrary forward programs that may raise anywhere, catch exceptions, and carry hooks of the user that raise or replace outputs. Forward passes that themselves install hooks are not modelled.",
  "status": "proved"
 },
 "C71": {
  "note": "Number of batches proved; the \"only if\" direction fails: a single batch whose X is a mapping is always rejected with ValueError, because the class has no batch_size_fn argument (C71_mapping_refuted).",
  "status": "partial"
 },
 "C72": {
  "note": "Any forward program. All calls of the module (not only the last one) must have the requested element. A module that is never called: IndexError (C72_not_called).",
  "status": "proved"
 },
 "C73": {
  "note": "blocks_to_matrix, and agreement of the reference Hessian, GGN, gradient/loss, Jacobian and empirical Fisher with the operators, for models with any number of distinct parameters on one device and data given as tensors or mappings whose other keys the model ignores. Fails in the code for parameters without axes (C73_jacobian_scalar_refuted, C73_empirical_fisher_scalar_refuted) and for parameters without elements (C73_empty_parameter_refuted); the operators accept both.",
  "status": "partial"
 },
 "C74": {
  "note": "Moments of one draw are the assumed contract of torch's samplers; C74_ex gives a generator meeting it.",
  "status": "proved"
 },
 "C75": {
  "note": "Expectation as a positive linear normalised functional with E[v v^T] = I/n.",
  "status": "proved"
 },
 "C76": {
  "note": "General computation graphs (tape with parents, detached operations, requires_grad flags) and closed form for Sequential networks of any depth. Finding: the operator for the network input can be constructed but every product raises RuntimeError (C76_network_input_refuted). Derivatives are exact partial derivatives of the recomputed graph.",
  "status": "proved"
 },
 "C77": {
  "status": "proved",
  "note": "Contents of tensors are opaque; PyTorch's rule that operations on tensors of different devices raise is part of the model."
 },
 "C78": {
  "status": "partial",
  "note": "Proved for inverse operators without cache and for exports made after the move. Refuted: other operators on the same module raise (C78_shared_module_refuted), cached inverses stay on the old device (C78_cached_inverse_refuted), so do earlier exports (C78_exported_before_move_refuted), loaded factors stay where they were (C78_loaded_state_refuted), and the default determinism check raises for functions on other devices than the CPU (C78_function_check_refuted)."
 },
 "C80": {
  "status": "proved",
  "note": "All parameter selections and orders, also for KFAC (C80_kfac: number of data counted, not given; the draws of the Monte-Carlo type are the same for both)."
 },
 "C81": {
  "status": "proved",
  "note": ""
 },
 "C82": {
  "status": "proved",
  "note": ""
 },
 "C17": {
  "status": "proved",
  "note": "Every draw sequence, loader and format. C17_zero_samples_refuted: mc_samples = 0 raises ZeroDivisionError in the product."
 },
 "C57": {
  "status": "proved",
  "note": "Which dictionary the external solver receives after every history. C57_lsmr_default_refuted: with the default conlim = 1e-8 a solver that observes the documented condition limit returns its first iterate, which is far from the solution already for diag(1, 2)."
 },
 "C83": {
  "status": "partial",
  "note": "Proved for re-iterable sources, empty sources and the number of passes. The part on one-shot iterators is refuted: without the check the first batch is dropped (peeked at by the constructor) and the operator is zero, with num_data given only the first product sees the remaining batches; with the check NameError. C83_iterator_counted/_given/_checked say what happens. C83_iterator_compared: with num_data given, the check compares the second batch with the third."
 },
 "C84": {
  "status": "partial",
  "note": "Error bounds proved for products, gradient and loss; overflow, underflow and the rounding inside the batch computations are not modelled. The check accepts reordered batches if their gradients do not cancel (C84_check_accepts; up to 200 batches of one sign in single precision, C84_single_precision); in general it does not (C84_cancellation_refuted)."
 },
 "C85": {
  "status": "partial",
  "note": "SciPy's conjugate gradient iteration is modelled in exact arithmetic (only division by zero is external). Proved for positive definite operators, including the damped GGN, without preconditioner or with any symmetric positive definite one (one iteration suffices if it is the inverse); refuted in part: an unconverged result is returned without a report (C85_unconverged_refuted), and for indefinite invertible matrices the first step can divide by zero (C85_indefinite_refuted), as it can for indefinite preconditioners (C85_indefinite_preconditioner_refuted)."
 },
 "C86": {
  "status": "partial",
  "note": "The hooks are modelled for any sequence of calls, forward and backward; every call is described by its input, output and the rest of the network as a function of its output, the other calls' outputs being computed from it by the network. Refuted in part: a linear layer applied to two positions in two calls has twice the KFAC matrix of the same network with one call, which equals the GGN (C86_exact_refuted). Forward-only: C86_forward_only, _separate, _unused (a module never called gets no input factor; only products raise), and refuted by C86_forward_only_exact_refuted (twice the matrix for two calls). C86_unused_fails: parameters of no called layer (torch.autograd.grad rejects them)."
 },
 "C87": {
  "status": "partial",
  "note": "Proved for models without left-over hooks: the check's verdict is that of the loops over the data and of the first probe product (C87_data_rejected, C87_probe_never_rejects), an accepted operator equals the unchecked one after a product (C87_same_as_unchecked, C87_frozen), restored operators (C87_restore_computed, C87_restore_empty). Refuted: the two probe products share the cached factors, so irreproducible factors pass (C87_nondeterminism_refuted); parameters changed before the first use count only without the check (C87_check_decides_matrix_refuted); a constructor that raises leaves hooks that make every later operator on the model raise (C87_spoiled_model_refuted); restoring with the check fills the dictionaries of the saved operator with factors of the new data (C87_restore_fills_saved_refuted)."
 },
 "C88": {
  "status": "proved",
  "note": "Entries are exact numbers, infinities or NaN; the ratio, maximum and minimum that are only printed are arbitrary functions. C88_hessian_example and C88_ggn_example compose C73, the SciPy export and the comparison."
 },
 "C89": {
  "status": "proved",
  "note": "CG as modelled for C85 (exact arithmetic, default hyperparameters); sums of SciPy operators and the sparse identity are external. C89_sanity_check covers gradients of norm at most 1, for which the documented tolerances suffice. That fisher_loss < average_loss (example_model_merging.py 238) depends on the networks and is not claimed. Without tasks or without parameters the averaging raises (C89_no_tasks, C89_no_parameters)."
 },
 "C90": {
  "status": "proved",
  "note": "Tensors are given by their entries. The backward functions of single calls are a contract (vjp_ok), proved for linear layers, entrywise activations, the squared error and the scaling by the normalisation factor. Recorded backward passes (create_graph) and their gradients: DoubleBack.v; the backward functions of backward functions are again a contract (vjp2_ok, at all parameter values), shown for products of scalars and for linear layers, entrywise activations and the squared error, hence for fully connected networks of any depth (C90_mlp_double_backward); C90_hessian_product assumes continuous second derivatives; C90_second_pass says when the second pass returns on the model's tape, where recorded backward calls refer to all arguments of the call; torch's refer only to those needed and may report more inputs as unused. Hessian products on the tape: the first gradient must not raise (C90_hessian_raises); when it does not, the products are those of the model used for C14 (C90_hessian)."
 },
 "C91": {
  "status": "partial",
  "note": "Exact arithmetic; a division by a zero norm (nan in NumPy) ends the modelled run. Refuted: descending order (C91_order_refuted: the order is the reversed order of computation and depends on the start vectors), the documented shape [D, k] (C91_shape_refuted: rows are vectors), and that the top eigenvalue is found up to tol (C91_early_stop_refuted, C91_eigenvectors_stay). Convergence is proved for the first pair. C91_hessian and C91_ggn state it for exported operators in terms of the risk."
 },
 "C92": {
  "status": "partial",
  "note": "Blocks, diagonal operators and index lists are proved for all inputs. Refuted by the documented code: -1 gives an empty block (C92_last_refuted), no product with the identity for a parameter without entries (C92_empty_parameter_refuted), and the documented test of the off-diagonal block accepts every operator (C92_test_refuted)."
 }
}