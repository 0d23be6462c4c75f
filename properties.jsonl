{"id": "C01", "title": "Matrix product accepts exactly the documented inputs", "statement": "For an operator with input shapes N1,N2,.. (total N), `A @ X` starts the multiplication exactly when X is a tensor of shape [N] or [N,K], a tensor list with shapes [*N1],[*N2],.. or a tensor list with shapes [*N1,K],[*N2,K],.. with one common K. Every other tensor or tensor list of positive rank is rejected with ValueError before the operator's multiplication code is run, and no input is readable both as a vector and as a matrix.", "quantifier": "all lists of input shapes (any length, any rank, zero-sized dimensions included), all tensors and tensor lists", "why_tests_cant": "shapes and list lengths are unbounded; tests try three malformed inputs", "anchors": ["curvlinops/_torch_base.py::PyTorchLinearOperator._check_input_and_preprocess", "curvlinops/_torch_base.py::__check_tensor_and_preprocess", "curvlinops/_torch_base.py::__check_tensor_list_and_preprocess"]}
{"id": "C02", "title": "Result format mirrors the argument format", "statement": "If `A @ X` returns, the result is a tensor iff X was a tensor and a list iff X was a list; it has shape [M] / [M,K] or shapes [*Mi] / [*Mi,K] where the Mi are the operator's output shapes and K the number of columns of X; in particular a matrix with one column stays a matrix.", "quantifier": "all operators (any in/out shapes, any multiplication code that returns well-formed tensors), all accepted inputs, all K including 0 and 1", "why_tests_cant": "unbounded shapes and column counts", "anchors": ["curvlinops/_torch_base.py::PyTorchLinearOperator.__matmul__", "curvlinops/_torch_base.py::_check_output_and_postprocess"]}
{"id": "C03", "title": "The four input formats are the same matrix product", "statement": "If the operator's multiplication code multiplies with a matrix Mat, then `A @ X` multiplies with that same Mat in every format: tensor vector, tensor matrix, list vector, list matrix. Concretely the concatenated row-major entries of the result are Mat times the concatenated row-major entries of X, column by column.", "quantifier": "all matrices, all in/out shapes, all inputs in all four formats", "why_tests_cant": "flattening/un-flattening must agree for every shape list; tests check one network", "anchors": ["curvlinops/_torch_base.py::PyTorchLinearOperator.__matmul__", "curvlinops/_torch_base.py::__check_tensor_and_preprocess", "curvlinops/_torch_base.py::_check_output_and_postprocess"]}
{"id": "C04", "title": "Ill-shaped results never escape", "statement": "If a subclass' multiplication returns the wrong number of tensors, or any tensor whose shape is not [*Mi,K], then `A @ X` raises ValueError instead of returning.", "quantifier": "all subclasses' multiplication functions, all inputs", "why_tests_cant": "the subclass is an arbitrary function", "anchors": ["curvlinops/_torch_base.py::_check_output_and_postprocess"]}
{"id": "C05", "title": "adjoint() is the transpose", "statement": "`A.adjoint()` multiplies with the transpose of the matrix `A` multiplies with; operators that declare themselves self-adjoint return themselves and their matrix is symmetric (Hessian, GGN, empirical Fisher, MC-Fisher, KFAC, inverse KFAC).", "quantifier": "all operators of these classes, all models/losses/data for which the automatic-differentiation products are those of symmetric loss Hessians", "why_tests_cant": "symmetry is an identity between all pairs of vectors", "anchors": ["curvlinops/_torch_base.py::PyTorchLinearOperator.adjoint", "curvlinops/hessian.py", "curvlinops/ggn.py", "curvlinops/gradient_moments.py", "curvlinops/fisher.py", "curvlinops/kfac.py", "curvlinops/inverse.py"]}
{"id": "C06", "title": "SciPy export multiplies with the same matrix", "statement": "`A.to_scipy()` has shape (M,N); its matvec/matmat multiply with A's matrix and its rmatvec/rmatmat with the transpose, on vectors of shape (N,), columns (N,1) and matrices (N,K), for every floating point array.", "quantifier": "all operators, all floating-point inputs", "why_tests_cant": "unbounded shapes and values", "anchors": ["curvlinops/_torch_base.py::PyTorchLinearOperator.to_scipy", "curvlinops/_torch_base.py::_scipy_compatible"]}
{"id": "C07", "title": "SciPy export does not lose the fractional part", "statement": "The array returned by the SciPy export carries the product's values (up to the precision of the floating types involved) for every NumPy input array, also when the input array holds integers.", "quantifier": "all operators, all input arrays including integer arrays", "why_tests_cant": "depends on the dtype of a caller-supplied array", "anchors": ["curvlinops/_torch_base.py::_scipy_compatible"]}
{"id": "C08", "title": "Multiplication does not modify its argument", "statement": "After `Y = A @ X` the object X the caller passed (the tensor, or the list and each tensor in it) still holds the values it held before, for every operator in the library.", "quantifier": "all operators, all accepted inputs in all formats", "why_tests_cant": "aliasing between caller and callee only shows for some formats and operators", "anchors": ["curvlinops/_torch_base.py::__check_tensor_list_and_preprocess", "curvlinops/inverse.py::KFACInverseLinearOperator._matmat", "curvlinops/kfac.py::KFACLinearOperator._matmat"]}
{"id": "C09", "title": "split_list partitions a list", "statement": "`split_list(x, sizes)` with non-negative sizes summing to len(x) returns len(sizes) lists whose lengths are exactly `sizes` and whose concatenation is x; if the sizes do not sum to len(x) it raises ValueError.", "quantifier": "all lists, all size lists", "why_tests_cant": "lists of arbitrary length", "anchors": ["curvlinops/utils.py::split_list"]}
{"id": "C10", "title": "Sub-matrix operator multiplies with the selected rows and columns", "statement": "`SubmatrixLinearOperator(A, rows, cols)` has shape (len(rows), len(cols)), and its matvec/matmat multiply with the matrix whose (i,j) entry is A[rows[i], cols[j]].", "quantifier": "all matrices A, all valid index lists in any order, all vectors/matrices", "why_tests_cant": "index lists are arbitrary permutations/subsets", "anchors": ["curvlinops/submatrix.py::SubmatrixLinearOperator"]}
{"id": "C11", "title": "Adjoint of a sub-matrix", "statement": "`SubmatrixLinearOperator(A, rows, cols).adjoint()` is a sub-matrix operator of A's adjoint that multiplies with the transpose of the sub-matrix; taking the adjoint twice gives the original matrix.", "quantifier": "all A, all valid index lists", "why_tests_cant": "universally quantified over matrices and index lists", "anchors": ["curvlinops/submatrix.py::_adjoint"]}
{"id": "C12", "title": "Sub-matrix index validation is exact and atomic", "statement": "set_submatrix/constructor accepts index lists iff both contain only integers, have no duplicates and lie within A's bounds; otherwise ValueError is raised and a previously configured operator keeps its previous shape and indices.", "quantifier": "all index lists, all histories of set_submatrix calls (successful or failing) interleaved with products", "why_tests_cant": "needs all call histories", "anchors": ["curvlinops/submatrix.py::set_submatrix"]}
{"id": "C13", "title": "Outer-product operators and projectors", "statement": "OuterProductLinearOperator(c, A) multiplies with sum_i c_i a_i a_i^T (a_i the columns of A), is self-adjoint; Projector(A) with orthonormal columns is idempotent, fixes every a_i and annihilates every vector orthogonal to all a_i.", "quantifier": "all c, A, x of any size", "why_tests_cant": "matrix identities over all inputs", "anchors": ["curvlinops/outer.py::OuterProductLinearOperator", "curvlinops/outer.py::Projector"]}
{"id": "C14", "title": "Hessian operator is the Hessian of the whole empirical risk", "statement": "HessianLinearOperator multiplies with the Hessian of c*sum_n l(f(x_n),y_n) over the whole data set, c=1 for reduction 'sum' and 1/N for 'mean', however the data is split into batches.", "quantifier": "all data sets, all splits into (non-empty) batches of any sizes, both reductions, all vectors and matrices", "why_tests_cant": "exponentially many batch splits; normalisation errors cancel for equal batch sizes", "anchors": ["curvlinops/hessian.py::HessianLinearOperator", "curvlinops/_torch_base.py::CurvatureLinearOperator._matmat", "curvlinops/_torch_base.py::_get_normalization_factor"]}
{"id": "C15", "title": "GGN operator is the GGN of the whole empirical risk", "statement": "GGNLinearOperator multiplies with c*sum_n J_n^T H_n J_n, J_n the Jacobian of the prediction on datum n w.r.t. the parameters and H_n the loss Hessian w.r.t. that prediction, however the data is batched.", "quantifier": "all data sets, batch splits, reductions, vectors/matrices", "why_tests_cant": "as for the Hessian", "anchors": ["curvlinops/ggn.py::GGNLinearOperator"]}
{"id": "C16", "title": "Empirical Fisher operator", "statement": "EFLinearOperator multiplies with c*sum_n g_n g_n^T, where g_n is the gradient of datum n's (un-reduced) loss term w.r.t. the parameters; c=1 for 'sum', c=1/(number of loss terms) for cross-entropy with 'mean' and c=1/(number of loss terms * C) for MSE/BCE with 'mean', however the data is batched.", "quantifier": "all data sets, batch splits, losses, reductions, number of loss terms per datum", "why_tests_cant": "the reduction factors must cancel for every size combination", "anchors": ["curvlinops/gradient_moments.py::EFLinearOperator"]}
{"id": "C17", "title": "MC-Fisher operator is the sampled Fisher", "statement": "FisherMCLinearOperator multiplies with c*sum_n J_n^T (1/M sum_m g_nm g_nm^T) J_n, where g_nm are the would-be gradients drawn during that product, for every number M of samples, loss and reduction.", "quantifier": "all data sets, batch splits, M, losses, reductions, random streams", "why_tests_cant": "random streams are unbounded", "anchors": ["curvlinops/fisher.py::FisherMCLinearOperator"]}
{"id": "C18", "title": "Would-be gradients are unbiased", "statement": "For every prediction f the expectation, under the model's likelihood, of the outer product of the sampled would-be gradient equals the Hessian of the un-reduced loss w.r.t. f: diag(p)-pp^T for cross-entropy, diag(p(1-p)) for BCE, 2I for MSE.", "quantifier": "all predictions, all numbers of classes", "why_tests_cant": "an expectation over a distribution, for every prediction", "anchors": ["curvlinops/fisher.py::sample_grad_output", "curvlinops/kfac.py::draw_label"]}
{"id": "C19", "title": "Batching and order do not matter", "statement": "For Hessian, GGN and empirical Fisher (and gradient_and_loss), two loaders that present the same multiset of data in different order and different batch splits give the same operator.", "quantifier": "all pairs of batchings/orders of one data set", "why_tests_cant": "factorially many orders", "anchors": ["curvlinops/_torch_base.py::CurvatureLinearOperator._matmat", "curvlinops/_torch_base.py::gradient_and_loss"]}
{"id": "C20", "title": "gradient_and_loss is the gradient and value of the empirical risk", "statement": "gradient_and_loss() returns c*sum_n l_n and c*sum_n grad l_n over the whole data, for any batching; without a loss function it raises ValueError.", "quantifier": "all data sets, batch splits, reductions", "why_tests_cant": "as for the Hessian", "anchors": ["curvlinops/_torch_base.py::gradient_and_loss", "curvlinops/_torch_base.py::data_prediction_loss_gradient"]}
{"id": "C21", "title": "block_sizes gives exactly the block-diagonal part", "statement": "With block_sizes=[b1,b2,..] the Hessian operator multiplies with the full Hessian with all entries between parameters of different blocks replaced by zero; block sizes are accepted iff they are positive, sum to the number of parameters and the operator supports blocks, otherwise ValueError.", "quantifier": "all parameter lists, all block partitions, all vectors", "why_tests_cant": "all partitions of all parameter lists", "anchors": ["curvlinops/hessian.py::_matmat_batch", "curvlinops/_torch_base.py::CurvatureLinearOperator.__init__"]}
{"id": "C22", "title": "Data set size", "statement": "Without num_data the operator behaves exactly as if num_data were the total number of data in the loader; with num_data=n the 'mean' operator is scaled by N/n and the 'sum' operator is unchanged.", "quantifier": "all loaders, all n>0", "why_tests_cant": "all loaders", "anchors": ["curvlinops/_torch_base.py::CurvatureLinearOperator.__init__", "curvlinops/_torch_base.py::_get_normalization_factor"]}
{"id": "C23", "title": "Jacobian operator stacks the batch Jacobians in loader order", "statement": "JacobianLinearOperator has shape (N*C, D), and multiplies with the matrix whose row (n,c) is the derivative of output c on the n-th datum in loader order; TransposedJacobianLinearOperator multiplies with its transpose.", "quantifier": "all loaders with any batch sizes, all vectors/matrices with K>=1 columns", "why_tests_cant": "offset bookkeeping across batches", "anchors": ["curvlinops/jacobian.py::JacobianLinearOperator._matmat", "curvlinops/jacobian.py::TransposedJacobianLinearOperator._matmat"]}
{"id": "C24", "title": "Jacobian adjoint identity", "statement": "For all v, w: <J v, w> = <v, J.adjoint() w>, and J.adjoint().adjoint() multiplies like J.", "quantifier": "all v, w, loaders", "why_tests_cant": "identity over all pairs of vectors", "anchors": ["curvlinops/jacobian.py::_adjoint"]}
{"id": "C25", "title": "MC-Fisher products do not depend on history", "statement": "Every product with an MC-Fisher operator returns the same result as the first product of a freshly constructed operator with the same seed, whatever products or label draws happened before (the generator is re-seeded), and products with the columns of a matrix equal the matrix product's columns.", "quantifier": "all histories of public calls on the operator", "why_tests_cant": "all call histories", "anchors": ["curvlinops/fisher.py::FisherMCLinearOperator._matmat"]}
{"id": "C26", "title": "Determinism check: total loss", "statement": "With check_deterministic=True the constructor raises RuntimeError if two passes over the data give different total losses (beyond tolerance), and does not raise the total-loss error when the total losses agree.", "quantifier": "all loaders/models (arbitrary batch losses in the two passes)", "why_tests_cant": "needs arbitrary pairs of passes", "anchors": ["curvlinops/_torch_base.py::_check_deterministic"]}
{"id": "C27", "title": "Determinism check: deterministic set-ups pass, differing totals are caught", "statement": "If the two passes and the two probe products are identical and NaN-free the check passes; if total gradients, or the probe products differ beyond tolerance the check raises RuntimeError; for operators that fix the data order any differing batch raises RuntimeError.", "quantifier": "all pairs of passes", "why_tests_cant": "needs arbitrary pairs of passes", "anchors": ["curvlinops/_torch_base.py::_check_deterministic", "curvlinops/_torch_base.py::__check_deterministic_batch", "curvlinops/_torch_base.py::__check_deterministic_matvec", "curvlinops/utils.py::allclose_report"]}
{"id": "C28", "title": "Device restored after the determinism check", "statement": "After construction, or after construction failed with any exception inside the determinism check, the operator is on the device it was on before the check.", "quantifier": "all crash points inside the check", "why_tests_cant": "all crash points", "anchors": ["curvlinops/_torch_base.py::CurvatureLinearOperator.__init__", "curvlinops/_torch_base.py::to_device"]}
{"id": "C29", "title": "Parameter mapping is complete and correct", "statement": "KFAC's parameter mapping sends each (supported layer, parameter name) whose parameter was passed to that parameter's position; construction raises NotImplementedError iff some passed parameter is not owned by a supported layer (or was passed twice). Every position appears.", "quantifier": "all module trees, all parameter lists/subsets/orders, tied parameters included", "why_tests_cant": "all architectures and parameter subsets", "anchors": ["curvlinops/kfac.py::compute_parameter_mapping"]}
{"id": "C30", "title": "KFAC multiplies with the block-diagonal Kronecker matrix", "statement": "If no parameter is shared between layers, KFAC multiplies with the block-diagonal matrix with blocks B (x) A for weights (row-major flattening), B for separately treated biases, and B (x) A on [W b] for jointly treated weights and biases, for linear and convolution layers of any kernel shape, for any subset and order of parameters.", "quantifier": "all networks, factor values, parameter orders, vectors/matrices", "why_tests_cant": "all architectures", "anchors": ["curvlinops/kfac.py::KFACLinearOperator._matmat"]}
{"id": "C31", "title": "KFAC with parameters shared between layers", "statement": "The properties trace/det/... and the inverse operator describe the same matrix as the product also if two supported layers share a parameter.", "quantifier": "all networks incl. weight tying", "why_tests_cant": "architecture dependent", "anchors": ["curvlinops/kfac.py::compute_parameter_mapping", "curvlinops/kfac.py::trace", "curvlinops/inverse.py::KFACInverseLinearOperator._matmat"]}
{"id": "C32", "title": "Kronecker factors are data-set averages, independent of batching", "statement": "After computation the input factor of a layer is 1/(N S) sum over data and shared positions of a a^T (expand) resp. 1/N sum over data of the position-averaged a (reduce), with a trailing 1 appended for joint bias treatment; the gradient factor is the corresponding sum of outer products of un-reduced output gradients scaled by 1 ('sum') or 1/(N T) ('mean', and additionally 1/C for MSE/BCE) and by 1/M for M samples; independent of the batch split.", "quantifier": "all data sets, batch splits, sequence lengths, losses, reductions, fisher types", "why_tests_cant": "corrections must cancel for all sizes", "anchors": ["curvlinops/kfac.py::_hook_accumulate_input_covariance", "curvlinops/kfac.py::_accumulate_gradient_covariance", "curvlinops/kfac.py::_compute_loss_and_backward"]}
{"id": "C33", "title": "KFAC is symmetric positive semi-definite", "statement": "The operator KFAC represents is symmetric and x^T KFAC x >= 0 for all x; with strictly positive damping the damped factors are invertible.", "quantifier": "all data, layers, vectors", "why_tests_cant": "inequality over all vectors", "anchors": ["curvlinops/kfac.py"]}
{"id": "C34", "title": "KFAC.trace is the trace of the represented matrix", "statement": "kfac.trace equals the sum of diagonal entries of the matrix that `kfac @` multiplies with.", "quantifier": "all networks without shared parameters, all factor values, both bias treatments", "why_tests_cant": "all architectures", "anchors": ["curvlinops/kfac.py::trace"]}
{"id": "C35", "title": "KFAC.det is the determinant of the represented matrix", "statement": "kfac.det equals the determinant of the matrix `kfac @` multiplies with.", "quantifier": "all networks without shared parameters, all factor values", "why_tests_cant": "all architectures; exponents depend on sizes", "anchors": ["curvlinops/kfac.py::det"]}
{"id": "C36", "title": "KFAC.logdet is the log-determinant", "statement": "If all factors have positive determinant, kfac.logdet is the logarithm of the determinant of the represented matrix.", "quantifier": "all networks without shared parameters", "why_tests_cant": "all architectures", "anchors": ["curvlinops/kfac.py::logdet"]}
{"id": "C37", "title": "KFAC.frobenius_norm", "statement": "kfac.frobenius_norm squared is the sum of squared entries of the represented matrix, and it is non-negative.", "quantifier": "all networks without shared parameters and with at least one parameter", "why_tests_cant": "all architectures", "anchors": ["curvlinops/kfac.py::frobenius_norm"]}
{"id": "C38", "title": "KFAC properties stay coherent with the product through every history", "statement": "In every reachable state of a KFAC operator (products, property reads in any order and any number of times, device moves, saving, loading of states saved from consistent operators) each property read returns the value belonging to the factors the product uses.", "quantifier": "all histories of public calls", "why_tests_cant": "all call histories", "anchors": ["curvlinops/kfac.py::_compute_kfac", "curvlinops/kfac.py::_reset_matrix_properties", "curvlinops/kfac.py::load_state_dict"]}
{"id": "C39", "title": "KFAC state round trip", "statement": "KFACLinearOperator.from_state_dict(op.state_dict(), ...) and op2.load_state_dict(op.state_dict()) succeed for every operator with same model, parameters and loss and yield an operator with the same settings, factors, cached properties and products.", "quantifier": "all operators in any state, all parameter subsets", "why_tests_cant": "all architectures and states", "anchors": ["curvlinops/kfac.py::state_dict", "curvlinops/kfac.py::load_state_dict", "curvlinops/kfac.py::from_state_dict"]}
{"id": "C40", "title": "A rejected load leaves the operator unchanged", "statement": "If load_state_dict raises because the state does not belong to this operator (loss type, reduction, factor keys), the operator, including its model, is unchanged; states whose factor names do not fit the operator's layers are rejected.", "quantifier": "all operators, all states", "why_tests_cant": "all failure points", "anchors": ["curvlinops/kfac.py::load_state_dict"]}
{"id": "C41", "title": "A saved state is a snapshot", "statement": "The object returned by state_dict() does not change when the operator is used afterwards, and two operators restored from one state do not influence each other.", "quantifier": "all histories after saving", "why_tests_cant": "needs histories with several operators", "anchors": ["curvlinops/kfac.py::state_dict", "curvlinops/kfac.py::load_state_dict", "curvlinops/inverse.py::state_dict"]}
{"id": "C42", "title": "A failed factor computation leaves no trace", "statement": "If computing the Kronecker factors fails at any point (exception in model, loss or hook at any batch), later calls behave as if it had not been attempted: no partial factors are used, no hooks stay on the model, no property returns a value.", "quantifier": "all crash points in the data loop", "why_tests_cant": "all crash points", "anchors": ["curvlinops/kfac.py::_compute_kfac", "curvlinops/kfac.py::trace"]}
{"id": "C43", "title": "KFAC constructor validation", "statement": "The constructor raises ValueError for an unsupported loss, an unknown fisher_type, an unknown kfac_approx, and for mc_samples != 1 unless fisher_type is 'mc'; otherwise these arguments are accepted.", "quantifier": "all argument combinations", "why_tests_cant": "cross product of arguments", "anchors": ["curvlinops/kfac.py::KFACLinearOperator.__init__"]}
{"id": "C44", "title": "loss_hessian_matrix_sqrt is a square root of the loss Hessian", "statement": "S = loss_hessian_matrix_sqrt(f, y, loss) satisfies S S^T = Hessian of the (reduced) loss of one datum w.r.t. f, where the Hessian is the matrix of second derivatives of the loss function, for MSE, cross-entropy and BCE with both reductions.", "quantifier": "all predictions f in R^C, all C, all labels", "why_tests_cant": "identity over all real vectors and dimensions", "anchors": ["curvlinops/kfac_utils.py::loss_hessian_matrix_sqrt"]}
{"id": "C45", "title": "KFAC is exact where theory says so", "statement": "For a data set with one datum and a layer without weight sharing (or KFAC-reduce when the predictions use all positions equally), KFAC's blocks of the layer's weight and bias equal the corresponding blocks of the GGN (type-2), MC-Fisher (same drawn labels) or empirical Fisher. For squared error and a deep linear network, type-2 KFAC's blocks equal the GGN's for any data set. For squared error and a layer whose output (KFAC-expand) or mean over the positions (KFAC-reduce) is the prediction, the GGN's blocks are 2/C (reduction mean) or 2 times the number of loss terms (reduction sum) times the forward-only KFAC's blocks.", "quantifier": "all layers, data, losses", "why_tests_cant": "all values", "anchors": ["curvlinops/kfac.py"]}
{"id": "C46", "title": "Averaged patches are the mean of the patches", "statement": "extract_averaged_patches(x, ...) equals the mean over output locations of extract_patches(x, ...), and the convolution's output (one group) is the product of extract_patches with the flattened kernel.", "quantifier": "all input sizes, kernel sizes, strides, paddings, dilations, groups", "why_tests_cant": "all hyper-parameter combinations", "anchors": ["curvlinops/kfac_utils.py::extract_patches", "curvlinops/kfac_utils.py::extract_averaged_patches"]}
{"id": "C47", "title": "Number of per-example loss terms", "statement": "If not given it is inferred as (total number of loss terms)/(number of data); non-divisibility raises ValueError; if every datum has the same number T of loss terms the inferred value is T.", "quantifier": "all data sets and label shapes", "why_tests_cant": "all label shapes", "anchors": ["curvlinops/kfac.py::_set_num_per_example_loss_terms"]}
{"id": "C48", "title": "Inverse KFAC inverts the damped factors", "statement": "Without exact damping KFACInverseLinearOperator multiplies with the inverse of the KFAC matrix in which each input factor A is replaced by A + dA I and each gradient factor B by B + dB I, with (dA,dB) the damping (pair).", "quantifier": "all networks without shared parameters, damping values with invertible damped factors", "why_tests_cant": "all architectures", "anchors": ["curvlinops/inverse.py::KFACInverseLinearOperator"]}
{"id": "C49", "title": "Inverse KFAC with exact damping inverts KFAC + damping*I", "statement": "With use_exact_damping=True it multiplies with (KFAC + damping*I)^{-1} whenever this inverse exists.", "quantifier": "all networks without shared parameters, factor values", "why_tests_cant": "all architectures; eigen-decompositions are not unique", "anchors": ["curvlinops/inverse.py::_left_and_right_multiply", "curvlinops/inverse.py::_separate_left_and_right_multiply"]}
{"id": "C50", "title": "Heuristic damping", "statement": "With heuristic damping the factor dampings are max(pi*sqrt(d),min) and max(sqrt(d)/pi,min) with pi^2 = mean eigenvalue of A / mean eigenvalue of B; both are finite, at least min_damping, and their product is d when no clipping happens.", "quantifier": "all factors with non-negative traces, all damping values", "why_tests_cant": "division by zero for some factors", "anchors": ["curvlinops/inverse.py::_compute_damping"]}
{"id": "C51", "title": "Caching of inverses is unobservable", "statement": "A caching inverse operator returns in every history the same products as a non-caching one.", "quantifier": "all histories of products, loads on the inverse and on the KFAC operator", "why_tests_cant": "all histories", "anchors": ["curvlinops/inverse.py::_compute_or_get_cached_inverse"]}
{"id": "C52", "title": "Inverse KFAC construction and state round trip", "statement": "Construction raises ValueError for non-KFAC arguments, both damping modes at once, or a damping pair with heuristic/exact damping; restoring from a saved state gives an operator with the same settings and products.", "quantifier": "all argument combinations, all states", "why_tests_cant": "cross product of arguments and states", "anchors": ["curvlinops/inverse.py::__init__", "curvlinops/inverse.py::from_state_dict"]}
{"id": "C53", "title": "Cholesky failure handling", "statement": "If the damped Cholesky decomposition of a factor fails, it is retried once in double precision iff retrying is enabled and the factor is not double already; otherwise (or if the retry fails too) the error propagates and nothing is cached for that layer.", "quantifier": "all factors, precision, and failure patterns of the decomposition", "why_tests_cant": "failure patterns", "anchors": ["curvlinops/inverse.py::_compute_inverse_factors"]}
{"id": "C54", "title": "Neumann inverse is the truncated series", "statement": "NeumannInverseLinearOperator with K terms and scale a returns a*sum_{k=0..K}(I-aA)^k x; hence A times the result is x - (I-aA)^(K+1) x, and the error contracts geometrically when I-aA is a contraction.", "quantifier": "all A, x, K, a", "why_tests_cant": "all K and matrices", "anchors": ["curvlinops/inverse.py::NeumannInverseLinearOperator._matvec"]}
{"id": "C55", "title": "Neumann NaN check", "statement": "With check_nan=True a ValueError is raised at the first iteration whose partial sum contains a NaN, so a returned result came from NaN-free partial sums; with check_nan=False no such error is raised.", "quantifier": "all iterations, all values incl. NaN/inf", "why_tests_cant": "all iteration counts", "anchors": ["curvlinops/inverse.py::NeumannInverseLinearOperator._matvec"]}
{"id": "C56", "title": "Matrix products of inverses are column-wise", "statement": "For CG/LSMR/Neumann inverses, column k of `Ainv @ X` is `Ainv @ X[:,k]`.", "quantifier": "all X with at least one column", "why_tests_cant": "all matrices", "anchors": ["curvlinops/inverse.py::_InverseLinearOperator._matmat"]}
{"id": "C57", "title": "Solver hyper-parameters", "statement": "Each product by a CG/LSMR inverse calls the solver with exactly the hyper-parameters of the latest set_*_hyperparameters call (unspecified ones are the documented defaults), or the defaults if none was made.", "quantifier": "all histories of setter calls and products", "why_tests_cant": "all histories", "anchors": ["curvlinops/inverse.py::set_cg_hyperparameters", "curvlinops/inverse.py::set_lsmr_hyperparameters"]}
{"id": "C58", "title": "Hutchinson trace estimator is unbiased", "statement": "The expectation of HutchinsonTraceEstimator(A).sample() is tr(A) for both distributions; the constructor rejects non-square A.", "quantifier": "all square A of any size", "why_tests_cant": "an expectation", "anchors": ["curvlinops/trace/hutchinson.py", "curvlinops/sampling.py"]}
{"id": "C59", "title": "Hutchinson diagonal estimator is unbiased", "statement": "The expectation of HutchinsonDiagonalEstimator(A).sample() is diag(A); for diagonal A every Rademacher sample is exact.", "quantifier": "all square A", "why_tests_cant": "an expectation", "anchors": ["curvlinops/diagonal/hutchinson.py"]}
{"id": "C60", "title": "Hutchinson squared Frobenius norm estimator is unbiased", "statement": "The expectation of HutchinsonSquaredFrobeniusNormEstimator(A).sample() is the squared Frobenius norm, also for rectangular A.", "quantifier": "all A", "why_tests_cant": "an expectation", "anchors": ["curvlinops/norm/hutchinson.py"]}
{"id": "C61", "title": "Hutch++ is unbiased and exact on the captured subspace", "statement": "For every orthonormal basis Q the expectation of a Hutch++ sample is tr(A); if the range of A lies in the span of Q every sample equals tr(A).", "quantifier": "all square A, all Q", "why_tests_cant": "an expectation", "anchors": ["curvlinops/trace/meyer2020hutch.py"]}
{"id": "C62", "title": "Hutch++ computes its subspace once", "statement": "Over any history of sample() calls the basis and subspace trace are computed by the first successful call and reused, and an interrupted first call leaves no half-computed subspace behind.", "quantifier": "all histories and crash points", "why_tests_cant": "all crash points", "anchors": ["curvlinops/trace/meyer2020hutch.py::maybe_compute_and_cache_subspace"]}
{"id": "C63", "title": "Hutch++ basis dimension", "statement": "The constructor rejects non-square A and basis_dim > dim; the default basis dimension is between 1 and 10 and at most max(1, dim/100), hence valid for every dim >= 1.", "quantifier": "all dimensions", "why_tests_cant": "all dimensions", "anchors": ["curvlinops/trace/meyer2020hutch.py::__init__"]}
{"id": "C64", "title": "Lanczos builds an orthonormal basis tri-diagonalising A", "statement": "In exact arithmetic, for symmetric A and while no off-diagonal coefficient vanishes, the vectors generated by fast_lanczos are orthonormal and V^T A V is the tri-diagonal matrix (alphas, betas) that is eigen-decomposed.", "quantifier": "all symmetric A, start vectors, numbers of steps", "why_tests_cant": "unbounded steps", "anchors": ["curvlinops/papyan2020traces/spectrum.py::fast_lanczos"]}
{"id": "C65", "title": "Lanczos quadrature matches moments", "statement": "sum_i evecs[0,i]^2 evals[i]^k = v^T A^k v for k <= 2*ncv-1 with v the normalised start vector; in particular the weights sum to one.", "quantifier": "all symmetric A, start vectors, ncv, k", "why_tests_cant": "unbounded steps/powers", "anchors": ["curvlinops/papyan2020traces/spectrum.py::fast_lanczos"]}
{"id": "C66", "title": "Spectral density grid", "statement": "The density functions return num_points grid points running from lambda_min - margin*width to lambda_max + margin*width in equal steps, and non-negative densities, when width > 0, ncv >= 2 and kappa > 1.", "quantifier": "all boundaries, num_points, kappa, margins", "why_tests_cant": "all parameters", "anchors": ["curvlinops/papyan2020traces/spectrum.py::lanczos_approximate_spectrum_from_iter", "curvlinops/papyan2020traces/spectrum.py::lanczos_approximate_log_spectrum_from_iter"]}
{"id": "C67", "title": "Averaging over repeats", "statement": "The running average over num_repeats >= 1 Lanczos runs equals the arithmetic mean of the per-run densities, so the cached classes (same runs) and the functions agree for equal hyper-parameters.", "quantifier": "all numbers of repeats", "why_tests_cant": "unbounded repeats", "anchors": ["curvlinops/papyan2020traces/spectrum.py::lanczos_approximate_spectrum", "curvlinops/papyan2020traces/spectrum.py::LanczosApproximateSpectrumCached"]}
{"id": "C68", "title": "Lanczos cache", "statement": "Over any history of approximate_spectrum calls, the runs used by a call with n repeats are the first n runs ever drawn: runs are never redrawn, at most max(n_i) runs are drawn, and repeated calls with equal arguments return equal results.", "quantifier": "all histories", "why_tests_cant": "all histories", "anchors": ["curvlinops/papyan2020traces/spectrum.py::_get_lanczos_iters"]}
{"id": "C69", "title": "Spectral boundaries", "statement": "Boundaries given by the caller are used unchanged (absolute value for the log spectrum) and only missing ones are estimated, by exactly one eigen-solver call each (one call for both if none is given for the plain spectrum).", "quantifier": "all boundary arguments", "why_tests_cant": "all arguments", "anchors": ["curvlinops/papyan2020traces/spectrum.py::approximate_boundaries", "curvlinops/papyan2020traces/spectrum.py::approximate_boundaries_abs"]}
{"id": "C70", "title": "Activation hooks never leak", "statement": "After every use of an activation-Hessian operator, successful or failing at any point of the forward pass, the model carries the hooks it carried before.", "quantifier": "all crash points", "why_tests_cant": "all crash points", "anchors": ["curvlinops/experimental/activation_hessian.py::store_activation"]}
{"id": "C71", "title": "Activation Hessian needs exactly one batch", "statement": "Construction raises ValueError iff the data yields two or more batches (and fails with StopIteration if it yields none).", "quantifier": "all data iterables", "why_tests_cant": "all iterables", "anchors": ["curvlinops/experimental/activation_hessian.py::ActivationHessianLinearOperator.__init__"]}
{"id": "C72", "title": "The stored activation is the requested one", "statement": "The tensor the Hessian refers to is the requested input/output (by index) of the last call of the named module in the forward pass; unknown module names, io types, a non-empty destination, or index != 0 for single-tensor outputs are rejected with ValueError.", "quantifier": "all models, call sequences, indices", "why_tests_cant": "all call sequences", "anchors": ["curvlinops/experimental/activation_hessian.py::store_activation"]}
{"id": "C73", "title": "Reference implementations agree with the operators", "statement": "blocks_to_matrix assembles nested parameter blocks into the matrix with those blocks; the matrices returned by functorch_hessian, functorch_ggn, functorch_empirical_fisher and functorch_jacobian are the matrices that the corresponding linear operators multiply with, and functorch_gradient_and_loss returns what gradient_and_loss returns.", "quantifier": "all parameter lists, all data", "why_tests_cant": "all shapes", "anchors": ["curvlinops/examples/functorch.py:14-34", "curvlinops/examples/functorch.py:37-151", "curvlinops/examples/functorch.py:154-317"]}
{"id": "C74", "title": "Monte-Carlo KFAC is unbiased", "statement": "With labels drawn from the model's likelihood, the expectation of every entry of a Monte-Carlo gradient factor is the Gauss-Newton factor summed over loss terms: weight * sum over data and loss terms of J^T H J (expand: per position; reduce: of the Jacobians summed over positions), whatever the number of samples; under the no-mixing condition this is the type-2 factor.", "quantifier": "all networks, losses, targets, loaders, batchings, sample counts, label distributions with the assumed moments", "why_tests_cant": "statements about expectations; tests only check convergence within tolerance for large sample counts", "anchors": ["curvlinops/kfac.py::KFACLinearOperator._compute_loss_and_backward", "curvlinops/kfac.py::KFACLinearOperator.draw_label"]}
{"id": "C75", "title": "Lanczos quadrature is unbiased for spectral moments", "statement": "If the random start directions of the spectral density estimators are isotropic (E[v v^T] = I/n for the normalised direction), then the expected k-th moment of the discrete spectral measure returned by one Lanczos run (nodes = eigenvalues, weights = squared first eigenvector components) equals tr(A^k)/n for every k <= 2*ncv-1, the k-th moment of the true spectral density.", "quantifier": "for all symmetric operators A of any size n, all numbers ncv of Lanczos vectors, all k <= 2*ncv-1, all isotropic distributions of start vectors without breakdown, with and without the tri-diagonal eigen-solver", "why_tests_cant": "A test averages a few random runs of one small matrix with a tolerance; it cannot establish exactness of the expectation for all matrices, sizes and orders.", "anchors": ["curvlinops/papyan2020traces/spectrum.py"]}
{"id": "C76", "title": "The activation Hessian is the Hessian of the loss as a function of the activation", "statement": "A @ V for the activation-Hessian operator is the product with the second derivatives of the loss with respect to the entries of the requested activation, everything computed from it being recomputed; for torch.nn.Sequential this is the Hessian of the loss of the remaining layers at the output of layer i, and the operators for (layer i, 'output', 0), (layer i+1, 'input', 0) and, for the last layer, (whole module, 'output', 0) multiply with the same matrix.", "quantifier": "all models, layers, losses, data, input formats and numbers of columns", "why_tests_cant": "tests compare a few small networks with autodiff; the claim is about every computation graph and position in it", "anchors": ["curvlinops/experimental/activation_hessian.py::ActivationHessianLinearOperator._matmat_batch"]}
{"id": "C77", "title": "Moving an operator keeps its products", "statement": "For an operator made from a module and parameters of that module, to_device(d) followed by op @ M with M on d gives, on d, the product the operator had before; with M on another device it raises RuntimeError. This holds after any sequence of moves of the operator, products, inverses, exports and constructions (the constructor's determinism check moves the module to the CPU and back). The device and data type used for NumPy input are those of the parameters, and RuntimeError is raised iff there are none or they disagree.", "quantifier": "all histories of calls, numbers of operators, modules and devices", "why_tests_cant": "needs several devices; unbounded histories and shared modules", "anchors": ["curvlinops/_torch_base.py::to_device", "curvlinops/_torch_base.py::_infer_device", "curvlinops/_torch_base.py::_infer_dtype", "curvlinops/kfac.py::to_device"]}
{"id": "C78", "title": "What depends on an operator follows its moves", "statement": "After op.to_device(d), other operators on the same module, inverse KFAC operators of op, SciPy operators exported from op, and operators that load its state go on multiplying with the matrices they represent; models given as functions can be used on any device.", "quantifier": "all histories of calls, operators and devices", "why_tests_cant": "needs several devices and all interleavings", "anchors": ["curvlinops/_torch_base.py::to_device", "curvlinops/_torch_base.py::to_scipy", "curvlinops/inverse.py::KFACInverseLinearOperator", "curvlinops/kfac.py::load_state_dict"]}
{"id": "C79", "title": "Averaging samples makes the estimates more accurate", "statement": "The mean of m independent samples of the trace, diagonal, squared Frobenius norm or Hutch++ estimator has exactly the m-th part of a single sample's mean squared error: for the trace of A sum_{i!=j} (a_ij^2 + a_ij a_ji) with Rademacher vectors and sum_{i,j} (a_ij^2 + a_ij a_ji) with normal vectors; the same with A^T A for the squared Frobenius norm; sum_{j!=i} a_ij^2, respectively sum_j a_ij^2 + a_ii^2 for entry i of the diagonal; and the trace formula with (I - QQ^T) A (I - QQ^T) for Hutch++, which for symmetric A and normal vectors never exceeds the error of the plain trace estimator.", "quantifier": "all matrices, sizes, numbers of samples m >= 1, orthonormal bases and earlier histories of the estimator", "why_tests_cant": "a statement about expectations over all draws; tests check one averaged run against a tolerance", "anchors": ["curvlinops/trace/hutchinson.py::HutchinsonTraceEstimator.sample", "curvlinops/diagonal/hutchinson.py::HutchinsonDiagonalEstimator.sample", "curvlinops/norm/hutchinson.py::HutchinsonSquaredFrobeniusNormEstimator.sample", "curvlinops/trace/meyer2020hutch.py::HutchPPTraceEstimator.sample"]}
{"id": "C80", "title": "Operators for some of the parameters are sub-matrices", "statement": "Building the Hessian, GGN, empirical Fisher, Monte-Carlo Fisher (same seed and device) or Jacobian operator for a list of some of the model's parameters, in any order, gives the rows and columns (for the Jacobian: columns; for its transpose: rows) of the operator for all parameters that belong to the listed parameters, in the listed order; gradient_and_loss returns the corresponding part of the gradient and the same loss; and a SubmatrixLinearOperator of the exported full operator with these indices gives the same products as the export of the operator for the listed parameters; the KFAC operator for a sub-list of the parameters (all Fisher types and approximations, the same draws) is the corresponding sub-matrix of the KFAC operator for all of them.", "quantifier": "all networks, losses, data, numbers and shapes of parameters, selections and orders, all inputs and (Monte-Carlo) all histories of the two objects", "why_tests_cant": "a relation between two operators for every network and every selection of parameters; tests use a fixed network with all or with a few parameters and compare with a dense reference", "anchors": ["curvlinops/_torch_base.py::CurvatureLinearOperator.__init__", "curvlinops/hessian.py::HessianLinearOperator", "curvlinops/ggn.py::GGNLinearOperator", "curvlinops/fisher.py::FisherMCLinearOperator", "curvlinops/gradient_moments.py::EFLinearOperator", "curvlinops/jacobian.py::JacobianLinearOperator", "curvlinops/submatrix.py::SubmatrixLinearOperator", "curvlinops/kfac.py::KFACLinearOperator"]}
{"id": "C81", "title": "Hessian, GGN and Fisher matrices: how they are related and their signs", "statement": "The Hessian operator is the GGN operator plus the sum over data and outputs of loss gradient times second derivative of the output; hence both multiply alike if the network is affine in the parameters or the loss gradients vanish. For MSELoss, CrossEntropyLoss and BCEWithLogitsLoss the GGN, the empirical Fisher and the Monte-Carlo Fisher never return negative curvature (<v, A v> >= 0), and neither does the Hessian of a network that is affine in its parameters.", "quantifier": "all networks and losses with second derivatives, all data, parameters, weights, vectors and input formats; Monte-Carlo: all random draws and histories", "why_tests_cant": "an identity and inequalities for all vectors, parameters and networks; tests compare single products on small networks with dense references", "anchors": ["curvlinops/hessian.py::HessianLinearOperator", "curvlinops/ggn.py::GGNLinearOperator", "curvlinops/fisher.py::FisherMCLinearOperator", "curvlinops/gradient_moments.py::EFLinearOperator"]}
{"id": "C82", "title": "Estimators and solvers on exported curvature operators", "statement": "On the SciPy export of the Hessian operator, the expected Hutchinson trace sample (Rademacher draws) is the Laplacian of the empirical risk, the expected entries of a diagonal sample are its pure second derivatives and the expected Frobenius sample is the squared Frobenius norm of its Hessian; the Neumann inverse solves with the risk Hessian up to the last power of (1 - a H); without breakdown, Ritz values and weights of a Lanczos run reproduce the moments of the Hessian up to order 2 ncv - 1. On the export of the empirical Fisher, the expected trace sample is the weighted sum of the squared per-term gradient norms, and Lanczos moments are those of the matrix of outer products.", "quantifier": "all networks, losses, data, parameters, vectors, step sizes and numbers of terms or Lanczos vectors", "why_tests_cant": "expectations over all draws and identities for all networks and vectors; tests use tolerances on fixed small matrices", "anchors": ["curvlinops/_torch_base.py::PyTorchLinearOperator.to_scipy", "curvlinops/trace/hutchinson.py::HutchinsonTraceEstimator.sample", "curvlinops/diagonal/hutchinson.py::HutchinsonDiagonalEstimator.sample", "curvlinops/norm/hutchinson.py::HutchinsonSquaredFrobeniusNormEstimator.sample", "curvlinops/inverse.py::NeumannInverseLinearOperator", "curvlinops/papyan2020traces/spectrum.py::fast_lanczos"]}
{"id": "C83", "title": "Data sources that shuffle, that can be iterated over once, that are empty", "statement": "A Hessian, GGN or empirical-Fisher operator built from a re-iterable source whose every pass yields the same data, in whatever order and batches, multiplies with the matrix of these data, in every product of every sequence of calls (including rejected inputs); the source is iterated over once for the first batch, once more to count the data if num_data is not given, four times for the determinism check, once per product and not at all for a rejected input. A source that can be iterated over only once is to give the matrix of its data or to be rejected.   With the number of data given, the determinism check of a one-shot source compares consecutive batches with each other. An empty source is rejected by the constructor.", "quantifier": "all sources (arbitrary state and dependence of the order on it), networks, losses, data, histories of products and inputs", "why_tests_cant": "tests use one list of batches or one loader; random orders, every history of calls and one-shot iterators are not enumerated", "anchors": ["curvlinops/_torch_base.py::CurvatureLinearOperator.__init__", "curvlinops/_torch_base.py::CurvatureLinearOperator._loop_over_data", "curvlinops/_torch_base.py::CurvatureLinearOperator._matmat", "curvlinops/_torch_base.py::CurvatureLinearOperator._check_deterministic"]}
{"id": "C84", "title": "Sums over the batches in floating point", "statement": "With rounded arithmetic (relative error u per operation, fused or unfused multiply-add), a product of a curvature operator and the gradient and loss differ from the exact sums over the n batches by at most ((1+u)^(n+3)-1), respectively ((1+u)^n-1), times the sum of the magnitudes of the batch contributions, so two orders of the same batches give results within twice this bound, and within a relative error if the contributions have one sign. The determinism check of classes without fixed data order is to accept two passes over the same batches in different orders.", "quantifier": "all rounding functions with unit u, numbers of batches, batch results, shapes and orders; single precision (24 bits, round to nearest even) as an instance", "why_tests_cant": "tests compare a few runs with a tolerance; the bound is for all values and numbers of batches, and rejected orders need particular cancellations", "anchors": ["curvlinops/_torch_base.py::CurvatureLinearOperator._matmat", "curvlinops/_torch_base.py::CurvatureLinearOperator.gradient_and_loss", "curvlinops/_torch_base.py::CurvatureLinearOperator._get_normalization_factor", "curvlinops/_torch_base.py::CurvatureLinearOperator._check_deterministic"]}
{"id": "C85", "title": "Products with the conjugate gradient inverse", "statement": "For a symmetric positive definite operator A, a product CGInverseLinearOperator(A) @ x returns y with |x - A y| <= max(tol |x|, atol) for the tolerances in force (tol = 1e-5 by default), for vectors and for every column of a matrix, unless fewer iterations than dimensions are allowed; then the error in the energy norm of A is still not larger than that of the start vector. The same holds with any symmetric positive definite preconditioner M (one iteration suffices if M is the inverse of A), and a preconditioner of the wrong shape is rejected by every product. In particular the CG inverse of an exported generalised Gauss-Newton matrix of a supported loss plus a positive multiple of the identity solves the damped system. A product whose solver does not converge is to be reported.", "quantifier": "all dimensions, symmetric positive definite operators, right-hand sides, histories of setter calls and products, networks and data sets; exact arithmetic", "why_tests_cant": "tests compare with an explicit inverse for a few small networks; convergence is a statement about all matrices and right-hand sides", "anchors": ["curvlinops/inverse.py::CGInverseLinearOperator._matvec", "curvlinops/inverse.py::CGInverseLinearOperator.set_cg_hyperparameters"]}
{"id": "C86", "title": "KFAC for layers called several times in a forward pass", "statement": "If a supported layer is called several times in one forward pass, its KFAC factors are the sums over its calls of the factors the calls would have as layers of their own, whatever order autograd runs the calls backward in; layers that are not called have no factors; a parameter that belongs to no called layer makes the computation fail. With forward-only factors the gradient factor is the identity however often the layer is called, and a layer that is never called makes products fail. Applying a linear layer to P positions one by one instead of in one call leaves its gradient factor and multiplies its input factor by P. Two networks with the same predictions for all parameters are to have the same KFAC matrix.", "quantifier": "all networks of the modelled layers, call orders and numbers of calls, data, losses, Fisher types, both approximations", "why_tests_cant": "tests use networks that call each layer once; the claim is about all call patterns and the values the hooks accumulate", "anchors": ["curvlinops/kfac.py::KFACLinearOperator._compute_kfac", "curvlinops/kfac.py::KFACLinearOperator._register_tensor_hook_on_output_to_accumulate_gradient_covariance", "curvlinops/kfac.py::KFACLinearOperator._accumulate_gradient_covariance", "curvlinops/kfac.py::KFACLinearOperator._hook_accumulate_input_covariance"]}
{"id": "C87", "title": "KFAC's determinism check, and when the factors are computed", "statement": "KFACLinearOperator(..., check_deterministic=True) raises what the two loops over the data raise when they are compared, and otherwise behaves from then on exactly as the operator constructed with check_deterministic=False and used once at that moment: same products, same properties, same state. It stays at the parameters of that moment whatever is done to the model later. from_state_dict(..., check_deterministic=True) of a state with factors computes none and returns the same operator as without the check; of a state without factors it computes them. The check rejects operators whose products are not reproducible, its setting does not influence the represented matrix, a constructor that raises leaves the model usable, and restoring an operator does not change the one that was saved.", "quantifier": "all models, data (also differing from loop to loop), settings, parameter lists and histories of operators before and after", "why_tests_cant": "the claim compares two whole histories and covers data that behave differently in every pass; tests use deterministic data and look at one operator", "anchors": ["curvlinops/kfac.py::KFACLinearOperator.__init__", "curvlinops/kfac.py::KFACLinearOperator.from_state_dict", "curvlinops/kfac.py::KFACLinearOperator._matmat", "curvlinops/_torch_base.py::CurvatureLinearOperator._check_deterministic"]}
{"id": "C88", "title": "Comparison of arrays and the documented comparisons", "statement": "report_nonclose(a, b, rtol, atol, equal_nan) returns exactly if the shapes agree and every pair of entries does: |x - y| <= atol + rtol |y| for finite numbers, equal infinities, or two NaNs if equal_nan; otherwise it raises ValueError, after printing and counting exactly the pairs that differ. After a successful comparison with rtol < 1 the arrays may be swapped if both tolerances are divided by 1 - rtol. In exact arithmetic the comparisons of the documentation pass for every network, loss and data set of distinct, non-empty parameters on one device: exported Hessian and GGN against the functorch references, for every vector and for the identity matrix.", "quantifier": "all arrays with finite, infinite and NaN entries, all tolerances; all networks, losses, data sets and vectors", "why_tests_cant": "the function is the tests' and examples' own oracle; the examples compare one network", "anchors": ["curvlinops/examples/utils.py::report_nonclose", "docs/examples/basic_usage/example_matrix_vector_products.py", "curvlinops/examples/functorch.py::functorch_hessian", "curvlinops/examples/functorch.py::functorch_ggn"]}
{"id": "C89", "title": "Documented workflows: natural gradients and Fisher-weighted averaging", "statement": "The natural gradient of the documentation, the CG inverse of the exported GGN plus delta times the identity multiplied onto the gradient of gradient_and_loss, solves the damped system up to the default tolerance of CG, and the empirical risk increases along it unless its gradient vanishes (so the negative step is a descent direction). The documented comparison of damped GGN times natural gradient with the gradient passes for gradients of norm at most 1. Parameters merged by Fisher-weighted averaging minimise, up to the tolerance of CG divided by the damping, the sum of the squared distances to the tasks' parameters in the norms given by the tasks' GGNs plus the damping times the squared norm.", "quantifier": "all networks with differentiable outputs, supported losses, data sets, parameters, numbers of tasks, positive damping, earlier products with the inverse", "why_tests_cant": "the documentation runs one network and one seed; that the step is an ascent direction and that the merged parameters are near-optimal depends on the accuracy of CG for every spectrum", "anchors": ["docs/examples/basic_usage/example_inverses.py", "docs/examples/basic_usage/example_model_merging.py", "curvlinops/inverse.py::CGInverseLinearOperator", "curvlinops/ggn.py::GGNLinearOperator", "curvlinops/_torch_base.py::CurvatureLinearOperator.gradient_and_loss"]}
{"id": "C90", "title": "Gradients by back-propagation; parameters that do not take part in the loss", "statement": "With torch's reverse-mode algorithm itself modelled (tape of calls with backward functions, accumulation of cotangents, requires_grad), gradient_and_loss returns, for every parameter in the operator's list (in any order, possibly repeated), exactly the partial derivatives of the normalised loss over the data, provided that every listed parameter requires grad and that the loss of every batch is computed from it. Otherwise it raises RuntimeError, for any position of the offending batch, although the loss is differentiable in the unused parameter with derivative zero. When every parameter takes part, the result is the one of the model used for C20 and the other properties, which takes autograd's results as exact partial derivatives. Fully connected networks of any depth and width with any differentiable activation meet the conditions. Products with the Hessian fail in the same way, and otherwise agree with the model used for C14. Recording the backward pass (create_graph=True) changes neither gradients nor errors, and differentiating the recorded gradients along vectors v, when it returns, gives the partial derivatives of the directional derivative along v (for continuous second derivatives: the product of v with the Hessian).", "quantifier": "all tapes of calls with correct backward functions, parameter lists (with repetitions), frozen parameters, loaders, reductions, data set sizes; for networks: all depths, widths, weights and data", "why_tests_cant": "tests use a few models whose parameters all take part; neither the equality with the derivative nor the condition under which the call fails can be read off examples", "anchors": ["curvlinops/_torch_base.py::CurvatureLinearOperator.gradient_and_loss", "curvlinops/_torch_base.py::CurvatureLinearOperator.data_prediction_loss_gradient", "curvlinops/hessian.py::HessianLinearOperator._matmat_batch"]}
{"id": "C91", "title": "The documented power method", "statement": "The power method of the documentation returns, for k requested pairs, k eigenvalues and k unit vectors; each eigenvalue is the Rayleigh quotient of a vector, so it lies within any bounds of the operator's quadratic form, and if the vectors found before are orthonormal it lies within the bounds on their orthogonal complement. For k = 1 it is the Rayleigh quotient of a power of the operator applied to the start vector, at the first step whose relative change is below tol (or the last one); for positive semi-definite operators more iterations or a smaller tol never give a smaller value; without early stopping the error against the eigenvalue of largest magnitude decreases with the squared ratio of the magnitudes. What the docstring says about descending order and about the shape [D, k] of the vectors does not hold, and the stopping rule can end far from the largest eigenvalue for an open set of start vectors.", "quantifier": "all symmetric operators (any size), start vectors, tolerances, numbers of iterations and of pairs", "why_tests_cant": "the example compares three eigenvalues of one Hessian with loose tolerances and random start vectors", "anchors": ["docs/examples/basic_usage/example_eigenvalues.py::power_method"]}
{"id": "C92", "title": "Documented blocks and sub-matrices of a Hessian", "statement": "extract_block(mat, params, i, j) of the documentation returns the [numel_i, numel_j] block of parameters i and j. Multiplied with the identity, the SubmatrixLinearOperator for the index ranges of two parameters gives the extracted block of the Hessian's matrix, whose entries are the mixed second derivatives of the risk; the HessianLinearOperator built for parameter i alone gives the diagonal block; for arbitrary index lists the sub-matrix operator gives the matrix indexed by the lists. Negative indices count from the end, except that -1 gives an empty block; the operator of a parameter without entries cannot be multiplied with the identity; the documented test of the off-diagonal block succeeds for every operator because it does not use it.", "quantifier": "all matrices, parameter shapes, pairs of parameters, index lists, models, losses and data sets", "why_tests_cant": "the example looks at two blocks and one list of indices of one model, and one of its three comparisons compares a block with itself", "anchors": ["docs/examples/basic_usage/example_submatrices.py::extract_block", "curvlinops/submatrix.py::SubmatrixLinearOperator", "curvlinops/hessian.py::HessianLinearOperator"]}
