{"id": "C01", "title": "Product and box index sets are exact", "statement": "MultiIndices.bounded_by(dim, p, m0) (and product_set) returns a set of multi-indices in which every multi-index i with m0 <= i_k <= p_k for all k occurs, every row satisfies these bounds, no row occurs twice, and rows are enumerated with the first coordinate varying fastest (the order of MATLAB/Fortran sub2ind).", "quantifier": "every dimension d>=1, every list of bounds, every list of 1-D factor sets", "why_tests_cant": "the number of dimensions and the bounds are unbounded; a test samples a few boxes", "anchors": ["tensap/tools/multi_indices.py:MultiIndices.bounded_by", "tensap/tools/multi_indices.py:MultiIndices.product_set"]}
{"id": "C02", "title": "Linear and multi-dimensional indexing are inverse bijections", "statement": "MultiIndices.sub2ind and MultiIndices.ind2sub are inverse of each other on every in-range index of every shape, the linear index is always < product of the shape, and enumerating ind2sub over 0..prod-1 is the box enumeration of bounded_by.", "quantifier": "every shape, every in-range multi-index and linear index", "why_tests_cant": "must hold for all shapes and indices", "anchors": ["tensap/tools/multi_indices.py:MultiIndices.sub2ind", "tensap/tools/multi_indices.py:MultiIndices.ind2sub"]}
{"id": "C03", "title": "Norm-bounded index sets are exact", "statement": "MultiIndices.with_bounded_norm(d,1,m) contains exactly the multi-indices of N^d with i_1+...+i_d <= m, each once; hyperbolic_cross_set(d,m) contains exactly those with prod(i_k+1) <= m+1 (or its weighted variants), each once; with_bounded_norm for other p contains exactly those with norm_p <= m.", "quantifier": "every dimension d, every order m, every p and weights", "why_tests_cant": "the loop that grows the set layer by layer has a data dependent number of iterations", "anchors": ["tensap/tools/multi_indices.py:MultiIndices.with_bounded_norm", "tensap/tools/multi_indices.py:MultiIndices.hyperbolic_cross_set", "tensap/tools/multi_indices.py:MultiIndices.with_bounded_weighted_norm"]}
{"id": "C04", "title": "Set operations on multi-indices are set operations", "statement": "add_indices/remove_indices/intersect_indices applied to a duplicate-free MultiIndices give a duplicate-free MultiIndices whose rows are the union/difference/intersection of the row sets, whatever the order of the rows.", "quantifier": "all pairs of finite sets of multi-indices of equal dimension", "why_tests_cant": "arbitrary sets, arbitrary order, duplicates", "anchors": ["tensap/tools/multi_indices.py:MultiIndices.add_indices", "tensap/tools/multi_indices.py:MultiIndices.remove_indices", "tensap/tools/multi_indices.py:MultiIndices.intersect_indices"]}
{"id": "C05", "title": "Margins and downward-closedness are what they are defined to be", "statement": "get_margin returns exactly the multi-indices outside the set that have at least one backward neighbour i-e_k in the set; get_reduced_margin exactly those outside for which every backward neighbour in N^d is in the set; is_downward_closed decides closedness under decreasing a coordinate; adding any subset of the reduced margin to a downward closed set gives a downward closed set; get_maximal_indices returns the indices with no forward neighbour in the set.", "quantifier": "all finite sets of multi-indices, all subsets of the margin, all adaptive enrichment histories", "why_tests_cant": "enrichment histories are unbounded sequences of sets", "anchors": ["tensap/tools/multi_indices.py:MultiIndices.get_margin", "tensap/tools/multi_indices.py:MultiIndices.get_reduced_margin", "tensap/tools/multi_indices.py:MultiIndices.is_downward_closed", "tensap/tools/multi_indices.py:MultiIndices.get_maximal_indices"]}
{"id": "C06", "title": "Sorting multi-indices sorts without losing rows", "statement": "sort/sort_by_norm return a permutation of the rows, ordered (lexicographically on the requested columns, resp. by norm) in the requested direction.", "quantifier": "every set, every choice of columns, both modes, every behaviour of argsort on ties allowed by its documentation", "why_tests_cant": "ties and orders are unbounded", "anchors": ["tensap/tools/multi_indices.py:MultiIndices.sort", "tensap/tools/multi_indices.py:MultiIndices.sort_by_norm"]}
{"id": "C07", "title": "Coordinate selection on multi-indices", "statement": "keep_dims/remove_dims restrict every row to the kept coordinates, in order; the result contains exactly the projections of the rows, without duplicates.", "quantifier": "all sets and all lists of coordinates", "why_tests_cant": "arbitrary sets", "anchors": ["tensap/tools/multi_indices.py:MultiIndices.keep_dims", "tensap/tools/multi_indices.py:MultiIndices.remove_dims"]}
{"id": "C08", "title": "Base-b digit conversion round-trips", "statement": "baseb2integer(integer2baseb(i,b,d),b) = i for all i<b^d, the digits are in 0..b-1, and integer2baseb inverts baseb2integer on every digit list of length d.", "quantifier": "every base b>=2, every resolution d, every i", "why_tests_cant": "unbounded sizes", "anchors": ["tensap/tools/utils.py:integer2baseb", "tensap/tools/utils.py:baseb2integer"]}
{"id": "C09", "title": "FullTensor elementwise and linear operations are exact", "statement": "Addition, subtraction, negation, product with a scalar, element-wise product of FullTensor, their shapes and the entry at every index are those of the mathematical operation.", "quantifier": "every order and shape, every entries in a commutative ring", "why_tests_cant": "all shapes", "anchors": ["tensap/tensor_algebra/tensors/full_tensor.py:FullTensor.__add__", "tensap/tensor_algebra/tensors/full_tensor.py:FullTensor.__sub__", "tensap/tensor_algebra/tensors/full_tensor.py:FullTensor.__mul__", "tensap/tensor_algebra/tensors/full_tensor.py:FullTensor.__neg__"]}
{"id": "C10", "title": "Dense transpose and reshape are lossless", "statement": "transpose(dims) moves axis dims[k] to position k, itranspose(dims) undoes transpose(dims) for every permutation, reshape keeps the column-major (Fortran) linearisation, and matricize(dims1,dims2) lays out entry i at (sub2ind(i[dims1]), sub2ind(i[dims2])).", "quantifier": "all orders, all permutations, all shapes with equal number of entries", "why_tests_cant": "all permutations and shapes", "anchors": ["tensap/tensor_algebra/tensors/full_tensor.py:FullTensor.transpose", "tensap/tensor_algebra/tensors/full_tensor.py:FullTensor.itranspose", "tensap/tensor_algebra/tensors/full_tensor.py:FullTensor.reshape", "tensap/tensor_algebra/tensors/full_tensor.py:FullTensor.matricize"]}
{"id": "C11", "title": "Dense contraction is tensor contraction", "statement": "tensordot(x,y,dims1,dims2) has entries sum over the contracted indices; tensor_matrix_product applies matrix M_k along dimension dims[k] of the tensor without permuting dimensions; tensor_vector_product contracts with vectors and removes the dimensions; dot is the canonical inner product.", "quantifier": "all orders, shapes, lists of dimensions (in any order), all entries", "why_tests_cant": "all dimension lists", "anchors": ["tensap/tensor_algebra/tensors/full_tensor.py:FullTensor.tensordot", "tensap/tensor_algebra/tensors/full_tensor.py:FullTensor.tensor_matrix_product", "tensap/tensor_algebra/tensors/full_tensor.py:FullTensor.tensor_vector_product", "tensap/tensor_algebra/tensors/full_tensor.py:FullTensor.dot"]}
{"id": "C12", "title": "Dense concatenation, Kronecker product, diagonal and sub-tensor", "statement": "cat along all dims is the direct (block) sum, cat on a subset of dims concatenates those and adds on the others; kron gives the Kronecker entries x[i//n]*y[i%n]; eval_diag picks x[i,...,i]; sub_tensor picks the requested rows; eval_at_indices returns the requested entries.", "quantifier": "all orders, shapes, index lists", "why_tests_cant": "all shapes and index sets", "anchors": ["tensap/tensor_algebra/tensors/full_tensor.py:FullTensor.cat", "tensap/tensor_algebra/tensors/full_tensor.py:FullTensor.kron", "tensap/tensor_algebra/tensors/full_tensor.py:FullTensor.eval_diag", "tensap/tensor_algebra/tensors/full_tensor.py:FullTensor.sub_tensor", "tensap/tensor_algebra/tensors/full_tensor.py:FullTensor.eval_at_indices"]}
{"id": "C13", "title": "Sparse tensors represent the same tensor as their dense conversion", "statement": "SparseTensor.full has exactly the stored entries; FullTensor.sparse and DiagonalTensor.sparse keep every entry and store exactly the nonzero ones; add, element-wise product, dot, transpose, reshape, eval_at_indices, tensor_matrix_product_eval_diag, tensor_vector_product, tensor_matrix_product and dot_with_rank_one_metric on SparseTensor agree with the dense tensor.", "quantifier": "all shapes, all duplicate-free sets of stored indices", "why_tests_cant": "all index sets and supports", "anchors": ["tensap/tensor_algebra/tensors/sparse_tensor.py:SparseTensor", "tensap/tensor_algebra/tensors/full_tensor.py:FullTensor.sparse"]}
{"id": "C14", "title": "Diagonal tensors represent the same tensor as their dense conversion", "statement": "add, sub, neg, element-wise product, kron, cat, dot, tensor_vector_product, tensor_diagonal_matrix_product, transpose, eval_at_indices, eval_diag and dot_with_rank_one_metric of DiagonalTensor agree with the dense tensor (full).", "quantifier": "all orders, all diagonals", "why_tests_cant": "all orders and sizes", "anchors": ["tensap/tensor_algebra/tensors/diagonal_tensor.py:DiagonalTensor"]}
{"id": "C15", "title": "Canonical tensors: operations agree with the dense tensor", "statement": "full, addition, subtraction, negation, tensor_matrix_product, tensor_vector_product, reduce_sum, squeeze, eval_diag, tensor_matrix_product_eval_diag and storage on CanonicalTensor agree with the sum of rank-one tensors it represents; evaluating does not change the tensor.", "quantifier": "all orders, ranks, sizes, factor entries", "why_tests_cant": "all ranks and orders", "anchors": ["tensap/tensor_algebra/tensors/canonical_tensor.py:CanonicalTensor"]}
{"id": "C16", "title": "Canonical inner product is the inner product of the represented tensors", "statement": "x.dot(y) for CanonicalTensor equals the inner product of x.full() and y.full(), for any ranks and weights.", "quantifier": "all ranks, weights and factors", "why_tests_cant": "holds on equal-weights tests but must hold for all ranks", "anchors": ["tensap/tensor_algebra/tensors/canonical_tensor.py:CanonicalTensor.dot", "tensap/tensor_algebra/tensors/diagonal_tensor.py:DiagonalTensor.dot_with_rank_one_metric"]}
{"id": "C17", "title": "Every dimension-tree constructor yields a consistent tree", "statement": "For linear, balanced, trivial, random and user given trees: there is one root at level 0, every non-root node has exactly one parent, child/parent/sibling/level attributes are mutually consistent, leaves are the nodes mapped to dimensions.", "quantifier": "all orders, all arities and random choices, all well formed adjacency matrices", "why_tests_cant": "all trees", "anchors": ["tensap/tensor_algebra/tensors/dimension_tree.py:DimensionTree.linear", "tensap/tensor_algebra/tensors/dimension_tree.py:DimensionTree.balanced", "tensap/tensor_algebra/tensors/dimension_tree.py:DimensionTree.trivial", "tensap/tensor_algebra/tensors/dimension_tree.py:DimensionTree.random", "tensap/tensor_algebra/tensors/dimension_tree.py:DimensionTree.update"]}
{"id": "C18", "title": "Node dimensions partition the parent's dimensions", "statement": "For every tree, the dims attached to a node are the disjoint union of the dims attached to its children, the root carries all dimensions and a leaf exactly its own.", "quantifier": "all trees", "why_tests_cant": "all shapes of tree", "anchors": ["tensap/tensor_algebra/tensors/dimension_tree.py:DimensionTree.update_dims_from_leaves"]}
{"id": "C19", "title": "Tree equality means equality", "statement": "DimensionTree == returns True only for trees with the same arborescence and the same assignment of dimensions.", "quantifier": "all pairs of trees", "why_tests_cant": "all pairs of trees", "anchors": ["tensap/tensor_algebra/tensors/dimension_tree.py:DimensionTree.__eq__"]}
{"id": "C20", "title": "Tree-based full() is the tensor network contraction", "statement": "TreeBasedTensor.full() has the shape given by the leaves and, at every index, equals the contraction of the tree tensor network defined by the cores.", "quantifier": "all trees, active/inactive leaf patterns, ranks, sizes and cores", "why_tests_cant": "all trees and cores", "anchors": ["tensap/tensor_algebra/tensors/tree_based_tensor.py:TreeBasedTensor.full"]}
{"id": "C21", "title": "Tree-based addition and subtraction are addition", "statement": "(x+y).full() = x.full()+y.full(), and same for subtraction and negation, for tensors on the same tree, whatever their ranks.", "quantifier": "all trees, ranks, cores", "why_tests_cant": "all trees", "anchors": ["tensap/tensor_algebra/tensors/tree_based_tensor.py:TreeBasedTensor.__add__", "tensap/tensor_algebra/tensors/tree_based_tensor.py:TreeBasedTensor.__sub__", "tensap/tensor_algebra/tensors/tree_based_tensor.py:TreeBasedTensor.__neg__"]}
{"id": "C22", "title": "Tree-based scaling and products", "statement": "(a*x).full() = a*x.full(), (x*y).full() is the element-wise product and kron the Kronecker product of the full tensors.", "quantifier": "all trees, ranks, cores", "why_tests_cant": "all trees", "anchors": ["tensap/tensor_algebra/tensors/tree_based_tensor.py:TreeBasedTensor.__mul__", "tensap/tensor_algebra/tensors/tree_based_tensor.py:TreeBasedTensor.__rmul__", "tensap/tensor_algebra/tensors/tree_based_tensor.py:TreeBasedTensor.kron"]}
{"id": "C23", "title": "Tree-based mode products and slicing", "statement": "tensor_matrix_product, tensor_vector_product, sub_tensor, eval_at_indices and eval_diag on a tree-based tensor give the same result as the operation on the full tensor, without modifying the operand.", "quantifier": "all trees, dims lists, matrices, indices", "why_tests_cant": "all trees", "anchors": ["tensap/tensor_algebra/tensors/tree_based_tensor.py:TreeBasedTensor.tensor_matrix_product", "tensap/tensor_algebra/tensors/tree_based_tensor.py:TreeBasedTensor.sub_tensor", "tensap/tensor_algebra/tensors/tree_based_tensor.py:TreeBasedTensor.eval_at_indices", "tensap/tensor_algebra/tensors/tree_based_tensor.py:TreeBasedTensor.eval_diag"]}
{"id": "C24", "title": "Activating and inactivating nodes preserves the tensor", "statement": "activate_nodes and inactivate_nodes leave the represented tensor unchanged, and make precisely the requested nodes (in)active.", "quantifier": "all trees, all sets of leaves, all cores", "why_tests_cant": "all sets of nodes", "anchors": ["tensap/tensor_algebra/tensors/tree_based_tensor.py:TreeBasedTensor.activate_nodes", "tensap/tensor_algebra/tensors/tree_based_tensor.py:TreeBasedTensor.inactivate_nodes"]}
{"id": "C25", "title": "Tree-based inner product", "statement": "x.dot(y) equals the inner product of x.full() and y.full(); norm of an orthogonal tensor is the norm of its root core.", "quantifier": "all trees, ranks, cores", "why_tests_cant": "all trees", "anchors": ["tensap/tensor_algebra/tensors/tree_based_tensor.py:TreeBasedTensor.dot", "tensap/tensor_algebra/tensors/tree_based_tensor.py:TreeBasedTensor.norm"]}
{"id": "C26", "title": "Orthogonalisation preserves the tensor and makes bases orthonormal", "statement": "orth() returns a tensor with the same full() in which every non-root core is orthonormal (as the matrix with the rank as column index), for any QR routine meeting its contract.", "quantifier": "all trees, cores, all QR implementations", "why_tests_cant": "any QR result, all trees", "anchors": ["tensap/tensor_algebra/tensors/tree_based_tensor.py:TreeBasedTensor.orth", "tensap/tensor_algebra/tensors/full_tensor.py:FullTensor.orth"]}
{"id": "C27", "title": "Storage of a tree-based tensor", "statement": "storage() equals the sum over active nodes of product of child ranks (or leaf size) and own rank; sparse_storage counts the nonzeros and is never larger.", "quantifier": "all trees and ranks", "why_tests_cant": "all trees", "anchors": ["tensap/tensor_algebra/tensors/tree_based_tensor.py:TreeBasedTensor.storage", "tensap/tensor_algebra/tensors/tree_based_tensor.py:TreeBasedTensor.sparse_storage"]}
{"id": "C28", "title": "SVD truncation respects tolerance and rank bound", "statement": "Truncator.trunc_svd keeps the smallest number of singular values whose discarded tail is below tolerance (relative), never more than max_rank nor than the matrix rank bound; so the relative error is below the tolerance unless max_rank is active. No matrix of the same rank is closer to the given one. The squared error of hosvd is at most d times that of any tensor with the same multilinear ranks.", "quantifier": "all spectra, tolerances, max_rank values and p-norms", "why_tests_cant": "all spectra", "anchors": ["tensap/tensor_algebra/tools/truncator.py:Truncator.trunc_svd", "tensap/tensor_algebra/tools/truncator.py:Truncator._trunc_svd"]}
{"id": "C29", "title": "Repeated use of a Truncator does not change the result", "statement": "Calling hosvd/hsvd/truncate several times on the same Truncator gives the result determined by the user's tolerance and max_rank and the tensor only.", "quantifier": "all call histories", "why_tests_cant": "call histories are unbounded", "anchors": ["tensap/tensor_algebra/tools/truncator.py:Truncator.hosvd", "tensap/tensor_algebra/tools/truncator.py:Truncator.hsvd"]}
{"id": "C30", "title": "Tensorizer maps are inverse of each other", "statement": "Tensorizer.u2z followed by z2u is the identity on [0,1)^dim, digits are in 0..b-1, the last coordinates are in [0,1); z2u followed by u2z is the identity; map/inverse_map inherit this for both ordering types and for any support X = product of intervals.", "quantifier": "all bases b, resolutions d, dims, points, both orderings", "why_tests_cant": "all reals in [0,1)", "anchors": ["tensap/functions/tensorizer.py:Tensorizer.u2z", "tensap/functions/tensorizer.py:Tensorizer.z2u", "tensap/functions/tensorizer.py:Tensorizer.map", "tensap/functions/tensorizer.py:Tensorizer.inverse_map"]}
{"id": "C31", "title": "Polynomial evaluation agrees with monomial coefficients", "statement": "For any three-term recurrence coefficients, polyval(x, degrees) equals evaluation at x of the monomial expansion given by poly_coeff, for every degree list; and dn_polyval is the derivative.", "quantifier": "all recurrence coefficients, degrees, points, derivative orders", "why_tests_cant": "all degrees and reals", "anchors": ["tensap/functions/polynomials/orthonormal_polynomials.py:OrthonormalPolynomials.polyval", "tensap/functions/polynomials/orthonormal_polynomials.py:OrthonormalPolynomials.poly_coeff", "tensap/functions/polynomials/orthonormal_polynomials.py:OrthonormalPolynomials.dn_polyval"]}
{"id": "C32", "title": "Functions composed on a tree are evaluated as the composition", "statement": "CompositionalModelFunction evaluates, at every point, the recursive composition of the node functions along the tree.", "quantifier": "all trees and node functions", "why_tests_cant": "all trees", "anchors": ["tensap/functions/compositional_model_function.py:CompositionalModelFunction.eval"]}
{"id": "C33", "title": "Evaluation cache returns what the function returns", "statement": "With store turned on, after any sequence of calls the values returned for any points equal the evaluations of the underlying function and already stored points are not evaluated again.", "quantifier": "all call histories", "why_tests_cant": "call histories are unbounded", "anchors": ["tensap/functions/function.py:Function.store_eval", "tensap/functions/function.py:Function.__call__"]}
{"id": "C34", "title": "Fast leave-one-out error is the leave-one-out error", "statement": "The shortcut leave-one-out formula used in least-squares learning (PRESS / Sherman-Morrison) equals the mean of the squared residuals of the n models trained with one sample removed.", "quantifier": "all sample sizes, bases, data with invertible Gram matrix", "why_tests_cant": "all data sets", "anchors": ["tensap/approximation/learning/linear_model_learning_square_loss.py:LinearModelLearningSquareLoss.compute_cross_validation_error", "tensap/approximation/learning/linear_model_learning_density_l2.py"]}
{"id": "C35", "title": "Penalised model selection picks a minimiser and the complete path", "statement": "ModelSelection.m_lambda(lambda) returns a model minimising risk + lambda*penalty; lambda_path returns breakpoints between which the selected model is constant, and every lambda falls in one of the intervals.", "quantifier": "all finite lists of models, risks and complexities, all lambda >= 0", "why_tests_cant": "all lists of models", "anchors": ["tensap/approximation/tools/model_selection.py:ModelSelection.m_lambda", "tensap/approximation/tools/model_selection.py:ModelSelection.lambda_path"]}
{"id": "C36", "title": "Discrete random variables: icdf is the quantile function of cdf", "statement": "For a discrete random variable, icdf(u) is the smallest value v with cdf(v) >= u.", "quantifier": "all finite supports, probabilities, u in (0,1]", "why_tests_cant": "all distributions", "anchors": ["tensap/functions/measures/discrete_random_variable.py:DiscreteRandomVariable.icdf", "tensap/functions/measures/discrete_random_variable.py:DiscreteRandomVariable.cdf"]}
{"id": "C37", "title": "Magic points give an interpolation", "statement": "magic_indices returns distinct row and column indices such that the cross approximation reproduces the chosen rows and columns exactly.", "quantifier": "all matrices for which pivots are nonzero, all numbers of points", "why_tests_cant": "all matrices", "anchors": ["tensap/linear_algebra/magic_indices.py:magic_indices"]}
{"id": "C38", "title": "Tensor-product grids and tensor-grid evaluation agree in ordering", "statement": "The rows of FullTensorGrid.array, the weights of a tensor quadrature rule, and eval_on_tensor_grid use the same (column-major) order: entry i of the reshaped result is the value at the point with coordinates grid_k[i_k].", "quantifier": "all dims, grid sizes, functions", "why_tests_cant": "all grids", "anchors": ["tensap/tools/grids.py:FullTensorGrid", "tensap/functions/function.py:Function.eval_on_tensor_grid", "tensap/approximation/integration/integration_rules.py"]}
{"id": "C39", "title": "Tensor-product basis evaluation is the product of univariate bases", "statement": "SparseTensorProductFunctionalBasis.eval(x)[n,k] = prod_j basis_j.eval(x_j)[n, i_kj] for the k-th multi-index; FunctionalTensor evaluated at x equals the contraction of its tensor with the basis evaluations, for every tensor format.", "quantifier": "all dims, bases, multi-index sets, points", "why_tests_cant": "all basis sets", "anchors": ["tensap/approximation/bases/sparse_tensor_product_functional_basis.py:SparseTensorProductFunctionalBasis.eval", "tensap/functions/functional_tensor.py:FunctionalTensor.eval"]}
{"id": "C40", "title": "B-splines: partition of unity, supports, derivatives", "statement": "For every strictly increasing knot vector and degree p, the B-splines returned by eval are nonnegative, positive inside and zero outside their supports (t_i, t_{i+p+1}], and sum to one on (t_p, t_{m-1-p}]; with_extra_knots extends the knots so that they sum to one on the whole original range; eval_derivative(n, x) is the n-th derivative of eval (everywhere for n < p, off the knots for all n). Dilated B-splines: the index sets list exactly the functions not vanishing on (0,1), each level sums to b^(l/2), and eval_derivative is the derivative of eval.", "quantifier": "all degrees, all increasing knot sequences, all points", "why_tests_cant": "all reals", "anchors": ["tensap/approximation/bases/BSplines_functional_basis.py:BSplinesFunctionalBasis.eval", "tensap/approximation/bases/BSplines_functional_basis.py:BSplinesFunctionalBasis.eval_derivative", "tensap/approximation/bases/BSplines_functional_basis.py:BSplinesFunctionalBasis.with_extra_knots", "tensap/approximation/bases/BSplines_functional_basis.py:DilatedBSplines"]}
{"id": "C41", "title": "Converting a tensor between formats preserves the entries", "statement": "DiagonalTensor.full/sparse, CanonicalTensor.full/tree_based_tensor, SparseTensor.full, FullTensor.tree_based_tensor represent the same multi-dimensional array.", "quantifier": "all orders, shapes, ranks", "why_tests_cant": "all shapes", "anchors": ["tensap/tensor_algebra/tensors/diagonal_tensor.py:DiagonalTensor.full", "tensap/tensor_algebra/tensors/diagonal_tensor.py:DiagonalTensor.sparse", "tensap/tensor_algebra/tensors/canonical_tensor.py:CanonicalTensor.full", "tensap/tensor_algebra/tensors/canonical_tensor.py:CanonicalTensor.tree_based_tensor", "tensap/tensor_algebra/tensors/sparse_tensor.py:SparseTensor.full", "tensap/tensor_algebra/tensors/full_tensor.py:FullTensor.tree_based_tensor"]}
{"id": "C42", "title": "Risks and test errors are the documented averages", "statement": "SquareLossFunction: the risk is the empirical mean over the samples of the squared distance between prediction and output, it is zero exactly for perfect predictions, minimising it over a linear model is the least-squares problem, the absolute and relative test errors are the root mean square and the ratio of norms; the density loss has risk norm^2 - 2 mean(prediction); a custom loss is averaged over the samples.", "quantifier": "all numbers of samples and outputs, all predictions and outputs", "why_tests_cant": "all data", "anchors": ["tensap/approximation/learning/loss_functions.py:SquareLossFunction", "tensap/approximation/learning/loss_functions.py:DensityL2LossFunction", "tensap/approximation/learning/loss_functions.py:CustomLossFunction", "tensap/approximation/learning/loss_functions.py:LossFunction.risk_estimation"]}
{"id": "C43", "title": "Orthonormality of the polynomial families", "statement": "HermitePolynomials, LegendrePolynomials (shifted to any interval), LegendrePolynomialsLebesgue and DiscretePolynomials evaluate, at every degree, to polynomials that are orthonormal for their measure, and recurrence_monic returns the norms of the monic polynomials.", "quantifier": "all degrees, intervals, discrete measures with distinct points and positive weights", "why_tests_cant": "unbounded degrees and all measures", "anchors": ["tensap/functions/polynomials/orthonormal_polynomials.py:HermitePolynomials.recurrence_monic", "tensap/functions/polynomials/orthonormal_polynomials.py:LegendrePolynomials.recurrence_monic", "tensap/functions/polynomials/orthonormal_polynomials.py:DiscretePolynomials._precompute_recurrence_monic", "tensap/functions/measures/lebesgue_measure.py:LebesgueMeasure.orthonormal_polynomials"]}
{"id": "C44", "title": "Roots of orthonormal polynomials", "statement": "roots(deg) returns deg distinct numbers which are exactly the zeros of the polynomial of degree deg given by polyval.", "quantifier": "all recurrence coefficients with positive off-diagonal terms, all degrees", "why_tests_cant": "all recurrences and degrees", "anchors": ["tensap/functions/polynomials/orthonormal_polynomials.py:OrthonormalPolynomials.roots"]}
{"id": "C45", "title": "Gauss rules are exact", "statement": "gauss_integration_rule(n) of a normal or uniform variable or of a Lebesgue measure integrates exactly every polynomial of degree at most 2n-1, with distinct nodes and positive weights.", "quantifier": "all n, parameters of the measure, polynomials of degree at most 2n-1", "why_tests_cant": "all n and all polynomials", "anchors": ["tensap/functions/measures/random_variable.py:RandomVariable.gauss_integration_rule", "tensap/functions/measures/lebesgue_measure.py:LebesgueMeasure.gauss_integration_rule"]}
{"id": "C46", "title": "Moments of random variables and of products of polynomials", "statement": "RandomVariable.moment(ind) of a normal (resp. uniform) variable returns exactly the raw moments E[X^i] for every list of orders; UnivariatePolynomials.moment(ind, X) returns E[prod p_d(X)] for each row of ind; OrthonormalPolynomials.moment under the family's own measure returns 1 for the pair (d,d) and 0 for distinct degrees; moments stored on the variable by a first call answer later calls with the same value.", "quantifier": "for all means/deviations or supports, all lists of orders / rows of degrees, all call histories of moment()", "why_tests_cant": "the quadrature order is chosen from the requested orders, and the result must be exact for every order and every list; the stored-moment path depends on the history of calls", "anchors": ["tensap/functions/measures/random_variable.py:RandomVariable.moment", "tensap/functions/polynomials/polynomials.py:UnivariatePolynomials.moment", "tensap/functions/polynomials/orthonormal_polynomials.py:OrthonormalPolynomials.moment"]}
{"id": "C47", "title": "Discretisation of a random variable", "statement": "iso_probabilistic_grid(n) returns n+1 points from the minimum to the maximum of the support between which the variable has equal probability 1/n; discretize_support(x) returns the discrete variable on x whose probabilities are the masses of the cells between consecutive midpoints, and they form a probability distribution.", "quantifier": "for all n >= 1 and all variables with a strictly increasing distribution function", "why_tests_cant": "holds for every n and every distribution; tests only sample a few", "anchors": ["tensap/functions/measures/random_variable.py:RandomVariable.iso_probabilistic_grid", "tensap/functions/measures/random_variable.py:RandomVariable.discretize_support"]}
{"id": "C48", "title": "Random vectors with independent components", "statement": "RandomVector.cdf with the independent copula is the product of the marginal distribution functions; transfer maps each component by the target's quantile function of the source's distribution function, and transferring back gives the original point.", "quantifier": "for all dimensions, all marginals with invertible distribution functions, all points", "why_tests_cant": "ranges over all marginals and dimensions", "anchors": ["tensap/functions/measures/random_vector.py:RandomVector.cdf", "tensap/functions/measures/random_vector.py:RandomVector.transfer", "tensap/functions/measures/random_variable.py:RandomVariable.transfer"]}
{"id": "C49", "title": "Composite Gauss rules", "statement": "IntegrationRule.gauss_legendre_composite(knots, n) integrates exactly over [knots[0], knots[-1]] every polynomial of degree at most 2 n_i - 1 for all cells i.", "quantifier": "all increasing knot lists, all numbers of points per cell, all polynomials of admissible degree", "why_tests_cant": "exactness is quantified over all piecewise polynomials and all knots", "anchors": ["tensap/approximation/integration/integration_rules.py:IntegrationRule.gauss_legendre_composite"]}
{"id": "C50", "title": "Partial evaluation freezes the other variables", "statement": "f.partial_evaluation(not_alpha, x_not_alpha) returns a function g of the remaining variables such that g(x_alpha) = f(x) for the point x whose coordinates are x_alpha on the remaining variables (in increasing order) and x_not_alpha on the frozen ones.", "quantifier": "for all functions, dimensions, subsets of frozen variables and points", "why_tests_cant": "ranges over every subset of variables and every function", "anchors": ["tensap/functions/function.py:Function.partial_evaluation"]}
{"id": "C51", "title": "Tensor-product quadrature", "statement": "FullTensorProductIntegrationRule.integrate(f) is the iterated weighted sum over all grid points, with weight equal to the product of the one-dimensional weights of the grid point's coordinates; if every one-dimensional rule is exact for the factors it is exact for their product.", "quantifier": "for all numbers of dimensions, all one-dimensional rules and all functions", "why_tests_cant": "ranges over every dimension and rule", "anchors": ["tensap/approximation/integration/integration_rules.py:FullTensorProductIntegrationRule.weights_on_grid", "tensap/approximation/integration/integration_rules.py:FullTensorProductIntegrationRule.integrate"]}
{"id": "C52", "title": "Basis adaptation and sparse paths select the best candidate", "statement": "_select_optimal_path (basis adaptation, regularisation with model selection) returns a least-squares fit supported by one of the distinct non-empty patterns of the path with at most as many coefficients as samples, and no candidate has a smaller cross-validation error; the reported error is the one of the selected pattern.", "quantifier": "all data, all paths, both solvers", "why_tests_cant": "ranges over every design matrix and every path of patterns", "anchors": ["tensap/approximation/learning/linear_model_learning_square_loss.py:LinearModelLearningSquareLoss._select_optimal_path", "tensap/approximation/learning/linear_model_learning_square_loss.py:LinearModelLearningSquareLoss._solve_basis_adaptation"]}
{"id": "C53", "title": "L2 density estimation selects the best candidate", "statement": "The regularised and basis-adapted L2 density estimators keep the empirical coefficients on one of the candidate index sets, set the others to zero, and that set has the smallest leave-one-out contrast among the candidates.", "quantifier": "all samples, all orders / paths, with and without a linear part b", "why_tests_cant": "ranges over every sample and path", "anchors": ["tensap/approximation/learning/linear_model_learning_density_l2.py:LinearModelLearningDensityL2._solve_regularized", "tensap/approximation/learning/linear_model_learning_density_l2.py:LinearModelLearningDensityL2._select_optimal_path"]}
{"id": "C54", "title": "Means, Gram matrices and conditional expectations of tensor-product objects", "statement": "For a product measure, mean() and gram_matrix() of a tensor-product basis are the expectations of the product functions and of their products (in the order of the columns of eval), FunctionalTensor.mean() is the expectation of the function, and conditional_expectation(dims) is a function of the variables dims equal to the mean of the function over the other variables.", "quantifier": "all dims, bases, multi-index sets, discrete product measures, tensors", "why_tests_cant": "all bases, measures, coefficient tensors and subsets of dimensions", "anchors": ["tensap/approximation/bases/sparse_tensor_product_functional_basis.py:mean, gram_matrix", "tensap/approximation/bases/full_tensor_product_functional_basis.py:mean", "tensap/functions/functional_tensor.py:mean, conditional_expectation"]}
{"id": "C55", "title": "Interpolation, projection and orthonormalisation in functional bases", "statement": "interpolate(y, x) returns a function with the values y at x; tensor_product_interpolation reproduces the function on the grid; tensor_product_projection is the least-squares projection for the product rule (residual orthogonal to the basis, exact on the span); quasi_projection reproduces the span of an orthonormal basis; SubFunctionalBasis evaluates the linear combinations and orthonormalize returns an orthonormal basis of the same space.", "quantifier": "all bases, points, functions, numbers of outputs, rules", "why_tests_cant": "all functions, points and bases", "anchors": ["tensap/approximation/bases/functional_basis.py:interpolate, quasi_projection, gram_matrix, orthonormalize", "tensap/approximation/bases/full_tensor_product_functional_basis.py:tensor_product_interpolation, tensor_product_projection", "tensap/approximation/bases/sub_functional_basis.py", "tensap/approximation/bases/functional_basis_array.py"]}
{"id": "C56", "title": "Tree-based approximation by higher-order SVD (hsvd, ttsvd)", "statement": "hsvd(A, tree, is_active_node) of a FullTensor returns a tree-based tensor with that tree and these active nodes, of the shape of A, with orthonormal cores except the root and ranks bounded by max_rank; without max_rank the relative Frobenius error is at most the tolerance (0: exact). ttsvd gives the same guarantees for the tensor-train format in the order of the dimensions. hsvd is quasi-optimal: its squared error is at most (number of active nodes - 1) times that of any tensor whose ranks for the active nodes are at most those of the result.", "quantifier": "all tensors (with or without a rank axis), dimension trees, sets of active leaves, tolerances, maximal ranks, all outcomes of numpy's svd", "why_tests_cant": "all trees, orders, sizes and tensors; accumulation of the errors of the successive truncations", "anchors": ["tensap/tensor_algebra/tools/truncator.py:Truncator.hsvd, Truncator.ttsvd"]}
{"id": "C57", "title": "Gramians of a tree-based tensor", "statement": "gramians(alpha) of a tree-based tensor returns an orthonormal form of the same tensor and, for every requested active node other than the root, the matrix G with  M M^T = V G V^T, where M is the matricisation of the tensor for the dimensions of the node and V the orthonormal basis (columns) the returned tensor has at this node; the root's entry is 1 and inactive leaves have none.", "quantifier": "all well-formed tree-based tensors, trees, ranks, sets of active leaves, lists of nodes, outcomes of numpy's qr", "why_tests_cant": "all trees, orders, ranks and tensors", "anchors": ["tensap/tensor_algebra/tensors/tree_based_tensor.py:TreeBasedTensor.gramians"]}
{"id": "C58", "title": "Truncation of a tree-based tensor by higher-order SVD", "statement": "Truncator.hsvd applied to a tree-based tensor (both algorithms) returns a tree-based tensor with the same tree, active nodes and shape and ranks bounded by max_rank; without max_rank the relative Frobenius error is at most the tolerance (0: exact); its squared error is at most (number of active nodes - 1) times that of any tensor whose ranks for the active nodes are at most those of the result; norm() of the result is its Frobenius norm.", "quantifier": "all well-formed tree-based tensors, trees, ranks, active leaves, tolerances, maximal ranks, outcomes of numpy's svd and qr", "why_tests_cant": "all trees, ranks and tensors; accumulation of the errors of truncations made with Gramians of the untruncated tensor", "anchors": ["tensap/tensor_algebra/tools/truncator.py:Truncator.hsvd", "tensap/tensor_algebra/tensors/tree_based_tensor.py:gramians, orth, norm"]}
{"id": "C59", "title": "Orthonormalisation of a tree-based tensor with respect to a node", "statement": "orth_at_node(n), for an active node n, returns a tree-based tensor with the same tree, active nodes and entries and ranks that do not exceed the original ones; every core other than those of n, of its parent and of the root has orthonormal columns; seen from n the tensor is written in an orthonormal frame: for all tensors that differ from the result only by the cores of the sub-tree of n, the entries are sum_c (value of the sub-tree of n at c) * w_c(other indices) with fixed orthonormal functions w_c, so the Frobenius norm of the tensor is that of the core of n; the rank of n is the rank of the corresponding matricisation (non-zero tensor). An inactive node is an error.", "quantifier": "all well-formed tree-based tensors, trees, ranks, active leaves, active nodes, outcomes of numpy's svd, qr, matrix_rank, pinv, inv", "why_tests_cant": "all trees, nodes, ranks and tensors, including rank-deficient Gramians; the frame property ranges over all the cores of a sub-tree", "anchors": ["tensap/tensor_algebra/tensors/tree_based_tensor.py:orth_at_node, gramians, orth"]}
{"id": "C60", "title": "Diagonals and parameter gradients of tree-based tensors", "statement": "eval_diag_below returns, for every active node, the diagonal of its sub-tree: entry (i, k) is the value of the sub-tree at (i, ..., i) and rank index k; eval_diag_above returns, for every active node n other than the root, the linear form (one per i) that maps the value of the sub-tree of n to the entry of the tensor, the same for every tensor that differs only in that sub-tree; parameter_gradient_eval_diag(n, matrices) is the gradient of the diagonal (the dimensions whose index is an index of the core of n being evaluated with the matrices) with respect to the core of n: for every replacement of that core by another one of the same shape, the evaluation is the contraction of the gradient with the core.", "quantifier": "all dimension trees, tensors, nodes, matrices, replacement cores and diagonal indices", "why_tests_cant": "the recursion over the tree has a case per mixture of active and inactive children and of positions of the node; tests fix one tree and finite differences at a few points", "anchors": ["tensap/tensor_algebra/tensors/tree_based_tensor.py: TreeBasedTensor.eval_diag_below, TreeBasedTensor.eval_diag_above, TreeBasedTensor.parameter_gradient_eval_diag", "tensap/tensor_algebra/tensors/full_tensor.py: FullTensor.tensordot_eval_diag, FullTensor.outer_product_eval_diag"]}
{"id": "C61", "title": "Parameter gradient of a function in tree-based tensor format", "statement": "parameter_gradient_eval(n, x) of a FunctionalTensor whose tensor is a tree-based tensor (with all its nodes active or not, as in the tensor train format) returns the gradient of the values of the function at the points x with respect to the core of the active node n: for every function obtained by replacing that core by another one of the same shape, the value at the i-th point (and output o) is the contraction of the gradient with the new core. The axes of the gradient are: sample points, axes of the core in their order, outputs (none at the root).", "quantifier": "all dimension trees, tensors, active nodes, sample points and matrices of basis evaluations, replacement cores", "why_tests_cant": "finite differences check a few cores of a few trees; the axes are permuted differently for each position of the node among its siblings and arity", "anchors": ["tensap/functions/functional_tensor.py: FunctionalTensor.parameter_gradient_eval", "tensap/tensor_algebra/tensors/tree_based_tensor.py: TreeBasedTensor.parameter_gradient_eval_diag, TreeBasedTensor.tensor_matrix_product_eval_diag"]}
{"id": "C62", "title": "Alternating minimisation over the cores of a tree-based tensor", "statement": "TreeBasedTensorLearning with the square loss (no basis adaptation, no regularisation): each update of a node returns a tensor with the same tree, shape and active nodes and ranks that do not exceed the previous ones; the empirical risk never increases, from update to update and from iteration to iteration; after an update, no other choice of the core of the node (the other cores fixed) gives a smaller empirical risk, unless the least-squares solution is zero, in which case the function is unchanged and no choice of that core does better than the zero function. Every iteration visits each active node once, by increasing depth. At most max_iterations iterations are done, fewer only if the stopping criterion is met at the last one.", "quantifier": "all dimension trees, tensors, data sets, basis evaluations, solvers, stopping rules, numbers of iterations", "why_tests_cant": "a test runs a few iterations on a few data sets; monotonicity and optimality must hold at every update for all data, including rank-deficient systems and zero solutions", "anchors": ["tensap/approximation/tensor_approximation/tensor_learning/tensor_learning.py: TensorLearning._solve_standard", "tensap/approximation/tensor_approximation/tensor_learning/tree_based_tensor_learning.py: TreeBasedTensorLearning.initialize, prepare_alternating_minimization_system, set_parameter", "tensap/approximation/learning/linear_model_learning_square_loss.py: LinearModelLearningSquareLoss.solve, _solve_ols"]}
{"id": "C63", "title": "Admissible tree-based ranks and rank selection", "statement": "TreeBasedTensor.is_admissible_rank(v) decides whether v is an admissible tree-based rank for the tree, shape and active nodes of the tensor: zero at the inactive nodes, at most the size of the dimension at the leaves, at most the product of the ranks of the children at the internal nodes, and the rank of a child at most the product of that of its parent and of those of its siblings; the ranks of every tensor with cores of full rank are admissible. TreeBasedTensorLearning.make_ranks_admissible returns an admissible rank that equals, at each node, the requested or the current rank, with as few refused requests as possible, whatever the shuffles. new_rank_selection returns an admissible rank obtained by increasing by one the ranks at a set of nodes that contains every candidate with singular value at least theta times the largest, is closed under larger singular values and is as small as possible, or leaves the rank unchanged if no such set exists.", "quantifier": "all dimension trees, tensors, ranks, singular values, thresholds, shuffles", "why_tests_cant": "admissibility couples all the nodes of the tree and the search is over all subsets of nodes; a test checks a few ranks on a few trees", "anchors": ["tensap/tensor_algebra/tensors/tree_based_tensor.py: TreeBasedTensor.is_admissible_rank", "tensap/approximation/tensor_approximation/tensor_learning/tree_based_tensor_learning.py: TreeBasedTensorLearning.make_ranks_admissible, new_rank_selection, unique_tol"]}
{"id": "C64", "title": "Constructors, direct sums and reductions of TreeBasedTensor", "statement": "TreeBasedTensor.create (and random, randn, zeros, ones, built on it) returns a well-formed tensor with exactly the tree, shape, active nodes and ranks asked for, every core being drawn from the generator; zeros is the zero tensor whatever the ranks and ones has all its entries equal to the product of the ranks of the active nodes other than the root; tensor_train(cores) is the tensor whose entries are the products of the cores, core i being associated with dimension dims[i]. cat is the block-diagonal concatenation of the full tensors; reduce_sum sums the entries of the full tensor along the dimensions given (all by default); x / c divides the entries.", "quantifier": "all dimension trees, ranks, shapes, sets of active leaves, generators, random draws, cores, scalars, sets of dimensions", "why_tests_cant": "the layout of the cores depends on the tree, the active nodes and the numbering of the nodes; a test checks a few random tensors", "anchors": ["tensap/tensor_algebra/tensors/tree_based_tensor.py: TreeBasedTensor.create, random, randn, zeros, ones, tensor_train, cat, reduce_sum, __truediv__, _random_is_active_nodes"]}
{"id": "C65", "title": "Changing the root of a TreeBasedTensor", "statement": "X.change_root(nod) represents the same full tensor as X, with the same shape and active nodes (one more, inactive, leaf if nod is a leaf), in the tree-based format whose tree is the tree of X re-rooted at nod; it is X itself if nod is the root and an inactive node is refused.", "quantifier": "all dimension trees, tensors and active nodes nod", "why_tests_cant": "all the cores on the path from the old to the new root are transposed, in a way that depends on the numbering of the nodes and the arities; a test checks a few trees", "anchors": ["tensap/tensor_algebra/tensors/tree_based_tensor.py: TreeBasedTensor.change_root", "tensap/tensor_algebra/dimension_tree.py: DimensionTree.change_root"]}
{"id": "C66", "title": "Principal component analysis of a tensor given by its entries", "statement": "TensorPrincipalComponentAnalysis.tree_based_approximation(f, shape, tree) returns a tensor with this shape and tree that equals f on the product of the interpolation grids of the root; with empirical interpolation the call never fails on a singular system, and the result equals f everywhere as soon as no truncation happens at the active nodes and the random fibres span all the fibres; the ranks are at most the prescribed ones; number_of_evaluations is the number of evaluations of f. hopca returns, for each dimension, orthonormal vectors that span the fibres of f under the same conditions.", "quantifier": "all functions of the indices, shapes, dimension trees, active leaves, precisions, ranks, sampling factors and all the outcomes of the random draws", "why_tests_cant": "the result depends on random draws and on the function; the nested interpolation over the tree is exact or not depending on all the nodes; a test compares errors for one function with a tolerance", "anchors": ["tensap/approximation/tensor_approximation/principal_component_analysis/tensor_principal_component_analysis.py: TensorPrincipalComponentAnalysis.tree_based_approximation, hopca, alpha_principal_components, tucker_approximation, tt_approximation", "tensap/tensor_algebra/tensors/full_tensor.py: FullTensor.principal_components"]}
{"id": "C67", "title": "Higher-order singular values", "statement": "FullTensor.singular_values returns, for a tensor of order other than 2, one list per dimension d: the singular values of the d-matricization (for a matrix, the single list of its singular values). TreeBasedTensor.singular_values returns, for every active node n of the tree, the singular values of the matricization of the represented tensor that separates the dimensions below n from the others, nonnegative and non-increasing, at most as many as the rank of n, and None at inactive nodes. They depend only on the represented tensor, not on the tree-based representation, and the sum of their squares is the squared norm of the tensor.", "quantifier": "all tensors, all dimension trees, all active leaves, all cores representing the tensor", "why_tests_cant": "it relates a recursion over the tree to the spectrum of matrices never formed, for every tree and representation; singular vectors are not unique, so nothing but the definition can be compared", "anchors": ["tensap/tensor_algebra/tensors/full_tensor.py: FullTensor.singular_values, matricize", "tensap/tensor_algebra/tensors/tree_based_tensor.py: TreeBasedTensor.singular_values, orth, gramians"]}
{"id": "C68", "title": "Algebra and statistics of functions given by their coefficients in a basis", "statement": "The sum, the difference, the opposite and the product by a number of FunctionalBasisArray objects on a basis evaluate at every point to the sum, the difference, the opposite and the multiple of the values; matmul evaluates to the linear combinations of the components; mean and expectation return the expectations of the components for the measure of the basis, dot_product_expectation the expectations of the products, variance the expectations of the squared deviations from the mean, for an orthonormal basis; dot is the inner product of the coefficients; conditional_expectation returns the function of the kept variables that is the expectation over the others.", "quantifier": "all bases, all arrays of coefficients, all numbers of components, all points, all measures for which the basis knows its means and is orthonormal", "why_tests_cant": "equalities of functions at all the points for all coefficients and numbers of components; the errors of the orders of flattening do not show for scalar-valued functions, the only ones usually tried", "anchors": ["tensap/approximation/bases/functional_basis_array.py: FunctionalBasisArray.__add__, __sub__, __neg__, __mul__, matmul, dot, mean, expectation, variance, dot_product_expectation, conditional_expectation", "tensap/approximation/bases/sparse_tensor_product_functional_basis.py: SparseTensorProductFunctionalBasis.conditional_expectation"]}
{"id": "C69", "title": "Inner products, norms, variances and products of functional tensors", "statement": "For a functional tensor with a dense tensor of coefficients, dot_product_expectation(g) returns the expectation of f g, norm the square root of the expectation of f squared, variance the expectation of the squared deviation from the mean, for the product of the measures of the bases; f * g evaluates at every point to the product of the values of f and g.", "quantifier": "all dimensions, all bases, all tensors of coefficients, all product measures, all points", "why_tests_cant": "expectations of arbitrary functions for arbitrary bases and measures; a projection that loses only the highest degree is right on many functions", "anchors": ["tensap/functions/functional_tensor.py: FunctionalTensor.dot_product_expectation, norm, variance, __mul__", "tensap/approximation/bases/functional_bases.py: FunctionalBases.gram_matrices, kron", "tensap/approximation/bases/polynomial_functional_basis.py: PolynomialFunctionalBasis.kron"]}
{"id": "C70", "title": "Variances of conditional expectations (Sobol indices)", "statement": "For a functional tensor f with a dense tensor of coefficients and every set u of variables, the mean of the conditional expectation of f with respect to u is the mean of f, and variance_conditional_expectation returns, row by row, the variance of the conditional expectation of f with respect to the variables of the row, 0 for the empty set.", "quantifier": "all dimensions, all bases, all tensors of coefficients, all product measures, all sets of variables", "why_tests_cant": "equalities of integrals for arbitrary functions, bases and measures, for all the subsets of variables", "anchors": ["tensap/functions/functional_tensor.py: FunctionalTensor.variance_conditional_expectation, conditional_expectation, dot_product_expectation"]}
{"id": "C71", "title": "Gram-Schmidt on a SubFunctionalBasis", "statement": "For an orthonormal underlying basis and linearly independent functions, SubFunctionalBasis.orthonormalize returns as many functions, orthonormal, and for every j the j first of them span the same space as the j first given ones.", "quantifier": "all underlying orthonormal bases and measures, all matrices with independent columns", "why_tests_cant": "an orthogonality and a span property for arbitrary matrices of coefficients and measures", "anchors": ["tensap/approximation/bases/sub_functional_basis.py: SubFunctionalBasis.orthonormalize, eval"]}
{"id": "C72", "title": "Uniform random variables", "statement": "For inf < sup, the pdf of a UniformRandomVariable is a density whose integral is the cdf, its mean, variance and std are those of this density, icdf is the inverse of cdf between [0, 1] and the support, shift(bias, scaling) has the law of bias + scaling X, transfer maps one law to the other and transfer back is the inverse, random draws are images by icdf of numbers drawn in [0, 1).", "quantifier": "all bounds inf < sup, all shifts and scalings, all points and levels", "why_tests_cant": "identities between functions and integrals over continua of values", "anchors": ["tensap/functions/measures/uniform_random_variable.py: UniformRandomVariable", "tensap/functions/measures/random_variable.py: RandomVariable.transfer, mean, variance, std"]}
{"id": "C73", "title": "Piecewise polynomial bases", "statement": "For increasing knots, element_number returns the interval of a point (the first or the last one outside), the functions of a PiecewisePolynomialFunctionalBasis are, interval by interval, the rescaled polynomials in the columns of the interval and zero in the other columns, and they are orthonormal for the Lebesgue measure on [a, b].", "quantifier": "all increasing knots, all degrees per interval, all points", "why_tests_cant": "integrals of products of functions for arbitrary meshes and degrees", "anchors": ["tensap/approximation/bases/piecewise_polynomial_functional_basis.py: PiecewisePolynomialFunctionalBasis.eval, element_number, cardinal"]}
