# Formal model of tensap in Rocq/Coq 8.16 -- design

## Layout
* `rocq/theories/Base` -- lists, finite sums and boxes of indices, commutative rings, polynomials, linear algebra over R.
* `rocq/theories/Model` -- the model, one file per module of tensap; each definition cites the file and the lines it models.
* `rocq/theories/Spec` -- the vocabulary in which the properties are stated. Nothing there models code.
* `rocq/theories/Proofs` -- lemmas.
* `rocq/theories/Props` -- one theorem (or more) per property, `cNN_...`, each followed by `Print Assumptions` and by concrete examples that meet its hypotheses. Suffix `_partial`: the English property is larger than the theorem; suffix `_refuted`: the English property is false of the code, and the theorem exhibits the failure.
* `properties.jsonl`, `MANIFEST.json` -- English properties, and the theorems of each.
* `seeded/LOG.jsonl` -- wrong programs tried against the theorems.

## Method
* Models are total Gallina functions, branch by branch; an exception is `None`. While loops run on fuel with an explicit out-of-fuel value, and the theorems show that the fuel suffices.
* Scalars: every algebraic theorem holds in an arbitrary commutative ring (class `CRing`), with Z and R as instances; theorems that need order, division or limits are over Coq's `R`.
* numpy arrays: record of a shape and an indexing function; arrays are compared at every in-range index (never by equality of functions).
* Objects with mutable state are modelled as state passing whenever the code's mutation is observable (Truncator.max_rank, the evaluation cache, CanonicalTensor.eval_diag, MultiIndices comparison and reflected operators).

## Plan per property

For each property: what is modelled and how it is proved; the status and the exact theorems are in MANIFEST.json.

* **C01** Product and box index sets are exact -- model np unravel_index(order='F') enumeration + column lookups (Model/MultiIndices.v); prove membership iff bounds, NoDup, and the order by induction on the list of factors. *[proved]*
* **C02** Linear and multi-dimensional indexing are inverse bijections -- mixed-radix lemmas in Base/Index.v, induction on the shape. *[proved]*
* **C03** Norm-bounded index sets are exact -- while-loop on fuel with explicit out-of-fuel value; invariant 'after k passes the set is all indices with weight <= k'; general p refuted by a concrete witness. *[partial]*
* **C04** Set operations on multi-indices are set operations -- row lists, isin/unique as list functions; set equality of rows + NoDup. *[proved]*
* **C05** Margins and downward-closedness are what they are defined to be -- margin computed as in the code (neighbours, unique, set difference); iff characterisations; induction over enrichment histories. *[proved]*
* **C06** Sorting multi-indices sorts without losing rows -- argsort as an arbitrary function meeting its spec; Sorted + Permutation; descend refuted on ties. *[partial]*
* **C07** Coordinate selection on multi-indices -- projection of rows + unique. *[proved]*
* **C08** Base-b digit conversion round-trips -- induction on the number of digits. *[proved]*
* **C09** FullTensor elementwise and linear operations are exact -- entrywise, any commutative ring. *[proved]*
* **C10** Dense transpose and reshape are lossless -- ndarray = shape + indexing function; transpose by index permutation, reshape by ravel/unravel. *[proved]*
* **C11** Dense contraction is tensor contraction -- finite sums over boxes; induction over the list of (dim, matrix). *[proved]*
* **C12** Dense concatenation, Kronecker product, diagonal and sub-tensor -- pad/add model of cat; mixed radix for kron; eval_at_indices refuted for a proper subset of dims. *[partial]*
* **C13** Sparse tensors represent the same tensor as their dense conversion -- list of (index, value); dense conversion = sum/lookup; commuting squares. *[partial]*
* **C14** Diagonal tensors represent the same tensor as their dense conversion -- vector + order; dense conversion = value on the diagonal, 0 elsewhere; commuting squares. *[partial]*
* **C15** Canonical tensors: operations agree with the dense tensor -- weights + factor matrices; represented tensor = sum of products. *[partial]*
* **C16** Canonical inner product is the inner product of the represented tensors -- dot_with_rank_one_metric transcribed with its C-order flatten / F-order reshape; true under equal matrices symmetric, refuted otherwise. *[partial]*
* **C17** Every dimension-tree constructor yields a consistent tree -- adjacency matrices as 0/1 functions; constructors by recursion; validity predicate. *[partial]*
* **C18** Node dimensions partition the parent's dimensions -- level-by-level loop; general lemma: descending level loop = structural recursion. *[proved]*
* **C19** Tree equality means equality -- transcribe __eq__ with early return; refuted with witness. *[partial]*
* **C20** Tree-based full() is the tensor network contraction -- TreeBasedTensor as tree+cores+active flags; spec = recursive contraction. *[partial]*
* **C21** Tree-based addition and subtraction are addition -- block-diagonal cores; induction on the tree. *[proved]*
* **C22** Tree-based scaling and products -- scaling root, kron of cores; mixed radix sums; induction on the tree. *[partial]*
* **C23** Tree-based mode products and slicing -- contraction of leaf cores; squeezing and merging of one-child nodes as rewriting steps of the network that preserve its value; induction on the tree. *[partial]*
* **C24** Activating and inactivating nodes preserves the tensor -- identity leaves / contraction of leaf into parent. *[proved]*
* **C25** Tree-based inner product -- bottom-up Gram matrices; induction. *[partial]*
* **C26** Orthogonalisation preserves the tensor and makes bases orthonormal -- QR as oracle with contract A=QR, Q^TQ=I; induction from the leaves. *[proved]*
* **C27** Storage of a tree-based tensor -- sum formula. *[proved]*
* **C28** SVD truncation respects tolerance and rank bound -- R-valued nonincreasing spectra; argmin search; tail bounds; Eckart-Young by Bessel's inequality and a weight argument (EckartP.v), which gives best approximation for trunc_svd and quasi-optimality for hosvd. *[proved]*
* **C29** Repeated use of a Truncator does not change the result -- Truncator as state machine; refuted with witness for vector max_rank. *[partial]*
* **C30** Tensorizer maps are inverse of each other -- R with Int_part; induction over digits. *[proved]*
* **C31** Polynomial evaluation agrees with monomial coefficients -- recurrence over any field of characteristic 0 / R; induction on the degree; derivative via formal derivative of polynomials. *[partial]*
* **C32** Functions composed on a tree are evaluated as the composition -- level loop vs. recursion. *[proved]*
* **C33** Evaluation cache returns what the function returns -- step function over call histories; the (y,self) return value is modelled. *[partial]*
* **C34** Fast leave-one-out error is the leave-one-out error -- matrix algebra (Sherman-Morrison) over R/field. *[proved]*
* **C35** Penalised model selection picks a minimiser and the complete path -- list argmin and the lambda path loop. *[partial]*
* **C36** Discrete random variables: icdf is the quantile function of cdf -- cumulative sums, searchsorted semantics. *[partial]*
* **C37** Magic points give an interpolation -- greedy pivoting; Schur complement invariant. *[proved]*
* **C38** Tensor-product grids and tensor-grid evaluation agree in ordering -- row enumeration lemmas from C01. *[proved]*
* **C39** Tensor-product basis evaluation is the product of univariate bases -- bases as records of functions (values of the k-th function at a point); hsplit, column selection and in-place products as in the code; the tensor formats through their tensor_matrix_product_eval_diag (einsum model for full tensors, tree recursion for tree-based tensors). *[proved]*
* **C40** B-splines: partition of unity, supports, derivatives -- the code's layered recursions for eval and eval_derivative over R, at one point; bridge to an infinite increasing knot sequence; induction on the degree (support, sign, telescoping sum), de Boor's derivative identity proved for the code's recursion, mean-value theorem at the knots. *[proved]*
* **C41** Converting a tensor between formats preserves the entries -- Model/Conversions.v: cores built node by node; tval by induction up the tree (contraction with diagonal cores = product over the leaves); every conversion commutes with full(). *[proved]*
* **C42** Risks and test errors are the documented averages -- numpy broadcasting of the predicted and reference outputs modelled (atleast_2d, subtraction); risk = documented average for (n, q) arrays; 1-D and mixed shapes refuted with witnesses. *[partial]*
* **C43** Orthonormality of the polynomial families -- three-term recurrences of the modelled families; orthonormality by exact integration of polynomials (moments as linear functionals); mass 1 hypothesis made explicit, mass 2 refuted. *[partial]*
* **C44** Roots of orthonormal polynomials -- the Jacobi matrix of the recurrence; eig as an oracle with the documented contract; every root is an eigenvalue and conversely. *[proved]*
* **C45** Gauss rules are exact -- Gauss points/weights from the eigenvectors of the Jacobi matrix; exactness on all polynomials of degree <= 2n-1 by Lagrange interpolation and orthogonality. *[proved]*
* **C46** Moments of random variables and of products of polynomials -- moments as integrals of products of the polynomials; the bookkeeping of moment(nargout=2) refuted. *[partial]*
* **C47** Discretisation of a random variable -- quantile-based discretisation: probabilities sum to one and the points are the quantiles. *[proved]*
* **C48** Random vectors with independent components -- random vectors as lists of independent marginals; product expectations by induction over the components. *[proved]*
* **C49** Composite Gauss rules -- composite rule = sum over the sub-intervals; exact on polynomials by additivity of the integral. *[proved]*
* **C50** Partial evaluation freezes the other variables -- partial evaluation: the frozen and the free coordinates interleaved; pointwise equality with the original function. *[proved]*
* **C51** Tensor-product quadrature -- tensor quadrature weights and points as products; exactness on products of univariate functions, by the ordering lemmas of C38. *[proved]*
* **C52** Basis adaptation and sparse paths select the best candidate -- loops over the candidate patterns with arg-min; leave-one-out errors from C34; the selected pattern minimises the computed error; the stop flag has no effect. *[proved]*
* **C53** L2 density estimation selects the best candidate -- same for the L2 density learner, with its own leave-one-out formula. *[proved]*
* **C54** Means, Gram matrices and conditional expectations of tensor-product objects -- discrete measures (finite sums), separation of the mean of a product function into the product of the means (induction on the list of bases), linearity; conditional expectation through the mode products with the mean vectors and the splitting of a sum over a box into dims and complement. *[partial]*
* **C55** Interpolation, projection and orthonormalisation in functional bases -- numpy.linalg.solve/inv/cholesky as oracles with contracts; composition of mode products (one lemma on sums over boxes); uniqueness through the left inverse of the Gram matrix; refutations on literals. *[partial]*
* **C56** Tree-based approximation by higher-order SVD (hsvd, ttsvd) -- loop invariant of hsvd along the levels of the tree: the current tensor times the cores found so far is a projection of A; Pythagoras at each step gives err^2 = |A|^2 - |current|^2; the evaluation of the result (tval) equals the projected tensor; ttsvd as an instance; quasi-optimality: projecting a competitor keeps its ranks and does not increase its distance, so each step loses at most the competitor's error (HsvdP7-P9). *[proved]*
* **C57** Gramians of a tree-based tensor -- the Gramian recursion gives, for an orthonormal tree tensor, the Gram matrix of the part above the node (induction from the root along the levels, contraction of the siblings by orthonormality); the sections of the full tensor factor through the values below the node (tval) and this part *[proved]*
* **C58** Truncation of a tree-based tensor by higher-order SVD -- a truncation at a node is the insertion of an orthogonal projection on the edge to its parent; the tensor with projections inserted is compared to the original by telescoping along the order of the nodes: each insertion loses at most the tail of the eigenvalues of the node's Gramian (the projections above only contract); the result of the multiplications is the tensor with all projections inserted (gauge lemma); Eckart-Young at each node for quasi-optimality; the wrong mark is refuted by diag(4, 3) for every svd and qr *[partial]*
* **C59** Orthonormalisation of a tree-based tensor with respect to a node -- the Gramian G of the node is factored G = L L^T with a left inverse S of L (from the svd, matrix_rank, pinv / inv contracts); multiplying the core of n by L and the axis of its parent by S is a change of gauge up to (I - L S) W, which vanishes because (I - L S) G (I - L S)^T = 0; every tensor with the same cores outside the sub-tree is pulled back to one on which the factorisation of gramians (C57) applies; orthonormality of S W from S G S^T = I; minimal rank by linear dependence *[proved]*
* **C60** Diagonals and parameter gradients of tree-based tensors -- tensordot_eval_diag along children = contraction of the core with vectors of the children (active: diagonals, inactive: Kronecker symbols) (TreeGradP1-P3); induction bottom-up for eval_diag_below (P4), top-down by levels for eval_diag_above: the value of the parent is linear in the value of the child and the siblings are unchanged (P5, P6); the gradient is the outer product of the diagonals of the active children, of the matrices and of the linear form above (P8-P11) *[partial]*
* **C61** Parameter gradient of a function in tree-based tensor format -- the values are those of tensor_matrix_product_eval_diag (FuncGradP1); the result of the C60 gradient of the tensor with matrices, transposed by the three permutations of the code (argsort of active then inactive children), contracted with any replacement core gives the value (FuncGradP2, P3); with inactive leaves, the cores built one by one are those of tensor_matrix_product (P0) *[partial]*
* **C62** Alternating minimisation over the cores of a tree-based tensor -- one update = orth_at_node (C59: same function) + parameter gradient (C61: the value is linear in the core) + reshapes + ordinary least squares (C34: normal equations, rank-deficient case by lstsq); the reshaped solution minimises the risk (AltMinP1, P2), a zero solution (P3), the update (P4), then induction over the nodes of a sweep and over the iterations (P5) *[partial]*
* **C63** Admissible tree-based ranks and rank selection -- is_admissible_rank modelled line by line (with the numpy assignment of sizes to inactive leaves), shown equivalent to the declarative condition (RankP1); make_ranks_admissible as a search over itertools.combinations with arbitrary shuffles: the first hit in the smallest layer (RankP2); necessity by counting dimensions: linearly independent slices are at most as many as their entries (RankP3); new_rank_selection: marks = least fixed point computed bottom-up, second loop is the identity (RankP4), first admissible threshold in the sorted list of unique_tol (RankP5) *[partial]*
* **C64** Constructors, direct sums and reductions of TreeBasedTensor -- create modelled with its masks and defaults, the random draws being arguments; cat core by core with ft_cat and proved by the block machinery of C21 (TreeCreateP1-P2); zeros/ones by induction on the levels, counting the terms of the sums (P3); tensor_train by induction along the linear tree whose node numbers are computed (P4) *[partial]*
* **C65** Changing the root of a TreeBasedTensor -- the axes of the cores are labelled by the neighbouring nodes, the transpositions of the code are relabellings (TreeRootP1); the result is well formed (P3); contracting all the edges at a node gives the same value at every node of the path between the two roots, by cutting one edge after the other (P4) *[partial]*
* **C66** Principal component analysis of a tensor given by its entries -- an invariant of the two loops over the nodes: the matrix of a node is square and nonsingular, its rows are the values of its basis at its grid (P3, P4); the columns at the random points are combinations of the principal components without truncation (P5, P6), hence every fibre is (P7); the tensor then equals f by applying the interpolation operators node by node (P8, P9); success: magic points exist for full-rank matrices (P10) *[partial]*
* **C67** Higher-order singular values -- the Gramian G of a node (C57) is of the form W W^T, hence symmetric and positive, hence its left singular vectors are eigenvectors (SingularP1); with the orthonormal functions of the node they diagonalise M M^T (SingularP2); uniqueness by the inequality of Ky Fan in both directions (SingularP3) *[partial]*
* **C68** Algebra and statistics of functions given by their coefficients in a basis -- the constructor is the identity on an array of one column (BasisArrayP1.init_one); linearity of the evaluation; exchange of the sum over the basis and over the points of the measure; witnesses over the integers for the refutations *[partial]*
* **C69** Inner products, norms, variances and products of functional tensors -- the Gram matrices of a product measure are products (C54), symmetric; exchange of the sums over the coefficients and over the grid (FuncStatsP1); for the product, an affine function has no second difference while the square of a polynomial of degree 1 has one *[partial]*
* **C70** Variances of conditional expectations (Sobol indices) -- the means of the basis functions split into those of the kept and of the integrated variables (FuncSobolP1.means_split), the tower property by exchange of sums, then C69 for the conditional expectation *[partial]*
* **C71** Gram-Schmidt on a SubFunctionalBasis -- Gram-Schmidt by induction on the columns (SubOrthP1.gs_ok): the projection is orthogonal to the previous columns, its norm is not zero by independence, the first j functions span the same space as the first j given ones (SubOrthP1.gs_prefix) *[proved]*
* **C72** Uniform random variables -- case analysis on the bounds and primitives of polynomials (Coquelicot is_RInt_derive) *[partial]*
* **C73** Piecewise polynomial bases -- the offsets of the blocks of columns are increasing, so each column lies in one block; on each interval an affine change of variable (Coquelicot is_RInt_comp_lin), then Chasles over the intervals *[proved]*

## Trusted base
1. Coq 8.16.1's kernel (and `vm_compute`, used in examples and in refutations on literals).
2. The axioms listed below by `Print Assumptions`: only axioms of the standard library (C72 and C73 use the Riemann integral of the library Coquelicot, which adds none). No axiom, parameter or unproved lemma of ours.
3. That the model is faithful to the Python code: this is by reading (the code cannot be run here). The model files cite the lines.
4. What numpy/scipy do, as follows.
   * Indexing, reshape (orders C and F), transpose, tensordot, einsum patterns used, broadcasting, unique, isin, argsort, searchsorted, linspace: Gallina functions written from the documentation (Model/Numpy.v, Model/Sorting.v and the head of each model file). `argsort` is stable where the code asks for nothing else and the theorems that depend on it hold for any permutation that sorts.
   * QR, SVD, symmetric eigen-decomposition, least squares, (pseudo-)inverse, solve: oracles, i.e. function arguments constrained by a contract (`qr_contract`, `svd_contract`, `eig_contract`, `lapack_ok`, `solve_contract`, `inv_contract`, `inv_complete`, `pinv_contract`, `rank_contract`, `chol_contract`): what the documentation guarantees, in exact arithmetic. The contracts are not vacuous: `lapack_exists` (least-squares family), `c26_qr_exists`, `c28_svd_exists` (every real matrix has an SVD, through the spectral theorem proved in Proofs/SpectralP.v, SpectralP2.v) and `c45_eig_exists` prove that they can be met.
   * Random numbers: the draws are arguments of the model, and the theorems hold for all draws.
5. Floating point is idealised: arithmetic is exact. `feps` (the machine epsilon that appears in the code) is a positive real.

## What is modelled
* `tools/multi_indices.py` (all), `tools/utils.py`, `tools/grids.py` (FullTensorGrid, SparseTensorGrid, TensorGrid).
* `tensor_algebra/tensors/full_tensor.py`, `diagonal_tensor.py`, `canonical_tensor.py`, `sparse_tensor.py`: construction, arithmetic, mode products, contraction, transposition, reshaping, concatenation, Kronecker product, slicing, evaluation at indices, norms, storage, conversions.
* `dimension_tree.py`: trivial, linear, balanced, random (draws as arguments), permute, children/parent/levels/dims, equality, sub-tree, change_root, add_child.
* `tree_based_tensor.py`: construction, full, add, sub, neg, scaling, element-wise product, kron, mode products, slicing, tensor_matrix_product_eval_diag, squeeze, remove_unique_children, tensor_vector_product, eval_diag, eval_at_indices, (in)activation, dot, norm, orthogonalisation, Gramians, orthogonalisation at a node (Model/OrthNode.v), eval_diag_below, eval_diag_above, parameter_gradient_eval_diag (Model/TreeGrad.v), cat, reduce_sum, division, create, zeros, ones, tensor_train (Model/TreeCreate.v), change_root (Model/TreeRoot.v), storage.
* `tools/truncator.py`: trunc_svd, svd, hosvd, hsvd of a FullTensor and of a TreeBasedTensor (both algorithms), ttsvd and the rank/tolerance bookkeeping.
* `functions/tensorizer.py`, `function.py` (cache, partial evaluation), `compositional_model_function.py`, `tensorized_function.py` (through C30/C32).
* `functions/polynomials/*`, `functions/measures/*` (discrete, uniform, normal, Lebesgue, product; moments, quantiles, Gauss rules), `approximation/integration/integration_rules.py`.
* `approximation/bases/BSplines_functional_basis.py` (all); `functional_basis.py`, `functional_bases.py`, `functional_basis_array.py`, `sub_functional_basis.py`, `sparse_tensor_product_functional_basis.py`, `full_tensor_product_functional_basis.py`, `functions/functional_tensor.py`: evaluation, means, Gram matrices, conditional expectation, interpolation, projections, orthonormalisation (Model/FunctionalBases.v).
* `approximation/learning/linear_model_learning_square_loss.py`, `..._density_l2.py`, `loss_functions.py`; `approximation/tools/model_selection.py`; `tensor_approximation/tensor_learning/tensor_learning.py:433-540` with `tree_based_tensor_learning.py:165-175, 200-272` (alternating minimisation, square loss), `:525-590, 1286-1358` (selection of ranks); `tree_based_tensor.py:408-473` (is_admissible_rank); `linear_algebra/magic_indices.py`.
* `tensor_principal_component_analysis.py`: hopca, tree_based_approximation, tucker_approximation, tt_approximation, alpha_principal_components with and without adaptive sampling; `full_tensor.py`: principal_components, alpha_principal_components (Model/TensorPCA.v). The draws of np.random are arguments of the model: any points in the range, any choice of distinct-or-not row numbers in the range.
* singular_values of FullTensor (full_tensor.py:1211-1229) and of TreeBasedTensor (tree_based_tensor.py:1995-2019) (Model/SingularValues.v).
* algebra, mean, variance, products and conditional expectation of FunctionalBasisArray (functional_basis_array.py:80-369, sparse_tensor_product_functional_basis.py:175-204) (Model/BasisArray.v).
* dot_product_expectation, norm, variance and product of FunctionalTensor with a FullTensor (functional_tensor.py:158-280, 399-425; functional_bases.py:161-178, 454-473; polynomial_functional_basis.py:122-140 with the data of the projection as an argument) (Model/FuncStats.v).
* variance_conditional_expectation of FunctionalTensor with a FullTensor and lists of dimensions (functional_tensor.py:337-368) (Model/FuncSobol.v); boolean masks are not modelled.
* orthonormalize of SubFunctionalBasis (sub_functional_basis.py:94-115) (Model/SubOrth.v).
* eval, cardinal and element_number of PiecewisePolynomialFunctionalBasis (piecewise_polynomial_functional_basis.py:62-89, 122-126, 194-206) (Model/PiecewisePoly.v).
* `functions/measures/uniform_random_variable.py` (except orthonormal_polynomials beyond the choice of shift and scaling) and transfer (random_variable.py:438-459) (Model/UniformRV.v).

## What is not modelled
* Plotting, printing, display, copying, pickling, the benchmark functions and the tutorials.
* Floating-point rounding, integer overflow of numpy, views/aliasing between numpy arrays except where listed above, numpy's conversion rules for assignments into object arrays.
* The iterative learning algorithms (`tree_based_tensor_learning.py`, `canonical_tensor_learning.py`, `tensor_learning.py`): of them only the alternating minimisation of the square loss over the cores of a tree-based tensor is modelled (C62); and the choice of the ranks (C63, from the singular values on); the initialisations, the rest of the rank adaptation, the tree and basis adaptations, the regularised and the density variants and the canonical format are not.
* `functional_tensor.py`: the part of parameter_gradient_eval that merges several inactive leaves of one node (513-543), derivatives, variance, products (parts that raise: see the findings); `functional_basis_array.py`: norms, derivatives, projections on samples; functional principal component analysis (functional_tensor_principal_component_analysis.py), kernel functions and TensorFlow losses (`linear_model_learning_custom_loss.py`).

## Findings (differences between the code and what its documentation promises)
Proved as `_refuted` theorems unless marked (read only).

* MultiIndices: the stop test `np.all(np.logical_not(k))` ends the enumeration too early (with_bounded_norm with p >= 2, low_order_interactions, weighted_hyperbolic_cross_set); with_bounded_norm(p=inf) always raises; descending sort reverses ties; `__eq__`/`__le__` tile J.array in place; `__radd__`/`__rsub__` return None and mutate.
* DimensionTree: `__eq__` returns True when the numbers of nodes of a level differ, and ignores the numbering of nodes, so adding two "equal" TreeBasedTensors can be wrong (c21_renumbered_refuted). random with arity 1 ends with an IndexError (c17_random_arity_one); linear(1) has dim2ind [0] (c17_linear_one_refuted); change_root leaves a dimensionless leaf if the old root has one child (c17_change_root_one_child_refuted).
* FullTensor.eval_at_indices(indices, dims) with 1 < #dims < order mixes C and F orders.
* DiagonalTensor.dot_with_rank_one_metric flattens in C order and reshapes in F order; hence CanonicalTensor.dot is wrong for unequal weights or ranks. DiagonalTensor.eval_diag(dims) on non-contiguous dims drops too many dimensions.
* CanonicalTensor.eval_diag modifies the tensor it is applied to. (read only) eval_diag(dims) raises TypeError; parameter_gradient_eval_diag ignores the weights.
* SparseTensor: tensor_vector_product over all dims (or with a vanishing result) does not update the data; one stored entry makes `data` 0-dimensional and breaks indexing. (read only) reshape does not check the total size; tensor_matrix_product raises on the zero tensor.
* TreeBasedTensor: full() of order 1 ignores an active leaf; `__mul__`/kron and dot look only at the active nodes of the first operand; dot fails when the root has a rank axis of size 1. eval_diag(dims) puts the diagonal index first (FullTensor: in place of the smallest dimension) and overwrites a core of its operand (c23_eval_diag_dims_refuted); eval_at_indices with several dimensions and one row removes every dimension of size 1 (c23_eval_at_indices_one_row_refuted). (read only) remove_unique_children works in place on self.tensors and self.tree.adjacency_matrix and raises IndexError on a one-node tree. (read only) `__rmul__` by a matrix sets ranks[root] = shape[1]; eval_diag and nodes_permutation_cost mutate; tensordot_matrix_product_except_dim and change_root with root rank > 1 are broken; the is_orth test of orth is always true.
* TreeBasedTensor.eval_diag_below does not take the diagonal at a root with both active and inactive children (c60_eval_diag_below_root_refuted) and does not reset the entry of the smallest excluded node (line 2084); parameter_gradient_eval_diag without matrices raises an error at a leaf (c60_gradient_identity_leaf_refuted) and, at a root whose children are all inactive, needs all the sizes to be the number of rows of the matrices (c60_gradient_root_refuted); its axes are permuted (active children first); eval_diag_above raises an error when a node is an only child (c60_only_child_refuted).
* Truncator.hsvd of a TreeBasedTensor (default algorithm) marks its result as orthonormal although truncating the children of an internal node loses the orthonormality of its core: norm() of the result is wrong (c58_norm_after_hsvd_refuted: squared norm 25 reported, at most 16 in truth). (read only) the other algorithm also visits the root and so can leave the truncator with max_rank 1; gramians gives the root the 1x1 matrix 1 whatever its rank.
* Truncator: hosvd and hsvd overwrite self.max_rank, so that a second call can differ (c29_hosvd_history_refuted, c29_hsvd_state_refuted). (read only) thresholding with all the singular values below the threshold raises IndexError; the zero matrix keeps all its singular values.
* Polynomials: poly_coeff and dn_polyval lack the factor 1/sqrt(mass); OrthonormalPolynomials.moment returns the probability moments for any mass; LebesgueMeasure(a, b).orthonormal_polynomials is not orthonormal unless b - a = 2; UnivariatePolynomials.dn_polyval raises for n > the largest degree. (read only) PolynomialFunctionalBasis.kron misses the last degree.
* Measures: RandomVariable.moment(nargout=2) misplaces the moments unless ind = 0..n; DiscreteMeasure.random raises for the draw 0; DiscreteRandomVariable.icdf needs sorted values.
* Learning: stop_if_error_increase has no effect. (read only) gram_matrix[ind, ind] is pairwise indexing; the weights never reach _solve_ols; k_fold with nfolds = N changes error_estimation_type for good.
* Model selection: lambda_path misses models on triple ties; without breakpoint it returns model 0; slope_heuristic raises on a scalar path.
* Losses: on 1-D outputs the risk is a sum and not an average; (n, 1) against (n,) broadcasts to n x n.
* Function cache: store_eval returns a pair, and multi-output values are reshaped in the wrong order.
* Functional bases: FullTensorProductFunctionalBasis.mean ravels in C order whereas eval uses F-ordered indices; FunctionalBasisArray.__init__ mixes F and C orders (wrong for several outputs, e.g. interpolate); FunctionalBases.mean(dims, RandomVector) pairs bases[dims] with the first random variables; tensor_product_projection needs grids of equal sizes (np.hstack). (read only) FunctionalTensor.__mul__ takes a wrong slice of the root; norm and dot_product_expectation call the missing method gram_matrix of FunctionalBases; eval_on_grid on some dims uses np.range; eval_gradient uses self.length(); `__plus__` instead of `__add__`; SubFunctionalBasis.eval_derivative swaps its arguments; FunctionalBasis.orthonormalize calls gram_matrix() without its argument; quasi_projection and least squares projections swallow exceptions and then use an undefined variable.
* FunctionalTensor.parameter_gradient_eval raises an error at the internal nodes other than the root when the root core has a last axis of size 1 (c61_one_output_refuted); TreeBasedTensorLearning.initialize with "mean" and y of shape (N, 1) creates such a tensor (read only), and with several columns the reshape of the scalar mean fails (read only). TreeBasedTensorLearning.randomize_exploration_strategy always raises: np.intersect1d(..., return_indices=True) returns three values, unpacked into two (read only).
* TensorLearning._solve_standard (read only): when self.bases is not a FunctionalBases, the stored iterates are all the same object f, mutated in place by the following updates, so that model selection over the iterates returns the last one; when the solution of the linear problem is zero, the message says "returning to the previous iteration" but the partially updated (and orthonormalised) tensor is kept.
* Contract added for C62: lstsq_zero, np.linalg.lstsq with the zero matrix returns zero (the solution of minimal norm, as documented); satisfiable together with the others (c62_contracts).
* is_admissible_rank writes the sizes of the inactive dimensions (in the order of the dimensions) at the inactive leaves (in the order of the nodes): for the default tensor train, whose leaves are numbered the other way round, sizes are exchanged and admissible ranks are refused (c63_inactive_refuted). It sets the rank of the root to 1: with several outputs a tensor may refuse its own ranks (c63_outputs_refuted).
* new_rank_selection: the second marking loop (542-553) intersects with the nodes already marked, so that it never marks anything (c63_second_loop); a node that cannot be increased because of its parent and siblings stays a candidate, and if its singular value is the largest no rank is ever increased (c63_selection_refuted). (read only) s_local is undefined at line 508 when rank_one_correction is False. make_ranks_admissible overwrites its argument rank.
* enriched_edges_to_ranks_random (read only, line 1243): enriched_dims holds 0-based positions, used as 1-based node numbers (1246): the nodes enriched are those whose successor in the numbering is to be enriched, and the node with the largest number is never enriched.
* optimize_dimension_tree (read only): the loop drawing two nodes does not end when all the costs are zero. permute_leaves (read only) sorts the caller's list perm in place.
* TreeBasedTensor.tensor_train(cores, dims): for a list of cores the call raises (a list indexed by an array); for an array of cores the cores are permuted, so that their ranks do not match (c64_train_dims_refuted) although the documentation says that core i is associated with dimension dims[i]. The tree is always the one of the natural order.
* TreeBasedTensor.cat looks only at the active nodes of the first tensor: the core of a leaf active in the second tensor only is silently dropped (c64_cat_refuted).
* TreeBasedTensor.ones fills the cores, not the tensor, with ones (c64_ones), as its documentation says.
* (read only) tensordot_matrix_product_except_dim calls the array self.tree.dim2ind as a function: it always raises.
* TreeBasedTensor.change_root: with several outputs the call raises, as it uses a method tree.addChild that does not exist (c65_outputs_refuted); an output axis of size 1 makes the transposition of the root core fail (c65_output_axis_refuted).
* TensorPrincipalComponentAnalysis: max_rank is ignored whenever tol < 1, because np.min((tol, max_rank)) is then the precision (c66_max_rank_refuted). (read only) is_active_node False at an internal node is ignored; with adaptive sampling the output "samples" contains only the last product grid; subsampling "random" applies only to the leaves.
* TreeBasedTensor.singular_values returns [1] at the root for every tensor, because gramians puts the matrix [1] there; the singular value of the root matricization is the norm of the tensor (c67_root_refuted).
* FunctionalBasisArray: `+`, `-`, `*` and matmul call the constructor on the array of data, which flattens it in the order F and fills it in the order C: for functions with several components the coefficients are permuted, f + 0 is not f (c68_vector_add_refuted). The product of two objects multiplies the coefficients (c68_product_refuted).
* SparseTensorProductFunctionalBasis.conditional_expectation passes its matrix through the same constructor: the conditional expectations of functions of several variables are wrong (c68_conditional_expectation_refuted).
* FunctionalTensor.dot_product_expectation, norm, variance (and std, variance_conditional_expectation that call them) raise for every input: FunctionalBases has no method gram_matrix, only gram_matrices (c69_dot_expectation_refuted, c69_norm_refuted, c69_variance_refuted).
* PolynomialFunctionalBasis.kron projects the products on the degrees 0, ..., m - 1, where m is the largest degree of the products: f * g is not the product of f and g (c69_product_refuted).
* FunctionalTensor.variance_conditional_expectation raises for every nonempty set of variables (c70_variance_refuted), for the same reason as variance.
* Read in the source, not modelled: PiecewisePolynomialFunctionalBasis.mean always raises (np.concatenate((0, ...)) of a number, piecewise_polynomial_functional_basis.py:143); FunctionalTensor.eval_gradient calls self.length(), which does not exist (functional_tensor.py:753); SubFunctionalBasis.eval_derivative passes its arguments n and x in the wrong order (sub_functional_basis.py:143); the boolean rows of variance_conditional_expectation are not recognised when they are numpy booleans, as isinstance(x, bool) is false.
* UniformRandomVariable.shift with a negative scaling gives inf > sup: cdf, icdf and pdf then return nan everywhere (c72_shift_refuted).
* PiecewisePolynomialFunctionalBasis is orthonormal for LebesgueMeasure(a, b), not for the uniform probability measure on (a, b) as its documentation says (c73_documented_measure_refuted).
* EmpiricalRandomVariable.icdf (and so random, and truncated_support) recurses for ever: icdf calls truncated_support (empirical_random_variable.py:184), which calls icdf when a bound of the support is infinite (random_variable.py:481-484), and the support is always (-inf, inf) (line 123). Read in the source, not modelled.

## Axioms used by each theorem (output of Print Assumptions)

F = `ClassicalDedekindReals.sig_forall_dec`, N = `ClassicalDedekindReals.sig_not_dec`, E = `FunctionalExtensionality.functional_extensionality_dep`, C = `Classical_Prop.classic`, D = `IndefiniteDescription.constructive_indefinite_description`; all five are axioms of Coq's standard library (F, N, E come with the real numbers).

**no axiom (closed under the global context)**

* P01_MultiIndices: c01_bounded_by_exact, c01_ex, c01_bounded_by_error, c01_error_ex, c01_product_set_exact, c01_product_set_power, c01_product_ex, c02_sub2ind_total_on_range, c02_ind2sub_total_on_range, c02_ind2sub_inverts_sub2ind, c02_sub2ind_inverts_ind2sub, c02_enumeration_is_bounded_by, c02_ex, c03_bounded_norm_1_exact, c03_norm1_ex, c03_hyperbolic_cross_exact, c03_hyper_ex, c03_weighted_norm_exact, c03_weighted_ex, c03_bounded_norm_p_refuted, c03_bounded_norm_p_partial, c03_norm_p_ex, c03_bounded_norm_inf_refuted, c03_low_order_refuted, c03_low_order_partial, c03_low_order_ex, c03_weighted_hyperbolic_refuted, c03_weighted_hyperbolic_partial, c03_whyper_ex, c04_add_is_union, c04_remove_is_difference, c04_remove_positions, c04_intersect_is_intersection, c04_ex, c05_margin_exact, c05_reduced_margin_exact, c05_maximal_exact, c05_downward_closed_decided, c05_adaptive_enrichment_stays_closed, c05_ex, c05_adaptive_ex, c05_envelope, c05_envelope_ex, c06_sort_ascending, c06_sort_ascending_default, c06_sort_descending_is_permutation_partial, c06_sort_descending_refuted, c06_sort_by_norm, c06_sort_by_weighted_norm, c06_ex, c07_keep_dims_is_projection, c07_remove_dims_is_projection, c07_ex
* P02_Utils: c08_integer2baseb, c08_baseb2integer, c08_default_digits, c08_ex, c08_fast_setdiff, c08_fast_intersect, c08_sets_ex
* P03_FullTensor: c09_add_sub_mul_entries, c09_scalar_entries, c09_mismatch_error, c09_ex, c10_transpose_moves_axes, c10_transpose_error, c10_itranspose_undoes_transpose, c10_transpose_undoes_itranspose, c10_reshape_column_major, c10_matricize_layout, c10_matricize_default, c10_ex, c11_tensordot_is_contraction, c11_tensordot_errors, c11_tensor_matrix_product, c11_tensor_matrix_product_default, c11_tensor_vector_product, c11_tensor_diagonal_matrix_product, c11_dot_inner_product, c11_reduce_sum, c11_ex, c12_cat_block, c12_kron_entries, c12_sub_tensor, c12_eval_diag_all, c12_eval_diag_some_dims, c12_eval_diag_error, c12_eval_at_indices_all_dims, c12_eval_at_indices_default, c12_eval_at_indices_one_dim, c12_eval_at_indices_some_dims_refuted, c12_eval_at_indices_some_dims_partial, c12_tensor_matrix_product_eval_diag, c12_ex_tmp_eval_diag, c12_ex
* P04_Formats: c13_full, c13_of_dense, c13_of_diagonal, c13_add, c13_mul, c13_dot, c13_single_entry_dot_raises_refuted, c13_transpose, c13_reshape, c13_eval_at_indices, c13_tensor_matrix_product_eval_diag, c13_tensor_vector_product, c13_tensor_vector_product_returns, c13_tensor_vector_product_all_dims_refuted, c13_tensor_matrix_product, c13_tensor_matrix_product_returns, c13_dot_with_rank_one_metric, c13_ex, c13_wf, c14_full, c14_add_sub_mul_neg, c14_dot, c14_tensor_vector_product, c14_tensor_vector_product_all, c14_tensor_diagonal_matrix_product, c14_cat, c14_kron, c14_transpose, c14_eval_at_indices, c14_eval_diag, c14_eval_diag_some_dims_refuted, c14_dot_with_rank_one_metric_refuted, c14_ex, c15_full, c15_add_sub, c15_neg, c15_tensor_matrix_product, c15_tensor_vector_product, c15_tensor_vector_product_all, c15_reduce_sum, c15_squeeze, c15_eval_diag, c15_eval_diag_twice_refuted, c15_tensor_matrix_product_eval_diag, c15_storage, c15_ex, c16_dot_equal_weights_partial, c16_dot_rank_one_partial, c16_dot_constant_weights_partial, c16_dot_refuted, c16_ex
* P05_Trees: c17_trivial, c17_linear, c17_balanced, c17_permute, c17_attributes, c17_internal_leaves, c17_level_loop, c17_ascendants, c17_descendants, c17_add_child, c17_change_root, c17_change_root_modified, c17_change_root_one_child_refuted, c17_linear_one_refuted, c17_random, c17_random_arity_one, c17_ex_random, c17_sub_tree, c17_ex_linear, c17_ex_change_root, c17_ex_sub, c18_dims, c18_node_with_dims, c18_ex, c19_complete, c19_sound_partial, c19_sound_refuted, c19_ex
* P06_TreeBased: c20_ex_ok, c20_full, c20_network, c20_order1_refuted, c20_ex, c21_add, c21_sub, c21_neg, c21_renumbered_refuted, c21_ex, c22_scale, c22_mul_partial, c22_kron_partial, c22_mul_unequal_refuted, c22_ex, c23_tensor_matrix_product, c23_diagonal_matrix_product, c23_sub_tensor, c23_tensor_matrix_product_eval_diag, c23_ex_eval_diag, c23_ex, c24_inactivate, c24_activate, c24_ex, c25_dot_partial, c25_dot_metric_partial, c25_norm, c25_dot_unequal_refuted, c25_dot_rank1_refuted, c25_ex, c26_orth, c26_core_orth, c27_storage, c27_sparse_storage, c27_ex
* P11_Functions: c32_eval, c32_unique, c32_pointwise, c32_single_function, c32_ex, c33_history_partial, c33_ex, c33_matrix_values_refuted, c38_array, c38_array_at, c38_empty, c38_eval_scalar, c38_eval_array, c38_eval_sparse, c38_ex, c50_partial_evaluation, c50_ex, c51_weights, c51_integrate, c51_exact, c51_ex
* P16_Conversions: c41_full_sparse_full, c41_sparse_full_sparse, c41_diagonal_sparse, c41_full_tree, c41_diagonal_tree, c41_diagonal_tree_default, c41_diagonal_tree_raises, c41_canonical_tree, c41_ex
* P18_FunctionalBases: c39_sparse_eval, c39_full_eval, c39_eval_full_tensor, c39_eval_canonical, c39_eval_sparse_tensor, c39_eval_diagonal, c39_eval_tree_based, c39_eval_on_grid, c54_sparse_mean, c54_full_mean_partial, c54_mean_full_tensor, c54_mean_canonical, c54_conditional_expectation, c55_basis_array_partial, c55_interpolate_partial, c55_gram_matrix, c55_quasi_projection, c55_sub_eval, c55_sub_mean, c55_sub_gram, c55_orthonormalize, c55_tensor_interpolation, c55_tensor_projection_partial, c55_tensor_projection_grids_refuted, c54_full_mean_order_refuted, c55_interpolate_outputs_refuted, c54_conditional_measure_refuted, c54_ex_means, c54_ex_grams, c39_ex_eval, c39_ex_points, c54_ex_cond, c55_ex_solve, c55_ex_project, c55_ex_inv, c55_ex_interpolation, c55_ex_orth
* P20_TreeReduce: c23_ex_ok, c23_squeeze, c23_squeeze_all, c23_squeeze_default, c23_ex_squeeze, c23_remove_unique_children, c23_tensor_vector_product, c23_tensor_vector_product_all, c23_ex_tvp, c23_eval_diag, c23_eval_diag_dims_partial, c23_eval_diag_dims_unsupported, c23_eval_diag_dims_refuted, c23_ex_diag, c23_eval_at_indices, c23_eval_at_indices_transposed, c23_eval_at_indices_one_dim, c23_eval_at_indices_rows_partial, c23_eval_at_indices_one_row_partial, c23_eval_at_indices_one_row_all, c23_eval_at_indices_one_row_refuted, c23_ex_at
* P23_TreeGrad: c60_eval_diag_below_partial, c60_eval_diag_above, c60_gradient_internal, c60_gradient_leaf, c60_gradient_root_partial, c60_gradient_identity, c60_gradient_identity_root_partial, c60_ex, c60_ex_all, c60_eval_diag_below_root_refuted, c60_gradient_identity_leaf_refuted, c60_gradient_root_refuted, c60_only_child_refuted
* P24_FuncGrad: c61_values, c61_gradient, c61_gradient_root, c61_ex, c61_ex_tt, c61_one_output_refuted
* P26_Ranks: c63_admissible_partial, c63_make_ranks_partial, c63_marked, c63_second_loop, c63_inactive_refuted, c63_outputs_refuted, c63_ex, c63_ex_inactive
* P27_TreeCreate: c64_cat_partial, c64_reduce_sum, c64_reduce_sum_all, c64_create, c64_create_default, c64_random_active, c64_create_inactive, c64_zeros, c64_ones, c64_tensor_train_partial, c64_ex_cat, c64_ex_train, c64_ex_ones, c64_train_dims_refuted, c64_cat_refuted
* P28_TreeRoot: c65_change_root_partial, c65_same_root, c65_inactive, c65_outputs_refuted, c65_output_axis_refuted, c65_ex, c65_ex_new, c65_ex_outputs
* P31_BasisArray: c68_eval, c68_add_partial, c68_sub_partial, c68_neg_partial, c68_scale_partial, c68_matmul_partial, c68_mean, c68_dot_product_expectation, c68_variance, c68_not_orthonormal, c68_dot, c68_vector_add_refuted, c68_product_refuted, c68_conditional_expectation_refuted, c68_ex_hat, c68_ex_mean, c68_ex_one, c68_ex_matmul
* P32_FuncStats: c69_dot_expectation_refuted, c69_norm_refuted, c69_variance_refuted, c69_dot_expectation_partial, c69_norm_partial, c69_variance_partial, c69_ex_hyps, c69_ex_dot, c69_ex_variance, c69_ex_variance_gram
* P33_FuncSobol: c70_mean_of_conditional_expectation, c70_variance_partial, c70_all_rows_partial, c70_empty, c70_variance_refuted, c70_ex_hyps, c70_ex

**C**

* P18_FunctionalBases: c54_sparse_gram

**C + D + E + F + N**

* P07_Truncator: c28_svd_exists
* P09_Polynomials: c45_eig_exists
* P12_Learning: c34_lapack
* P14_MagicIndices: c37_lapack
* P22_OrthNode: c59_contracts
* P25_AltMin: c62_contracts
* P29_TensorPCA: c66_example

**C + E + F + N**

* P07_Truncator: c28_trunc_svd, c28_trunc_svd_default_tolerance, c28_trunc_svd_error, c28_trunc_svd_best, c28_trunc_svd_hard, c28_trunc_svd_soft, c28_hosvd, c28_hosvd_error, c28_hosvd_quasi_optimal, c29_hosvd_history_partial, c29_hosvd_history_refuted
* P09_Polynomials: c43_well_defined, c43_lebesgue_interval_refuted, c45_gauss_uniform, c45_gauss_lebesgue
* P10_Measures: c46_moment_uniform, c46_product_moments, c46_own_moments_mass_refuted, c49_composite
* P17_BSplines: c40_derivative_smooth, c40_dilated_support, c40_dilated_indices, c40_dilated_indices_bounded, c40_dilated_unity, c40_dilated_derivative
* P19_Hsvd: c56_hsvd, c56_ttsvd, c56_hsvd_quasi_optimal, c56_hsvd_quasi_optimal_tree, c29_hsvd_state_partial, c29_hsvd_state_refuted
* P21_HsvdTree: c58_hsvd_tree, c58_hsvd_tree_quasi_optimal, c58_hsvd_tree_quasi_optimal_tree, c58_norm_after_hsvd_refuted, c29_hsvd_tree_state_partial
* P29_TensorPCA: c66_interpolation, c66_ranks_partial, c66_exact, c66_success, c66_hopca, c66_tucker, c66_tt, c66_max_rank_refuted, c66_all_draws, c66_all_draws_tucker, c66_all_draws_tt
* P35_UniformRV: c72_moments

**D + E + F + N**

* P07_Truncator: c26_qr_exists

**E + F**

* P07_Truncator: c28_ex
* P08_Tensorizer: c30_u2z, c30_z2u, c30_u2z_negative, c30_map, c30_inverse_map_map, c30_map_inverse_map, c30_tensorized_function, c30_uniform, c30_ex, c30_ex_hyp
* P10_Measures: c36_init, c36_cdf, c36_icdf, c36_icdf_above_one, c36_icdf_unsorted_refuted, c36_measure_random, c36_measure_random_zero_refuted, c36_ex, c46_stored_partial, c31_canonical, c31_canonical_ex, c47_iso_grid, c47_iso_grid_equal_mass, c47_discretize_support, c47_ex, c48_cdf, c48_ex
* P12_Learning: c34_solution, c34_correction_positive, c34_residuals, c34_density, c53_regularized, c53_regularized_included, c53_basis_adaptation, c34_ex, c53_ex
* P13_ModelSelection: c35_m_lambda, c35_lambda_path_terminates, c35_lambda_path_partial, c35_slope_heuristic_partial, c35_generic_ex, c35_path_ex, c35_slope_ex, c35_ties_refuted, c35_no_breakpoint_refuted, c35_slope_raises_refuted
* P14_MagicIndices: c37_indices, c37_interpolation, c37_success, c37_left, c37_right, c37_greedy, c37_nested, c37_points_success, c37_points, c37_ex, c37_zero, c37_points_ex
* P15_Losses: c42_zero_risk, c42_linear_model, c42_risk_1d_refuted, c42_mixed_shapes_refuted, c42_density, c42_custom, c42_ex, c42_1d_ex
* P17_BSplines: c40_cardinal, c40_support, c40_partition_of_unity, c40_extra_knots, c40_derivative, c40_ex, c40_ex_val
* P19_Hsvd: c56_ex
* P21_HsvdTree: c57_gramians, c57_ex, c58_ex
* P22_OrthNode: c59_ex
* P25_AltMin: c62_strategy, c62_ex, c62_ex_tt
* P26_Ranks: c63_necessary, c63_make_ranks_full, c63_selection_partial, c63_selection_refuted, c63_ex_full
* P27_TreeCreate: c64_truediv
* P30_SingularValues: c67_dense, c67_unique, c67_ex
* P32_FuncStats: c69_product_refuted
* P34_SubOrth: c71_ex_hyps
* P35_UniformRV: c72_density, c72_inverse, c72_shift_partial, c72_shift_refuted, c72_transfer, c72_polynomials_domain, c72_random, c72_ex
* P36_PiecewisePoly: c73_element_number, c73_ex

**E + F + N**

* P09_Polynomials: c31_poly_coeff, c31_poly_coeff_mass_refuted, c31_dn_polyval, c31_shifted_dn_polyval, c31_dn_polyval_mass_refuted, c31_ex, c43_hermite, c43_legendre, c43_legendre_lebesgue, c43_norms, c43_discrete, c43_discrete_ex, c44_roots, c45_gauss_normal, c45_nodes_weights, c45_ex
* P10_Measures: c36_moments, c46_moment_normal, c46_stored_refuted, c46_own_moments
* P12_Learning: c34_leave_one_out, c34_k_fold, c52_selection, c52_support, c52_default_path, c52_stop_has_no_effect
* P15_Losses: c42_square, c42_relative_1d
* P22_OrthNode: c59_orth_at_node, c59_orth_at_node_inactive
* P25_AltMin: c62_step_partial, c62_sweep_partial, c62_solve_partial
* P30_SingularValues: c67_tree_partial, c67_root_refuted, c67_agree
* P34_SubOrth: c71_orthonormalize, c71_needs_orthonormal
* P36_PiecewisePoly: c73_values, c73_orthonormal, c73_documented_measure_refuted

**F**

* P10_Measures: c31_canonical_high_order_refuted, c48_transfer, c48_transfer_inverse
* P12_Learning: c52_ex
