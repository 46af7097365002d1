{"id": "C01", "title": "Broadcasted shape is NumPy's broadcasting", "statement": "For any list of shapes, misc.broadcasted_shape returns exactly the shape NumPy broadcasting assigns (missing leading axes count as 1; on every axis all lengths other than 1 are equal and that length is the result, 1 if there is none), and raises ValueError exactly when on some axis two shapes have different lengths neither of which is 1.", "quantifier": "all finite lists of shapes of any rank and axis length (including 0)", "why_tests_cant": "ranks, numbers of shapes and lengths are unbounded; the loop carries a mutable accumulator whose meaning is only clear by induction", "anchors": ["bayespy/utils/misc.py: broadcasted_shape"]}
{"id": "C02", "title": "Plates do not depend on the order or grouping of parents", "statement": "The plates a node gets from its parents are the same for every order of the parents and every grouping (combining some of the shapes first); one order raises iff every order raises.", "quantifier": "all lists of shapes, all permutations and all splittings", "why_tests_cant": "needs an algebraic law over all permutations, not an example", "anchors": ["bayespy/utils/misc.py: broadcasted_shape", "bayespy/inference/vmp/nodes/node.py: Node._total_plates"]}
{"id": "C03", "title": "Explicit plates are accepted iff every parent broadcasts into them", "statement": "Constructing a node with an explicit plates argument succeeds exactly when every parent's plates broadcast to it without changing it (is_shape_subset), and then the node's plates are the argument; without the argument they are the broadcasted shape of the parents' plates.", "quantifier": "all plates arguments and all lists of parent plates", "why_tests_cant": "universally quantified acceptance/rejection boundary", "anchors": ["bayespy/inference/vmp/nodes/node.py: Node._total_plates", "bayespy/utils/misc.py: is_shape_subset"]}
{"id": "C04", "title": "is_shape_subset is the broadcast order", "statement": "misc.is_shape_subset(a,b) is True iff an array of shape a can be broadcast to exactly shape b, i.e. iff broadcasted_shape(a,b) succeeds and equals b; it is reflexive, transitive and antisymmetric up to leading unit axes.", "quantifier": "all pairs and triples of shapes", "why_tests_cant": "order laws over unbounded shapes", "anchors": ["bayespy/utils/misc.py: is_shape_subset, broadcasted_shape"]}
{"id": "C05", "title": "Broadcasting multiplier counts the repeats", "statement": "For plates P and shapes that all broadcast into P, misc.broadcasting_multiplier(P, shapes...) equals the number of elements of P that each element of the joint broadcast of the shapes stands for: summing an array of the joint shape expanded to P equals the multiplier times summing the array itself; it raises ValueError iff some shape is not a sub-shape of P.", "quantifier": "all plate shapes, all lists of shapes, all real arrays", "why_tests_cant": "counting identity over arbitrary ranks and lengths", "anchors": ["bayespy/utils/misc.py: broadcasting_multiplier"]}
{"id": "C06", "title": "sum_multiply is multiply-then-sum", "statement": "misc.sum_multiply(a1..an, axis=..., sumaxis=..., keepdims=...) equals broadcasting the arrays together, multiplying elementwise and summing over the requested axes (negative or positive), with the shape NumPy's sum would give; out-of-range kept axes raise ValueError and an empty argument list raises ValueError.", "quantifier": "all non-empty lists of real arrays of broadcastable shapes, all axis specifications", "why_tests_cant": "the code never forms the product (it delegates to einsum with constructed labels), so equality to the naive formula is a general index-manipulation theorem", "anchors": ["bayespy/utils/misc.py: sum_multiply, sum_product"]}
{"id": "C07", "title": "Plate summation equals the fully expanded sum", "statement": "misc.sum_multiply_to_plates(arrays, to_plates, from_plates, ndim) equals: expand every array to from_plates, multiply, and for each element of to_plates sum all from_plates elements that map to it; the early per-array summation and the multiplier change nothing.", "quantifier": "all arrays, all plate shapes, any number of variable axes", "why_tests_cant": "optimised path vs. naive expansion over all broadcast patterns", "anchors": ["bayespy/utils/misc.py: sum_multiply_to_plates, axes_to_collapse, squeeze_to_dim"]}
{"id": "C08", "title": "Message routine equals the expanded message", "statement": "The plate handling of messages to a parent (Node._compute_message / _message_to_parent: multiply by the mask and by the plates multiplier and sum to the parent's plates) gives, for every parent plate, the sum over all child plates mapped to it of the masked message, counting every child plate exactly once.", "quantifier": "all message arrays, masks, child plates and parent plates that broadcast", "why_tests_cant": "all combinations of unit / non-unit / missing axes on four shapes", "anchors": ["bayespy/inference/vmp/nodes/node.py: Node._compute_message, Node._message_to_parent, message_sum_multiply"]}
{"id": "C09", "title": "sum_to_shape and repeat_to_shape", "statement": "misc.sum_to_shape(X,s) returns an array of shape s (or raises) whose element at i is the sum of the elements of X that broadcast position i covers; misc.repeat_to_shape(A,s) returns the broadcast copy of A with shape s or raises; the two are adjoint: <repeat(A), X> = <A, sum_to_shape(X)>.", "quantifier": "all arrays and target shapes", "why_tests_cant": "adjointness over all shapes", "anchors": ["bayespy/utils/misc.py: sum_to_shape, repeat_to_shape"]}
{"id": "C10", "title": "moveaxis moves exactly one axis", "statement": "misc.moveaxis(A, i, j) (any signs) returns a transposition of A in which axis i is at position j and the other axes keep their relative order; it raises ValueError iff an index is out of bounds.", "quantifier": "all ranks, all pairs of indices of either sign", "why_tests_cant": "Python slice arithmetic with negative steps over all index sign combinations", "anchors": ["bayespy/utils/misc.py: moveaxis"]}
{"id": "C11", "title": "get_diag inverts make_diag", "statement": "misc.get_diag(misc.make_diag(X, n, m), n, m) = X and make_diag(X) is zero off the diagonal; get_diag picks exactly the diagonal entries.", "quantifier": "all arrays, all ndim >= ndim_to", "why_tests_cant": "index identity for any rank", "anchors": ["bayespy/utils/misc.py: make_diag, get_diag"]}
{"id": "C12", "title": "Slicing a node: plates", "statement": "For a node X with plates P and any index expression made of integers, slices, newaxis and at most one Ellipsis, X[...] has the plates that the same indexing of a NumPy array of shape P has; invalid indices (out of range, too many, other objects) and selections with an empty axis are rejected. Any further Ellipsis is read as ':'.", "quantifier": "all plate shapes and all index expressions", "why_tests_cant": "slice length arithmetic (negative start/stop/step) over all integers", "anchors": ["bayespy/inference/vmp/nodes/node.py: Slice.__init__, slicelen, Slice._plates_from_parent"]}
{"id": "C13", "title": "Slicing a node: message is the adjoint of the moments", "statement": "For a sliced node, the message sent to the sliced parent is the adjoint of the moment map: for every parent moment u and child message m, <m, slice(u)> = <message_to_parent(m), u>; parent plates that are not selected get zero.", "quantifier": "all plate shapes, index expressions, moments and messages", "why_tests_cant": "reverse indexing must be exactly dual to indexing for every slice", "anchors": ["bayespy/inference/vmp/nodes/node.py: Slice._compute_moments, Slice.__reverse_indexing, Slice._compute_message_to_parent"]}
{"id": "C14", "title": "Take: message is the adjoint of taking", "statement": "Take(X, indices) has moments u[..., indices, ...] and sends its parent messages summed over repeated indices (misc.put_simple), which is the adjoint of taking; out-of-range indices raise.", "quantifier": "all moments, index arrays (with repeats and negative entries) and messages", "why_tests_cant": "duplicate index accumulation for all index arrays", "anchors": ["bayespy/inference/vmp/nodes/take.py: Take", "bayespy/utils/misc.py: put_simple, put"]}
{"id": "C15", "title": "Concatenate: moments, message and mask", "statement": "Concatenate(X1..Xn) has the parents' moments side by side along the plate axis; the message (and the mask) sent to parent k is exactly the block of the child's message (mask) that belongs to parent k.", "quantifier": "all numbers of parents, all lengths, all messages and masks", "why_tests_cant": "block offsets for every parent position; the mask path and the message path are separate code", "anchors": ["bayespy/inference/vmp/nodes/concatenate.py: Concatenate"]}
{"id": "C16", "title": "Tiling a node is consistent", "statement": "tile(X, n): the moments are repeated as numpy.tile repeats them, and message and mask sent to X are the sum (resp. or) over the repeats, i.e. the adjoint map.", "quantifier": "all plate shapes and all tile specifications", "why_tests_cant": "modular index arithmetic", "anchors": ["bayespy/inference/vmp/nodes/deterministic.py: tile, _Tile"]}
{"id": "C17", "title": "Adding a plate axis puts it where requested", "statement": "node.add_plate_axis(to_plate) yields a node whose plates have a new unit axis at position to_plate (negative, counted in the new plates), as the moments do.", "quantifier": "all plate shapes and all negative axis positions", "why_tests_cant": "off-by-one over all ranks", "anchors": ["bayespy/inference/vmp/nodes/node.py: AddPlateAxis"]}
{"id": "C18", "title": "Gate and Choose", "statement": "Gate(Z,X) has moments E[u_X[z]] = sum_k z_k u_X[k] along the gated plate; the message to X puts weight z_k on component k, the message to Z's component k is <m, u_X[k]>; both are the linear coefficients of <m, u>.", "quantifier": "all probabilities, moments, messages, numbers of components and gated plate positions", "why_tests_cant": "bilinear duality over all shapes", "anchors": ["bayespy/inference/vmp/nodes/gate.py: Gate, Choose"]}
{"id": "C19", "title": "Mixture moments and messages", "statement": "A Mixture node's natural parameters, expected cgf and messages are the Z-weighted sums over the mixed parameter's clusters, the message to Z's component k is the component's expected log-density, and together they are consistent with E[log p(x|z,theta)] = sum_k z_k E[log p(x|theta_k)].", "quantifier": "all numbers of clusters, all moments", "why_tests_cant": "identity over all moment values", "anchors": ["bayespy/inference/vmp/nodes/mixture.py: MixtureDistribution"]}
{"id": "C20", "title": "Messages are the coefficients of the expected log-density", "statement": "For every exponential-family node (Gaussian, GaussianARD, GaussianGamma, Gamma, Wishart, Dirichlet, Beta, Multinomial, Categorical, Binomial, Bernoulli, Poisson, categorical and Gaussian Markov chains), E[log p(x|parents)] computed by the node (phi.u + g + f) equals, for every parent, <message to the parent, parent's moments> plus a term not depending on that parent.", "quantifier": "all real moments and sizes", "why_tests_cant": "polynomial identity in all moments; the same quantity is computed by three different functions per node", "anchors": ["bayespy/inference/vmp/nodes/gaussian.py", "bayespy/inference/vmp/nodes/gamma.py", "bayespy/inference/vmp/nodes/wishart.py", "bayespy/inference/vmp/nodes/dirichlet.py", "bayespy/inference/vmp/nodes/multinomial.py", "bayespy/inference/vmp/nodes/binomial.py", "bayespy/inference/vmp/nodes/poisson.py", "bayespy/inference/vmp/nodes/categorical_markov_chain.py", "bayespy/inference/vmp/nodes/gaussian_markov_chain.py"]}
{"id": "C21", "title": "Node equations agree with the textbook density", "statement": "For fixed parents and fixed value, phi(parents).u(x) + g(parents) + f(x) equals the logarithm of the density / mass function the node documents.", "quantifier": "all admissible values and parameters", "why_tests_cant": "identity over the reals", "anchors": ["bayespy/inference/vmp/nodes/gaussian.py", "bayespy/inference/vmp/nodes/gamma.py", "bayespy/inference/vmp/nodes/dirichlet.py", "bayespy/inference/vmp/nodes/multinomial.py", "bayespy/inference/vmp/nodes/binomial.py", "bayespy/inference/vmp/nodes/poisson.py"]}
{"id": "C22", "title": "Moments are the gradient of the log-normaliser", "statement": "For each closed-form family the moments returned by compute_moments_and_cgf are the partial derivatives of -g with respect to the natural parameters.", "quantifier": "all natural parameters in the domain", "why_tests_cant": "a derivative statement about a real function; finite differences only sample", "anchors": ["bayespy/inference/vmp/nodes/multinomial.py: compute_moments_and_cgf", "bayespy/inference/vmp/nodes/gaussian.py", "bayespy/inference/vmp/nodes/poisson.py", "bayespy/inference/vmp/nodes/binomial.py"]}
{"id": "C23", "title": "Softmax: normalized_exp", "statement": "misc.normalized_exp returns positive weights that sum to one along the last axis and log of the normaliser; the result is invariant to adding a constant; logsumexp equals the log of the sum of exponentials (with -inf entries allowed).", "quantifier": "all non-empty real vectors", "why_tests_cant": "identity on reals", "anchors": ["bayespy/utils/misc.py: normalized_exp, logsumexp"]}
{"id": "C24", "title": "Updating a node never decreases the lower bound", "statement": "With all other nodes fixed and no annealing, node.update() sets the node's distribution to the unique maximiser of the lower bound among distributions of that family, so the bound never decreases.", "quantifier": "all prior parameters, all messages, all previous states", "why_tests_cant": "an inequality over all reals (Gibbs' inequality)", "anchors": ["bayespy/inference/vmp/nodes/expfamily.py: ExponentialFamily._update_distribution_and_lowerbound, lower_bound_contribution", "bayespy/inference/vmp/vmp.py: VB.update"]}
{"id": "C25", "title": "Any schedule of updates keeps the bound monotone", "statement": "For any sequence of node updates (any order, any repetition), the sequence of lower bounds is non-decreasing for models whose nodes each satisfy the single-update property.", "quantifier": "all models, all finite update schedules", "why_tests_cant": "quantifies over all schedules", "anchors": ["bayespy/inference/vmp/vmp.py: VB.update"]}
{"id": "C26", "title": "Observed plates are never changed by updates", "statement": "After observe(x, mask), any sequence of update() and initialisation calls leaves the moments on the observed plates exactly as set by observe, and only unobserved plates may change.", "quantifier": "all masks (arbitrary broadcastable boolean arrays), all histories", "why_tests_cant": "quantifies over all histories and masks", "anchors": ["bayespy/inference/vmp/nodes/stochastic.py: Stochastic._set_moments", "bayespy/inference/vmp/nodes/expfamily.py: ExponentialFamily.observe, _update_moments_and_cgf"]}
{"id": "C27", "title": "Masked plates contribute nothing", "statement": "Missing (masked) plates contribute zero to the lower bound and to every message: the values stored there do not influence any other node.", "quantifier": "all masks, all stored values in masked plates", "why_tests_cant": "non-interference over all values", "anchors": ["bayespy/inference/vmp/nodes/expfamily.py: ExponentialFamily.lower_bound_contribution", "bayespy/inference/vmp/nodes/node.py: Node._message_to_parent"]}
{"id": "C28", "title": "Mask = has an observed descendant", "statement": "After any sequence of observe/unobserve calls, a plate of a node is active (mask True) exactly when that plate of the node, or a plate of some descendant that depends on it, is observed.", "quantifier": "all DAG models and all histories of observe / unobserve", "why_tests_cant": "global invariant of a recursive propagation", "anchors": ["bayespy/inference/vmp/nodes/node.py: Node._update_mask, _mask_to_parent", "bayespy/inference/vmp/nodes/stochastic.py: observe, unobserve"]}
{"id": "C29", "title": "Parent/child links stay consistent", "statement": "After any sequence of node creations and removals, X has (Y,i) among its children iff Y's i-th parent is X and Y is linked; deterministic nodes are attached to their parents iff they have children.", "quantifier": "all construction/removal histories", "why_tests_cant": "history invariant", "anchors": ["bayespy/inference/vmp/nodes/node.py: Node.__init__, _add_child, _remove_child, delete", "bayespy/inference/vmp/nodes/deterministic.py: Deterministic._add_child, _remove_child"]}
{"id": "C30", "title": "Deleting a node detaches it", "statement": "node.delete() removes the node and everything that depends on it from the graph without raising.", "quantifier": "all graphs", "why_tests_cant": "iteration over a set that is mutated during the iteration", "anchors": ["bayespy/inference/vmp/nodes/node.py: Node.delete"]}
{"id": "C31", "title": "Dependent parents are rejected", "statement": "A node can be constructed iff no stochastic node reaches it through two different parents along paths of deterministic nodes only; otherwise construction raises ValueError.", "quantifier": "all DAGs of nodes", "why_tests_cant": "path property on all graphs", "anchors": ["bayespy/inference/vmp/nodes/node.py: Node.__init__", "bayespy/inference/vmp/nodes/deterministic.py: Deterministic._get_id_list", "bayespy/inference/vmp/nodes/stochastic.py: Stochastic._get_id_list"]}
{"id": "C32", "title": "Moment converters are found when they exist", "statement": "Moments.get_converter returns a chain of registered converters from the source class to the target class (or a subclass of the target) whenever one exists, of minimal length, and raises NoConverterError otherwise; the search terminates.", "quantifier": "all class hierarchies and converter tables, including cyclic ones", "why_tests_cant": "graph search on all (cyclic) graphs", "anchors": ["bayespy/inference/vmp/nodes/node.py: Moments.get_converter, add_converter"]}
{"id": "C33", "title": "Iteration bookkeeping", "statement": "After any sequence of update calls, the recorded lower-bound history has exactly one entry per finished iteration, earlier entries are never altered, storage grows as needed, and update(repeat=n) runs at most n iterations, stopping early only at the iteration that converged.", "quantifier": "all sequences of update calls with any repeat, tolerance, callback", "why_tests_cant": "all histories", "anchors": ["bayespy/inference/vmp/vmp.py: VB.update, _append_iterations, _end_iteration_step"]}
{"id": "C34", "title": "Convergence is reported only when the bound has settled", "statement": "update stops before the requested number of iterations only if the relative bound change of the last iteration is below the tolerance; a decrease of the bound is not reported as convergence.", "quantifier": "all bound sequences and tolerances", "why_tests_cant": "decision boundary on reals incl. negative and zero bounds", "anchors": ["bayespy/inference/vmp/vmp.py: VB._end_iteration_step, has_converged"]}
{"id": "C35", "title": "Node lookup by name is unambiguous", "statement": "VB(*nodes) rejects models with two nodes of the same name, so vb['name'] returns the unique node with that name.", "quantifier": "all node lists", "why_tests_cant": "universal acceptance condition", "anchors": ["bayespy/inference/vmp/vmp.py: VB.__init__, __getitem__"]}
{"id": "C36", "title": "Save then load restores the model", "statement": "vb.save followed by vb.load in a model of the same structure restores all moments, parameters, observed masks, bound history and iteration counters, so that continuing is indistinguishable; loading a subset of nodes touches only these nodes.", "quantifier": "all models, all states, all node subsets", "why_tests_cant": "round trip on all states", "anchors": ["bayespy/inference/vmp/vmp.py: VB.save, VB.load", "bayespy/inference/vmp/nodes/stochastic.py: save, load", "bayespy/inference/vmp/nodes/expfamily.py: _save, _load"]}
{"id": "C37", "title": "A crash during save does not lose the previous save", "statement": "If the process is killed at any point during vb.save / autosave to an existing file, loading the file afterwards gives either the previously saved state or the new one.", "quantifier": "all crash points", "why_tests_cant": "crash points cannot be enumerated by tests", "anchors": ["bayespy/inference/vmp/vmp.py: VB.save, VB.update (autosave)"]}
{"id": "C38", "title": "Autosave schedule", "statement": "With autosave every k iterations, a save happens exactly at the end of iterations whose number is a multiple of k.", "quantifier": "all iteration counts and k", "why_tests_cant": "all schedules", "anchors": ["bayespy/inference/vmp/vmp.py: VB.update, set_autosave, _end_iteration_step"]}
{"id": "C39", "title": "Gradient step of length one is an update", "statement": "Adding the Riemannian gradient (scale 1) to the current parameters of a node gives exactly the parameters that node.update() would set; a step of length s interpolates linearly.", "quantifier": "all states and step lengths", "why_tests_cant": "identity on all states", "anchors": ["bayespy/inference/vmp/nodes/expfamily.py: get_riemannian_gradient, get_parameters, set_parameters", "bayespy/inference/vmp/vmp.py: VB.gradient_step"]}
{"id": "C40", "title": "Optimisation never accepts a worse bound", "statement": "vb.optimize / pattern_search leave the model in a state whose bound is not lower than before the call.", "quantifier": "all models and all step outcomes", "why_tests_cant": "adversarial outcomes of every step", "anchors": ["bayespy/inference/vmp/vmp.py: VB.optimize, VB.pattern_search"]}
{"id": "C41", "title": "Euclidean gradient formulas", "statement": "compute_gradient of each distribution equals the Euclidean gradient: the Jacobian transpose of the moments applied to the Riemannian gradient.", "quantifier": "all parameters and gradients", "why_tests_cant": "derivative identity over reals", "anchors": ["bayespy/inference/vmp/nodes/gamma.py: compute_gradient", "bayespy/inference/vmp/nodes/dirichlet.py: compute_gradient", "bayespy/inference/vmp/nodes/multinomial.py: compute_gradient", "bayespy/inference/vmp/nodes/gaussian.py: compute_gradient"]}
{"id": "C42", "title": "Hidden Markov recursion is exact", "statement": "random.alpha_beta_recursion returns exactly the pairwise and initial marginals of the chain with the given log-potentials and minus the log-normaliser, as if all K^N paths were enumerated.", "quantifier": "all chain lengths, all numbers of states, all potentials (zero probabilities allowed)", "why_tests_cant": "exponential number of paths; induction over the length", "anchors": ["bayespy/utils/random.py: alpha_beta_recursion", "bayespy/inference/vmp/nodes/categorical_markov_chain.py"]}
{"id": "C43", "title": "Block-banded solver is exact", "statement": "linalg.block_banded_solve(A,B,y) returns the diagonal and first super-diagonal blocks of the inverse, the solution of the linear system and the log-determinant of the block-tridiagonal matrix.", "quantifier": "all chain lengths and block sizes, all positive definite systems", "why_tests_cant": "induction over the chain length with matrix blocks", "anchors": ["bayespy/utils/linalg.py: block_banded_solve"]}
{"id": "C44", "title": "Gaussian moments from natural parameters", "statement": "For Gaussian nodes the returned first and second moments and g are those of the normal distribution with the given natural parameters; translate and rotate transform natural parameters, moments and g consistently (recomputing from the new natural parameters gives the same moments).", "quantifier": "all dimensions, all invertible rotations, all translations", "why_tests_cant": "matrix identities in any dimension", "anchors": ["bayespy/inference/vmp/nodes/gaussian.py: GaussianDistribution.compute_moments_and_cgf, _GaussianTemplate.translate, Gaussian.rotate, GaussianARD.rotate"]}
{"id": "C45", "title": "Rotating both factors leaves the product unchanged", "statement": "RotationOptimizer rotates block one with R and block two with R^-T, so the inner products of the two blocks are unchanged, and the logdet terms cancel.", "quantifier": "all dimensions, all invertible R", "why_tests_cant": "matrix identity in all dimensions", "anchors": ["bayespy/inference/vmp/transformations.py: RotationOptimizer.rotate", "bayespy/inference/vmp/nodes/gaussian.py: rotate_mean, rotate_covariance"]}
{"id": "C46", "title": "SumMultiply moments and messages", "statement": "SumMultiply computes the first and second moments of the einsum of independent Gaussian arrays, and its message to a parent is the linear coefficient of that parent's moments in <m,u>.", "quantifier": "all numbers of factors, all key structures, all shapes", "why_tests_cant": "general einsum identity", "anchors": ["bayespy/inference/vmp/nodes/dot.py: SumMultiply"]}
{"id": "C47", "title": "Add and ConcatGaussian moments and messages", "statement": "Add(X1..Xn) has the moments of the sum of independent Gaussians and ConcatGaussian those of the concatenation; messages are the coefficients of each parent's moments.", "quantifier": "all numbers of parents and dimensions", "why_tests_cant": "identity over all moment values", "anchors": ["bayespy/inference/vmp/nodes/add.py: Add", "bayespy/inference/vmp/nodes/concat_gaussian.py: ConcatGaussian"]}
{"id": "C48", "title": "random.intervals are disjoint", "statement": "random.intervals(N, length, amount, gap) returns the requested number of starting points in range whose intervals of the given length do not overlap and keep the gap, or raises ValueError when they do not fit.", "quantifier": "all parameters and all random draws", "why_tests_cant": "all outcomes of the random source", "anchors": ["bayespy/utils/random.py: intervals"]}
{"id": "C49", "title": "Categorical sampling picks a possible category", "statement": "random.categorical returns an index in range, whose probability is positive, and each index is chosen for an interval of the uniform variate whose length is its probability.", "quantifier": "all probability vectors and all values of the uniform variate", "why_tests_cant": "boundary values of the variate have measure zero", "anchors": ["bayespy/utils/random.py: categorical"]}
{"id": "C50", "title": "Set index lookup", "statement": "misc.find_set_index(index, set_lengths) returns the set that contains the flat index; it raises exactly when the index is out of range. misc.ceildiv(a, b) is the quotient rounded up, for divisors of either sign, and fails for zero.", "quantifier": "all lists of lengths and indices", "why_tests_cant": "boundary behaviour on all lists (including empty sets)", "anchors": ["bayespy/utils/misc.py: find_set_index", "bayespy/utils/misc.py: ceildiv"]}
{"id": "C51", "title": "Gaussian Markov chain smoothing is exact", "statement": "The moments a Gaussian Markov chain node computes (its Kalman smoother) are the means, covariances and lag-one cross-covariances of the joint normal distribution of all the states with the node's natural parameters, g is its log-normaliser, and the computation raises exactly when that precision is not positive definite. Rotating the node gives the same moments, natural parameters and g as recomputing them from the rotated natural parameters.", "quantifier": "all lengths and dimensions of the chain, all natural parameters, all invertible rotations", "why_tests_cant": "the smoother is a forward-backward recursion; its exactness is an induction over the length with matrix blocks", "anchors": ["bayespy/inference/vmp/nodes/gaussian_markov_chain.py: TemplateGaussianMarkovChainDistribution.compute_moments_and_cgf, compute_fixed_moments_and_f, rotate; GaussianMarkovChainMoments.rotate"]}
{"id": "C52", "title": "The rotation objective is the lower bound", "statement": "For a GaussianARD node X (vectors) with a Gamma precision, the value that the rotation object RotateGaussianARD.bound computes for a rotation R differs from the lower-bound terms of X and of the precision, after X is rotated with R and the precision is updated, by a number that does not depend on R (the same holds for the separate terms once the precision has been updated). So RotationOptimizer raises the lower bound by exactly as much as it lowers its cost.", "quantifier": "all dimensions, all plates of X and alpha (and their broadcasting), all moments of X, mu and alpha, all invertible rotations", "why_tests_cant": "the library's own check_bound compares a single random rotation; the claim ranges over all rotations, plate shapes and moments, and an objective that is wrong by a term that depends on R silently makes the bound decrease", "anchors": ["bayespy/inference/vmp/transformations.py: RotateGaussianARD.setup, RotateGaussianARD._compute_bound, RotateGaussianARD.bound, RotationOptimizer.rotate"]}
{"id": "C53", "title": "The gradient of the rotation objective is its derivative", "statement": "The gradient that RotateGaussianARD.bound returns with the value is the derivative of the value with respect to every element of R, and so is the gradient of the cost of two blocks that RotationOptimizer.rotate passes to the optimiser.", "quantifier": "all dimensions, all plates, all moments, all invertible R, all elements of R", "why_tests_cant": "check_gradient is a finite difference at one point; a gradient that is wrong for one shape of the parents makes the optimiser stop early without an error", "anchors": ["bayespy/inference/vmp/transformations.py: RotateGaussianARD._compute_bound (gradient)", "bayespy/inference/vmp/transformations.py: RotationOptimizer.rotate (cost)"]}
{"id": "C54", "title": "A fixed value has one set of moments, however it enters the node", "statement": "Observing a value and starting from it (initialize_from_value) give the node the same moments, the sufficient statistics of that value; the values that can be observed are those of the support, and the values one can start from are the values one can observe; a constant Gaussian joined with a constant gamma or Wishart by the converters has the moments of the constant pair.", "quantifier": "all families (Gamma, Dirichlet, Beta, Poisson, Binomial, Bernoulli, Multinomial, Categorical, Gaussian, GaussianARD, GaussianGamma, GaussianWishart, Wishart, Gaussian and categorical Markov chains), all dimensions, all values", "why_tests_cant": "the two paths are separate functions in each class; a test tries a few families and values, and a missing argument in one of them stays unseen until somebody calls it", "anchors": ["bayespy/inference/vmp/nodes/*.py: *Moments.compute_fixed_moments, *Distribution.compute_fixed_moments_and_f", "bayespy/inference/vmp/nodes/expfamily.py: ExponentialFamily.initialize_from_value, observe"]}
{"id": "C55", "title": "A Gaussian array can be used as plates of smaller Gaussians", "statement": "When a Gaussian node whose variable is an array is given where a Gaussian variable with fewer axes is expected, the leading axes become plates: the child sees for each of these plates the mean and second moment of the corresponding part of the array, the message sent back to the array is the adjoint of that selection, and a plate of the array counts as needed iff one of the new plates does.", "quantifier": "all plates, all shapes of the array, all messages (with broadcasting), all masks", "why_tests_cant": "an element lost in the message only changes the posterior; tests use scalar children or messages without coupling between the elements", "anchors": ["bayespy/inference/vmp/nodes/gaussian.py: GaussianToGaussian, GaussianMoments.get_instance_converter", "bayespy/inference/vmp/nodes/converters.py: NodeConverter"]}
{"id": "C56", "title": "The gradient of a point-estimated parameter is the derivative of the lower bound", "statement": "For a MaximumLikelihood parameter used, directly or through any number of Function nodes, where a Wishart-type (precision matrix) parent is expected, the gradient the node reports is the derivative of the lower bound with respect to the parameter's array, so that a small step along it increases the bound.", "quantifier": "all networks of parameters, functions and children, all values at which the matrices are positive definite, all plates, all messages of the children, all differentiable functions with correct gradient functions", "why_tests_cant": "a finite-difference check covers one network at one point; a wrong term in the derivative of the log-determinant, or a path through the functions that is dropped or counted twice, still points uphill in simple cases", "anchors": ["bayespy/inference/vmp/nodes/ml.py: MaximumLikelihood, Function, DeltaInstanceConverter", "bayespy/inference/vmp/nodes/wishart.py: WishartMoments.compute_fixed_moments"]}
{"id": "C57", "title": "Rotating a Markov chain moves its dynamics consistently", "statement": "When the states of a Gaussian Markov chain are rotated by R, the rotation applied to the dynamics (R on the rows, the inverse of R on the columns that multiply the states, none on the inputs) leaves the predicted states consistent: the posterior mean of the dynamics becomes R A blockdiag(R^-1, I), with the covariance of each row mapped by the inverse rotation and scaled by the square of the sum of its column of R. The objective reported for the states is, up to a constant that does not depend on R, the change of the chain's term of the lower bound, and the reported gradient is its derivative.", "quantifier": "all chain lengths, dimensions, numbers of inputs, initial-state parameters, posteriors with coupled states, all invertible rotations", "why_tests_cant": "tests compare bounds at a few random rotations of one model; a constant-looking term that depends on the rotation, or a wrong block for the inputs, shows up only for particular shapes and values", "anchors": ["bayespy/inference/vmp/transformations.py: RotateGaussianMarkovChain, RotateGaussianMarkovChain.bound, RotateGaussianMarkovChain.rotate", "bayespy/inference/vmp/nodes/gaussian.py: GaussianARD.rotate_plates"]}
{"id": "C58", "title": "Rotating a node together with its plates", "statement": "When the variables of a GaussianARD node are rotated by R and its plates by Q (as the dynamics of a chain are), the reported objective is, up to constants that depend on neither R nor Q, the sum of the node's term and its precision's term of the lower bound after the rotation and the re-estimation of the precision, whatever axes the precision has; the gradients with respect to R and to Q are its derivatives. The objective of rotating a chain is then the sum for the chain, its dynamics and the precisions of the dynamics, and the gradient accounts for the dynamics being rotated by the inverse.", "quantifier": "all numbers of plates and elements, all posteriors, precisions with or without an axis for the plates and the elements, fixed or re-estimated, all invertible R and all Q with non-zero column sums", "why_tests_cant": "tests check the gradient numerically at random points of a few models with scalar priors; a wrong axis of the prior broadcasts silently when the shapes happen to match", "anchors": ["bayespy/inference/vmp/transformations.py: RotateGaussianARD, RotateGaussianARD._compute_bound, RotateGaussianMarkovChain.bound", "bayespy/inference/vmp/nodes/gaussian.py: GaussianARD.rotate, GaussianARD.rotate_plates"]}
{"id": "C59", "title": "random() draws from the node's distribution", "statement": "Calling random() on a node draws a sample from the node's current (approximate posterior) distribution, that is, with the density exp(phi.u(x) + g + f(x)) and the mean and covariance that the node reports, and drawing does not change the node. The helpers behave as documented: random.bernoulli and random.mask return True with probability p, random.correlation returns a correlation matrix, random.wishart a Wishart distributed D x D matrix; samples that are numerically zero raise RuntimeError.", "quantifier": "all natural parameters for which the distribution exists, all numbers of categories, states, time instances and dimensions, all outcomes of NumPy's generator", "why_tests_cant": "tests compare sample averages of one or two distributions with a tolerance, or only check shapes; a distribution with the right support but the wrong probabilities, or a change in the node's state, goes unnoticed", "anchors": ["bayespy/inference/vmp/nodes/expfamily.py: ExponentialFamily.random", "bayespy/inference/vmp/nodes/gaussian.py: GaussianDistribution.random, GaussianARDDistribution.random, GaussianGammaDistribution.random", "bayespy/inference/vmp/nodes/categorical.py: CategoricalDistribution.random", "bayespy/inference/vmp/nodes/categorical_markov_chain.py: CategoricalMarkovChainDistribution.random", "bayespy/inference/vmp/nodes/gamma.py, poisson.py, binomial.py, multinomial.py, dirichlet.py, beta.py: random", "bayespy/utils/random.py: bernoulli, mask, categorical, gamma, dirichlet, wishart, correlation, logodds_to_probability"]}
{"id": "C60", "title": "Marginals of a GaussianGamma node", "statement": "For a GaussianGamma vector node, get_gaussian_location returns the location of the posterior, get_gaussian_mean_and_variance returns the mean and the variances of the Student-t distribution that x has when the scale is integrated out (and raises ValueError when they do not exist), and get_marginal_logpdf(gaussian=inds, gamma=...) returns the log-density of the requested subset of variables: Student-t for elements of x, gamma for the scale, Gaussian-gamma for both.", "quantifier": "every posterior (dimension, natural parameters), every list of distinct indices (negative ones too), every argument of the returned function, and nodes with plates", "why_tests_cant": "The log-densities are continuous functions of all parameters; the repository has no test of these methods and a test at one point with a unit covariance does not see a determinant with the wrong sign.", "anchors": ["bayespy/inference/vmp/nodes/gaussian.py: GaussianGamma.get_gaussian_location, get_gaussian_mean_and_variance, get_marginal_logpdf", "bayespy/utils/random.py: gaussian_gamma_to_t, t_logpdf, gamma_logpdf, gaussian_logpdf"]}
{"id": "C61", "title": "A call that raises leaves the node as it was", "statement": "When observe, initialize_from_value, initialize_from_parameters, set_parameters, update or Constant.set_value raises because of its argument (a value outside the support, a wrong shape, an illegal mask, parameters that belong to no distribution), the node is what it was before the call: its moments, natural parameters, observations and mask are unchanged and a program that catches the exception can go on.  The exception for a wrong shape is ValueError.", "quantifier": "every distribution object, every node with the shapes a constructor gives, every argument, every mask and every message from parents and children", "why_tests_cant": "The repository's tests only check that an exception is raised; what the node holds afterwards depends on where in the sequence of assignments the exception occurs.", "anchors": ["bayespy/inference/vmp/nodes/expfamily.py: observe, initialize_from_value, set_parameters, _update_distribution_and_lowerbound, _update_phi_from_parents", "bayespy/inference/vmp/nodes/stochastic.py: _set_moments, _check_shape, update", "bayespy/inference/vmp/nodes/node.py: _update_mask", "bayespy/inference/vmp/nodes/constant.py: set_value"]}
{"id": "C62", "title": "A plain array in the place of a parent", "statement": "A node constructor accepts a plain array wherever a parent of any kind is expected: the array becomes a constant whose plates are the axes left of the variable's own axes and whose moments are those of a distribution concentrated on the value.  Values outside the domain of the parent (negative precisions, probabilities that do not sum to one, categories out of range, counts that are not integers, matrices that are not square, arrays with too few axes) are refused with ValueError.", "quantifier": "every kind of parent, every array of every shape and, for Gaussian-gamma parents, every pair of arrays whose plates broadcast", "why_tests_cant": "Tests convert a few literals for some kinds of parents; the plates and the checks are claims about every shape, and several kinds of parents have no test of their conversion at all.", "anchors": ["bayespy/inference/vmp/nodes/node.py: Node._ensure_moments", "bayespy/inference/vmp/nodes/constant.py: Constant.__init__", "bayespy/inference/vmp/nodes/gaussian.py: GaussianMoments, GaussianGammaMoments, GaussianWishartMoments", "bayespy/inference/vmp/nodes/gamma.py: GammaMoments, GammaPriorMoments", "bayespy/inference/vmp/nodes/wishart.py: WishartMoments, WishartPriorMoments", "bayespy/inference/vmp/nodes/dirichlet.py: DirichletMoments, ConcentrationMoments", "bayespy/inference/vmp/nodes/beta.py: BetaMoments", "bayespy/inference/vmp/nodes/multinomial.py: MultinomialMoments", "bayespy/inference/vmp/nodes/categorical.py: CategoricalMoments", "bayespy/inference/vmp/nodes/poisson.py: PoissonMoments", "bayespy/inference/vmp/nodes/binomial.py: BinomialMoments"]}
{"id": "C63", "title": "The plates and the shape of a new node", "statement": "A node constructor gives the node the plates asked for when every parent broadcasts to them, counted together with the axes that parent sees, and otherwise raises; without plates it gives the smallest ones to which all parents broadcast, and raises if there are none.  The shape of the variable follows from the parents: the last axes for GaussianARD with ndim, the number of categories for probability vectors, the length of the chain from the time axes of the dynamics, the plates without the cluster axis for a mixture.", "quantifier": "the constructors of Gamma, Poisson, Dirichlet, Categorical, Bernoulli, Binomial, Multinomial, Beta, GaussianARD, Gaussian, GaussianGamma, GaussianWishart, Wishart, the four Markov chains and Mixture; all plates and dims of the parents and all given plates, shapes, ndims and lengths", "why_tests_cant": "Tests build nodes of a few shapes with up to two or three plate axes; the claim is that the plates are the least ones that fit, for any number of axes and any combination of unit axes, and that every combination that does not fit is refused.", "anchors": ["bayespy/inference/vmp/nodes/node.py: Node.__init__, Node._total_plates", "bayespy/inference/vmp/nodes/expfamily.py: ExponentialFamily.__init__, _constructor", "bayespy/inference/vmp/nodes/gaussian.py: GaussianARD._constructor, Gaussian._constructor, GaussianGamma._constructor, GaussianWishart._constructor, WrapToGaussianGamma, WrapToGaussianWishart", "bayespy/inference/vmp/nodes/gaussian_markov_chain.py: GaussianMarkovChain._constructor, VaryingGaussianMarkovChain._constructor, SwitchingGaussianMarkovChain._constructor", "bayespy/inference/vmp/nodes/categorical_markov_chain.py: CategoricalMarkovChain._constructor", "bayespy/inference/vmp/nodes/mixture.py: Mixture._constructor"]}
{"id": "C64", "title": "MultiMixture over several axes", "statement": "MultiMixture(thetas, ...) mixes over the last axes of the mixed distribution's plates, the i-th theta choosing along the i-th of them: it is accepted exactly when each theta has as many categories as its axis is long, and the node then has the given plates, or the smallest ones, to which every theta broadcasts and to which the parents of the mixed distribution broadcast with all mixed axes added; otherwise ValueError is raised.  With one theta it is the same node as Mixture.", "quantifier": "every number of thetas, all plates of the thetas and of the parents of the mixed distribution, all given plates", "why_tests_cant": "There is no test of MultiMixture; a test would try two thetas of fixed plates, while the nesting of constructors and the unit axes added to each theta must be right for every number of thetas.", "anchors": ["bayespy/inference/vmp/nodes/mixture.py: MultiMixture, Mixture._constructor, MixtureDistribution.plates_from_parent", "bayespy/utils/misc.py: zipper_merge"]}
{"id": "C65", "title": "Array helpers keep every element in its place", "statement": "misc.flatten_axes(X, n1, ..., nk) turns each of the last k groups of axes into one axis read row by row and misc.reshape_axes is its inverse, with ValueError when the axes do not fit; a group of no axes is a unit axis.  misc.nested_iterator yields every position of an array exactly once in row-major order.  misc.zipper_merge alternates the elements of the lists until the shortest one ends.  misc.block_banded(D, B) has the blocks of D on the diagonal, those of B and their transposes beside it and zeros elsewhere, and raises ValueError exactly when the blocks do not fit together.", "quantifier": "arrays of every shape, every grouping of axes, every number and length of lists, every number and size of blocks", "why_tests_cant": "Tests compare a few literal arrays; a wrong offset, a wrong cut of the axes or a missed boundary only shows for other numbers of groups or for blocks of different sizes.", "anchors": ["bayespy/utils/misc.py: flatten_axes, reshape_axes, nested_iterator, zipper_merge, block_banded"]}
{"id": "C66", "title": "The terms of the lower bound by node, and the user data of a saved file", "statement": "For every finished iteration the terms that get_iteration_by_nodes() gives for the nodes of the model add up to the recorded lower bound of that iteration.  After a successful update() the last terms are the ones compute_lowerbound_terms() computes, and those add up to compute_lowerbound(); asked for some nodes it gives one term for each of them.  Loading a saved file keeps the terms and the bounds together.  save() writes every item of the user data and load_user_data() gives it back.", "quantifier": "every model, every history of calls to the engine, every choice of nodes, every file saved by the engine", "why_tests_cant": "Whether the table of terms stays in step with the bounds depends on the whole history of calls: a term written at the wrong place, or a table extended at the wrong time, only shows in some orders of update, append and load.", "anchors": ["bayespy/inference/vmp/vmp.py: compute_lowerbound_terms, loglikelihood_lowerbound, get_iteration_by_nodes, save, load, load_user_data"]}
{"id": "C67", "title": "Choose takes each plate element from the node that z names", "statement": "Choose(z, x0, ..., xk) has the plates of z and of the nodes broadcast together; it is refused with ValueError when they do not broadcast, when there are no nodes or when z has another number of categories.  Element p of its moments is the average of the elements p of the moments of the nodes with the probabilities of z at p: the element of node z[p] when z is given as integers.  Each node gets the message from the children weighted with its probability, and their mask.", "quantifier": "every number of nodes, plates and variable axes of every number and length, moments that are broadcast, nodes with fewer plates than the result, all values", "why_tests_cant": "Choose builds three nodes on top of each other, each with its own handling of broadcast axes; a test fixes one combination of plates, and most of them hide an axis taken from the wrong side.", "anchors": ["bayespy/inference/vmp/nodes/gate.py: Choose, Gate", "bayespy/inference/vmp/nodes/concatenate.py: Concatenate", "bayespy/inference/vmp/nodes/node.py: Slice"]}
{"id": "C68", "title": "Rotating a Gaussian array along one of its axes or plates", "statement": "Rotating a Gaussian array variable by a matrix R along one of its axes (counted from either end) multiplies that axis of the mean by R and both copies of that axis of the second moment by R, and leaves the other axes and the plates alone; an axis out of range is a ValueError.  Transposing a covariance array swaps its two groups of axes.  The product of a covariance-like array with a variable is the sum over all positions of the variable.  rotate_plates gives parameters whose mean is exactly the mean rotated by Q along the plate axis, and divides the precision at plate k by the square of the sum of column k of Q.", "quantifier": "arrays with any plates and any number of variable axes of any lengths, every axis in both numberings, rectangular R, plates that are broadcast in the product, all real values", "why_tests_cant": "The axes are found by counting from the end with the number of variable axes added or not; with equal lengths or a single axis a wrong count gives an array of the right shape.", "anchors": ["bayespy/inference/vmp/nodes/gaussian.py: rotate_mean, rotate_covariance, transpose_covariance, matrix_dot_vector, array_to_vector, array_to_matrix, vector_to_array, GaussianARD.rotate_plates"]}
{"id": "C69", "title": "rotate_matrix rotates a vector variable as a matrix from both sides", "statement": "After rotate_matrix(R1, R2) on a Gaussian vector whose elements, read row by row, form a matrix X, the distribution is that of R1 X R2': its mean is R1 M R2' when M was the mean, its covariance is the covariance of X multiplied by R1 and R2 on the rows and columns of both copies.  The shapes and the plates do not change.  It is refused with NotImplementedError for variables with another number of axes.", "quantifier": "every number of rows and columns, any plates (also different for the two parameters), all real matrices with inverses, all parameters", "why_tests_cant": "Four successive products on the axes of a reshaped array use the inverses and their transposes; with symmetric or equal matrices a wrong axis or transposition is not visible in a test.", "anchors": ["bayespy/inference/vmp/nodes/gaussian.py: Gaussian.rotate_matrix", "bayespy/utils/linalg.py: dot"]}
{"id": "C70", "title": "Rotating a Gaussian vector by R and its plates by Q", "statement": "Gaussian.rotate(R) gives parameters whose mean is R times the old mean on every plate and whose precision is inv(R)' times the old one times inv(R).  With Q, which needs exactly one plate axis (otherwise ValueError), the mean of plate m becomes R times the combination of the means of all plates with row m of Q, and the precision of plate m is first divided by the square of the sum of column m of Q.  rotate_matrix with Q gives the mean R1 X R2' of the same combination X.  Variables with another number of axes are refused with NotImplementedError.", "quantifier": "every number of plates and every length of the vectors, all real Q, R and inverses, all parameters; any plates when Q is not given", "why_tests_cant": "The plate rotation replaces both parameters from the old mean and the new precision and is followed by another rotation; the order and the side of each transpose matter only for matrices that are not symmetric.", "anchors": ["bayespy/inference/vmp/nodes/gaussian.py: Gaussian.rotate, Gaussian.rotate_matrix", "bayespy/utils/linalg.py: dot, mvdot"]}
{"id": "C71", "title": "The covariance that str() shows for a Gaussian node", "statement": "str() of a Gaussian node shows, for every plate, the covariance of the elements of the variable: the second moment minus the product of the means.  So does str() of a GaussianARD node whose variable is a vector.  It should do so for every GaussianARD node, but for a scalar variable it does not: without plates str() raises ValueError, and with n plates it shows an n x n matrix made of products of the means of different plates, which can hold negative numbers off the diagonal.  For a variable that is an m x n matrix (m and n different and neither of them 1) str() raises ValueError.  initialize_from_mean_and_covariance(mu, Cov) gives moments whose mean is mu and whose covariance is Cov.  These rely on linalg.outer keeping the axes of its two arguments together, (..., m, n, m, n), which is not the order (..., m, m, n, n) that its documentation gives.", "quantifier": "every number of plates and, except for GaussianARD's str(), every shape of the variable; all real moments, means and covariances", "why_tests_cant": "The outer product is built by reshaping and broadcasting, so a wrong number of variable axes still gives an array for most shapes; tests look at a few shapes and do not compare what is printed.", "anchors": ["bayespy/inference/vmp/nodes/gaussian.py: Gaussian.__str__, GaussianARD.__str__, GaussianARD.initialize_from_mean_and_covariance", "bayespy/utils/linalg.py: outer"]}
{"id": "C72", "title": "Log-determinants of triangular matrices", "statement": "linalg.logdet_chol(U) of a collection of upper triangular matrices with positive diagonals gives an array with one number for each matrix: the logarithm of the determinant of U'U.  linalg.logdet_tri(R) of one upper or lower triangular matrix without zeros on its diagonal gives the logarithm of the absolute value of its determinant.  For a collection of matrices logdet_tri should give one number for each, but it gives a single number, the sum over all the matrices.", "quantifier": "every number of plate axes and matrices, every size of the matrices, all real elements", "why_tests_cant": "The determinant is defined by all elements of the matrix while the code reads only the diagonal; that these agree for every size is an induction, and the missing axis argument does not show on a single matrix.", "anchors": ["bayespy/utils/linalg.py: logdet_chol, logdet_tri"]}
{"id": "C73", "title": "dist_haversine is the distance along the sphere", "statement": "dist_haversine(c1, c2, radius) gives an array whose element (i, j) is the radius times the angle, between 0 and pi, from point i of c1 to point j of c2 as seen from the centre of the sphere, for latitudes and longitudes in degrees.  The square roots it takes are of numbers between 0 and 1.  The distance is the same in both directions, lies between 0 and pi times the radius, and is zero exactly when the two are the same point of the sphere.", "quantifier": "every number of points in c1 and in c2, all real latitudes, longitudes and radii (positive for the last sentence)", "why_tests_cant": "A test compares a few known distances; that the formula agrees with the angle everywhere, including opposite points where the quotient of arctan2 is not defined and longitudes that wrap around, is a statement about all real numbers.", "anchors": ["bayespy/utils/misc.py: dist_haversine"]}
