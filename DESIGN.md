# Formal model of bayespy in Coq 8.16: design

This file says what is modelled, how each property of `properties.jsonl` is
stated and proved, and what has to be trusted.

## Approach

* Shallow embedding: each modelled Python function becomes a Gallina function
  that follows the source branch by branch.  Python exceptions are values
  (`Err ValueError`, ...).  Every definition carries a comment with file and
  lines in /repo, and says where it simplifies.
* NumPy is not modelled from its source.  `NumPy.v` gives the array
  primitives their documented meaning (shape + index function, broadcasting,
  `sum`, `einsum`, `transpose`, basic indexing, ...).  It is part of the
  trusted base.
* Numbers are mathematical reals (Coq's `R`), not IEEE doubles.  Rounding and
  overflow are not modelled.  Where the code depends on infinities or nan, they
  are explicit (`ExtReal.v`, `option R` in `Engine.v` and `Optimize.v`).
* Model files contain no proofs of properties, `Spec*.v` files contain the
  independent specifications, `P*.v` files contain the property theorems, each
  followed by `Print Assumptions` and by an `Example` that instantiates the
  hypotheses with a non-trivial case.  The other files are lemmas.
* Where the unchanged code violates the property, the theorem is named
  `..._refuted` and gives the witness, next to the strongest true part, whose
  name ends in `_partial` when it is less than the property.
* Dense matrices of mathcomp (determinant, inverse, block matrices) are used in
  proofs about linear algebra.  `RStruct.v` makes Coq's reals a mathcomp field,
  `MatBridge.v` relates index functions to mathcomp matrices.
* Theorems are tested against edited models ("seeded bugs").  Every run is in
  `seeded/LOG.jsonl`.

## Layers

| model | specification | theorems | code |
|---|---|---|---|
| Shapes | SpecShapes | PShapes | shape functions of `utils/misc.py`, `Node._total_plates` |
| NumPy, MiscArray | SpecArray | PArrays | `sum_multiply`, `sum_multiply_to_plates`, `sum_to_shape`, `repeat_to_shape`, `moveaxis`, ...; `Node._message_to_parent`, `_mask_to_parent`, `_compute_message` |
| Diag | SpecArray | PDiag | `make_diag`, `get_diag` |
| Engine | SpecEngine | PEngine | `VB`: constructor, lookup, `update`, convergence, autosave, `save`, `load`, with a file system that can crash |
| Optimize | in POptimize | POptimize | `VB.optimize`, `VB.pattern_search` |
| Numeric, ExtReal | SpecNumeric | PNumeric | `normalized_exp`, `logsumexp`, `random.intervals`, `random.categorical`, `find_set_index` |
| Graph | SpecGraph | PGraph | construction, links, masks, deletion, id lists |
| Converter | SpecConverter | PConverter | `Moments.add_converter`, `get_converter` |
| ExpFam | SpecExpFam, SpecUpdate | PExpFam, PUpdate | `stochastic.py`, `expfamily.py` |
| Families, FamilyDist | SpecFamilies, SpecFamilyDist | PFamilies, PFamilies2, PFamilyDist | gamma, poisson, binomial, bernoulli, dirichlet, beta, multinomial, categorical |
| Markov | SpecMarkov | PMarkov | `random.alpha_beta_recursion`, categorical Markov chain |
| Network, FamilyNet | SpecNetwork, SpecFamilyNet | PNetwork, PFamilyNet | messages and updates in a network, `VB.update`, `compute_lowerbound` |
| DetNet, GaussNet, DotNet, AddNet, MixtureNet, MarkovNet, PathNet, GaussModel | SpecDetNet, SpecGaussNet, SpecGaussModel | PDetNet, PGaussNet, PGaussFactor, PGaussMixture, PGaussHidden, PGaussPath | networks with deterministic nodes; models of Gaussian, gamma, Wishart and count nodes, the converters between them, SumMultiply, Add, ConcatGaussian, mixtures and categorical and Gaussian Markov chains |
| PlateNodes | SpecPlateNodes, SpecIndex | PSlice | Slice |
| TakeConcat, TileNode, AddAxis, Gate | SpecIndex, SpecArray | PTake, PConcat, PTile, PAddAxis, PGate | Take, Concatenate, tile, AddPlateAxis, Gate |
| Linalg | SpecLinalg | LinalgLemmas | Cholesky and solvers of `utils/linalg.py` |
| Gaussian, GaussianDist, GaussianGrad | SpecGaussian, SpecGradient | PGaussian, PGaussian2, PGaussianDist, PGaussianGrad | Gaussian, GaussianARD, GaussianGamma, Wishart distributions |
| RotateARD | SpecRotateARD | PRotateARD | `transformations.py` RotateGaussianARD (value and gradient of the bound) |
| Rotation | in PRotation | PRotation | `transformations.py` RotationOptimizer, RotateGaussian(ARD) |
| BlockBanded | SpecBlock | PBlockBanded | `linalg.block_banded_solve` |
| GaussMarkov, GaussMarkovDist | SpecGaussMarkov | PGaussMarkov, PGaussMarkov2, PGaussMarkovDist | Gaussian Markov chain |
| VaryingMarkov | SpecGaussMarkov | PVaryingMarkov | Gaussian Markov chains with varying or switching dynamics |
| Mixture | SpecMixture | PMixture | MixtureDistribution |
| Dot | SpecDot | PDot | SumMultiply, Dot |
| AddNode | SpecAdd | PAdd | Add, ConcatGaussian |
| Families, Gaussian, GaussMarkov, Markov | SpecValues | PValues | moments of observed, initial and constant values |
| GaussToGauss | (in the P file: `same_index`) | PGaussToGauss | GaussianToGaussian |
| MaxLik | SpecMaxLik | PMaxLik | ml.py: MaximumLikelihood, Function, DeltaInstanceConverter; WishartMoments with gradient |
| RotateChain | SpecRotateChain | PRotateChain | `transformations.py` RotateGaussianMarkovChain (bound and gradient of the states, rotation of the dynamics); `gaussian.py` rotate_plates |
| PlateRotate | SpecPlateRotate | PPlateRotate | `transformations.py` RotateGaussianARD with a plate rotation (475-1100), RotateGaussianMarkovChain.bound (1386-1425) |
| RandomDraw | SpecRandomDraw | PRandomDraw, PRandomDraw2 | `random()` of the nodes; `utils/random.py` samplers |
| GammaMarginal | SpecGammaMarginal | PGammaMarginal | `gaussian.py` GaussianGamma marginals (2010-2142); `utils/random.py` Student-t helpers |
| Rejected | SpecRejected | PRejected | `expfamily.py`, `stochastic.py`, `node.py`, `constant.py`: the state after an exception |
| ConstNode | SpecConstNode | PConstNode | node.py, constant.py, from_values of the moments classes |
| Construct | SpecConstruct | PConstruct | the `_constructor` methods of all stochastic nodes, `Node.__init__` |
| MultiMixture | SpecConstruct | PMultiMixture | mixture.py: `MultiMixture`; misc.py: `zipper_merge` |
| ArrayTools | SpecArrayTools | PArrayTools | misc.py: `flatten_axes`, `reshape_axes`, `nested_iterator`, `zipper_merge`, `block_banded` |
| EngineQueries | SpecEngine | PEngineQueries | vmp.py: `compute_lowerbound_terms`, `get_iteration_by_nodes`, `load_user_data` |
| Choose | SpecPlateNodes | PChoose | gate.py: `Choose` |
| GaussArrays | SpecArrayTools | PGaussArrays | gaussian.py: `rotate_mean`, `rotate_covariance`, `transpose_covariance`, `array_to_vector`, `array_to_matrix`, `vector_to_array`, `matrix_dot_vector`, `rotate_plates` on arrays |
| MatrixRotation | SpecArrayTools | PMatrixRotation | gaussian.py: `Gaussian.rotate_matrix`; linalg.py: `dot` of two arrays |
| VectorRotation | SpecArrayTools | PVectorRotation | gaussian.py: `Gaussian.rotate` (natural parameters), `Gaussian.rotate_matrix` with `Q` |
| GaussPrint | SpecArrayTools | PGaussPrint | gaussian.py: `Gaussian.__str__`, `GaussianARD.__str__`, `GaussianARD.initialize_from_mean_and_covariance` (the moments) |
| LogDet | SpecArrayTools, SpecLinalg | PLogDet | linalg.py: `logdet_chol`, `logdet_tri` |
| Haversine | SpecHaversine | PHaversine | misc.py: `dist_haversine` |

## Per property: what is modelled and how it is proved

Status and remarks are those of MANIFEST.json.

### C01 Broadcasted shape is NumPy's broadcasting (proved)

* Model: `broadcasted_shape`, loop by loop
* Proof: induction on the list of shapes with a per-axis accumulator, against the per-axis rule of NumPy
* Theorems: `C01_broadcasted_shape_is_numpy`, `C01_broadcasted_shape_raises_iff_clash`

### C02 Plates do not depend on the order or grouping of parents (proved)

* Model: same
* Proof: from the declarative reading of C01: permutations and grouping
* Theorems: `C02_plates_order_independent`, `C02_plates_idempotent`, `C02_plates_grouping_independent`

### C03 Explicit plates are accepted iff every parent broadcasts into them (proved)

* Model: `Node._total_plates`
* Proof: from C01 and C04
* Theorems: `C03_explicit_plates_accepted_iff`, `C03_default_plates_least`

### C04 is_shape_subset is the broadcast order (proved)

* Model: `is_shape_subset`
* Proof: per-axis characterisation; reflexive, transitive, antisymmetric up to leading unit axes
* Theorems: `C04_subset_is_broadcast_order`, `C04_subset_partial_order`

### C05 Broadcasting multiplier counts the repeats (proved)

* Model: `broadcasting_multiplier`
* Proof: induction over aligned axes; counts the elements of each fibre
* Theorems: `C05_multiplier_counts_elements`, `C05_multiplier_scales_sum`, `C05_multiplier_raises_iff`

### C06 sum_multiply is multiply-then-sum (partial)

* Model: `sum_multiply`, `sum_product` over an einsum primitive
* Proof: re-indexing of multi-index sums
* Theorems: `C06_product_array_is_numpy_product`, `C06_sum_multiply_is_multiply_then_sum`, `C06_sum_multiply_raises`, `C06_scalar_kept_axis_refuted`
* Remark: Proved for every argument list and axis list; the documented integer form of the kept axis (sumaxis=False) raises TypeError and is refuted.

### C07 Plate summation equals the fully expanded sum (proved)

* Model: `sum_multiply_to_plates`
* Proof: axis-wise fibre sums
* Theorems: `C07_sum_multiply_to_plates_is_expanded_sum`, `C07_sum_multiply_to_plates_raises`

### C08 Message routine equals the expanded message (partial)

* Model: `Node._message_to_parent`, `_mask_to_parent`, `_compute_message`
* Proof: from C07 and a general reading of einsum (EinsumGen, DotEinsum)
* Theorems: `C08_message_to_parent_is_masked_sum`, `C08_mask_to_parent_is_any`, `C08_compute_message`, `C08_compute_message_empty_refuted`
* Remark: Node._message_to_parent (all plates), Node._mask_to_parent and Node._compute_message (plates of non-zero length). Refuted for plates of length zero: C08_compute_message_empty_refuted. SumMultiply overrides _message_to_parent and ignores the plates multiplier, see C46_plates_multiplier_refuted.

### C09 sum_to_shape and repeat_to_shape (partial)

* Model: `sum_to_shape`, `repeat_to_shape`
* Proof: fibre sums; counterexamples for the remaining inputs
* Theorems: `C09_sum_to_shape_is_fibre_sum_partial`, `C09_sum_to_shape_raises`, `C09_sum_to_shape_shape_refuted`, `C09_repeat_to_shape_is_broadcast_copy`, `C09_repeat_to_shape_raises`, `C09_repeat_and_sum_are_adjoint`
* Remark: Proved when the target shape has at most as many axes as the array and no zero-length axis has to become one; refuted otherwise.

### C10 moveaxis moves exactly one axis (proved)

* Model: `moveaxis` with Python slice arithmetic
* Proof: case analysis on positions
* Theorems: `C10_moveaxis_moves_one_axis`, `C10_moveaxis_raises`

### C11 get_diag inverts make_diag (partial)

* Model: `make_diag`, `get_diag`
* Proof: index computation; counterexample for kept axes
* Theorems: `C11_get_diag`, `C11_make_diag`, `C11_roundtrip`, `C11_kept_axes_refuted`
* Remark: Proved for ndim_from = ndim_to = 0 (round trip, zero off the diagonal) and get_diag for every ndim_to; with ndim_from > 0 make_diag loses off-diagonal entries (C11_kept_axes_refuted).

### C12 Slicing a node: plates (proved)

* Model: `Slice.__init__`, index normalisation
* Proof: induction on the index list against a relational meaning of basic indexing
* Theorems: `C12_slice_plates`, `C12_more_ellipses`
* Remark: C12_slice_plates: the plates of X[...] are those of the selection for all integer/slice/None/Ellipsis index lists; invalid ones are rejected. C12_more_ellipses: later Ellipses are read as ':'.

### C13 Slicing a node: message is the adjoint of the moments (partial)

* Model: `Slice._compute_moments`, `_compute_message_to_parent`
* Proof: arithmetic of Python slices; adjointness by injectivity of the selection
* Theorems: `C13_slice_partial`, `C13_reversed_refuted`
* Remark: C13_slice_partial: moments are the selected elements and the message back is their adjoint, for all slices except those with a negative step running to the start (X[::-1]); C13_reversed_refuted shows the code rejects or misplaces the latter.

### C14 Take: message is the adjoint of taking (proved)

* Model: `Take`, `misc.put_simple`
* Proof: exchange of sums over indices
* Theorems: `C14_take`, `C14_out_of_range`, `C14_mask`
* Remark: C14_take: for every plate axis, shape of indices (with repetitions and negative indices), plates and dims: plates, moments, message as the sum over the selecting indices, and the adjoint identity. C14_out_of_range: indices outside the axis raise. C14_mask: a parent plate is used iff some index selecting it is.

### C15 Concatenate: moments, message and mask (partial)

* Model: `Concatenate`
* Proof: prefix sums of the lengths; mask path refuted
* Theorems: `C15_concatenate`, `C15_mask_partial`, `C15_mask_refuted`
* Remark: C15_concatenate: plates, moments and message of every parent, for any number of parents and axes. The mask is right for the last parent or a mask that does not vary along the axis (C15_mask_partial) and wrong otherwise (C15_mask_refuted).

### C16 Tiling a node is consistent (proved)

* Model: `_Tile`
* Proof: division with remainder on indices
* Theorems: `C16_tile`, `C16_mask`
* Remark: C16_tile: for every plates, tiles and dims, with broadcasting messages and moments: plates, repeated moments, message as the sum over the copies, adjoint identity. C16_mask: a parent plate is used iff one of its copies is. Tiles are positive and non-empty.

### C17 Adding a plate axis puts it where requested (partial)

* Model: `AddPlateAxis`
* Proof: index computation; plates and mask refuted
* Theorems: `C17_moments_and_message_partial`, `C17_plates_partial`, `C17_plates_refuted`, `C17_wrong_moments_refuted`, `C17_mask_refuted`
* Remark: False as stated: the declared plates always have the new axis last (C17_plates_refuted, C17_wrong_moments_refuted) and passing a mask raises NameError (C17_mask_refuted). Proved for all shapes: moments and message have the axis at the requested place (C17_moments_and_message_partial); the plates for to_plate=-1 (C17_plates_partial).

### C18 Gate and Choose (proved)

* Model: `Gate`
* Proof: bilinearity of the sum over clusters
* Theorems: `C18_gate_moments`, `C18_gate_message_x`, `C18_gate_message_z`, `C18_gate_mask`, `C18_gate_plates`
* Remark: Moments, both messages (with the linear-coefficient identities), masks and plates of Gate, for every plates, gated axis, number of components and variable axes, with broadcasting. The moments of X must have their variable axes in full and the message at least that many axes.

### C19 Mixture moments and messages (partial)

* Model: `MixtureDistribution`
* Proof: linearity; re-indexing for the cluster axis
* Theorems: `C19_mixture_parameters`, `C19_mixture_density`, `C19_message_z`, `C19_message_z_refuted`, `C19_message_parameter`, `C19_mixture_mask`, `C19_mixture_plates`, `C19_predictive_density`, `C19_predictive_density_refuted`
* Remark: Proved for every cluster axis, number of clusters, plates (with broadcasting) and list of moment arrays: natural parameters and cgf are the weighted sums, consistency of the expected log-density, messages to the parameters, masks and plates. The message to z and the predictive density are proved for clusters on the last plate axis (the default) and false for another cluster axis: C19_message_z_refuted (raises, or adds the cgf of the wrong component), C19_predictive_density_refuted. The mixed distribution enters through its outputs, with a one-to-one plate map for the parameter messages.

### C20 Messages are the coefficients of the expected log-density (partial)

* Model: message, phi and cgf functions of every distribution
* Proof: ring and sum identities per plate
* Theorems: `C20_gamma`, `C20_poisson`, `C20_binomial`, `C20_dirichlet`, `C20_multinomial`, `C20_gmc_initial`, `C20_gmc_dynamics`, `C20_gmc_inputs`, `C20_gaussian`, `C20_gaussian_ard`, `C20_gaussian_gamma`, `C20_wishart`, `C20_wrap_gaussian_gamma`, `C20_wrap_gaussian_wishart`, `C20_markov_chain`, `C20_mixture_assignments`, `C20_mixture_parameter`, `C20_varying_B`, `C20_varying_S`, `C20_switching_B`, `C20_switching_Z`, `C20_dynamic_chain_parents_refuted`
* Remark: Per plate, for Gamma, Poisson, Binomial/Bernoulli, Dirichlet/Beta, Multinomial/Categorical, the categorical Markov chain, Gaussian, GaussianARD, GaussianGamma, Wishart, the Gaussian Markov chain (initial state, dynamics, inputs) and the wrappers that join a mean and a precision. The Mixture passes the identity of the mixed distribution on to its parameters and satisfies it for the assignments (clusters on the last axis). VaryingGaussianMarkovChain (B and S) and SwitchingGaussianMarkovChain (B and Z) with noise precisions that do not depend on the time. Refuted for the remaining parents of these two (mu, Lambda, nu): the code raises NotImplementedError. The message to the degrees of freedom of a Wishart node is not implemented in the code either.

### C21 Node equations agree with the textbook density (partial)

* Model: phi, u, f, g of every distribution
* Proof: real algebra with ln and exp against textbook densities; mathcomp determinants
* Theorems: `C21_poisson`, `C21_gamma`, `C21_binomial`, `C21_bernoulli`, `C21_dirichlet`, `C21_beta`, `C21_multinomial`, `C21_categorical`, `C21_gaussian_markov_chain`, `C21_gmc_nu_shape_refuted`, `C21_gaussian`, `C21_gaussian_ard`, `C21_gaussian_gamma`, `C21_wishart`, `C21_markov_chain`, `C21_mixture`, `C21_varying`, `C21_switching`, `C21_switching_selection`, `C21_dynamic_chain_time_dependent_refuted`
* Remark: Per plate, for Gamma, Poisson, Binomial/Bernoulli, Dirichlet/Beta, Multinomial/Categorical, the categorical Markov chain, Gaussian, GaussianARD, GaussianGamma, Wishart and the Gaussian Markov chain with inputs. Refuted for a Gaussian Markov chain whose noise precision has shape (1,) or () although the constructor accepts it. Mixture with known assignments: the log-density of the selected component. VaryingGaussianMarkovChain and SwitchingGaussianMarkovChain with noise precisions that do not depend on the time; refuted when they do: the constructors accept plates (N-1, D) but the natural parameters cannot be computed. C21_switching_selection: the message to the selections is the log-density of the transition under each matrix.

### C22 Moments are the gradient of the log-normaliser (proved)

* Model: compute_moments_and_cgf
* Proof: derivatives, along every direction for matrix parameters
* Theorems: `C22_poisson`, `C22_binomial`, `C22_gamma`, `C22_dirichlet`, `C22_multinomial`, `C22_gaussian_markov_chain`, `C22_gaussian`, `C22_gaussian_ard`, `C22_gaussian_ard_scalar`, `C22_gaussian_gamma`, `C22_wishart`, `C22_markov_chain`
* Remark: Per plate; digamma is assumed to be the derivative of gammaln. Covered: Gamma, Poisson, Binomial/Bernoulli, Dirichlet/Beta, Multinomial/Categorical, the categorical Markov chain, and, as derivatives in every (symmetric) direction, Gaussian, GaussianARD, GaussianGamma, Wishart and the Gaussian Markov chain.

### C23 Softmax: normalized_exp (proved)

* Model: `normalized_exp`, `logsumexp`
* Proof: real algebra with explicit infinities
* Theorems: `C23_logsumexp`, `C23_normalized_exp`, `C23_normalized_exp_zero_weights`, `C23_shift_invariant`, `C23_no_possible_value`

### C24 Updating a node never decreases the lower bound (proved)

* Model: `ExponentialFamily._update_phi_from_parents`, `_update_distribution_and_lowerbound`
* Proof: Gibbs' inequality per family, summed over plates, masks and multipliers
* Theorems: `C24_poisson`, `C24_binomial`, `C24_gamma`, `C24_dirichlet`, `C24_multinomial`, `C24_poisson_node`, `C24_multinomial_node`, `C24_binomial_node`, `C24_gamma_node`, `C24_dirichlet_node`, `C24_markov_chain_node`, `C24_gaussian_markov_chain_node`, `C24_gaussian_node`, `C24_gaussian_ard_node`, `C24_scalar_ard_node`, `C24_gaussian_gamma_node`, `C24_wishart_node`, `C24_markov_chain`, `C24_update`, `C24_update_unique`, `C24_update_consistent`
* Remark: Proved at the level of nodes: C24_update (an update maximises contribution + <messages, u> over all states of the family, for all plates, masks, partial observations, plate multipliers and annealings), C24_update_unique (the maximiser is unique), C24_update_consistent; the *_node theorems discharge the Gibbs hypothesis for Poisson, Binomial/Bernoulli, Multinomial/Categorical, Gamma, Dirichlet/Beta, CategoricalMarkovChain, Gaussian, GaussianARD, GaussianGamma, Wishart and GaussianMarkovChain. Special functions enter through stated convexity facts. A Mixture node hands compute_moments_and_cgf to the mixed distribution (mixture.py 247-251), so the theorem of that family applies. VaryingGaussianMarkovChain and SwitchingGaussianMarkovChain inherit compute_moments_and_cgf from the same template as GaussianMarkovChain, so C24_gaussian_markov_chain_node, which holds for every distribution with these moments, applies.

### C25 Any schedule of updates keeps the bound monotone (partial)

* Model: networks of stochastic and deterministic nodes, schedules of updates
* Proof: induction on the schedule from C24 and the message identities; deterministic nodes by an invariant on which moments, messages and natural parameters each node can have
* Theorems: `C25_deterministic`, `C25_models`, `C25_gaussian_models`, `C25_network`
* Remark: C25_network: any network of exponential-family nodes whose families satisfy the conjugacy identity and Gibbs' inequality, with plates, plate multipliers, masks, partial observations and any schedule. C25_models: closed models of Poisson, binomial/Bernoulli, multinomial/categorical, gamma/exponential and Dirichlet/Beta nodes with constants. C25_deterministic: the same for networks that also contain deterministic nodes, whose moments are computed on demand and whose messages pass on those of their children. C25_gaussian_models: closed models of GaussianARD (scalar and vector), Gaussian, GaussianGamma, Gamma, Wishart, the count families, constants, the converters that join a mean and a precision, SumMultiply/Dot of any number of Gaussian parents and constant arrays (factor models, regression), Add and ConcatGaussian, Categorical, and Mixture of any of these distributions over the last plate axis of its parameters (Gaussian and other mixture models), CategoricalMarkovChain and its states as the assignments of a mixture (hidden Markov models), GaussianMarkovChain with inputs and its states (linear state-space models); the updates never raise and the bound never decreases, for every schedule. gammaln and digamma are parameters that satisfy two convexity inequalities. Missing: Gaussian Markov chains with varying or switching dynamics, other cluster axes, gates and SumMultiply of Gaussian-gamma parents in the network; SumMultiply only when it has the plates multiplier of its Gaussian parents; distinct parents per node are assumed; no bias.

### C26 Observed plates are never changed by updates (proved)

* Model: `_set_moments`, `observe`, update, gradients
* Proof: invariant over histories of calls
* Theorems: `C26_observed_plates_fixed`, `C26_step`
* Remark: For every mask, value and history of update, initialise_from_*, set_parameters and gradient steps (including calls that raise).

### C27 Masked plates contribute nothing (proved)

* Model: `lower_bound_contribution`, messages
* Proof: exact formula and non-interference
* Theorems: `C27_bound_is_sum_over_mask`, `C27_masked_values_do_not_matter`, `C27_masked_message`, `C27_masked_moments_do_not_reach_parents`
* Remark: Exact per-plate formula of lower_bound_contribution and non-interference; for messages, non-interference of the masked plates for every message function computed plate by plate.

### C28 Mask = has an observed descendant (proved)

* Model: mask propagation in the graph
* Proof: induction over the DAG and over histories
* Theorems: `C28_mask_is_observed_descendant`, `C28_observe_succeeds`, `C28_default_nodes_faithful`, `C28_default_graph`
* Remark: For every history of constructions, observations and removals whose nodes map masks faithfully; nodes with the default plate functions are proved faithful. Stale masks after delete are C30.

### C29 Parent/child links stay consistent (partial)

* Model: links between nodes
* Proof: invariant over histories
* Theorems: `C29_links_consistent`, `C29_acyclic`, `C29_failed_construction_refuted`
* Remark: Consistency and acyclicity hold after every operation that does not raise; a constructor that raises on plate checking leaves a dangling child (C29_failed_construction_refuted).

### C30 Deleting a node detaches it (partial)

* Model: `delete`
* Proof: invariant; counterexamples
* Theorems: `C30_delete_with_children_refuted`, `C30_delete_deterministic_refuted`, `C30_delete_childless_partial`, `C30_delete_leaves_stale_mask_refuted`
* Remark: Proved for childless stochastic nodes; false for nodes with children and for deterministic nodes (delete raises), and the parents' masks stay stale (three _refuted theorems).

### C31 Dependent parents are rejected (proved)

* Model: id lists of deterministic nodes
* Proof: reachability in the DAG
* Theorems: `C31_dependent_parents_rejected`, `C31_concatenate_accepts_any`
* Remark: Rejected iff two parents of a deterministic node depend on a common stochastic node; the Concatenate exception is shown separately.

### C32 Moment converters are found when they exist (partial)

* Model: `get_converter`
* Proof: breadth-first search invariant
* Theorems: `C32_search_partial`, `C32_sound`, `C32_terminates`, `C32_composite_converts`, `C32_grandparent_converter_missed_refuted`, `C32_registration`
* Remark: Termination and soundness for every hierarchy; existence and minimality when each converter of an ancestor is also in the table of the class or of a direct base (true for all registrations in BayesPy); false in general (C32_grandparent_converter_missed_refuted).

### C33 Iteration bookkeeping (proved)

* Model: `VB.update`, `_end_iteration_step`
* Proof: induction over iterations
* Theorems: `C33_history_kept`, `C33_update_runs`

### C34 Convergence is reported only when the bound has settled (partial)

* Model: same
* Proof: case analysis of the test; counterexample
* Theorems: `C34_stops_only_if_settled`, `C34_decrease_reported_refuted`
* Remark: Proved: stopping early or reporting convergence implies a relative change below the tolerance. The second half of the property is false of the code: C34_decrease_reported_refuted shows that every decrease is reported as convergence.

### C35 Node lookup by name is unambiguous (partial)

* Model: `VB.__init__`, `__getitem__`
* Proof: induction on the node list; counterexample
* Theorems: `C35_duplicate_names_accepted_refuted`, `C35_lookup_partial`
* Remark: False as stated: the uniqueness check compares two lengths that are always equal (C35_duplicate_names_accepted_refuted). C35_lookup_partial gives what holds: correct lookup, and uniqueness when names are distinct.

### C36 Save then load restores the model (partial)

* Model: `save`, `load` of nodes and engine over an abstract HDF5 file
* Proof: round trip
* Theorems: `C36_roundtrip`, `C36_continue`, `C36_subset_only`, `C36_autosave_refuted`, `C36_subset_then_update_refuted`
* Remark: Round trip, exact continuation and subset loading with nodes_only=True are proved. The default subset load and the autosave break the property (two _refuted theorems).

### C37 A crash during save does not lose the previous save (partial)

* Model: same with crash points
* Proof: counterexample and what remains true
* Theorems: `C37_killed_partial`, `C37_crash_loses_save_refuted`
* Remark: False as stated (C37_crash_loses_save_refuted). C37_killed_partial: the file left is the old one or a strict prefix of the new content, other files are untouched.

### C38 Autosave schedule (proved)

* Model: autosave in `_end_iteration_step`
* Proof: induction over iterations
* Theorems: `C38_schedule`

### C39 Gradient step of length one is an update (proved)

* Model: `gradient_step`, Riemannian gradient
* Proof: algebra over arrays
* Theorems: `C39_step_interpolates`, `C39_unit_step_is_update`
* Remark: Per node, at VB annealing 1; update() skips a fully observed node while gradient_step does not, hence the hypothesis that some plate is unobserved.

### C40 Optimisation never accepts a worse bound (partial)

* Model: `VB.optimize`, `pattern_search` over abstract node operations
* Proof: induction on iterations; counterexamples with concrete nodes
* Theorems: `C40_optimize_partial`, `C40_gradient_path`, `C40_optimize_first_step_refuted`, `C40_optimize_tolerance_refuted`, `C40_optimize_stale_refuted`, `C40_optimize_hangs`, `C40_pattern_search_partial`, `C40_pattern_search_refuted`
* Remark: False as stated. C40_optimize_partial: each bound optimize records is a number and not lower than the one recorded before it, up to the np.allclose tolerance of the code. Refuted: the first iteration is never checked, decreases within the tolerance pass, the comparison is with the last recorded bound and not with the one at the call. optimize may never return (C40_optimize_hangs). pattern_search: C40_pattern_search_partial (updates improve the bound, the collapsed nodes reach their optimum in one update, the minimiser returns a point not worse than 0); C40_pattern_search_refuted without the second condition. The nodes enter through the operations the methods call; minimize_scalar is an arbitrary adaptive strategy.

### C41 Euclidean gradient formulas (partial)

* Model: `compute_gradient`
* Proof: derivatives of the expected log-density
* Theorems: `C41_gamma`, `C41_multinomial`, `C41_dirichlet_refuted`, `C41_gaussian`, `C41_gaussian_ard`, `C41_gaussian_ard_scalar`, `C41_gaussian_ard_matrix_refuted`
* Remark: Gamma, Multinomial, Gaussian and GaussianARD with at most one axis proved; the Dirichlet formula is wrong (C41_dirichlet_refuted) and GaussianARD with two or more axes raises (C41_gaussian_ard_matrix_refuted).

### C42 Hidden Markov recursion is exact (proved)

* Model: `alpha_beta_recursion`
* Proof: induction over time against the enumeration of paths
* Theorems: `C42_alpha_beta`, `C42_states`, `C42_states_message`
* Remark: For one plate, any number of states and transitions, -inf log-weights allowed, provided some path is possible. The states node and its message are covered too.

### C43 Block-banded solver is exact (proved)

* Model: `block_banded_solve`
* Proof: block elimination, Schur complements in mathcomp, induction on the number of blocks
* Theorems: `C43_block_banded_solve`, `C43_block_banded_shapes`
* Remark: For every number N>=1 and size D>=1 of blocks, symmetric diagonal blocks: positive definite gives the diagonal and superdiagonal blocks of the inverse, the solution and the log-determinant; otherwise an exception; wrong shapes give ValueError. Per plate, over the reals; the broadcasting of plates is not modelled.

### C44 Gaussian moments from natural parameters (proved)

* Model: Gaussian moments, translation, rotation
* Proof: Cholesky over the reals, mathcomp inverse and determinant
* Theorems: `C44_gaussian_moments`, `C44_ard_moments`, `C44_ard_scalar_moments`, `C44_gaussian_translate`, `C44_ard_translate`, `C44_gaussian_rotate`, `C44_ard_rotate`, `C44_gaussian_gamma_moments`, `C44_gaussian_gamma_rotate`, `C44_gaussian_gamma_translate`
* Remark: Per plate, one variable axis (the code flattens the axes). Moments, translation and rotation of Gaussian, GaussianARD and GaussianGamma. LAPACK Cholesky is modelled by the textbook algorithm over the reals.

### C45 Rotating both factors leaves the product unchanged (proved)

* Model: `RotationOptimizer`
* Proof: matrix algebra
* Theorems: `C45_rotation`, `C45_rotate_gaussian_raises`
* Remark: For Gaussian and GaussianARD blocks with any bound function, any optimiser and any numpy inverse that returns an inverse. RotateGaussian blocks always raise NameError (C45_rotate_gaussian_raises): the optimiser only works with RotateGaussianARD blocks.

### C46 SumMultiply moments and messages (partial)

* Model: SumMultiply, Dot
* Proof: general einsum; expectations over finitely supported independent distributions
* Theorems: `C46_parse`, `C46_parse_exact`, `C46_dot_keys`, `C46_arguments`, `C46_moments`, `C46_messages`, `C46_messages_gaussian_gamma`, `C46_constant_parent`, `C46_plates_multiplier_refuted`
* Remark: SumMultiply and Dot: parsing of the key string (exactly the strings of the documented form are accepted, anything else raises), which arguments are accepted, moments (Gaussian and Gaussian-gamma, with constants) for any number of parents, keys and plates as expectations over independent parents, and messages as the coefficients of the parent moments in <m,u>. Refuted: the plates multiplier is ignored (C46_plates_multiplier_refuted); a parent with fixed values gets NotImplementedError. The messages theorem assumes that plates over which the mask is not broadcast are present in the message. Not modelled: _compute_function, get_parameters.

### C47 Add and ConcatGaussian moments and messages (proved)

* Model: Add, ConcatGaussian
* Proof: induction on the list of parents; expectations over finitely supported independent distributions
* Theorems: `C47_add_arguments`, `C47_concat_arguments`, `C47_add_moments`, `C47_concat_moments`, `C47_add_messages`, `C47_concat_messages`
* Remark: Add and ConcatGaussian, any number of parents, any plates broadcasting to P, any lengths (Add: any number of variable axes). Moments equal the first two moments of the sum / concatenation of independent draws from the parents; messages are the exact coefficients of the receiving parent's moments in the pairing with the child's message, provided the second part of the message is symmetric (which every Gaussian child's is). Arguments: Add accepts exactly two or more parents of one shape, ConcatGaussian exactly vectors.

### C48 random.intervals are disjoint (proved)

* Model: `random.intervals`
* Proof: induction on the list
* Theorems: `C48_intervals_disjoint`, `C48_raises_iff_no_room`, `C48_every_placement_possible`

### C49 Categorical sampling picks a possible category (partial)

* Model: `random.categorical`
* Proof: cumulative sums; boundary counterexample
* Theorems: `C49_categorical_raises_iff`, `C49_categorical_sample`, `C49_impossible_category_refuted`
* Remark: Sampling is proved correct for every uniform variate in (0,1]; numpy.random.rand may return exactly 0, and then an impossible first category can be chosen (C49_impossible_category_refuted). Rows summing to zero (0/0) are outside the theorem.

### C50 Set index lookup (proved)

* Model: `find_set_index`
* Proof: induction on the list
* Theorems: `C50_find_set_index`, `C50_set_bounds`, `C50_ceildiv`

### C51 Gaussian Markov chain smoothing is exact (proved)

* Model: GaussianMarkovChainDistribution.compute_moments_and_cgf
* Proof: C43 plus the full joint Gaussian of the chain
* Theorems: `C51_chain_moments`, `C51_chain_rotate`
* Remark: Per plate; any number and dimension of states, arbitrary contents of the uninitialised arrays inside the solver. Over the reals.

### C52 The rotation objective is the lower bound (proved)

* Model: `RotateGaussianARD.setup`, `_compute_bound`
* Proof: sums over plates of X grouped by the plates of alpha (fibres); the invariance of <phi,u> under a rotation; the shape of alpha cancels
* Theorems: `C52_rotation_objective`, `C52_rotation_terms`, `C52_optimizer_cost`, `C52_masked_refuted`
* Remark: For vector variables, without rotation of the plates and without a subset; X latent, without masked plates, plates multipliers and annealing; alpha fixed or a Gamma node whose only child is X. The total needs no assumption on the stored shape parameter of alpha; the separate terms need alpha to have been updated before. Refuted with masked plates of X (C52_masked_refuted): the objective counts them, the lower bound does not.

### C53 The gradient of the rotation objective is its derivative (partial)

* Model: `RotateGaussianARD._compute_bound` (gradient), `RotationOptimizer.rotate` (cost and its gradient)
* Proof: derivative of the sums, derivative of log|det| through the cofactors (mathcomp); for the second block the derivative along the curve of inverses (Sherman-Morrison)
* Theorems: `C53_gradient`, `C53_cost_gradient`, `C53_vector_prior_refuted`
* Remark: Proved when the shape a0 of the prior of alpha is one number (or alpha is fixed), in the scope of C52, for one block (C53_gradient) and for the cost of two blocks that the optimizer minimises (C53_cost_gradient, with numpy.linalg.inv and slogdet assumed exact). Refuted when a0 is an array over the elements of X (C53_vector_prior_refuted): a0 is multiplied along the columns instead of the rows, so the gradient of the off-diagonal elements is wrong.

### C54 A fixed value has one set of moments, however it enters the node (partial)

* Model: `compute_fixed_moments` of every Moments class against `compute_fixed_moments_and_f` of its distribution class
* Proof: case analysis of the two functions against small definitions of the sufficient statistics; Cholesky log-determinant for Wishart
* Theorems: `C54_observed_value`, `C54_initialise_as_observed`, `C54_joint_constants`, `C54_observe_rejects`, `C54_binomial_refuted`, `C54_category_chain_refuted`, `C54_initial_support_refuted`
* Remark: Proved for every family but Binomial/Bernoulli and CategoricalMarkovChain, per plate. Refuted for Binomial and Bernoulli (C54_binomial_refuted): BinomialMoments.compute_fixed_moments calls super() without the value, so initialize_from_value and initialize_from_random raise TypeError for every count. Refuted for CategoricalMarkovChain (C54_category_chain_refuted): observe raises NotImplementedError. Refuted for the support (C54_initial_support_refuted): negative Poisson counts and multinomial counts with the wrong total are accepted as initial values. For Dirichlet and Beta, observe tolerates a total within the tolerance of numpy.allclose and renormalises. Gamma at 0 (log 0 = -inf in the code) is outside the theorems, which take x > 0.

### C55 A Gaussian array can be used as plates of smaller Gaussians (partial)

* Model: `GaussianToGaussian` on whole arrays (plates, broadcasting)
* Proof: C11 for the diagonal, sums over index sets split into plate and variable part
* Theorems: `C55_plates`, `C55_moments`, `C55_message`, `C55_adjoint`, `C55_mask`, `C55_kept_axes_refuted`
* Remark: Plates, moments and mask for every split of the array (C55_plates, C55_moments, C55_mask); the message and its adjointness when every axis of the array becomes a plate (C55_message, C55_adjoint). Refuted when an axis is kept (C55_kept_axes_refuted): misc.make_diag loses the off-diagonal elements of the precision part of the message.

### C56 The gradient of a point-estimated parameter is the derivative of the lower bound (partial)

* Model: `MaximumLikelihood`, `Function`, `DeltaInstanceConverter` and `WishartMoments.compute_fixed_moments(gradient=...)` on a graph of any size
* Proof: derivative of the determinant along curves (Leibniz formula, mathcomp), reverse accumulation over the graph
* Theorems: `C56_gradient`, `C56_partial_derivatives`, `C56_ascent`, `C56_moments`, `C56_regularization_refuted`
* Remark: For parameters without regularization: C56_gradient, C56_partial_derivatives, C56_ascent, C56_moments, for any network of Function nodes; the children enter through their messages (linear in the Wishart moments). Refuted with a regularization: the bound contains it, the gradient does not (C56_regularization_refuted; a TODO in the code). Children that want other moments than Wishart's cannot be created: plates_from_shape exists for WishartMoments only.

### C57 Rotating a Markov chain moves its dynamics consistently (partial)

* Model: `RotateGaussianMarkovChain.setup/_compute_bound/bound/rotate` and `GaussianARD.rotate_plates`
* Proof: block inverse, expansion of the chain's log density under the rotation (trace identities), derivative along entries from C52/C53's calculus
* Theorems: `C57_dynamics`, `C57_objective`, `C57_gradient`, `C57_noise_refuted`
* Remark: Holds for the bound and gradient of the states (one plate of the chain) and for what rotate does to the dynamics: C57_dynamics, C57_objective, C57_gradient, with or without inputs, unit innovation noise. Refuted for a noise precision other than one (C57_noise_refuted: the bound ignores it). The code also refuses a plate rotation with a zero column sum; the bound of the rotator of A under the plate rotation is C58; the Varying/Switching variants are not covered.

### C58 Rotating a node together with its plates (partial)

* Model: `RotateGaussianARD` with a rotated plate axis (`_compute_bound`, gradients for R and Q, `bound`), `RotateGaussianMarkovChain.bound` with its dynamics
* Proof: entropy of a rotated plate, sums over the users of an element of alpha; derivative of the objective along a curve of (R, Q), applied to single entries and, for the chain, to the Sherman-Morrison inverse
* Theorems: `C58_objective`, `C58_singular`, `C58_gradient`, `C58_markov_objective`, `C58_markov_gradient`, `C58_prior_refuted`, `C58_prior_axes_refuted`
* Remark: Holds for a node of vectors with one plate axis and a precision with any subset of the two axes, fixed or re-estimated: C58_objective (any prior), C58_gradient (one shape and one rate for the prior of the precision), C58_singular, and for the whole rotator of a chain: C58_markov_objective, C58_markov_gradient. Refuted for a prior whose rate varies over the elements (C58_prior_refuted: the gradient raises ValueError or is wrong). The subset argument, matrix-valued variables and several plate axes are not covered here.

### C59 random() draws from the node's distribution (partial)

* Model: the `random` methods of the nodes and the samplers in `utils/random.py`: what is asked from NumPy's generator and what is computed from its variates
* Proof: densities compared in closed form; a program of uniform variates has probability = volume of a box (unique); a program of normal variates is affine, with the covariance and the change-of-variables density
* Theorems: `C59_poisson`, `C59_binomial`, `C59_multinomial`, `C59_gamma`, `C59_gamma_zero`, `C59_dirichlet`, `C59_beta`, `C59_bernoulli`, `C59_categorical`, `C59_categorical_state_refuted`, `C59_markov`, `C59_markov_distribution_partial`, `C59_markov_refuted`, `C59_gaussian`, `C59_gaussian_ard`, `C59_gaussian_gamma_partial`, `C59_gaussian_gamma_refuted`, `C59_wishart_refuted`, `C59_correlation`
* Remark: Holds for Poisson, binomial, multinomial, gamma, Dirichlet, beta (the parameters asked from NumPy give the node's density), Gaussian and GaussianARD (mean, covariance and density of the affine map of standard normal variates), categorical and bernoulli (boxes of uniform variates with the right volume). Refuted: CategoricalMarkovChain draws with rows normalised one by one, which is the node's distribution only when the rows have equal sums (C59_markov, C59_markov_distribution_partial, C59_markov_refuted); GaussianGamma draws the scale with a wrong rate (C59_gaussian_gamma_refuted; the vector given the scale is right, C59_gaussian_gamma_partial); Categorical.random changes the node's natural parameters and thereby the lower bound (C59_categorical_state_refuted); random.wishart returns a matrix of the wrong shape (C59_wishart_refuted). NumPy's generators are trusted to have the documented distributions; one plate.

### C60 Marginals of a GaussianGamma node (partial)

* Model: attribute lookup on the node, `get_gaussian_mean_and_variance`, `get_marginal_logpdf` with its index list, `gaussian_gamma_to_t`, `t_logpdf`
* Proof: closed-form log-densities; principal submatrices of a positive definite matrix are positive definite; joint density = Student-t density times a gamma density
* Theorems: `C60_student_factor`, `C60_posterior`, `C60_marginals_refuted`, `C60_location`, `C60_mean_variance_partial`, `C60_variance_plates_refuted`, `C60_gamma_partial`, `C60_student_partial`, `C60_joint_partial`, `C60_joint_refuted`, `C60_arguments_partial`
* Remark: get_gaussian_location is right (C60_location). The other two methods test self.ndim, which a GaussianGamma node does not have, and raise AttributeError for every node (C60_marginals_refuted). The code after that test: mean and variance of the Student-t marginal without plates (C60_mean_variance_partial), with plates the factor is broadcast along the wrong axis (C60_variance_plates_refuted); log-density of the gamma variable and of any distinct elements (C60_gamma_partial, C60_student_partial, with C60_student_factor and C60_posterior relating the Student-t density to the node's joint density); the joint log-density is off by the log-determinant of the covariance (C60_joint_partial, C60_joint_refuted). That a sub-vector of a Gaussian vector has the sub-vector of means and the sub-matrix of covariances is part of the specification. numpy.linalg.inv is assumed exact.

### C61 A call that raises leaves the node as it was (partial)

* Model: `observe`, `initialize_from_value`, `set_parameters`, `update`, `_set_moments`, `_update_mask` and `Constant.set_value` assignment by assignment, with the state at the point where an exception leaves them
* Proof: case analysis on the statement that raises; the shape checks at the beginning decide all later ones; agreement with the model of C26
* Theorems: `C61_observe`, `C61_observe_mask`, `C61_initialize`, `C61_initialize_error_refuted`, `C61_moments_kept`, `C61_parameters_refuted`, `C61_update_refuted`, `C61_retry`, `C61_agrees`, `C61_observe_refuted`, `C61_set_value`, `C61_set_value_refuted`
* Remark: observe with a mask that broadcasts to the plates and initialize_from_value are all or nothing, with the exact conditions under which they raise (C61_observe, C61_initialize); an illegal mask is always refused (C61_observe_mask) but the node has taken it by then (C61_observe_refuted). update, initialize_from_parameters and set_parameters keep the moments, the masks and the terms of the bound when they raise (C61_moments_kept) but not the natural parameters (C61_parameters_refuted, C61_update_refuted); a later update that succeeds repairs them (C61_retry). Constant.set_value takes a value of the wrong shape before it refuses it (C61_set_value, C61_set_value_refuted). initialize_from_value raises TypeError while making its message (C61_initialize_error_refuted). C61_agrees: the statement-by-statement model gives the results of the model of C26. Not modelled: arrays shared with the caller that np.copyto writes in place; the masks of the parents after _update_mask has raised.

### C62 A plain array in the place of a parent (partial)

* Model: `_ensure_moments` of a value, `from_values` and `compute_fixed_moments` of the moments classes and the constructor of `Constant`, with dims as Python values
* Proof: for every shape: the accepted set in terms of the elements, the plates and shapes of the moments through the broadcasting lemmas; witnesses for the kinds of parents that take no array
* Theorems: `C62_scalars`, `C62_categorical`, `C62_vectors`, `C62_vectors_scalar`, `C62_beta`, `C62_gaussian`, `C62_gaussian_refuted`, `C62_gaussian_gamma`, `C62_gaussian_gamma_refuted`, `C62_wishart`, `C62_wishart_square`, `C62_multinomial_refuted`, `C62_no_constants_refuted`, `C62_wishart_values_refuted`, `C62_gamma_ndim_refuted`, `C62_moments_scalars`, `C62_moments_categorical`, `C62_moments_vectors`, `C62_moments_beta`, `C62_moments_gaussian`, `C62_moments_gaussian_gamma`
* Remark: Proved with the exact set of accepted values for gamma, gamma prior, Poisson and Wishart prior (C62_scalars), categorical (C62_categorical), Dirichlet and concentration (C62_vectors, C62_vectors_scalar) and beta (C62_beta) parents; for Gaussian, Gaussian-gamma with ndim > 0 and Wishart parents the plates and dims of the constant (C62_gaussian, C62_gaussian_gamma, C62_wishart, C62_wishart_square). The values of all moments: C62_moments_*. Refuted: an array with fewer axes than ndim is taken as a Gaussian constant with fewer axes (C62_gaussian_refuted); no scalar pair can be a Gaussian-gamma parent (C62_gaussian_gamma_refuted); the constant of a multinomial has dims ((D,),) (C62_multinomial_refuted); Gaussian-Wishart, binomial and categorical Markov chain parents take no array (C62_no_constants_refuted); the gamma parent that gaussian.py 2401 asks for with ndim (C62_gamma_ndim_refuted). The Cholesky log-determinant, gammaln and multigammaln are parameters. Not modelled: values that np.asanyarray makes no number array of; floating point, -inf of log 0. C62_wishart_values_refuted: which of NameError and ValueError GaussianWishartMoments.from_values raises.

### C63 The plates and the shape of a new node (partial)

* Model: the `_constructor` class methods with `plates_from_parent`, and the check of the plates in `Node.__init__`, on plates and dims only
* Proof: `fits` and `least` state what plates are right independently of the code; each constructor is rewritten to two calls of `_total_plates` and compared with the lattice of shapes under broadcasting
* Theorems: `C63_least_exists`, `C63_least_unique`, `C63_plain`, `C63_beta`, `C63_counts`, `C63_ard_scalar`, `C63_ard_shape`, `C63_ard_inconsistent`, `C63_ard_ndim`, `C63_ard_clash`, `C63_ard_shape_refuted`, `C63_gaussian`, `C63_gaussian_mismatch`, `C63_wishart`, `C63_gaussian_wishart`, `C63_categorical_markov_chain`, `C63_categorical_markov_chain_square`, `C63_gaussian_markov_chain`, `C63_chain_length`, `C63_inputs_refuted`, `C63_varying`, `C63_switching`, `C63_switching_unit_refuted`, `C63_chain_mismatch`, `C63_varying_mismatch`, `C63_switching_mismatch`, `C63_scalar_mismatch`, `C63_mixture`, `C63_mixture_mismatch`
* Remark: Proved for all plates: there are least plates whenever some fit, and only one (C63_least_exists, C63_least_unique); Gamma, Poisson, Dirichlet, Categorical, Bernoulli (C63_plain), Beta, Binomial and Multinomial (C63_beta, C63_counts), GaussianARD with every combination of ndim and shape (C63_ard_*), Gaussian and GaussianGamma (C63_gaussian, C63_gaussian_mismatch), Wishart and GaussianWishart, the categorical chain, the Gaussian chain without inputs or with given plates, the varying and the switching chain, and Mixture (C63_mixture, C63_mixture_mismatch); sizes that do not agree are refused (C63_chain_mismatch, C63_varying_mismatch, C63_switching_mismatch, C63_scalar_mismatch). Refuted: GaussianARD does not compare a given shape with the parents and makes a node that no plates fit (C63_ard_shape_refuted); the plates of the inputs of a Gaussian chain are not counted (C63_inputs_refuted); a switching chain refuses a unit time axis of Z that would broadcast (C63_switching_unit_refuted). A parent is given as converted: conversion is C62 (arrays) and C34 (nodes). For the inputs the time axis is assumed not empty.

### C64 MultiMixture over several axes (proved)

* Model: `MultiMixture`, `zipper_merge` and the nested calls of `Mixture._constructor` on plates and dims
* Proof: invariant of a level: its plates are the least upper bound, under broadcasting, of the thetas so far and of the remaining plates of the mixed distribution; induction on the thetas
* Theorems: `C64_multi_mixture`, `C64_multi_mismatch`, `C64_single`
* Remark: C64_multi_mixture: accepted plates and the least ones for every number of thetas, by induction over the nested constructors; C64_multi_mismatch: any axis whose length is not the number of categories of its theta (a missing axis counts as length one) raises ValueError; C64_single: one theta. Thetas are nodes; the mixed distribution has the default squeeze (not binomial or multinomial). Only plates and dims, the messages of one mixture are C19.

### C65 Array helpers keep every element in its place (proved)

* Model: the five helpers, `np.reshape`, `np.atleast_2d` and assignment to a slice of a matrix
* Proof: the row-major place of a position is a bijection and multiplicative over groups of axes; loop invariant of `block_banded`: rows and columns before k are final, the rest is zero
* Theorems: `C65_places`, `C65_flatten_axes`, `C65_flatten_few`, `C65_flatten_scalar_refuted`, `C65_reshape_axes`, `C65_reshape_mismatch`, `C65_round_trip`, `C65_round_trip_back`, `C65_nested_iterator`, `C65_zipper_merge`, `C65_block_banded`, `C65_block_rows`, `C65_block_mismatch`
* Remark: Proved with positions written as lists of indices: C65_flatten_axes, C65_reshape_axes, both round trips, C65_nested_iterator, C65_zipper_merge, C65_block_banded (C65_block_rows says that the theorem gives every element), and the cases that raise (C65_flatten_few, C65_reshape_mismatch, C65_block_mismatch). C65_flatten_scalar_refuted: a group of no axes raises TypeError, because np.prod(()) is the float 1.0, although reshape_axes accepts it.

### C66 The terms of the lower bound by node, and the user data of a saved file (proved)

* Model: the engine of C34 to C37, with the three queries
* Proof: invariant over all histories of calls: row i of the table of terms sums to bound i; the write position of each iteration follows from the lengths
* Theorems: `C66_terms_add_up`, `C66_last_terms`, `C66_terms_now`, `C66_terms_of`, `C66_terms_loaded`, `C66_user_data_saved`, `C66_load_user_data_refuted`, `C66_load_subset_refuted`
* Remark: Proved for every reachable engine state: C66_terms_add_up, C66_last_terms, C66_terms_now, C66_terms_of, C66_terms_loaded, C66_user_data_saved. Two parts are false and refuted: load_user_data raises NameError for every file with user data and KeyError for one without (C66_load_user_data_refuted), and loading only some of the nodes leaves the others without the terms of the loaded bounds (C66_load_subset_refuted).

### C67 Choose takes each plate element from the node that z names (proved)

* Model: `Choose` as the composition of the modelled `Slice`, `Concatenate` and `Gate` nodes
* Proof: the slice `[..., None]` is computed in closed form; then the theorems of C12, C13, C15 and C18 are composed, with a lemma that lowers an index to the plates of a smaller node
* Theorems: `C67_plates`, `C67_moments`, `C67_chosen`, `C67_values`, `C67_message`, `C67_mask`
* Remark: Proved from the models of Slice, Concatenate and Gate put together the way Choose does: C67_plates, C67_moments, C67_chosen, C67_values (z given as integers), C67_message and C67_mask. The last two are for nodes that have all the plates of the result; the sum over missing plates is the subject of C08.

### C68 Rotating a Gaussian array along one of its axes or plates (proved)

* Model: the array functions at the end of `gaussian.py` and `GaussianARD.rotate_plates`; `np.einsum` with dots is modelled for the one form of labels that they use
* Proof: positions are lists of indices; one lemma gives every element of the `einsum`, and the functions are instances of it with the axes split before and after the rotated one; sums over flattened axes are re-indexed through the row-by-row numbering of C65
* Theorems: `C68_rotate_mean`, `C68_rotate_covariance`, `C68_axis_range`, `C68_transpose`, `C68_array_to_vector`, `C68_array_to_matrix`, `C68_vector_to_array`, `C68_matrix_dot_vector`, `C68_matrix_dot_scalar`, `C68_matrix_dot_negative`, `C68_rotate_plates`, `C68_rotated_plates_mean`, `C68_plate_axis_range`
* Remark: Proved for a matrix R without plates, as GaussianARD.rotate passes it: C68_rotate_mean, C68_rotate_covariance, C68_axis_range, C68_transpose, C68_array_to_vector, C68_array_to_matrix, C68_vector_to_array, C68_matrix_dot_vector, C68_matrix_dot_scalar, C68_matrix_dot_negative, C68_rotate_plates, C68_rotated_plates_mean and C68_plate_axis_range. C68_rotated_plates_mean characterises the mean as the solution of the equation of the natural parameters; the division by a column sum is exact real division (a zero column sum makes the code divide by zero).

### C69 rotate_matrix rotates a vector variable as a matrix from both sides (proved)

* Model: `Gaussian.rotate_matrix` on the natural parameters, with the two-operand `linalg.dot`
* Proof: every product is an instance of the lemma on `einsum` of C68 on the reshaped arrays; the mean and covariance follow by exchanging the sums and cancelling the matrices with their inverses
* Theorems: `C69_parameters`, `C69_only_vectors`, `C69_mean`, `C69_covariance`
* Remark: Proved for Q=None: C69_parameters (both natural parameters element by element), C69_mean and C69_covariance (the mean and covariance they stand for), C69_only_vectors. With Q: C70_matrix_mean_plates.

### C70 Rotating a Gaussian vector by R and its plates by Q (proved)

* Model: the natural parameters in `Gaussian.rotate` and `rotate_matrix` with and without `Q`
* Proof: the plate rotation is computed element by element from the `einsum` lemma of C68, then composed with the rotation of the vectors; sums are exchanged and R cancelled with its inverse
* Theorems: `C70_plates`, `C70_plates_axes`, `C70_parameters`, `C70_mean`, `C70_covariance`, `C70_mean_plates`, `C70_matrix_mean_plates`, `C70_only_vectors`
* Remark: C70_plates, C70_plates_axes, C70_parameters, C70_mean, C70_covariance, C70_mean_plates, C70_matrix_mean_plates and C70_only_vectors. The mean is characterised as the solution of the equation of the natural parameters. The division by a column sum is exact real division (a zero column sum makes the code divide by zero). The moments and the term g, which are rotated directly when Q is not given, are not part of this claim.

### C71 The covariance that str() shows for a Gaussian node (proved)

* Model: the array printed under Cov by `Gaussian.__str__` and `GaussianARD.__str__`, and the moments of `initialize_from_mean_and_covariance`
* Proof: `linalg.outer` is computed element by element: reshaping with axes of length one keeps the place of an element, and the broadcast of the two reshaped arrays is read axis by axis
* Theorems: `C71_gaussian_shown`, `C71_ard_shown_vector`, `C71_ard_shown_scalar_refuted`, `C71_ard_shown_matrix_refuted`, `C71_outer_documented_shape_refuted`, `C71_initialize`
* Remark: C71_gaussian_shown, C71_ard_shown_vector and C71_initialize; C71_ard_shown_scalar_refuted and C71_ard_shown_matrix_refuted show that the claim fails for GaussianARD nodes of scalars and of matrices. The text around the numbers, and the restriction of the new moments to plates without observations, are not modelled here. GaussianARD variables with three or more axes are not covered. C71_outer_documented_shape_refuted shows that linalg.outer does not have the documented order of axes.

### C72 Log-determinants of triangular matrices (proved)

* Model: `logdet_chol` and `logdet_tri` for arrays
* Proof: the determinant of a triangular matrix is expanded along the first column by induction; the diagonal and the sums are read element by element
* Theorems: `C72_logdet_chol`, `C72_logdet_tri`, `C72_logdet_tri_collection_refuted`, `C72_logdet_tri_collection_sum`
* Remark: C72_logdet_chol and C72_logdet_tri, with mathcomp's determinant. C72_logdet_tri_collection_refuted: the result has no axes for any collection, and for two 1 x 1 matrices it is the sum of the two logarithms; C72_logdet_tri_collection_sum: for one axis of upper triangular matrices of any size it is the sum of their logarithms. Sparse factors and the logarithm of zero or negative diagonals (warnings and nan in numpy) are not modelled.

### C73 dist_haversine is the distance along the sphere (proved)

* Model: `dist_haversine` for arrays with one axis
* Proof: half-angle identities turn the haversine into the inner product of two unit vectors, which lies between -1 and 1; the cosine of the doubled arctangent is computed from the standard library's `cos_atan`
* Theorems: `C73_square_roots`, `C73_distance`, `C73_metric`
* Remark: C73_distance against the inner product of the two points of the unit sphere (SpecHaversine), C73_square_roots and C73_metric. Exact real arithmetic; the arrays have one axis each, and the latitudes and longitudes of a set of points have the same length.

## Trusted base

* Coq 8.16.1's kernel and, for `make`, its compiler front end.  No plugin, no
  kernel check switched off, no axiom declared here, nothing admitted.
* Axioms of the standard library, as Print Assumptions lists them below:
  `sig_forall_dec`, `sig_not_dec` (Coq.Reals.ClassicalDedekindReals),
  `functional_extensionality_dep` (Coq.Logic.FunctionalExtensionality),
  `classic` (Coq.Logic.Classical_Prop), `constructive_indefinite_description`
  (Coq.Logic.ClassicalEpsilon, to make the reals a choice type for mathcomp).
  mathcomp itself adds none.
* The reading of the Python source described in the comments of the model
  files, and the meaning of the NumPy, SciPy, LAPACK and h5py primitives they
  use.
* Special functions.  `gammaln` and `digamma` are parameters of the theorems
  that use them; each theorem states the facts it needs (for example: digamma is
  the derivative of gammaln, a convexity inequality, Gamma's recursion).

### Modelled code

* `utils/misc.py`: the functions named in the table above (shapes, plate sums,
  moves of axes, diagonals, softmax, set lookup, put_simple, concatenate,
  block_diag, multi-axis helpers used by them).
* `utils/linalg.py`: chol, chol_solve, chol_inv, chol_logdet, inner, outer,
  mvdot, transpose, block_banded_solve.
* `utils/random.py`: intervals, categorical, alpha_beta_recursion.
* `inference/vmp/vmp.py`: VB except plotting, printing, timing, callbacks'
  contents and `use_logging`.
* `nodes/node.py`, `stochastic.py`, `expfamily.py`, `deterministic.py`,
  `constant.py`: plates, links, masks, messages, moments, observation, update,
  lower bound, gradients, slicing, adding plate axes, tiling.
* Distributions: gamma, exponential (a gamma), poisson, binomial, bernoulli,
  dirichlet, beta, multinomial, categorical, categorical Markov chain, Gaussian,
  GaussianARD, GaussianGamma, Wishart, Gaussian Markov chain, mixture.
* Deterministic nodes: Slice, Take, Concatenate, tile, AddPlateAxis, Gate,
  SumMultiply, Dot, Add, ConcatGaussian, the categorical-Markov-chain-to-
  categorical converter, the wrappers that join a mean and a precision.
* `transformations.py`: RotationOptimizer, RotateGaussian, RotateGaussianARD (vector variables, with
  and without a plate rotation, no subset), RotateGaussianMarkovChain.
* `random()` of the nodes and the samplers of `utils/random.py` listed in C48, C49 and C59, as
  functions of what NumPy's generator returned.

### Code that is not modelled

* Plotting (`plot.py`), demos, tests, printing, `_version.py`.
* Random number generation itself (NumPy's generators), `random.orth`, `svd`,
  `sphere`, `covariance`.
* Gaussian processes (`GaussianProcesses.py`, `gp.py`, `CovarianceFunctions.py`,
  `utils/covfunc`), `logistic.py`, `point_estimate.py`, `logpdf.py`.
* The rotations of varying and switching Markov chains and of
  multiple/collapsed blocks in `transformations.py`.
* Sparse matrices, `utils/optimize.py` beyond the interface used by
  `VB.pattern_search` and the rotation optimiser.
* Constructors' argument parsing other than what the theorems mention.

### General simplifications

* Distribution formulas are stated per plate; `FamilyDist.v`, `GaussianDist.v`
  and `GaussMarkovDist.v` lift them to arrays with plates.  The code's arrays
  may keep unit plate axes where the model's are full: the broadcast values are
  the same.
* dtypes, memory layout, views and aliasing of NumPy arrays are not modelled,
  except where a method writes into an array of another object.
* Python's garbage collection, pickling and threads are not modelled.

### What Print Assumptions lists for each theorem

* Closed under the global context (no axioms):
  C01_broadcasted_shape_is_numpy, C01_broadcasted_shape_raises_iff_clash, C02_plates_grouping_independent, C02_plates_idempotent, C02_plates_order_independent, C03_default_plates_least, C03_explicit_plates_accepted_iff, C04_subset_is_broadcast_order, C04_subset_partial_order, C05_multiplier_raises_iff, C06_scalar_kept_axis_refuted, C10_moveaxis_raises, C12_more_ellipses, C12_slice_plates, C15_mask_refuted, C17_mask_refuted, C17_plates_partial, C17_plates_refuted, C18_gate_plates, C19_mixture_plates, C29_acyclic, C29_failed_construction_refuted, C29_links_consistent, C30_delete_childless_partial, C30_delete_deterministic_refuted, C30_delete_leaves_stale_mask_refuted, C30_delete_with_children_refuted, C31_concatenate_accepts_any, C31_dependent_parents_rejected, C32_composite_converts, C32_grandparent_converter_missed_refuted, C32_registration, C32_search_partial, C32_sound, C32_terminates, C35_duplicate_names_accepted_refuted, C35_lookup_partial, C36_subset_only, C46_arguments, C46_dot_keys, C46_parse, C46_parse_exact, C47_add_arguments, C47_concat_arguments, C48_every_placement_possible, C48_intervals_disjoint, C48_raises_iff_no_room, C50_ceildiv, C50_find_set_index, C50_set_bounds, C55_plates, C61_initialize_error_refuted, C61_parameters_refuted, C61_set_value, C61_set_value_refuted, C62_wishart_values_refuted, C63_ard_clash, C63_ard_inconsistent, C63_ard_ndim, C63_ard_scalar, C63_ard_shape, C63_ard_shape_refuted, C63_beta, C63_categorical_markov_chain, C63_categorical_markov_chain_square, C63_chain_length, C63_chain_mismatch, C63_counts, C63_gaussian, C63_gaussian_markov_chain, C63_gaussian_mismatch, C63_gaussian_wishart, C63_inputs_refuted, C63_least_exists, C63_least_unique, C63_mixture, C63_mixture_mismatch, C63_plain, C63_scalar_mismatch, C63_switching, C63_switching_mismatch, C63_switching_unit_refuted, C63_varying, C63_varying_mismatch, C63_wishart, C64_multi_mismatch, C64_multi_mixture, C64_single, C65_block_rows, C65_flatten_few, C65_flatten_scalar_refuted, C65_nested_iterator, C65_places, C65_reshape_mismatch, C65_zipper_merge, C66_terms_of, C67_plates.
* `functional_extensionality_dep`:
  C08_mask_to_parent_is_any, C09_repeat_to_shape_is_broadcast_copy, C09_repeat_to_shape_raises, C10_moveaxis_moves_one_axis, C14_out_of_range, C15_mask_partial, C17_moments_and_message_partial, C18_gate_mask, C19_mixture_mask, C28_default_graph, C28_default_nodes_faithful, C28_mask_is_observed_descendant, C28_observe_succeeds, C61_initialize, C61_observe, C61_observe_mask, C65_flatten_axes, C65_reshape_axes, C65_round_trip, C65_round_trip_back, C68_array_to_matrix, C68_array_to_vector, C68_transpose, C68_vector_to_array.
* `sig_forall_dec`:
  C06_sum_multiply_raises, C07_sum_multiply_to_plates_raises, C08_compute_message_empty_refuted, C09_sum_to_shape_shape_refuted, C13_reversed_refuted, C17_wrong_moments_refuted, C41_gaussian_ard_matrix_refuted, C45_rotate_gaussian_raises, C46_constant_parent, C54_category_chain_refuted, C61_agrees, C61_retry, C61_update_refuted, C65_block_mismatch, C66_terms_now, C68_axis_range, C68_matrix_dot_negative, C69_only_vectors.
* `functional_extensionality_dep`, `sig_forall_dec`:
  C05_multiplier_counts_elements, C05_multiplier_scales_sum, C06_product_array_is_numpy_product, C06_sum_multiply_is_multiply_then_sum, C07_sum_multiply_to_plates_is_expanded_sum, C08_compute_message, C08_message_to_parent_is_masked_sum, C09_repeat_and_sum_are_adjoint, C09_sum_to_shape_is_fibre_sum_partial, C09_sum_to_shape_raises, C11_get_diag, C11_kept_axes_refuted, C11_make_diag, C11_roundtrip, C13_slice_partial, C14_mask, C14_take, C15_concatenate, C16_mask, C16_tile, C18_gate_message_x, C18_gate_message_z, C18_gate_moments, C19_message_parameter, C19_message_z, C19_message_z_refuted, C19_mixture_density, C19_mixture_parameters, C20_binomial, C20_dirichlet, C20_gamma, C20_gaussian, C20_gaussian_ard, C20_gaussian_gamma, C20_gmc_dynamics, C20_gmc_initial, C20_gmc_inputs, C20_markov_chain, C20_mixture_assignments, C20_mixture_parameter, C20_multinomial, C20_poisson, C20_varying_B, C20_varying_S, C20_wrap_gaussian_gamma, C20_wrap_gaussian_wishart, C21_mixture, C22_dirichlet, C24_dirichlet, C24_dirichlet_node, C24_update, C24_update_consistent, C24_update_unique, C25_deterministic, C25_network, C26_observed_plates_fixed, C26_step, C27_bound_is_sum_over_mask, C27_masked_message, C27_masked_moments_do_not_reach_parents, C27_masked_values_do_not_matter, C33_history_kept, C33_update_runs, C34_decrease_reported_refuted, C34_stops_only_if_settled, C36_autosave_refuted, C36_continue, C36_roundtrip, C36_subset_then_update_refuted, C37_crash_loses_save_refuted, C37_killed_partial, C38_schedule, C39_step_interpolates, C39_unit_step_is_update, C40_pattern_search_partial, C40_pattern_search_refuted, C41_dirichlet_refuted, C42_states, C42_states_message, C46_messages, C46_messages_gaussian_gamma, C46_plates_multiplier_refuted, C47_add_messages, C47_concat_messages, C49_categorical_raises_iff, C49_categorical_sample, C49_impossible_category_refuted, C55_adjoint, C55_kept_axes_refuted, C55_mask, C55_message, C55_moments, C59_bernoulli, C59_beta, C59_gamma_zero, C59_wishart_refuted, C60_variance_plates_refuted, C61_moments_kept, C65_block_banded, C66_last_terms, C66_load_subset_refuted, C66_load_user_data_refuted, C66_terms_add_up, C66_terms_loaded, C66_user_data_saved, C67_chosen, C67_mask, C67_message, C67_moments, C67_values, C68_matrix_dot_scalar, C68_matrix_dot_vector, C68_plate_axis_range, C68_rotate_covariance, C68_rotate_mean, C68_rotate_plates, C68_rotated_plates_mean, C69_covariance, C69_mean, C69_parameters, C70_covariance, C70_matrix_mean_plates, C70_mean, C70_mean_plates, C70_only_vectors, C70_parameters, C70_plates, C70_plates_axes, C71_ard_shown_matrix_refuted, C71_ard_shown_scalar_refuted, C71_ard_shown_vector, C71_gaussian_shown, C71_initialize, C71_outer_documented_shape_refuted.
* `functional_extensionality_dep`, `sig_forall_dec`, `sig_not_dec`:
  C22_poisson, C40_gradient_path, C40_optimize_first_step_refuted, C40_optimize_hangs, C40_optimize_partial, C40_optimize_stale_refuted, C40_optimize_tolerance_refuted, C59_correlation, C61_observe_refuted, C73_square_roots.
* `classic`, `functional_extensionality_dep`, `sig_forall_dec`, `sig_not_dec`:
  C19_predictive_density, C19_predictive_density_refuted, C20_dynamic_chain_parents_refuted, C20_switching_B, C20_switching_Z, C20_wishart, C21_bernoulli, C21_beta, C21_binomial, C21_categorical, C21_dirichlet, C21_dynamic_chain_time_dependent_refuted, C21_gamma, C21_gaussian_ard, C21_markov_chain, C21_multinomial, C21_poisson, C22_binomial, C22_gamma, C22_gaussian_ard_scalar, C22_markov_chain, C22_multinomial, C23_logsumexp, C23_no_possible_value, C23_normalized_exp, C23_normalized_exp_zero_weights, C23_shift_invariant, C24_binomial, C24_binomial_node, C24_gamma, C24_gamma_node, C24_markov_chain, C24_markov_chain_node, C24_multinomial, C24_multinomial_node, C24_poisson, C24_poisson_node, C24_scalar_ard_node, C25_models, C41_gamma, C41_gaussian_ard_scalar, C41_multinomial, C42_alpha_beta, C43_block_banded_shapes, C44_ard_scalar_moments, C46_moments, C47_add_moments, C47_concat_moments, C54_initial_support_refuted, C54_initialise_as_observed, C54_observe_rejects, C58_prior_axes_refuted, C58_singular, C59_binomial, C59_categorical, C59_categorical_state_refuted, C59_dirichlet, C59_gamma, C59_gaussian_gamma_refuted, C59_markov, C59_markov_distribution_partial, C59_markov_refuted, C59_multinomial, C59_poisson, C60_marginals_refuted, C62_beta, C62_categorical, C62_gamma_ndim_refuted, C62_gaussian, C62_gaussian_gamma, C62_gaussian_gamma_refuted, C62_gaussian_refuted, C62_moments_beta, C62_moments_categorical, C62_moments_gaussian, C62_moments_gaussian_gamma, C62_moments_scalars, C62_moments_vectors, C62_multinomial_refuted, C62_no_constants_refuted, C62_scalars, C62_vectors, C62_vectors_scalar, C62_wishart, C62_wishart_square, C72_logdet_tri_collection_refuted, C73_distance, C73_metric.
* `classic`, `constructive_indefinite_description`, `functional_extensionality_dep`, `sig_forall_dec`, `sig_not_dec`:
  C21_gaussian, C21_gaussian_gamma, C21_gaussian_markov_chain, C21_gmc_nu_shape_refuted, C21_switching, C21_switching_selection, C21_varying, C21_wishart, C22_gaussian, C22_gaussian_ard, C22_gaussian_gamma, C22_gaussian_markov_chain, C22_wishart, C24_gaussian_ard_node, C24_gaussian_gamma_node, C24_gaussian_markov_chain_node, C24_gaussian_node, C24_wishart_node, C25_gaussian_models, C41_gaussian, C41_gaussian_ard, C43_block_banded_solve, C44_ard_moments, C44_ard_rotate, C44_ard_translate, C44_gaussian_gamma_moments, C44_gaussian_gamma_rotate, C44_gaussian_gamma_translate, C44_gaussian_moments, C44_gaussian_rotate, C44_gaussian_translate, C45_rotation, C51_chain_moments, C51_chain_rotate, C52_masked_refuted, C52_optimizer_cost, C52_rotation_objective, C52_rotation_terms, C53_cost_gradient, C53_gradient, C53_vector_prior_refuted, C54_binomial_refuted, C54_joint_constants, C54_observed_value, C56_ascent, C56_gradient, C56_moments, C56_partial_derivatives, C56_regularization_refuted, C57_dynamics, C57_gradient, C57_noise_refuted, C57_objective, C58_gradient, C58_markov_gradient, C58_markov_objective, C58_objective, C58_prior_refuted, C59_gaussian, C59_gaussian_ard, C59_gaussian_gamma_partial, C60_arguments_partial, C60_gamma_partial, C60_joint_partial, C60_joint_refuted, C60_location, C60_mean_variance_partial, C60_posterior, C60_student_factor, C60_student_partial, C72_logdet_chol, C72_logdet_tri, C72_logdet_tri_collection_sum.
