{
 "claims": [
  {
   "property": "C01",
   "status": "proved",
   "theorems": [
    "C01_broadcasted_shape_is_numpy",
    "C01_broadcasted_shape_raises_iff_clash"
   ],
   "note": ""
  },
  {
   "property": "C02",
   "status": "proved",
   "theorems": [
    "C02_plates_order_independent",
    "C02_plates_idempotent",
    "C02_plates_grouping_independent"
   ],
   "note": ""
  },
  {
   "property": "C03",
   "status": "proved",
   "theorems": [
    "C03_explicit_plates_accepted_iff",
    "C03_default_plates_least"
   ],
   "note": ""
  },
  {
   "property": "C04",
   "status": "proved",
   "theorems": [
    "C04_subset_is_broadcast_order",
    "C04_subset_partial_order"
   ],
   "note": ""
  },
  {
   "property": "C05",
   "status": "proved",
   "theorems": [
    "C05_multiplier_counts_elements",
    "C05_multiplier_scales_sum",
    "C05_multiplier_raises_iff"
   ],
   "note": ""
  },
  {
   "property": "C06",
   "status": "partial",
   "theorems": [
    "C06_product_array_is_numpy_product",
    "C06_sum_multiply_is_multiply_then_sum",
    "C06_sum_multiply_raises",
    "C06_scalar_kept_axis_refuted"
   ],
   "note": "Proved for every argument list and axis list; the documented integer form of the kept axis (sumaxis=False) raises TypeError and is refuted."
  },
  {
   "property": "C07",
   "status": "proved",
   "theorems": [
    "C07_sum_multiply_to_plates_is_expanded_sum",
    "C07_sum_multiply_to_plates_raises"
   ],
   "note": ""
  },
  {
   "property": "C08",
   "status": "partial",
   "theorems": [
    "C08_message_to_parent_is_masked_sum",
    "C08_mask_to_parent_is_any",
    "C08_compute_message",
    "C08_compute_message_empty_refuted"
   ],
   "note": "Node._message_to_parent (all plates), Node._mask_to_parent and Node._compute_message (plates of non-zero length). Refuted for plates of length zero: C08_compute_message_empty_refuted. SumMultiply overrides _message_to_parent and ignores the plates multiplier, see C46_plates_multiplier_refuted."
  },
  {
   "property": "C09",
   "status": "partial",
   "theorems": [
    "C09_sum_to_shape_is_fibre_sum_partial",
    "C09_sum_to_shape_raises",
    "C09_sum_to_shape_shape_refuted",
    "C09_repeat_to_shape_is_broadcast_copy",
    "C09_repeat_to_shape_raises",
    "C09_repeat_and_sum_are_adjoint"
   ],
   "note": "Proved when the target shape has at most as many axes as the array and no zero-length axis has to become one; refuted otherwise."
  },
  {
   "property": "C10",
   "status": "proved",
   "theorems": [
    "C10_moveaxis_moves_one_axis",
    "C10_moveaxis_raises"
   ],
   "note": ""
  },
  {
   "property": "C11",
   "status": "partial",
   "theorems": [
    "C11_get_diag",
    "C11_make_diag",
    "C11_roundtrip",
    "C11_kept_axes_refuted"
   ],
   "note": "Proved for ndim_from = ndim_to = 0 (round trip, zero off the diagonal) and get_diag for every ndim_to; with ndim_from > 0 make_diag loses off-diagonal entries (C11_kept_axes_refuted)."
  },
  {
   "property": "C12",
   "status": "proved",
   "theorems": [
    "C12_slice_plates",
    "C12_more_ellipses"
   ],
   "note": "C12_slice_plates: the plates of X[...] are those of the selection for all integer/slice/None/Ellipsis index lists; invalid ones are rejected. C12_more_ellipses: later Ellipses are read as ':'."
  },
  {
   "property": "C13",
   "status": "partial",
   "theorems": [
    "C13_slice_partial",
    "C13_reversed_refuted"
   ],
   "note": "C13_slice_partial: moments are the selected elements and the message back is their adjoint, for all slices except those with a negative step running to the start (X[::-1]); C13_reversed_refuted shows the code rejects or misplaces the latter."
  },
  {
   "property": "C14",
   "status": "proved",
   "theorems": [
    "C14_take",
    "C14_out_of_range",
    "C14_mask"
   ],
   "note": "C14_take: for every plate axis, shape of indices (with repetitions and negative indices), plates and dims: plates, moments, message as the sum over the selecting indices, and the adjoint identity. C14_out_of_range: indices outside the axis raise. C14_mask: a parent plate is used iff some index selecting it is."
  },
  {
   "property": "C15",
   "status": "partial",
   "theorems": [
    "C15_concatenate",
    "C15_mask_partial",
    "C15_mask_refuted"
   ],
   "note": "C15_concatenate: plates, moments and message of every parent, for any number of parents and axes. The mask is right for the last parent or a mask that does not vary along the axis (C15_mask_partial) and wrong otherwise (C15_mask_refuted)."
  },
  {
   "property": "C16",
   "status": "proved",
   "theorems": [
    "C16_tile",
    "C16_mask"
   ],
   "note": "C16_tile: for every plates, tiles and dims, with broadcasting messages and moments: plates, repeated moments, message as the sum over the copies, adjoint identity. C16_mask: a parent plate is used iff one of its copies is. Tiles are positive and non-empty."
  },
  {
   "property": "C17",
   "status": "partial",
   "theorems": [
    "C17_moments_and_message_partial",
    "C17_plates_partial",
    "C17_plates_refuted",
    "C17_wrong_moments_refuted",
    "C17_mask_refuted"
   ],
   "note": "False as stated: the declared plates always have the new axis last (C17_plates_refuted, C17_wrong_moments_refuted) and passing a mask raises NameError (C17_mask_refuted). Proved for all shapes: moments and message have the axis at the requested place (C17_moments_and_message_partial); the plates for to_plate=-1 (C17_plates_partial)."
  },
  {
   "property": "C18",
   "status": "proved",
   "theorems": [
    "C18_gate_moments",
    "C18_gate_message_x",
    "C18_gate_message_z",
    "C18_gate_mask",
    "C18_gate_plates"
   ],
   "note": "Moments, both messages (with the linear-coefficient identities), masks and plates of Gate, for every plates, gated axis, number of components and variable axes, with broadcasting. The moments of X must have their variable axes in full and the message at least that many axes."
  },
  {
   "property": "C19",
   "status": "partial",
   "theorems": [
    "C19_mixture_parameters",
    "C19_mixture_density",
    "C19_message_z",
    "C19_message_z_refuted",
    "C19_message_parameter",
    "C19_mixture_mask",
    "C19_mixture_plates",
    "C19_predictive_density",
    "C19_predictive_density_refuted"
   ],
   "note": "Proved for every cluster axis, number of clusters, plates (with broadcasting) and list of moment arrays: natural parameters and cgf are the weighted sums, consistency of the expected log-density, messages to the parameters, masks and plates. The message to z and the predictive density are proved for clusters on the last plate axis (the default) and false for another cluster axis: C19_message_z_refuted (raises, or adds the cgf of the wrong component), C19_predictive_density_refuted. The mixed distribution enters through its outputs, with a one-to-one plate map for the parameter messages."
  },
  {
   "property": "C20",
   "status": "partial",
   "theorems": [
    "C20_gamma",
    "C20_poisson",
    "C20_binomial",
    "C20_dirichlet",
    "C20_multinomial",
    "C20_gmc_initial",
    "C20_gmc_dynamics",
    "C20_gmc_inputs",
    "C20_gaussian",
    "C20_gaussian_ard",
    "C20_gaussian_gamma",
    "C20_wishart",
    "C20_wrap_gaussian_gamma",
    "C20_wrap_gaussian_wishart",
    "C20_markov_chain",
    "C20_mixture_assignments",
    "C20_mixture_parameter",
    "C20_varying_B",
    "C20_varying_S",
    "C20_switching_B",
    "C20_switching_Z",
    "C20_dynamic_chain_parents_refuted"
   ],
   "note": "Per plate, for Gamma, Poisson, Binomial/Bernoulli, Dirichlet/Beta, Multinomial/Categorical, the categorical Markov chain, Gaussian, GaussianARD, GaussianGamma, Wishart, the Gaussian Markov chain (initial state, dynamics, inputs) and the wrappers that join a mean and a precision. The Mixture passes the identity of the mixed distribution on to its parameters and satisfies it for the assignments (clusters on the last axis). VaryingGaussianMarkovChain (B and S) and SwitchingGaussianMarkovChain (B and Z) with noise precisions that do not depend on the time. Refuted for the remaining parents of these two (mu, Lambda, nu): the code raises NotImplementedError. The message to the degrees of freedom of a Wishart node is not implemented in the code either."
  },
  {
   "property": "C21",
   "status": "partial",
   "theorems": [
    "C21_poisson",
    "C21_gamma",
    "C21_binomial",
    "C21_bernoulli",
    "C21_dirichlet",
    "C21_beta",
    "C21_multinomial",
    "C21_categorical",
    "C21_gaussian_markov_chain",
    "C21_gmc_nu_shape_refuted",
    "C21_gaussian",
    "C21_gaussian_ard",
    "C21_gaussian_gamma",
    "C21_wishart",
    "C21_markov_chain",
    "C21_mixture",
    "C21_varying",
    "C21_switching",
    "C21_switching_selection",
    "C21_dynamic_chain_time_dependent_refuted"
   ],
   "note": "Per plate, for Gamma, Poisson, Binomial/Bernoulli, Dirichlet/Beta, Multinomial/Categorical, the categorical Markov chain, Gaussian, GaussianARD, GaussianGamma, Wishart and the Gaussian Markov chain with inputs. Refuted for a Gaussian Markov chain whose noise precision has shape (1,) or () although the constructor accepts it. Mixture with known assignments: the log-density of the selected component. VaryingGaussianMarkovChain and SwitchingGaussianMarkovChain with noise precisions that do not depend on the time; refuted when they do: the constructors accept plates (N-1, D) but the natural parameters cannot be computed. C21_switching_selection: the message to the selections is the log-density of the transition under each matrix."
  },
  {
   "property": "C22",
   "status": "proved",
   "theorems": [
    "C22_poisson",
    "C22_binomial",
    "C22_gamma",
    "C22_dirichlet",
    "C22_multinomial",
    "C22_gaussian_markov_chain",
    "C22_gaussian",
    "C22_gaussian_ard",
    "C22_gaussian_ard_scalar",
    "C22_gaussian_gamma",
    "C22_wishart",
    "C22_markov_chain"
   ],
   "note": "Per plate; digamma is assumed to be the derivative of gammaln. Covered: Gamma, Poisson, Binomial/Bernoulli, Dirichlet/Beta, Multinomial/Categorical, the categorical Markov chain, and, as derivatives in every (symmetric) direction, Gaussian, GaussianARD, GaussianGamma, Wishart and the Gaussian Markov chain."
  },
  {
   "property": "C23",
   "status": "proved",
   "theorems": [
    "C23_logsumexp",
    "C23_normalized_exp",
    "C23_normalized_exp_zero_weights",
    "C23_shift_invariant",
    "C23_no_possible_value"
   ],
   "note": ""
  },
  {
   "property": "C24",
   "status": "proved",
   "theorems": [
    "C24_poisson",
    "C24_binomial",
    "C24_gamma",
    "C24_dirichlet",
    "C24_multinomial",
    "C24_poisson_node",
    "C24_multinomial_node",
    "C24_binomial_node",
    "C24_gamma_node",
    "C24_dirichlet_node",
    "C24_markov_chain_node",
    "C24_gaussian_markov_chain_node",
    "C24_gaussian_node",
    "C24_gaussian_ard_node",
    "C24_scalar_ard_node",
    "C24_gaussian_gamma_node",
    "C24_wishart_node",
    "C24_markov_chain",
    "C24_update",
    "C24_update_unique",
    "C24_update_consistent"
   ],
   "note": "Proved at the level of nodes: C24_update (an update maximises contribution + <messages, u> over all states of the family, for all plates, masks, partial observations, plate multipliers and annealings), C24_update_unique (the maximiser is unique), C24_update_consistent; the *_node theorems discharge the Gibbs hypothesis for Poisson, Binomial/Bernoulli, Multinomial/Categorical, Gamma, Dirichlet/Beta, CategoricalMarkovChain, Gaussian, GaussianARD, GaussianGamma, Wishart and GaussianMarkovChain. Special functions enter through stated convexity facts. A Mixture node hands compute_moments_and_cgf to the mixed distribution (mixture.py 247-251), so the theorem of that family applies. VaryingGaussianMarkovChain and SwitchingGaussianMarkovChain inherit compute_moments_and_cgf from the same template as GaussianMarkovChain, so C24_gaussian_markov_chain_node, which holds for every distribution with these moments, applies."
  },
  {
   "property": "C25",
   "status": "partial",
   "theorems": [
    "C25_deterministic",
    "C25_models",
    "C25_gaussian_models",
    "C25_network"
   ],
   "note": "C25_network: any network of exponential-family nodes whose families satisfy the conjugacy identity and Gibbs' inequality, with plates, plate multipliers, masks, partial observations and any schedule. C25_models: closed models of Poisson, binomial/Bernoulli, multinomial/categorical, gamma/exponential and Dirichlet/Beta nodes with constants. C25_deterministic: the same for networks that also contain deterministic nodes, whose moments are computed on demand and whose messages pass on those of their children. C25_gaussian_models: closed models of GaussianARD (scalar and vector), Gaussian, GaussianGamma, Gamma, Wishart, the count families, constants, the converters that join a mean and a precision, SumMultiply/Dot of any number of Gaussian parents and constant arrays (factor models, regression), Add and ConcatGaussian, Categorical, and Mixture of any of these distributions over the last plate axis of its parameters (Gaussian and other mixture models), CategoricalMarkovChain and its states as the assignments of a mixture (hidden Markov models), GaussianMarkovChain with inputs and its states (linear state-space models); the updates never raise and the bound never decreases, for every schedule. gammaln and digamma are parameters that satisfy two convexity inequalities. Missing: Gaussian Markov chains with varying or switching dynamics, other cluster axes, gates and SumMultiply of Gaussian-gamma parents in the network; SumMultiply only when it has the plates multiplier of its Gaussian parents; distinct parents per node are assumed; no bias."
  },
  {
   "property": "C26",
   "status": "proved",
   "theorems": [
    "C26_observed_plates_fixed",
    "C26_step"
   ],
   "note": "For every mask, value and history of update, initialise_from_*, set_parameters and gradient steps (including calls that raise)."
  },
  {
   "property": "C27",
   "status": "proved",
   "theorems": [
    "C27_bound_is_sum_over_mask",
    "C27_masked_values_do_not_matter",
    "C27_masked_message",
    "C27_masked_moments_do_not_reach_parents"
   ],
   "note": "Exact per-plate formula of lower_bound_contribution and non-interference; for messages, non-interference of the masked plates for every message function computed plate by plate."
  },
  {
   "property": "C28",
   "status": "proved",
   "theorems": [
    "C28_mask_is_observed_descendant",
    "C28_observe_succeeds",
    "C28_default_nodes_faithful",
    "C28_default_graph"
   ],
   "note": "For every history of constructions, observations and removals whose nodes map masks faithfully; nodes with the default plate functions are proved faithful. Stale masks after delete are C30."
  },
  {
   "property": "C29",
   "status": "partial",
   "theorems": [
    "C29_links_consistent",
    "C29_acyclic",
    "C29_failed_construction_refuted"
   ],
   "note": "Consistency and acyclicity hold after every operation that does not raise; a constructor that raises on plate checking leaves a dangling child (C29_failed_construction_refuted)."
  },
  {
   "property": "C30",
   "status": "partial",
   "theorems": [
    "C30_delete_with_children_refuted",
    "C30_delete_deterministic_refuted",
    "C30_delete_childless_partial",
    "C30_delete_leaves_stale_mask_refuted"
   ],
   "note": "Proved for childless stochastic nodes; false for nodes with children and for deterministic nodes (delete raises), and the parents' masks stay stale (three _refuted theorems)."
  },
  {
   "property": "C31",
   "status": "proved",
   "theorems": [
    "C31_dependent_parents_rejected",
    "C31_concatenate_accepts_any"
   ],
   "note": "Rejected iff two parents of a deterministic node depend on a common stochastic node; the Concatenate exception is shown separately."
  },
  {
   "property": "C32",
   "status": "partial",
   "theorems": [
    "C32_search_partial",
    "C32_sound",
    "C32_terminates",
    "C32_composite_converts",
    "C32_grandparent_converter_missed_refuted",
    "C32_registration"
   ],
   "note": "Termination and soundness for every hierarchy; existence and minimality when each converter of an ancestor is also in the table of the class or of a direct base (true for all registrations in BayesPy); false in general (C32_grandparent_converter_missed_refuted)."
  },
  {
   "property": "C33",
   "status": "proved",
   "theorems": [
    "C33_history_kept",
    "C33_update_runs"
   ],
   "note": ""
  },
  {
   "property": "C34",
   "status": "partial",
   "theorems": [
    "C34_stops_only_if_settled",
    "C34_decrease_reported_refuted"
   ],
   "note": "Proved: stopping early or reporting convergence implies a relative change below the tolerance. The second half of the property is false of the code: C34_decrease_reported_refuted shows that every decrease is reported as convergence."
  },
  {
   "property": "C35",
   "status": "partial",
   "theorems": [
    "C35_duplicate_names_accepted_refuted",
    "C35_lookup_partial"
   ],
   "note": "False as stated: the uniqueness check compares two lengths that are always equal (C35_duplicate_names_accepted_refuted). C35_lookup_partial gives what holds: correct lookup, and uniqueness when names are distinct."
  },
  {
   "property": "C36",
   "status": "partial",
   "theorems": [
    "C36_roundtrip",
    "C36_continue",
    "C36_subset_only",
    "C36_autosave_refuted",
    "C36_subset_then_update_refuted"
   ],
   "note": "Round trip, exact continuation and subset loading with nodes_only=True are proved. The default subset load and the autosave break the property (two _refuted theorems)."
  },
  {
   "property": "C37",
   "status": "partial",
   "theorems": [
    "C37_killed_partial",
    "C37_crash_loses_save_refuted"
   ],
   "note": "False as stated (C37_crash_loses_save_refuted). C37_killed_partial: the file left is the old one or a strict prefix of the new content, other files are untouched."
  },
  {
   "property": "C38",
   "status": "proved",
   "theorems": [
    "C38_schedule"
   ],
   "note": ""
  },
  {
   "property": "C39",
   "status": "proved",
   "theorems": [
    "C39_step_interpolates",
    "C39_unit_step_is_update"
   ],
   "note": "Per node, at VB annealing 1; update() skips a fully observed node while gradient_step does not, hence the hypothesis that some plate is unobserved."
  },
  {
   "property": "C40",
   "status": "partial",
   "theorems": [
    "C40_optimize_partial",
    "C40_gradient_path",
    "C40_optimize_first_step_refuted",
    "C40_optimize_tolerance_refuted",
    "C40_optimize_stale_refuted",
    "C40_optimize_hangs",
    "C40_pattern_search_partial",
    "C40_pattern_search_refuted"
   ],
   "note": "False as stated. C40_optimize_partial: each bound optimize records is a number and not lower than the one recorded before it, up to the np.allclose tolerance of the code. Refuted: the first iteration is never checked, decreases within the tolerance pass, the comparison is with the last recorded bound and not with the one at the call. optimize may never return (C40_optimize_hangs). pattern_search: C40_pattern_search_partial (updates improve the bound, the collapsed nodes reach their optimum in one update, the minimiser returns a point not worse than 0); C40_pattern_search_refuted without the second condition. The nodes enter through the operations the methods call; minimize_scalar is an arbitrary adaptive strategy."
  },
  {
   "property": "C41",
   "status": "partial",
   "theorems": [
    "C41_gamma",
    "C41_multinomial",
    "C41_dirichlet_refuted",
    "C41_gaussian",
    "C41_gaussian_ard",
    "C41_gaussian_ard_scalar",
    "C41_gaussian_ard_matrix_refuted"
   ],
   "note": "Gamma, Multinomial, Gaussian and GaussianARD with at most one axis proved; the Dirichlet formula is wrong (C41_dirichlet_refuted) and GaussianARD with two or more axes raises (C41_gaussian_ard_matrix_refuted)."
  },
  {
   "property": "C42",
   "status": "proved",
   "theorems": [
    "C42_alpha_beta",
    "C42_states",
    "C42_states_message"
   ],
   "note": "For one plate, any number of states and transitions, -inf log-weights allowed, provided some path is possible. The states node and its message are covered too."
  },
  {
   "property": "C43",
   "status": "proved",
   "theorems": [
    "C43_block_banded_solve",
    "C43_block_banded_shapes"
   ],
   "note": "For every number N>=1 and size D>=1 of blocks, symmetric diagonal blocks: positive definite gives the diagonal and superdiagonal blocks of the inverse, the solution and the log-determinant; otherwise an exception; wrong shapes give ValueError. Per plate, over the reals; the broadcasting of plates is not modelled."
  },
  {
   "property": "C44",
   "status": "proved",
   "theorems": [
    "C44_gaussian_moments",
    "C44_ard_moments",
    "C44_ard_scalar_moments",
    "C44_gaussian_translate",
    "C44_ard_translate",
    "C44_gaussian_rotate",
    "C44_ard_rotate",
    "C44_gaussian_gamma_moments",
    "C44_gaussian_gamma_rotate",
    "C44_gaussian_gamma_translate"
   ],
   "note": "Per plate, one variable axis (the code flattens the axes). Moments, translation and rotation of Gaussian, GaussianARD and GaussianGamma. LAPACK Cholesky is modelled by the textbook algorithm over the reals."
  },
  {
   "property": "C45",
   "status": "proved",
   "theorems": [
    "C45_rotation",
    "C45_rotate_gaussian_raises"
   ],
   "note": "For Gaussian and GaussianARD blocks with any bound function, any optimiser and any numpy inverse that returns an inverse. RotateGaussian blocks always raise NameError (C45_rotate_gaussian_raises): the optimiser only works with RotateGaussianARD blocks."
  },
  {
   "property": "C46",
   "status": "partial",
   "theorems": [
    "C46_parse",
    "C46_parse_exact",
    "C46_dot_keys",
    "C46_arguments",
    "C46_moments",
    "C46_messages",
    "C46_messages_gaussian_gamma",
    "C46_constant_parent",
    "C46_plates_multiplier_refuted"
   ],
   "note": "SumMultiply and Dot: parsing of the key string (exactly the strings of the documented form are accepted, anything else raises), which arguments are accepted, moments (Gaussian and Gaussian-gamma, with constants) for any number of parents, keys and plates as expectations over independent parents, and messages as the coefficients of the parent moments in <m,u>. Refuted: the plates multiplier is ignored (C46_plates_multiplier_refuted); a parent with fixed values gets NotImplementedError. The messages theorem assumes that plates over which the mask is not broadcast are present in the message. Not modelled: _compute_function, get_parameters."
  },
  {
   "property": "C47",
   "status": "proved",
   "theorems": [
    "C47_add_arguments",
    "C47_concat_arguments",
    "C47_add_moments",
    "C47_concat_moments",
    "C47_add_messages",
    "C47_concat_messages"
   ],
   "note": "Add and ConcatGaussian, any number of parents, any plates broadcasting to P, any lengths (Add: any number of variable axes). Moments equal the first two moments of the sum / concatenation of independent draws from the parents; messages are the exact coefficients of the receiving parent's moments in the pairing with the child's message, provided the second part of the message is symmetric (which every Gaussian child's is). Arguments: Add accepts exactly two or more parents of one shape, ConcatGaussian exactly vectors."
  },
  {
   "property": "C48",
   "status": "proved",
   "theorems": [
    "C48_intervals_disjoint",
    "C48_raises_iff_no_room",
    "C48_every_placement_possible"
   ],
   "note": ""
  },
  {
   "property": "C49",
   "status": "partial",
   "theorems": [
    "C49_categorical_raises_iff",
    "C49_categorical_sample",
    "C49_impossible_category_refuted"
   ],
   "note": "Sampling is proved correct for every uniform variate in (0,1]; numpy.random.rand may return exactly 0, and then an impossible first category can be chosen (C49_impossible_category_refuted). Rows summing to zero (0/0) are outside the theorem."
  },
  {
   "property": "C50",
   "status": "proved",
   "theorems": [
    "C50_find_set_index",
    "C50_set_bounds",
    "C50_ceildiv"
   ],
   "note": ""
  },
  {
   "property": "C51",
   "status": "proved",
   "theorems": [
    "C51_chain_moments",
    "C51_chain_rotate"
   ],
   "note": "Per plate; any number and dimension of states, arbitrary contents of the uninitialised arrays inside the solver. Over the reals."
  },
  {
   "property": "C52",
   "status": "proved",
   "theorems": [
    "C52_rotation_objective",
    "C52_rotation_terms",
    "C52_optimizer_cost",
    "C52_masked_refuted"
   ],
   "note": "For vector variables, without rotation of the plates and without a subset; X latent, without masked plates, plates multipliers and annealing; alpha fixed or a Gamma node whose only child is X. The total needs no assumption on the stored shape parameter of alpha; the separate terms need alpha to have been updated before. Refuted with masked plates of X (C52_masked_refuted): the objective counts them, the lower bound does not."
  },
  {
   "property": "C53",
   "status": "partial",
   "theorems": [
    "C53_gradient",
    "C53_cost_gradient",
    "C53_vector_prior_refuted"
   ],
   "note": "Proved when the shape a0 of the prior of alpha is one number (or alpha is fixed), in the scope of C52, for one block (C53_gradient) and for the cost of two blocks that the optimizer minimises (C53_cost_gradient, with numpy.linalg.inv and slogdet assumed exact). Refuted when a0 is an array over the elements of X (C53_vector_prior_refuted): a0 is multiplied along the columns instead of the rows, so the gradient of the off-diagonal elements is wrong."
  },
  {
   "property": "C54",
   "status": "partial",
   "theorems": [
    "C54_observed_value",
    "C54_initialise_as_observed",
    "C54_joint_constants",
    "C54_observe_rejects",
    "C54_binomial_refuted",
    "C54_category_chain_refuted",
    "C54_initial_support_refuted"
   ],
   "note": "Proved for every family but Binomial/Bernoulli and CategoricalMarkovChain, per plate. Refuted for Binomial and Bernoulli (C54_binomial_refuted): BinomialMoments.compute_fixed_moments calls super() without the value, so initialize_from_value and initialize_from_random raise TypeError for every count. Refuted for CategoricalMarkovChain (C54_category_chain_refuted): observe raises NotImplementedError. Refuted for the support (C54_initial_support_refuted): negative Poisson counts and multinomial counts with the wrong total are accepted as initial values. For Dirichlet and Beta, observe tolerates a total within the tolerance of numpy.allclose and renormalises. Gamma at 0 (log 0 = -inf in the code) is outside the theorems, which take x > 0."
  },
  {
   "property": "C55",
   "status": "partial",
   "theorems": [
    "C55_plates",
    "C55_moments",
    "C55_message",
    "C55_adjoint",
    "C55_mask",
    "C55_kept_axes_refuted"
   ],
   "note": "Plates, moments and mask for every split of the array (C55_plates, C55_moments, C55_mask); the message and its adjointness when every axis of the array becomes a plate (C55_message, C55_adjoint). Refuted when an axis is kept (C55_kept_axes_refuted): misc.make_diag loses the off-diagonal elements of the precision part of the message."
  },
  {
   "property": "C56",
   "status": "partial",
   "theorems": [
    "C56_gradient",
    "C56_partial_derivatives",
    "C56_ascent",
    "C56_moments",
    "C56_regularization_refuted"
   ],
   "note": "For parameters without regularization: C56_gradient, C56_partial_derivatives, C56_ascent, C56_moments, for any network of Function nodes; the children enter through their messages (linear in the Wishart moments). Refuted with a regularization: the bound contains it, the gradient does not (C56_regularization_refuted; a TODO in the code). Children that want other moments than Wishart's cannot be created: plates_from_shape exists for WishartMoments only."
  },
  {
   "property": "C57",
   "status": "partial",
   "theorems": [
    "C57_dynamics",
    "C57_objective",
    "C57_gradient",
    "C57_noise_refuted"
   ],
   "note": "Holds for the bound and gradient of the states (one plate of the chain) and for what rotate does to the dynamics: C57_dynamics, C57_objective, C57_gradient, with or without inputs, unit innovation noise. Refuted for a noise precision other than one (C57_noise_refuted: the bound ignores it). The code also refuses a plate rotation with a zero column sum; the bound of the rotator of A under the plate rotation is C58; the Varying/Switching variants are not covered."
  },
  {
   "property": "C58",
   "status": "partial",
   "theorems": [
    "C58_objective",
    "C58_singular",
    "C58_gradient",
    "C58_markov_objective",
    "C58_markov_gradient",
    "C58_prior_refuted",
    "C58_prior_axes_refuted"
   ],
   "note": "Holds for a node of vectors with one plate axis and a precision with any subset of the two axes, fixed or re-estimated: C58_objective (any prior), C58_gradient (one shape and one rate for the prior of the precision), C58_singular, and for the whole rotator of a chain: C58_markov_objective, C58_markov_gradient. Refuted for a prior whose rate varies over the elements (C58_prior_refuted: the gradient raises ValueError or is wrong). The subset argument, matrix-valued variables and several plate axes are not covered here."
  },
  {
   "property": "C59",
   "status": "partial",
   "theorems": [
    "C59_poisson",
    "C59_binomial",
    "C59_multinomial",
    "C59_gamma",
    "C59_gamma_zero",
    "C59_dirichlet",
    "C59_beta",
    "C59_bernoulli",
    "C59_categorical",
    "C59_categorical_state_refuted",
    "C59_markov",
    "C59_markov_distribution_partial",
    "C59_markov_refuted",
    "C59_gaussian",
    "C59_gaussian_ard",
    "C59_gaussian_gamma_partial",
    "C59_gaussian_gamma_refuted",
    "C59_wishart_refuted",
    "C59_correlation"
   ],
   "note": "Holds for Poisson, binomial, multinomial, gamma, Dirichlet, beta (the parameters asked from NumPy give the node's density), Gaussian and GaussianARD (mean, covariance and density of the affine map of standard normal variates), categorical and bernoulli (boxes of uniform variates with the right volume). Refuted: CategoricalMarkovChain draws with rows normalised one by one, which is the node's distribution only when the rows have equal sums (C59_markov, C59_markov_distribution_partial, C59_markov_refuted); GaussianGamma draws the scale with a wrong rate (C59_gaussian_gamma_refuted; the vector given the scale is right, C59_gaussian_gamma_partial); Categorical.random changes the node's natural parameters and thereby the lower bound (C59_categorical_state_refuted); random.wishart returns a matrix of the wrong shape (C59_wishart_refuted). NumPy's generators are trusted to have the documented distributions; one plate."
  },
  {
   "property": "C60",
   "status": "partial",
   "theorems": [
    "C60_student_factor",
    "C60_posterior",
    "C60_marginals_refuted",
    "C60_location",
    "C60_mean_variance_partial",
    "C60_variance_plates_refuted",
    "C60_gamma_partial",
    "C60_student_partial",
    "C60_joint_partial",
    "C60_joint_refuted",
    "C60_arguments_partial"
   ],
   "note": "get_gaussian_location is right (C60_location). The other two methods test self.ndim, which a GaussianGamma node does not have, and raise AttributeError for every node (C60_marginals_refuted). The code after that test: mean and variance of the Student-t marginal without plates (C60_mean_variance_partial), with plates the factor is broadcast along the wrong axis (C60_variance_plates_refuted); log-density of the gamma variable and of any distinct elements (C60_gamma_partial, C60_student_partial, with C60_student_factor and C60_posterior relating the Student-t density to the node's joint density); the joint log-density is off by the log-determinant of the covariance (C60_joint_partial, C60_joint_refuted). That a sub-vector of a Gaussian vector has the sub-vector of means and the sub-matrix of covariances is part of the specification. numpy.linalg.inv is assumed exact."
  },
  {
   "property": "C61",
   "status": "partial",
   "theorems": [
    "C61_observe",
    "C61_observe_mask",
    "C61_initialize",
    "C61_initialize_error_refuted",
    "C61_moments_kept",
    "C61_parameters_refuted",
    "C61_update_refuted",
    "C61_retry",
    "C61_agrees",
    "C61_observe_refuted",
    "C61_set_value",
    "C61_set_value_refuted"
   ],
   "note": "observe with a mask that broadcasts to the plates and initialize_from_value are all or nothing, with the exact conditions under which they raise (C61_observe, C61_initialize); an illegal mask is always refused (C61_observe_mask) but the node has taken it by then (C61_observe_refuted). update, initialize_from_parameters and set_parameters keep the moments, the masks and the terms of the bound when they raise (C61_moments_kept) but not the natural parameters (C61_parameters_refuted, C61_update_refuted); a later update that succeeds repairs them (C61_retry). Constant.set_value takes a value of the wrong shape before it refuses it (C61_set_value, C61_set_value_refuted). initialize_from_value raises TypeError while making its message (C61_initialize_error_refuted). C61_agrees: the statement-by-statement model gives the results of the model of C26. Not modelled: arrays shared with the caller that np.copyto writes in place; the masks of the parents after _update_mask has raised."
  },
  {
   "property": "C62",
   "status": "partial",
   "theorems": [
    "C62_scalars",
    "C62_categorical",
    "C62_vectors",
    "C62_vectors_scalar",
    "C62_beta",
    "C62_gaussian",
    "C62_gaussian_refuted",
    "C62_gaussian_gamma",
    "C62_gaussian_gamma_refuted",
    "C62_wishart",
    "C62_wishart_square",
    "C62_multinomial_refuted",
    "C62_no_constants_refuted",
    "C62_wishart_values_refuted",
    "C62_gamma_ndim_refuted",
    "C62_moments_scalars",
    "C62_moments_categorical",
    "C62_moments_vectors",
    "C62_moments_beta",
    "C62_moments_gaussian",
    "C62_moments_gaussian_gamma"
   ],
   "note": "Proved with the exact set of accepted values for gamma, gamma prior, Poisson and Wishart prior (C62_scalars), categorical (C62_categorical), Dirichlet and concentration (C62_vectors, C62_vectors_scalar) and beta (C62_beta) parents; for Gaussian, Gaussian-gamma with ndim > 0 and Wishart parents the plates and dims of the constant (C62_gaussian, C62_gaussian_gamma, C62_wishart, C62_wishart_square). The values of all moments: C62_moments_*. Refuted: an array with fewer axes than ndim is taken as a Gaussian constant with fewer axes (C62_gaussian_refuted); no scalar pair can be a Gaussian-gamma parent (C62_gaussian_gamma_refuted); the constant of a multinomial has dims ((D,),) (C62_multinomial_refuted); Gaussian-Wishart, binomial and categorical Markov chain parents take no array (C62_no_constants_refuted); the gamma parent that gaussian.py 2401 asks for with ndim (C62_gamma_ndim_refuted). The Cholesky log-determinant, gammaln and multigammaln are parameters. Not modelled: values that np.asanyarray makes no number array of; floating point, -inf of log 0. C62_wishart_values_refuted: which of NameError and ValueError GaussianWishartMoments.from_values raises."
  },
  {
   "property": "C63",
   "status": "partial",
   "theorems": [
    "C63_least_exists",
    "C63_least_unique",
    "C63_plain",
    "C63_beta",
    "C63_counts",
    "C63_ard_scalar",
    "C63_ard_shape",
    "C63_ard_inconsistent",
    "C63_ard_ndim",
    "C63_ard_clash",
    "C63_ard_shape_refuted",
    "C63_gaussian",
    "C63_gaussian_mismatch",
    "C63_wishart",
    "C63_gaussian_wishart",
    "C63_categorical_markov_chain",
    "C63_categorical_markov_chain_square",
    "C63_gaussian_markov_chain",
    "C63_chain_length",
    "C63_inputs_refuted",
    "C63_varying",
    "C63_switching",
    "C63_switching_unit_refuted",
    "C63_chain_mismatch",
    "C63_varying_mismatch",
    "C63_switching_mismatch",
    "C63_scalar_mismatch",
    "C63_mixture",
    "C63_mixture_mismatch"
   ],
   "note": "Proved for all plates: there are least plates whenever some fit, and only one (C63_least_exists, C63_least_unique); Gamma, Poisson, Dirichlet, Categorical, Bernoulli (C63_plain), Beta, Binomial and Multinomial (C63_beta, C63_counts), GaussianARD with every combination of ndim and shape (C63_ard_*), Gaussian and GaussianGamma (C63_gaussian, C63_gaussian_mismatch), Wishart and GaussianWishart, the categorical chain, the Gaussian chain without inputs or with given plates, the varying and the switching chain, and Mixture (C63_mixture, C63_mixture_mismatch); sizes that do not agree are refused (C63_chain_mismatch, C63_varying_mismatch, C63_switching_mismatch, C63_scalar_mismatch). Refuted: GaussianARD does not compare a given shape with the parents and makes a node that no plates fit (C63_ard_shape_refuted); the plates of the inputs of a Gaussian chain are not counted (C63_inputs_refuted); a switching chain refuses a unit time axis of Z that would broadcast (C63_switching_unit_refuted). A parent is given as converted: conversion is C62 (arrays) and C34 (nodes). For the inputs the time axis is assumed not empty."
  },
  {
   "property": "C64",
   "status": "proved",
   "theorems": [
    "C64_multi_mixture",
    "C64_multi_mismatch",
    "C64_single"
   ],
   "note": "C64_multi_mixture: accepted plates and the least ones for every number of thetas, by induction over the nested constructors; C64_multi_mismatch: any axis whose length is not the number of categories of its theta (a missing axis counts as length one) raises ValueError; C64_single: one theta. Thetas are nodes; the mixed distribution has the default squeeze (not binomial or multinomial). Only plates and dims, the messages of one mixture are C19."
  },
  {
   "property": "C65",
   "status": "proved",
   "theorems": [
    "C65_places",
    "C65_flatten_axes",
    "C65_flatten_few",
    "C65_flatten_scalar_refuted",
    "C65_reshape_axes",
    "C65_reshape_mismatch",
    "C65_round_trip",
    "C65_round_trip_back",
    "C65_nested_iterator",
    "C65_zipper_merge",
    "C65_block_banded",
    "C65_block_rows",
    "C65_block_mismatch"
   ],
   "note": "Proved with positions written as lists of indices: C65_flatten_axes, C65_reshape_axes, both round trips, C65_nested_iterator, C65_zipper_merge, C65_block_banded (C65_block_rows says that the theorem gives every element), and the cases that raise (C65_flatten_few, C65_reshape_mismatch, C65_block_mismatch). C65_flatten_scalar_refuted: a group of no axes raises TypeError, because np.prod(()) is the float 1.0, although reshape_axes accepts it."
  },
  {
   "property": "C66",
   "status": "proved",
   "theorems": [
    "C66_terms_add_up",
    "C66_last_terms",
    "C66_terms_now",
    "C66_terms_of",
    "C66_terms_loaded",
    "C66_user_data_saved",
    "C66_load_user_data_refuted",
    "C66_load_subset_refuted"
   ],
   "note": "Proved for every reachable engine state: C66_terms_add_up, C66_last_terms, C66_terms_now, C66_terms_of, C66_terms_loaded, C66_user_data_saved. Two parts are false and refuted: load_user_data raises NameError for every file with user data and KeyError for one without (C66_load_user_data_refuted), and loading only some of the nodes leaves the others without the terms of the loaded bounds (C66_load_subset_refuted)."
  },
  {
   "property": "C67",
   "status": "proved",
   "theorems": [
    "C67_plates",
    "C67_moments",
    "C67_chosen",
    "C67_values",
    "C67_message",
    "C67_mask"
   ],
   "note": "Proved from the models of Slice, Concatenate and Gate put together the way Choose does: C67_plates, C67_moments, C67_chosen, C67_values (z given as integers), C67_message and C67_mask. The last two are for nodes that have all the plates of the result; the sum over missing plates is the subject of C08."
  },
  {
   "property": "C68",
   "status": "proved",
   "theorems": [
    "C68_rotate_mean",
    "C68_rotate_covariance",
    "C68_axis_range",
    "C68_transpose",
    "C68_array_to_vector",
    "C68_array_to_matrix",
    "C68_vector_to_array",
    "C68_matrix_dot_vector",
    "C68_matrix_dot_scalar",
    "C68_matrix_dot_negative",
    "C68_rotate_plates",
    "C68_rotated_plates_mean",
    "C68_plate_axis_range"
   ],
   "note": "Proved for a matrix R without plates, as GaussianARD.rotate passes it: C68_rotate_mean, C68_rotate_covariance, C68_axis_range, C68_transpose, C68_array_to_vector, C68_array_to_matrix, C68_vector_to_array, C68_matrix_dot_vector, C68_matrix_dot_scalar, C68_matrix_dot_negative, C68_rotate_plates, C68_rotated_plates_mean and C68_plate_axis_range. C68_rotated_plates_mean characterises the mean as the solution of the equation of the natural parameters; the division by a column sum is exact real division (a zero column sum makes the code divide by zero)."
  },
  {
   "property": "C69",
   "status": "proved",
   "theorems": [
    "C69_parameters",
    "C69_only_vectors",
    "C69_mean",
    "C69_covariance"
   ],
   "note": "Proved for Q=None: C69_parameters (both natural parameters element by element), C69_mean and C69_covariance (the mean and covariance they stand for), C69_only_vectors. With Q: C70_matrix_mean_plates."
  },
  {
   "property": "C70",
   "status": "proved",
   "theorems": [
    "C70_plates",
    "C70_plates_axes",
    "C70_parameters",
    "C70_mean",
    "C70_covariance",
    "C70_mean_plates",
    "C70_matrix_mean_plates",
    "C70_only_vectors"
   ],
   "note": "C70_plates, C70_plates_axes, C70_parameters, C70_mean, C70_covariance, C70_mean_plates, C70_matrix_mean_plates and C70_only_vectors. The mean is characterised as the solution of the equation of the natural parameters. The division by a column sum is exact real division (a zero column sum makes the code divide by zero). The moments and the term g, which are rotated directly when Q is not given, are not part of this claim."
  },
  {
   "property": "C71",
   "status": "proved",
   "theorems": [
    "C71_gaussian_shown",
    "C71_ard_shown_vector",
    "C71_ard_shown_scalar_refuted",
    "C71_ard_shown_matrix_refuted",
    "C71_outer_documented_shape_refuted",
    "C71_initialize"
   ],
   "note": "C71_gaussian_shown, C71_ard_shown_vector and C71_initialize; C71_ard_shown_scalar_refuted and C71_ard_shown_matrix_refuted show that the claim fails for GaussianARD nodes of scalars and of matrices. The text around the numbers, and the restriction of the new moments to plates without observations, are not modelled here. GaussianARD variables with three or more axes are not covered. C71_outer_documented_shape_refuted shows that linalg.outer does not have the documented order of axes."
  },
  {
   "property": "C72",
   "status": "proved",
   "theorems": [
    "C72_logdet_chol",
    "C72_logdet_tri",
    "C72_logdet_tri_collection_refuted",
    "C72_logdet_tri_collection_sum"
   ],
   "note": "C72_logdet_chol and C72_logdet_tri, with mathcomp's determinant. C72_logdet_tri_collection_refuted: the result has no axes for any collection, and for two 1 x 1 matrices it is the sum of the two logarithms; C72_logdet_tri_collection_sum: for one axis of upper triangular matrices of any size it is the sum of their logarithms. Sparse factors and the logarithm of zero or negative diagonals (warnings and nan in numpy) are not modelled."
  },
  {
   "property": "C73",
   "status": "proved",
   "theorems": [
    "C73_square_roots",
    "C73_distance",
    "C73_metric"
   ],
   "note": "C73_distance against the inner product of the two points of the unit sphere (SpecHaversine), C73_square_roots and C73_metric. Exact real arithmetic; the arrays have one axis each, and the latitudes and longitudes of a set of points have the same length."
  }
 ]
}