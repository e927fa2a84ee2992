{
 "claims": [
  {
   "property": "C01",
   "status": "proved",
   "theorems": [
    "C01_is_dag_decides_acyclicity"
   ],
   "note": ""
  },
  {
   "property": "C02",
   "status": "proved",
   "theorems": [
    "C02_topological_ordering_ok",
    "C02_topological_ordering_cyclic",
    "C02_topological_ordering_terminates"
   ],
   "note": ""
  },
  {
   "property": "C03",
   "status": "partial",
   "theorems": [
    "C03_is_dag_signed_refuted",
    "C03_topological_ordering_signed_refuted",
    "C03_negative_refuted"
   ],
   "note": "REFUTED: with weights of which none is positive is_dag accepts every graph, for instance the 3-cycle of weights -1, and topological_ordering can list a node twice (witnesses). The claim holds for non-negative matrices: C01, C02."
  },
  {
   "property": "C04",
   "status": "proved",
   "theorems": [
    "C04_node_sets"
   ],
   "note": ""
  },
  {
   "property": "C05",
   "status": "proved",
   "theorems": [
    "C05_decomposition",
    "C05_skeleton"
   ],
   "note": ""
  },
  {
   "property": "C06",
   "status": "proved",
   "theorems": [
    "C06_vstructures",
    "C06_vstructures_order_independent"
   ],
   "note": ""
  },
  {
   "property": "C07",
   "status": "proved",
   "theorems": [
    "C07_moral_graph",
    "C07_degrees"
   ],
   "note": ""
  },
  {
   "property": "C08",
   "status": "proved",
   "theorems": [
    "C08_is_clique",
    "C08_is_complete"
   ],
   "note": ""
  },
  {
   "property": "C09",
   "status": "proved",
   "theorems": [
    "C09_semi_directed_paths"
   ],
   "note": ""
  },
  {
   "property": "C10",
   "status": "proved",
   "theorems": [
    "C10_separates"
   ],
   "note": ""
  },
  {
   "property": "C11",
   "status": "proved",
   "theorems": [
    "C11_chain_component"
   ],
   "note": ""
  },
  {
   "property": "C12",
   "status": "proved",
   "theorems": [
    "C12_induced_subgraph"
   ],
   "note": ""
  },
  {
   "property": "C13",
   "status": "proved",
   "theorems": [
    "C13_is_consistent_extension"
   ],
   "note": ""
  },
  {
   "property": "C14",
   "status": "proved",
   "theorems": [
    "C14_pdag_to_dag_sound",
    "C14_pdag_to_dag_needs_ascending_order",
    "C14_weights"
   ],
   "note": "For the ascending order in which CPython lists small-int sets; C14_pdag_to_dag_needs_ascending_order shows that another order breaks the code."
  },
  {
   "property": "C15",
   "status": "proved",
   "theorems": [
    "C15_pdag_to_dag_complete",
    "C15_pdag_to_dag_fails"
   ],
   "note": ""
  },
  {
   "property": "C16",
   "status": "proved",
   "theorems": [
    "C16_order_edges",
    "C16_order_edges_cyclic"
   ],
   "note": ""
  },
  {
   "property": "C17",
   "status": "proved",
   "theorems": [
    "C17_label_edges_compelled"
   ],
   "note": ""
  },
  {
   "property": "C18",
   "status": "proved",
   "theorems": [
    "C18_dag_to_cpdag",
    "C18_dag_to_cpdag_cyclic"
   ],
   "note": ""
  },
  {
   "property": "C19",
   "status": "proved",
   "theorems": [
    "C19_cpdag_canonical"
   ],
   "note": ""
  },
  {
   "property": "C20",
   "status": "proved",
   "theorems": [
    "C20_pdag_to_cpdag",
    "C20_weights"
   ],
   "note": ""
  },
  {
   "property": "C21",
   "status": "proved",
   "theorems": [
    "C21_all_dags_exact"
   ],
   "note": ""
  },
  {
   "property": "C22",
   "status": "partial",
   "theorems": [
    "C22_all_dags_refuted"
   ],
   "note": "REFUTED: all_dags returns a PDAG without undirected edges unchanged even if it is a directed cycle (witness). Restricted claim: C21."
  },
  {
   "property": "C23",
   "status": "proved",
   "theorems": [
    "C23_mec",
    "C23_mec_empty_refuted"
   ],
   "note": "For p > 0. With p = 0 and check_chain=True mec returns [] instead of the empty graph: C23_mec_empty_refuted."
  },
  {
   "property": "C24",
   "status": "proved",
   "theorems": [
    "C24_chain_graph_MEC",
    "C24_chain_graph",
    "C24_is_chain_graph"
   ],
   "note": "For p > 0; chain_graph_MEC(0) is empty although the empty graph is a DAG."
  },
  {
   "property": "C25",
   "status": "proved",
   "theorems": [
    "C25_meek_rules_sound",
    "C25_meek_rules_patterns"
   ],
   "note": ""
  },
  {
   "property": "C26",
   "status": "proved",
   "theorems": [
    "C26_maximally_orient",
    "C26_weights"
   ],
   "note": ""
  },
  {
   "property": "C27",
   "status": "proved",
   "theorems": [
    "C27_maximally_orient_maximal",
    "C27_maximally_orient_union",
    "C27_weights"
   ],
   "note": ""
  },
  {
   "property": "C28",
   "status": "proved",
   "theorems": [
    "C28_dag_to_icpdag",
    "C28_dag_to_icpdag_cyclic"
   ],
   "note": ""
  },
  {
   "property": "C29",
   "status": "proved",
   "theorems": [
    "C29_imec",
    "C29_imec_no_targets",
    "C29_imec_all_targets"
   ],
   "note": "For p > 0 (see C23)."
  },
  {
   "property": "C30",
   "status": "proved",
   "theorems": [
    "C30_pdag_to_icpdag",
    "C30_weights"
   ],
   "note": ""
  },
  {
   "property": "C31",
   "status": "proved",
   "theorems": [
    "C31_is_supergraph",
    "C31_partial_order",
    "C31_has_sub_super"
   ],
   "note": ""
  },
  {
   "property": "C32",
   "status": "proved",
   "theorems": [
    "C32_remove_edges"
   ],
   "note": ""
  },
  {
   "property": "C33",
   "status": "proved",
   "theorems": [
    "C33_add_edges"
   ],
   "note": ""
  },
  {
   "property": "C34",
   "status": "proved",
   "theorems": [
    "C34_subsets"
   ],
   "note": ""
  },
  {
   "property": "C35",
   "status": "proved",
   "theorems": [
    "C35_cartesian"
   ],
   "note": ""
  },
  {
   "property": "C36",
   "status": "proved",
   "theorems": [
    "C36_sort_order",
    "C36_sorted",
    "C36_member",
    "C36_all_but",
    "C36_argmin",
    "C36_argmax"
   ],
   "note": ""
  },
  {
   "property": "C37",
   "status": "proved",
   "theorems": [
    "C37_split_data"
   ],
   "note": ""
  },
  {
   "property": "C38",
   "status": "partial",
   "theorems": [
    "C38_split_data_complete_refuted",
    "C38_split_data_complete_partial"
   ],
   "note": "REFUTED: split_data drops leftover rows because its test i < n_folds is always true; C38_split_data_complete_refuted gives 5 rows and ratios 1/2,1/4,1/4 for which one row is in no fold, whatever the shuffle. C38_split_data_complete_partial proves the claim when n*ratio is integral."
  },
  {
   "property": "C39",
   "status": "proved",
   "theorems": [
    "C39_to_factorization",
    "C39_to_factorization_injective"
   ],
   "note": ""
  },
  {
   "property": "C40",
   "status": "proved",
   "theorems": [
    "C40_cache_is_map",
    "C40_first_write"
   ],
   "note": "For p x p adjacencies; models whose copy does not fail (C49: those of score_dag)."
  },
  {
   "property": "C41",
   "status": "proved",
   "theorems": [
    "C41_not_dag",
    "C41_failed_call"
   ],
   "note": "Adjacencies are p x p without negative entries."
  },
  {
   "property": "C42",
   "status": "proved",
   "theorems": [
    "C42_repeatable"
   ],
   "note": "The models are equal in their five parameters (the stored copy has a fresh I_B)."
  },
  {
   "property": "C43",
   "status": "partial",
   "theorems": [
    "C43_initial_model_partial",
    "C43_initial_model_rejected",
    "C43_initial_model_refuted"
   ],
   "note": "REFUTED: a pair that is in the cache is fitted again and then the write raises ValueError. Proved: for pairs no earlier call had, the outcome is that of a new object."
  },
  {
   "property": "C44",
   "status": "proved",
   "theorems": [
    "C44_stops"
   ],
   "note": ""
  },
  {
   "property": "C45",
   "status": "partial",
   "theorems": [
    "C45_defined_partial",
    "C45_defined_refuted"
   ],
   "note": "REFUTED: max_iter=0 or max_fluctuations=0 raise UnboundLocalError on all valid data. Proved: with positive limits every error is one of a round; see C73."
  },
  {
   "property": "C46",
   "status": "partial",
   "theorems": [
    "C46_score_partial",
    "C46_score_refuted"
   ],
   "note": "REFUTED: the score is computed with the B of the round before (I_B is not updated). Proved: it is the score of the returned parameters with that B."
  },
  {
   "property": "C47",
   "status": "partial",
   "theorems": [
    "C47_constraint_partial",
    "C47_constraint_refuted"
   ],
   "note": "REFUTED: the cache returns models fitted from an init_model to calls without one. Proved for histories without init_model."
  },
  {
   "property": "C48",
   "status": "proved",
   "theorems": [
    "C48_variances",
    "C48_psi_max",
    "C48_psi_max_error"
   ],
   "note": "psi_max <= 1: no call without init_model returns (in histories without init_model); the exception is ValueError once _solve_for_rest is reached."
  },
  {
   "property": "C49",
   "status": "partial",
   "theorems": [
    "C49_initial_B",
    "C49_solvers_partial",
    "C49_solvers_refuted",
    "C49_zero_start"
   ],
   "note": "REFUTED only for starting points that are zero up to 1e-10: _solve_for_B_grad then returns the identity (and score_dag raises ValueError). Proved for all others and for the other solvers; every model score_dag returns respects the DAG (C48_variances)."
  },
  {
   "property": "C50",
   "status": "proved",
   "theorems": [
    "C50_descent",
    "C50_errors"
   ],
   "note": "If loss and gradient do not raise within the bounds; OutOfFuel is excluded by C51."
  },
  {
   "property": "C51",
   "status": "proved",
   "theorems": [
    "C51_terminates"
   ],
   "note": ""
  },
  {
   "property": "C52",
   "status": "proved",
   "theorems": [
    "C52_chain",
    "C52_plain",
    "C52_threshold"
   ],
   "note": "Hypothesis some_weight: no graph with an edge is fitted with B = 0 (weaker than non-zero on every edge). C52_threshold covers the threshold branch."
  },
  {
   "property": "C53",
   "status": "partial",
   "theorems": [
    "C53_terminates_partial",
    "C53_terminates_refuted"
   ],
   "note": "REFUTED: when a graph with edges is fitted with B = 0, _weakest_edge returns (0, 0), no edge is removed and the loop runs forever (C53_terminates_refuted). It terminates when no graph with an edge is fitted with B = 0 (C53_terminates_partial)."
  },
  {
   "property": "C54",
   "status": "proved",
   "theorems": [
    "C54_chain",
    "C54_threshold"
   ],
   "note": "np.argsort is any function that returns a sorting permutation."
  },
  {
   "property": "C55",
   "status": "proved",
   "theorems": [
    "C55_best_scoring",
    "C55_selection",
    "C55_no_comparison_error"
   ],
   "note": "A number of latents given twice counts once, for its last position (the dict is overwritten)."
  },
  {
   "property": "C56",
   "status": "proved",
   "theorems": [
    "C56_equivalence_class"
   ],
   "note": "Without thresholds, as the entry points call _fit."
  },
  {
   "property": "C57",
   "status": "partial",
   "theorems": [
    "C57_random_state_partial",
    "C57_random_state_refuted"
   ],
   "note": "REFUTED: random_state is never used, both entry points pass 42 to _fit (C57_random_state_refuted gives a run with another result than _fit with that seed)."
  },
  {
   "property": "C58",
   "status": "partial",
   "theorems": [
    "C58_constructor_partial",
    "C58_constructor_refuted",
    "C58_constructor_typed"
   ],
   "note": "REFUTED in one case: a non-square adjacency with one row or one column raises IndexError, not ValueError (C58_constructor_refuted). C58_constructor_partial gives the outcome for every 2-dimensional adjacency and arrays of any shape; adjacencies with other than two dimensions are not modelled."
  },
  {
   "property": "C59",
   "status": "proved",
   "theorems": [
    "C59_copy_independent",
    "C59_value_semantics",
    "C59_copy_succeeds"
   ],
   "note": ""
  },
  {
   "property": "C60",
   "status": "proved",
   "theorems": [
    "C60_covariances"
   ],
   "note": ""
  },
  {
   "property": "C61",
   "status": "proved",
   "theorems": [
    "C61_positive_definite"
   ],
   "note": ""
  },
  {
   "property": "C62",
   "status": "partial",
   "theorems": [
    "C62_score_order_refuted",
    "C62_score_value_partial"
   ],
   "note": "REFUTED: the division by sum(n_obs) is inside the loop over environments; C62_score_order_refuted swaps two environments and gets another score, for every log. C62_score_value_partial is the value actually returned."
  },
  {
   "property": "C63",
   "status": "proved",
   "theorems": [
    "C63_sample"
   ],
   "note": ""
  },
  {
   "property": "C64",
   "status": "proved",
   "theorems": [
    "C64_sample_parameters",
    "C64_verbose_no_environments",
    "C64_edge_weights"
   ],
   "note": "Holds for I without repetitions; with verbose=True and no environment (or no variable) the printing raises IndexError (C64_verbose_no_environments). Edge weights lie in [B_lo,B_hi] for a 0/1 A."
  },
  {
   "property": "C65",
   "status": "partial",
   "theorems": [
    "C65_variances_refuted",
    "C65_psis_refuted",
    "C65_no_obs_refuted",
    "C65_ranges_partial",
    "C65_no_obs_partial",
    "C65_one_target_partial",
    "C65_two_environments_partial"
   ],
   "note": "REFUTED: the loop over the targets adds one further intervention to the targets already processed, so with two targets one variance exceeds var_hi+int_var_hi (C65_variances_refuted); likewise for psi with three environments (C65_psis_refuted); with obs=False no intervention is added at all (C65_no_obs_refuted). The ranges the code respects, and the cases in which the documented ones hold, are the _partial theorems."
  },
  {
   "property": "C66",
   "status": "partial",
   "theorems": [
    "C66_number",
    "C66_pair_partial",
    "C66_pair_refuted",
    "C66_tuple"
   ],
   "note": "REFUTED for pairs: rng.integers excludes the documented upper end hi, and lo=hi raises ValueError. The integer case is proved (negative k also raises ValueError)."
  },
  {
   "property": "C67",
   "status": "proved",
   "theorems": [
    "C67_dag",
    "C67_one_node"
   ],
   "note": "p=1 raises ZeroDivisionError (C67_one_node)."
  },
  {
   "property": "C68",
   "status": "proved",
   "theorems": [
    "C68_intervention_strength"
   ],
   "note": ""
  },
  {
   "property": "C69",
   "status": "proved",
   "theorems": [
    "C69_numbers",
    "C69_scree_range",
    "C69_scree_variance"
   ],
   "note": "p = 2 raises ZeroDivisionError and p <= 1 ValueError. C69_scree_variance: the split with the least pooled variance is selected. C69_numbers: by default 1, ..., k latents are tried, k being the selected number. A zero pooled variance gives nan in numpy, not modelled; the range does not depend on it."
  },
  {
   "property": "C70",
   "status": "partial",
   "theorems": [
    "C70_is_stable_set_refuted"
   ],
   "note": "REFUTED: is_stable_set calls d_separated, which is not defined in the module: it raises on every input (NameError when the targets are nodes of G)."
  },
  {
   "property": "C71",
   "status": "proved",
   "theorems": [
    "C71_score_init_pair",
    "C71_score_init_list",
    "C71_score_init_other"
   ],
   "note": "The theorems give the outcome for every input; besides TypeError and ValueError there is an IndexError for a list containing an array with fewer than two dimensions."
  },
  {
   "property": "C72",
   "status": "partial",
   "theorems": [
    "C72_cache_alias_refuted",
    "C72_cache_stable_partial"
   ],
   "note": "REFUTED: a cache hit returns the stored object itself; changing it in place changes later results (C72_cache_alias_refuted). C72_cache_stable_partial: no other change has an effect on the cache."
  },
  {
   "property": "C73",
   "status": "proved",
   "theorems": [
    "C73_no_exception"
   ],
   "note": "The solvers' loops may run out of fuel and the convex solver (an oracle) may fail; everything else is excluded."
  },
  {
   "property": "C74",
   "status": "proved",
   "theorems": [
    "C74_least_squares",
    "C74_normal_equations"
   ],
   "note": ""
  },
  {
   "property": "C75",
   "status": "partial",
   "theorems": [
    "C75_score_partial",
    "C75_score_refuted"
   ],
   "note": "REFUTED: the cache stores and returns copies whose I_B is recomputed from B, while the model scored by the last round has a stale I_B (C75_score_refuted). It holds of models that are not from the cache (C75_score_partial)."
  },
  {
   "property": "C76",
   "status": "proved",
   "theorems": [
    "C76_ges_class"
   ],
   "note": "GES is an arbitrary function that returns a 0/1 PDAG without loops that has an undirected edge or is acyclic."
  },
  {
   "property": "C77",
   "status": "proved",
   "theorems": [
    "C77_candidates_acyclic",
    "C77_first_cyclic",
    "C77_no_candidates"
   ],
   "note": ""
  },
  {
   "property": "C78",
   "status": "partial",
   "theorems": [
    "C78_profile_partial",
    "C78_likelihood_refuted"
   ],
   "note": "REFUTED: _gaussian_log_likelihood counts the normalising constants once, not once per observation (C78_likelihood_refuted). The choice of _scree_selection is nevertheless the maximiser of the profile log likelihood (C78_profile_partial)."
  },
  {
   "property": "C79",
   "status": "proved",
   "theorems": [
    "C79_no_exception"
   ],
   "note": "With prune_edges the hypothesis some_weight of C52 is needed, and p*p rounds; termination of the gradient descents is C51."
  },
  {
   "property": "C80",
   "status": "partial",
   "theorems": [
    "C80_random_state_refuted",
    "C80_obs_refuted",
    "C80_chain_partial"
   ],
   "note": "REFUTED: random_state, obs and verbose are not passed on to sample_parameters. Positive part: C80_chain_partial."
  },
  {
   "property": "C81",
   "status": "partial",
   "theorems": [
    "C81_one_node_refuted",
    "C81_random_state_refuted",
    "C81_parameters_partial",
    "C81_graph_partial"
   ],
   "note": "REFUTED: p=1 raises ZeroDivisionError, random_state is used for the graph only (the parameters are drawn with seed 42). Positive part: C81_graph_partial."
  },
  {
   "property": "C82",
   "status": "proved",
   "theorems": [
    "C82_positive_definite"
   ],
   "note": ""
  },
  {
   "property": "C83",
   "status": "proved",
   "theorems": [
    "C83_sparse"
   ],
   "note": "round(p/5) is characterised as the only n with |5n-p|<=2."
  },
  {
   "property": "C84",
   "status": "proved",
   "theorems": [
    "C84_complete",
    "C84_empty"
   ],
   "note": ""
  },
  {
   "property": "C85",
   "status": "proved",
   "theorems": [
    "C85_incoherence"
   ],
   "note": ""
  },
  {
   "property": "C86",
   "status": "proved",
   "theorems": [
    "C86_dag_to_icpdag_union"
   ],
   "note": ""
  },
  {
   "property": "C87",
   "status": "proved",
   "theorems": [
    "C87_icpdag_canonical"
   ],
   "note": ""
  },
  {
   "property": "C88",
   "status": "proved",
   "theorems": [
    "C88_maximally_orient_canonical",
    "C88_maximally_orient_idempotent",
    "C88_icpdag_fixpoint",
    "C88_weights_canonical",
    "C88_weights_idempotent"
   ],
   "note": ""
  },
  {
   "property": "C89",
   "status": "proved",
   "theorems": [
    "C89_gamma_gradient"
   ],
   "note": "np.log is assumed differentiable with derivative 1/x at the determinants concerned."
  },
  {
   "property": "C90",
   "status": "proved",
   "theorems": [
    "C90_rest_gradient"
   ],
   "note": "np.log as in C89."
  },
  {
   "property": "C91",
   "status": "partial",
   "theorems": [
    "C91_gamma_loss_partial",
    "C91_rest_loss_partial",
    "C91_loss_gradient_refuted"
   ],
   "note": "REFUTED: Model.score divides the running sum by the total sample size once per environment, so the loss is not the likelihood whose gradient is used; C91_loss_gradient_refuted gives data with 2 environments for which every small step against the gradient increases the loss. Proved for one environment."
  },
  {
   "property": "C92",
   "status": "partial",
   "theorems": [
    "C92_grad_optimal_partial",
    "C92_grad_optimal_refuted"
   ],
   "note": "REFUTED: the solver ignores n_obs; C92_grad_optimal_refuted gives covariances and sample sizes (1, 3) for which every possible result is worse than another matrix by 1 or more. C92_grad_optimal_partial proves the claim for equal sample sizes and an exact matrix square root, with an explicit bound for the stopping threshold. Exact arithmetic."
  },
  {
   "property": "C93",
   "status": "partial",
   "theorems": [
    "C93_grad_terminates_partial",
    "C93_grad_terminates_refuted"
   ],
   "note": "REFUTED: with the fixed step 0.005 and covariance diag(400, 1) the iterates alternate between x and -x for ever. C93_grad_terminates_partial: termination if 0.005 * sum_k tr(M_k) tr(Sigma_k) < 2, over archimedean fields. Exact arithmetic."
  },
  {
   "property": "C94",
   "status": "partial",
   "theorems": [
    "C94_adaptive_no_worse",
    "C94_adaptive_terminates_refuted"
   ],
   "note": "REFUTED: the step follows the unweighted least squares problem but acceptance uses Model.score; C94_adaptive_terminates_refuted gives data for which, from each start in an interval, every step increases the score, so the learning rate is halved for ever (in floating point: until the step vanishes, at the random start). C94_adaptive_no_worse is the part that holds."
  },
  {
   "property": "C95",
   "status": "proved",
   "theorems": [
    "C95_cvx_optimal"
   ],
   "note": "The solver is an oracle assumed to return an exact minimiser that satisfies the constraints; scipy.linalg.sqrtm is assumed exact."
  },
  {
   "property": "C96",
   "status": "proved",
   "theorems": [
    "C96_consistent",
    "C96_identified",
    "C96_logarithm"
   ],
   "note": "Holds although score divides by sum(n_obs) once per remaining environment (C62): each weight is non-negative. np.log is any function with the stated tangent property; C96_logarithm derives it from log(xy) = log x + log y and log x <= x - 1. ExReal.v restates it for the real numbers and their logarithm, with no hypothesis about the logarithm left."
  },
  {
   "property": "C97",
   "status": "proved",
   "theorems": [
    "C97_bounded_below"
   ],
   "note": "np.log as in C96. ExReal.v restates it for the real numbers and their logarithm, with no hypothesis about the logarithm left."
  },
  {
   "property": "C98",
   "status": "proved",
   "theorems": [
    "C98_gamma_ends",
    "C98_rest_ends",
    "C98_fit_ends",
    "C98_cvx_fit_ends",
    "C98_cvx_fit_returns"
   ],
   "note": "Exact arithmetic over archimedean fields; np.log as in C96. For the other two solvers for B see C93, C94: C98_fit_ends reduces termination to theirs. ExReal.v restates it for the real numbers and their logarithm, with no hypothesis about the logarithm left."
  },
  {
   "property": "C99",
   "status": "proved",
   "theorems": [
    "C99_class_ends",
    "C99_class_returns",
    "C99_ges_returns",
    "C99_ges_class"
   ],
   "note": "Exact arithmetic over archimedean fields; np.log as in C96; the folds and the numbers of latents are computed without exception. The pruning loop ends if no graph with an edge is fitted with B = 0 (C53 shows that this is needed); cvx_answers implies it. ExReal.v restates it for the real numbers and their logarithm, with no hypothesis about the logarithm left."
  },
  {
   "property": "C100",
   "status": "proved",
   "theorems": [
    "C100_entailed",
    "C100_equivalent",
    "C100_icpdag"
   ],
   "note": "The interventional Markov equivalence is the one of C86 (same skeleton, v-structures and parents of the targets). The latent variances are unchanged, the latent effects gamma are not."
  },
  {
   "property": "C101",
   "status": "proved",
   "theorems": [
    "C101_is_dag",
    "C101_dag_to_cpdag",
    "C101_dag_to_icpdag",
    "C101_maximally_orient",
    "C101_pdag_to_cpdag",
    "C101_all_dags",
    "C101_mec",
    "C101_imec",
    "C101_weights_maximally_orient",
    "C101_weights_pdag_to_cpdag",
    "C101_pdag_to_icpdag"
   ],
   "note": "all_dags: for graphs with an undirected edge or without cycles. mec, imec: p > 0."
  },
  {
   "property": "C102",
   "status": "proved",
   "theorems": [
    "C102_variables",
    "C102_latents"
   ],
   "note": "The renamed model is accepted by the constructor. Same conditions as C100."
  },
  {
   "property": "C103",
   "status": "proved",
   "theorems": [
    "C103_value",
    "C103_scale"
   ],
   "note": "Exact arithmetic; nan is None."
  },
  {
   "property": "C104",
   "status": "proved",
   "theorems": [
    "C104_removes",
    "C104_single_digit"
   ],
   "note": "One-dimensional arrays. np.delete is modelled for both conventions on boolean masks. C104_single_digit: versions 1.2 to 1.9, which the package excludes, sort after 1.19.0 and get the wrong call."
  },
  {
   "property": "C105",
   "status": "partial",
   "theorems": [
    "C105_descent_refuted",
    "C105_descent_partial",
    "C105_one_environment_partial"
   ],
   "note": "REFUTED: with two environments the step for B weights them by n_obs while the score weights them by n_i / N^(e-i) (C62), so the exact solution for B can worsen the score, in a run with the default thresholds and B_solver='cvx'. Holds whenever the steps for B do not worsen the score, in particular for one environment."
  },
  {
   "property": "C106",
   "status": "partial",
   "theorems": [
    "C106_single_refuted",
    "C106_two_refuted",
    "C106_enough_partial",
    "C106_small_refuted"
   ],
   "note": "REFUTED: single observations pass the check (empty training samples) and pairs are rejected; samples of 3-7 observations leave the last test fold with at most one. Holds for samples of eight observations or more."
  },
  {
   "property": "C107",
   "status": "proved",
   "theorems": [
    "C107_positive_definite",
    "C107_too_few",
    "C107_order"
   ],
   "note": "np.cov for at least two rows and two columns."
  },
  {
   "property": "C108",
   "status": "proved",
   "theorems": [
    "C108_covariance",
    "C108_entailed",
    "C108_score"
   ],
   "note": "log is any function with log(xy) = log x + log y on positive numbers."
  },
  {
   "property": "C109",
   "status": "partial",
   "theorems": [
    "C109_edges_refuted",
    "C109_any_edge_refuted",
    "C109_targets_refuted",
    "C109_any_order_refuted",
    "C109_common_partial",
    "C109_normalized_partial"
   ],
   "note": "REFUTED: whenever two edges have non-zero weights, and whenever two variables have variances that change, some units change the order; every edge of a weighted DAG is the one pruned first in some units, and if all variances change every order of the targets is that of some units. Holds for a common unit; normalized_var, which the code defines and does not use, would not depend on the units."
  },
  {
   "property": "C110",
   "status": "proved",
   "theorems": [
    "C110_class",
    "C110_ges"
   ],
   "note": "For calls that return; the draws of the solver 'grad' are arguments of the model, indexed by the position in nums_latent."
  },
  {
   "property": "C111",
   "status": "proved",
   "theorems": [
    "C111_store",
    "C111_store_error",
    "C111_history"
   ],
   "note": "Without thresholds for the contents of the history; with any for its independence."
  },
  {
   "property": "C112",
   "status": "proved",
   "theorems": [
    "C112_pooled",
    "C112_env",
    "C112_no_env",
    "C112_no_lambdas",
    "C112_default"
   ],
   "note": "The results of GES (external package) are an argument: any 0/1 graph without loops that has an undirected edge or is acyclic."
  },
  {
   "property": "C113",
   "status": "proved",
   "theorems": [
    "C113_principal_components",
    "C113_noise",
    "C113_counted_twice"
   ],
   "note": "Under the documented contract of np.linalg.svd and with exact square roots of the singular values."
  },
  {
   "property": "C114",
   "status": "partial",
   "theorems": [
    "C114_avg",
    "C114_obs",
    "C114_other",
    "C114_omegas_ignored",
    "C114_omegas_refuted"
   ],
   "note": "REFUTED for _initialize_omegas: the covariance chosen by init is overwritten by the loop, so init='obs' gives the result of init='avg' (C114_omegas_ignored, C114_omegas_refuted). Proved for _initialize_B and _initialize_gamma, and for the ValueError."
  },
  {
   "property": "C115",
   "status": "proved",
   "theorems": [
    "C115_in_place"
   ],
   "note": "A refinement between the program on a memory of arrays (AliasModel.v) and the one on values (MainModel.v)."
  },
  {
   "property": "C116",
   "status": "proved",
   "theorems": [
    "C116_icpdag",
    "C116_equivalent",
    "C116_one_environment",
    "C116_latents",
    "C116_one_environment_latents_refuted",
    "C116_scores"
   ],
   "note": "The converse of C100. C116_one_environment_latents_refuted shows that the number of environments matters."
  },
  {
   "property": "C117",
   "status": "proved",
   "theorems": [
    "C117_refines",
    "C117_no_targets",
    "C117_identified",
    "C117_covered"
   ],
   "note": "Nodes that are not variables may be listed as targets; they have no effect."
  },
  {
   "property": "C118",
   "status": "proved",
   "theorems": [
    "C118_fit",
    "C118_class"
   ],
   "note": "Exactness of the folds and of the fits is assumed (LimitSpec.v); it includes that the last round does not change B."
  },
  {
   "property": "C119",
   "status": "partial",
   "theorems": [
    "C119_class_refuted"
   ],
   "note": "REFUTED: ties are broken in favour of the first candidate and of all variables as targets, so the returned class is a single graph even without interventions; with the candidates 0 -> 1 and 1 -> 0 the second is never in it."
  },
  {
   "property": "C120",
   "status": "proved",
   "theorems": [
    "C120_cost"
   ],
   "note": "argsort is assumed to return a permutation that sorts. Runs that raise are not counted."
  },
  {
   "property": "C121",
   "status": "proved",
   "theorems": [
    "C121_names",
    "C121_renamed"
   ],
   "note": "sqrtm, svd, isfinite and the convex solver of the renamed object are assumed to return the renamed results; C121_renamed shows there are such functions for every Score object. Random draws are renamed too."
  },
  {
   "property": "C122",
   "status": "partial",
   "theorems": [
    "C122_shape",
    "C122_start",
    "C122_cyclic",
    "C122_one_variable_refuted"
   ],
   "note": "REFUTED: with one variable np.cov is squeezed to a number, and score_dag raises ValueError for every graph (C122_one_variable_refuted). C122_shape and C122_start prove the claim for every other number of variables."
  },
  {
   "property": "C123",
   "status": "partial",
   "theorems": [
    "C123_sets",
    "C123_orders",
    "C123_classes",
    "C123_extension",
    "C123_binary",
    "C123_all_dags_refuted",
    "C123_is_supergraph_refuted"
   ],
   "note": "REFUTED for all_dags and is_supergraph (C123_all_dags_refuted, C123_is_supergraph_refuted); proved for the other functions. Weights are integers. With negative weights sums cancel, see C03."
  },
  {
   "property": "C124",
   "status": "proved",
   "theorems": [
    "C124_draws_once",
    "C124_columns"
   ],
   "note": "The generator hands out a stream of uniform and normal numbers, one per entry in row-major order. With sparse_latents the latent effects also depend on the chosen variables and are not covered."
  },
  {
   "property": "C125",
   "status": "proved",
   "theorems": [
    "C125_class_names",
    "C125_renamed",
    "C125_cov"
   ],
   "note": "np.cov is shown to commute with renaming; for the solver, sqrtm and svd this is a hypothesis, as are the draws. In one environment all variances of the noise-term variances are 0, so with two variables or more there is a tie and the theorem does not apply."
  },
  {
   "property": "C126",
   "status": "proved",
   "theorems": [
    "C126_order",
    "C126_cvx"
   ],
   "note": "Stated for calls that return; a call that raises an exception in one order can raise another exception in the other order."
  },
  {
   "property": "C127",
   "status": "partial",
   "theorems": [
    "C127_duplicates_refuted"
   ],
   "note": "REFUTED: with two observed variables, no latents and the candidates 0 -> 1 and 1 -> 0 the result is a model of 0 -> 1; if 1 -> 0 is given twice the result is a model of 1 -> 0. The counterexample has an exact convex solver."
  },
  {
   "property": "C128",
   "status": "proved",
   "theorems": [
    "C128_statistics",
    "C128_translate"
   ],
   "note": "The translations need that the shuffles move the rows without looking at them and that the covariance is that of numpy.cov."
  },
  {
   "property": "C129",
   "status": "partial",
   "theorems": [
    "C129_means_refuted",
    "C129_common_partial"
   ],
   "note": "REFUTED: ges gets the union of the environments, whose covariance also contains the differences of their means. With two observed variables and two environments a translation of one environment makes the covariance of the union zero; the result then has no edge, and one edge before. C129_common_partial: a vector that is added to all environments changes nothing."
  },
  {
   "property": "C130",
   "status": "proved",
   "theorems": [
    "C130_orders",
    "C130_edges",
    "C130_cpdags",
    "C130_icpdags",
    "C130_classes"
   ],
   "note": "A list of graphs is a list of new cells instead of one array with three axes."
  },
  {
   "property": "C131",
   "status": "proved",
   "theorems": [
    "C131_parameters",
    "C131_second_fold",
    "C131_third_fold",
    "C131_equivalence_class",
    "C131_w_ges"
   ],
   "note": "The random draws of the k-th call on the n-th Score object are the same in both runs."
  },
  {
   "property": "C132",
   "status": "partial",
   "theorems": [
    "C132_order_refuted"
   ],
   "note": "REFUTED: Model.score divides the sum by the number of observations once more for each later environment (C62), so that the order decides which graph is selected; shown for two environments of twelve observations whose shuffles leave them alone. The counterexample has an exact convex solver."
  },
  {
   "property": "C133",
   "status": "proved",
   "theorems": [
    "C133_common_weights"
   ],
   "note": "Needs that the convex solver sees only the mask of the edges (solver_sees_edges), as the code passes it."
  },
  {
   "property": "C134",
   "status": "partial",
   "theorems": [
    "C134_weights_refuted"
   ],
   "note": "REFUTED: a candidate given twice is taken from the cache the second time, and the copy stores I - B^T anew; with other weights it is another key and is fitted again, so that another graph is selected. The counterexample has an exact convex solver."
  },
  {
   "property": "C135",
   "status": "partial",
   "theorems": [
    "C135_never_pruned_refuted",
    "C135_result_refuted"
   ],
   "note": "REFUTED: the loop runs while np.sum(current_dag) > 0, so that acyclic candidates with negative weights are never pruned (for all data and settings); an example where this changes the selected graph. The counterexample has an exact convex solver."
  },
  {
   "property": "C136",
   "status": "proved",
   "theorems": [
    "C136_scree",
    "C136_numbers"
   ],
   "note": "Needs that the logarithm is strictly increasing and, for the data, that the singular values of a multiple of a matrix are the multiples of its singular values (svd_homogeneous)."
  },
  {
   "property": "C137",
   "status": "partial",
   "theorems": [
    "C137_units_refuted"
   ],
   "note": "REFUTED: for three variables and every decomposition that is right on diagonal matrices, dividing one variable by 3 changes the numbers from 1, 2 to 1."
  },
  {
   "property": "C138",
   "status": "proved",
   "theorems": [
    "C138_nested",
    "C138_optimum",
    "C138_pruning",
    "C138_targets"
   ],
   "note": "The chains are for fits that reach the best score of their class (optimal_fits); with psi_max the bound has to be positive."
  },
  {
   "property": "C139",
   "status": "proved",
   "theorems": [
    "C139_score_dag",
    "C139_class",
    "C139_ges"
   ],
   "note": ""
  },
  {
   "property": "C140",
   "status": "proved",
   "theorems": [
    "C140_targets",
    "C140_class",
    "C140_ges"
   ],
   "note": "Hypotheses: the solver makes no random draws (cvx) and the training sample is not empty. All but one variable is possible because the model for all targets is read from the cache, as a copy with another I_B."
  },
  {
   "property": "C141",
   "status": "partial",
   "theorems": [
    "C141_equal_refuted",
    "C141_one_latent_partial"
   ],
   "note": "REFUTED: only the averages over environments are taken, so two hidden variables get different variances (C141_equal_refuted: two independent variables with variances 4 and 1, the empty graph, one environment, max_iter=1, learning_rate=1, a large threshold_score; exact solver, singular values and square roots). Proved for one hidden variable and histories without initial models (C141_one_latent_partial). That each hidden variable has the same variance in all environments is C47."
  },
  {
   "property": "C142",
   "status": "proved",
   "theorems": [
    "C142_class",
    "C142_ges",
    "C142_icpdag"
   ],
   "note": "The score is that of the model that the constructor builds from the returned parameters; the attribute I_B of the returned model itself may be stale (C46)."
  },
  {
   "property": "C143",
   "status": "partial",
   "theorems": [
    "C143_limit_refuted",
    "C143_optimum_refuted",
    "C143_class_refuted",
    "C143_ges_refuted",
    "C143_class_partial",
    "C143_ges_partial"
   ],
   "note": "REFUTED: psi_max bounds the variances themselves, whose scale is free: gamma can be multiplied by c and the variances divided by c^2, so no covariances are excluded; and since the descent starts at variances of 1, a bound of 1 or less raises ValueError. The changes of a returned model are below psi_max (C143_class_partial, C143_ges_partial)."
  },
  {
   "property": "C144",
   "status": "proved",
   "theorems": [
    "C144_class",
    "C144_ges"
   ],
   "note": "The hypothesis on the draws is no_draws, which holds for the solver cvx (C126_cvx)."
  },
  {
   "property": "C145",
   "status": "proved",
   "theorems": [
    "C145_class",
    "C145_validation"
   ],
   "note": "The hypothesis on the draws is no_draws, which holds for the solver cvx (C126_cvx). The validation score is that on the second fold, by which the graph and the number of latents are selected."
  },
  {
   "property": "C146",
   "status": "partial",
   "theorems": [
    "C146_tuple_refuted",
    "C146_one_dim_refuted",
    "C146_accepts_partial",
    "C146_type_partial",
    "C146_rows_partial",
    "C146_columns_partial",
    "C146_solver_partial"
   ],
   "note": "REFUTED: C146_tuple_refuted and C146_one_dim_refuted. What holds: a value that is no sequence or has an element without a length raises TypeError (C146_type_partial), an element that is a list TypeError or ValueError (C146_rows_partial), different numbers of columns and an unknown solver ValueError (C146_columns_partial, C146_solver_partial), and lists of samples with at least eight rows are accepted (C146_accepts_partial). The model covers main.py 439-446 and the first Score object, with nums_latent given; whether np.cov raises is an argument."
  },
  {
   "property": "C147",
   "status": "partial",
   "theorems": [
    "C147_decimals_refuted",
    "C147_dyadic_partial",
    "C147_rounding",
    "C147_exact"
   ],
   "note": "REFUTED: C147_decimals_refuted (0.35, 0.30, 0.35). What holds: C147_dyadic_partial, for the default folds and all samples of up to 2^53 rows. Floats are rationals with rounding to nearest even at 53 bits (C147_rounding, C147_exact), without overflow and underflow; ExFloat.v checks the sums against SpecFloat of the standard library."
  },
  {
   "property": "C148",
   "status": "partial",
   "theorems": [
    "C148_scaled_refuted",
    "C148_root_partial",
    "C148_value_partial",
    "C148_rank_refuted"
   ],
   "note": "REFUTED: C148_scaled_refuted (one latent with effects 3 and 4: 16/25 instead of 4/5 times the degree) and C148_rank_refuted (two decompositions of dependent effects with different values). What holds: C148_root_partial (c^2 d is returned) and C148_value_partial (for independent effects the value does not depend on the decomposition)."
  },
  {
   "property": "C149",
   "status": "partial",
   "theorems": [
    "C149_strength_refuted",
    "C149_strength_partial",
    "C149_incoherence_refuted",
    "C149_effects_partial"
   ],
   "note": "REFUTED: C149_strength_refuted (for every model, two variables can be ordered either way) and C149_incoherence_refuted (a model with two values). What holds: C149_strength_partial (the exact factor) and C149_effects_partial (how the latent effects change)."
  },
  {
   "property": "C150",
   "status": "proved",
   "theorems": [
    "C150_latents"
   ],
   "note": "C150_latents. Independence is needed: for dependent effects the value depends on the decomposition (C148_rank_refuted)."
  }
 ]
}