{
 "claims": [
  {
   "property": "C01",
   "status": "proved",
   "theorems": [
    "C01_ancestors_exact",
    "C01_descendants_exact",
    "C01_upstream_exact",
    "C01_downstream_exact"
   ],
   "note": ""
  },
  {
   "property": "C02",
   "status": "proved",
   "theorems": [
    "C02_order_topological",
    "C02_check_acyclic",
    "C02_order_respects_paths"
   ],
   "note": ""
  },
  {
   "property": "C03",
   "status": "proved",
   "theorems": [
    "C03_sort_exact",
    "C03_sort_selection_only"
   ],
   "note": ""
  },
  {
   "property": "C04",
   "status": "proved",
   "theorems": [
    "C04_roots_leaves_exact",
    "C04_insertion_order"
   ],
   "note": ""
  },
  {
   "property": "C05",
   "status": "proved",
   "theorems": [
    "C05_minimal_dag"
   ],
   "note": ""
  },
  {
   "property": "C06",
   "status": "proved",
   "theorems": [
    "C06_minimal_requirements_closed_form",
    "C06_conditions_as_set",
    "C06_sufficiency_refuted"
   ],
   "note": "Closed form and order independence proved; the sufficiency expectation is refuted by C06_sufficiency_refuted (diamond where a parent also feeds a condition)."
  },
  {
   "property": "C07",
   "status": "proved",
   "theorems": [
    "C07_sufficient_nodes_least",
    "C07_sufficient_nodes_errors"
   ],
   "note": ""
  },
  {
   "property": "C08",
   "status": "proved",
   "theorems": [
    "C08_minimal_nodes",
    "C08_minimal_nodes_without_given_fails"
   ],
   "note": ""
  },
  {
   "property": "C09",
   "status": "proved",
   "theorems": [
    "C09_remove_upstream",
    "C09_remove_downstream",
    "C09_removes_closure_refuted"
   ],
   "note": "Exact effect proved; the closure reading suggested by the names is refuted."
  },
  {
   "property": "C10",
   "status": "proved",
   "theorems": [
    "C10_remove_out_edges",
    "C10_remove_in_edges_never_works"
   ],
   "note": ""
  },
  {
   "property": "C11",
   "status": "proved",
   "theorems": [
    "C11_merge_is_union",
    "C11_merge_keeps_acyclic_refuted"
   ],
   "note": "Union proved; acyclicity of the union refuted."
  },
  {
   "property": "C12",
   "status": "proved",
   "theorems": [
    "C12_built_wellformed",
    "C12_parents_are_mentioned",
    "C12_parents_are_mentioned_dist"
   ],
   "note": ""
  },
  {
   "property": "C13",
   "status": "proved",
   "theorems": [
    "C13_last_definition_wins"
   ],
   "note": ""
  },
  {
   "property": "C14",
   "status": "proved",
   "theorems": [
    "C14_rejected_iff",
    "C14_rejected_state",
    "C14_rollback_refuted"
   ],
   "note": "Exact rejection condition and left-over state proved; roll-back of a rejected definition refuted by C14_rollback_refuted."
  },
  {
   "property": "C15",
   "status": "proved",
   "theorems": [
    "C15_redefinition_fails",
    "C15_incoherent_after"
   ],
   "note": ""
  },
  {
   "property": "C16",
   "status": "proved",
   "theorems": [
    "C16_complete_freezes",
    "C16_frozen_forever",
    "C16_views_always_fresh",
    "C16_defrost_restores"
   ],
   "note": ""
  },
  {
   "property": "C17",
   "status": "proved",
   "theorems": [
    "C17_rv_roots"
   ],
   "note": ""
  },
  {
   "property": "C18",
   "status": "proved",
   "theorems": [
    "C18_exo",
    "C18_classification",
    "C18_partition"
   ],
   "note": ""
  },
  {
   "property": "C19",
   "status": "partial",
   "theorems": [
    "C19_copy_partial",
    "C19_text_constant_refuted"
   ],
   "note": "PARTIAL: proved for networks all of whose definitions survive the node JSON round trip (storable: no text constants, no pseudo nodes without parents). For every well-formed network it is false: C19_text_constant_refuted."
  },
  {
   "property": "C20",
   "status": "proved",
   "theorems": [
    "C20_clone_fails",
    "C20_clone_key_error",
    "C20_reader"
   ],
   "note": ""
  },
  {
   "property": "C21",
   "status": "partial",
   "theorems": [
    "C21_merge_partial",
    "C21_merge_union_partial",
    "C21_merge_name",
    "C21_lost_never_kept_partial",
    "C21_merge_refuted"
   ],
   "note": "PARTIAL: complete description of merge and union under the stated condition, both only for networks with storable definitions (see C32). The unconditional reading is refuted (C21_merge_refuted)."
  },
  {
   "property": "C22",
   "status": "proved",
   "theorems": [
    "C22_extend_fresh",
    "C22_extend_existing",
    "C22_extend_override_refuted"
   ],
   "note": "Extension with override into a network with parented common nodes raises (C22_extend_override_refuted)."
  },
  {
   "property": "C23",
   "status": "proved",
   "theorems": [
    "C23_randomness",
    "C23_randomness_given",
    "C23_deterministic",
    "C23_deterministic_refuted",
    "C23_given_refuted"
   ],
   "note": "Exact answers without given nodes proved; the two unsound answers refuted with witnesses."
  },
  {
   "property": "C24",
   "status": "partial",
   "theorems": [
    "C24_not_read_back_partial",
    "C24_outcome_partial",
    "C24_line_break_refuted",
    "C24_generated"
   ],
   "note": "PARTIAL: for names and printed texts without a line break; with one it is false (C24_line_break_refuted). The printers are arbitrary functions."
  },
  {
   "property": "C25",
   "status": "proved",
   "theorems": [
    "C25_sample_run",
    "C25_complete",
    "C25_values",
    "C25_functions",
    "C25_distributions",
    "C25_succeeds",
    "C25_failure",
    "C25_pseudo_fails"
   ],
   "note": ""
  },
  {
   "property": "C26",
   "status": "proved",
   "theorems": [
    "C26_missing_exo",
    "C26_only_if"
   ],
   "note": ""
  },
  {
   "property": "C27",
   "status": "proved",
   "theorems": [
    "C27_minimal",
    "C27_consistent",
    "C27_missing_exo",
    "C27_succeeds",
    "C27_unknown_key"
   ],
   "note": ""
  },
  {
   "property": "C28",
   "status": "proved",
   "theorems": [
    "C28_sum",
    "C28_terms",
    "C28_never_nan",
    "C28_unknown_keys",
    "C28_failure"
   ],
   "note": ""
  },
  {
   "property": "C29",
   "status": "proved",
   "theorems": [
    "C29_sample_chromosome",
    "C29_evaluated",
    "C29_failure"
   ],
   "note": ""
  },
  {
   "property": "C30",
   "status": "partial",
   "theorems": [
    "C30_parents",
    "C30_functions",
    "C30_no_duplicates",
    "C30_reads_only_its_names",
    "C30_parents_suffice",
    "C30_executable",
    "C30_executable_no_name_error_partial",
    "C30_name_error_reason",
    "C30_executable_complete_refuted"
   ],
   "note": "PARTIAL: parents and environment independence hold for every expression; \"is_executable implies no NameError\" is proved only when operators and called functions do not themselves raise NameError (quiet). Completeness refuted."
  },
  {
   "property": "C31",
   "status": "proved",
   "theorems": [
    "C31_missing_parent",
    "C31_parents_only",
    "C31_value",
    "C31_default_parents"
   ],
   "note": "C31_missing_parent, C31_parents_only and C31_value are unconditional; the additional C31_default_parents assumes that operators and functions do not raise NameError (quiet)."
  },
  {
   "property": "C32",
   "status": "partial",
   "theorems": [
    "C32_round_trip_partial",
    "C32_built_values",
    "C32_built_functions",
    "C32_built_distributions",
    "C32_text_argument_refuted",
    "C32_pseudo",
    "C32_text_constant_refuted"
   ],
   "note": "False as worded: pseudo nodes without parents raise TypeError (C32_pseudo), a quoted text among the positional arguments of a distribution loses its quotes and comes back as a parent (C32_text_argument_refuted; C32_built_distributions says exactly when), text constants as stated (C32_text_constant_refuted). All other nodes are proved to come back equal."
  },
  {
   "property": "C33",
   "status": "proved",
   "theorems": [
    "C33_completed",
    "C33_all_fields",
    "C33_complete_already",
    "C33_idempotent",
    "C33_surplus_dropped",
    "C33_key_error",
    "C33_no_other_error",
    "C33_context_lost_refuted"
   ],
   "note": "Stated for definitions that are calls; text around the first call is dropped (C33_context_lost_refuted)."
  },
  {
   "property": "C34",
   "status": "proved",
   "theorems": [
    "C34_call",
    "C34_parents",
    "C34_no_arguments"
   ],
   "note": ""
  },
  {
   "property": "C35",
   "status": "partial",
   "theorems": [
    "C35_blanks",
    "C35_dist",
    "C35_pseudo",
    "C35_assign",
    "C35_exogenous",
    "C35_otherwise",
    "C35_bad_tilde",
    "C35_comment",
    "C35_bad_comment",
    "C35_other_errors_refuted",
    "C35_tab_refuted",
    "C35_known_name"
   ],
   "note": "PARTIAL: \"anything else raises ScriptException\" is false (C35_other_errors_refuted: AttributeError for comment lines and stray ~); all shapes are characterised, with their exact outcome. Only blanks are irrelevant, a tab is not (C35_tab_refuted). The Python parser is an arbitrary function."
  },
  {
   "property": "C36",
   "status": "proved",
   "theorems": [
    "C36_variable_first",
    "C36_shadowed_call",
    "C36_missing_variable",
    "C36_distribution_scope",
    "C36_math_in_distribution_refuted"
   ],
   "note": "Mathematical functions are not available inside distribution arguments (C36_math_in_distribution_refuted)."
  },
  {
   "property": "C37",
   "status": "proved",
   "theorems": [
    "C37_impulse",
    "C37_recomputed",
    "C37_nothing_to_do",
    "C37_not_in_network",
    "C37_failure",
    "C37_plain"
   ],
   "note": ""
  },
  {
   "property": "C38",
   "status": "proved",
   "theorems": [
    "C38_consistency",
    "C38_each",
    "C38_redraws",
    "C38_plain_refuted"
   ],
   "note": "Holds for interventions with a network; without one consistency is lost (C38_plain_refuted)."
  },
  {
   "property": "C39",
   "status": "proved",
   "theorems": [
    "C39_logprob_current",
    "C39_impulse_resets",
    "C39_failure_refuted"
   ],
   "note": "Holds over all histories of successful operations; an intervention that raises midway leaves a stale LogProb (C39_failure_refuted)."
  },
  {
   "property": "C40",
   "status": "proved",
   "theorems": [
    "C40_clone",
    "C40_json",
    "C40_independent",
    "C40_json_shared_refuted",
    "C40_to_data"
   ],
   "note": "Heap model of the Locus dict. clone and from_json(to_json) are independent copies; the exported JSON itself shares the dict (C40_json_shared_refuted)."
  },
  {
   "property": "C41",
   "status": "partial",
   "theorems": [
    "C41_generate_partial",
    "C41_generate_refuted"
   ],
   "note": "PARTIAL: proved when every exogenous name of the group is given or visible in the parent. Otherwise the code replaces the value just computed by None (C41_generate_refuted)."
  },
  {
   "property": "C42",
   "status": "proved",
   "theorems": [
    "C42_lookup",
    "C42_inherits"
   ],
   "note": ""
  },
  {
   "property": "C43",
   "status": "proved",
   "theorems": [
    "C43_breed_refused",
    "C43_breed",
    "C43_wellformed",
    "C43_remove",
    "C43_find_descendant"
   ],
   "note": "A failed breed leaves the tree unchanged; forest shape proved over all histories."
  },
  {
   "property": "C44",
   "status": "proved",
   "theorems": [
    "C44_frame",
    "C44_kept",
    "C44_new_values",
    "C44_consistent",
    "C44_prototypes_refuted"
   ],
   "note": "For nodes held by the core and not assigned themselves. Prototypes are not in Children and are left inconsistent (C44_prototypes_refuted)."
  },
  {
   "property": "C45",
   "status": "partial",
   "theorems": [
    "C45_frozen_partial",
    "C45_created",
    "C45_frozen_refuted"
   ],
   "note": "PARTIAL: proved for actors whose node is not itself assigned; an assigned node whose parent is assigned too keeps a stale actor (C45_frozen_refuted)."
  },
  {
   "property": "C46",
   "status": "proved",
   "theorems": [
    "C46_blueprints",
    "C46_mediators",
    "C46_sample"
   ],
   "note": "C46_blueprints: every compound blueprint made by as_simulation_core meets the hypotheses of C46_mediators."
  },
  {
   "property": "C47",
   "status": "partial",
   "theorems": [
    "C47_evaluated_partial",
    "C47_not_marked",
    "C47_evaluated_refuted"
   ],
   "note": "PARTIAL: proved if the core holds a node that is computed anew; false if it only holds assigned ones (C47_evaluated_refuted)."
  },
  {
   "property": "C48",
   "status": "partial",
   "theorems": [
    "C48_allocation",
    "C48_generate",
    "C48_complete_partial",
    "C48_complete_refuted"
   ],
   "note": "PARTIAL: allocation and consistency are proved as worded. The assignment is complete only if exogenous nodes are given and no definition raises KeyError although its parents have values; C48_complete_refuted: a call of an unknown function is skipped silently."
  },
  {
   "property": "C49",
   "status": "partial",
   "theorems": [
    "C49_succeeds",
    "C49_refused",
    "C49_requested",
    "C49_partition_partial",
    "C49_disjoint_refuted",
    "C49_complete_refuted"
   ],
   "note": "PARTIAL: false in both halves (C49_disjoint_refuted, C49_complete_refuted). Proved: exactly which requests succeed, that requests are met, and the partition for a single node set without fixed requests (the default of as_simulation_core and get_all_float_sc)."
  },
  {
   "property": "C50",
   "status": "proved",
   "theorems": [
    "C50_detach",
    "C50_raises",
    "C50_collect_refuted",
    "C50_prototype_refuted"
   ],
   "note": "Further findings: a failing detach with collect_pars has already overwritten values and left the parent (C50_collect_refuted); detaching a prototype removes a child named prototype (C50_prototype_refuted)."
  },
  {
   "property": "C51",
   "status": "partial",
   "theorems": [
    "C51_log_probabilities",
    "C51_plain_probabilities",
    "C51_zero_sum",
    "C51_selection_partial",
    "C51_log_succeeds",
    "C51_no_weight_refuted",
    "C51_negative_weights_refuted",
    "C51_evidence_refuted"
   ],
   "note": "PARTIAL: Probabilities, sizes and pairing hold when some weight is finite and, on the plain scale, the weights are non-negative with a positive sum; false otherwise (C51_no_weight_refuted, C51_negative_weights_refuted). The contract `fair` on the random choice is a hypothesis. The returned evidence is refuted."
  },
  {
   "property": "C52",
   "status": "partial",
   "theorems": [
    "C52_times",
    "C52_record",
    "C52_fresh",
    "C52_backward_partial",
    "C52_same_time_partial",
    "C52_next",
    "C52_zero_refuted",
    "C52_trajectories",
    "C52_no_trajectories"
   ],
   "note": "PARTIAL: the claims about backward steps and steps to the current time hold for t <> 0 only; step(0) is taken as no argument and advances (C52_zero_refuted). Times and records are proved for all histories."
  },
  {
   "property": "C53",
   "status": "partial",
   "theorems": [
    "C53_uniform_round_trip_partial",
    "C53_value_round_trip_partial",
    "C53_monotone_partial",
    "C53_limits",
    "C53_select",
    "C53_outside",
    "C53_degenerate_refuted"
   ],
   "note": "PARTIAL: round trips and monotonicity for converters with lower < upper and positive scale; for a single-valued domain there is no inverse (C53_degenerate_refuted). Exact real arithmetic."
  },
  {
   "property": "C54",
   "status": "proved",
   "theorems": [
    "C54_range",
    "C54_range_monotone",
    "C54_point",
    "C54_negative_refuted",
    "C54_zero",
    "C54_distribution",
    "C54_same_scale",
    "C54_read",
    "C54_read_refuses",
    "C54_object_name_refuted"
   ],
   "note": "Exact real arithmetic. The stated sign behaviour is proved; further, for a negative target the distance has no lower bound (C54_negative_refuted), for target zero it is never finite (C54_zero), and a target object keeps its own name (C54_object_name_refuted)."
  },
  {
   "property": "C55",
   "status": "proved",
   "theorems": [
    "C55_settings",
    "C55_calls"
   ],
   "note": ""
  },
  {
   "property": "C56",
   "status": "proved",
   "theorems": [
    "C56_sample_ess",
    "C56_sample_ess_returns",
    "C56_nan_accepted",
    "C56_bad_tolerance",
    "C56_tolerance",
    "C56_posteriors",
    "C56_serial_fails",
    "C56_nan_tolerance"
   ],
   "note": "joblib workers run one after the other on one generator. Findings: nan distances are accepted, an inf or nan tolerance raises UnboundLocalError, serial mode never returns."
  },
  {
   "property": "C57",
   "status": "partial",
   "theorems": [
    "C57_initialise_partial",
    "C57_round_partial",
    "C57_fit_partial",
    "C57_rounds",
    "C57_loop_ends",
    "C57_equal_distances",
    "C57_nan_takes_over",
    "C57_without_nan_refuted"
   ],
   "note": "PARTIAL: for models whose distance is never nan and a simulate that notes no wrong distance; C57_without_nan_refuted otherwise. calc_weighted_std is a parameter. Equal distances in the first round raise (C57_equal_distances)."
  },
  {
   "property": "C58",
   "status": "proved",
   "theorems": [
    "C58_raises",
    "C58_copies",
    "C58_returns",
    "C58_fallback",
    "C58_endless"
   ],
   "note": "The KeyError is proved for parallel mode and for particles without note (all that mcmc_proposal mutates, C58_copies); with a note, serially, the fallback works (C58_fallback)."
  },
  {
   "property": "C59",
   "status": "proved",
   "theorems": [
    "C59_wave",
    "C59_waves",
    "C59_count",
    "C59_ends",
    "C59_fit",
    "C59_unbound",
    "C59_none_left",
    "C59_values"
   ],
   "note": "For every generator whose rows are in [0,1). Emulators are parameters. Findings: n_sims given without n_ems raises UnboundLocalError (C59_unbound); equal implausibilities at or above the cut-off raise ValueError (C59_none_left)."
  },
  {
   "property": "C60",
   "status": "partial",
   "theorems": [
    "C60_average",
    "C60_shuffle",
    "C60_scale",
    "C60_mutant_inside_partial",
    "C60_narrow_domain_refuted",
    "C60_tour",
    "C60_importance",
    "C60_too_few",
    "C60_crossover",
    "C60_mutation",
    "C60_ends",
    "C60_generations",
    "C60_own_mutant_refuted"
   ],
   "note": "PARTIAL: mutation stays inside only for domains at least 2 eps wide (C60_narrow_domain_refuted otherwise), draws that are not nan and monotone rounding. Index mismatch: C60_mutation and C60_own_mutant_refuted. The modules import packages that do not exist; transcribed as if they did."
  },
  {
   "property": "C61",
   "status": "partial",
   "theorems": [
    "C61_probabilities_partial",
    "C61_logpdf_partial",
    "C61_zero_total_refuted",
    "C61_zero_weight_refuted",
    "C61_logpdf_unknown",
    "C61_logpdf_counts",
    "C61_const"
   ],
   "note": "PARTIAL: Probabilities need a non-zero total (C61_zero_total_refuted); \"only if the weights sum to one\" needs a positive weight (C61_zero_weight_refuted). Const is as worded, including +inf off its value."
  },
  {
   "property": "C62",
   "status": "proved",
   "theorems": [
    "C62_distance",
    "C62_likelihood",
    "C62_stored",
    "C62_flattened_once",
    "C62_stale_refuted",
    "C62_serve",
    "C62_restore_refuted",
    "C62_evaluate_prior",
    "C62_free",
    "C62_domain"
   ],
   "note": "Proved as stated. Findings beyond it: the cached distance is not refreshed when Sims is replaced (C62_stale_refuted), and a chromosome restored from JSON keeps its old LogProb although exogenous values override (C62_restore_refuted)."
  },
  {
   "property": "C63",
   "status": "partial",
   "theorems": [
    "C63_sum",
    "C63_other_keys",
    "C63_permuted",
    "C63_missing",
    "C63_levels_refuted",
    "C63_logistic",
    "C63_poisson",
    "C63_offset_refuted",
    "C63_multinomial_partial",
    "C63_no_class_refuted",
    "C63_softmax_refuted",
    "C63_table",
    "C63_table_refuted",
    "C63_entry_types"
   ],
   "note": "PARTIAL: The sum and the ranges hold as worded; sum to one needs at least one class (C63_no_class_refuted). Findings: levels unchecked, offset ignored, probabilities are not the softmax, duplicate labels lose probability. Transcribed as if the import of epidag worked."
  },
  {
   "property": "C64",
   "status": "partial",
   "theorems": [
    "C64_admissible_partial",
    "C64_uniform_refuted",
    "C64_raises"
   ],
   "note": "PARTIAL: unif does not require min < max (C64_uniform_refuted); all other creators proved."
  },
  {
   "property": "C65",
   "status": "partial",
   "theorems": [
    "C65_mean_partial",
    "C65_invgamma",
    "C65_lognormal_never",
    "C65_lognormal_refuted",
    "C65_defaults",
    "C65_defaults_refuted"
   ],
   "note": "PARTIAL: lnorm never has the mean its parameters denote (C65_lognormal_never) and the default of invgamma violates its own constraint (C65_defaults_refuted); the rate of invgamma is the reciprocal of its scale, which C65_invgamma tells from the rate of the gamma distribution it inverts."
  },
  {
   "property": "C66",
   "status": "partial",
   "theorems": [
    "C66_inverse",
    "C66_increasing",
    "C66_sample_partial",
    "C66_no_draw",
    "C66_risk_ratio",
    "C66_cox",
    "C66_zero_inflated",
    "C66_logpdf_never",
    "C66_logpdf_refuted",
    "C66_zi_logpdf",
    "C66_mean_exponential",
    "C66_mean_refuted",
    "C66_weibull_mean_refuted",
    "C66_weibull_ratio_refuted",
    "C66_std_refuted"
   ],
   "note": "PARTIAL: Inverse, monotonicity, draws and zero inflation hold for positive parameters; mean, std and logpdf are false (C66_mean_refuted, C66_std_refuted, C66_logpdf_refuted). EmpiricalHazard and find_baseline: C89; transcribed as if the import of epidag worked."
  },
  {
   "property": "C67",
   "status": "proved",
   "theorems": [
    "C67_deep_value",
    "C67_prior",
    "C67_deep",
    "C67_after",
    "C67_breed"
   ],
   "note": ""
  },
  {
   "property": "C68",
   "status": "partial",
   "theorems": [
    "C68_places",
    "C68_sampler",
    "C68_other_core_partial",
    "C68_other_core_refuted"
   ],
   "note": "PARTIAL: the distribution is right when the sampler is made and stays so while other samplers are made for cores that see the same values in the names read; false otherwise (C68_other_core_refuted)."
  },
  {
   "property": "C69",
   "status": "partial",
   "theorems": [
    "C69_exo_partial",
    "C69_exo_refuted"
   ],
   "note": "PARTIAL: for trees in which of several siblings only the last has children; C69_exo_refuted otherwise."
  },
  {
   "property": "C70",
   "status": "proved",
   "theorems": [
    "C70_members",
    "C70_posterior"
   ],
   "note": "The wording excludes nan distances; simulate is assumed not to note a wrong distance itself (honest), np.random.choice to return indices of positive probability (fair)."
  },
  {
   "property": "C71",
   "status": "partial",
   "theorems": [
    "C71_training",
    "C71_prediction",
    "C71_same_scale_refuted"
   ],
   "note": "Violation: C71_same_scale_refuted; the two sides are C71_training and C71_prediction."
  },
  {
   "property": "C72",
   "status": "partial",
   "theorems": [
    "C72_best_of_generation",
    "C72_best_kept_refuted",
    "C72_target_not_selected"
   ],
   "note": "Violations: C72_best_kept_refuted, C72_target_not_selected; C72_best_of_generation is what holds (without nan)."
  },
  {
   "property": "C73",
   "status": "proved",
   "theorems": [
    "C73_text_kept",
    "C73_ignored",
    "C73_one_bad_line",
    "C73_comment_line"
   ],
   "note": "The Python parser is an arbitrary function."
  },
  {
   "property": "C74",
   "status": "proved",
   "theorems": [
    "C74_network",
    "C74_line_order",
    "C74_circular",
    "C74_redefined"
   ],
   "note": "The Python parser is an arbitrary function."
  },
  {
   "property": "C75",
   "status": "partial",
   "theorems": [
    "C75_table_partial",
    "C75_condition_partial",
    "C75_marginal_partial",
    "C75_operations_defined",
    "C75_returns_a_row",
    "C75_call_partial",
    "C75_impossible",
    "C75_scale",
    "C75_duplicates_refuted",
    "C75_colon_refuted"
   ],
   "note": "Holds for distinct combinations of colon-free values; violations: C75_duplicates_refuted, C75_colon_refuted."
  },
  {
   "property": "C76",
   "status": "proved",
   "theorems": [
    "C76_call",
    "C76_unknown",
    "C76_sample"
   ],
   "note": "The modules of data/ import a package that is not part of the repository; they are transcribed as if the import worked."
  },
  {
   "property": "C77",
   "status": "partial",
   "theorems": [
    "C77_closest",
    "C77_inside",
    "C77_outside_refuted",
    "C77_tables",
    "C77_lee_carter"
   ],
   "note": "Holds for rows in the order of time and inside the range; violation: C77_outside_refuted. Other kinds of interpolation are not modelled."
  },
  {
   "property": "C78",
   "status": "proved",
   "theorems": [
    "C78_stops",
    "C78_counters",
    "C78_fit"
   ],
   "note": "In both directions (C78_stops): the returned state is the first exhausted one. A tolerance that becomes nan resets the counter Stay."
  },
  {
   "property": "C79",
   "status": "proved",
   "theorems": [
    "C79_within_bounds",
    "C79_plausible_refuted"
   ],
   "note": "For every generator whose rows are in [0,1), every network coherent and fresh, and a simulate that keeps the parameters it is given. Finding: a particle may be implausible (C79_plausible_refuted)."
  },
  {
   "property": "C80",
   "status": "proved",
   "theorems": [
    "C80_built",
    "C80_sample",
    "C80_determined",
    "C80_line_order"
   ],
   "note": "Scripts as in C74 (plain lines, different names, no circle). The failure cases are complete: C80_sample says what every outcome means."
  },
  {
   "property": "C81",
   "status": "proved",
   "theorems": [
    "C81_no_objective",
    "C81_missing_method",
    "C81_serve",
    "C81_inherited_evaluate"
   ],
   "note": "Finding: the methods is_prior_evaluated and is_likelihood_evaluated exist nowhere in the repository."
  },
  {
   "property": "C82",
   "status": "proved",
   "theorems": [
    "C82_draw",
    "C82_ends",
    "C82_last_draw_lost_refuted"
   ],
   "note": "In both directions (C82_draw) for objectives whose methods may do anything; finding: C82_last_draw_lost_refuted."
  },
  {
   "property": "C83",
   "status": "proved",
   "theorems": [
    "C83_never_a_mutant",
    "C83_endless",
    "C83_parallel_fails",
    "C83_served",
    "C83_evaluated"
   ],
   "note": "Finding: the else branch of the while loop replaces the accepted mutant; JSON of chromosomes lacks the keys serve_from_json reads."
  },
  {
   "property": "C84",
   "status": "proved",
   "theorems": [
    "C84_fails",
    "C84_serial",
    "C84_parallel",
    "C84_evaluations_refuted"
   ],
   "note": "Findings: ParameterSet has no method finish; N_Eval is not the number of evaluations (C84_evaluations_refuted)."
  },
  {
   "property": "C85",
   "status": "proved",
   "theorems": [
    "C85_fixed",
    "C85_floating"
   ],
   "note": "Finding: values given are reported as free, and with floating nodes only those are."
  },
  {
   "property": "C86",
   "status": "proved",
   "theorems": [
    "C86_sample",
    "C86_generate",
    "C86_logprob"
   ],
   "note": "C86_sample: generate implies sample; C86_generate: the converse; C86_logprob: LogProb and evaluate_nodes, equal up to the order of the terms and nan. No value may have the name of a distribution that is called (hypothesis of C86_logprob)."
  },
  {
   "property": "C87",
   "status": "proved",
   "theorems": [
    "C87_construct",
    "C87_within",
    "C87_monotone",
    "C87_distribution",
    "C87_scale"
   ],
   "note": "Sum of weights zero (nan) is outside the model. interp1d is transcribed from scipy (linear, finite numbers)."
  },
  {
   "property": "C88",
   "status": "partial",
   "theorems": [
    "C88_outside",
    "C88_weight",
    "C88_mean_refuted",
    "C88_scale_refuted"
   ],
   "note": "PARTIAL: worded as violation. C88_outside and C88_weight for all inputs, C88_mean_refuted and C88_scale_refuted with witnesses."
  },
  {
   "property": "C89",
   "status": "proved",
   "theorems": [
    "C89_never",
    "C89_baseline",
    "C89_raises"
   ],
   "note": "A list of two numbers as fill_value is rejected by scipy (broadcast to one number); parameters that are not numbers are a TypeError in the model, in the code only when used."
  },
  {
   "property": "C90",
   "status": "partial",
   "theorems": [
    "C90_complete_partial",
    "C90_default",
    "C90_single_refuted",
    "C90_hoist_refuted",
    "C90_undefined_refuted",
    "C90_floating_refuted"
   ],
   "note": "PARTIAL: false as worded. C90_complete_partial for closed and supplied groups, C90_default for the default, all-floating and all-fixed cores of networks without pseudo nodes; witnesses C90_single_refuted (one node set with a mediator of a random parent), C90_hoist_refuted (nothing random), C90_undefined_refuted (a node nobody asked for), C90_floating_refuted (parent of a floating node)."
  },
  {
   "property": "C91",
   "status": "proved",
   "theorems": [
    "C91_steps",
    "C91_range",
    "C91_scale",
    "C91_zero",
    "C91_infinite"
   ],
   "note": "Real arithmetic: rounding of floating point numbers is not modelled, with it a population that agrees may get a tiny step."
  },
  {
   "property": "C92",
   "status": "partial",
   "theorems": [
    "C92_proposal",
    "C92_forgets",
    "C92_agreed",
    "C92_agreed_refuted"
   ],
   "note": "PARTIAL: worded as violation. C92_proposal, C92_forgets and C92_agreed for all inputs; C92_agreed_refuted: two copies of one particle and a proposal with another value."
  },
  {
   "property": "C93",
   "status": "proved",
   "theorems": [
    "C93_steps",
    "C93_smc_simulates",
    "C93_abc_simulates",
    "C93_population",
    "C93_abc_posterior",
    "C93_parents_refuted"
   ],
   "note": "The step sizes are any function giving steps to random nodes only, which calc_weighted_std does (C93_steps). Beyond the wording: C93_parents_refuted shows that a starting value above a given node overwrites the given value in the population."
  },
  {
   "property": "C94",
   "status": "partial",
   "theorems": [
    "C94_simulates",
    "C94_never_fits",
    "C94_complete_refuted"
   ],
   "note": "False of the code: C94_simulates and C94_never_fits prove the behaviour described for all models, C94_complete_refuted gives a model that simulates all valid parameters and whose fit ends in KeyError."
  },
  {
   "property": "C95",
   "status": "partial",
   "theorems": [
    "C95_handles",
    "C95_not_a_name",
    "C95_entries",
    "C95_listing_partial",
    "C95_builtins",
    "C95_definition",
    "C95_listing_refuted"
   ],
   "note": "False as worded because of the name __builtins__ (C95_builtins, C95_listing_refuted); everything else is proved for all histories. A class registered under the name __builtins__ is not modelled as hiding the builtins."
  },
  {
   "property": "C96",
   "status": "partial",
   "theorems": [
    "C96_history",
    "C96_same_fit",
    "C96_smc_partial",
    "C96_ga_partial",
    "C96_reuse_refuted",
    "C96_same_ga"
   ],
   "note": "C96_history, C96_same_fit and C96_same_ga for all sequences of fits; C96_smc_partial and C96_ga_partial for the first fit of a fitter; C96_reuse_refuted: two equal fits, the second trace has four rows for one round and the tolerance rises in it. The entries Eval and MeanFitness are left out."
  },
  {
   "property": "C97",
   "status": "proved",
   "theorems": [
    "C97_round",
    "C97_first_round",
    "C97_few"
   ],
   "note": ""
  },
  {
   "property": "C98",
   "status": "proved",
   "theorems": [
    "C98_finite",
    "C98_positive",
    "C98_fit",
    "C98_zero",
    "C98_two_step",
    "C98_prior"
   ],
   "note": ""
  },
  {
   "property": "C99",
   "status": "proved",
   "theorems": [
    "C99_iteration",
    "C99_own",
    "C99_sample_inherited",
    "C99_evaluate",
    "C99_joint",
    "C99_contains_refuted",
    "C99_sample_refuted"
   ],
   "note": ""
  },
  {
   "property": "C100",
   "status": "proved",
   "theorems": [
    "C100_exact",
    "C100_unchanged",
    "C100_stale",
    "C100_matching",
    "C100_changed_refuted"
   ],
   "note": ""
  },
  {
   "property": "C101",
   "status": "proved",
   "theorems": [
    "C101_family",
    "C101_breed",
    "C101_loose",
    "C101_values",
    "C101_prior",
    "C101_mirror",
    "C101_address_refuted",
    "C101_sibling_refuted",
    "C101_detach_refuted"
   ],
   "note": ""
  },
  {
   "property": "C102",
   "status": "proved",
   "theorems": [
    "C102_inside",
    "C102_quantile",
    "C102_quantile_refuted",
    "C102_constant",
    "C102_integers"
   ],
   "note": ""
  },
  {
   "property": "C103",
   "status": "proved",
   "theorems": [
    "C103_labels_refuted",
    "C103_equal_refuted"
   ],
   "note": ""
  },
  {
   "property": "C104",
   "status": "proved",
   "theorems": [
    "C104_kept_refuted"
   ],
   "note": ""
  },
  {
   "property": "C105",
   "status": "proved",
   "theorems": [
    "C105_ends",
    "C105_within",
    "C105_largest",
    "C105_exact",
    "C105_wave",
    "C105_mse",
    "C105_undefined"
   ],
   "note": ""
  },
  {
   "property": "C106",
   "status": "proved",
   "theorems": [
    "C106_cox",
    "C106_ratio",
    "C106_zero",
    "C106_missing",
    "C106_expectation",
    "C106_zi_expectation",
    "C106_rate_refuted"
   ],
   "note": ""
  },
  {
   "property": "C107",
   "status": "proved",
   "theorems": [
    "C107_sample",
    "C107_frozen",
    "C107_names",
    "C107_get_sampler",
    "C107_get_samplers",
    "C107_child",
    "C107_never_fails",
    "C107_single"
   ],
   "note": ""
  },
  {
   "property": "C108",
   "status": "partial",
   "theorems": [
    "C108_arguments",
    "C108_json",
    "C108_evaluated",
    "C108_parents",
    "C108_json_ambiguous_refuted"
   ],
   "note": "PARTIAL: all proved except that the JSON form tells a text argument from a missing name, which C108_json_ambiguous_refuted refutes."
  },
  {
   "property": "C109",
   "status": "proved",
   "theorems": [
    "C109_row",
    "C109_errors",
    "C109_sample"
   ],
   "note": ""
  },
  {
   "property": "C110",
   "status": "proved",
   "theorems": [
    "C110_total",
    "C110_direction",
    "C110_report",
    "C110_targets"
   ],
   "note": ""
  },
  {
   "property": "C111",
   "status": "proved",
   "theorems": [
    "C111_cells",
    "C111_complete",
    "C111_smc",
    "C111_abc",
    "C111_hme",
    "C111_pars_smc",
    "C111_pars_abc"
   ],
   "note": ""
  },
  {
   "property": "C112",
   "status": "proved",
   "theorems": [
    "C112_train",
    "C112_ready",
    "C112_wave",
    "C112_never_unready"
   ],
   "note": ""
  },
  {
   "property": "C113",
   "status": "proved",
   "theorems": [
    "C113_local",
    "C113_shared",
    "C113_get",
    "C113_reset"
   ],
   "note": ""
  },
  {
   "property": "C114",
   "status": "proved",
   "theorems": [
    "C114_described",
    "C114_undescribed",
    "C114_json",
    "C114_text_refuted",
    "C114_sample",
    "C114_categories"
   ],
   "note": ""
  },
  {
   "property": "C115",
   "status": "proved",
   "theorems": [
    "C115_mean",
    "C115_bounds",
    "C115_order",
    "C115_type",
    "C115_table"
   ],
   "note": ""
  },
  {
   "property": "C116",
   "status": "proved",
   "theorems": [
    "C116_density",
    "C116_agree",
    "C116_no_draws",
    "C116_seed_refuted"
   ],
   "note": ""
  },
  {
   "property": "C117",
   "status": "proved",
   "theorems": [
    "C117_agree",
    "C117_no_draws"
   ],
   "note": ""
  },
  {
   "property": "C118",
   "status": "proved",
   "theorems": [
    "C118_bare",
    "C118_offered",
    "C118_numbers",
    "C118_unknown",
    "C118_independent",
    "C118_alg"
   ],
   "note": ""
  },
  {
   "property": "C119",
   "status": "proved",
   "theorems": [
    "C119_intervention",
    "C119_exogenous_refuted"
   ],
   "note": ""
  }
 ]
}