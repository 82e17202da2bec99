# Formal model of sims-pars: design

The subject is the Python package in `/repo/src/sims_pars`. It is read as text
and never run. The model and all proofs are Rocq (Coq 8.16.1), standard library
only, in `rocq/theories`.

## Approach

* Every Python function is transcribed to a small total Gallina function, branch
  by branch. The comment above each definition cites file and lines.
* Python exceptions are values: `res A := Ok a | Err e`. Functions that mutate
  and then raise return the outcome **and** the state that is left behind, so
  that non-atomic failures are visible.
* Python dicts are association lists with insertion order; sets are lists, and
  wherever the iteration order of a set matters the theorem ranges over every
  list with these elements.
* A networkx `DiGraph` is a list of nodes and a list of edges in insertion
  order. The used networkx functions (BFS reachability, Kahn's topological
  sort, simple paths, compose, freeze) are modelled executably and proved
  correct against an independent specification (paths as inductive relations).
* Randomness, special functions, and Python's arithmetic are parameters (a record
  `world`): all theorems hold for every interpretation and every random stream.
* Specifications live in `Spec*.v`, the model in `Model*.v`, proofs in
  `Proof*.v`. `Props*.v` contain only the property theorems, the concrete
  non-trivial examples beside them, and `Print Assumptions`.
* If a natural claim is false for the code, the counterexample is a theorem with
  suffix `_refuted`; if only a part holds, the suffix is `_partial`.

## Plan per property

| id | modelled | how proved |
|---|---|---|
| C01 | BFS of networkx, DAG.ancestors... | loop invariant of BFS; equivalence with transitive closure |
| C02 | Kahn's algorithm as in networkx | invariant on in-degree map; pigeonhole for the failing side |
| C03, C04 | filter of the order / nodes | from C02 |
| C05 | all_simple_paths enumeration, subgraph copy | path splitting lemma |
| C06 | loop over conditions | closed form by induction; diamond counterexample |
| C07, C08 | edge cutting + ancestors + fold | least fixed point characterisation |
| C09-C11 | node/edge removal, compose | list induction |
| C12-C15 | append_loci with state left after failures | invariant `coherent`, induction over histories |
| C16-C18 | complete/defrost/find_* | invariant |
| C19-C22 | copy, clone, merge, extend | induction over node list, counterexamples by computation |
| C23 | has_randomness, is_deterministic | from C06 |
| C24 | script writer and reader on strings | string induction |
| C25-C29 | fn.py | induction along the topological order, all random streams |
| C30, C31, C36 | expression trees and eval lookup | structural induction |
| C32-C35 | JSON of nodes, complete_def, parse_function, parse_loci | induction on argument lists / strings |
| C37-C40 | chromosome.py | induction along the topological order |
| C41-C47, C50, C67, C68 | simulation/*.py, a heap of cores | invariants over histories, induction on generations |
| C48, C49, C69, C90 | nodeset.py, the phases of inject_bn on trees | tree induction, an invariant per phase |
| C51, C52 | util.resample, monitor.py | list induction, invariant over histories |
| C53, C54, C61, C63 | over the reals (`Reals`) | algebra and monotonicity |
| C55, C62 | fit/base.py | list induction |
| C56-C59 | algorithm loops with simulation outcomes as streams | invariants over rounds |
| C60 | operators on populations | list induction |
| C91, C92 | step sizes as weighted sums, proposals of ABC-SMC | algebra of weighted sums, induction over the loop |
| C95 | workshops as mutable objects in a registry | invariants over histories of calls |
| C96 | fitter loops with the monitor threaded through | runs as an inductive relation, rows by induction |
| C97 | a_round of ModelSMC | round unfolded up to the resampling; rank of a quantile by sortedness |
| C98 | targets as read put into the fitter (ModelToys.v); a second network as simulation | sums of targets, C57 instantiated; invariants of sampling |
| C99 | cores used as containers (ModelCont.v) | induction over the lineage of a core |
| C100 | functools.lru_cache on AbsData.ev (ModelCache.v) | invariant: the cache is the 128 most recent keys of the log |
| C101 | PseudoParameterCore, a heap of its own (ModelGhost.v) | invariant over all calls; simulation of histories of real cores |
| C102 | intervals, means and variances of the prior families, composed with creators and converters (ModelSearch.v) | C53 and C64 composed; inverse of the exponential |
| C103 | predict and get_sampler of the linear, logistic, Poisson and multinomial regressions (ModelPredict.v) | C63 composed with the creators; injectivity of decimal writing |
| C104 | node sets as objects in a heap: new_child, add_child, inject_bn, defrost, and SimulationCore/clone made from them (ModelLife.v) | invariant over all calls; injection writes exactly the attributes of the tree |
| C105 | implausibility and mean squared error of ModelHME.v | case analysis of numpy's arithmetic, maxima and means of lists |
| C106 | get_sampler, predict and expectation of the survival regressions (ModelSurv.v) | C63 and C66 composed |
| C107 | Sampler.sample, list_actors, get_sampler, get_samplers, get_child_samplers (ModelDraw.v) | invariant over all histories: the names of actors never change; induction over calls |
| C108 | ParsedFunction.get_arguments, to_blueprint, to_json, EvaluatedFunction, evaluate_function (ModelArgs.v) | equivalences over the list of arguments; agreement of environments |
| C109 | TimeSeriesVector, AbsDataSet.sample (ModelSeries.v) | the row chosen depends on the times only (naturality of ts_call) |
| C110 | EpiSIR (ModelSir.v), the solver as any explicit Runge-Kutta method | invariant over all states a method meets; real inequalities |
| C111 | ParameterSet.to_df, to_pred_df (ModelExport.v), the posterior samples of ModelABC, ModelSMC, ModelHME | what every particle kept has (invariant over rounds); keys of dictionaries |
| C112 | AbsEmulator, GPREmulator (ModelEmul.v), inside the fits of ModelHME | outcome analysis; induction over trainings and over waves; no part of a wave raises AssertionError |
| C113 | put_local_actors, put_shared_actors, reset_sc (ModelPut.v) on the cores of ModelSim | frame of a change of one core; actors made from blueprints are up to date (ProofSimActors) |
| C114 | AbsDistribution, sample, Atelier.create with append_src (ModelDescr.v) | outcome analysis; field names of the families are told apart; induction over draws |
| C115 | Chromosome.mean, to_data_frame (ModelMean.v, tables of ModelExport) | columns of a table are those of its dictionaries; induction over genes; permutations |
| C116 | sample, evaluate_nodes of ModelSample on two networks with the same definitions in different orders | a value computed once is computed again wherever the parents have the same values; runs agree by induction |
| C117 | sample, sample_minimally of ModelSample | the same, for the nodes that are needed |
| C118 | get_crossover, get_mutator, get_selector, GeneticAlg.__init__ (ModelRecipe.v) on the workshops of ModelAtelier | the workshops only ever gain the entry of builtins; completion of a call (ProofExpr) |
| C119 | impulse and sample (ModelSample.v) | both loops run side by side over the same order; what is still to be computed is absent on one side and unread on the other |
| C93, C94 | what simulate is called with, what populations hold | extensionality of all calls, invariants over rounds |

## Not expressible / not attempted

* Distributional correctness of random draws (numpy/scipy): only the interface is
  modelled.
* Floating-point rounding: arithmetic is exact or abstract.
* pandas output frames, plots, joblib scheduling, tqdm output.

## Trusted base

* The Coq 8.16.1 kernel, including its `vm_compute` reduction.
* The standard library axioms listed at the end of this file; none are added here.
* The transcription: the code is not run, so nothing but reading ties model and
  code together. Each definition cites the lines it transcribes.

### Modelled

* bayesnet/dag.py, bn.py, loci.py, chromosome.py; fn.py. Text (ModelScript.v) is a list of ASCII
  characters; the regular expressions are matched by a small greedy backtracking matcher
* util.py: expressions and parse_function; factory: complete_def
* factory/craftstation.py and get_atelier as mutable workshops (ModelAtelier.v)
* the traces of ABC-SMC and of the genetic algorithm (ModelTrace.v): the loops with the monitor, for several fits of one fitter
* models made of targets as read (ModelToys.v): read_targets joined to DataModel, and toys.py BetaBin.simulate; the simulations of Normal2 and EpiSIR only as any function that returns a new particle (scipy not modelled)
* monitor.py; fit/base.py (Particle, DataModel, Fitter settings); fit/converter.py;
  fit/targets/single.py and read_targets
* AbsData.ev with functools.lru_cache, transcribed as a list in order of use (ModelCache.v); one thread
* simulation/: actor.py, simugroup.py, simucore.py (generate), parcore.py. Cores are
  mutable objects that refer to each other, so they live in a heap (`cores`), and
  the theorems quantify over everything a program can do to it (`history`). Not
  included: printing and clone(copy_sc=True) (SimulationCore.clone itself: ModelLife.v). PseudoParameterCore is in ModelGhost.v,
  without the methods that always raise because SG is None
* prob.py: Interval of the wrappers, and means and variances of the scipy families as documented,
  assumed right (ModelSearch.v)
* data/reg/linear.py and glm.py: predict and get_sampler (ModelPredict.v); numpy's binomial, poisson and choice are parameters
  with the refusals numpy documents, and the text given to parse_distribution is replaced by the call of the creator
* data/reg/survival.py: get_sampler, predict and expectation (ModelSurv.v), as if the import of epidag worked; draws are arguments
* actor.py and parcore.py: Sampler.sample, list_actors, get_sampler, get_samplers and get_child_samplers (ModelDraw.v)
* util.py:165-268, arguments, blueprints and JSON forms of parsed and evaluated functions (ModelArgs.v)
* data/timeseries.py TimeSeriesVector and data/frame.py AbsDataSet.sample (ModelSeries.v)
* fit/toys.py EpiSIR: derivative, report and targets; solve_ivp is a parameter (ModelSir.v)
* fit/results.py to_df, to_pred_df; a pandas table is its column names and cells (ModelExport.v)
* fit/hme/emulator.py; numpy arrays, GPR, the optimiser and predict_f of gpflow are parameters without laws (ModelEmul.v)
* put_local_actors, put_shared_actors and reset_sc called from outside (ModelPut.v); samplers made before actors are put again are not followed
* text, JSON and samples of distributions (ModelDescr.v); scipy's rvs, np.round and numpy's choice are parameters without laws, choice raising as documented
* Chromosome.mean and to_data_frame (ModelMean.v) with pandas' table and its mean written out; summarise (describe of pandas) is not modelled
* the lookup of the operators of the genetic algorithm (ModelRecipe.v); Python's reader and pydantic's classes are parameters without laws
* node sets as objects (ModelLife.v), over the allocation of ModelNodeSet.v. How an injection below a parent or of node sets that
  are not a tree ends, and which attributes an injection leaves that raises on its way, is a parameter (`wild`). Simulation cores
  copy what they take from a node set, so they are values
* cores as containers: in, keys, len, iter, dict(core), and sample and evaluate_nodes given a core (ModelCont.v);
  as everywhere, the keys of a dict are distinct (`proper`)
* simulation/nodeset.py (a tree of node sets, sets as lists without duplicates; where the code
  iterates over a set the model takes one fixed order) and fn.py
* util.resample; prob.py: Const, CategoricalRV, EmpiricalRV and the creators; data/reg: linear.py,
  glm.py, hazard.py and survival.py; scipy's interp1d is transcribed for linear interpolation.
  data/reg imports a package `epidag` that is not in the repository; it is
  transcribed as if that import gave the classes of the same names
* fit/abcom/alg.py and fit/abc_smc/alg.py (calc_weighted_std in ModelSpread.v, a parameter of
  ModelSMC.v): loops take fuel, a result `None` means the loop is still running, and the theorems hold for every fuel; joblib tasks run
  one after the other on one generator (any generator type, so it may have one part per worker)
* fit/hme/alg.py: the emulators (gpflow), the Latin hypercube and the random rows are parameters
* fit/ga: alg.py (except collect), cross.py, mutate.py, select.py; the attributes LogLikelihood,
  LogPosterior and ParameterList and the packages these modules import are missing from the
  repository, the model is of the code as if they were there
* data/static.py and data/timeseries.py (ModelTable.v), frames as lists of rows; they import
  `epidag` as well
* the older package fitting/ (ModelLegacy.v): base.py, util.py, fitter.py, as if the names they import
  from the package existed; attributes that an object does not have raise AttributeError

### Not modelled (so far)

* fit/hme/emulator.py, fitting/cases.py; of prob.py the densities of scipy distributions.
* data/: interpolation other than 'nearest', frame.py.
* Text: characters beyond ASCII; the Python parser and printer (ast.parse, str) are arbitrary functions.
* Floating-point rounding and overflow: real arithmetic is exact.
* Distributional correctness of numpy/scipy draws; only their interface.
* pandas frames, plots, joblib scheduling, progress output.

### Status of claims

A claim is `proved` only if the property holds as worded for the model. If the
wording needs an extra hypothesis the claim is `partial`, its theorems carry the
suffix `_partial`, and where the full wording is false a `_refuted` theorem has
the witness. Worlds (`world`) carry no laws; `quiet` (functions do not raise
NameError) is an explicit hypothesis where used.

### Mutation tests

`seeded/LOG.jsonl`, one line per edit. The field `result` separates edits that
made a property theorem fail from edits that stopped at a lemma below it (there
the theorem was not reached, which is weaker evidence), edits that preserve
behaviour, and survivors.

### Axioms per theorem

From the output of `Print Assumptions` (572 theorems).

* No axioms ("Closed under the global context"):
  C119_intervention, C119_exogenous_refuted, C118_bare, C118_offered, C118_numbers, C118_unknown, C118_independent, C118_alg, C116_density, C116_agree, C116_no_draws, C116_seed_refuted, C117_agree, C117_no_draws, C108_arguments, C108_json, C108_evaluated, C108_parents, C108_json_ambiguous_refuted, C95_handles, C95_not_a_name, C95_entries, C95_listing_partial, C95_builtins, C95_definition, C95_listing_refuted, C12_built_wellformed, C12_parents_are_mentioned, C12_parents_are_mentioned_dist, C13_last_definition_wins, C14_rejected_iff, C14_rejected_state, C14_rollback_refuted, C15_redefinition_fails, C15_incoherent_after, C16_complete_freezes, C16_frozen_forever, C16_views_always_fresh, C16_defrost_restores, C17_rv_roots, C18_exo, C18_classification, C18_partition, C23_randomness, C23_randomness_given, C23_deterministic, C23_deterministic_refuted, C23_given_refuted, C19_copy_partial, C19_text_constant_refuted, C20_clone_fails, C20_clone_key_error, C20_reader, C21_merge_partial, C21_merge_union_partial, C21_merge_name, C21_lost_never_kept_partial, C21_merge_refuted, C22_extend_fresh, C22_extend_existing, C22_extend_override_refuted, C100_exact, C100_unchanged, C100_stale, C37_impulse, C37_recomputed, C37_nothing_to_do, C37_not_in_network, C37_failure, C37_plain, C38_consistency, C38_each, C38_redraws, C38_plain_refuted, C39_logprob_current, C39_impulse_resets, C39_failure_refuted, C40_clone, C40_json, C40_independent, C40_json_shared_refuted, C40_to_data, C99_iteration, C99_own, C99_sample_inherited, C99_evaluate, C99_joint, C99_contains_refuted, C99_sample_refuted, C67_deep_value, C68_places, C114_sample, C107_sample, C107_frozen, C107_names, C107_get_sampler, C107_get_samplers, C107_child, C107_never_fails, C107_single, C112_train, C112_ready, C80_built, C80_sample, C80_determined, C80_line_order, C111_cells, C111_complete, C30_parents, C30_functions, C30_no_duplicates, C30_reads_only_its_names, C30_parents_suffice, C30_executable, C30_executable_no_name_error_partial, C30_name_error_reason, C30_executable_complete_refuted, C31_missing_parent, C31_parents_only, C31_value, C31_default_parents, C32_round_trip_partial, C32_built_values, C32_built_functions, C32_built_distributions, C32_text_argument_refuted, C32_pseudo, C32_text_constant_refuted, C33_completed, C33_all_fields, C33_complete_already, C33_idempotent, C33_surplus_dropped, C33_key_error, C33_no_other_error, C33_context_lost_refuted, C34_call, C34_parents, C34_no_arguments, C36_variable_first, C36_shadowed_call, C36_missing_variable, C36_distribution_scope, C36_math_in_distribution_refuted, C55_settings, C55_calls, C62_distance, C62_likelihood, C62_stored, C62_flattened_once, C62_stale_refuted, C62_serve, C62_restore_refuted, C62_evaluate_prior, C62_free, C62_domain, C85_fixed, C85_floating, C86_sample, C86_generate, C86_logprob, C101_family, C101_breed, C101_loose, C101_values, C101_prior, C101_mirror, C101_address_refuted, C101_sibling_refuted, C101_detach_refuted, C01_ancestors_exact, C01_descendants_exact, C01_upstream_exact, C01_downstream_exact, C02_order_topological, C02_check_acyclic, C02_order_respects_paths, C03_sort_exact, C03_sort_selection_only, C04_roots_leaves_exact, C04_insertion_order, C05_minimal_dag, C06_minimal_requirements_closed_form, C06_conditions_as_set, C06_sufficiency_refuted, C07_sufficient_nodes_least, C07_sufficient_nodes_errors, C08_minimal_nodes, C08_minimal_nodes_without_given_fails, C09_remove_upstream, C09_remove_downstream, C09_removes_closure_refuted, C10_remove_out_edges, C10_remove_in_edges_never_works, C11_merge_is_union, C11_merge_keeps_acyclic_refuted, C81_no_objective, C81_missing_method, C81_serve, C81_inherited_evaluate, C82_draw, C82_ends, C83_never_a_mutant, C83_endless, C83_parallel_fails, C83_served, C83_evaluated, C84_fails, C84_serial, C84_parallel, C104_frozen, C104_children, C104_core, C104_unset, C104_extended, C104_defrost, C104_aside, C104_kept_refuted, C115_table, C52_times, C52_record, C52_fresh, C52_backward_partial, C52_same_time_partial, C52_next, C52_zero_refuted, C52_trajectories, C52_no_trajectories, C46_blueprints, C48_allocation, C48_generate, C48_complete_partial, C48_complete_refuted, C49_succeeds, C49_refused, C49_requested, C49_partition_partial, C49_disjoint_refuted, C49_complete_refuted, C69_exo_partial, C69_exo_refuted, C113_local, C113_shared, C113_get, C113_reset, C63_table, C25_sample_run, C25_complete, C25_values, C25_functions, C25_distributions, C25_succeeds, C25_failure, C25_pseudo_fails, C26_missing_exo, C26_only_if, C27_minimal, C27_consistent, C27_missing_exo, C27_succeeds, C27_unknown_key, C28_sum, C28_terms, C28_never_nan, C28_unknown_keys, C28_failure, C29_sample_chromosome, C29_evaluated, C29_failure, C35_blanks, C35_dist, C35_pseudo, C35_assign, C35_exogenous, C35_otherwise, C35_bad_tilde, C35_comment, C35_bad_comment, C35_other_errors_refuted, C35_tab_refuted, C35_known_name, C24_not_read_back_partial, C24_outcome_partial, C24_line_break_refuted, C24_generated, C73_text_kept, C73_ignored, C73_one_bad_line, C73_comment_line, C74_network, C74_line_order, C74_circular, C74_redefined, C109_sample, C41_generate_partial, C41_generate_refuted, C42_lookup, C42_inherits, C43_breed_refused, C43_breed, C43_wellformed, C43_remove, C43_find_descendant, C44_frame, C44_kept, C44_new_values, C44_consistent, C44_prototypes_refuted, C45_frozen_partial, C45_created, C45_frozen_refuted, C47_evaluated_partial, C47_not_marked, C47_evaluated_refuted, C46_mediators, C46_sample, C50_detach, C50_raises, C50_collect_refuted, C50_prototype_refuted, C67_prior, C67_deep, C67_after, C67_breed, C68_sampler, C68_other_core_partial, C68_other_core_refuted, C92_proposal, C90_complete_partial, C90_default, C90_single_refuted, C90_hoist_refuted, C90_undefined_refuted, C90_floating_refuted, C98_two_step, C98_prior, C96_history

* Axioms `ClassicalDedekindReals.sig_forall_dec`:
  C59_unbound, C82_last_draw_lost_refuted, C84_evaluations_refuted, C58_raises, C58_returns, C58_fallback, C58_endless, C92_forgets

* Axioms `ClassicalDedekindReals.sig_forall_dec`, `FunctionalExtensionality.functional_extensionality_dep`:
  C56_sample_ess, C56_sample_ess_returns, C56_nan_accepted, C56_bad_tolerance, C56_tolerance, C56_posteriors, C56_serial_fails, C56_nan_tolerance, C114_categories, C87_construct, C87_within, C87_monotone, C87_distribution, C87_scale, C88_outside, C88_weight, C88_mean_refuted, C88_scale_refuted, C89_never, C89_baseline, C89_raises, C111_smc, C111_abc, C111_pars_smc, C111_pars_abc, C60_average, C60_shuffle, C60_mutant_inside_partial, C60_narrow_domain_refuted, C60_tour, C60_importance, C60_too_few, C60_crossover, C105_mse, C105_undefined, C115_mean, C115_bounds, C115_order, C115_type, C61_probabilities_partial, C61_zero_total_refuted, C61_const, C65_defaults, C63_sum, C63_other_keys, C63_permuted, C63_missing, C63_levels_refuted, C63_table_refuted, C63_entry_types, C97_round, C97_first_round, C97_few, C57_initialise_partial, C57_round_partial, C57_fit_partial, C57_rounds, C57_loop_ends, C57_equal_distances, C57_nan_takes_over, C57_without_nan_refuted, C58_copies, C70_members, C70_posterior, C109_row, C109_errors, C110_total, C110_direction, C110_report, C110_targets, C93_smc_simulates, C93_abc_simulates, C93_population, C93_abc_posterior, C93_parents_refuted, C78_stops, C78_counters, C78_fit, C75_table_partial, C75_condition_partial, C75_marginal_partial, C75_operations_defined, C75_returns_a_row, C75_call_partial, C75_impossible, C75_scale, C75_duplicates_refuted, C75_colon_refuted, C76_call, C76_unknown, C76_sample, C77_closest, C77_inside, C77_outside_refuted, C77_tables, C54_range, C54_range_monotone, C54_point, C54_negative_refuted, C54_zero, C54_distribution, C54_same_scale, C54_read, C54_read_refuses, C54_object_name_refuted, C98_finite, C98_positive, C98_fit, C98_zero, C96_same_fit, C96_smc_partial, C96_reuse_refuted

* Axioms `ClassicalDedekindReals.sig_forall_dec`, `ClassicalDedekindReals.sig_not_dec`, `FunctionalExtensionality.functional_extensionality_dep`:
  C100_matching, C100_changed_refuted, C114_described, C114_undescribed, C114_json, C114_text_refuted, C66_std_refuted, C105_ends, C105_within, C105_largest, C105_exact, C103_labels, C103_labels_refuted, C103_equal_refuted, C64_admissible_partial, C64_uniform_refuted, C64_raises, C65_defaults_refuted, C63_no_class_refuted, C93_steps, C91_steps, C91_range, C91_scale, C91_zero, C91_infinite, C92_agreed, C92_agreed_refuted, C77_lee_carter

* Axioms `ClassicalDedekindReals.sig_forall_dec`, `ClassicalDedekindReals.sig_not_dec`, `Classical_Prop.classic`, `FunctionalExtensionality.functional_extensionality_dep`:
  C53_uniform_round_trip_partial, C53_value_round_trip_partial, C53_monotone_partial, C53_limits, C53_select, C53_outside, C53_degenerate_refuted, C112_wave, C112_never_unready, C111_hme, C60_scale, C60_mutation, C60_ends, C60_generations, C60_own_mutant_refuted, C72_best_of_generation, C72_best_kept_refuted, C72_target_not_selected, C59_wave, C59_waves, C59_count, C59_ends, C59_fit, C59_none_left, C59_values, C71_training, C71_prediction, C71_same_scale_refuted, C66_inverse, C66_increasing, C66_sample_partial, C66_no_draw, C66_risk_ratio, C66_cox, C66_zero_inflated, C66_logpdf_never, C66_logpdf_refuted, C66_zi_logpdf, C66_mean_exponential, C66_mean_refuted, C66_weibull_mean_refuted, C66_weibull_ratio_refuted, C105_wave, C94_simulates, C94_never_fits, C94_complete_refuted, C79_within_bounds, C79_plausible_refuted, C103_linear, C103_logistic, C103_poisson, C103_classes, C61_logpdf_partial, C61_zero_weight_refuted, C61_logpdf_unknown, C61_logpdf_counts, C65_mean_partial, C65_invgamma, C65_lognormal_never, C65_lognormal_refuted, C63_logistic, C63_poisson, C63_offset_refuted, C63_multinomial_partial, C63_softmax_refuted, C51_log_probabilities, C51_plain_probabilities, C51_zero_sum, C51_selection_partial, C51_log_succeeds, C51_no_weight_refuted, C51_negative_weights_refuted, C51_evidence_refuted, C102_inside, C102_quantile, C102_quantile_refuted, C102_constant, C102_integers, C106_cox, C106_ratio, C106_zero, C106_missing, C106_expectation, C106_zi_expectation, C106_rate_refuted, C96_ga_partial, C96_same_ga
