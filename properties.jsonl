{"id": "C01", "title": "Ancestor and descendant queries are exact reachability", "statement": "For every graph, ancestors(n) is exactly the set of nodes other than n with a directed path to n, descendants(n) exactly those reachable from n; an unknown node raises NetworkXError; upstream/downstream/get_offsprings of a non-empty list are the unions of these sets and an empty list raises TypeError.", "quantifier": "every finite directed graph, every node or list of nodes", "why_tests_cant": "graphs have unbounded size and shape; only sampled shapes can be tested", "anchors": ["src/sims_pars/bayesnet/dag.py: DAG.ancestors, DAG.descendants, DAG.upstream, DAG.downstream, get_offsprings"]}
{"id": "C02", "title": "order() is a topological order exactly on acyclic graphs", "statement": "order() returns each node exactly once with every parent before its children whenever the graph has no directed cycle, and raises otherwise; check_acyclic() answers True exactly when there is no directed cycle (self loops included).", "quantifier": "every finite directed graph", "why_tests_cant": "cyclic and acyclic graphs of every size", "anchors": ["src/sims_pars/bayesnet/dag.py: DAG.order, DAG.check_acyclic"]}
{"id": "C03", "title": "sort(nodes) lists exactly the requested nodes in topological order", "statement": "On an acyclic graph sort(nodes) contains a node iff it is both requested and in the graph, each once, and parents come before children; requested names that are not in the graph are dropped.", "quantifier": "every acyclic graph and every collection of names", "why_tests_cant": "all graphs and selections", "anchors": ["src/sims_pars/bayesnet/dag.py: DAG.sort", "src/sims_pars/bayesnet/bn.py: BayesianNetwork.sort"]}
{"id": "C04", "title": "roots() and leaves() are exact", "statement": "roots() lists exactly the nodes without parents and leaves() exactly those without children, each once, in insertion order; every non-empty acyclic graph has at least one of each.", "quantifier": "every graph", "why_tests_cant": "all graphs", "anchors": ["src/sims_pars/bayesnet/dag.py: DAG.roots, DAG.leaves"]}
{"id": "C05", "title": "minimal_dag is the sub-network spanned by the listed nodes", "statement": "On an acyclic graph minimal_dag(g, nodes) keeps exactly the listed nodes of g plus every node lying on a directed path between two listed nodes, and exactly the edges of g among the kept nodes; g itself is unchanged.", "quantifier": "every acyclic graph and node collection", "why_tests_cant": "all graphs, all path sets", "anchors": ["src/sims_pars/bayesnet/dag.py: minimal_dag"]}
{"id": "C06", "title": "minimal_requirements is independent of how the conditions are listed, but not sufficient", "statement": "minimal_requirements(g,t,cond) is, in topological order, the ancestors of t that are not ancestors of any condition lying upstream of t: order and duplicates of cond do not matter and conditions that are not ancestors of t have no effect. It is NOT always sufficient: a parent of t that also feeds a condition is dropped although t needs it.", "quantifier": "every acyclic graph, target, and condition list", "why_tests_cant": "order independence ranges over all permutations; insufficiency needs a diamond shaped graph", "anchors": ["src/sims_pars/bayesnet/dag.py: minimal_requirements"]}
{"id": "C07", "title": "get_sufficient_nodes is the least set that suffices", "statement": "get_sufficient_nodes(g, included, given) is the least set that contains the included nodes and, with every member that is not given, all of that member's parents; g is unchanged; an unknown given node raises NetworkXError and an empty included list raises TypeError.", "quantifier": "every graph, included list, given list", "why_tests_cant": "minimality and closure over all graphs", "anchors": ["src/sims_pars/bayesnet/dag.py: get_sufficient_nodes"]}
{"id": "C08", "title": "get_minimal_nodes is the sufficient set without the given nodes", "statement": "get_minimal_nodes(g, included, given) equals the sufficient set minus the given nodes; calling it without given raises TypeError although the argument is documented as optional.", "quantifier": "every graph, included list, given list", "why_tests_cant": "all graphs", "anchors": ["src/sims_pars/bayesnet/dag.py: get_minimal_nodes"]}
{"id": "C09", "title": "remove_upstream/remove_downstream delete exactly the direct neighbours", "statement": "On an acyclic graph remove_upstream(nodes) deletes exactly the nodes outside the list that have a listed parent, and remove_downstream(nodes) exactly those outside the list that have a listed child, together with the incident edges; every other node and edge survives. (So neither removes the whole up- or down-stream closure.)", "quantifier": "every acyclic graph and list of its nodes", "why_tests_cant": "the effect depends on deletion order along all paths", "anchors": ["src/sims_pars/bayesnet/dag.py: DAG.remove_upstream, DAG.remove_downstream"]}
{"id": "C10", "title": "Removing edges around a node", "statement": "remove_out_edges(n) deletes exactly the edges leaving n. remove_in_edges(n) is a no-op on a parentless node, and on every acyclic graph raises NetworkXError without changing the graph when n has a parent (it never removes an incoming edge).", "quantifier": "every graph and node", "why_tests_cant": "all graphs", "anchors": ["src/sims_pars/bayesnet/dag.py: DAG.remove_out_edges, DAG.remove_in_edges"]}
{"id": "C11", "title": "merge_dag is the union", "statement": "merge_dag(g1,g2) has exactly the nodes and edges of either graph, g1 first in insertion order; both inputs acyclic does not make the result acyclic.", "quantifier": "every pair of graphs", "why_tests_cant": "all graphs", "anchors": ["src/sims_pars/bayesnet/dag.py: merge_dag"]}
{"id": "C12", "title": "A successful definition keeps the network well-formed", "statement": "After any sequence of successful append_loci/append_from_js/append_from_definition calls on a new network: the graph is acyclic, the parents of every node are exactly the names its definition mentions, and every mentioned name is a node.", "quantifier": "every sequence of definitions that are all accepted", "why_tests_cant": "unbounded histories", "anchors": ["src/sims_pars/bayesnet/bn.py: BayesianNetwork.append_loci", "src/sims_pars/bayesnet/dag.py: DAG.remove_in_edges"]}
{"id": "C13", "title": "Accepted definitions: last one wins, the rest is untouched", "statement": "An accepted definition of x makes x hold exactly that definition; names it mentions that were unknown become exogenous nodes; every other node keeps its definition, description and parents.", "quantifier": "every well-formed network and every accepted definition", "why_tests_cant": "all networks", "anchors": ["src/sims_pars/bayesnet/bn.py: BayesianNetwork.append_loci"]}
{"id": "C14", "title": "A definition is rejected exactly when it would close a cycle or re-define a node that has parents", "statement": "On a well-formed unfrozen network append_loci raises iff the name already has parents or the new definition would create a directed cycle. A rejected definition is not rolled back: the named node and its outgoing edges are lost, or (cycle found while adding an unknown parent) the network is left cyclic.", "quantifier": "every well-formed network and definition, every iteration order of the parents", "why_tests_cant": "needs every network shape and set iteration order", "anchors": ["src/sims_pars/bayesnet/bn.py: BayesianNetwork.append_loci"]}
{"id": "C15", "title": "Re-defining a node that has parents always fails and corrupts the node", "statement": "For every well-formed network, re-defining a node that has parents raises NetworkXError, and afterwards the node carries the new definition but the old parents.", "quantifier": "every well-formed network, every node with parents, every new definition", "why_tests_cant": "all networks", "anchors": ["src/sims_pars/bayesnet/bn.py: BayesianNetwork.append_loci", "src/sims_pars/bayesnet/dag.py: DAG.remove_in_edges"]}
{"id": "C16", "title": "complete() freezes the structure and its cached views are the fresh ones", "statement": "After complete() every append raises AttributeError and changes nothing; Order, Roots, RVRoots, Leaves, Exo return what would be computed from the graph; defrost() restores an editable network with the same nodes, definitions and edges.", "quantifier": "every well-formed network and every sequence of later appends", "why_tests_cant": "unbounded histories after freezing", "anchors": ["src/sims_pars/bayesnet/bn.py: BayesianNetwork.complete, defrost, Order, Roots, RVRoots, Leaves, Exo"]}
{"id": "C17", "title": "RVRoots are the random nodes without random ancestors", "statement": "RVRoots lists, in topological order and each once, exactly the distribution nodes none of whose ancestors is a distribution node.", "quantifier": "every well-formed network", "why_tests_cant": "all networks", "anchors": ["src/sims_pars/bayesnet/bn.py: find_rv_roots"]}
{"id": "C18", "title": "Exo lists exactly the exogenous nodes", "statement": "Exo lists exactly the nodes whose definition is exogenous, and on a well-formed network each of them is a root; is_rv / is_exogenous / needs_calculation classify every node by its definition.", "quantifier": "every well-formed network", "why_tests_cant": "all networks", "anchors": ["src/sims_pars/bayesnet/bn.py: find_exo, BayesianNetwork.is_rv, is_exogenous, needs_calculation"]}
{"id": "C19", "title": "copy() reproduces the network", "statement": "copy() of a well-formed network succeeds and gives a network with the same nodes, the same definitions, the same edges, the same user functions and the same frozen status; descriptions are dropped.", "quantifier": "every well-formed network", "why_tests_cant": "all networks, including those whose parents were defined after their children", "anchors": ["src/sims_pars/bayesnet/bn.py: BayesianNetwork.copy, append_from_js"]}
{"id": "C20", "title": "clone() and the JSON round trip never succeed", "statement": "bayes_net_from_json(bn.to_json()), and so clone(), raises for every network because the exported JSON has no RVRoots entry.", "quantifier": "every network", "why_tests_cant": "universal failure", "anchors": ["src/sims_pars/bayesnet/bn.py: form_js, bayes_net_from_json, BayesianNetwork.clone"]}
{"id": "C21", "title": "merge() combines two networks", "statement": "merge(name, sub): every non-exogenous node of sub replaces or extends self, everything else of self is kept. This is violated when sub re-defines a node that has children not re-defined by sub; it holds when every child of a re-defined node is re-defined as well.", "quantifier": "every pair of well-formed networks", "why_tests_cant": "all pairs of networks", "anchors": ["src/sims_pars/bayesnet/bn.py: BayesianNetwork.merge, __check_edges"]}
{"id": "C22", "title": "extend() turns every node into an exogenous one", "statement": "extend() of any network into a fresh one yields the same node names, all exogenous and without edges (it re-parses bare names), so all definitions are lost.", "quantifier": "every well-formed network", "why_tests_cant": "all networks", "anchors": ["src/sims_pars/bayesnet/bn.py: BayesianNetwork.extend"]}
{"id": "C23", "title": "has_randomness and is_deterministic", "statement": "Without given nodes has_randomness(n) is true exactly when n or one of its ancestors is a distribution node. With given nodes it may answer False although the value still depends on a non-given random ancestor, and is_deterministic can answer True for a random node.", "quantifier": "every well-formed network, node, given set", "why_tests_cant": "all networks and given sets", "anchors": ["src/sims_pars/bayesnet/bn.py: BayesianNetwork.has_randomness, is_deterministic"]}
{"id": "C24", "title": "The generated script cannot be read back", "statement": "For every network with at least one node, bayes_net_from_script applied to the text produced by to_script() of a network built programmatically either raises or yields a network without nodes (lines are indented with a tab that the reader does not strip).", "quantifier": "every network (names, definitions)", "why_tests_cant": "all networks", "anchors": ["src/sims_pars/bayesnet/bn.py: form_script, bayes_net_from_script", "src/sims_pars/bayesnet/loci.py: parse_loci"]}
{"id": "C25", "title": "sample() returns a complete and consistent assignment", "statement": "When all exogenous nodes are given, sample(bn, cond) on a well-formed network without pseudo nodes returns every node plus the given keys; given keys keep their given values; every other constant, function or distribution node holds a value produced by its own definition from the returned values of its parents.", "quantifier": "every well-formed network, every conditioning dict, every random outcome", "why_tests_cant": "all networks, all random streams", "anchors": ["src/sims_pars/fn.py: sample", "src/sims_pars/bayesnet/loci.py: render"]}
{"id": "C26", "title": "sample() rejects missing exogenous inputs", "statement": "sample raises ValueError exactly when some exogenous node is not in cond, before any draw is made.", "quantifier": "every network and conditioning dict", "why_tests_cant": "all inputs", "anchors": ["src/sims_pars/fn.py: sample"]}
{"id": "C27", "title": "sample_minimally() computes only what is needed", "statement": "sample_minimally(bn, included, cond) returns the included nodes with consistent values; only nodes of the sufficient set are evaluated; the two returned dicts partition the assignment into included and other keys; exogenous nodes outside the sufficient set need not be given.", "quantifier": "every well-formed network, included list, conditioning dict, random outcome", "why_tests_cant": "all networks", "anchors": ["src/sims_pars/fn.py: sample_minimally", "src/sims_pars/bayesnet/dag.py: get_sufficient_nodes"]}
{"id": "C28", "title": "evaluate_nodes never returns NaN and ignores unknown keys", "statement": "evaluate_nodes(bn, pars) is the sum of the log-densities of the nodes of pars that belong to the network, with NaN replaced by -inf; keys outside the network have no influence on which terms are summed.", "quantifier": "every network and parameter container", "why_tests_cant": "all inputs", "anchors": ["src/sims_pars/fn.py: evaluate_nodes"]}
{"id": "C29", "title": "sample_chromosome carries its own log-probability", "statement": "The chromosome returned by sample_chromosome holds the sampled values and LogProb equal to evaluate_nodes of those values.", "quantifier": "every well-formed network, conditioning dict, random outcome", "why_tests_cant": "all random streams", "anchors": ["src/sims_pars/fn.py: sample_chromosome"]}
{"id": "C30", "title": "Parents of an expression are sufficient for evaluating it", "statement": "parse_math_expression(e).Parents is the set of names used as values and not called; two environments agreeing on all names of e give the same result; if is_executable(loc) then execute(loc) cannot raise NameError. is_executable is not complete (builtins).", "quantifier": "every expression tree and environment", "why_tests_cant": "expressions of unbounded depth", "anchors": ["src/sims_pars/util.py: find_ast_parents, MathExpression"]}
{"id": "C31", "title": "A function node is computed from its parents only", "statement": "FunctionLoci.render(pas) raises KeyError when a parent is missing, and otherwise its result depends only on the values of its parents.", "quantifier": "every expression, every environment", "why_tests_cant": "all environments", "anchors": ["src/sims_pars/bayesnet/loci.py: FunctionLoci.render"]}
{"id": "C32", "title": "Nodes survive the JSON round trip", "statement": "loci_from_json(loci.to_json()) gives a node of the same kind, name, parents and behaviour for every constant with a non-string value, every exogenous, function, distribution and pseudo node; a constant holding a string is re-evaluated as code.", "quantifier": "every node definition", "why_tests_cant": "all definitions", "anchors": ["src/sims_pars/bayesnet/loci.py: loci_from_json, to_json"]}
{"id": "C33", "title": "Distribution definitions are completed correctly and idempotently", "statement": "complete_def maps positional arguments to the fields that are not given by keyword, in schema order, fills the rest with defaults, keeps the keyword arguments, and completing a completed definition changes nothing; surplus positional arguments are silently dropped, and a missing field without default raises KeyError.", "quantifier": "every schema and every call", "why_tests_cant": "all argument lists", "anchors": ["src/sims_pars/factory/craftstation.py: Atelier.complete_def"]}
{"id": "C34", "title": "parse_function recovers the call", "statement": "For every call f(a1..an, k1=b1..km=bm), parse_function returns function f and the arguments in order with their keys; Parents is the union of the arguments' parents; a call without arguments raises TypeError when Parents is read.", "quantifier": "every call expression", "why_tests_cant": "all argument lists", "anchors": ["src/sims_pars/util.py: parse_function, ParsedFunction"]}
{"id": "C35", "title": "Definition lines are classified by their shape", "statement": "parse_loci: a line with ~ is a distribution node, NAME=f(...) a pseudo node, NAME=expr a constant if expr evaluates without unknown names and a function node otherwise, NAME alone an exogenous node; anything else raises ScriptException; blanks never matter.", "quantifier": "every character string", "why_tests_cant": "all strings", "anchors": ["src/sims_pars/bayesnet/loci.py: parse_loci"]}
{"id": "C36", "title": "Variables shadow functions of the same name", "statement": "In eval of an expression or distribution a variable in scope takes precedence over the function or distribution of that name, and a missing variable whose name is a function name is resolved to the function instead of raising NameError.", "quantifier": "every expression and scope", "why_tests_cant": "all scopes", "anchors": ["src/sims_pars/util.py: MathExpression.execute", "src/sims_pars/factory/craftstation.py: Atelier.get_blueprint"]}
{"id": "C37", "title": "impulse() touches exactly the intervened nodes and their descendants", "statement": "After a successful Chromosome.impulse(new, bn): the key set is unchanged, nodes with a given value hold it, and every node that is neither intervened nor a descendant of an intervened node keeps its value; keys of new that are not in the chromosome are ignored (and if none remain TypeError is raised).", "quantifier": "every well-formed network, chromosome, intervention, random outcome", "why_tests_cant": "all networks", "anchors": ["src/sims_pars/bayesnet/chromosome.py: Chromosome.impulse"]}
{"id": "C38", "title": "impulse() re-establishes consistency", "statement": "If before the impulse every function node of the chromosome agreed with its parents, then afterwards every function node that was not itself assigned does.", "quantifier": "every well-formed network, consistent chromosome, intervention, random outcome", "why_tests_cant": "all networks and interventions", "anchors": ["src/sims_pars/bayesnet/chromosome.py: Chromosome.impulse"]}
{"id": "C39", "title": "A stored LogProb is never stale", "statement": "Over any sequence of item assignments, successful impulses and evaluate_prior calls, an evaluated chromosome has LogProb equal to evaluate_nodes of its current values. (An impulse that raises can leave a stale LogProb.)", "quantifier": "every history of operations", "why_tests_cant": "unbounded histories", "anchors": ["src/sims_pars/bayesnet/chromosome.py: Chromosome", "src/sims_pars/fit/base.py: DataModel.evaluate_prior"]}
{"id": "C40", "title": "Chromosome serialisation", "statement": "from_json(to_json(c)) and clone() hold the same values and LogProb; to_data adds LogProb exactly when evaluated.", "quantifier": "every chromosome", "why_tests_cant": "all contents", "anchors": ["src/sims_pars/bayesnet/chromosome.py: Chromosome.clone, to_json, from_json, to_data"]}
{"id": "C41", "title": "generate() fills the fixed nodes consistently", "statement": "SimulationGroup.generate: the new core holds exactly the fixed nodes that could be computed plus the given exogenous values; given values are kept; every other held node was produced by its definition from values visible in the core or its parent.", "quantifier": "every network, allocation, parent core, exogenous dict, random outcome", "why_tests_cant": "all networks and trees", "anchors": ["src/sims_pars/simulation/simugroup.py: SimulationGroup.generate"]}
{"id": "C42", "title": "Value lookup goes to the nearest ancestor", "statement": "core[item] is the value held by the nearest core on the path to the root that holds item, and KeyError if none does.", "quantifier": "every core tree and item", "why_tests_cant": "trees of unbounded depth", "anchors": ["src/sims_pars/simulation/parcore.py: ParameterCore.__getitem__"]}
{"id": "C43", "title": "breed() keeps the family tree well-formed", "statement": "breed raises ValueError for a used nickname and KeyError for a group that is not a child group, both without changing the tree; otherwise, unless drawing the values raises (then nothing changes), exactly one child is added under the nickname, with the core as parent, and nothing else changes; find_descendant follows nicknames.", "quantifier": "every tree and every sequence of breed/remove calls", "why_tests_cant": "unbounded histories", "anchors": ["src/sims_pars/simulation/parcore.py: ParameterCore.breed, remove_children, find_descendant", "src/sims_pars/simulation/simugroup.py: SimulationGroup.breed"]}
{"id": "C44", "title": "Tree impulse re-establishes consistency in every core", "statement": "After ParameterCore.impulse on a core, in that core and all its descendants (reached through Children) every fixed function node held there and not itself assigned that was consistent before or was recomputed is consistent with the values it sees, and nodes outside the shocked and intervened sets keep their values. A descendant not entered into Children (a prototype) is not reached.", "quantifier": "every tree, network, intervention, random outcome", "why_tests_cant": "trees of unbounded size", "anchors": ["src/sims_pars/simulation/parcore.py: ParameterCore.impulse", "src/sims_pars/simulation/simugroup.py: SimulationGroup.set_response"]}
{"id": "C45", "title": "Frozen samplers follow interventions", "statement": "After an impulse every frozen actor of the touched cores that was up to date before is up to date with the new values.", "quantifier": "every tree, actor set, intervention", "why_tests_cant": "all trees", "anchors": ["src/sims_pars/simulation/parcore.py: ParameterCore.impulse", "src/sims_pars/simulation/actor.py: FrozenSingleActor.update"]}
{"id": "C46", "title": "Compound samplers compute mediators consistently", "statement": "CompoundActor.sample_with_mediators returns values in which each mediator and the target are produced by their definitions from the values read upstream and the mediators returned.", "quantifier": "every actor, upstream container, random outcome", "why_tests_cant": "all flows", "anchors": ["src/sims_pars/simulation/actor.py: CompoundActor"]}
{"id": "C47", "title": "Log-probability bookkeeping of parameter cores", "statement": "A core whose values were changed by an impulse is not reported as evaluated with its old LogProb. Violated: an impulse that only assigns leaf nodes leaves the old LogProb in place.", "quantifier": "every core and intervention", "why_tests_cant": "all interventions", "anchors": ["src/sims_pars/simulation/parcore.py: ParameterCore.impulse, __set_response"]}
{"id": "C48", "title": "All-fixed allocation", "statement": "With every node as fixed (get_all_fixed_sc) injection succeeds for every well-formed network, the root fixes all nodes in topological order and floats none, and generate() yields a complete consistent assignment.", "quantifier": "every well-formed network, random outcome", "why_tests_cant": "all networks", "anchors": ["src/sims_pars/simulation/nodeset.py: NodeSet.inject_bn", "src/sims_pars/simulation/fn.py: get_all_fixed_sc"]}
{"id": "C49", "title": "Allocation of nodes to groups", "statement": "After inject_bn every network node is fixed or floating in some group and in no group both. Violated in both halves; what holds is proved.", "quantifier": "every network and node-set tree", "why_tests_cant": "all networks and trees", "anchors": ["src/sims_pars/simulation/nodeset.py: NodeSet.inject_bn, _locate_undefined"]}
{"id": "C50", "title": "Detaching, duplicating and cloning cores", "statement": "detach_from_parent() removes the core from its parent and makes it a root keeping its values; detach with collect_pars on a core that has a parent, duplicate and clone always raise.", "quantifier": "every core tree", "why_tests_cant": "universal", "anchors": ["src/sims_pars/simulation/parcore.py: ParameterCore.detach_from_parent, duplicate, clone"]}
{"id": "C51", "title": "resample keeps pairs together and drops non-finite weights", "statement": "resample returns new_size items, each with a finite weight, hypotheses and parameters stay paired, and the selection probabilities are non-negative and sum to one.", "quantifier": "every weight list, population, requested size, random outcome", "why_tests_cant": "all inputs", "anchors": ["src/sims_pars/util.py: resample"]}
{"id": "C52", "title": "Monitor records are time-ordered and complete", "statement": "Over any sequence of keep/step/reset calls the recorded times are strictly increasing, each record holds exactly the values kept since the previous step, a backward step raises without effect and a step to the current time changes nothing.", "quantifier": "every history of calls", "why_tests_cant": "unbounded histories", "anchors": ["src/sims_pars/monitor.py: Monitor.keep, step, reset"]}
{"id": "C53", "title": "Converters are inverse, monotone bijections", "statement": "For each converter, value2uniform(uniform2value(u)) = u on the open unit interval, uniform2value is strictly increasing and maps into the domain; the boundary values map to the domain limits; get_converter selects by finiteness.", "quantifier": "every domain and every real u", "why_tests_cant": "a continuum of inputs", "anchors": ["src/sims_pars/fit/converter.py: ConverterFF, ConverterFI, ConverterIF, ConverterII, get_converter"]}
{"id": "C54", "title": "Target distances", "statement": "For a target with l<m<u the distance is non-negative and zero exactly at m. For a point target with relative error it has the sign of the target value: negative targets give negative distances.", "quantifier": "every target and simulated value", "why_tests_cant": "continuum of inputs", "anchors": ["src/sims_pars/fit/targets/single.py: DataPointError, DataPointRange", "src/sims_pars/fit/targets/__init__.py: read_targets"]}
{"id": "C55", "title": "Settings", "statement": "update_settings changes only existing keys, never adds or removes one, and sets each given existing key to the given value.", "quantifier": "every settings dict and keyword set", "why_tests_cant": "all inputs", "anchors": ["src/sims_pars/fit/base.py: Fitter.update_settings"]}
{"id": "C56", "title": "ABC acceptance", "statement": "Every particle collected by sample_ess has a distance that is not greater than eps, and the evaluation counter equals the number of simulations; a NaN distance is accepted.", "quantifier": "every stream of simulations", "why_tests_cant": "unbounded number of attempts", "anchors": ["src/sims_pars/fit/abcom/alg.py: sample_ess, sample_fin"]}
{"id": "C57", "title": "ABC-SMC tolerance and weights", "statement": "Over any number of rounds the tolerance never increases, weights stay non-negative and sum to one, every particle with positive weight has distance below the current tolerance, and the number of rounds is bounded by max_round (at least one).", "quantifier": "every model, proposal outcome and number of rounds", "why_tests_cant": "unbounded rounds", "anchors": ["src/sims_pars/fit/abc_smc/alg.py: ApproxBayesComSMC._a_round, update_wts, resample, mcmc_proposal, _check_termination"]}
{"id": "C58", "title": "ABC-SMC proposal fallback", "statement": "After more than 20 unsuccessful simulations sample_mutation should fall back to the original particle; in fact that branch raises because the distance note is not carried over by copy() or JSON.", "quantifier": "every model and particle", "why_tests_cant": "only reachable after 21 failures", "anchors": ["src/sims_pars/fit/abc_smc/alg.py: sample_mutation", "src/sims_pars/fit/base.py: Particle.copy"]}
{"id": "C59", "title": "History matching waves", "statement": "Bounds stay inside [0,1] and shrink from wave to wave, kept particles have implausibility below the cut-off, which is at least the configured one; exactly max(1,max_wave) waves are run.", "quantifier": "every emulator outcome, number of waves", "why_tests_cant": "unbounded waves", "anchors": ["src/sims_pars/fit/hme/alg.py: BayesHistoryMatching"]}
{"id": "C60", "title": "Genetic operators", "statement": "Shuffle crossover only exchanges values between the two parents node by node; average crossover gives the mean to both; mutation stays inside the domain; selection returns a population of the same size made of eligible members; the loop ends after at most max_round+1 generations. Mutation replaces individual i by a mutant of another individual (index mismatch).", "quantifier": "every population and random outcome", "why_tests_cant": "all populations", "anchors": ["src/sims_pars/fit/ga/cross.py", "src/sims_pars/fit/ga/mutate.py", "src/sims_pars/fit/ga/select.py", "src/sims_pars/fit/ga/alg.py"]}
{"id": "C61", "title": "Discrete distributions", "statement": "CategoricalRV probabilities are the normalised weights; exp(logpdf) equals the probability only if the weights sum to one; Const.logpdf is 0 at its value and +inf elsewhere.", "quantifier": "every weight table", "why_tests_cant": "continuum of inputs", "anchors": ["src/sims_pars/prob.py: CategoricalRV, Const"]}
{"id": "C62", "title": "Data model caching", "statement": "calc_distance is computed once per particle and equals the sum of the target distances; serve lets exogenous values override; evaluate_prior leaves every chromosome evaluated.", "quantifier": "every model and particle", "why_tests_cant": "all histories", "anchors": ["src/sims_pars/fit/base.py: DataModel"]}
{"id": "C63", "title": "Regression predictors", "statement": "A linear combination predicts the sum of the effects of its regressors whatever other keys are supplied; logistic, Poisson and multinomial expectations lie in their ranges and multinomial probabilities sum to one.", "quantifier": "every regressor list and covariate dict", "why_tests_cant": "continuum of inputs", "anchors": ["src/sims_pars/data/reg/linear.py", "src/sims_pars/data/reg/glm.py"]}
{"id": "C64", "title": "Creators hand valid parameters to the library", "statement": "Whatever the field values, a creator either raises or builds a distribution whose parameters lie in the domain of the scipy family: positive scales and shapes, probabilities in [0,1], mode of the triangle in [0,1].", "quantifier": "every creator and all field values", "why_tests_cant": "a continuum of field values", "anchors": ["src/sims_pars/prob.py: CreConst, CreGamma, CreExp, CreLogNorm, CreUniform, CreChi2, CreBeta, CreInvGamma, CreNorm, CreTriangle, CreBinom, CrePois"]}
{"id": "C65", "title": "Creators implement the named parameterisation", "statement": "The distribution built by gamma(shape,rate), exp(rate), unif(min,max), norm(mean,sd), beta, chisq, triangle, binom, pois and lnorm(meanlog,sdlog) has the mean that these parameters denote; the field defaults satisfy the constraints of the fields.", "quantifier": "every creator and all valid field values", "why_tests_cant": "a continuum of field values", "anchors": ["src/sims_pars/prob.py: creators"]}
{"id": "C66", "title": "Survival times from cumulative hazards", "statement": "inv_cum_hazard inverts cum_hazard on non-negative times and hazards and both increase; a drawn time is the one at which the cumulative hazard, multiplied by the risk ratio, reaches a unit exponential draw, so a larger risk ratio never lengthens it; mean, std and logpdf of the hazard distribution are those of this time; a zero-inflated draw is zero exactly when the inflation is drawn.", "quantifier": "every hazard, risk ratio, inflation probability and random outcome", "why_tests_cant": "a continuum of inputs", "anchors": ["src/sims_pars/data/reg/hazard.py", "src/sims_pars/data/reg/survival.py"]}
{"id": "C67", "title": "LogPrior of parameter cores", "statement": "After a successful impulse LogPrior of every touched core is the sum of the log densities of the fixed nodes of its group at the values the core then sees, and DeepLogPrior is defined for all touched cores. DeepLogPrior raises AttributeError exactly if some core below was never touched by an impulse, so in particular after every breed.", "quantifier": "every tree, network, intervention, random outcome", "why_tests_cant": "trees of unbounded size", "anchors": ["src/sims_pars/simulation/parcore.py: ParameterCore.DeepLogPrior", "src/sims_pars/simulation/simugroup.py: SimulationGroup.set_response"]}
{"id": "C68", "title": "Samplers draw for their own core", "statement": "A sampler of a core draws from the distribution given by the values that core sees, also after samplers were made for other cores. Violated: cores of a group share the actor, and making a sampler for one of them overwrites the distribution for all.", "quantifier": "every tree, actor, pair of cores", "why_tests_cant": "all trees", "anchors": ["src/sims_pars/simulation/actor.py: Sampler.update, FrozenSingleActor.update", "src/sims_pars/simulation/parcore.py: ParameterCore.get_samplers"]}
{"id": "C69", "title": "What a group takes from outside is fixed above it", "statement": "After inject_bn every exogenous node of a group is a fixed node of one of the groups above it, so that breed finds its value on the way to the root. Violated if a sibling listed before the last has children of its own: the set of already fixed nodes is shared between siblings.", "quantifier": "every network and node-set tree", "why_tests_cant": "all networks and trees", "anchors": ["src/sims_pars/simulation/nodeset.py: NodeSet._resolve_relations, _hoist_node", "src/sims_pars/simulation/simugroup.py: SimulationGroup.generate"]}
{"id": "C70", "title": "ABC-SMC posterior sample", "statement": "For models whose distance is never nan and whose simulate notes no distance itself, sample_posteriors after fit returns exactly n_collect particles, each a member of the final population with positive weight and hence closer than the tolerance reached; none of the proposals simulated for it is ever returned.", "quantifier": "every model, run and n_collect", "why_tests_cant": "random draws, unbounded runs", "anchors": ["src/sims_pars/fit/abc_smc/alg.py: ApproxBayesComSMC.sample_posteriors"]}
{"id": "C71", "title": "Scale of the emulator inputs", "statement": "Violated: the emulators of history matching are trained on parameter values (the point mapped through the converters) but asked to predict at the points of the unit cube themselves, so for a domain other than [0,1] the two sets of inputs need not overlap.", "quantifier": "every model, domain and wave", "why_tests_cant": "needs gpflow and a model; the mismatch raises no error", "anchors": ["src/sims_pars/fit/hme/alg.py: BayesHistoryMatching._simulate", "src/sims_pars/fit/hme/alg.py: BayesHistoryMatching._emulate"]}
{"id": "C72", "title": "Best individual of the genetic algorithm", "statement": "Best is a fittest member of the population just selected and Stay is reset exactly when its fitness exceeds that of the previous generation. Violated: the best individual found so far is not kept, a generation can end with a worse Best; selection always goes by the posterior, whatever the setting target.", "quantifier": "every population and random outcome", "why_tests_cant": "all populations, random selection", "anchors": ["src/sims_pars/fit/ga/alg.py: GeneticAlg.__find_elitism", "src/sims_pars/fit/ga/alg.py: GeneticAlg.__selection"]}
{"id": "C73", "title": "Reading a script", "statement": "A network read by bayes_net_from_script keeps the text, to_script() returns it; a line that is neither a header nor a definition is dropped without notice, at any place and without any other effect; one line whose definition raises anything but ScriptException, in particular a line of comment, makes the whole reading fail.", "quantifier": "every script", "why_tests_cant": "all texts", "anchors": ["src/sims_pars/bayesnet/bn.py: bayes_net_from_script, to_script", "src/sims_pars/bayesnet/loci.py: parse_loci"]}
{"id": "C74", "title": "The network of a script", "statement": "If the definitions of a script have different names and do not mention each other in a circle, reading succeeds and the network consists of exactly these definitions and comments, the names mentioned but not defined as exogenous nodes, and the edges from mentioned names; the order of the lines is irrelevant. A circle, or a second definition of a name whose first one mentions a name, makes the reading fail.", "quantifier": "every script", "why_tests_cant": "all definition sets, all orders of lines", "anchors": ["src/sims_pars/bayesnet/bn.py: bayes_net_from_script, append_from_definition, append_loci"]}
{"id": "C75", "title": "Conditional probability table", "statement": "Calling a ConditionalProbabilityTable returns the index values of one of its rows; every set of combinations comes out with the share of the total weight its rows have, condition gives the conditional and marginalise the marginal distribution of the remaining indices, and only the proportions of the weights count. Violated for tables that repeat a combination (only its last row counts) and for values that contain a colon (different combinations fall together).", "quantifier": "every table, set of indices, condition, source of randomness", "why_tests_cant": "all tables; the violations raise no error", "anchors": ["src/sims_pars/data/static.py: ConditionalProbabilityTable.__init__, __call__", "src/sims_pars/data/static.py: ConditionalProbabilityTable.marginalise, condition"]}
{"id": "C76", "title": "Transition matrix", "statement": "Calling a TransitionMatrix with a known state draws the next state with the normalised weights of its row, an unknown state is a KeyError; the method sample is unable to draw anything, it raises TypeError for one draw and KeyError for several.", "quantifier": "every matrix, state, argument of sample", "why_tests_cant": "all matrices and arguments", "anchors": ["src/sims_pars/data/static.py: TransitionMatrix.__call__, __getitem__, sample_next, sample"]}
{"id": "C77", "title": "Tables over time", "statement": "A time series (kind nearest) gives at every time the value of a row whose time is closest, a table of probabilities over time uses the last row with the closest time, and the Lee-Carter rates are exp(alpha + kappa beta) with that kappa. Violated outside the time range if the rows are not in the order of time: there the first or last row of the table is used.", "quantifier": "every table and time", "why_tests_cant": "all tables, all times", "anchors": ["src/sims_pars/data/timeseries.py: TimeSeries.__init__, __call__", "src/sims_pars/data/timeseries.py: TimeSeriesProbabilityTable.__init__, __call__", "src/sims_pars/data/timeseries.py: LeeCarter.get_rate"]}
{"id": "C78", "title": "When ABC-SMC stops", "statement": "update makes at least one round and goes on until the first round that leaves max_round rounds done, or (from the third round on) a tolerance unchanged for max_stay rounds, or an acceptance below min_acc; it returns that state, and Round and Stay count the rounds and the rounds since the tolerance last changed.", "quantifier": "every model, run, settings and number of rounds", "why_tests_cant": "unbounded loop over random rounds; the stopping rule depends on the whole history", "anchors": ["src/sims_pars/fit/abc_smc/alg.py: ApproxBayesComSMC.update, _check_termination, a_round"]}
{"id": "C79", "title": "History matching posterior sample", "statement": "After fit, for prior domains of positive width, sample_posteriors(n) returns n particles whose parameter values lie between the two limits reported for them in the note Bounds, which has one entry per parameter of the prior. The particles are not checked for plausibility.", "quantifier": "every model, run and n", "why_tests_cant": "random draws, all domains", "anchors": ["src/sims_pars/fit/hme/alg.py: BayesHistoryMatching.sample_posteriors", "src/sims_pars/fit/converter.py: uniform2value"]}
{"id": "C80", "title": "From a script to a sample", "statement": "For a script whose definitions have different names and no circle, and every set of given values: sampling the network read from it gives every defined or mentioned name a value, keeps the given ones, and every definition of a name not given made its value from values in the result; it fails only if a name left open is not given or a definition cannot be evaluated. If all distributions are given, nothing is drawn and the result does not depend on the order of the lines or how the network was put together.", "quantifier": "every script, given values, generator, order of lines", "why_tests_cant": "all scripts and orders, all sources of randomness; composition of reading and sampling", "anchors": ["src/sims_pars/bayesnet/bn.py: bayes_net_from_script, append_from_definition, complete", "src/sims_pars/fn.py: sample"]}
{"id": "C81", "title": "Objectives of the older fitting package", "statement": "An AbsObjectiveBN (and every subclass that uses its constructor) cannot be constructed: for every network, script or JSON and all exogenous values the constructor raises, and it is an AttributeError whenever the network can be read and sampled, because Chromosome lacks is_prior_evaluated. An objective that inherits evaluate cannot be drawn from. serve raises as well, after sampling with the given values, over which the exogenous ones take precedence.", "quantifier": "every network, script, JSON, exogenous values, generator", "why_tests_cant": "all inputs; the tests do not cover this package", "anchors": ["src/sims_pars/fitting/base.py: AbsObjectiveBN.__init__, sample_prior, evaluate_prior, AbsObjective.evaluate"]}
{"id": "C82", "title": "Drawing from the prior (older package)", "statement": "draw makes at most 21 draws and returns the first of the first twenty whose likelihood is not infinite together with the number of draws, or else the empty chromosome with likelihood -inf; the 21st draw is never returned.", "quantifier": "every objective and generator", "why_tests_cant": "random loop over arbitrary objectives", "anchors": ["src/sims_pars/fitting/util.py: draw"]}
{"id": "C83", "title": "Mutating and drawing (older package)", "statement": "mutate_and_draw never returns a mutant: the result is a clone of the chromosome it was given, or the empty chromosome after 21 evaluations; it does not end if every mutant is outside the prior. The parallel versions of draw, mutate_and_draw and serve_and_evaluate end with an exception unless there is nothing to do. Before that the job of the parallel mutate_and_draw does find a mutant: the first one whose likelihood is not infinite among the first twenty with a likelihood, or else the empty chromosome. serve_and_evaluate computes a likelihood exactly if the prior is not infinite.", "quantifier": "every objective, chromosome, scale and generator", "why_tests_cant": "random loop; absence of a behaviour for all objectives", "anchors": ["src/sims_pars/fitting/util.py: mutate_and_draw, mutate, draw_parallel, mutate_and_draw_parallel, serve_and_evaluate_parallel, __mutate_and_draw", "src/sims_pars/fitting/base.py: serve_from_json"]}
{"id": "C84", "title": "PriorSampling (older package)", "statement": "fit of PriorSampling ends with an exception for every model and setting. Without parallel the collector then holds the draws in order, with their number (not the number of evaluations) as note N_Eval; in parallel it holds nothing.", "quantifier": "every objective, settings and generator", "why_tests_cant": "all objectives; state left behind by the exception", "anchors": ["src/sims_pars/fitting/fitter.py: PriorSampling.collect, Fitter.fit", "src/sims_pars/fit/results.py: ParameterSet"]}
{"id": "C85", "title": "Free parameters of a simulation core", "statement": "find_free_parameters does not depend on what is free: for a core with all nodes fixed it lists exactly the random roots, also those whose values are given; for a single group with nothing fixed it lists exactly the random roots whose values are given.", "quantifier": "every network, core of the two kinds, exogenous values and generator", "why_tests_cant": "all networks", "anchors": ["src/sims_pars/simulation/fn.py: find_free_parameters, get_all_fixed_sc, get_all_float_sc", "src/sims_pars/simulation/simugroup.py: SimulationGroup.generate"]}
{"id": "C86", "title": "A core with all nodes fixed is a sample", "statement": "generate of get_all_fixed_sc and bayesnet sample give the same values from the same generator state and leave it in the same state, whenever the core has a value for every node (conversely whenever the log densities of the sample can be evaluated). If no value has the name of a function called in a distribution, LogProb of the core is the sum of the log densities of all nodes at these values, the terms evaluate_nodes adds up.", "quantifier": "every network, exogenous values and generator", "why_tests_cant": "relates two separate implementations on all networks", "anchors": ["src/sims_pars/simulation/simugroup.py: SimulationGroup.generate", "src/sims_pars/bayesnet/fn.py: sample, evaluate_nodes", "src/sims_pars/simulation/fn.py: get_all_fixed_sc"]}
{"id": "C87", "title": "Draws of an empirical distribution", "statement": "An EmpiricalRV can be made exactly of equally many values and weights, at least one. Every draw lies in its Interval; for ascending values and non-negative weights a draw does not decrease with the uniform number behind it, for increasing values and positive weights it is at most the i-th value exactly when the uniform number is at most the share of the weight of the first i values; only the proportions of the weights count.", "quantifier": "every list of values and weights, every uniform number", "why_tests_cant": "a continuum of inputs; lists of any length", "anchors": ["src/sims_pars/prob.py: EmpiricalRV.__init__, sample"]}
{"id": "C88", "title": "Density and mean of an empirical distribution", "statement": "Violated: logpdf of an EmpiricalRV returns the interpolated weight, never negative and 0 outside the Interval where nothing is drawn, and changes when the weights are scaled although the draws do not; the mean can exceed the largest value.", "quantifier": "every list of values and weights", "why_tests_cant": "no error is raised", "anchors": ["src/sims_pars/prob.py: EmpiricalRV.logpdf, mean"]}
{"id": "C89", "title": "Baseline of a survival regression", "statement": "find_baseline succeeds exactly for the types exp and weibull (in any case) with their parameters and gives the hazard with these parameters; a complete empirical baseline always raises ValueError, an unknown type KeyError.", "quantifier": "every JSON of a baseline", "why_tests_cant": "all inputs; the package data is not covered by the tests", "anchors": ["src/sims_pars/data/reg/survival.py: find_baseline", "src/sims_pars/data/reg/hazard.py: EmpiricalHazard.__init__"]}
{"id": "C90", "title": "Cores hold what their group fixes", "statement": "Every core of a simulation core holds a value for each node its group fixes, when exogenous nodes are given and definitions can be evaluated. Violated by groups made from node sets: nodes are hoisted or passed down to groups that do not take their parents. It holds for every history of operations (detaching without collecting excepted) if each group fixes or takes the parents of what it fixes and takes only what groups above it fix, and for the default, all-floating and all-fixed cores.", "quantifier": "every network, node set, history of operations and generator", "why_tests_cant": "unbounded histories and trees of cores; a missing value raises no error when the core is made", "anchors": ["src/sims_pars/simulation/simugroup.py: SimulationGroup.generate", "src/sims_pars/simulation/nodeset.py: NodeSet.inject_bn, hoist, pass_down", "src/sims_pars/simulation/parcore.py: ParameterCore"]}
{"id": "C91", "title": "Step sizes of ABC-SMC", "statement": "calc_weighted_std gives a step for a random root exactly if two particles of positive weight differ in it, and for nothing else. The square of the step is half the expected squared difference of two particles drawn by weight; the step is at most half the range of the values with positive weight. Only the proportions of the weights count and particles of weight zero do not, except that one infinite or undefined value removes the step. Exact arithmetic on finite numbers.", "quantifier": "every model, population and non-negative weights with positive sum", "why_tests_cant": "a continuum of values; populations of any size", "anchors": ["src/sims_pars/fit/abc_smc/alg.py: ApproxBayesComSMC.calc_weighted_std"]}
{"id": "C92", "title": "Proposals of ABC-SMC start from the particle", "statement": "Violated: a proposal holds only the parameters that have a step, moved by a normal draw from the particle; every other node, also a random root on which all particles agree, is drawn afresh from its definition, and the proposal does not depend on the value the particle has for it.", "quantifier": "every model, population, particle and generator", "why_tests_cant": "no error is raised; needs a population that agrees in one parameter", "anchors": ["src/sims_pars/fit/abc_smc/alg.py: mutate, sample_mutation, ApproxBayesComSMC.calc_weighted_std", "src/sims_pars/fit/base.py: DataModel.serve"]}
{"id": "C93", "title": "Parameters simulated and kept by the ABC fitters", "statement": "For networks built by the library and starting values (set_parents) of random nodes that are neither given nor above a given node, ABC by rejection and ABC-SMC call simulate only with valid parameters (a value for every node and every given name and nothing else, the given values as given, constants and functions as defined, the log probability that of these values or not set); if simulate returns a particle of the parameters it was given, then every particle of the population after fit and of a posterior sample has valid parameters.", "quantifier": "every built network, given values, simulation, generator, settings and number of rounds", "why_tests_cant": "an invariant of all calls over all rounds, including the JSON round trip of the workers, impulse and proposals", "anchors": ["src/sims_pars/fit/abc_smc/alg.py: sample_fin, sample_fin_cont, sample_mutation, mutate, ApproxBayesComSMC", "src/sims_pars/fit/abcom/alg.py: sample_fin, sample_ess, ApproxBayesCom", "src/sims_pars/fit/base.py: DataModel.sample_prior, DataModel.serve, DataModel.calc_distance"]}
{"id": "C94", "title": "History matching simulates with complete parameters", "statement": "Violated: BayesHistoryMatching calls simulate only with dictionaries whose names are random roots; the given (exogenous) values, the constants, the functions and the random nodes below others are missing, so that a model that reads one of them, although it simulates every valid set of parameters, cannot be fitted.", "quantifier": "every model, simulation, emulator, settings and generator", "why_tests_cant": "the tests fit no model by history matching; of the toy models SIR reads random roots only, but Normal2 reads random nodes below another", "anchors": ["src/sims_pars/fit/hme/alg.py: BayesHistoryMatching._simulate, BayesHistoryMatching.sample_posteriors", "src/sims_pars/fit/base.py: DataModel.Domain"]}
{"id": "C95", "title": "Workshops are what was registered in them", "statement": "get_atelier gives the same workshop for the same name however often and in between whatever it is called, and different ones for different names. In a workshop a name means the class registered last under it, and the result of a definition depends only on the registrations of the names occurring in it, not on other registrations, other workshops or definitions evaluated before. The listing, the test with `in` and get_schema know exactly the registered names. Violated: evaluating any definition, also one that fails, adds the name __builtins__ to the workshop.", "quantifier": "every history of get_atelier, register, create and get_blueprint on every number of workshops", "why_tests_cant": "all histories on shared mutable workshops; the stray entry changes no tested result", "anchors": ["src/sims_pars/factory/__init__.py: get_atelier", "src/sims_pars/factory/craftstation.py: Atelier.register, Atelier.create, Atelier.get_blueprint, Atelier.get_schema, Atelier.list, Atelier.__contains__"]}
{"id": "C96", "title": "The trace of a fit", "statement": "A fitter keeps one record for the start of a fit and one for every round completed, also if the fit then fails, and keeping them does not change the fit. The trace noted with the result has one row for each round of that fit from 0 on, the last row is the final state and the tolerance of ABC-SMC never rises along it. Violated: the monitor belongs to the fitter and is never reset, so the trace of a second fit contains the rows of the first.", "quantifier": "every model, settings, generator, number of rounds and sequence of fits on one fitter", "why_tests_cant": "all sequences of fits; no test runs a fitter", "anchors": ["src/sims_pars/fit/abc_smc/alg.py: initialise, update, _a_round, sample_posteriors", "src/sims_pars/fit/ga/alg.py: update, collect, __find_elitism", "src/sims_pars/monitor.py: Monitor.keep, Monitor.step, Monitor.Trajectories", "src/sims_pars/fit/base.py: Fitter.fit"]}
{"id": "C97", "title": "When a round of ABC-SMC fails", "statement": "For a model whose distances are never nan and are measured from what was simulated: a round from a state that the fitter can reach raises AssertionError if at most two particles of positive weight are strictly closer than the new tolerance; otherwise an exception of the round is one of calc_weighted_std or of a proposal. In the first round at most two are closer whenever alpha * (n_iter - 1) is at most 2, and with distinct distances only then; so a fit with such settings, in particular with three particles or fewer, raises AssertionError in its first round.", "quantifier": "every such model, every settings with alpha between 0 and 1, every state with the invariant, every generator", "why_tests_cant": "all populations of distances; no test runs a fitter, and the script in alg.py uses 300 particles", "anchors": ["src/sims_pars/fit/abc_smc/alg.py: find_eps, update_wts, resample, mcmc_proposal, _a_round"]}
{"id": "C98", "title": "Fitting models to targets as read", "statement": "For a model whose targets come from read_targets, whose simulated numbers are finite numbers of numpy and whose simulate returns a new particle: if every entry is an interval, a point with non-zero error and value or a distribution with finite log density, every distance is finite; if error and value of every point have the same sign and there are no distributions, no distance is negative, it is zero exactly at the data, and every fit of ABC-SMC keeps its invariant and a tolerance above zero. If one entry is a point with error or value zero, every particle of the first population simulates exactly that value and has distance nan, whatever the other targets, and the tolerance is nan and no proposal is accepted in the first round. A simulation that samples a second network keeps the parameters it was given, gives every variable of that network, raises ValueError if one of its open variables is no parameter, and otherwise succeeds on every draw of the prior if the definitions of the two networks can be evaluated.", "quantifier": "every source of targets, error, model, simulation, generator, settings and pair of networks", "why_tests_cant": "a continuum of targets and simulated values; no test runs a fitter or reads targets", "anchors": ["src/sims_pars/fit/toys.py: BetaBin.__init__, BetaBin.simulate, Normal2.simulate, EpiSIR.simulate", "src/sims_pars/fit/targets/__init__.py: read_targets", "src/sims_pars/fit/targets/single.py: calc_distance", "src/sims_pars/fit/abc_smc/alg.py: initialise, _a_round"]}
{"id": "C99", "title": "Parameter cores as containers", "statement": "Iterating over a parameter core gives the values of all cores from the root down to it; the last pair with a name is the value the core gives for it, and the core raises KeyError exactly for the names without a pair. Containment, keys, length, dict(core) and sampling a network given a core know only the values of the core itself, so a network with an exogenous variable whose value the core inherits cannot be sampled given the core. evaluate_nodes of a core is the sum of the log densities of the nodes it holds itself at the values it sees; if no name is held twice on the way from the root and what the definitions read is the same wherever it is looked up, the log density of everything visible has the terms of these cores, one core after the other.", "quantifier": "every reachable heap of cores and every network", "why_tests_cant": "all family trees; no test iterates over a core or samples given one", "anchors": ["src/sims_pars/simulation/parcore.py: ParameterCore.__iter__, __getitem__", "src/sims_pars/bayesnet/chromosome.py: Chromosome.__len__, __contains__, keys", "src/sims_pars/bayesnet/fn.py: sample, evaluate_nodes"]}
{"id": "C100", "title": "Cached expected values of targets", "statement": "ev() of a target is answered from one cache shared by all targets: it repeats the last answer for the object if fewer than 128 other objects have been asked since, and otherwise gives Value and variance as they are now; if the method raises, nothing is stored. So ev() is right as long as the object is not changed, for any number of targets and calls, and the implausibility in history matching is then the one computed without a cache, from one fit to the next; a changed Value is seen only after 128 other objects were asked, while the mean squared error sees it at once.", "quantifier": "every sequence of calls, any number of objects and any changes between the calls", "why_tests_cant": "needs more than 128 objects and changes in between; no test reads targets", "anchors": ["src/sims_pars/fit/targets/base.py: AbsData.ev", "src/sims_pars/fit/targets/single.py: get_var_obs", "src/sims_pars/fit/hme/alg.py: Matchers.eval_implausibility, Matchers.eval_mse"]}
{"id": "C101", "title": "Pseudo parameter cores", "statement": "However pseudo parameter cores are made and used, none ever has a parent; children are younger cores entered under their own nickname into Children of one core. breed raises ValueError exactly for a nickname in use and accepts any group. get_sibling, duplicate and get_prototype return a new core of the given nickname (or 'prototype') and the same (or given) group, which is never a child of any core, and detach_from_parent changes nothing. A pseudo core gives a value for no name, not even one just set, so dict(core) raises KeyError as soon as a value was set; its log prior with descendants is 0. Pseudo cores put through the same successful calls as real cores (generate, breed, get_prototype, remove_children, setting values, actors, impulse) have the same nicknames and children at every core, and find_descendant leads to the same core if any name and '@' are put before the address.", "quantifier": "every sequence of calls, any number of cores; every simulation core and random stream for the comparison with real cores", "why_tests_cant": "unbounded family trees; no test uses pseudo cores", "anchors": ["src/sims_pars/simulation/parcore.py: PseudoParameterCore", "src/sims_pars/simulation/parcore.py: ParameterCore.breed, find_descendant"]}
{"id": "C102", "title": "Search space from the prior", "statement": "For a root with a continuous prior (for unif: min < max) the entry of Domain leads to a converter that takes the open unit interval increasingly and one to one onto the support of the prior, and 0 and 1 to its ends. For unif and exp it is the quantile function of the prior, for other families it need not be. A constant root is always proposed as its constant. For binom and pois the limits are 0 and the size or infinity, but in every part of the unit interval there are points whose proposed value is not a whole number.", "quantifier": "every creator, all field values, every point of the unit interval", "why_tests_cant": "a continuum of parameters and points; no test makes a Domain or a converter", "anchors": ["src/sims_pars/prob.py: SpDouble.Interval, SpInteger.Interval, Const.Interval", "src/sims_pars/fit/base.py: DataModel.Domain", "src/sims_pars/fit/converter.py: get_converter"]}
{"id": "C103", "title": "Predictions of regressions", "statement": "With known covariates: a linear regression with positive SE has as sampler the normal distribution around its expectation, predict draws max(n, 1) values from it, and with SE not positive both raise and nothing is drawn. The sampler of a logistic regression is one Bernoulli trial with the expectation as its probability and predict makes that trial. The sampler of a Poisson regression has the expectation as its mean, but predict raises always and draws nothing. In a multinomial regression with as many intercepts as regressions, at least one, and as many labels, all different (or none given) label i has expectation i in the sampler, and predict chooses among all labels with the expectations. With another number of labels than of expectations predict raises and draws nothing, though get_sampler may succeed with other probabilities; with equal labels both may succeed and disagree.", "quantifier": "all regressors, coefficients, covariates, labels, numbers of draws and states of the generator", "why_tests_cant": "a continuum of coefficients; agreement of two random functions is about every state of the generator; no test makes a regression", "anchors": ["src/sims_pars/data/reg/linear.py: LinearRegression.predict, get_sampler", "src/sims_pars/data/reg/glm.py: predict and get_sampler of the three regressions"]}
{"id": "C104", "title": "Life of node sets", "statement": "A node set is frozen exactly if it was itself injected successfully and not defrosted since; a frozen one refuses children and injections with AssertionError, any other accepts every child. Its children are, name by name, the last added under the name. A node set without a parent whose descendants form a tree is injected exactly if it is not frozen and its request is valid, and then gives the simulation core of that request, whatever was injected before and whatever is done to other node sets. A simulation core can be made, or cloned, exactly when all node sets below have been allocated, otherwise TypeError: so not after a member below the root got a new child, which is accepted, and not after defrosting the root until it is injected again, possibly with another network. Being frozen does not protect: a frozen node set put below another root is allocated anew by the injection of that root and stays frozen.", "quantifier": "every history of making, extending, injecting and defrosting node sets, every network", "why_tests_cant": "unbounded histories on shared objects; the tests inject each node set once", "anchors": ["src/sims_pars/simulation/nodeset.py: NodeSet.defrost, add_child, new_child, inject_bn", "src/sims_pars/simulation/simucore.py: SimulationCore, clone", "src/sims_pars/simulation/simugroup.py: SimulationGroup.__init__"]}
{"id": "C105", "title": "Implausibility in history matching", "statement": "The implausibility of a point exists exactly if there are targets and the point has a prediction and a variance for each (KeyError for a missing one, ValueError without targets). It is below c exactly if, for every target, the prediction is a finite number less than c standard deviations from the value of the target, where the variances of model, observation and prediction add up and the sum is positive; with finite predictions and positive variances it is the largest of these distances. A wave keeps exactly the emulated points within the cut-off of every target. A target predicted exactly and without any variance makes the implausibility nan, so that the point is never kept. The error noted with the wave is the mean over the points kept of the mean squared difference to the targets; it is not negative and zero exactly if every point hits every target.", "quantifier": "every set of targets, predictions, model, emulator and generator", "why_tests_cant": "a continuum of predictions; no test runs history matching", "anchors": ["src/sims_pars/fit/hme/alg.py: Matchers.eval_implausibility, Matchers.eval_mse, BayesHistoryMatching._a_wave, _keep_plausible"]}
{"id": "C106", "title": "Survival regressions", "statement": "With known covariates and a proper baseline the time predicted by a Cox regression for a unit exponential draw e exceeds s exactly if e exceeds the cumulative baseline hazard at s times exp of the sum of effects; it is the time drawn from the sampler, and zero only for the draw zero. For the same draw the time is shorter exactly for the larger sum of effects, the cumulative hazards at the two times being in the ratio of the risks. A zero-inflated regression predicts zero exactly if the uniform draw is below the probability whose log odds are the intercept and the first sum of effects, else the time of the second regression; its expectation is that of the second times the probability of not being zero. A missing covariate raises KeyError in each of them. With an exponential baseline the expectation is rate/ratio, which is the mean of the predicted times only for rate 1: it rises with the rate while every predicted time falls.", "quantifier": "every baseline hazard, all regressors, covariates and draws", "why_tests_cant": "a continuum of draws and covariates; no test makes a regression", "anchors": ["src/sims_pars/data/reg/survival.py: CoxRegression.predict, get_sampler, expectation", "src/sims_pars/data/reg/survival.py: ZeroInflatedCoxRegression.predict, get_sampler, expectation", "src/sims_pars/data/reg/hazard.py: HazardDistribution, ZeroInflatedHazardDistribution"]}
{"id": "C107", "title": "Samplers of parameter cores", "statement": "Sampler.sample gives one value for n up to 1 and a list of exactly n values else: those of one call after the other, the first exception ending it. With a frozen actor that is up to date it cannot fail; the values of a random node are successive draws from the one distribution its definition gives, those of another node are all equal and nothing is drawn. Also when it is not up to date a frozen actor never fails, in any history. Any other single actor renders its node anew at each call, from the values seen at that moment of the names it reads only. In every history of operations list_actors names exactly the blueprints of the group (the shared ones if shared ones are asked for and there is a parent), get_sampler raises KeyError for other names, and a sampler that is returned has an actor up to date with the core it was asked from; so have all those of get_samplers. None of these changes a value of a core. get_child_samplers refuses groups that are not child groups; it gives the actors the children of the group share, but does not make them: before a child was asked for them it raises TypeError or AttributeError.", "quantifier": "every network, simulation core, history of operations, number and generator", "why_tests_cant": "unbounded histories and counts; only single draws are tested", "anchors": ["src/sims_pars/simulation/actor.py: Sampler.sample", "src/sims_pars/simulation/parcore.py: ParameterCore.list_actors, get_sampler, get_samplers, get_child_samplers"]}
{"id": "C108", "title": "Arguments of parsed functions", "statement": "get_arguments of a parsed call gives the positional and then the keyword arguments in the order of the text, each with its key and the value of its text; the first argument that cannot be evaluated decides the exception. to_json never raises NameError: an argument with a missing name is given as text, all others as values. evaluate_function succeeds exactly if the JSON form exists and has no text; blueprint and JSON form of the evaluated function are then those of the parsed one, and with a text NameError is raised. All results depend on the values of Parents only, if the environment holds no called name. Violated: the JSON form tells a text argument from a missing name.", "quantifier": "every call, environment, world", "why_tests_cant": "unbounded expressions and environments; the tests parse one call", "anchors": ["src/sims_pars/util.py: ParsedFunction.get_arguments, to_blueprint, to_json", "src/sims_pars/util.py: EvaluatedFunction, evaluate_function"]}
{"id": "C109", "title": "Vectors over time and samples of data sets", "statement": "A TimeSeriesVector reads all its columns from one and the same row of the table, the row that TimeSeries reads for the same time, whatever columns are asked for; in a table ordered by time no other row is closer. A missing column raises KeyError, an empty table IndexError unless no column is asked for. AbsDataSet.sample gives one value for n=1, else the list of the results of n calls one after the other, an empty list for n below 1; the first exception ends it.", "quantifier": "every table, time, set of columns, data set, n", "why_tests_cant": "all tables and times; the tests do not touch data", "anchors": ["src/sims_pars/data/timeseries.py: TimeSeriesVector", "src/sims_pars/data/frame.py: AbsDataSet.sample"]}
{"id": "C110", "title": "The SIR example", "statement": "For every choice of beta and gamma and every explicit Runge-Kutta method, whatever its steps, all states have the population of the start, so the division in the model is never by zero. Susceptibles never increase and recovered never decrease for non-negative states and rates; the infectious increase exactly if beta s / n exceeds gamma; without infectious nothing changes. The numbers reported for a time are those of the last state with that name: recovery is gamma times prevalence, shares of non-negative states lie between 0 and 1 and incidence is at most beta/4. For positive rates and states every reported number becomes one target, of the kind for which the total distance is never negative and ABC-SMC keeps its invariant.", "quantifier": "every beta, gamma, method, state", "why_tests_cant": "real parameters and states; no test runs the example", "anchors": ["src/sims_pars/fit/toys.py: EpiSIR"]}
{"id": "C111", "title": "Tables of a posterior sample", "statement": "to_df and to_pred_df of a posterior sample: the columns are the names that occur in any particle, each once, row i holds the values of particle i; there is no gap exactly if all particles have the same names. For every posterior sample of ABC by rejection and history matching, and of ABC-SMC after a fit if simulate leaves no notes, to_pred_df succeeds, has exactly the targets as columns in their order, no gaps, and the simulated values in the cells. For the two ABC fitters, with simulate keeping the parameters it is given (and parents, if set, free and not above a given value), to_df has a column for every node and every given name and for nothing else, no gaps, and the given values in their columns.", "quantifier": "every network, data, model, setting, generator, number of rounds and particles", "why_tests_cant": "end-to-end over all fits; no test runs a fitter", "anchors": ["src/sims_pars/fit/results.py: to_df, to_pred_df", "src/sims_pars/fit/base.py: flatten, calc_distance, Particle.copy", "src/sims_pars/fit/abc_smc/alg.py: fit, sample_posteriors", "src/sims_pars/fit/abcom/alg.py: sample_posteriors", "src/sims_pars/fit/hme/alg.py: sample_posteriors"]}
{"id": "C112", "title": "Emulators are trained before they are asked", "statement": "GPREmulator.train succeeds exactly if the inputs form an array, every particle has the output as a number and the process can be built and optimised; the emulator then has the optimised process and the changed kernel. A particle without the output means KeyError and leaves the emulator as it was. predict raises AssertionError until a process has been built; from then on the emulator stays ready whatever later trainings do, and never changes its output. In every fit by history matching with random rows in the unit box there is one emulator per target, for that target; every wave trains each on the particles it simulated, with the values of its own target and the kernel the wave before left behind. fit never ends with AssertionError if none of the parts outside (sampling, simulate, the design, gpflow) raises it.", "quantifier": "every sequence of trainings, raising or not; every fit, model, data, setting and generator, any number of waves", "why_tests_cant": "needs gpflow; no test trains an emulator or runs a fitter", "anchors": ["src/sims_pars/fit/hme/emulator.py: AbsEmulator.__init__, GPREmulator.train, predict", "src/sims_pars/fit/hme/alg.py: initialise, a_wave, fit"]}
{"id": "C113", "title": "Actors put on cores from outside, cores moved to another simulation core", "statement": "put_local_actors replaces all actors of a core by fresh ones, one per blueprint of the group, up to date with what the core sees; put_shared_actors replaces those of the group on the parent, up to date with what the parent sees, and leaves those of other groups alone. Values, densities, parents, children, groups and nicknames of all cores stay; a call that raises leaves everything as it was; for a root put_shared_actors raises AttributeError. get_actors does the same as these exactly if there are no actors yet and changes nothing otherwise. reset_sc moves a core exactly if the new simulation core has its group (KeyError else) and moves no other core; it raises TypeError, after the core has moved, exactly if the core has children, so a family is never moved as a whole.", "quantifier": "every simulation core, every history of the cores, every core and generator", "why_tests_cant": "states with actors replaced at any point of a history; no test calls these", "anchors": ["src/sims_pars/simulation/simugroup.py: put_local_actors, put_shared_actors_on_parent, put_shared_actors", "src/sims_pars/simulation/parcore.py: get_actors, reset_sc"]}
{"id": "C114", "title": "Distributions describe themselves and draw what they are asked for", "statement": "What parse_distribution makes is printed as the text it was made from and gives its arguments as JSON; being described changes nothing else. Made without a description, or by hand, a distribution cannot be printed (TypeError) and has no JSON (AttributeError). Two described distributions with the same JSON are the same, although the JSON does not name the family; two with the same text need not be. sample(n) gives n values of the family (rounded for counts), a bare one for n = 1; only a constant is bare also for n = 0. A table of categories can be sampled exactly if it is not empty, the weights do not sum to zero and none has the sign opposite to the sum (ValueError else), and gives categories only.", "quantifier": "every text, variables, registered family, arguments, table of weights, n and generator", "why_tests_cant": "tests print no distribution and sample few values of few families", "anchors": ["src/sims_pars/prob.py: AbsDistribution, SpDouble.sample, SpInteger.sample, Const.sample, CategoricalRV.sample, parse_distribution", "src/sims_pars/factory/craftstation.py: Atelier.create"]}
{"id": "C115", "title": "Tables and means of chromosomes", "statement": "Chromosome.mean gives, under every name any gene has, the average of the numbers found there: genes without the name and nan do not count, and nan is the mean of nothing. It lies between any bounds of these numbers and does not depend on the order of the genes. It raises TypeError exactly if some gene has a value that is not a number. to_data_frame has one row per gene with its values and a gap where it has none; it has LogProb exactly for the evaluated genes, where it hides a node of that name.", "quantifier": "every list of chromosomes, also with different keys", "why_tests_cant": "lists of genes of any length with missing keys, nan and text; no test calls these", "anchors": ["src/sims_pars/bayesnet/chromosome.py: mean, to_data_frame, to_data"]}
{"id": "C116", "title": "The order of definitions and of parents", "statement": "Two networks with the same definitions, written in any order and with the parents of a node iterated over in any order, give the same log-probability (or the same exception) for the same values. Samples of both that have the same given and the same drawn values are equal. If all random nodes are given, one is sampled successfully exactly if the other is, with the same values, and neither uses the generator. Where values are drawn, the order of drawing, and so the values for a fixed seed, does depend on the order: parents are kept in a set, so the same script with the same seed can give different samples in two runs of Python.", "quantifier": "every network that can be built, every order of definitions and of parents, all given values and generators", "why_tests_cant": "the order of a set of strings is fixed in one run of Python, so no single test run sees two orders", "anchors": ["src/sims_pars/bayesnet/bn.py: append_loci", "src/sims_pars/util.py: find_ast_parents", "src/sims_pars/fn.py: sample, evaluate_nodes"]}
{"id": "C117", "title": "Sampling what is needed agrees with sampling everything", "statement": "If sample and sample_minimally succeed with the same given values and give the same values to the random nodes both compute, they agree on every value: each value of sample_minimally is the one of sample, and all included nodes are there. If all random nodes are given, included and given names are nodes of the network and at least one is included, then sample succeeding means that sample_minimally succeeds, with exactly the included part of the values of sample, and does not use the generator.", "quantifier": "every network that can be built, all included nodes, given values and generators", "why_tests_cant": "all networks and all choices of included and given nodes", "anchors": ["src/sims_pars/fn.py: sample, sample_minimally"]}
{"id": "C118", "title": "The operators of the genetic algorithm are found by their names", "statement": "get_crossover, get_mutator and get_selector read a name alone as a call without arguments. Whatever was asked for before, the names average, shuffle, rw, importance give the product of their class called without arguments, and tour that of its class with K=3. Numbers given to tour: the first becomes K, all others are dropped without notice; the other classes are called with all numbers given. A call of a name that is not offered raises KeyError, a text without a call AttributeError, an unreadable text SyntaxError; these leave the workshop as it was. What was made before never changes the outcome for a text that does not mention __builtins__. GeneticAlg gets its three operators exactly if each can be found, and raises the first exception in the order crossover, mutator, selector otherwise.", "quantifier": "every reader of texts that reads name() as a call of that name, every behaviour of the classes, every history of algorithms made before with any settings", "why_tests_cant": "all histories and texts; fit/ga/alg.py imports a package that does not exist, so no test can make the algorithm", "anchors": ["src/sims_pars/fit/ga/cross.py: get_crossover", "src/sims_pars/fit/ga/mutate.py: get_mutator", "src/sims_pars/fit/ga/select.py: get_selector", "src/sims_pars/fit/ga/alg.py: GeneticAlg.__init__", "src/sims_pars/factory/craftstation.py: create"]}
{"id": "C119", "title": "An intervention is sampling given the rest", "statement": "Let a chromosome hold a value for every node of its network, let an intervention name at least one of the variables held and only nodes of the network among these, and let no definition that is to be computed anew read a node which is not its parent. Then impulse leaves exactly the values, and the generator, that sample gives when what is assigned and what is not computed anew are the given values; if one raises an exception, the other raises the same one with the generator in the same state. The condition on what is read matters: an exogenous node asked to be drawn again silently keeps its value in impulse, while sampling the same thing raises ValueError.", "quantifier": "every network built from a script or piece by piece, every chromosome, intervention and generator", "why_tests_cant": "a relation between two loops over all networks and interventions; the tests check single interventions and never compare them with sampling", "anchors": ["src/sims_pars/bayesnet/chromosome.py: impulse", "src/sims_pars/fn.py: sample"]}
