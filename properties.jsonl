{"id": "C01", "title": "Directed path enumeration is exact", "statement": "find_all_dir_paths(cbn, s, t) terminates and yields every directed path from s to t in the network, nothing else, and each of them exactly once (the single path [s] when s = t).", "quantifier": "every acyclic network, every pair of its nodes, every child order", "why_tests_cant": "the number of networks and of paths in them is unbounded; a test sees a handful of graphs", "anchors": ["pycid/core/get_paths.py: _dfs_search_paths, find_all_dir_paths"]}
{"id": "C02", "title": "Undirected path enumeration is exact", "statement": "find_all_undir_paths(cbn, s, t) terminates and yields exactly the simple undirected paths between s and t, each once, whatever order Python's hash-randomised sets are iterated in.", "quantifier": "every network, every pair of nodes, every set iteration order", "why_tests_cant": "set iteration order changes from process to process (PYTHONHASHSEED) and the family of graphs is infinite", "anchors": ["pycid/core/get_paths.py: _dfs_search_paths, find_all_undir_paths"]}
{"id": "C03", "title": "find_active_path returns an active path", "statement": "If find_active_path(cbn, s, t, observed) returns a path then it is a simple undirected path of the network from s to t, and is_active_path accepts it for the same observed set.", "quantifier": "every network, every s, t, every observed set not containing s, every set iteration order", "why_tests_cant": "soundness of a search must hold for all graphs, observed sets and iteration orders", "anchors": ["pycid/core/get_paths.py: find_active_path, _active_neighbours, is_active_path"]}
{"id": "C04", "title": "find_active_path finds a path whenever one exists", "statement": "find_active_path(cbn, s, t, observed) raises ValueError exactly when s and t are d-separated by observed, i.e. exactly when is_dconnected(s, t, observed) is False.", "quantifier": "every acyclic network, every s, t, every observed set not containing s, every set iteration order", "why_tests_cant": "completeness quantifies over all possible paths of all graphs, and relates a simple-path search to a walk-based algorithm", "anchors": ["pycid/core/get_paths.py: find_active_path, _active_neighbours, _dfs_search_paths"]}
{"id": "C05", "title": "is_dconnected decides d-connection", "statement": "is_dconnected(x, y, observed) is True exactly when some simple undirected path from x to y has every non-collider outside observed and every collider in observed or with a descendant in observed (and x, y are not observed).", "quantifier": "every acyclic network, nodes x and y, observed set", "why_tests_cant": "the inherited worklist algorithm explores walks, not simple paths; equality with the textbook criterion needs an argument over all graphs", "anchors": ["pycid/core/macid_base.py: active_trail_nodes, is_s_reachable, is_r_reachable", "pycid/analyze/requisite_graph.py: requisite"]}
{"id": "C06", "title": "get_motif classifies every node of a path", "statement": "For an undirected path of the network and an index that is not the first, get_motif returns forward, backward, fork, collider or endpoint, and the answer is the one given by the directions of the two edges of the path at that node; at index 0 the answer does not depend on the rest of the path.", "quantifier": "every acyclic network, every path, every valid index", "why_tests_cant": "the classification must be exhaustive and exclusive on all graphs; negative-index wraparound only shows on particular paths", "anchors": ["pycid/core/get_paths.py: get_motif, get_motifs"]}
{"id": "C07", "title": "is_active_path decides activity of a path", "statement": "is_active_path(cbn, path, observed) returns True exactly when no chain or fork node inside the path is observed and every collider on it is observed or has an observed descendant.", "quantifier": "every acyclic network, every simple path, every observed set", "why_tests_cant": "needs all paths and all observed sets, including those where a collider is opened only by a distant descendant", "anchors": ["pycid/core/get_paths.py: is_active_path, get_motif"]}
{"id": "C08", "title": "Backdoor and frontdoor trail tests decide their definitions", "statement": "is_active_backdoor_trail(cbn, s, t, observed) is True exactly when some active simple path from s to t starts with an edge into s; is_active_indirect_frontdoor_trail is True exactly when some active simple path starts with an edge out of s and contains a collider.  Both answer for every pair of nodes, including s = t.", "quantifier": "every acyclic network, every s, t, observed set, every set iteration order", "why_tests_cant": "existential over all paths of all graphs; the answer must not depend on which path is found first", "anchors": ["pycid/core/get_paths.py: is_active_backdoor_trail, is_active_indirect_frontdoor_trail"]}
{"id": "C09", "title": "directed_decision_free_path decides its definition", "statement": "directed_decision_free_path(macid, s, t) is True exactly when some directed path from s to t has no decision node strictly between its ends.", "quantifier": "every acyclic influence diagram, every pair of nodes", "why_tests_cant": "existential over all directed paths", "anchors": ["pycid/core/get_paths.py: directed_decision_free_path"]}
{"id": "C10", "title": "Edits keep the network acyclic", "statement": "After the constructor and any sequence of add_edge, remove_edge, add_node and remove_node calls, some of which may raise, the network has no directed cycle, no self loop and no dangling edge; an add_edge that raises leaves nodes and edges unchanged, and it raises exactly when the edge would close a cycle.", "quantifier": "every edge list given to the constructor, every finite history of edits including failing ones", "why_tests_cant": "an invariant over unbounded histories", "anchors": ["pycid/core/causal_bayesian_network.py: __init__, add_edge, remove_edge"]}
{"id": "C11", "title": "The constructor builds the graph it is given", "statement": "CausalBayesianNetwork(edges) either raises ValueError (exactly when the edges contain a directed cycle) or returns a network whose edges are exactly the given pairs, whatever kind of iterable is passed.", "quantifier": "every finite sequence of pairs, passed as a re-iterable or as a one-shot iterator", "why_tests_cant": "all edge sequences; single-use iterators behave differently from lists", "anchors": ["pycid/core/causal_bayesian_network.py: __init__"]}
{"id": "C12", "title": "Role bookkeeping is consistent", "statement": "After constructing a (MA)CID from disjoint duplicate-free decision and utility lists and any sequence of make_decision, make_utility and make_chance calls, every node has exactly one role, the agent-to-nodes and node-to-agent views agree, and each call gives its node the requested role and changes no other node's role.", "quantifier": "every influence diagram, every history of role changes including ones that raise", "why_tests_cant": "four redundant dictionaries must agree after every history", "anchors": ["pycid/core/macid_base.py: __init__, make_decision, make_utility, make_chance, decisions, utilities, agents"]}
{"id": "C13", "title": "Diagrams do not share role state", "statement": "Changing the role of a node in one diagram does not change the roles of any other diagram, nor the lists the caller passed to the constructor.", "quantifier": "every pair of diagrams built from the same role lists, every role change", "why_tests_cant": "aliasing shows only for particular combinations of objects and histories", "anchors": ["pycid/core/macid_base.py: __init__, make_decision, make_utility, make_chance", "pycid/core/cid.py: __init__"]}
{"id": "C14", "title": "A structural copy has the same nodes, edges and roles", "statement": "copy_without_cpds() returns a diagram with the same nodes, the same edges, the same decision and utility nodes and the same owner for each of them.", "quantifier": "every influence diagram, including agents that own only decisions or only utilities, and every history that produced it", "why_tests_cant": "all role configurations and histories; agents with an empty list are a corner case", "anchors": ["pycid/core/macid_base.py: copy_without_cpds, agents", "pycid/core/cid.py: copy_without_cpds", "pycid/core/macid.py: copy_without_cpds"]}
{"id": "C15", "title": "get_valid_order is a topological order", "statement": "get_valid_order(nodes) returns exactly the requested nodes, each once, and never lists a node before one of its ancestors; it raises KeyError exactly when a requested node is absent.", "quantifier": "every acyclic network, every set of nodes", "why_tests_cant": "must hold for all graphs", "anchors": ["pycid/core/macid_base.py: get_valid_order"]}
{"id": "C16", "title": "The mechanism graph adds one fresh parent per node", "statement": "MechanismGraph(cid) either raises ValueError because a node name clashes with a mechanism name, or has exactly one new parentless node per original node, whose only child is that node, and otherwise the same graph.", "quantifier": "every influence diagram, every choice of node names", "why_tests_cant": "depends on all possible name clashes", "anchors": ["pycid/core/macid_base.py: MechanismGraph"]}
{"id": "C17", "title": "r-reachability and s-reachability decide their definitions", "statement": "is_r_reachable(D, V) is True exactly when, after adding a new parent to V alone, the new node is d-connected to some utility of D's owner that descends from D, given D and its parents; with sets of decisions or nodes it is the disjunction over the pairs; is_s_reachable(d1, d2) is the same with the roles swapped.", "quantifier": "every acyclic influence diagram without name clashes, every decision and node", "why_tests_cant": "the code adds a mechanism node to every node at once; equivalence with the single-parent definition must be argued for all graphs", "anchors": ["pycid/core/macid_base.py: is_r_reachable, is_s_reachable, MechanismGraph"]}
{"id": "C18", "title": "The relevance graph and sufficient_recall decide their definitions", "statement": "RelevanceGraph(macid, decisions) has an edge d1 -> d2 exactly when d1 differs from d2 and d2 is strategically relevant to d1 (is_s_reachable(d1, d2)); sufficient_recall(agent) is True exactly when that graph on the agent's decisions has no directed cycle, and sufficient_recall() exactly when this holds for every agent.", "quantifier": "every acyclic influence diagram, every agent", "why_tests_cant": "quantifies over all graphs and all cycles", "anchors": ["pycid/core/relevance_graph.py: RelevanceGraph", "pycid/core/macid_base.py: sufficient_recall, is_s_reachable"]}
{"id": "C19", "title": "Reverse topological order is a sound solving order", "statement": "In a single-agent diagram with sufficient recall, when decisions are processed from last to first in any topological order (as impute_optimal_policy does), no decision still to be processed is strategically relevant to the one being processed.", "quantifier": "every acyclic single-agent diagram with sufficient recall, every topological order", "why_tests_cant": "links d-separation in the mechanism graph with ancestor order for all graphs", "anchors": ["pycid/core/cid.py: impute_optimal_policy, solve", "pycid/core/macid_base.py: sufficient_recall, get_valid_order, is_s_reachable"]}
{"id": "C20", "title": "Condensed relevance graph orders all decisions", "statement": "get_scc_topological_ordering of the condensed relevance graph lists every decision in exactly one component, two decisions are in the same component exactly when each is reachable from the other in the relevance graph, and no component precedes one it is reachable from.", "quantifier": "every acyclic influence diagram", "why_tests_cant": "all relevance graphs with arbitrary cycle structure", "anchors": ["pycid/core/relevance_graph.py: CondensedRelevanceGraph, get_scc_topological_ordering, get_decisions_in_scc"]}
{"id": "C21", "title": "Subgame enumeration is exact", "statement": "decs_in_each_maid_subgame returns exactly the non-empty sets of decisions that are closed under strategic relevance (if D is in the set, so is every decision reachable from D in the relevance graph), each once.", "quantifier": "every acyclic influence diagram", "why_tests_cant": "a family of subsets of an arbitrary graph", "anchors": ["pycid/core/macid.py: decs_in_each_maid_subgame", "pycid/core/relevance_graph.py: CondensedRelevanceGraph"]}
{"id": "C22", "title": "requisite decides its definition", "statement": "requisite(cid, D, X) is True exactly when X is d-connected to some utility of D's owner that descends from D given D and its other parents, for every parent X of a decision D; it raises exactly when D is absent (NetworkXError), X is not a parent of D or D is no decision (KeyError).", "quantifier": "every acyclic diagram, every decision, every parent of it", "why_tests_cant": "all graphs", "anchors": ["pycid/analyze/requisite_graph.py: requisite"]}
{"id": "C23", "title": "requisite_graph only drops non-requisite information links", "statement": "requisite_graph(cid) has the same nodes and roles as cid, every edge of it is an edge of cid, every missing edge goes into a decision, and the missing links can be dropped one after the other so that each is not requisite when it is dropped.  For single-agent diagrams every information link that stays is requisite, so the result is the unique minimal reduction of the diagram, whatever topological order is used, and applying requisite_graph again removes nothing more.", "quantifier": "every acyclic diagram, every topological order of its decisions; minimality and idempotence for single-agent diagrams", "why_tests_cant": "iterated removal over arbitrary graphs; a single pass need not reach a fixed point", "anchors": ["pycid/analyze/requisite_graph.py: requisite_graph, requisite_list"]}
{"id": "C24", "title": "admits_voi decides the value-of-information criterion", "statement": "For a single-decision diagram admits_voi(cid, D, X) is True exactly when X does not descend from D and X is d-connected to a utility descending from D given D and its other parents; the answer is the same whether or not the link X -> D is already present.", "quantifier": "every acyclic single-agent diagram, every decision and node", "why_tests_cant": "quantifies over all graphs; the code adds the link before testing", "anchors": ["pycid/analyze/value_of_information.py: admits_voi, admits_voi_list"]}
{"id": "C25", "title": "admits_voc, admits_dir_voc and admits_indir_voc decide their criteria", "statement": "admits_voc(cid, X): X is no decision and some directed path leads from X to a utility in the requisite graph; admits_dir_voc(cid, X): some such path contains no decision; admits_indir_voc(cid, D, X): for some utility U the requisite graph has a directed path from X to U through D and a backdoor path from X to U that is active given D and its parents other than X.  Each function returns True exactly then, and a True direct or indirect answer implies a True admits_voc.", "quantifier": "every acyclic single-agent diagram, every decision and node", "why_tests_cant": "existential over all paths and all graphs", "anchors": ["pycid/analyze/value_of_control.py: admits_voc, admits_dir_voc, admits_indir_voc"]}
{"id": "C26", "title": "admits_ri decides the response-incentive criterion", "statement": "admits_ri(cid, D, X) is True exactly when X is not D and the requisite graph has a directed path from X to D; in particular then some requisite information link into D exists.", "quantifier": "every acyclic single-agent diagram, every decision and node", "why_tests_cant": "existential over all paths and all graphs", "anchors": ["pycid/analyze/response_incentive.py: admits_ri, admits_ri_list"]}
{"id": "C27", "title": "admits_ici decides the instrumental-control-incentive criterion", "statement": "admits_ici(cid, D, X) is True exactly when X lies on a directed path from D to a utility of the agent.", "quantifier": "every acyclic single-agent diagram, every decision and node", "why_tests_cant": "existential over all paths and all graphs", "anchors": ["pycid/analyze/instrumental_control_incentive.py: admits_ici, admits_ici_list"]}
{"id": "C28", "title": "Incentive tests reject malformed questions", "statement": "Each admits_* test raises ValueError when the diagram has several agents, otherwise KeyError when a named node is absent, otherwise (for the requisite-graph based tests) ValueError when the agent lacks sufficient recall, and otherwise returns a boolean and never raises; the *_list versions return exactly the nodes the single-node test accepts.", "quantifier": "every diagram whose node names do not look like mechanism names, every argument", "why_tests_cant": "the claim that nothing else is raised covers all inputs", "anchors": ["pycid/analyze/value_of_information.py", "pycid/analyze/value_of_control.py", "pycid/analyze/response_incentive.py", "pycid/analyze/instrumental_control_incentive.py"]}
{"id": "C29", "title": "direct_effect and manipulation decide their definitions", "statement": "direct_effect(macid, D) is True exactly when a directed path on which no inner node is a decision leads from D to a utility of its owner.  Call a directed path effective when every decision on it after the first node is in the effective set.  manipulation(macid, D, effective) is True exactly when some other decision D_B in the effective set is reached from D by a directed path without inner decisions, D_B has an effective directed path to a utility of D's owner, and D has an effective directed path to a utility of D_B's owner that does not pass through D_B.", "quantifier": "every acyclic multi-agent diagram, every decision, every effective set", "why_tests_cant": "nested existentials over paths of arbitrary graphs", "anchors": ["pycid/analyze/reasoning_patterns.py: direct_effect, manipulation"]}
{"id": "C30", "title": "signaling and revealing_or_denying answers are well defined", "statement": "signaling and revealing_or_denying return the same boolean for the same diagram, decision and effective set in every process (whatever order sets are iterated in), never raise for nodes that are present, and return True exactly when their documented graphical conditions hold.", "quantifier": "every acyclic multi-agent diagram, every decision, every effective set, every set iteration order", "why_tests_cant": "hash-order dependence varies between processes and needs particular graphs to show", "anchors": ["pycid/analyze/reasoning_patterns.py: signaling, revealing_or_denying, _get_key_node, _effective_backdoor_path_not_blocked_by_set_w"]}
{"id": "C31", "title": "get_reasoning_patterns terminates at a stable classification", "statement": "get_reasoning_patterns(macid) terminates; each decision is listed under at most one pattern; the listed decisions are exactly those motivated by some pattern relative to the set of listed decisions.", "quantifier": "every acyclic multi-agent diagram on which the pattern tests do not raise", "why_tests_cant": "termination and stability of an iterated deletion over arbitrary graphs", "anchors": ["pycid/analyze/reasoning_patterns.py: get_reasoning_patterns"]}
{"id": "C32", "title": "Every accepted table is a probability table", "statement": "When a StochasticFunctionCPD is created without error, every column has one entry per domain value, every entry is between 0 and 1, every column sums to 1 within 0.01, probabilities the user gave are kept, and unspecified outcomes of a column share the missing mass equally (and then the column sums to exactly 1).", "quantifier": "every function, every parent domain, every partial distribution it returns", "why_tests_cant": "all functions and all domains", "anchors": ["pycid/core/cpd.py: StochasticFunctionCPD.__init__, complete_prob_dictionary, bernoulli, discrete_uniform, noisy_copy"]}
{"id": "C33", "title": "A CPD whose arguments do not match the parents is rejected", "statement": "Creating a CPD from a function raises ValueError exactly when the function's parameter names are not the names of the variable's parents (unless it takes arbitrary keywords).", "quantifier": "every function signature, every set of parents", "why_tests_cant": "all signatures, including defaults and keyword parameters", "anchors": ["pycid/core/cpd.py: check_function_arguments_match_parent_names, stochastic_function"]}
{"id": "C34", "title": "CPDs can be added in any order", "statement": "If every variable is given one relationship (function, distribution or decision domain), then add_cpds leads to the same domains and the same probability tables whatever order the relationships are supplied in and however they are split over calls.", "quantifier": "every acyclic network, every assignment of relationships, every order and split", "why_tests_cant": "n! orders of unboundedly many variables", "anchors": ["pycid/core/causal_bayesian_network.py: Model.__setitem__, Model.to_tabular_cpd, add_cpds"]}
{"id": "C35", "title": "Tables always reflect the current relationships", "statement": "After any sequence of add_cpds and remove_cpds calls that return normally, every variable with a relationship whose parents all have domains has a table, and it is the table its relationship gives for the parents' current domains.", "quantifier": "every acyclic network, every history of add_cpds and remove_cpds", "why_tests_cant": "an invariant over histories; a domain change must reach all descendants", "anchors": ["pycid/core/causal_bayesian_network.py: Model.__setitem__, Model.__delitem__, sync_state_names"]}
{"id": "C36", "title": "A failed add_cpds leaves the network unchanged", "statement": "If add_cpds raises, the relationships, tables and domains are as before the call.", "quantifier": "every network state and every relationship that is rejected", "why_tests_cant": "needs every failure point of the recursive update", "anchors": ["pycid/core/causal_bayesian_network.py: Model.__setitem__, add_cpds"]}
{"id": "C37", "title": "query does not modify the network", "statement": "query, expected_value and expected_utility leave nodes, edges, relationships and tables of the network unchanged, with or without an intervention.", "quantifier": "every network, connected or not, every query, context and intervention", "why_tests_cant": "depends on the component structure of the network", "anchors": ["pycid/core/causal_bayesian_network.py: query, expected_value", "pycid/core/macid_base.py: query, expected_utility"]}
{"id": "C38", "title": "An intervention changes only its target", "statement": "After intervene({X: x}) the only edges removed are those into X, X takes x with probability 1, and the conditional distribution of every other variable given its parents' values is unchanged; so the joint distribution is the truncated product.", "quantifier": "every network, every intervention, every order of the declared domains", "why_tests_cant": "all networks, including relationships given as ready-made tables and domains that are not in sorted order", "anchors": ["pycid/core/causal_bayesian_network.py: intervene, Model.__setitem__, sync_state_names"]}
{"id": "C39", "title": "Out-of-domain values are rejected", "statement": "query raises ValueError exactly when a context or intervention assigns a value that is not in the variable's domain.", "quantifier": "every network, context and intervention", "why_tests_cant": "all values of all variables", "anchors": ["pycid/core/causal_bayesian_network.py: query, intervene", "pycid/core/macid_base.py: query"]}
{"id": "C40", "title": "query refuses exactly when a missing policy could matter, and is right to answer otherwise", "statement": "For a diagram with decisions that have no policy, query(q, context, intervention) answers only if the conditional distribution of q given the context does not depend on which policies those decisions would have.", "quantifier": "every acyclic diagram, every query, context and intervention, every policy of the unset decisions", "why_tests_cant": "soundness of d-separation for all distributions over all graphs", "anchors": ["pycid/core/macid_base.py: query, MechanismGraph"]}
{"id": "C41", "title": "expected_value lists expectations in the order asked", "statement": "expected_value(variables, context) returns one number per requested variable, the i-th being the conditional expectation of the i-th requested variable; expected_utility returns the sum of the conditional expectations of the agent's utilities.", "quantifier": "every network, every list of variables, every internal factor ordering of the inference engine", "why_tests_cant": "the ordering of a factor's variables is chosen by the inference engine", "anchors": ["pycid/core/causal_bayesian_network.py: expected_value", "pycid/core/macid_base.py: expected_utility"]}
{"id": "C42", "title": "Total effects vanish off the causal path and are antisymmetric", "statement": "total_effect(cbn, a, x, v0, v1) is 0 when x is not a descendant of a, total_effect(a, x, v0, v1) = - total_effect(a, x, v1, v0), and introduced_total_effect with adapt_marginalized is unchanged by swapping v0 and v1 when the effect on y is nonzero.", "quantifier": "every network, every pair of variables and values", "why_tests_cant": "all distributions over all graphs", "anchors": ["pycid/analyze/effects.py: total_effect, introduced_total_effect", "pycid/core/causal_bayesian_network.py: expected_value, intervene"]}
{"id": "C43", "title": "pure_decision_rules enumerates every deterministic rule once", "statement": "pure_decision_rules(D) yields exactly one rule for every function from the contexts of D to D's domain: none is missing, none is repeated, and there are |dom(D)| to the power of the number of contexts of them; pure_policies enumerates every combination for several decisions.", "quantifier": "every decision with any number of parents of any domain sizes", "why_tests_cant": "the mixed-radix indexing must be a bijection for all cardinalities", "anchors": ["pycid/core/macid_base.py: pure_decision_rules, pure_policies"]}
{"id": "C44", "title": "optimal_pure_policies returns the optimal policies", "statement": "optimal_pure_policies(decisions) returns exactly those pure policies whose expected utility is within rel_tol (relative) of the maximum over all pure policies; it returns at least one when a decision is given, and raises ValueError exactly when the decisions have different owners.", "quantifier": "every diagram, every list of decisions, every tolerance, every enumeration order", "why_tests_cant": "order dependence of the running maximum shows only for utilities close to each other", "anchors": ["pycid/core/macid_base.py: optimal_pure_policies, optimal_pure_decision_rules"]}
{"id": "C45", "title": "impute_optimal_decision maximises expected utility in every context", "statement": "After impute_optimal_decision(D) the rule is deterministic, and for every context of D of positive probability the chosen action maximises the expected sum of the owner's utilities that descend from D; it succeeds for every decision of every diagram with complete CPDs.", "quantifier": "every diagram, every decision, every context", "why_tests_cant": "all distributions and all contexts, including contexts of probability zero", "anchors": ["pycid/core/macid_base.py: impute_optimal_decision, impute_random_decision"]}
{"id": "C46", "title": "The imputed policy of a single-decision diagram is globally optimal", "statement": "In a single-agent diagram with one decision whose contexts all have positive probability, impute_optimal_policy yields a policy whose expected utility is at least that of every (also stochastic) policy.", "quantifier": "every such diagram, every competing policy", "why_tests_cant": "all distributions and all policies", "anchors": ["pycid/core/cid.py: impute_optimal_policy", "pycid/core/macid_base.py: impute_optimal_decision"]}
{"id": "C47", "title": "Value of information is non-negative and vanishes without the criterion", "statement": "quantitative_voi(cid, D, X) >= 0, and it is 0 whenever admits_voi(cid, D, X) is False, in single-decision diagrams.", "quantifier": "every single-decision diagram and every parameterisation with positive context probabilities", "why_tests_cant": "all distributions over all graphs", "anchors": ["pycid/analyze/value_of_information.py: quantitative_voi, admits_voi"]}
{"id": "C48", "title": "Analysis functions leave the diagram unchanged", "statement": "The admits_*, requisite*, quantitative_*, total_effect, reasoning-pattern and equilibrium functions do not change the diagram they are given.", "quantifier": "every diagram and every sequence of analysis calls", "why_tests_cant": "repeated and interleaved calls form unbounded histories", "anchors": ["pycid/analyze/value_of_control.py: quantitative_voc", "pycid/analyze/value_of_information.py: quantitative_voi", "pycid/core/macid.py: get_ne, get_spe"]}
{"id": "C49", "title": "Distinct decisions get distinct information sets in the exported game", "statement": "In the extensive-form game built by macid_to_efg two decision nodes of the tree are in the same information set exactly when they belong to the same decision variable and agree on its parents' values.", "quantifier": "every diagram, every set of decisions", "why_tests_cant": "all diagrams; the clash needs two decisions of one agent with equal parents", "anchors": ["pycid/export/gambit.py: macid_to_efg"]}
{"id": "C50", "title": "Game export succeeds on every diagram with complete CPDs", "statement": "macid_to_efg (and hence get_ne, get_spe) does not raise KeyError on a diagram whose variables all have CPDs, and its leaves are in bijection with the joint outcomes of the decisions and their parents.", "quantifier": "every diagram with complete CPDs", "why_tests_cant": "all diagrams; depends on how chance nodes are connected", "anchors": ["pycid/export/gambit.py: macid_to_efg, _add_payoffs", "pycid/core/macid.py: get_ne_in_sg"]}
{"id": "C51", "title": "A subgame-perfect profile covers every decision once", "statement": "Every profile returned by get_spe assigns a rule to each decision of the diagram exactly once, and extends a Nash equilibrium of each stage chosen in reverse relevance order, given the later stages' rules.", "quantifier": "every diagram, every equilibrium solver (any finite list of equilibria per stage)", "why_tests_cant": "all diagrams and all solver outputs", "anchors": ["pycid/core/macid.py: get_spe, get_ne_in_sg, policy_profile_assignment", "pycid/core/relevance_graph.py: get_scc_topological_ordering"]}
{"id": "C52", "title": "Random DAGs meet their specification", "statement": "random_dag(n, density, max_in_degree) returns, for every sequence of random choices, an acyclic connected graph on the n nodes with at least the requested number of edges and no node with more than max_in_degree parents, and some sequence of random choices makes it return.", "quantifier": "every n, density and in-degree bound, every sequence of random choices", "why_tests_cant": "all random choices; non-termination cannot be observed by a test", "anchors": ["pycid/random/random_dag.py: random_dag, add_random_edge"]}
{"id": "C53", "title": "Random diagrams have the requested roles", "statement": "random_macidbase gives each agent the requested numbers of decisions and utilities, all different nodes; utilities have no children, and every decision is an ancestor of a utility of its owner.", "quantifier": "every request, every sequence of random choices", "why_tests_cant": "all random choices", "anchors": ["pycid/random/random_macidbase.py: random_macidbase"]}
{"id": "C54", "title": "A seeded RandomCPD is reproducible", "statement": "Two RandomCPD(seed=s) objects with equal arguments give the same distribution for the same parent values, for every seed s, in every process.", "quantifier": "every seed, every parent assignment, every process hash seed", "why_tests_cant": "special seeds and hash randomisation", "anchors": ["pycid/random/random_cpd.py: RandomCPD, temp_seed"]}
{"id": "C55", "title": "A query answers with the interventional conditional distribution", "statement": "For a network whose tables define a joint distribution, query(Q, context, intervention) holds for every combination of values of Q, exactly once, the probability P(Q | context, do(intervention)) computed from the truncated product of the network's conditional distributions, when the context has positive probability; when it is impossible and connected to the query, every entry is nan. (The docstring promises P(Q, context | do(intervention)) instead.)", "quantifier": "every network reachable by adding and removing relationships, copying, intervening and querying; every query, every context of positive probability, every intervention with values in the domains, every internal order of the engine", "why_tests_cant": "nodes are pruned by connectivity after edges are cut, and part of the context is dropped; that this is harmless must hold for every graph and every parameterisation", "anchors": ["pycid/core/causal_bayesian_network.py: query, intervene, copy"]}
{"id": "C56", "title": "Editing an edge keeps the tables in line with the graph", "statement": "After add_edge(u, v) or remove_edge(u, v) on a network with relationships, only that edge has changed, every relationship is kept, and every variable's table is the one its relationship gives for its current parents; an edit that would make a cycle, or removes an edge that is not there, raises and changes nothing.", "quantifier": "every network reachable through the API, every edge", "why_tests_cant": "all histories of edits and relationship kinds", "anchors": ["pycid/core/causal_bayesian_network.py: add_edge, remove_edge, Model.__setitem__"]}
{"id": "C57", "title": "The policy imputed for a one-agent diagram is globally optimal", "statement": "For a diagram with one agent, when impute_optimal_policy returns, only decision tables have changed, every decision has a deterministic rule, and no policy at all, random ones included, has a higher expected utility: exactly so when the agent has sufficient recall, and up to the comparison tolerance otherwise.", "quantifier": "every one-agent diagram and parameterisation with any number of decisions and utilities, every competing stochastic policy", "why_tests_cant": "ranges over all diagrams and over the infinitely many stochastic policies; backward induction is only right because of the order in which decisions are solved", "anchors": ["pycid/core/macid_base.py: impute_optimal_decision, optimal_pure_policies", "pycid/core/cid.py: impute_optimal_policy"]}
{"id": "C58", "title": "Observations that are d-separated from a question do not change its answer", "statement": "When is_dconnected(X, Q, observed + intervened variables) is False for every queried Q, the normalised answer of query, and expected_value, is the same whether or not X = x is among the observations, for every possible x.", "quantifier": "every network and parameterisation, every query, context, intervention and observation of positive probability, every set iteration order", "why_tests_cant": "soundness of d-separation for all graphs and all parameterisations; a test sees a few numbers in a few graphs", "anchors": ["pycid/core/causal_bayesian_network.py: query, expected_value, is_structural_causal_model", "pycid/core/get_paths.py: is_active_path", "pgmpy active_trail_nodes used by pycid/core/macid_base.py"]}
{"id": "C59", "title": "Random diagrams asked to have sufficient recall have it", "statement": "random_macidbase(sufficient_recall=True) returns diagrams for which sufficient_recall() is True.", "quantifier": "every request, every sequence of random choices, every set iteration order", "why_tests_cant": "all random choices and all sizes; a test samples a few seeds", "anchors": ["pycid/random/random_macidbase.py: _add_sufficient_recall, _add_sufficient_recalls, random_macidbase", "pycid/core/macid_base.py: sufficient_recall"]}
{"id": "C60", "title": "The exported game has the payoffs and the equilibria of the diagram", "statement": "For every behaviour strategy profile of the game returned by macid_to_efg, behavior_to_cpd returns one decision rule per decision, and when the decisions follow these rules each agent's expected utility equals the player's expected payoff in the game; a profile is a Nash equilibrium of the game exactly when the rules are a Nash equilibrium of the diagram.", "quantifier": "every diagram, parameterisation, choice of decisions and agents for which the export returns, every set iteration order, every (mixed) behaviour of the players", "why_tests_cant": "an equality between expectations in two models for all strategies, and a statement about all deviations; a test compares the known equilibria of a few games", "anchors": ["pycid/export/gambit.py: macid_to_efg, behavior_to_cpd, _add_payoffs", "pycid/core/macid.py: get_ne"]}
{"id": "C61", "title": "CID.solve returns an optimal decision rule for every decision", "statement": "For a single-agent diagram, the dictionary returned by solve() has exactly the decisions of the diagram as keys, each rule is deterministic, and playing all of them gives at least the expected utility of every other policy; the diagram itself is not needed again and is solved in a copy.", "quantifier": "every single-agent diagram with sufficient recall, every parameterisation, every set iteration order, every tie-break", "why_tests_cant": "optimality is against all policies of all diagrams; a test compares with a known number in a few diagrams", "anchors": ["pycid/core/cid.py: solve", "pycid/core/macid_base.py: impute_optimal_policy, copy"]}
{"id": "C63", "title": "get_ne returns Nash equilibria of the diagram", "statement": "Every profile returned by get_ne has one rule for every decision, and no agent can raise its expected utility by changing its own rules while the other agents keep theirs.", "quantifier": "every diagram and parameterisation for which the call returns, every sound equilibrium solver, every set iteration order", "why_tests_cant": "the claim is against all deviations in all games; a test compares a few known equilibria", "anchors": ["pycid/core/macid.py: get_ne, get_ne_in_sg, create_subgame", "pycid/export/gambit.py: macid_to_efg, behavior_to_cpd"]}
{"id": "C64", "title": "get_spe returns subgame perfect equilibria of the diagram", "statement": "For every profile returned by get_spe and every set of decisions that relies on no decision outside it: whatever the decisions outside the set do, no agent can raise its expected utility by changing its rules for decisions in the set while the other agents keep theirs there. In particular the profile is a Nash equilibrium of the whole diagram.", "quantifier": "every diagram and parameterisation for which the call returns, every sound equilibrium solver, every set iteration order and order of components", "why_tests_cant": "the claim is against all deviations, in all subgames and for all behaviours outside them; a test compares a few known equilibria", "anchors": ["pycid/core/macid.py: get_spe, get_ne_in_sg, create_subgame", "pycid/export/gambit.py: macid_to_efg, behavior_to_cpd"]}
{"id": "C62", "title": "Value of control is the gain from choosing the variable, and vanishes without the criterion", "statement": "quantitative_voc(cid, X) is the greatest expected utility over all rules for X and the decisions together, minus the greatest over all rules for the decisions; it is never negative, and it is 0 whenever admits_voc(cid, X) is False.", "quantifier": "every single-agent diagram with any number of decisions, every variable that is no utility, every parameterisation, every set iteration order and tie-break", "why_tests_cant": "maxima over all policies in all diagrams; the numeric and the graphical function are compared for all distributions", "anchors": ["pycid/analyze/value_of_control.py: quantitative_voc, admits_voc", "pycid/core/macid_base.py: make_decision", "pycid/core/cid.py: impute_optimal_policy"]}
{"id": "C65", "title": "The equilibrium solver runs an algorithm that suits the game", "statement": "Without a request, all equilibria of two-player games are computed and for other games the pure ones, or a mixed one if there is no pure one. A requested algorithm is run, except that one made for two players is replaced when there are not two players. A name that is not known raises ValueError. Hence algorithms for two players are never run on other games.", "quantifier": "every game, every request, every behaviour of the algorithms", "why_tests_cant": "all names and numbers of players; tests try a few", "anchors": ["pycid/export/gambit.py: pygambit_ne_solver"]}
{"id": "C66", "title": "The requisite graph keeps all observations that matter", "statement": "An agent that uses only the observations kept by requisite_graph does at least as well as with any policy that uses all observations of the diagram.", "quantifier": "every single-agent diagram with any number of decisions, every parameterisation, every (random) policy", "why_tests_cant": "all policies and all distributions in all graphs", "anchors": ["pycid/analyze/requisite_graph.py: requisite, requisite_graph"]}
{"id": "C67", "title": "Without a response incentive the agent need not respond", "statement": "If admits_ri(cid, D, X) is False, then for every policy there is one at least as good under which D does not respond to X: forcing any value on X leaves the distribution of D unchanged.", "quantifier": "every single-agent diagram with sufficient recall, every decision D and other node X, every parameterisation and policy", "why_tests_cant": "all policies, all interventions and all distributions in all graphs", "anchors": ["pycid/analyze/response_incentive.py: admits_ri", "pycid/analyze/requisite_graph.py: requisite_graph"]}
{"id": "C68", "title": "Recognising structural causal models", "statement": "is_structural_causal_model() returns, for every network of proper distributions, True exactly when every entry of the table of every variable with a parent is within numpy's tolerance of 0 or of 1. It therefore accepts every network in which each variable with a parent is a function of its parents; a network it accepts is such a network up to probability 1.001e-5 at each variable, and exactly such a network if no probability lies strictly within the tolerances. In a structural causal model the exogenous variables fix all others. It raises AttributeError only if a variable with a parent has no table.", "quantifier": "every network, every parameterisation, every outcome", "why_tests_cant": "all graphs, all tables and all joint outcomes", "anchors": ["pycid/core/causal_bayesian_network.py: CausalBayesianNetwork.is_structural_causal_model"]}
{"id": "C69", "title": "Imputing a conditional expectation gives the best prediction", "statement": "After impute_conditional_expectation_decision(D, Y) returns, D follows a deterministic rule that in every context of positive probability takes the expectation of Y given that context, and takes the value of Y itself if Y is observed. The graph and everything that does not depend on D are unchanged. No rule for D from what it observes has a smaller mean squared error as a prediction of Y; if Y does not depend on D, the mean squared error of D in the new diagram is this least one.", "quantifier": "every diagram with a joint distribution, all variables D and Y, every rule", "why_tests_cant": "all diagrams, contexts and competing rules", "anchors": ["pycid/core/macid_base.py: MACIDBase.impute_conditional_expectation_decision"]}
{"id": "C70", "title": "Generators of random CIDs and MACIDs", "statement": "A diagram returned by random_cid has one agent with the requested numbers of decisions D0, D1, ... and utilities U0, U1, ..., the requested number of nodes, is acyclic, connected and dense enough, respects the in-degree bound and has every decision above a utility; random_macid gives the corresponding diagram for several agents. random_cids and random_macids return exactly the requested number of diagrams, each within the given ranges and each with sufficient recall. Adding random CPDs never raises and gives every variable the outcomes 0 and 1 and the diagram a joint distribution, provided the random seeds are in numpy's range.", "quantifier": "all requests and all outcomes of the random generators", "why_tests_cant": "all sequences of random numbers", "anchors": ["pycid/random/random_cid.py: random_cid, random_cids", "pycid/random/random_macid.py: random_macid, random_macids", "pycid/random/random_macidbase.py: add_random_cpds"]}
{"id": "C71", "title": "Sensible relationships are always accepted", "statement": "If every relationship given to add_cpds is sensible (a non-empty domain without repetition, a distribution, or a function that returns a distribution over the variable's range for all parent values in their ranges), then no call raises, in whatever order the variables are given and however often one is given again; domains stay within the ranges; and once every variable has a relationship the network has a complete, normalised table for each variable. This holds as long as no relationship has been removed.", "quantifier": "every acyclic graph, every list of assignments, every choice of ranges", "why_tests_cant": "all graphs, all orders of assignment and all stochastic functions", "anchors": ["pycid/core/causal_bayesian_network.py: CausalBayesianNetwork.add_cpds, Model.__setitem__", "pycid/core/cpd.py: StochasticFunctionCPD.initialize_tabular_cpd"]}
{"id": "C72", "title": "Value of information with several decisions", "statement": "In a diagram with one agent, any number of decisions and sufficient recall both with and without the link X -> D, the number quantitative_voi returns is the greatest expected utility over all policies (of all the decisions) in which D also observes X, less the greatest over those in which D does not; it is never negative; and it is zero if admits_voi returns False. Moreover, if admits_voi returns False, every policy in which D uses X is matched by one in which D does not, whether or not recall is kept.", "quantifier": "every single-agent influence diagram with a joint distribution, every decision D, every variable X, every random choice and set order", "why_tests_cant": "all diagrams, distributions and (random) policies", "anchors": ["pycid/analyze/value_of_information.py: quantitative_voi, admits_voi", "pycid/core/cid.py: CID.impute_optimal_policy", "pycid/core/macid_base.py: MACIDBase.remove_all_decision_rules"]}
{"id": "C73", "title": "Every family of conditional probabilities can be entered", "statement": "For every acyclic graph, every non-empty value list for each node and every family of conditional probabilities of each node given its parents there is a list of relationships that add_cpds accepts on the bare graph, leaving a network with exactly these values and these conditional probabilities; any set of nodes can instead be given just their value list (decisions).", "quantifier": "every acyclic graph, every value list, every family of conditional probabilities", "why_tests_cant": "all graphs and all conditional distributions", "anchors": ["pycid/core/causal_bayesian_network.py: CausalBayesianNetwork.add_cpds", "pycid/core/cpd.py: StochasticFunctionCPD"]}
{"id": "C74", "title": "The graphical test for value of information is complete", "statement": "In a diagram with one agent and one decision D: if admits_voi returns True for X, then there is a network on this very diagram, built with add_cpds, in which some rule for D that also sees X has an expected utility at least 1/4 above every rule that does not see X; quantitative_voi never returns less than 1/4 for it. Hence (with C72) admits_voi returns True exactly if X has value of information for some parametrisation.", "quantifier": "every single-decision influence diagram, every variable X", "why_tests_cant": "the counterexample network has to be constructed for every diagram, and compared with every (random) rule", "anchors": ["pycid/analyze/value_of_information.py: admits_voi, quantitative_voi", "pycid/analyze/requisite_graph.py: requisite, requisite_graph"]}
{"id": "C75", "title": "The graphical test for value of control is complete", "statement": "In a diagram with one agent and one decision D: if admits_voc returns True for X, then there is a network on this very diagram, built with add_cpds, in which choosing both X and D has an expected utility at least 1/4 above every rule for D alone; where quantitative_voc returns a value for it, it is at least 1/4. Conversely, where admits_voc returns False, no network on the diagram lets a choice of X gain anything. Hence admits_voc returns True exactly if X has value of control for some parametrisation.", "quantifier": "every single-decision influence diagram, every variable X", "why_tests_cant": "the network has to be constructed for every diagram, and compared with every (random) rule", "anchors": ["pycid/analyze/value_of_control.py: admits_voc, quantitative_voc", "pycid/analyze/requisite_graph.py: requisite_graph"]}
{"id": "C76", "title": "The graphical test for instrumental control incentives is sound and complete", "statement": "admits_ici returns True for D and X exactly if for some network on the diagram the decision D has an effect on X (P(X | do(D)) varies) and X has an effect on a utility (E(U | do(X)) varies). Where it returns True there is such a network, built with add_cpds, in which X takes the value D is set to, the utility takes the value X is set to, and D influences the utility only through X.", "quantifier": "every single-agent influence diagram with any number of decisions, all D and X", "why_tests_cant": "a network has to be constructed for every diagram; the converse is about every network", "anchors": ["pycid/analyze/instrumental_control_incentive.py: admits_ici", "pycid/core/causal_bayesian_network.py: CausalBayesianNetwork.add_cpds, query, expected_value"]}
{"id": "C77", "title": "The graphical response-incentive test is exact for one decision", "statement": "For a single-decision influence diagram, admits_ri(cid, decision, node) says True exactly if there are domains and conditional probabilities for the diagram, accepted by add_cpds, under which every decision rule whose decision is not influenced by the node (setting the node by intervention never changes the distribution of the decision) earns strictly less than some decision rule; when it says True the shortfall can be made at least 3/4.", "quantifier": "every single-decision influence diagram, every decision and other node, every order in which sets are iterated, every parametrisation and every non-responding rule", "why_tests_cant": "a negative verdict quantifies over all parametrisations and all (also stochastic) decision rules; a positive verdict needs a witness for every diagram on which the test says yes, and the witness must beat infinitely many rules", "anchors": ["pycid/analyze/response_incentive.py: admits_ri, admits_ri_list", "pycid/analyze/requisite_graph.py: requisite_graph"]}
{"id": "C78", "title": "Reachability in the mechanised graph is exactly strategic relevance", "statement": "is_r_reachable(D, V) is True exactly if the best rule of the decision D can depend on the conditional probabilities of V: there are domains and tables for the diagram such that no rule of D is a best response (for its owner) under all conditional probabilities of V, other tables fixed; when it is True such tables are accepted by add_cpds and every rule of D can be made worse than another by at least 1/4. When it is False, for all tables some rule of D is a best response whatever the conditional probabilities of V. The same holds of is_s_reachable between two decisions, of the same or of different agents, and so of the arcs of the relevance graph.", "quantifier": "every diagram with any number of agents and decisions, every decision and other node, all tables, all (also random) rules", "why_tests_cant": "a negative answer quantifies over all tables and rules, a positive one needs a witness for every diagram on which the test says yes, and the witness must beat every rule", "anchors": ["pycid/core/macid_base.py: is_r_reachable, is_s_reachable", "pycid/core/relevance_graph.py: RelevanceGraph"]}
{"id": "C79", "title": "d-separation is exactly conditional independence", "statement": "is_dconnected(x, y, Z) answers no if and only if, in every network with that graph and every choice of values, x and y are conditionally independent given Z. When it answers yes, some network that can be entered with add_cpds makes a value of x and a value of y each possible given Z but not both together, and observing x changes the answer of query about y.", "quantifier": "all acyclic graphs, all variables x and y, all observed sets Z, all networks with the graph, all values", "why_tests_cant": "Independence must hold for every parametrisation of the graph, and dependence needs a network built for each active path.", "anchors": ["pycid/core/macid_base.py: is_s_reachable, is_r_reachable (use is_dconnected)", "pycid/analyze/requisite_graph.py: requisite", "pycid/core/get_paths.py: find_active_path, is_active_path", "pycid/core/causal_bayesian_network.py: query, add_cpds"]}
{"id": "C80", "title": "Total effects are defined, and are exactly the directed paths", "statement": "If every decision of the diagram has a policy, expected_value with context and interventions returns whenever the context has positive probability, and total_effect always returns, leaves the diagram as it was and equals the difference of the two expectations; introduced_total_effect returns the effect on d less the effect on y, both with their sign changed if the effect on y is negative and adapting is on. There is a directed path from a to x if and only if, for some network on the diagram and some two values of a, the total effect of a on x is not 0.", "quantifier": "all diagrams, all networks on them with policies for all decisions, all variables a and x, all values in the domain of a", "why_tests_cant": "That no network gives an effect without a directed path ranges over all parametrisations, and every path needs a network in which it carries an effect.", "anchors": ["pycid/analyze/effects.py: total_effect", "pycid/core/macid_base.py: query, expected_value", "pycid/core/causal_bayesian_network.py: expected_value, intervene"]}
{"id": "C81", "title": "The relevance graph shows who needs to know whose play", "statement": "For any set of decisions, RelevanceGraph has an arc from d to e if and only if in some game on the diagram no rule for d is good against every way of playing e. is_acyclic says whether the decisions can be put in an order in which none needs to know how an earlier one is played; get_sccs returns the classes of decisions that need to know each other's play directly or through a chain, every decision in exactly one class, and is_acyclic holds exactly if all classes have one member. sufficient_recall() is True exactly if the decisions of every agent can be put in such an order.", "quantifier": "all diagrams, all sets of decisions, all orders in which networkx lists the components, all games on the diagram", "why_tests_cant": "The arcs quantify over all parametrisations of the diagram and all decision rules; the order and the classes over all diagrams.", "anchors": ["pycid/core/relevance_graph.py: RelevanceGraph, is_acyclic, get_sccs", "pycid/core/macid_base.py: is_s_reachable, sufficient_recall"]}
{"id": "C82", "title": "sample draws from the joint distribution", "statement": "sample returns a value from its domain for every variable, and the combination it returns is always possible. The numbers in [0,1) that lead to a given combination of values form a box, one interval for each variable, whose volume is the joint probability of that combination; so with uniform numbers the sample has exactly the joint distribution of the network. How ties in the topological order are broken does not matter.", "quantifier": "all networks whose tables are exact distributions, all numbers drawn by the generator, all combinations of values, all topological orders", "why_tests_cant": "A sample from a wrong distribution looks like any other sample; tests can only compare frequencies for a few networks and seeds.", "anchors": ["pycid/core/causal_bayesian_network.py: sample"]}
{"id": "C83", "title": "Shapes and colours in drawings tell roles and agents", "statement": "In the drawing of a diagram, squares are exactly the decisions, diamonds exactly the utilities and circles exactly the chance nodes; grey nodes are exactly the chance nodes, and two other nodes have the same colour if and only if they belong to the same agent. In draw_sccs two decisions have the same colour if and only if they need to know each other's play. Drawing raises ValueError for a decision whose agent has no entry in the utility dictionary. draw_property highlights exactly the nodes with the property, in any colour that no role has, and leaves the others in the colour of their role.", "quantifier": "all diagrams, all pairs of nodes, all sets of decisions", "why_tests_cant": "Drawings are looked at, not asserted; and a clash of colours needs a particular number of agents and order of the dictionaries.", "anchors": ["pycid/core/macid_base.py: _get_color, _get_shape", "pycid/core/cid.py: _get_color", "pycid/core/relevance_graph.py: _set_color_scc, draw_sccs"]}
{"id": "C84", "title": "No active backdoor trail means that observing a variable and setting it tell the same", "statement": "is_active_backdoor_trail(cbn, x, y, observed) is False exactly when, in every network over the graph, conditioning on x and intervening on x give the same distribution of y given the observed variables; when it is True some network entered with add_cpds makes query([y], {x, observed}) and query([y], observed, intervention={x}) differ. When it is False and no observed variable is downstream of x, the effect of setting x on y is the average over the observed variables of P(y | x, observed) (backdoor adjustment).", "quantifier": "all directed acyclic graphs, pairs of different variables, observed sets without them, networks over the graph, values and set orders", "why_tests_cant": "ranges over all graphs and over all networks on each graph; exactness needs a network built for every graph with an active trail", "anchors": ["pycid/core/get_paths.py:is_active_backdoor_trail", "pycid/core/causal_bayesian_network.py:query"]}
{"id": "C85", "title": "The label of a relationship is the text of its lambda", "statement": "The label that a CPD built from a function shows in a drawing is the label given by the caller, else the name of a named function, else the text of the lambda's body in its source line: from the space after the colon up to the first comma or closing bracket that does not belong to the body. Working it out raises no exception.", "quantifier": "every variable name, every function, every source line", "why_tests_cant": "all source lines with all nestings of brackets; a test shows a few lines", "anchors": ["pycid/core/cpd.py: StochasticFunctionCPD.compute_label, StochasticFunctionCPD.__init__, ConstantCPD.__init__"]}
{"id": "C86", "title": "Printing a relationship shows its distribution", "statement": "Printing the relationship of a variable gives one line for each combination of parent values, in alphabetical order, and none before the parents have domains. The line shows the outcome that has probability 1, if there is one, and otherwise the distribution. An outcome that is shown is certain, and for a given domain relationships that print the same have the same probability table.", "quantifier": "all graphs, domains, variables and functions of the parents for which a table can be built, all ways of writing parent values that tell them apart", "why_tests_cant": "That printing hides nothing compares all pairs of functions and all combinations of parent values.", "anchors": ["pycid/core/cpd.py: StochasticFunctionCPD.__repr__", "pycid/core/cpd.py: StochasticFunctionCPD.parent_values"]}
{"id": "C87", "title": "Removing relationships removes exactly these", "statement": "remove_cpds with different variables that have relationships removes their relationships and tables and changes nothing else; domains stay known. A variable without relationship gives KeyError, and the ones named before it are removed then. Giving a removed relationship again restores the network, and otherwise a relationship waits for parents that have none.", "quantifier": "all networks a program can build, all lists of variables, all relationships", "why_tests_cant": "That nothing else changes and that the network is restored ranges over all networks and histories.", "anchors": ["pycid/core/causal_bayesian_network.py: remove_cpds", "pycid/core/causal_bayesian_network.py: Model.__delitem__", "pycid/core/causal_bayesian_network.py: Model.__setitem__"]}
{"id": "C88", "title": "The edges of a path are its steps, each in its own direction", "statement": "For a path whose neighbours are joined by edges, _get_path_edges returns one pair for each step, in the order of the path, and each pair is the edge of the graph that makes the step, from its start to its end. Whatever list of nodes is given, only edges of the graph between neighbours in the list are returned. A path is directed exactly if all its pairs read forwards.", "quantifier": "all acyclic graphs, all paths of any length", "why_tests_cant": "The order and the directions of the pairs range over all graphs and paths of any length.", "anchors": ["pycid/core/get_paths.py: _get_path_edges"]}
{"id": "C89", "title": "Effective paths are found exactly", "statement": "A path is effective if all its decisions, except possibly its first node, are in the effective set. _effective_dir_path_exists and _effective_undir_path_exists are True exactly if there is an effective directed or undirected path, _directed_effective_path_not_through_set_y exactly if there is one that avoids the set; the searches for effective back-door and undirected paths that are not blocked return such a path if there is one and None otherwise, whatever the order in which sets are traversed. More effective decisions never lose a path.", "quantifier": "all diagrams, all pairs of nodes, all effective sets, all sets of conditioned or avoided nodes, all set orders", "why_tests_cant": "That no path is missed ranges over all diagrams and all their paths.", "anchors": ["pycid/analyze/reasoning_patterns.py: _effective_dir_path_exists", "pycid/analyze/reasoning_patterns.py: _effective_undir_path_exists", "pycid/analyze/reasoning_patterns.py: _directed_effective_path_not_through_set_y", "pycid/analyze/reasoning_patterns.py: _effective_backdoor_path_not_blocked_by_set_w", "pycid/analyze/reasoning_patterns.py: _effective_undir_path_not_blocked_by_set_w"]}
{"id": "C90", "title": "Expected values are averages", "statement": "An expected value lies between the least and the greatest value of the variable, an expected utility between the sums of these over the agent's utilities, and a total effect is at most the width of the range, as are the values of information and of control. The expected value given a context is the average, weighted with the conditional probabilities, of the expected values when the value of any further variable is added to the context. Total effects add up along a sequence of values, and the effect of changing nothing is 0.", "quantifier": "all networks a program can build, all contexts of positive probability, all interventions with values of the domains", "why_tests_cant": "The bounds and the averaging law range over all networks, contexts and interventions.", "anchors": ["pycid/core/causal_bayesian_network.py: expected_value", "pycid/core/macid_base.py: expected_utility", "pycid/analyze/effects.py: total_effect", "pycid/analyze/value_of_information.py: quantitative_voi", "pycid/analyze/value_of_control.py: quantitative_voc"]}
{"id": "C91", "title": "The answers to different questions fit together", "statement": "With a possible context, query gives exactly one probability between 0 and 1 for every combination of values, and it depends neither on the order in which variables and observations are named nor on the order in which sets are traversed. The answers obey the product rule P(x, y | c) = P(x | c) P(y | c, x), Bayes' rule, and P(x | c) is the sum of P(x, y | c) over the values of y, also under interventions. A variable that is set by an intervention has its value with probability 1, and observing this value in addition changes no answer. Setting variables that have no directed path to anything asked or observed changes no answer.", "quantifier": "all networks a program can build, all disjoint groups of variables x and y, all possible contexts, all interventions with values of the domains, all set orders", "why_tests_cant": "The rules relate several calls and range over all networks, questions and contexts.", "anchors": ["pycid/core/causal_bayesian_network.py: query"]}
