{"claims": [
{"property": "C01", "status": "proved", "theorems": ["C01_dir_paths_exact", "C01_dir_paths_same_node"], "note": ""},
{"property": "C02", "status": "proved", "theorems": ["C02_undir_paths_exact"], "note": ""},
{"property": "C03", "status": "proved", "theorems": ["C03_find_active_path_sound"], "note": ""},
{"property": "C04", "status": "proved", "theorems": ["C04_find_active_path_complete", "C04_observed_start", "C04_observed_start_refuted"], "note": ""},
{"property": "C05", "status": "proved", "theorems": ["C05_is_dconnected", "C05_symmetric", "C05_missing_nodes"], "note": ""},
{"property": "C06", "status": "partial", "theorems": ["C06_get_motif", "C06_get_motif_last", "C06_get_motif_range", "C06_get_motifs_partial", "C06_index0_refuted", "C06_get_motifs_one_node_refuted"], "note": "Inner indices, the last index and out-of-range indices are proved. The clause about index 0 is false of the code (path[idx-1] wraps round): C06_index0_refuted."},
{"property": "C07", "status": "proved", "theorems": ["C07_is_active_path"], "note": ""},
{"property": "C08", "status": "partial", "theorems": ["C08_backdoor", "C08_frontdoor_partial", "C08_frontdoor_same_node_refuted"], "note": "Both decided exactly for s different from t. For s = t the frontdoor test raises IndexError on every network: C08_frontdoor_same_node_refuted; the backdoor test is fine."},
{"property": "C09", "status": "proved", "theorems": ["C09_directed_decision_free_path"], "note": ""},
{"property": "C10", "status": "proved", "theorems": ["C10_edits_keep_acyclic", "C10_add_edge_raises", "C10_add_edge_ok", "C10_remove_edge", "C10_remove_node"], "note": ""},
{"property": "C11", "status": "partial", "theorems": ["C11_constructor_partial", "C11_one_shot_refuted"], "note": "Proved for re-iterable arguments. For a one-shot iterator the statement is false: the network is always empty (C11_one_shot_refuted)."},
{"property": "C12", "status": "proved", "theorems": ["C12_consistent", "C12_call", "C12_unchecked_lists_refuted"], "note": "Proved under the stated precondition (disjoint duplicate-free lists). The constructor does not check it; what goes wrong without it is C12_unchecked_lists_refuted."},
{"property": "C13", "status": "partial", "theorems": ["C13_separate_lists_partial", "C13_shared_lists_refuted"], "note": "Holds for diagrams whose role lists are different list objects (C13_separate_lists_partial). False for diagrams built from the same lists: C13_shared_lists_refuted."},
{"property": "C14", "status": "partial", "theorems": ["C14_copy", "C14_exact_copy_partial", "C14_copy_raises", "C14_cid_copy", "C14_refuted"], "note": "Exact for diagrams whose agents are in both dictionaries, and always for CID. What happens otherwise is characterised exactly (C14_copy, C14_copy_raises); the statement is false there: C14_refuted."},
{"property": "C15", "status": "proved", "theorems": ["C15_valid_order", "C15_default"], "note": ""},
{"property": "C16", "status": "partial", "theorems": ["C16_mechanism_graph_partial", "C16_guard_refuted"], "note": "Proved when no name clashes and no name has the shape mec???. The guard tests node[:-3] instead of node[-3:], so clashes go unnoticed and harmless names are refused: C16_guard_refuted."},
{"property": "C17", "status": "proved", "theorems": ["C17_r_reachable", "C17_any_new_node", "C17_s_reachable", "C17_no_utilities_refuted"], "note": "Needs an entry for the owner of each decision in the utility dictionary; KeyError otherwise: C17_no_utilities_refuted."},
{"property": "C18", "status": "partial", "theorems": ["C18_relevance_graph", "C18_sufficient_recall_partial", "C18_utility_only_agent_refuted"], "note": "sufficient_recall raises KeyError for an agent with utilities but no entry in the decision dictionary: C18_utility_only_agent_refuted. Proved for all other diagrams."},
{"property": "C19", "status": "proved", "theorems": ["C19_solving_order"], "note": ""},
{"property": "C20", "status": "proved", "theorems": ["C20_scc_ordering"], "note": "Needs a utility-dictionary entry for each owner of a decision and no mec name clash (as C17)."},
{"property": "C21", "status": "proved", "theorems": ["C21_subgames"], "note": "Same hypotheses as C20."},
{"property": "C22", "status": "proved", "theorems": ["C22_requisite", "C22_errors"], "note": "exact decision and every error case"},
{"property": "C23", "status": "proved", "theorems": ["C23_requisite_graph", "C23_unique", "C23_order_independent", "C23_idempotent", "C23_several_agents_refuted", "C23_no_utility_refuted"], "note": "Reduction steps for any number of agents; minimality, uniqueness, order independence and idempotence for one agent. The _refuted theorems record that one run is not enough with several agents, and that a MACIDBase agent with an empty utility list makes it raise KeyError"},
{"property": "C24", "status": "proved", "theorems": ["C24_voi", "C24_link_irrelevant", "C24_voi_reduction", "C24_not_a_decision_refuted"], "note": "Closed form for one decision, independence of the link being present, and the reduction form for any number of decisions; asking about a non-decision is always True (refuted theorem)"},
{"property": "C25", "status": "proved", "theorems": ["C25_voc", "C25_dir_voc", "C25_indir_voc"], "note": ""},
{"property": "C26", "status": "proved", "theorems": ["C26_ri"], "note": ""},
{"property": "C27", "status": "proved", "theorems": ["C27_ici"], "note": ""},
{"property": "C28", "status": "proved", "theorems": ["C28_several_agents", "C28_absent_node", "C28_insufficient_recall", "C28_lists", "C28_absent_decision_refuted", "C28_node_name_refuted"], "note": "The _refuted theorems record NetworkXError for an absent decision in requisite and the voi list, and the error caused by node names that look like mechanisms"},
{"property": "C29", "status": "proved", "theorems": ["C29_direct_effect", "C29_manipulation", "C29_errors"], "note": ""},
{"property": "C30", "status": "partial", "theorems": ["C30_revealing_partial", "C30_revealing_order", "C30_signaling_partial", "C30_signaling_unambiguous_partial", "C30_order_refuted", "C30_raises_refuted", "C30_effective_refuted", "C30_forks_refuted"], "note": "revealing_or_denying decides its condition without the effectiveness of the front-door path (documented condition refuted); signaling is sound for leaf utilities and exact where the choice of path does not matter; order independence, totality and the documented effectiveness are refuted by witnesses"},
{"property": "C31", "status": "partial", "theorems": ["C31_leaf_total", "C31_patterns_partial", "C31_unambiguous", "C31_exact_refuted"], "note": "terminates; each decision at most once, under its first pattern; listed decisions are motivated; unlisted ones are not motivated by the three order-independent patterns; exactness for signaling refuted, and proved where signaling is unambiguous"},
{"property": "C32", "status": "proved", "theorems": ["C32_sound", "C32_open_sums_to_one", "C32_accepted", "C32_waits", "C32_bernoulli", "C32_uniform", "C32_noisy_copy"], "note": "tabulates is the declarative specification; acceptance is characterised exactly; helper distributions bernoulli, discrete_uniform and noisy_copy are covered"},
{"property": "C33", "status": "partial", "theorems": ["C33_refuted", "C33_mismatch_partial", "C33_match_partial"], "note": "false as stated: the signature that is checked is the one of a wrapper taking any keywords; a mismatch raises TypeError at the first call, and parameters with defaults are accepted"},
{"property": "C34", "status": "proved", "theorems": ["C34_any_order", "C34_split"], "note": "Orders and splits: C34_any_order (if one order returns normally, every order does, with the same relationships, tables and domains; hence also if one order raises, every order raises), C34_split."},
{"property": "C35", "status": "proved", "theorems": ["C35_tables_current", "C35_bound_irrelevant", "C35_every_history"], "note": "Every history of additions and removals that returns normally; the bound on the recursion plays no role (C35_bound_irrelevant)."},
{"property": "C36", "status": "partial", "theorems": ["C36_refuted", "C36_others_unchanged_partial", "C36_rejected_partial"], "note": "False as stated (C36_refuted: the rejected relationship stays in place of the old one, whose table is gone; domains can stay changed when a child rejects them). Proved: other relationships and tables/domains of non-descendants are untouched; if no table reflects the new relationship, all domains and all other tables are untouched."},
{"property": "C37", "status": "partial", "theorems": ["C37_partial", "C37_methods_partial", "C37_refuted"], "note": "False as stated: without an intervention query removes the nodes that are not connected to a query node from the network itself (C37_refuted). Proved: with an intervention nothing changes; otherwise every node connected to a query node keeps its edges, relationship and table, domains stay, and nothing at all changes if every node is connected to a query node; also for expected_value, expected_utility and the methods of diagrams, whether they return or raise."},
{"property": "C38", "status": "partial", "theorems": ["C38_truncated_product_partial", "C38_refuted"], "note": "False for a child with a ready-made table when the intervened variable's domain is not sorted (C38_refuted). Proved for every other network a program can build: success, only the edges into the targets are removed, point mass, other conditional distributions unchanged, and the joint distribution is the truncated product, for several targets at once."},
{"property": "C39", "status": "partial", "theorems": ["C39_context_partial", "C39_diagram_context_partial", "C39_accepted_partial", "C39_refuted"], "note": "False as stated: an intervention with a value outside the domain is accepted, and diagrams raise AttributeError for context variables with ready-made tables (C39_refuted). Proved: contexts outside the domains are rejected with ValueError; with values in the domains a query about connected variables succeeds."},
{"property": "C40", "status": "proved", "theorems": ["C40_answers_only_if_irrelevant", "C40_answer_right"], "note": "For every network that differs only in the tables of decisions without a policy, the conditional probability of the query is the same, and the returned factor, normalised, is this probability. Conditional probabilities are taken for contexts of positive probability."},
{"property": "C41", "status": "partial", "theorems": ["C41_expectations_partial", "C41_single", "C41_expected_utility", "C41_defined", "C41_refuted"], "note": "False as stated: the order is that of the engine's set of variables, and repeated variables are given once (C41_refuted). Proved: the list holds the conditional expectations of the different requested variables in some order; exact for a single variable; expected_utility is the sum of the conditional expectations; defined exactly when the (relevant) context has positive probability."},
{"property": "C42", "status": "partial", "theorems": ["C42_total_effect_partial", "C42_zero_partial", "C42_self_partial", "C42_antisymmetric", "C42_introduced"], "note": "The difference of the expectations under the two interventions; 0 without a directed path; v1-v0 on the variable itself; antisymmetric; introduced effect invariant under the swap when the effect on y is not 0, and not otherwise. Missing in the _partial theorems: values outside the domain (accepted by intervene, see C39_refuted), and children with a ready-made table when the domain of a is not sorted (see C38_refuted). That the calls return is C80_effect."},
{"property": "C43", "status": "proved", "theorems": ["C43_rules", "C43_policies", "C43_joint"], "note": "For every decision whose domain has no repetitions and whose parents have non-empty tables: the rules listed are exactly the tables that play a choice function, each once, as many as there are choice functions, and tables of different choice functions differ; policies are all combinations, each once. joint_pure_policies likewise."},
{"property": "C44", "status": "partial", "theorems": ["C44_optimal_partial", "C44_exact", "C44_returns_partial", "C44_owners", "C44_far_refuted", "C44_close_refuted", "C44_owner_refuted", "C44_decision_partial", "C44_decision_returns_partial"], "note": "Proved: whenever it returns, every returned policy is close to one policy of greatest value among those returned, exact argmax for tol=0; it returns, with at least one policy, for decisions of one agent in a connected diagram; KeyError / ValueError for unknown decisions / different owners. The exact-tolerance form of the claim is refuted (running maximum), as is that a single owner never gives ValueError. optimal_pure_decision_rules: the same for the rules of one decision."},
{"property": "C45", "status": "partial", "theorems": ["C45_optimal_partial", "C45_returns_partial", "C45_succeeds_refuted"], "note": "Proved: whenever it returns, every context is possible and the new rule is deterministic and plays an action of greatest expected descendant utility in every context; it returns when every context has positive probability and a utility of the agent descends from the decision. The unconditional claim is refuted (zero-probability context, no descending utility, parent with a plain table)."},
{"property": "C46", "status": "partial", "theorems": ["C46_single_partial", "C57_recall_optimal"], "note": "C57_recall_optimal gives optimality whenever impute_optimal_policy returns; C46_single_partial adds that it returns when the decision's contexts all have positive probability, a utility lies below it, the graph is connected and no parent has a plain table. Missing: the property is false without the last three conditions, since impute_optimal_decision raises (C45_succeeds_refuted)."},
{"property": "C47", "status": "proved", "theorems": ["C47_voi", "C47_nonneg", "C47_zero", "C47_admits"], "note": "quantitative_voi is the difference of two maxima over all (random) rules of the decision, with and without sight of the node, in the given diagram; hence non-negative, and 0 when admits_voi is False. For decisions that have a list of choices or a ready-made table and whenever the call returns."},
{"property": "C48", "status": "partial", "theorems": ["C48_effects_partial", "C48_voc_refuted"], "note": "False as stated: quantitative_voc changes its argument (C48_voc_refuted), as do all calls that query without intervention (C37_refuted). Proved for the effects; the incentive tests work on copies and are modelled as functions of the diagram."},
{"property": "C49", "status": "partial", "theorems": ["C49_information_sets", "C49_partial", "C49_refuted"], "note": "False as stated: two decisions of one agent with the same parents share their information sets (C49_refuted). Proved for every diagram, whenever the export returns: what the information sets are (C49_information_sets), and the property itself when no two exported decisions of one agent have the same parents (C49_partial)."},
{"property": "C50", "status": "partial", "theorems": ["C50_leaves", "C50_returns_partial", "C50_refuted"], "note": "The bijection of leaves and joint outcomes holds whenever the export returns (C50_leaves). As stated 'does not raise KeyError' is false (C50_refuted); C50_returns_partial gives the exact condition on connected diagrams without ready-made tables on tree variables."},
{"property": "C51", "status": "partial", "theorems": ["C51_stages_partial", "C51_covers", "C51_assignment"], "note": "For every solver that finds only Nash equilibria: every profile has exactly one rule per decision (any solver at all: C51_covers), and block by block, in reverse relevance order, the rules are a Nash equilibrium of the subgame of the component given the rules of the blocks before (C51_stages_partial; subgame and equilibrium are specified in SpecSub/SpecGame). Missing: diagrams in which two decisions of one agent have the same parents (the export merges them, C60_equilibria_refuted)."},
{"property": "C52", "status": "partial", "theorems": ["C52_partial", "C52_no_error", "C52_returns_partial", "C52_never_returns", "C52_stuck_refuted", "C52_in_degree_refuted", "C52_zero_degree_refuted"], "note": "Acyclic, connected, right nodes, enough edges: proved for every sequence of choices; the bound on parents holds only as max(4, bound). It can always still return when the edges fit four parents per node, and never returns otherwise (C52_never_returns; e.g. 6 nodes, density 1). The bound itself is refuted."},
{"property": "C53", "status": "partial", "theorems": ["C53_partial", "C53_mismatch", "C53_one_node_refuted"], "note": "for at least two nodes; with one node the statement is false (C53_one_node_refuted). Parent bound as the code keeps it (see C52)"},
{"property": "C54", "status": "partial", "theorems": ["C54_seeded_partial", "C54_range_partial", "C54_zero_seed_refuted", "C54_process_refuted", "C54_unseeded_raises_refuted"], "note": "True within one process and for seeds other than 0 (C54_seeded_partial, C54_range_partial). False for seed 0, false across processes, and an unseeded object can raise ValueError (refuted, with witnesses)."},
{"property": "C55", "status": "proved", "theorems": ["C55_query_conditional", "C55_documented_refuted"], "note": "For all networks a program can build whose tables define a joint distribution; ready-made tables of children of intervened variables must be for sorted domains (see C38_refuted). The factor is already normalised: the docstring's P(Q, context) is refuted by C55_documented_refuted."},
{"property": "C56", "status": "partial", "theorems": ["C56_partial", "C56_refused", "C56_refuted"], "note": "False as stated: add_edge/remove_edge rebuild only constant tables; a function keeps its old table, and a relationship that waited for the removed parent goes on waiting (C56_refuted). Proved for variables without relationship, with a ready-made table or with a table made from a dictionary or list of decisions: only the edge changes, relationships are kept and all tables are current; refused edits change nothing."},
{"property": "C57", "status": "partial", "theorems": ["C57_recall_optimal", "C57_search_optimal_partial"], "note": "With sufficient recall the result is exactly optimal among all stochastic policies; without it optimal up to the isclose tolerance of optimal_pure_policies (the code cannot do better, see C44)."},
{"property": "C58", "status": "proved", "theorems": ["C58_screened_off", "C58_expected_value"], "note": "Entry by entry for the factor, and for expected_value of one variable."},
{"property": "C59", "status": "partial", "theorems": ["C59_partial", "C59_refuted"], "note": "false in general (C59_refuted); holds when no agent has two decisions and for one agent with two decisions and one utility"},
{"property": "C61", "status": "proved", "theorems": ["C61_solve", "C61_search_partial"], "note": "Exact when the diagram has sufficient recall, which is the property. Without it, optimality holds up to the floating-point tolerance of np.isclose (C61_search_partial)."},
{"property": "C60", "status": "partial", "theorems": ["C60_payoffs", "C60_equilibria_partial", "C60_equilibria_refuted"], "note": "Proved: payoffs agree for every behaviour; every equilibrium of the diagram is one of the game; the converse when no two decisions of one agent have the same parents. Refuted in general: decisions of one agent with the same parents share information sets, so an equilibrium of the game need not be one of the diagram."},
{"property": "C63", "status": "partial", "theorems": ["C63_ne_partial", "C63_nash_partial", "C63_orderly_partial", "C63_recall_partial"], "note": "Every profile returned has one rule per decision and is a Nash equilibrium of the subgame for all decisions, if that subgame is connected and no two decisions of one agent have the same parents (C63_ne_partial); it is a Nash equilibrium of the whole diagram, against joint changes of any number of an agent's rules, if moreover the diagram passes the sufficient recall test (C63_recall_partial) or, equivalently put, every agent's decisions can be ordered so that none needs to know how an earlier one is played (C63_orderly_partial); in particular if no agent makes two decisions (C63_nash_partial). Missing: agents without sufficient recall; decisions of one agent with the same parents, for which the export is wrong (C60_equilibria_refuted)."},
{"property": "C64", "status": "partial", "theorems": ["C64_perfect_partial", "C64_nash_partial", "C64_orderly_partial", "C64_recall_partial"], "note": "The profiles are equilibria in every set of decisions that relies on nothing outside it, whatever the other decisions do and against joint changes of any number of an agent's rules, hence Nash equilibria of the whole diagram: for diagrams that pass the sufficient recall test (C64_recall_partial; C64_orderly_partial in terms of an order of every agent's decisions), or with at most one decision of each agent in every component of the relevance graph (C64_perfect_partial, C64_nash_partial). Missing: agents without sufficient recall; mutually relevant decisions of one agent with the same parents, for which the export is wrong (C60_equilibria_refuted)."},
{"property": "C62", "status": "partial", "theorems": ["C62_voc", "C62_nonneg", "C62_admits", "C62_search_partial", "C62_negative_refuted"], "note": "Difference of two maxima over all (random) policies when the diagram has sufficient recall and keeps it when X becomes a decision; then non-negative, and 0 when admits_voc is False, for any number of decisions. If the recall is lost (X and a decision both unobserved), the second maximum holds up to the tolerance of np.isclose (C62_search_partial), and the result can then be negative (C62_negative_refuted). Whenever the call returns."},
{"property": "C65", "status": "proved", "theorems": ["C65_solver", "C65_suited"], "note": "The algorithms are a parameter."},
{"property": "C66", "status": "proved", "theorems": ["C66_requisite"], "note": "Any number of decisions; needs no recall."},
{"property": "C67", "status": "proved", "theorems": ["C67_ri"], "note": ""},
{"property": "C68", "status": "partial", "theorems": ["C68_scm", "C68_accepts", "C68_nearly", "C68_exact_partial", "C68_exact_refuted", "C68_exogenous", "C68_error"], "note": "What the code decides is proved exactly (C68_scm), with all true consequences. That acceptance means exactly a structural causal model is false because of the tolerances (C68_exact_refuted) and proved without entries strictly within the tolerances (C68_exact_partial)."},
{"property": "C69", "status": "proved", "theorems": ["C69_rule", "C69_frame", "C69_least_squares", "C69_prediction", "C69_distribution_refuted"], "note": "All parts proved, for imputations that return. C69_distribution_refuted records that the new diagram need not have a joint distribution."},
{"property": "C71", "status": "proved", "theorems": ["C71_total", "C71_tables", "C71_again", "C71_after_removal_refuted"], "note": "sensible relationships never raise and give the tables they describe and a joint distribution; refuted once a relationship has been removed"},
{"property": "C70", "status": "partial", "theorems": ["C70_cid", "C70_macid", "C70_cids", "C70_macids", "C70_cpds", "C70_equal_ends_refuted", "C70_recall_refuted", "C70_cpds_refuted"], "note": "diagrams of at least two nodes; proved for every result and every random choice; a request for sufficient recall is not honoured, equal range ends always raise, an unlucky seed raises"},
{"property": "C72", "status": "proved", "theorems": ["C72_voi", "C72_nonneg", "C72_zero", "C72_admits", "C72_sound", "C72_recall_refuted"], "note": "Several decisions; recall with and without the link is a hypothesis of the solver-dependent theorems (C72_recall_refuted shows it does not follow from recall of the diagram)."},
{"property": "C73", "status": "proved", "theorems": ["C73", "C73_relationships"], "note": "for every DAG, value lists and conditional probabilities"},
{"property": "C74", "status": "proved", "theorems": ["C74_voi", "C74_exact", "C74_quantitative"], "note": "completeness for one decision; C74_exact: sound and complete (existence of a parametrisation with value)"},
{"property": "C75", "status": "proved", "theorems": ["C75_voc", "C75_exact", "C75_quantitative"], "note": "completeness for one decision; C75_exact: sound and complete; C75_quantitative assumes that X can be made a decision with sufficient recall (as quantitative_voc needs for its search to be exact)"},
{"property": "C76", "status": "proved", "theorems": ["C76_ici", "C76_exact"], "note": "sound and complete for any number of decisions"},
{"property": "C77", "status": "proved", "theorems": ["C77_ri", "C77_exact"], "note": "One decision, one agent. Completeness with the uniform shortfall 3/4 (C77_ri) and the equivalence (C77_exact, using C67_ri for soundness)."},
{"property": "C78", "status": "proved", "theorems": ["C78_irrelevant", "C78_relevant", "C78_exact", "C78_strategic"], "note": "Any number of agents and decisions; the reachable node differs from the decision."},
{"property": "C79", "status": "proved", "theorems": ["C79_dependent", "C79_exact", "C79_query"], "note": "Both directions, for all graphs, variables and observed sets; networks as entered with add_cpds, exact rational probabilities."},
{"property": "C80", "status": "proved", "theorems": ["C80_returns", "C80_effect", "C80_introduced", "C80_paths"], "note": "policies for all decisions are required, as the code demands; in_domains and tables_sorted as in C42 (see C38_refuted and C39_refuted)"},
{"property": "C81", "status": "proved", "theorems": ["C81_arcs", "C81_acyclic", "C81_sccs", "C81_recall"], "note": "decisions given without repetition; agents with a decision have a utility entry, as is_s_reachable requires"},
{"property": "C82", "status": "proved", "theorems": ["C82_exact", "C82_possible", "C82_order"], "note": "for networks whose columns sum to one exactly; the generator is an arbitrary assignment of numbers in [0,1) to the variables"},
{"property": "C83", "status": "proved", "theorems": ["C83_shape", "C83_color", "C83_property", "C83_no_utility", "C83_components"], "note": "colours as positions in the colour map"},
{"property": "C84", "status": "proved", "theorems": ["C84_backdoor", "C84_confounded", "C84_exact", "C84_query", "C84_adjustment"], "note": "Pearl's backdoor rule: exact characterisation of is_active_backdoor_trail by equality of conditioning and intervening, in probabilities and in query answers, and the adjustment formula; the test is shown exact for every observed set"},
{"property": "C85", "status": "partial", "theorems": ["C85_given", "C85_named", "C85_constant", "C85_copy", "C85_copy_dictionary", "C85_no_error", "C85_body", "C85_to_the_end", "C85_unmentioned", "C85_confused_refuted", "C85_space_refuted", "C85_object_refuted"], "note": "Given labels and names are used as they are (C85_given, C85_named); the label of a lambda is its body whenever it is the first lambda after the first mention of the variable in the line (C85_body, C85_to_the_end), empty if the variable is not mentioned (C85_unmentioned); functions never raise (C85_no_error). Refuted otherwise: another variable's body (C85_confused_refuted), a missing space (C85_space_refuted), nameless callable objects (C85_object_refuted). Copies of a relationship are not given its label (C85_copy), and copies of dictionaries are never labelled by the dictionary (C85_copy_dictionary)."},
{"property": "C86", "status": "partial", "theorems": ["C86_lines", "C86_waiting", "C86_certain", "C86_determines", "C86_text", "C86_tolerance_refuted", "C86_domain_refuted"], "note": "One line per context in alphabetical order, with the certain outcome or the distribution (C86_lines), nothing before the parents have domains (C86_waiting). That a shown outcome is certain (C86_certain) and that printing determines the table for a given domain (C86_determines) is proved for probabilities that add up to exactly one; false within the tolerance (C86_tolerance_refuted), and two relationships with different domains can print the same (C86_domain_refuted). The same for the printed text, if no line break is printed within a line and no > on the left of one (C86_text)."},
{"property": "C87", "status": "partial", "theorems": ["C87_removed", "C87_missing", "C87_again", "C87_child_refuted"], "note": "Removal and KeyError proved as stated (C87_removed, C87_missing). Giving a removed relationship again restores the network if the parents have tables and the domain is not empty (C87_again); false when a parent's relationship was removed before: AttributeError instead of waiting (C87_child_refuted)."},
{"property": "C88", "status": "proved", "theorems": ["C88_edges", "C88_only", "C88_directed", "C88_gap_refuted"], "note": "One edge for each step in its own direction; only edges between neighbours in the list; directed paths are those whose pairs read forwards. Nodes that are not joined are passed over (C88_gap_refuted: stated for paths only)."},
{"property": "C89", "status": "proved", "theorems": ["C89_directed", "C89_undirected", "C89_avoiding", "C89_backdoor", "C89_active", "C89_more", "C89_same_node", "C89_reverse_refuted"], "note": "All five tests and searches, for diagrams a program can build and nodes of the diagram. The back-door search needs two different nodes (IndexError otherwise, C89_same_node). Effective paths cannot be reversed: C89_reverse_refuted (not part of the statement)."},
{"property": "C90", "status": "proved", "theorems": ["C90_between", "C90_utility", "C90_effect", "C90_average", "C90_additive", "C90_no_change", "C90_policy", "C90_voi", "C90_voc", "C90_utility_average"], "note": "Exact arithmetic. Contexts of positive probability, interventions in the domains (in_domains, tables_sorted as in C38, C39, C42); the order of several expected values is that of C41. Values of information and control as in C47 (one decision) and C62 (sufficient recall)."},
{"property": "C91", "status": "proved", "theorems": ["C91_complete", "C91_order", "C91_product", "C91_bayes", "C91_marginal", "C91_set", "C91_seen", "C91_forwards"], "note": "Exact arithmetic; each question is asked of the same network (a query without intervention can remove unconnected nodes, C37_refuted); interventions as in C38 and C39; whenever the calls return (C39_accepted_partial says when)."}
]}
