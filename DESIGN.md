# Formal model of pycid: design

Source: `/repo` (causalincentives/pycid).  Proof assistant: Coq 8.16.1, standard library only
(no mathcomp/std++/Iris needed so far).  Everything lives in `rocq/theories`.

## 1. How the model is organised

* `M*.v` - model files.  Only definitions, each citing the file and lines it mirrors.
  No proofs.  Every function is total and computes, so it can be run with `vm_compute`.
* `Spec*.v` - specification files: the textbook notions (directed path, simple path, collider,
  d-connection, topological order, ...) written without any helper of the model.
* `L*.v` - lemma files (all proofs).
* `P*.v` - property files.  Only property theorems, each closed with `exact lemma`, followed by
  `Print Assumptions` and next to an `Example` showing a concrete case that meets the hypotheses.

### Modelling conventions

| Python | model |
|---|---|
| node label (`str`) | `string` |
| `nx.DiGraph` | record of node list and edge list, both in insertion order; `predecessors`/`successors`/`edges` read off in the order networkx would give |
| exceptions | `result A := Ok a | Err e` with one constructor per Python exception type; functions that mutate return the state also when they raise |
| `dict` | association list in insertion order |
| `set` iteration | an arbitrary *order oracle* (a function that permutes the members); theorems quantify over all of them |
| generators / `while` loops | the stack machine itself with a step relation and fuel, plus a structural recursion proved equal to it |
| `float` | exact rationals `Qc` (stated where it matters: tolerances are exact rational comparisons) |
| random choices, Nash solver, hash function | oracle arguments quantified over in the theorems |
| pgmpy / networkx calls | modelled by a short computable definition of what the called function does (see trusted base) |

## 2. Trusted base

* the Coq kernel (and `coqchk`), no axioms of our own; `Print Assumptions` is printed under every
  property theorem and is expected to say `Closed under the global context`;
* the reading of the Python source into `M*.v` (checked by hand, line references given);
* the behaviour of third-party code that pycid calls, recalled from pgmpy 0.1.17 and networkx
  (`DiGraph`, `descendants`, `topological_sort`, `condensation`, connected components,
  `BayesianNetwork.add_edge/add_cpds/remove_cpds/remove_node`, `active_trail_nodes`,
  `is_dconnected`, exact inference).  pgmpy/networkx/pygambit source is not in `/repo`;
* floating point is replaced by exact rationals.

Not modelled: drawing apart from shapes, colours and labels (C83, C85), `print_more_info`, notebooks, warnings,
performance (`lru_cache`), the example diagrams except as concrete test cases.

## 3. Properties: what is modelled and how it is proved

(See `properties.jsonl` for full statements; `MANIFEST.json` for the theorem names.)

* C01-C02: stack machine of `_dfs_search_paths`; proved to halt and to output exactly the list of paths; duplicates excluded by an invariant on the visited prefix.
* C03-C04: the search of `find_active_path` run with `_active_neighbours`; soundness by induction on the prefix, completeness by the general DFS lemma; agreement with the Bayes-ball algorithm through C05.
* C05: closure computation of `active_trail_nodes`; equivalence with simple active paths by loop cutting.
* C06-C09: case analysis on edge directions, acyclicity for exclusiveness.
* C10-C11: graph operations as state transformers; invariant over all histories.
* C12-C14: role dictionaries as association lists; invariant; aliasing modelled with a store of list cells.
* C15: Kahn's algorithm and filter.
* C16-C17: mechanism graph on strings; path surgery at the added leaf nodes.
* C18-C21: relevance graph, cycles, components, closed sets.
* C20-C21: `networkx.condensation` with an arbitrary listing of components; closed sets of the condensed graph.
* C22-C28: requisite graph as a fold over decisions (`MIncent.v`).  `LMoral.v` proves that d-connection is
  connection in the moral graph of the ancestral set; `LTrim.v` uses it to show that dropping
  non-requisite links is confluent (unique minimal reduction) and that the order used by the code reaches
  the normal form for single-agent diagrams.  Graph criteria by paths.
* C29-C31: reasoning patterns (`MPatterns.v`) with an order oracle; path conditions in `SpecP.v`; direct effect,
  manipulation and revealing tests exact; signaling sound, and complete where the choice of the back-door path
  does not matter; the deletion loop terminates because the effective set shrinks, and its result is stable.
* C32-C36: CPD construction over rationals; recursive `Model.__setitem__` with fuel = number of nodes; settledness invariant.
* C37-C42, C55: query/intervention over finite distributions (`MProb.v`, `MQuery.v`, `MEffects.v`).  Barren nodes are summed out, so removing
  other components is harmless; an intervention realises the truncated product; d-separation soundness by splitting
  the sum of products; `built` (`SpecQ.v`) describes the networks a program can come by.
* C56: edge edits (`LEdit.v`), with the invariant of C35; edits are part of `built`.
* C43: `MPolicy.v`; mixed-radix numbers of contexts are a bijection (`LPolicy.v`); rules are compared with choice functions (`SpecPol.v`).
* C44-C48: decision rules as tuples, argmax loop, conditional expectations; the value of a policy is a sum over all assignments (`SpecPol.v`, `LValue.v`).
* C46, C57: best-response lemma for one decision (`LBest.v`); backward induction over the order of the relevance graph (`LSolve.v`, `PSolve.v`); a
  stochastic policy is a mixture of deterministic ones, so the best deterministic policy is best among all.
* C47, C48: `MVoi.v`.  Adding or removing the link rewrites only the decision's own table (`LVoi.v`), so the two stages are two maximisations
  over rules that see different variables in one and the same diagram (`SpecVoi.v`).  That a separated observation is worth
  nothing follows from d-separation soundness (`LIndep.v`): the best reply does not need it.
* C62: `LVoc.v`: between the two stages the diagram loses the parts that are not connected to a utility (`piece`), which changes neither
  recall nor values; so both stages are maximisations in the given diagram (`PVoc.v`).  That control is worth nothing without the criterion
  needs `LReq.v`: a link that is not requisite can be dropped from a network without loss (`drop_link`, C24's d-separation), and so all the
  links dropped by `requisite_graph` (`reduced_policy`); in the reduced graph X is barren for the utilities.
* C70: `random_cid` renames the result of `random_macidbase`: the new names have no underscore and all old ones have, so the renaming is injective (`relabel_some`, `random_cid_result`); the loops by induction on the rounds; the CPDs by C71 with the range {0, 1} (`LRandCid.v`, `PRandCid.v`).
* C71: `fine` is kept by every assignment: domains are non-empty and within the ranges, all tables belong to their relationships and a missing table waits for a parent without table (`fine_set`, induction on the descendants still to be visited); with a relationship at every node, induction along the graph gives every node its table (`LSane.v`, `PSane.v`).
* C72: as C47, with tables of all decisions rewritten (`partly`: tables present but one of them for other parents; `stage_many`: random rules make the network whole, then backward induction); sufficient recall passes to copies and to unions of components (`recall_passes`); zero by `reduced_policy` (`LVoiN.v`, `PVoiN.v`). `C72_sound` needs neither the solver nor recall after the change.
* C73: each node gets a stochastic function that returns its conditional distribution (`SpecGen.v` says what a family of conditional probabilities is); acceptance from C71, the tables from the table lemmas of C30 (`PGen.v`).
* C74: the active path from X to the utility is turned into a circuit of fair bits: open nodes toss a bit, chains copy, colliders hand the exclusive or of their two neighbours down a directed path to an observed node; the utility pays 1 if the decision matches a wanted bit. `LWire.v` builds the network of any circuit and proves that a rule which can compute the wanted bit wins always (`always_wins`) and that a flip of bits invisible to the rule makes it win at most half the time (`evenly_wins`, `total_relabel`); `LTrek.v` lays the circuit along the path (induction over the path, `trek`); `PComplete.v` numbers the values (`small`), transports to a network with C73 and joins C24, C47 and C72.
* C75: if a directed path from X reaches the utility without passing the decision, a bit is flooded along it (`control_direct`). Otherwise X reaches a retained observation Y, whose active path to the utility (C26) is cut at the last node c that descends from X (`gate`, `LGate.v`); the circuit of C74 is laid from c with c as the source of the bit that the decision needs, and X is a switch: with it on, c passes the bit on, with it off c is constant (`switch_circuit`, `LSwitch.v`). The naturally off network is a circuit in which the wanted bit can be flipped unseen (at most 3/4), with X on and the right rule the bit is always matched (`control_gated`, `LControl.v`). `PControl.v` carries this from the reduced graph to the diagram with C73 and C66; the converse is `match_policy` (`PVoc.v`).
* C76: the variables on a directed path from D through X to a utility copy their predecessor (`line`, `copying`); events that hold in every assignment of positive probability are certain (`do_certain`). Conversely a variable is unaffected by interventions on others that do not reach it (`do_prob_unaffected`).
* C77: `PResp.v` (lemmas in `LGateAll.v`, `LMix.v`, `LPay.v`, `LRig.v`, `LResp.v`, `LRespG.v`). `C77_ri`: whenever `admits_ri` says yes in a diagram with one decision, a parametrisation is built (copying signals along the path from the node to the requisite observation, and a switch or a parity game along the active path from the observation to the utility) in which a rule beats every unresponsive rule by 3/4; its tables are entered by `add_cpds`. `C77_exact` joins it with the soundness half `C67_ri`. Responding is stated through `do_prob`, the textbook truncated product of SpecQ, not through the model's `intervene`.
* C78: `PRely.v` (lemmas in `LRely.v`). `C78_relevant`: the new parent of V used by the reachability test is treated as an observation of D and the network of C74 is built for it (`voi_network`); holding the new parent at each of its values gives conditional probabilities of V on the original diagram, and a rule of D that is good for all of them would be as good as observing the new parent. `C78_irrelevant`: the rule that is best when V is uniform is best for all conditional probabilities of V (`respond`, from the soundness of d-separation). `C78_exact` joins them; `C78_strategic` is the version for `is_s_reachable`. V different from D; clash-free names as in C17.
* C79: `PDep.v` (lemmas in `LDep.v`). `C79_dependent`: the graph is extended by an unused name d observing Z and an unused name u below d and y (`watched`); the active path then ends in u and the construction behind C74 (`trek`: bits copied and added along the path) gives conditional probabilities on the original graph, in which the values of x and Z determine one bit of y while changing the bits on the path changes neither Z nor any probability. `C79_exact`: with the independence behind C58 (`do_indep`), d-separation is equivalent to independence in all networks with the graph. `C79_query`: the same in terms of the answers of query with and without the observation of x.
* C80: `PDirect.v`. `C80_returns`: the check of policies that `query` makes before every inference goes through on the intervened graph (`check_policies_do`), so totality of inference (C41) applies. `C80_effect`: `total_effect` returns and is the difference of the expectations; `C80_introduced`: so `introduced_total_effect` returns, too, and its value. `C80_paths`: for a directed path the network of C76 that copies a value along it (obtained from C73 with function relationships, `C73_relationships`) has a total effect of 1; without a path C42 gives 0.
* C81: `MRelG.v` (`is_acyclic`, `get_sccs`), `SpecRelG.v` (`needs_to_know`, `solving_order`, `needs_chain`), `PRelG.v`. The arcs come from C78; `C81_acyclic` turns a topological order of the relevance graph into a solving order and back (`forward_acyclic`); `C81_sccs` uses the component lemmas of C20; `C81_recall` restates sufficient recall without graphs.
* C82: `MSample.v` (`sample`: pgmpy's forward sampling with numpy's `choice`, which looks a number from [0,1) up in the partial sums of the weights; external, from their documentation), `SpecSample.v`, `LSample.v`, `PSample.v`. `choice_spec`: a value is chosen exactly for the numbers in its interval; `forward_spec`: induction along the topological order, because the column used for a variable depends only on its parents; `C82_exact`: the lengths of the intervals are the conditional probabilities, so the volume is the joint probability. Not modelled: the rescaling of columns that do not sum to one, numpy's generator itself and how a seed fixes the numbers.
* C83: `MDraw.v` (`_get_color`, `_get_shape`, `_set_color_scc`, the colour function of `draw_property`), `PDraw.v`. A colour of the rainbow map is kept as its position and the number of positions, so different colours are different positions; that matplotlib renders them differently, and everything else about drawing, is not modelled. Roles come from the role invariant of C12, components from C81. `C83_property`: `draw_property` by cases on the colours a role can have.
* C84: `is_active_backdoor_trail` (already modelled for C08) against the interventional distribution `do_prob`. Soundness (`C84_backdoor`, Pearl's second rule for one variable): the network is rewritten so that the children of x read the fixed value instead of x (`plug`, `LDoor.v`); this is a network over the graph without the arrows out of x (`mute`), agrees with the original where x has the value and with the intervened one where x is left aside, and d-separation in it follows from the absence of an active backdoor path. Completeness (`C84_confounded`): an active backdoor path gives d-connection in the muted graph — a collider opened only through x is entered from x by climbing, so no condition on the observed set is needed — and the dependent network of C79 on the muted graph is entered on the full graph. `C84_exact`, `C84_query` put both together, `C84_adjustment` is the backdoor formula. Not covered: several treatment variables at once; `query` with ready-made tables on unsorted domains (hypothesis `tables_sorted`, as in C55).
* C85: `MLabel.v` (`compute_label`; `str.find`, indexing and slicing with negative positions, `range` and the outcomes of `getsourcelines` are external), `SpecLabel.v` (bracketed text, first occurrence), `LLabel.v` (`stop_expression`: the loop passes over a bracketed text), `PLabel.v`. Characters are bytes; string literals are text like any other, so a bracket in a literal counts. Refuted: the variable's name is looked for anywhere in the line, so the label can be that of another variable; a body without a space after the colon loses a character; a callable object without a name raises TypeError. `C85_copy`, `C85_copy_dictionary`: `copy` does not pass the label on; for dictionaries the line of the source is known, so all places at which the variable may occur in it are gone through.
* C86: `MRepr.v` (`__repr__` of a function relationship; `str` of parent values, outcomes and distributions are arguments), `SpecRepr.v`, `PRepr.v`. `C86_lines`: loop invariant for the dictionary, insertion sort for the order. `C86_certain`, `C86_determines`: columns of non-negative numbers that add up to one and hold a 1 have no other entry; tables from C32. `C86_text`: the text can be taken apart again at line breaks and arrows. False for columns that add up to one only within the tolerance (`C86_tolerance_refuted`), and the domain is not shown (`C86_domain_refuted`).
* C87: `MNet.v` (`remove_cpds`), `PRemove.v`, with the invariant of C35. `C87_removed`, `C87_missing`: induction over the variables. `C87_again`: the table that is made again is the one that was there, because it depends on the parents only, and children are left alone because the domain is still known. False when a parent's relationship was removed (`C87_child_refuted`): its domain is still known, so nothing waits, and asking for its cardinality raises AttributeError.
* C88: `MPaths.v` (`get_path_edges`), `PRules.v`, by induction over the path. Nodes that are not joined are passed over in silence (`C88_gap_refuted`). `PRules.v` also has `C44_decision_partial` and `C44_decision_returns_partial` (`optimal_pure_decision_rules`, from the policies of one decision) and `C43_joint` (`joint_pure_policies`).
* C89: `MPatterns.v`, `MEffPath.v` (the test for undirected paths, used by nothing else), `PEffPath.v`; from the enumerations of C01 and C02, and the activity test of C07. Effectiveness exempts the start of a path but not its end, so it is not symmetric (`C89_reverse_refuted`).
* C90: `PBounds.v`, from C41, C42 and the law of total probability (`by_value` of `PDoor.v`). `C90_between`, `C90_utility`, `C90_effect`: an average with non-negative weights that add up to one lies between the least and the greatest value. `C90_average`: the double sum over the values of both variables is exchanged; values of probability zero contribute nothing. `C90_utility_average`: the same for expected utilities. `C90_additive`, `C90_no_change` hold without hypotheses on the values. `PBoundsV.v`: every policy can be played by a network with the same domains (`follow_net`), so its value has the same bounds (`C90_policy`), and the values of information and control are at most the width (`C90_voi`, `C90_voc`).
* C91: `PConsist.v`, from C55: every answer is a quotient of sums over all assignments, so answers to different questions can be compared. `answer f a p` reads the answer off by variable, whatever the order in which the factor lists its variables.
* C69: the answers of the copy are worked out one context after the other; each is an expectation of the original diagram (`variant`, `like`), none of them is the exception used for waiting (`calm_answers`); least squares by orthogonality of the error to every function of the context (`orthogonal`); the error in the new diagram by summing out the descendants of the decision (`error_realised`) (`LCond.v`, `PCond.v`).
* C68: every column of a table is the context of some assignment (`context_onto`), so the entries of the table are the values of the kernel; a distribution whose entries are all near 0 or near 1 has one entry near 1 (`PScm.v`).
* C66, C67: `reduced_policy`; a decision that X does not reach in the reduced graph is not affected by an intervention (`LEffects.v`).
* C65: `PSolver.v`, case analysis over the names; the algorithms are a parameter.
* C61: `PCid.v`.  The copy denotes the same diagram up to the order of the roles (`LLike.v`), so C57 about the copy is about the original.
* C58: d-separation soundness (`LIndep.v`) carried over to the answers of `query` (`PIndep.v`).
* C49: `MGame.v` models `export/gambit.py`; a tree node is the list of branch numbers from the root (`SpecGame.v`).  One invariant of
  the breadth-first loop (`LTree.v`: `grown`) says what every position holds; it is kept by every step and level (`LLevels.v`).
* C60: `LPayoff.v` (sums over leaves), `LPlay.v` (the probability of a branch is the diagram's conditional probability; rules from
  strategies), `LNash.v` (strategies from policies), `PPlay.v`.  The expected payoff is the sum over the leaves of the product of the
  branch probabilities times the payoff (`SpecGame.game_value`); the diagram's value is `SpecPol.value`.
* C51, C63: `MSub.v` models `create_subgame`, `get_ne`, `get_spe`; the solvers of pygambit are a parameter.  What a subgame is, is specified in
  `SpecSub.v` (`subgame`): relevant nodes keep their incoming edges and tables, the others get the average of their columns.  `LSub.v` shows that
  `create_subgame` returns one; `LKept.v` that the subgame of a component is connected, so that C60 applies; `LStage.v` follows the loop.
* C63, C64: `LRespond.v`: a decision rule that is best when irrelevant nodes behave in one way is best when they behave in another way, if
  nothing that is possible in the second case is impossible in the first.  `LWhole.v`: the subgame behaves like the whole diagram in which the nodes
  that are not kept have averaged tables and those that are left out are uniform (`star`); deviations in the whole diagram are undone one component
  after the other (`stage_step`).  The export fails unless every value of every averaged node is possible (`LStage.efg_possible`), so what is
  possible in the whole diagram is possible in the subgame.
  `LJoint.v` extends this to agents that change several rules of a component at once (`respond_all`, by induction over an order of the agent's
  decisions in which later ones do not rely on earlier ones): the last decision first takes a rule that is best whatever the earlier ones do,
  then the earlier ones return to the equilibrium, then the last one does.  C81 gives the order from the sufficient recall test (`PJoint.v`).
* C50: `SpecExport.v` says what a joint outcome of the decisions and observed variables is, when the observed variables are closed under
  parents and when every joint outcome is possible.  `LExport.v` follows the export loop by loop and decides which of the three outcomes
  it has (returns, KeyError, RuntimeError); `C50_leaves` is the bijection, `C50_returns_partial` the exact condition, `C50_refuted` the
  natural diagrams on which it raises (noisy signal of a hidden state, certain observation, two unconnected parts).
* C52: `MRandDag.v`.  `random` is an arbitrary stream of numbers.  Invariant of both loops: every edge goes up in the list of
  names (`LRandDag.v`); counting edges by their targets bounds their number and shows that there is room for another one.
* C53: `MRandMacid.v`.  Every random choice (shuffle, sample, choice) is read from arbitrary streams.  The diagram is the renamed
  random graph; renaming is injective on its nodes, so well-formedness, connection and in-degrees carry over.
* C59: same model.  The recall loop stops with the mechanism of the earlier decision d-separated from the utility in the mechanism
  graph; the extra conditioning on the mechanism of the later decision changes nothing as it has one neighbour only.
* C54: `MRandCpd.v`, over an arbitrary generator and an arbitrary hash.

## 4. Findings (properties that are false of the code)

Each is proved as a `…_refuted` theorem with a concrete witness.

* C04 `find_active_path` with an observed start node, C06 `get_motif` at index 0 (`path[-1]`
  wraps round), C08 frontdoor test with equal endpoints (IndexError), C11 one-shot iterators.
* C12 `MACIDBase.__init__` accepts a node in both dictionaries or listed for two agents.
* C13 `dict(agent_decisions)` copies the dictionary but not the lists: diagrams built from the
  same lists, and the caller, share them (`macid_base.py` 89-90).
* C14 `copy_without_cpds` loops over `agents`, which are the keys of `agent_utilities` only:
  decisions of an agent without utilities are lost; an agent without decision entry: KeyError.
* C16 the guard of `MechanismGraph` reads `node[:-3] == "mec"` and should read `node[-3:]`.
* C17/C18 `is_r_reachable`, `sufficient_recall` raise KeyError for agents missing in one
  dictionary.
* C23 with several agents one run of `requisite_graph` is not enough; an agent of a `MACIDBase` with an
  empty utility list makes it raise KeyError (the copy loses the entry).
* C24 `admits_voi` asked about a node that is not a decision answers True for every non-descendant.
* C28 an absent decision is a NetworkXError in `requisite` and `admits_voi_list`; a node name such as
  `mecABC` makes the recall test raise ValueError.
* C30 `signaling` tests only the first back-door path found, so its answer depends on set iteration order;
  it raises ValueError when that path has no fork (a utility with children); `revealing_or_denying` does not
  test that the front-door path is effective; the documented exemption of fork nodes is not implemented.
* C31 because of C30, a decision can be dropped although it is motivated relative to the final set, and the
  result differs between processes.
* C33 the signature check inspects the bound method `stochastic_function(**pv)`, so it never fires: mismatches are
  TypeErrors at the first call, unknown parameters with defaults are accepted.
* C36 `Model.__setitem__` deletes the old relationship and table before it builds the new table, so a rejected
  relationship stays registered without a table; when a child rejects the new domain, the new domain stays.
* C37 `query` without an intervention removes the nodes outside the component of the query from the network itself.
* C55 the docstrings of `query` say that the factor is P(Q|c)P(c) and has to be normalised by the caller; the engine already normalises
  (`tests/test_causal_bayesian_network.py` 86, `tests/test_macid_base.py` 43, outputs in `notebooks/CBN_Tutorial.ipynb`), so the documented
  reading is refuted (`C55_documented_refuted`).  That the engine normalises is an assumption about `pgmpy` taken from these records.
* C38 `intervene` gives the target a dictionary as new relationship, whose domain is sorted; a ready-made table of a child
  made for an unsorted domain then belongs to other states.
* C39 an intervention outside the domain silently extends it; `MACIDBase.query` asks a plain `TabularCPD` for `.domain`.
* C56 `add_edge`/`remove_edge` rebuild only tables that are `ConstantCPD`s: a function keeps a table with the old parents, and a
  relationship that was waiting for the removed parent goes on waiting.
* C41 `expected_value` lists numbers in the order of the factor's variables, which come from a set.
* C44 the tolerance is measured from the first of a run of close values, not from the greatest: a policy whose value is close to the
  greatest can be missing (`C44_close_refuted`), one that is far from it can be returned (`C44_far_refuted`); decisions of one agent
  raise ValueError when they are not connected to any utility of that agent (`C44_owner_refuted`).
* C45 `impute_optimal_decision` raises RuntimeError when a context of the decision has probability zero, NetworkXPointlessConcept when
  the agent has no utility below the decision, AttributeError for a parent that has a plain table (`C45_succeeds_refuted`).
* C48 `quantitative_voc` works on the diagram it is given instead of a copy: the node stays a decision, every decision keeps its imputed
  rule, variables without connection to a utility are gone, and asking again gives another answer (`C48_voc_refuted`).
* C68 `is_structural_causal_model` compares with numpy's tolerances: a table entry of 1e-9 is accepted (`C68_exact_refuted`).
* C69 the decision gets new outcomes, and a ready-made table of a variable that depends on it need not fit them
  (`C69_distribution_refuted`).
* C70 the ranges of `random_macids` exclude their upper ends (`random.choices(range(*r))`), those of `random_cids` include them: with equal ends
  `random_macids` always raises IndexError (`C70_equal_ends_refuted`); `random_cid(sufficient_recall=True)` need not have it (`C70_recall_refuted`);
  a random seed of 0 with an unlucky hash makes adding the CPDs raise ValueError (`C70_cpds_refuted`).
* C71 after a relationship has been removed, a sensible one can raise AttributeError, because the domain of the parent is read off
  its missing table (`C71_after_removal_refuted`).
* C72 giving an earlier decision an observation may destroy sufficient recall (`C72_recall_refuted`); `quantitative_voi` then falls back to the search
  (C57_search), for which only the tolerance-bounded statements hold.
* C62 with large utilities the value of control of an unobserved variable can be negative, because policies are compared up to 1e-9 relative
  (`C62_negative_refuted`).
* C50 a noisy signal of a hidden state, a certain observation or two unconnected parts make the export raise (`C50_refuted`).
* C49 the key of an information set is the agent and the parents' values, without the decision: two decisions of one agent with the
  same parents share information sets (`C49_refuted`).
* C60 for the same reason an equilibrium of the game is one of the diagram only if no two decisions of one agent have the same parents
  (`C60_equilibria_refuted`).
* C52 the bound `max_in_degree` is not passed on to the second loop, which uses 4, and bound 0 is not kept in the first
  (`C52_in_degree_refuted`, `C52_zero_degree_refuted`); dense requests run forever (6 nodes, density 1: `C52_stuck_refuted`).
* C53 with one node the listed utility is not a node of the diagram, which is empty (`C53_one_node_refuted`).
* C59 asking for sufficient recall does not give it: the edges added for the second utility undo the separation from the first
  (`C59_refuted`: 7 nodes, one agent, two decisions, two utilities).  It works with one utility and two decisions (`C59_partial`).
* C54 `seed=0` counts as no seed (`C54_zero_seed_refuted`); the distribution depends on the process through the hash of
  strings (`C54_process_refuted`); an object without seed can draw 0 and then raise ValueError (`C54_unseeded_raises_refuted`).
