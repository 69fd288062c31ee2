(* Relevance graph: the two questions asked of it.  No proofs in this file. *)
From Coq Require Import String List Bool.
From Verif Require Import MBase MGraph MRel.

(* relevance_graph.py 34-38: RelevanceGraph.is_acyclic *)
Definition rg_is_acyclic (rg : graph) : bool := is_dag rg.
(* relevance_graph.py 40-46: RelevanceGraph.get_sccs.  so: the order in which networkx lists the components *)
Definition get_sccs (so : component_order) (rg : graph) : list (list node) := so (sccs rg).
