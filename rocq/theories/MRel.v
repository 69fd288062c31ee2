(* Condensed relevance graph and enumeration of subgames.  No proofs in this file. *)
From Coq Require Import String Ascii List Bool Arith.
Import ListNotations.
From Verif Require Import MBase MGraph MMacid.
Local Open Scope string_scope.
Local Open Scope list_scope.

(* networkx numbers the components 0, 1, 2, ...; graphs of the model have string nodes, so the
   integer i is written as a string of i bars *)
Fixpoint label (i : nat) : node := match i with O => "" | S i' => String "|"%char (label i') end.

(* [external] nx.strongly_connected_components: the classes of mutually reachable nodes.
   The order of the classes and of the members of a class (a set) depends on Tarjan's
   algorithm and on set iteration; [condensation] takes it as an argument. *)
Definition scc_of (g : graph) (x : node) : list node :=
  filter (fun y => has_path g x y && has_path g y x) (nodes g).
Fixpoint scc_loop (g : graph) (covered todo : list node) : list (list node) :=
  match todo with
  | [] => []
  | x :: todo' =>
      if mem x covered then scc_loop g covered todo'
      else scc_of g x :: scc_loop g (covered ++ scc_of g x) todo'
  end.
Definition sccs (g : graph) : list (list node) := scc_loop g [] (nodes g).
Definition component_order := list (list node) -> list (list node).

Fixpoint number_from {A} (i : nat) (l : list A) : list (node * A) :=
  match l with [] => [] | x :: l' => (label i, x) :: number_from (S i) l' end.

Record condensed : Type := mkC { cgraph : graph; mapping : list (node * node) }.

(* [external] nx.condensation: nodes 0..k-1, mapping {member: component number}, one edge per
   pair of different components joined by an edge *)
Fixpoint condensation_edges (mp : list (node * node)) (c : graph) (es : list (node * node)) : result graph :=
  match es with
  | [] => Ok c
  | (u, v) :: es' =>
      i <- dict_get u mp ;;
      j <- dict_get v mp ;;
      condensation_edges mp (if String.eqb i j then c else nx_add_edge c i j) es'
  end.
Definition condensation (so : component_order) (g : graph) : result condensed :=
  let cs := number_from 0 (so (sccs g)) in
  let mp := owner_dict cs in
  c <- condensation_edges mp (add_nodes_from empty_graph (keys cs)) (edges_view g) ;;
  Ok (mkC c mp).

(* [external] DiGraph.add_edges_from on a plain DiGraph *)
Definition nx_add_edges_from (g : graph) (es : list (node * node)) : graph :=
  fold_left (fun g e => nx_add_edge g (fst e) (snd e)) es g.

(* relevance_graph.py 87-95: CondensedRelevanceGraph.__init__ (RelevanceGraph of all decisions) *)
Definition condensed_relevance_graph (so : component_order) (m : macid) : result condensed :=
  rg <- relevance_graph m (decisions m) ;;
  con <- condensation so rg ;;
  Ok (mkC (nx_add_edges_from (add_nodes_from empty_graph (nodes (cgraph con))) (edges_view (cgraph con)))
          (mapping con)).

(* relevance_graph.py 112-118: scc_dec_mapping[v] = scc_dec_mapping.get(v, []) + [k] *)
Definition get_decisions_in_scc (c : condensed) : list (node * list node) :=
  fold_left (fun acc kv =>
    dset (snd kv) (match lookup (snd kv) acc with Some l => l | None => [] end ++ [fst kv]) acc)
    (mapping c) [].

(* [d[k] for k in ks] *)
Fixpoint get_all {A} (d : list (string * A)) (ks : list string) : result (list A) :=
  match ks with
  | [] => Ok []
  | k :: ks' => x <- dict_get k d ;; xs <- get_all d ks' ;; Ok (x :: xs)
  end.

(* relevance_graph.py 104-110 *)
Definition get_scc_topological_ordering (o : order) (c : condensed) : result (list (list node)) :=
  match toposort o (cgraph c) with
  | None => Err NetworkXError
  | Some l => get_all (get_decisions_in_scc c) l
  end.

(* [external] itertools.combinations(l, r) *)
Fixpoint combinations {A} (l : list A) (r : nat) : list (list A) :=
  match r, l with
  | O, _ => [[]]
  | S _, [] => []
  | S r', x :: l' => map (cons x) (combinations l' r') ++ combinations l' r
  end.
Definition eqb_list (a b : list node) : bool := if list_eq_dec string_dec a b then true else false.
(* list.remove for a list of tuples *)
Fixpoint remove_tuple (x : list node) (l : list (list node)) : list (list node) :=
  match l with
  | [] => []
  | y :: l' => if eqb_list x y then l' else y :: remove_tuple x l'
  end.
(* macid.py 182-184 *)
Definition powerset (ns : list node) : list (list node) :=
  flat_map (fun r => combinations ns r) (seq 1 (length ns)).
(* macid.py 187-190 (the inner loop runs over the members of one subset) *)
Definition filter_subgames (g : graph) (ps : list (list node)) : list (list node) :=
  fold_left (fun subgames subset =>
    fold_left (fun subgames' n =>
      if negb (forallb (fun d => mem d subset) (descendants g n)) && existsb (eqb_list subset) subgames'
      then remove_tuple subset subgames' else subgames') subset subgames) ps ps.
Fixpoint get_all_lists {A} (d : list (string * A)) (kss : list (list string)) : result (list (list A)) :=
  match kss with
  | [] => Ok []
  | ks :: kss' => xs <- get_all d ks ;; xss <- get_all_lists d kss' ;; Ok (xs :: xss)
  end.
(* macid.py 176-197 *)
Definition decs_in_each_maid_subgame (so : component_order) (m : macid) : result (list (list node)) :=
  c <- condensed_relevance_graph so m ;;
  let subgames := filter_subgames (cgraph c) (powerset (nodes (cgraph c))) in
  ds <- get_all_lists (get_decisions_in_scc c) subgames ;;
  Ok (map (fun l => to_set (concat l)) ds).
