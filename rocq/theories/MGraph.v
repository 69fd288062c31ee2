(* Directed graphs as networkx.DiGraph / pgmpy.BayesianNetwork keep them, and the graph
   part of CausalBayesianNetwork.  No proofs in this file.
   networkx and pgmpy are not part of /repo: the functions marked [external] describe the
   behaviour of the library call (trusted base, see DESIGN.md). *)
From Coq Require Import String List Bool Arith.
Import ListNotations.
From Verif Require Import MBase.

(* [external] networkx.DiGraph: nodes and edges in insertion order.
   Simplification: node and edge attributes are dropped. *)
Record graph : Type := mkG { nodes : list node; edges : list (node * node) }.

Definition empty_graph : graph := mkG [] [].

Definition eqb_edge (e f : node * node) : bool :=
  String.eqb (fst e) (fst f) && String.eqb (snd e) (snd f).

(* [external] DiGraph.has_edge *)
Definition has_edge (g : graph) (u v : node) : bool := existsb (eqb_edge (u, v)) (edges g).

(* [external] pgmpy get_children = list(self.successors(node)), edge insertion order *)
Definition children (g : graph) (u : node) : list node :=
  map snd (filter (fun e => String.eqb (fst e) u) (edges g)).
(* [external] pgmpy get_parents = list(self.predecessors(node)), edge insertion order *)
Definition parents (g : graph) (v : node) : list node :=
  map fst (filter (fun e => String.eqb (snd e) v) (edges g)).

(* [external] iteration over DiGraph.edges: by node order, then by successor order *)
Definition edges_view (g : graph) : list (node * node) :=
  flat_map (fun u => map (pair u) (children g u)) (nodes g).

(* [external] DiGraph.add_node *)
Definition add_node (g : graph) (n : node) : graph :=
  if mem n (nodes g) then g else mkG (nodes g ++ [n]) (edges g).
(* [external] DiGraph.add_edge: creates missing endpoints, keeps an existing edge in place *)
Definition nx_add_edge (g : graph) (u v : node) : graph :=
  let g' := add_node (add_node g u) v in
  if has_edge g' u v then g' else mkG (nodes g') (edges g' ++ [(u, v)]).
(* [external] DiGraph.remove_edge: NetworkXError when absent *)
Definition nx_remove_edge (g : graph) (u v : node) : result graph :=
  if has_edge g u v then Ok (mkG (nodes g) (filter (fun e => negb (eqb_edge (u, v) e)) (edges g)))
  else Err NetworkXError.
(* [external] DiGraph.remove_node: NetworkXError when absent *)
Definition nx_remove_node (g : graph) (n : node) : result graph :=
  if mem n (nodes g) then
    Ok (mkG (filter (fun m => negb (String.eqb n m)) (nodes g))
            (filter (fun e => negb (String.eqb n (fst e)) && negb (String.eqb n (snd e))) (edges g)))
  else Err NetworkXError.

(* nodes reachable from [us] along edges, [us] included *)
Definition reach_list (g : graph) (us : list node) : list node :=
  closure String.eqb (children g) (nodes g) us.
(* [external] nx.has_path *)
Definition has_path (g : graph) (u v : node) : bool := mem v (reach_list g [u]).
(* [external] nx.descendants: the source is not included *)
Definition descendants (g : graph) (u : node) : list node :=
  filter (fun x => negb (String.eqb u x)) (reach_list g [u]).
(* [external] pgmpy _get_ancestors_of(nodes): includes the nodes themselves.
   The ValueError for absent nodes is checked by the callers of this definition. *)
Definition ancestors_of (g : graph) (zs : list node) : list node :=
  closure String.eqb (parents g) (nodes g) zs.

(* [external] nx.find_cycle succeeds *)
Definition has_cycle (g : graph) : bool :=
  existsb (fun e => has_path g (snd e) (fst e)) (edges g).
(* [external] nx.is_directed_acyclic_graph *)
Definition is_dag (g : graph) : bool := negb (has_cycle g).

(* [external] pgmpy BayesianNetwork.add_edge: refuses self loops and edges closing a cycle *)
Definition bn_add_edge (g : graph) (u v : node) : result graph :=
  if String.eqb u v then Err ValueError
  else if mem u (nodes g) && mem v (nodes g) && has_path g v u then Err ValueError
  else Ok (nx_add_edge g u v).

(* causal_bayesian_network.py 83-95: CausalBayesianNetwork.__init__ for a list of pairs of
   strings.  [external] pgmpy DAG.__init__ loads the edges into the DiGraph and raises
   ValueError if nx.find_cycle finds a cycle. *)
Definition load_edges (es : list (node * node)) : graph :=
  fold_left (fun g e => nx_add_edge g (fst e) (snd e)) es empty_graph.
Definition new_graph (es : list (node * node)) : result graph :=
  let g := load_edges es in
  if has_cycle g then Err ValueError else Ok g.

(* A Python iterable: a list can be traversed again, a generator is empty the second time. *)
Inductive iterable (A : Type) : Type :=
| Reusable (l : list A)
| OneShot (l : list A).
Arguments Reusable {A} l.
Arguments OneShot {A} l.
Definition first_pass {A} (i : iterable A) : list A := match i with Reusable l | OneShot l => l end.
Definition second_pass {A} (i : iterable A) : list A := match i with Reusable l => l | OneShot _ => [] end.

(* causal_bayesian_network.py 90-95: the loop at line 91 consumes the iterable once, line 95
   traverses it again.  (The type test of lines 92-93 always passes: the elements are pairs.) *)
Definition cbn_init (es : option (iterable (node * node))) : result graph :=
  match es with
  | None => Ok empty_graph
  | Some i => new_graph (second_pass i)
  end.

(* Graph edits a user can make.  Simplification: the CPD side of add_edge/remove_edge
   (causal_bayesian_network.py 100-101, 106-107) is modelled in MNet.v. *)
Inductive edit : Type :=
| EAddNode (n : node)
| EAddEdge (u v : node)
| ERemoveEdge (u v : node)
| ERemoveNode (n : node).
Definition apply_edit (g : graph) (e : edit) : result graph :=
  match e with
  | EAddNode n => Ok (add_node g n)
  | EAddEdge u v => bn_add_edge g u v             (* causal_bayesian_network.py 103-105 *)
  | ERemoveEdge u v => nx_remove_edge g u v       (* causal_bayesian_network.py 97-99 *)
  | ERemoveNode n => nx_remove_node g n
  end.
(* The caller catches the exception and goes on with the object it has. *)
Definition step_edit (g : graph) (e : edit) : graph :=
  match apply_edit g e with Ok g' => g' | Err _ => g end.
Definition run_edits (g : graph) (es : list edit) : graph := fold_left step_edit es g.

(* [external] nx.topological_sort: Kahn's algorithm by generations.  The order inside a
   generation is left open (an [order] oracle); networkx uses one particular order. *)
Fixpoint topo_loop (o : order) (g : graph) (fuel : nat) (emitted remaining : list node)
  : option (list node) :=
  match remaining with
  | [] => Some emitted
  | _ =>
      match fuel with
      | O => None
      | S fuel' =>
          let ready := filter (fun n => forallb (fun p => mem p emitted) (parents g n)) remaining in
          let blocked := filter (fun n => negb (forallb (fun p => mem p emitted) (parents g n))) remaining in
          match ready with
          | [] => None
          | _ => topo_loop o g fuel' (emitted ++ o emitted ready) blocked
          end
      end
  end.
Definition toposort (o : order) (g : graph) : option (list node) :=
  topo_loop o g (length (nodes g)) [] (nodes g).

(* [external] pgmpy active_trail_nodes / is_dconnected ("Bayes ball").  States are a node and
   the direction of travel. *)
Inductive direction : Type := Up | Down.
Definition eqb_dir (a b : direction) : bool :=
  match a, b with Up, Up | Down, Down => true | _, _ => false end.
Definition eqb_state (a b : node * direction) : bool :=
  String.eqb (fst a) (fst b) && eqb_dir (snd a) (snd b).
Definition trail_step (g : graph) (observed anc : list node) (s : node * direction)
  : list (node * direction) :=
  let '(n, d) := s in
  match d with
  | Up =>
      if mem n observed then []
      else map (fun p => (p, Up)) (parents g n) ++ map (fun c => (c, Down)) (children g n)
  | Down =>
      (if mem n observed then [] else map (fun c => (c, Down)) (children g n)) ++
      (if mem n anc then map (fun p => (p, Up)) (parents g n) else [])
  end.
Definition trail_universe (g : graph) : list (node * direction) :=
  map (fun n => (n, Up)) (nodes g) ++ map (fun n => (n, Down)) (nodes g).
Definition active_trail_nodes (g : graph) (start : node) (observed : list node) : result (list node) :=
  if forallb (fun z => mem z (nodes g)) observed then
    if mem start (nodes g) then
      let anc := ancestors_of g observed in
      let visited := closure eqb_state (trail_step g observed anc) (trail_universe g) [(start, Up)] in
      Ok (filter (fun n => negb (mem n observed)) (map fst visited))
    else Err NetworkXError
  else Err ValueError.
Definition is_dconnected (g : graph) (start end_ : node) (observed : list node) : result bool :=
  act <- active_trail_nodes g start observed ;; Ok (mem end_ act).
(* is_dconnected for arguments already known to be nodes of the graph *)
Definition dconnected_b (g : graph) (x y : node) (z : list node) : bool :=
  match is_dconnected g x y z with Ok b => b | Err _ => false end.
