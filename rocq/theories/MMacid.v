(* Roles in (multi-agent) influence diagrams, the mechanism graph, strategic reachability,
   relevance graphs and sufficient recall.  No proofs in this file. *)
From Coq Require Import String List Bool Arith.
Import ListNotations.
From Verif Require Import MBase MGraph.
Local Open Scope string_scope.
Local Open Scope list_scope.

(* Agent labels are hashable Python values; the model uses strings (the label 0 of CID is "0"). *)
Definition agent := string.

(* macid_base.py 68-93: the graph and the four role dictionaries of a MACIDBase object.
   Simplification: CPDs are left out here (MNet.v); the lists inside the dictionaries are
   values, sharing of list objects between diagrams is modelled in the Heap section below. *)
Record macid : Type := mkM {
  mgraph : graph;
  agent_decisions : list (agent * list node);
  agent_utilities : list (agent * list node);
  decision_agent : list (node * agent);
  utility_agent : list (node * agent) }.

(* macid_base.py 92, 93: {node: agent for agent, nodes in d.items() for node in nodes} *)
Definition owner_dict (d : list (agent * list node)) : list (node * agent) :=
  fold_left (fun acc al => fold_left (fun acc' n => dset n (fst al) acc') (snd al) acc) d [].

(* macid_base.py 68-93: MACIDBase.__init__ (dict(mapping) keeps keys and values) *)
Definition macid_init (es : list (node * node)) (ad au : list (agent * list node)) : result macid :=
  g <- new_graph es ;;
  Ok (mkM g ad au (owner_dict ad) (owner_dict au)).

(* cid.py 13-36: CID.__init__ : one agent labelled 0, present in both dictionaries *)
Definition zero : agent := "0".
Definition cid_init (es : list (node * node)) (ds us : list node) : result macid :=
  macid_init es [(zero, ds)] [(zero, us)].

(* macid_base.py 95-108 *)
Definition decisions (m : macid) : list node := keys (decision_agent m).
Definition utilities (m : macid) : list node := keys (utility_agent m).
Definition agents (m : macid) : list agent := keys (agent_utilities m).

Definition with_graph (m : macid) (g : graph) : macid :=
  mkM g (agent_decisions m) (agent_utilities m) (decision_agent m) (utility_agent m).

(* A method that mutates the object and may raise on the way: the object as it is left and
   the exception, if any. *)
Definition step_result := (macid * option error)%type.

(* d[a].remove(x) : KeyError if a is not a key, ValueError if x is not in the list *)
Definition dict_list_remove (a : agent) (x : node) (d : list (agent * list node))
  : result (list (agent * list node)) :=
  match lookup a d with
  | None => Err KeyError
  | Some l => if mem x l then Ok (dset a (remove_first x l) d) else Err ValueError
  end.
(* macid_base.py 115-118 / 124-127: start a list for a new agent, or append to the old one *)
Definition dict_list_append (a : agent) (x : node) (d : list (agent * list node))
  : list (agent * list node) :=
  match lookup a d with
  | None => dset a [x] d
  | Some l => dset a (l ++ [x]) d
  end.

(* macid_base.py 130-139 *)
Definition make_chance (m : macid) (n : node) : step_result :=
  if negb (mem n (nodes (mgraph m))) then (m, Some KeyError)
  else if mem n (decisions m) then
    match lookup n (decision_agent m) with
    | None => (m, Some KeyError)
    | Some a =>
        let m1 := mkM (mgraph m) (agent_decisions m) (agent_utilities m)
                      (ddel n (decision_agent m)) (utility_agent m) in
        match dict_list_remove a n (agent_decisions m1) with
        | Err e => (m1, Some e)
        | Ok ad => (mkM (mgraph m1) ad (agent_utilities m1) (decision_agent m1) (utility_agent m1), None)
        end
    end
  else if mem n (utilities m) then
    match lookup n (utility_agent m) with
    | None => (m, Some KeyError)
    | Some a =>
        let m1 := mkM (mgraph m) (agent_decisions m) (agent_utilities m)
                      (decision_agent m) (ddel n (utility_agent m)) in
        match dict_list_remove a n (agent_utilities m1) with
        | Err e => (m1, Some e)
        | Ok au => (mkM (mgraph m1) (agent_decisions m1) au (decision_agent m1) (utility_agent m1), None)
        end
    end
  else (m, None).

(* macid_base.py 110-119 *)
Definition make_decision (m : macid) (n : node) (a : agent) : step_result :=
  match make_chance m n with
  | (m1, Some e) => (m1, Some e)
  | (m1, None) =>
      (mkM (mgraph m1) (dict_list_append a n (agent_decisions m1)) (agent_utilities m1)
           (dset n a (decision_agent m1)) (utility_agent m1), None)
  end.
(* macid_base.py 121-128 *)
Definition make_utility (m : macid) (n : node) (a : agent) : step_result :=
  match make_chance m n with
  | (m1, Some e) => (m1, Some e)
  | (m1, None) =>
      (mkM (mgraph m1) (agent_decisions m1) (dict_list_append a n (agent_utilities m1))
           (decision_agent m1) (dset n a (utility_agent m1)), None)
  end.

Inductive role_call : Type :=
| MakeDecision (n : node) (a : agent)
| MakeUtility (n : node) (a : agent)
| MakeChance (n : node).
Definition apply_call (m : macid) (c : role_call) : step_result :=
  match c with
  | MakeDecision n a => make_decision m n a
  | MakeUtility n a => make_utility m n a
  | MakeChance n => make_chance m n
  end.
(* the caller catches exceptions and goes on with the object as it was left *)
Definition run_calls (m : macid) (cs : list role_call) : macid :=
  fold_left (fun m c => fst (apply_call m c)) cs m.

(* ------------------------------------------------------------------------------------ *)
(* The same operations with the role lists as shared mutable objects.  A list object is an
   address in a heap; macid_base.py 89-90 copies the dictionaries but not the lists in them. *)
Definition loc := nat.
Definition heap := list (list node).
Definition hget (h : heap) (p : loc) : list node := nth p h [].
Fixpoint hset (h : heap) (p : loc) (l : list node) : heap :=
  match h, p with
  | [], _ => []
  | _ :: h', O => l :: h'
  | x :: h', S p' => x :: hset h' p' l
  end.
Record diagram : Type := mkD {
  dg : graph;
  d_ad : list (agent * loc);
  d_au : list (agent * loc);
  d_da : list (node * agent);
  d_ua : list (node * agent) }.
Definition view_lists (h : heap) (d : list (agent * loc)) : list (agent * list node) :=
  map (fun al => (fst al, hget h (snd al))) d.
(* what the diagram looks like to its user *)
Definition view (h : heap) (d : diagram) : macid :=
  mkM (dg d) (view_lists h (d_ad d)) (view_lists h (d_au d)) (d_da d) (d_ua d).
(* macid_base.py 87-93 with lists passed by reference *)
Definition diagram_init (h : heap) (g : graph) (ad au : list (agent * loc)) : diagram :=
  mkD g ad au (owner_dict (view_lists h ad)) (owner_dict (view_lists h au)).
(* macid_base.py 115-118: a fresh list for a new agent, else append in place *)
Definition h_append (h : heap) (d : list (agent * loc)) (a : agent) (n : node)
  : heap * list (agent * loc) :=
  match lookup a d with
  | None => (h ++ [[n]], dset a (length h) d)
  | Some p => (hset h p (hget h p ++ [n]), d)
  end.
(* macid_base.py 135-139 *)
Definition h_remove (h : heap) (d : list (agent * loc)) (a : agent) (n : node) : result heap :=
  match lookup a d with
  | None => Err KeyError
  | Some p => if mem n (hget h p) then Ok (hset h p (remove_first n (hget h p))) else Err ValueError
  end.
Definition h_make_chance (h : heap) (d : diagram) (n : node) : heap * diagram * option error :=
  if negb (mem n (nodes (dg d))) then (h, d, Some KeyError)
  else if mem n (keys (d_da d)) then
    match lookup n (d_da d) with
    | None => (h, d, Some KeyError)
    | Some a =>
        let d1 := mkD (dg d) (d_ad d) (d_au d) (ddel n (d_da d)) (d_ua d) in
        match h_remove h (d_ad d) a n with
        | Err e => (h, d1, Some e)
        | Ok h' => (h', d1, None)
        end
    end
  else if mem n (keys (d_ua d)) then
    match lookup n (d_ua d) with
    | None => (h, d, Some KeyError)
    | Some a =>
        let d1 := mkD (dg d) (d_ad d) (d_au d) (d_da d) (ddel n (d_ua d)) in
        match h_remove h (d_au d) a n with
        | Err e => (h, d1, Some e)
        | Ok h' => (h', d1, None)
        end
    end
  else (h, d, None).
Definition h_apply_call (h : heap) (d : diagram) (c : role_call) : heap * diagram * option error :=
  match c with
  | MakeChance n => h_make_chance h d n
  | MakeDecision n a =>
      match h_make_chance h d n with
      | (h1, d1, Some e) => (h1, d1, Some e)
      | (h1, d1, None) =>
          let '(h2, ad) := h_append h1 (d_ad d1) a n in
          (h2, mkD (dg d1) ad (d_au d1) (dset n a (d_da d1)) (d_ua d1), None)
      end
  | MakeUtility n a =>
      match h_make_chance h d n with
      | (h1, d1, Some e) => (h1, d1, Some e)
      | (h1, d1, None) =>
          let '(h2, au) := h_append h1 (d_au d1) a n in
          (h2, mkD (dg d1) (d_ad d1) au (d_da d1) (dset n a (d_ua d1)), None)
      end
  end.

(* ------------------------------------------------------------------------------------ *)
(* [external] pgmpy DAG.add_nodes_from / add_edges_from: one add_node / add_edge per item;
   add_edge is CausalBayesianNetwork.add_edge, on an object without CPDs *)
Definition add_nodes_from (g : graph) (ns : list node) : graph := fold_left add_node ns g.
Fixpoint add_edges_from (g : graph) (es : list (node * node)) : result graph :=
  match es with
  | [] => Ok g
  | (u, v) :: es' => g' <- bn_add_edge g u v ;; add_edges_from g' es'
  end.

Fixpoint calls_or_fail (m : macid) (cs : list role_call) : result macid :=
  match cs with
  | [] => Ok m
  | c :: cs' =>
      match apply_call m c with
      | (m', None) => calls_or_fail m' cs'
      | (_, Some e) => Err e
      end
  end.
(* macid_base.py 429-433, cid.py 77-81, macid.py 217-221: the role loop of copy_without_cpds *)
Fixpoint copy_roles (src new : macid) (ags : list agent) : result macid :=
  match ags with
  | [] => Ok new
  | a :: ags' =>
      ds <- match lookup a (agent_decisions src) with None => Err KeyError | Some l => Ok l end ;;
      new1 <- calls_or_fail new (map (fun d => MakeDecision d a) ds) ;;
      us <- match lookup a (agent_utilities src) with None => Err KeyError | Some l => Ok l end ;;
      new2 <- calls_or_fail new1 (map (fun u => MakeUtility u a) us) ;;
      copy_roles src new2 ags'
  end.
Definition copy_onto (new src : macid) : result macid :=
  g <- add_edges_from (add_nodes_from (mgraph new) (nodes (mgraph src))) (edges_view (mgraph src)) ;;
  copy_roles src (with_graph new g) (agents src).
Definition empty_macid : macid := mkM empty_graph [] [] [] [].
Definition empty_cid : macid := mkM empty_graph [(zero, [])] [(zero, [])] [] [].
(* macid_base.py 424-434 and macid.py 212-222 *)
Definition copy_without_cpds (m : macid) : result macid := copy_onto empty_macid m.
(* cid.py 70-82: the new object is CID(), whose dictionaries already have the key 0 *)
Definition cid_copy_without_cpds (m : macid) : result macid := copy_onto empty_cid m.

(* ------------------------------------------------------------------------------------ *)
(* macid_base.py 205-221.  [o] is the order networkx breaks ties in.  Simplification: the
   set() of line 215 is only tested for membership.  Which absent node the KeyError is about
   is not modelled. *)
Definition get_valid_order (o : order) (m : macid) (ns : option (list node)) : result (list node) :=
  if negb (is_dag (mgraph m)) then Err ValueError
  else
    wanted <- match ns with
              | None => Ok (decisions m)
              | Some l => if forallb (fun n => mem n (nodes (mgraph m))) l then Ok l else Err KeyError
              end ;;
    match toposort o (mgraph m) with
    | None => Err NetworkXError
    | Some l => Ok (filter (fun n => mem n wanted) l)
    end.

(* s[:-3] *)
Definition drop_last3 (s : string) : string := substring 0 (String.length s - 3) s.
Definition mec (n : node) : node := (n ++ "mec")%string.

(* macid_base.py 467-478: MechanismGraph.__init__ *)
Fixpoint add_mechanisms (g : graph) (ns : list node) : result graph :=
  match ns with
  | [] => Ok g
  | n :: ns' =>
      if String.eqb (drop_last3 n) "mec" then Err ValueError
      else g' <- bn_add_edge (add_node g (mec n)) (mec n) n ;; add_mechanisms g' ns'
  end.
Definition mechanism_graph (m : macid) : result macid :=
  g0 <- new_graph (edges_view (mgraph m)) ;;
  g <- add_mechanisms g0 (nodes (mgraph m)) ;;
  Ok (mkM g (agent_decisions m) (agent_utilities m)
          (owner_dict (agent_decisions m)) (owner_dict (agent_utilities m))).

(* [external] pgmpy get_parents = list(DiGraph.predecessors): NetworkXError when absent *)
Definition get_parents (g : graph) (n : node) : result (list node) :=
  if mem n (nodes g) then Ok (parents g n) else Err NetworkXError.
Definition nx_descendants (g : graph) (n : node) : result (list node) :=
  if mem n (nodes g) then Ok (descendants g n) else Err NetworkXError.
Definition dict_get {A} (k : string) (d : list (string * A)) : result A :=
  match lookup k d with None => Err KeyError | Some v => Ok v end.

(* Python's any(...) / "for ... if test: return True": left to right, stopping at the first
   True or at the first exception *)
Fixpoint any_r {A} (f : A -> result bool) (l : list A) : result bool :=
  match l with
  | [] => Ok false
  | x :: l' => b <- f x ;; if b then Ok true else any_r f l'
  end.

(* macid_base.py 250-254 for one decision and one node.  The iteration order over the set of
   line 252 does not matter: is_dconnected raises for all members or for none. *)
Definition r_reachable1 (m : macid) (mg : graph) (d v : node) : result bool :=
  ps <- get_parents (mgraph m) d ;;
  a <- dict_get d (decision_agent m) ;;
  us <- dict_get a (agent_utilities m) ;;
  ds <- nx_descendants (mgraph m) d ;;
  any_r (fun u => is_dconnected mg (mec v) u (d :: ps)) (set_inter us ds).
(* macid_base.py 235-255 (str arguments are one-element lists) *)
Definition is_r_reachable (m : macid) (ds vs : list node) : result bool :=
  mgm <- mechanism_graph m ;;
  any_r (fun d => any_r (fun v => r_reachable1 m (mgraph mgm) d v) vs) ds.
(* macid_base.py 223-233 *)
Definition is_s_reachable (m : macid) (d1s : list node) (d2 : node) : result bool :=
  if mem d2 (decisions m) then is_r_reachable m d1s [d2] else Err AssertionError.

(* relevance_graph.py 24-32.  itertools.permutations(decisions, 2): ordered pairs of
   different positions. *)
Fixpoint permutations2_aux (before l : list node) : list (node * node) :=
  match l with
  | [] => []
  | x :: l' => map (fun y => (x, y)) (before ++ l') ++ permutations2_aux (before ++ [x]) l'
  end.
Definition permutations2 (l : list node) : list (node * node) := permutations2_aux [] l.
Fixpoint relevance_edges (m : macid) (g : graph) (ps : list (node * node)) : result graph :=
  match ps with
  | [] => Ok g
  | (d1, d2) :: ps' =>
      b <- is_s_reachable m [d1] d2 ;;
      relevance_edges m (if b then nx_add_edge g d1 d2 else g) ps'
  end.
Definition relevance_graph (m : macid) (ds : list node) : result graph :=
  relevance_edges m (add_nodes_from empty_graph ds) (permutations2 ds).

(* macid_base.py 257-280 *)
Fixpoint all_recall (m : macid) (ags : list agent) : result bool :=
  match ags with
  | [] => Ok true
  | a :: ags' =>
      ds <- dict_get a (agent_decisions m) ;;
      rg <- relevance_graph m ds ;;
      if is_dag rg then all_recall m ags' else Ok false
  end.
Definition sufficient_recall (m : macid) (a : option agent) : result bool :=
  match a with
  | None => all_recall m (agents m)
  | Some a => if mem a (agents m) then all_recall m [a] else Err ValueError
  end.
