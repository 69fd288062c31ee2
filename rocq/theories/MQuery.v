(* Model of the queries: CausalBayesianNetwork.remove_edge, add_edge, copy, intervene, query, expected_value
   (causal_bayesian_network.py 97-107, 135-231, 240-252) and MACIDBase.query, expected_utility (macid_base.py 144-203).
   Methods that change the object return the object as they leave it.
   Simplifications: a copy of a ready-made table (cpd.py 187-194, 252-253) is the table itself, which it is as long as
   the parents' domains are those the table was made for; in remove_node the tables of the children of the removed node
   are not changed, since query removes these children as well.
   No proofs in this file. *)
From Coq Require Import String List Bool Arith QArith Qcanon.
Import ListNotations.
From Verif Require Import MBase MGraph MMacid MCpd MNet MProb.
Local Open Scope Qc_scope.

Definition on_graph (n : net) (g : graph) : net := mkNet g (rels n) (cpds n) (doms n).
(* isinstance(cpd, ConstantCPD): DecisionDomain is a subclass (cpd.py 221, 233) *)
Definition is_constant (c : option tab) : bool :=
  match c with Some t => match tkind t with KConst | KDec => true | _ => false end | None => false end.
(* 100-101, 106-107: if v in self.model and isinstance(self.get_cpds(v), ConstantCPD): self.model[v] = self.model[v] *)
Definition renew (n : net) (v : node) : outcome_of :=
  match lookup v (rels n) with
  | None => (n, None)
  | Some r => if mem v (nodes (ngraph n))
              then if is_constant (cpd_of n v) then set_rel n v r else (n, None)
              else (n, Some ValueError)
  end.
(* 97-101 *)
Definition remove_edge (n : net) (u v : node) : outcome_of :=
  match nx_remove_edge (ngraph n) u v with
  | Err e => (n, Some e)
  | Ok g => renew (on_graph n g) v
  end.
(* 103-107 *)
Definition add_edge (n : net) (u v : node) : outcome_of :=
  match bn_add_edge (ngraph n) u v with
  | Err e => (n, Some e)
  | Ok g => renew (on_graph n g) v
  end.
(* a loop of statements that stops at the first exception *)
Fixpoint loop_net {A} (f : net -> A -> outcome_of) (n : net) (l : list A) : outcome_of :=
  match l with
  | [] => (n, None)
  | x :: l' => match f n x with (n', None) => loop_net f n' l' | (n', Some e) => (n', Some e) end
  end.

(* 240-252: copy_without_cpds, then the relationships in the order of the dictionary *)
Definition copy_net (n : net) : result net :=
  g <- add_edges_from (add_nodes_from empty_graph (nodes (ngraph n))) (edges_view (ngraph n)) ;;
  match add_cpds (bare g) (rels n) with (n', None) => Ok n' | (_, Some e) => Err e end.

(* 189-195: the body of the loop of intervene *)
Definition intervene_one (n : net) (vx : node * outcome) : outcome_of :=
  let '(v, x) := vx in
  match del_item n v with
  | (n0, Some e) => (n0, Some e)
  | (n0, None) =>
    match get_parents (ngraph n0) v with
    | Err e => (n0, Some e)
    | Ok ps =>
      match loop_net (fun m p => remove_edge m p v) n0 ps with
      | (n1, Some e) => (n1, Some e)
      | (n1, None) =>
        match lookup v (doms n1) with
        | None => (n1, Some KeyError)
        | Some d => set_rel n1 v (RDist (odset x (Some 1) (fold_left (fun l y => odset y (Some 0) l) d [])))
        end
      end
    end
  end.
(* 180-195; the intervention is a dictionary *)
Definition intervene (n : net) (iv : list (node * outcome)) : outcome_of := loop_net intervene_one n iv.

(* [external] Graph.to_undirected, nx.node_connected_component: KeyError for an absent node *)
Definition undirected (g : graph) : graph := mkG (nodes g) (edges g ++ map (fun e => (snd e, fst e)) (edges g)).
Definition component (g : graph) (v : node) : result (list node) :=
  if mem v (nodes g) then Ok (filter (has_path (undirected g) v) (nodes g)) else Err KeyError.
(* [external] nx.is_connected: NetworkXPointlessConcept for the empty graph *)
Definition is_connected (g : graph) : result bool :=
  match nodes g with
  | [] => Err NetworkXPointlessConcept
  | v :: _ => Ok (forallb (has_path (undirected g) v) (nodes g))
  end.
(* [external] BayesianNetwork.remove_node: deletes the table, through the overridden remove_cpds (117-119) *)
Definition remove_node (n : net) (v : node) : outcome_of :=
  let r := if match cpd_of n v with Some _ => true | None => false end then del_item n v else (n, None) in
  match r with
  | (n', Some e) => (n', Some e)
  | (n', None) => match nx_remove_node (ngraph n') v with
                  | Err e => (n', Some e)
                  | Ok g => (on_graph n' g, None)
                  end
  end.
(* 151-153 *)
Fixpoint check_context (ds : domains) (c : list (node * outcome)) : result unit :=
  match c with
  | [] => Ok tt
  | (v, x) :: c' => match lookup v ds with
                    | None => Err KeyError
                    | Some d => if omem x d then check_context ds c' else Err ValueError
                    end
  end.
(* 162-178 on the network cbn: the nodes outside the components of the query are removed from it *)
Definition query_connected (o : order) (n : net) (qs : list node) (c : list (node * outcome)) : net * result factor :=
  match map_r (component (ngraph n)) qs with
  | Err e => (n, Err e)
  | Ok cs =>
    let connected := concat cs in
    let c' := filter (fun vx => mem (fst vx) connected) c in
    match loop_net remove_node n (filter (fun v => negb (mem v connected)) (nodes (ngraph n))) with
    | (n', Some e) => (n', Err e)
    | (n', None) =>
      match is_connected (ngraph n') with
      | Err e => (n', Err e)
      | Ok false => (n', Err ValueError)
      | Ok true => (n', bp_query o n' qs c')
      end
    end
  end.
(* 135-178.  [roles] is the part of copy() that copies agents (see MMacid), Ok for a plain network.
   Without an intervention the network itself is worked on. *)
Definition query (o : order) (roles : result unit) (n : net) (qs : list node) (c iv : list (node * outcome)) : net * result factor :=
  match check_context (doms n) c with
  | Err e => (n, Err e)
  | Ok _ =>
    match iv with
    | [] => query_connected o n qs c
    | _ => (n, _ <- roles ;; n1 <- copy_net n ;;
               match intervene n1 iv with
               | (_, Some e) => Err e
               | (n2, None) => snd (query_connected o n2 qs c)
               end)
    end
  end.

(* 215-231: normalise and average; 0/0 gives nan, which is a RuntimeError *)
Definition expectations (f : factor) : result (list Qc) :=
  let s := qsum (map snd (fentries f)) in
  if oeqb s 0 then Err RuntimeError
  else Ok (map (fun i => qsum (map (fun e => snd e / s * nth i (fst e) 0) (fentries f))) (seq 0 (length (fvars f)))).
Definition expected_value (o : order) (roles : result unit) (n : net) (qs : list node) (c iv : list (node * outcome)) : net * result (list Qc) :=
  let '(n', r) := query o roles n qs c iv in (n', f <- r ;; expectations f).

(* ---- MACIDBase; m holds the roles, n the graph and the tables ---- *)
Definition copy_roles_only (m : macid) (n : net) : result unit := _ <- copy_without_cpds (with_graph m (ngraph n)) ;; Ok tt.
(* macid_base.py 160-162: get_cpds(variable).domain *)
Fixpoint check_domains (n : net) (c : list (node * outcome)) : result unit :=
  match c with
  | [] => Ok tt
  | (v, x) :: c' =>
    t <- get_cpds n v ;;
    match t with
    | None => Err AttributeError
    | Some t => match tkind t with
                | KTab => Err AttributeError
                | _ => if omem x (tdom t) then check_domains n c' else Err ValueError
                end
    end
  end.
(* 168-170: remove the edges into the intervened variables from the mechanism graph *)
Fixpoint cut_edges (h : graph) (es : list (node * node)) : result graph :=
  match es with
  | [] => Ok h
  | (u, v) :: es' => h' <- nx_remove_edge h u v ;; cut_edges h' es'
  end.
Definition edges_into (g : graph) (iv : list (node * outcome)) : result (list (node * node)) :=
  ess <- map_r (fun vx => ps <- get_parents g (fst vx) ;; Ok (map (fun p => (p, fst vx)) ps)) iv ;; Ok (concat ess).
(* 171-182 *)
Definition has_policy (n : net) (d : node) : bool :=
  match cpd_of n d with Some t => match tkind t with KDec => false | _ => true end | None => false end.
Definition check_decision (h : graph) (n : net) (observed : list node) (dq : node * node) : result unit :=
  b <- is_dconnected h (mec (fst dq)) (snd dq) observed ;;
  if b && negb (mem (fst dq) (nodes (ngraph n)) && has_policy n (fst dq)) then Err ValueError else Ok tt.
Definition check_policies (m : macid) (n : net) (qs : list node) (c iv : list (node * outcome)) : result unit :=
  mg <- mechanism_graph (with_graph m (ngraph n)) ;;
  es <- edges_into (ngraph n) iv ;;
  h <- cut_edges (mgraph mg) es ;;
  _ <- map_r (check_decision h n (keys c ++ keys iv)) (list_prod (decisions m) qs) ;; Ok tt.
(* 144-184 *)
Definition macid_query (o : order) (m : macid) (n : net) (qs : list node) (c iv : list (node * outcome)) : net * result factor :=
  match (_ <- check_domains n c ;; check_policies m n qs c iv) with
  | Err e => (n, Err e)
  | Ok _ => query o (copy_roles_only m n) n qs c iv
  end.
Definition macid_expected_value (o : order) (m : macid) (n : net) (qs : list node) (c iv : list (node * outcome)) : net * result (list Qc) :=
  let '(n', r) := macid_query o m n qs c iv in (n', f <- r ;; expectations f).
(* 186-203 *)
Definition expected_utility (o : order) (m : macid) (n : net) (c iv : list (node * outcome)) (a : agent) : net * result Qc :=
  match dict_get a (agent_utilities m) with
  | Err e => (n, Err e)
  | Ok us => let '(n', r) := macid_expected_value o m n us c iv in (n', l <- r ;; Ok (qsum l))
  end.
