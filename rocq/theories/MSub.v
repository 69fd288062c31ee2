(* Model of macid.py: create_subgame, get_ne_in_sg, get_ne, get_spe, joint_pure_policies and policy_profile_assignment, and of
   export/gambit.py: pygambit_ne_solver.
   The diagram is m (roles) and n (graph, relationships, tables); m is used with the graph of n.
   [external] The solvers of pygambit are a parameter: nash s g are the behaviours that the solver called s finds in the game g.
   Simplifications: get_cpds(v) is None when v has no table; the relationship None raises ValueError in add_cpds.  The dictionary made of a
   marginalised table has one entry per outcome (domains have no repetitions).
   No proofs in this file. *)
From Coq Require Import String List Bool Arith QArith Qcanon.
Import ListNotations.
From Verif Require Import MBase MGraph MMacid MRel MIncent MCpd MNet MProb MQuery MPolicy MGame.
Local Open Scope nat_scope.

(* macid.py 74-89: a dictionary of lists, one for every agent that owns one of the nodes *)
Fixpoint group (owner : list (node * agent)) (acc : list (agent * list node)) (vs : list node) : result (list (agent * list node)) :=
  match vs with
  | [] => Ok acc
  | v :: vs' => a <- dict_get v owner ;; group owner (dset a (match lookup a acc with Some l => l | None => [] end ++ [v]) acc) vs'
  end.
(* 97-101 *)
Definition impute_missing (m : macid) (ds : list node) (n : net) (d : node) : outcome_of :=
  match is_s_reachable (with_graph m (ngraph n)) ds d with
  | Err e => (n, Some e)
  | Ok true => (n, None)
  | Ok false =>
    match get_cpds n d with
    | Err e => (n, Some e)
    | Ok (Some t) => match tkind t with KDec => impute_random_decision n d | _ => (n, None) end
    | Ok None => (n, None)
    end
  end.
(* [external] TabularCPD.marginalize over all the parents, followed by normalize; get_values, unpacked *)
Definition marginal (t : tab) : list Qc :=
  let sums := map (fun i => qsum (map (fun col => nth i col 0%Qc) (tcols t))) (seq 0 (length (tdom t))) in
  map (fun p => (p / qsum sums)%Qc) sums.
(* 107-111; a TabularCPD has no attribute domain *)
Definition marginalised (nc n : net) (v : node) : outcome_of :=
  match get_cpds nc v with
  | Err e => (n, Some e)
  | Ok None => (n, Some AttributeError)
  | Ok (Some t) => match tkind t with KTab => (n, Some AttributeError) | _ => set_rel n v (RDist (map (fun xp => (fst xp, Some (snd xp))) (combine (tdom t) (marginal t)))) end
  end.
(* 115 *)
Definition copied (nc n : net) (v : node) : outcome_of :=
  match get_cpds nc v with
  | Err e => (n, Some e)
  | Ok None => (n, Some ValueError)
  | Ok (Some t) => set_rel n v (RTab t)
  end.
Definition ok_net (r : outcome_of) : result net := match r with (n, None) => Ok n | (_, Some e) => Err e end.
(* 48-117 *)
Definition create_subgame (o : order) (m0 : macid) (n : net) (ds : list node) : result (macid * net) :=
  let m := with_graph m0 (ngraph n) in
  r_nodes <- filter_r (fun v => is_r_reachable m ds [v]) (nodes (ngraph n)) ;;                       (* 67 *)
  let keep := set_union r_nodes ds in                                                                (* 69 *)
  let es := filter (fun e => mem (snd e) keep) (edges_view (ngraph n)) in                            (* 72 *)
  ad <- group (decision_agent m) [] ds ;;
  au <- group (utility_agent m) [] (o ["utils"%string] (set_inter r_nodes (utilities m))) ;;
  sg <- macid_init es ad au ;;                                                                       (* 91 *)
  mn <- macid_copy m n ;;                                                                            (* 95 *)
  let '(mc, nc0) := mn in
  nc <- ok_net (loop_net (impute_missing mc ds) nc0 (decisions mc)) ;;                               (* 96-101 *)
  let outer := set_diff (nodes (mgraph sg)) keep in                                                  (* 105 *)
  n1 <- ok_net (loop_net (marginalised nc) (bare (mgraph sg)) (o ["outer"%string] outer)) ;;
  n2 <- ok_net (loop_net (copied nc) n1 (o ["inner"%string] (set_diff (nodes (mgraph sg)) outer))) ;;
  Ok (sg, n2).

(* gambit.py 129-173 *)
Definition pygambit_ne_solver (nash : string -> game -> list (nat -> list Qc)) (solver_override : option string) (g : game) : result (list (nat -> list Qc)) :=
  let two_player := length (g_players g) =? 2 in
  let solver := match solver_override with
                | None => if two_player then "enummixed" else "enumpure"
                | Some s => if mem s ["enummixed"; "lcp"; "lp"] && negb two_player then "enumpure" else s
                end%string in
  if String.eqb solver "enumpure" then
    let found := nash "enumpure"%string g in
    Ok (match found, solver_override with [], None => nash "simpdiv"%string g | _, _ => found end)
  else if mem solver ["enummixed"; "lcp"; "lp"; "simpdiv"; "ipa"; "gnm"]%string then Ok (nash solver g)
  else Err ValueError.

(* 119-155 *)
Definition get_ne_in_sg (o : order) (nash : string -> game -> list (nat -> list Qc)) (solver : option string) (m : macid) (n : net) (ds : option (list node)) :
  result (list (list tab)) :=
  let dsg := match ds with None => decisions m | Some l => o ["decisions"%string] (to_set l) end in
  ags <- map_r (fun d => dict_get d (decision_agent m)) dsg ;;
  let agents_in_sg := o ["agents"%string] (to_set ags) in
  sn <- create_subgame o m n dsg ;;
  let '(sm, sn) := sn in
  let '(sn', r) := macid_to_efg o sm sn (Some dsg) (Some agents_in_sg) in
  gk <- r ;;
  let '(g, ks) := gk in
  found <- pygambit_ne_solver nash solver g ;;
  map_r (fun b => behavior_to_cpd sm sn' ks b (Some dsg)) found.
(* 19-46 *)
Definition get_ne (o : order) (nash : string -> game -> list (nat -> list Qc)) (solver : option string) (m : macid) (n : net) : result (list (list tab)) :=
  get_ne_in_sg o nash solver m n None.

(* 171-176: the equilibria of one component for every profile of the components before it *)
Fixpoint extend_spes (o : order) (nash : string -> game -> list (nat -> list Qc)) (solver : option string) (m : macid) (scc : list node) (n : net) (spes : list (list tab)) :
  result (net * list (list tab)) :=
  match spes with
  | [] => Ok (n, [])
  | p :: spes' =>
    n1 <- ok_net (add_policy n p) ;;
    nes <- get_ne_in_sg o nash solver m n1 (Some scc) ;;
    r <- extend_spes o nash solver m scc n1 spes' ;;
    Ok (fst r, map (app p) nes ++ snd r)
  end.
Fixpoint spe_loop (o : order) (nash : string -> game -> list (nat -> list Qc)) (solver : option string) (m : macid) (n : net) (spes : list (list tab)) (sccs : list (list node)) :
  result (list (list tab)) :=
  match sccs with
  | [] => Ok spes
  | scc :: sccs' => r <- extend_spes o nash solver m scc n spes ;; spe_loop o nash solver m (fst r) (snd r) sccs'
  end.
(* 157-178 *)
Definition get_spe (so : component_order) (o : order) (nash : string -> game -> list (nat -> list Qc)) (solver : option string) (m : macid) (n : net) : result (list (list tab)) :=
  mn <- macid_copy m n ;;
  let '(mc, nc) := mn in
  c <- condensed_relevance_graph so (with_graph mc (ngraph nc)) ;;
  sccs <- get_scc_topological_ordering o c ;;
  spe_loop o nash solver mc nc [[]] (rev sccs).

(* 204-208 *)
Definition joint_pure_policies (n : net) (ds : list node) : result (list (list tab)) := pure_policies n ds.
(* 210-215 *)
Definition policy_profile_assignment (m : macid) (p : list tab) : list (node * option tab) :=
  fold_left (fun pp t => dset (tvar t) (Some t) pp) p (map (fun d => (d, None)) (decisions m)).
