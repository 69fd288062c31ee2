(* Specification vocabulary for influence diagrams: roles, fresh parents, strategic relevance. *)
From Coq Require Import String List Permutation.
Import ListNotations.
From Verif Require Import MBase MGraph MMacid Spec.

Inductive role : Type := RChance | RDecision (a : agent) | RUtility (a : agent).

(* the role of n read off the agent -> nodes dictionaries *)
Definition listed (d : list (agent * list node)) (a : agent) (n : node) : Prop :=
  exists l, In (a, l) d /\ In n l.
Definition has_role (m : macid) (n : node) (r : role) : Prop :=
  match r with
  | RChance => (forall a, ~ listed (agent_decisions m) a n) /\ (forall a, ~ listed (agent_utilities m) a n)
  | RDecision a => listed (agent_decisions m) a n
  | RUtility a => listed (agent_utilities m) a n
  end.
(* the role of n read off the node -> agent dictionaries *)
Definition has_label (m : macid) (n : node) (r : role) : Prop :=
  match r with
  | RChance => (forall a, ~ In (n, a) (decision_agent m)) /\ (forall a, ~ In (n, a) (utility_agent m))
  | RDecision a => In (n, a) (decision_agent m)
  | RUtility a => In (n, a) (utility_agent m)
  end.

(* constructor arguments: dictionaries (distinct keys) naming no node twice *)
Definition clean_lists (ad au : list (agent * list node)) : Prop :=
  NoDup (keys ad) /\ NoDup (keys au) /\ NoDup (concat (map snd ad) ++ concat (map snd au)).

(* every node has exactly one role, the same in both views *)
Definition one_role_each (m : macid) : Prop :=
  forall n, exists r, (forall r', has_role m n r' <-> r' = r) /\ (forall r', has_label m n r' <-> r' = r).

(* the role a call asks for, and for which node *)
Definition call_node (c : role_call) : node :=
  match c with MakeDecision n _ | MakeUtility n _ | MakeChance n => n end.
Definition call_role (c : role_call) : role :=
  match c with MakeDecision _ a => RDecision a | MakeUtility _ a => RUtility a | MakeChance _ => RChance end.

(* g with a new node w whose only edge is w -> v *)
Definition extend (g : graph) (w v : node) : graph := mkG (w :: nodes g) ((w, v) :: edges g).

(* Koller and Milch / Hammond et al.: a new parent of v is d-connected to a utility of the
   owner of d that descends from d, given d and its parents *)
Definition r_relevant (m : macid) (d v : node) : Prop :=
  exists a u w, listed (agent_decisions m) a d /\ listed (agent_utilities m) a u /\
    descends (mgraph m) u d /\ ~ In w (nodes (mgraph m)) /\
    exists Z, (forall x, In x Z <-> x = d \/ edge (mgraph m) x d) /\ dconn (extend (mgraph m) w v) Z w u.

(* every role node is in the graph *)
Definition role_nodes_present (m : macid) : Prop :=
  forall a n, listed (agent_decisions m) a n \/ listed (agent_utilities m) a n -> In n (nodes (mgraph m)).
(* bookkeeping invariant established by the constructor and kept by role changes (C12) *)
Definition consistent (m : macid) : Prop :=
  NoDup (keys (agent_decisions m)) /\ NoDup (keys (agent_utilities m)) /\
  NoDup (keys (decision_agent m)) /\ NoDup (keys (utility_agent m)) /\
  (forall a l, In (a, l) (agent_decisions m) \/ In (a, l) (agent_utilities m) -> NoDup l) /\
  one_role_each m.
Definition valid (m : macid) : Prop := wf_dag (mgraph m) /\ consistent m /\ role_nodes_present m.
(* every agent with a decision has an entry in the utility dictionary *)
Definition utilities_complete (m : macid) : Prop :=
  forall a d, listed (agent_decisions m) a d -> In a (keys (agent_utilities m)).
(* every agent with an entry in the utility dictionary has one in the decision dictionary *)
Definition decisions_complete (m : macid) : Prop :=
  forall a, In a (keys (agent_utilities m)) -> In a (keys (agent_decisions m)).

(* no node is called like the mechanism of a node, and none has the shape mec??? that the
   guard of MechanismGraph rejects *)
Definition no_clash (g : graph) : Prop :=
  forall n, In n (nodes g) -> ~ In (n ++ "mec")%string (nodes g) /\
    ~ exists s, String.length s = 3 /\ n = ("mec" ++ s)%string.

(* a directed cycle of different decisions in ds, each relying on the next *)
Definition recall_cycle (m : macid) (ds : list node) : Prop :=
  exists d p, chain (fun x y => x <> y /\ In x ds /\ In y ds /\ r_relevant m x y) (d :: p ++ [d]).

(* d is a decision of some agent *)
Definition is_decision (m : macid) (d : node) : Prop := exists a, has_role m d (RDecision a).
(* y is reachable from x in the relevance graph *)
Inductive relies_on (m : macid) : node -> node -> Prop :=
| relies_refl : forall d, relies_on m d d
| relies_step : forall x y z, is_decision m x -> is_decision m y -> r_relevant m x y ->
    relies_on m y z -> relies_on m x z.
(* a set of decisions closed under strategic relevance *)
Definition subgame_set (m : macid) (s : list node) : Prop :=
  s <> [] /\ (forall d, In d s -> is_decision m d) /\
  forall d d', In d s -> relies_on m d d' -> In d' s.
Definition same_members (a b : list node) : Prop := forall x, In x a <-> In x b.
