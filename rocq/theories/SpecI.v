(* Specification vocabulary for requisite observations, the minimal reduction and incentives. *)
From Coq Require Import String List Bool.
Import ListNotations.
From Verif Require Import MBase MGraph MPaths MMacid MIncent Spec SpecM.

(* Fagiuoli and Zaffalon: x is d-connected to a utility of the owner of d that descends from d,
   given d and the other parents of d; the roles come from m, the edges from g *)
Definition requisite_in (m : macid) (g : graph) (d x : node) : Prop :=
  exists a u, has_role m d (RDecision a) /\ has_role m u (RUtility a) /\ descends g u d /\
    exists Z, (forall z, In z Z <-> (z = d \/ edge g z d) /\ z <> x) /\ dconn g Z x u.

(* g without the edge x -> d *)
Definition without (g : graph) (x d : node) : graph :=
  mkG (nodes g) (filter (fun e => negb (eqb_edge (x, d) e)) (edges g)).
(* one reduction step: drop one information link that is not requisite *)
Definition drops (m : macid) (g g' : graph) : Prop :=
  exists d x, is_decision m d /\ edge g x d /\ ~ requisite_in m g d x /\ g' = without g x d.
Inductive reduces (m : macid) : graph -> graph -> Prop :=
| reduces_none : forall g, reduces m g g
| reduces_more : forall g g' h, drops m g g' -> reduces m g' h -> reduces m g h.
(* nothing more can be dropped: every information link is requisite *)
Definition irreducible (m : macid) (g : graph) : Prop :=
  forall d x, is_decision m d -> edge g x d -> requisite_in m g d x.
(* the minimal reduction (Lauritzen and Nilsson): the result of dropping non-requisite links
   until none is left *)
Definition minimal_reduction (m : macid) (g h : graph) : Prop := reduces m g h /\ irreducible m h.
Definition same_edges (g h : graph) : Prop := forall a b, edge g a b <-> edge h a b.
Definition same_roles (m m' : macid) : Prop := forall n r, has_role m n r <-> has_role m' n r.

(* all decisions and utilities belong to one agent *)
Definition single_agent (m : macid) : Prop :=
  exists a, forall n b, has_role m n (RDecision b) \/ has_role m n (RUtility b) -> b = a.

(* every agent has its entries where the functions look for them: a CID has exactly the agent 0;
   in a MACID every agent that owns something owns a decision and a utility *)
Definition proper (k : class_of) (m : macid) : Prop :=
  match k with
  | IsCID => keys (agent_decisions m) = [zero] /\ keys (agent_utilities m) = [zero]
  | IsMACID => (forall a, In a (keys (agent_utilities m)) -> exists d, has_role m d (RDecision a)) /\
               (forall a d, has_role m d (RDecision a) -> exists u, has_role m u (RUtility a))
  end.

(* h is, as a set of nodes and edges, the minimal reduction of the diagram *)
Definition is_reduction (m : macid) (g h : graph) : Prop :=
  nodes h = nodes g /\ exists h', minimal_reduction m g h' /\ same_edges h h'.
(* g' is g plus the edge x -> d (which may be there already) *)
Definition with_link (g : graph) (x d : node) (g' : graph) : Prop :=
  wf_dag g' /\ (forall n, In n (nodes g') <-> In n (nodes g)) /\
  forall a b, edge g' a b <-> edge g a b \/ (a = x /\ b = d).
(* the diagram has sufficient recall: no agent has a cycle of strategic relevance *)
Definition recalls (m : macid) : Prop := forall a ds, In (a, ds) (agent_decisions m) -> ~ recall_cycle m ds.
Definition is_utility (m : macid) (u : node) : Prop := exists a, has_role m u (RUtility a).
(* a diagram the incentive tests are meant for *)
Definition askable (k : class_of) (m : macid) : Prop :=
  valid m /\ proper k m /\ single_agent m /\ no_clash (mgraph m).

(* the incentives of Everitt et al.; h is the minimal reduction *)
Definition has_voc (m : macid) (h : graph) (x : node) : Prop :=
  ~ is_decision m x /\ exists u, is_utility m u /\ reach h x u.
Definition has_dir_voc (m : macid) (h : graph) (x : node) : Prop :=
  exists u p, is_utility m u /\ directed_path h x u p /\ forall n, In n p -> ~ is_decision m n.
Definition has_indir_voc (m : macid) (h : graph) (d x : node) : Prop :=
  ~ is_decision m x /\
  exists u, is_utility m u /\ (exists p, directed_path h x u p /\ In d p) /\
    exists Z q, (forall z, In z Z <-> (z = d \/ edge (mgraph m) z d) /\ z <> x) /\ backdoor_path h Z x u q.
Definition has_ici (m : macid) (d x : node) : Prop :=
  exists u p, is_utility m u /\ directed_path (mgraph m) d u p /\ In x p.
