(* Specification vocabulary for subgames. *)
From Coq Require Import String List Bool Arith QArith Qcanon Permutation.
Import ListNotations.
From Verif Require Import MBase MGraph MMacid MCpd MNet MProb MQuery MGame Spec SpecM SpecC SpecN SpecQ SpecPol SpecGame.
Local Open Scope Qc_scope.

(* the subgame for the decisions ds keeps them and everything that is strategically relevant to one of them *)
Definition kept (m : macid) (ds : list node) (v : node) : Prop := In v ds \/ exists d, In d ds /\ r_relevant m d v.
(* the probability of a(v) when all combinations of values of the parents of v are equally likely *)
Definition averaged (n : net) (v : node) (a : asg) : Qc :=
  total (dom_of (doms n)) (parents (ngraph n) v) (kernel n v) a / Qc_of_nat (contexts_count (doms n) (parents (ngraph n) v)).
(* x has the place in l that y has in l' *)
Definition same_place (l : list outcome) (x : outcome) (l' : list outcome) (y : outcome) : Prop := exists i, nth_error l i = Some x /\ nth_error l' i = Some y.
(* sm, sn: the subgame of the diagram m, n for the decisions ds.  The nodes that are kept have their incoming edges and, column by column, their
   conditional distributions; the other nodes lose their incoming edges and get the average of their conditional distributions, with their domains
   sorted *)
Record subgame (m : macid) (n : net) (ds : list node) (sm : macid) (sn : net) : Prop := {
  sg_graph : mgraph sm = ngraph sn;
  sg_consistent : consistent sm;
  sg_decision : forall d a, has_role sm d (RDecision a) <-> In d ds /\ has_role m d (RDecision a);
  sg_utility : forall u a, has_role sm u (RUtility a) <-> (exists d, In d ds /\ r_relevant m d u) /\ has_role m u (RUtility a);
  sg_edge : forall u v, edge (ngraph sn) u v <-> edge (ngraph n) u v /\ kept m ds v;
  sg_node : forall v, In v (nodes (ngraph sn)) <-> exists u, edge (ngraph sn) u v \/ edge (ngraph sn) v u;
  sg_built : built sn;
  sg_dist : distribution sn;
  sg_dom : forall v, In v (nodes (ngraph sn)) -> kept m ds v -> dom_of (doms sn) v = dom_of (doms n) v;
  sg_outer_dom : forall v, In v (nodes (ngraph sn)) -> ~ kept m ds v -> Permutation (dom_of (doms sn) v) (dom_of (doms n) v) /\ increasing (dom_of (doms sn) v);
  sg_kernel : forall v a b, In v (nodes (ngraph sn)) -> kept m ds v ->
    (forall u, u = v \/ edge (ngraph n) u v -> same_place (dom_of (doms n) u) (a u) (dom_of (doms sn) u) (b u)) -> kernel sn v b = kernel n v a;
  sg_outer : forall v a, In v (nodes (ngraph sn)) -> ~ kept m ds v -> In (a v) (dom_of (doms n) v) -> kernel sn v a = averaged n v a }.

(* ---- what get_spe computes ---- *)
(* ls: the strongly connected components of the relevance graph; no component comes before one that relies on it *)
Definition components (m : macid) (ls : list (list node)) : Prop :=
  NoDup (concat ls) /\ ~ In [] ls /\ (forall d, In d (concat ls) <-> is_decision m d) /\
  (forall x y, is_decision m x -> ((exists l, In l ls /\ In x l /\ In y l) <-> relies_on m x y /\ relies_on m y x)) /\
  (forall pre l post x y, ls = pre ++ l :: post -> In x l -> In y (concat post) -> ~ relies_on m y x).
(* two decisions of ds that one agent makes never have the same parents *)
Definition distinct_observations (m : macid) (ds : list node) : Prop :=
  forall d d' a, In d ds -> In d' ds -> has_role m d (RDecision a) -> has_role m d' (RDecision a) -> (forall u, edge (mgraph m) u d <-> edge (mgraph m) u d') -> d = d'.
(* n' is n with the decision rules p *)
Record ruled (n : net) (p : list tab) (n' : net) : Prop := {
  ru_built : built n';
  ru_dist : distribution n';
  ru_nodes : nodes (ngraph n') = nodes (ngraph n);
  ru_edges : forall u v, edge (ngraph n') u v <-> edge (ngraph n) u v;
  ru_dom : forall v, In v (nodes (ngraph n)) -> dom_of (doms n') v = dom_of (doms n) v;
  ru_rule : forall t a, In t p -> within n a -> kernel n' (tvar t) a = entry (doms n) t a;
  ru_other : forall v a, In v (nodes (ngraph n)) -> ~ In v (map tvar p) -> within n a -> kernel n' v a = kernel n v a }.
(* the rules b, which depend on the parents, are a Nash equilibrium of the subgame for the decisions l of the diagram m, n; in the subgame every
   value of a node that is not kept is possible *)
Definition stage (m : macid) (n : net) (l : list node) (b : list tab) : Prop :=
  exists sm sn ds ags c, Permutation ds l /\ (forall a, In a ags <-> exists d, In d l /\ has_role m d (RDecision a)) /\
    subgame m n ds sm sn /\ incl ds (nodes (ngraph sn)) /\ (forall v a, In v (nodes (ngraph sn)) -> ~ kept m ds v -> within sn a -> kernel sn v a <> 0) /\
    (forall t u, In t b -> (In u (tev t) <-> edge (ngraph n) u (tvar t))) /\
    policy sn ds c /\ acts sn ds b c /\ equilibrium sm sn ds ags c.
(* p: for one list of decisions after the other, an equilibrium of their subgame, given the rules found before *)
Inductive staged (m : macid) (n : net) : list (list node) -> list tab -> list tab -> Prop :=
| staged_end : forall before, staged m n [] before []
| staged_step : forall l ls before b p n', ruled n before n' -> stage m n' l b -> staged m n ls (before ++ b) p -> staged m n (l :: ls) before (b ++ p).
(* the solver finds only Nash equilibria *)
Definition sound_solver (nash : string -> game -> list (nat -> list Qc)) : Prop :=
  forall s g b, In b (nash s g) -> behaves g b /\ game_equilibrium g b.
(* every agent that decides something has a utility *)
Definition motivated (m : macid) : Prop := forall a d, has_role m d (RDecision a) -> exists u, has_role m u (RUtility a).
(* whatever the decisions outside s do, no agent gains by replacing its rules for decisions in s while the others keep theirs *)
Definition perfect_in (m : macid) (n : net) (ds s : list node) (c : behaviour) : Prop :=
  forall a us c', lookup a (agent_utilities m) = Some us -> policy n ds c' ->
    (forall d x, In d s -> lookup d (decision_agent m) <> Some a -> within n x -> c' d x = c d x) ->
    value n ds c' us <= value n ds (fun v x => if in_dec String.string_dec v s then c v x else c' v x) us.
(* different decisions of one agent do not rely on each other mutually *)
Definition one_per_component (m : macid) : Prop :=
  forall d d' a, has_role m d (RDecision a) -> has_role m d' (RDecision a) -> relies_on m d d' -> relies_on m d' d -> d = d'.
