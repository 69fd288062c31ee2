(* Specification vocabulary for random graphs and diagrams. *)
From Coq Require Import String List Bool Arith ZArith QArith Qround.
Import ListNotations.
From Verif Require Import MBase MGraph Spec SpecM SpecQ.
Local Open Scope nat_scope.

(* any two nodes are joined by a path in the undirected sense *)
Definition connected (g : graph) : Prop := forall u v, In u (nodes g) -> In v (nodes g) -> joined g [] u v.
(* v has at most k parents *)
Definition at_most_parents (g : graph) (k : nat) (v : node) : Prop := forall l, NoDup l -> (forall p, In p l -> edge g p v) -> length l <= k.
(* the greatest number of edges of an acyclic graph with n nodes, none of which has more than k parents *)
Definition most_edges (n k : nat) : nat := fold_right Nat.add 0 (map (fun i => Nat.min i k) (seq 0 n)).

(* ---- random diagrams ---- *)
From Verif Require Import MMacid MRandDag.
(* The agents are 0, 1, 2, ..., agent i has the requested numbers of decisions and utilities; no node has two roles or is listed twice
   (consistent, C12); utilities have no children; every decision is an ancestor of a utility of its owner. *)
Record as_requested (dnum unum : list nat) (m : macid) : Prop := {
  ar_dec_agents : keys (agent_decisions m) = map str_of (seq 0 (length dnum));
  ar_util_agents : keys (agent_utilities m) = map str_of (seq 0 (length unum));
  ar_decs : map (fun al => length (snd al)) (agent_decisions m) = dnum;
  ar_utils : map (fun al => length (snd al)) (agent_utilities m) = unum;
  ar_roles : consistent m;
  ar_barren : forall a u v, has_role m u (RUtility a) -> ~ edge (mgraph m) u v;
  ar_purpose : forall a d, has_role m d (RDecision a) -> exists u, has_role m u (RUtility a) /\ descends (mgraph m) u d }.
