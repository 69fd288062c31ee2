(* Specification vocabulary for the value of information in diagrams with several decisions. *)
From Coq Require Import String List Bool Arith QArith Qcanon.
Import ListNotations.
From Verif Require Import MBase MGraph MMacid MCpd MNet MProb MQuery Spec SpecC SpecN SpecQ SpecPol SpecVoi.
Local Open Scope Qc_scope.

(* what the decision e may use if the decision d also sees x, and if it does not; the other decisions see their parents *)
Definition sees_with (g : graph) (x d e p : node) : Prop := edge g p e \/ (p = x /\ e = d).
Definition sees_without (g : graph) (x d e p : node) : Prop := edge g p e /\ ~ (p = x /\ e = d).
(* rules, random or not, for all the decisions ds *)
Definition rules_seeing (n : net) (ds : list node) (sees : node -> node -> Prop) (b : behaviour) : Prop :=
  forall e, In e ds -> rule_seeing n e (sees e) b.
(* v is the greatest expected utility that such rules can reach *)
Definition best_rules (n : net) (ds us : list node) (sees : node -> node -> Prop) (v : Qc) : Prop :=
  (exists b, rules_seeing n ds sees b /\ value n ds b us = v) /\ forall b, rules_seeing n ds sees b -> value n ds b us <= v.
(* g' is g less the edge x -> d (which may be absent already) *)
Definition without_link (g : graph) (x d : node) (g' : graph) : Prop :=
  wf_dag g' /\ (forall n, In n (nodes g') <-> In n (nodes g)) /\ forall a b, edge g' a b <-> edge g a b /\ ~ (a = x /\ b = d).
