(* Specification vocabulary for relationships that make sense whatever the parents' values are. *)
From Coq Require Import String List Bool Arith QArith Qcanon.
Import ListNotations.
From Verif Require Import MBase MGraph MMacid MCpd MNet Spec SpecC SpecN.
Local Open Scope Qc_scope.

(* a dictionary of probabilities: none is negative, and they add up to one, or to less if an outcome is left open *)
Definition sane_dist (d : dist) : Prop :=
  is_dict d /\ (forall x p, gives d x p -> 0 <= p) /\ (mass d = 1 \/ (mass d <= 1 /\ exists x, In (x, None) d)).
(* r gives v a distribution over range v, whatever values its parents have in their ranges *)
Definition sane (g : graph) (range : node -> outcome -> Prop) (v : node) (r : rel) : Prop :=
  In v (nodes g) /\
  match r with
  | RFun f => forall pv, map fst pv = parents g v -> (forall p x, In (p, x) pv -> range p x) ->
      exists w, call f pv = Ok w /\ sane_dist (dist_of w) /\ forall x, In x (map fst (dist_of w)) -> range v x
  | RDist d => sane_dist d /\ forall x, In x (map fst d) -> range v x
  | RDom l => l <> [] /\ NoDup l /\ forall x, In x l -> range v x
  | RTab _ => False
  end.
