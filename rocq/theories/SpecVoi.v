(* Specification vocabulary for the value of information and of control. *)
From Coq Require Import String List Bool Arith QArith Qcanon.
Import ListNotations.
From Verif Require Import MBase MGraph MMacid MCpd MNet MProb MQuery Spec SpecC SpecN SpecQ SpecPol.
Local Open Scope Qc_scope.

(* b is a (possibly random) rule for the decision d that uses only the variables it sees *)
Definition rule_seeing (n : net) (d : node) (sees : node -> Prop) (b : behaviour) : Prop :=
  (forall a a', a d = a' d -> (forall p, sees p -> a p = a' p) -> b d a = b d a') /\
  (forall a, 0 <= b d a) /\
  (forall a, (forall p, sees p -> In (a p) (dom_of (doms n) p)) -> fold_right Qcplus 0 (map (fun x => b d (upd a d x)) (dom_of (doms n) d)) = 1).
(* v is the greatest expected utility that the decision d can reach if it sees these variables *)
Definition best_seeing (n : net) (d : node) (us : list node) (sees : node -> Prop) (v : Qc) : Prop :=
  (exists b, rule_seeing n d sees b /\ value n [d] b us = v) /\ forall b, rule_seeing n d sees b -> value n [d] b us <= v.
(* the decision has a list of choices or a ready-made table (as the methods that impute rules give it) *)
Definition plain_decision (n : net) (d : node) : Prop :=
  exists r, lookup d (rels n) = Some r /\ match r with RDom _ | RTab _ => True | _ => False end.
(* v is the greatest expected utility that rules for the decisions ds, each a function of its parents, can reach *)
Definition best_value (n : net) (ds us : list node) (v : Qc) : Prop :=
  (exists b, policy n ds b /\ value n ds b us = v) /\ forall b, policy n ds b -> value n ds b us <= v.
(* rules for the decisions ds reach the expected utility w, and no others are better by more than the tolerance of the search allows: w is close to
   the value v of the rules it found first among those close to each other, and no rules exceed v except those bounded by a value close to v *)
Definition nearly_best (tol : Qc) (n : net) (ds us : list node) (w : Qc) : Prop :=
  (exists b, policy n ds b /\ value n ds b us = w) /\
  exists v, close tol w v /\ forall b, policy n ds b -> value n ds b us <= v \/ exists w', value n ds b us <= w' /\ close tol w' v.
