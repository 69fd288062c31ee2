(* Specification vocabulary for random samples. *)
From Coq Require Import String List QArith Qcanon.
Import ListNotations.
From Verif Require Import MBase MGraph MCpd MNet Spec SpecN SpecQ.
Local Open Scope Qc_scope.

(* the numbers the generator can give: one from [0,1) for every variable *)
Definition draws (n : net) (u : node -> Qc) : Prop := forall v, In v (nodes (ngraph n)) -> 0 <= u v /\ u v < 1.
(* a value from its domain for every variable, in the order of the nodes *)
Definition world (n : net) (c : list (node * outcome)) : Prop := keys c = nodes (ngraph n) /\ in_domains n c.
(* an interval for every variable *)
Definition in_box (n : net) (lo hi : node -> Qc) (u : node -> Qc) : Prop := forall v, In v (nodes (ngraph n)) -> lo v <= u v /\ u v < hi v.
Definition volume (n : net) (lo hi : node -> Qc) : Qc := fold_right Qcmult 1 (map (fun v => hi v - lo v) (nodes (ngraph n))).
