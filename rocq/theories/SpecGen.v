(* Specification vocabulary for arbitrary conditional probabilities on a graph. *)
From Coq Require Import String List Bool Arith QArith Qcanon.
Import ListNotations.
From Verif Require Import MBase MGraph MMacid MCpd MNet MProb MQuery Spec SpecC SpecN SpecQ.
Local Open Scope Qc_scope.

(* K v a is the probability that v takes the value a(v) when its parents have the values a gives them: it depends on
   these values only, is not negative, and adds up to one over the values D v of v *)
Definition conditionals (g : graph) (D : node -> list outcome) (K : node -> asg -> Qc) : Prop :=
  (forall v a a', In v (nodes g) -> a v = a' v -> (forall p, edge g p v -> a p = a' p) -> K v a = K v a') /\
  (forall v a, In v (nodes g) -> 0 <= K v a) /\
  (forall v a, In v (nodes g) -> (forall p, edge g p v -> In (a p) (D p)) -> fold_right Qcplus 0 (map (fun x => K v (upd a v x)) (D v)) = 1).
(* every variable has some values, all different *)
Definition value_lists (g : graph) (D : node -> list outcome) : Prop := forall v, In v (nodes g) -> NoDup (D v) /\ D v <> [].
