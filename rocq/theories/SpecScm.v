(* Specification vocabulary for structural causal models. *)
From Coq Require Import String List Bool Arith QArith Qcanon.
Import ListNotations.
From Verif Require Import MBase MGraph MMacid MCpd MNet MProb Spec SpecC SpecN SpecQ SpecPol.
Local Open Scope Qc_scope.

(* v has a parent; the other variables are exogenous *)
Definition endogenous (n : net) (v : node) : Prop := In v (nodes (ngraph n)) /\ exists p, edge (ngraph n) p v.
(* numpy's default tolerances, for a comparison with 0 and with 1 *)
Definition near_zero (p : Qc) : Prop := absolute p <= Q2Qc (1 # 100000000).
Definition near_one (p : Qc) : Prop := absolute (p - 1) <= Q2Qc (1001 # 100000000).
(* h gives a value of v as a function of the parents of v *)
Definition structural (n : net) (v : node) (h : asg -> outcome) : Prop :=
  (forall a a', (forall p, edge (ngraph n) p v -> a p = a' p) -> h a = h a') /\
  forall a, within n a -> In (h a) (dom_of (doms n) v).
(* v is a function of its parents *)
Definition determined (n : net) (v : node) : Prop :=
  exists h, structural n v h /\ forall a, within n a -> kernel n v a = if Qc_eq_dec (a v) (h a) then 1 else 0.
(* v is a function of its parents except with probability eps *)
Definition determined_but (eps : Qc) (n : net) (v : node) : Prop :=
  exists h, structural n v h /\ forall a, within n a -> a v = h a -> 1 - eps <= kernel n v a.
