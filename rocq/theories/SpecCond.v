(* Specification vocabulary for predictions. *)
From Coq Require Import String List Bool Arith QArith Qcanon.
Import ListNotations.
From Verif Require Import MBase MGraph MMacid MCpd MNet MProb Spec SpecC SpecN SpecQ.
Local Open Scope Qc_scope.

(* what d observes *)
Definition observed (n : net) (d : node) (a : asg) : list (node * outcome) := map (fun p => (p, a p)) (parents (ngraph n) d).
(* the mean squared error of predicting y by g, from what d observes *)
Definition mean_squared_error (n : net) (d y : node) (g : list (node * outcome) -> Qc) : Qc :=
  total (dom_of (doms n)) (nodes (ngraph n))
    (fun a => (a y - g (observed n d a)) * (a y - g (observed n d a)) * fold_right Qcmult 1 (map (fun v => kernel n v a) (nodes (ngraph n)))) (fun _ => 0).
(* the mean squared error of d itself as a prediction of y *)
Definition realised_error (n : net) (d y : node) : Qc :=
  total (dom_of (doms n)) (nodes (ngraph n))
    (fun a => (a y - a d) * (a y - a d) * fold_right Qcmult 1 (map (fun v => kernel n v a) (nodes (ngraph n)))) (fun _ => 0).
