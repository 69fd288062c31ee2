(* Model of CausalBayesianNetwork.is_structural_causal_model (causal_bayesian_network.py 121-133).
   No proofs in this file. *)
From Coq Require Import String List Bool Arith QArith Qcanon.
Import ListNotations.
From Verif Require Import MBase MGraph MMacid MCpd MNet MPolicy.
Local Open Scope Qc_scope.

(* [external] numpy.isclose(a, b) for finite numbers: |a - b| <= atol + rtol * |b|, with atol = 1e-8 and rtol = 1e-5 *)
Definition np_atol : Qc := Q2Qc (1 # 100000000).
Definition np_rtol : Qc := Q2Qc (1 # 100000).
Definition np_isclose (a b : Qc) : bool := qleb (qabs (a - b)) (np_atol + np_rtol * qabs b).
(* 131 *)
Definition degenerate (p : Qc) : bool := np_isclose p 0 || np_isclose p 1.
(* 128-133: the loop over the nodes; the entries of a table are all visited, in an order that does not matter here.
   The table of a node may be None, whose attribute values does not exist *)
Fixpoint scm_loop (n : net) (vs : list node) : result bool :=
  match vs with
  | [] => Ok true
  | v :: vs' =>
    match parents (ngraph n) v with
    | [] => scm_loop n vs'
    | _ :: _ =>
      c <- get_cpds n v ;;
      match c with
      | None => Err AttributeError
      | Some t => if forallb degenerate (concat (tcols t)) then scm_loop n vs' else Ok false
      end
    end
  end.
Definition is_structural_causal_model (n : net) : result bool := scm_loop n (nodes (ngraph n)).
