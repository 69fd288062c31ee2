(* Model of quantitative_voi (analyze/value_of_information.py 45-72) and quantitative_voc
   (analyze/value_of_control.py 46-70).  The roles of the diagram are in m, its graph, relationships and tables in n.
   No proofs in this file. *)
From Coq Require Import String List Bool Arith QArith Qcanon.
Import ListNotations.
From Verif Require Import MBase MGraph MMacid MCpd MNet MProb MQuery MPolicy.
Local Open Scope Qc_scope.

(* a statement that has to succeed for the function to go on *)
Definition done (s : outcome_of) : result net := match s with (n, None) => Ok n | (_, Some e) => Err e end.
(* new_cid.impute_optimal_policy(); new_cid.expected_utility({}): the object as it is left, and the utility of agent 0 *)
Definition optimal_utility (o : order) (choose : list (list tab) -> option (list tab)) (m : macid) (n : net) : net * result Qc :=
  match impute_optimal_policy o choose (with_graph m (ngraph n)) n with
  | (n1, Some e) => (n1, Err e)
  | (n1, None) => expected_utility o m n1 [] [] zero
  end.
(* value_of_information.py 45-72 *)
Definition quantitative_voi (o : order) (choose : list (list tab) -> option (list tab)) (m : macid) (n : net) (d x : node) : result Qc :=
  if negb (mem x (nodes (ngraph n))) then Err KeyError                                   (* 57-58 *)
  else
    desc <- nx_descendants (ngraph n) d ;;
    if String.eqb x d || mem x desc then Err ValueError                                  (* 59-63 *)
    else
      m1 <- cid_copy_without_cpds (with_graph m (ngraph n)) ;; n0 <- copy_net n ;;        (* 64 *)
      n1 <- done (add_edge n0 x d) ;;                                                    (* 65 *)
      let '(n2, r1) := optimal_utility o choose m1 n1 in                                 (* 66-67 *)
      ev1 <- r1 ;;
      n3 <- done (remove_all_decision_rules m1 n2) ;;                                    (* 68 *)
      n4 <- done (remove_edge n3 x d) ;;                                                 (* 69 *)
      let '(_, r2) := optimal_utility o choose m1 n4 in                                  (* 70-71 *)
      ev2 <- r2 ;;
      Ok (ev1 - ev2).
(* value_of_control.py 46-70: works on the diagram it is given; returned as it is left *)
Definition quantitative_voc (o : order) (choose : list (list tab) -> option (list tab)) (m : macid) (n : net) (x : node) : (macid * net) * result Qc :=
  if negb (mem x (nodes (ngraph n))) then ((m, n), Err KeyError)                         (* 60-61 *)
  else
    let '(n1, r1) := optimal_utility o choose m n in                                     (* 64-65 *)
    match r1 with
    | Err e => ((m, n1), Err e)
    | Ok ev1 =>
      match make_decision (with_graph m (ngraph n1)) x zero with                         (* 66 *)
      | (m1, Some e) => ((m1, n1), Err e)
      | (m1, None) =>
        let '(n2, r2) := optimal_utility o choose m1 n1 in                               (* 68-70 *)
        ((with_graph m1 (ngraph n2), n2), ev2 <- r2 ;; Ok (ev2 - ev1))
      end
    end.
