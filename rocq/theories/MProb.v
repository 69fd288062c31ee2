(* [external] What the inference engine of pgmpy computes: the tables of a network read as conditional
   probabilities, and exact sums over assignments (pgmpy TabularCPD, BayesianNetwork.check_model,
   BeliefPropagation.query).  pgmpy sums floats in an order of its own; here the sums are exact.
   No proofs in this file. *)
From Coq Require Import String List Bool Arith QArith Qcanon.
Import ListNotations.
From Verif Require Import MBase MGraph MMacid MCpd MNet.
Local Open Scope Qc_scope.

(* an outcome for every variable *)
Definition asg := node -> outcome.
Definition upd (a : asg) (v : node) (x : outcome) : asg := fun u => if String.eqb u v then x else a u.
(* the sum of f over all values of the variables vs in their domains *)
Fixpoint total (D : node -> list outcome) (vs : list node) (f : asg -> Qc) (a : asg) : Qc :=
  match vs with
  | [] => f a
  | v :: vs' => qsum (map (fun x => total D vs' f (upd a v x)) (D v))
  end.
Definition qprod (l : list Qc) : Qc := fold_right Qcmult 1 l.

(* name_to_no: the number of an outcome among the state names *)
Fixpoint name_to_no (x : outcome) (l : list outcome) : nat :=
  match l with
  | [] => 0%nat
  | y :: l' => if oeqb x y then 0%nat else S (name_to_no x l')
  end.
(* the state names of a variable are its domain (sync_state_names) *)
Definition states (ds : domains) (v : node) : list outcome := match lookup v ds with Some d => d | None => [] end.
(* the number of the column for the values a gives the evidence; the last evidence variable varies fastest *)
Definition column_no (ds : domains) (ev : list node) (a : asg) : nat :=
  fold_left (fun i p => i * length (states ds p) + name_to_no (a p) (states ds p))%nat ev 0%nat.
(* the entry of the table for the assignment *)
Definition entry (ds : domains) (t : tab) (a : asg) : Qc :=
  nth (name_to_no (a (tvar t)) (states ds (tvar t))) (nth (column_no ds (tev t) a) (tcols t) []) 0.
(* P(v = a(v) | the parents have the values a gives them) *)
Definition kernel (n : net) (v : node) (a : asg) : Qc :=
  match cpd_of n v with Some t => entry (doms n) t a | None => 0 end.
(* the joint distribution of a network *)
Definition joint (n : net) (a : asg) : Qc := qprod (map (fun v => kernel n v a) (nodes (ngraph n))).
(* a agrees with the given values *)
Definition agrees (c : list (node * outcome)) (a : asg) : bool := forallb (fun vx => oeqb (a (fst vx)) (snd vx)) c.
(* P(c) for values c of some of the variables *)
Definition prob (n : net) (c : list (node * outcome)) : Qc :=
  total (states (doms n)) (nodes (ngraph n)) (fun a => if agrees c a then joint n a else 0) (fun _ => 0).

(* check_model, run when the inference engine is created: every node has a table over its parents, its columns
   sum to one up to 0.01, and the cardinalities of tables fit *)
Definition same_set (l l' : list node) : bool := forallb (fun x => mem x l') l && forallb (fun x => mem x l) l'.
Definition check_node (n : net) (v : node) : result unit :=
  match cpd_of n v with
  | None => Err ValueError
  | Some t =>
    if negb (same_set (tev t) (parents (ngraph n) v)) then Err ValueError
    else if negb (forallb (fun c => qabs_close (qsum c) 1 hundredth) (tcols t)) then Err ValueError
    else Ok tt
  end.
Definition check_cards (n : net) (v : node) : result unit :=
  match cpd_of n v with
  | None => Err ValueError
  | Some t =>
    _ <- map_r (fun pc => match cpd_of n (fst pc) with
                          | None => Err AttributeError
                          | Some s => if (length (tdom s) =? snd pc)%nat then Ok tt else Err ValueError
                          end) (combine (tev t) (tcards t)) ;; Ok tt
  end.
Definition check_model (n : net) : result unit :=
  _ <- map_r (check_node n) (nodes (ngraph n)) ;;
  _ <- map_r (check_cards n) (nodes (ngraph n)) ;; Ok tt.

(* a factor: its variables, in an order chosen by the engine, and an entry for each combination of their values *)
Record factor : Type := mkF { fvars : list node; fentries : list (list outcome * Qc) }.
(* P(vs, c), tabulated *)
Definition tabulate (n : net) (vs : list node) (c : list (node * outcome)) : factor :=
  mkF vs (map (fun xs => (xs, prob n (combine vs xs ++ c))) (product (map (states (doms n)) vs))).
(* DiscreteFactor.normalize.  0/0 is nan in numpy and 0 here: a factor whose entries are all 0 stands for one whose entries are all nan *)
Definition normalised (f : factor) : factor :=
  let s := qsum (map snd (fentries f)) in mkF (fvars f) (map (fun e => (fst e, snd e / s)) (fentries f)).
(* BeliefPropagation(cbn).query(qs, c): the variables of the result are a set; ValueError if evidence is queried.  The result is
   already normalised, in spite of the docstrings of query (causal_bayesian_network.py 138-140): see tests/test_causal_bayesian_network.py
   86, tests/test_macid_base.py 43 and the outputs in notebooks/CBN_Tutorial.ipynb, section 5 *)
Definition bp_query (o : order) (n : net) (qs : list node) (c : list (node * outcome)) : result factor :=
  _ <- check_model n ;;
  if existsb (fun q => mem q (keys c)) qs then Err ValueError
  else Ok (normalised (tabulate n (o qs (to_set qs)) c)).
