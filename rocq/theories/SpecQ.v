(* Specification vocabulary for probabilities and interventions. *)
From Coq Require Import String List Bool Arith QArith Qcanon Permutation.
Import ListNotations.
From Verif Require Import MBase MGraph MMacid MCpd MNet MProb MQuery Spec SpecC SpecN.
Local Open Scope Qc_scope.

(* t is a table of conditional probabilities: one column per combination of evidence states, and every column is a
   probability distribution (exactly) over the states of the variable *)
Definition exact_table (t : tab) : Prop :=
  NoDup (tev t) /\ NoDup (tdom t) /\ length (tcards t) = length (tev t) /\
  length (tcols t) = fold_right Nat.mul 1%nat (tcards t) /\
  forall col, In col (tcols t) -> length col = length (tdom t) /\ (forall q, In q col -> 0 <= q) /\ fold_right Qcplus 0 col = 1.
Definition exact (n : net) : Prop := forall v t, has_table n v t -> exact_table t.
(* every node has a table over its parents, made for as many states as they have *)
Definition fitted (n : net) : Prop :=
  forall v, In v (nodes (ngraph n)) -> exists t, has_table n v t /\ has_domain n v (tdom t) /\
    (forall p, In p (tev t) <-> edge (ngraph n) p v) /\ tcards t = map (fun p => length (dom_of (doms n) p)) (tev t).
(* one table per variable *)
Definition single_tables (n : net) : Prop := forall v t t', has_table n v t -> has_table n v t' -> t = t'.
(* a network whose tables define a joint distribution *)
Definition distribution (n : net) : Prop := wf_dag (ngraph n) /\ single_tables n /\ exact n /\ fitted n.

(* all values are in their domains *)
Definition in_domains (n : net) (c : list (node * outcome)) : Prop :=
  forall v x, In (v, x) c -> exists d, has_domain n v d /\ In x d.
(* the truncated product: intervened variables have the given values, the others their conditional probabilities *)
Definition do_joint (n : net) (iv : list (node * outcome)) (a : asg) : Qc :=
  if agrees iv a then fold_right Qcmult 1 (map (fun v => if in_dec String.string_dec v (keys iv) then 1 else kernel n v a) (nodes (ngraph n)))
  else 0.
(* P(c | do(iv)) *)
Definition do_prob (n : net) (iv c : list (node * outcome)) : Qc :=
  total (dom_of (doms n)) (nodes (ngraph n)) (fun a => if agrees c a then do_joint n iv a else 0) (fun _ => 0).
(* n and n' differ at most in the tables of the variables satisfying X *)
Definition differ_in (X : node -> Prop) (n n' : net) : Prop :=
  ngraph n' = ngraph n /\ same_domains n n' /\ forall v t, ~ X v -> (has_table n v t <-> has_table n' v t).

(* a function of keyword arguments, which have different names: their order does not matter; distributions are dictionaries *)
Definition keyword_function (f : fn) : Prop :=
  (forall pv pv', NoDup (map fst pv) -> Permutation pv pv' -> body f pv = body f pv') /\ (forall pv d, body f pv = Ok (VDist d) -> is_dict d).
Definition python_rel (r : rel) : Prop :=
  match r with RFun f => keyword_function f | RDist d => is_dict d | _ => True end.

(* a relationship that Python code can give v *)
Definition admissible (v : node) (r : rel) : Prop := proper v r /\ python_rel r.
(* v has no relationship, or a ready-made table, or its table was made from a dictionary or a list of decisions *)
Definition follows_edits (n : net) (v : node) : Prop :=
  lookup v (rels n) = None \/ (exists t, lookup v (rels n) = Some (RTab t)) \/ exists t, has_table n v t /\ (tkind t = KConst \/ tkind t = KDec).
(* networks a program can come by, without an exception: new ones, and those made by adding and removing relationships,
   copying, intervening, asking queries of a network with a joint distribution, and editing the edges into variables
   whose tables follow the edit (for the others see C56) *)
Inductive built : net -> Prop :=
  | built_new : forall g, wf_dag g -> built (bare g)
  | built_step : forall n o n', built n -> (forall v r, o = OAdd v r -> admissible v r) -> step n o = (n', None) -> built n'
  | built_copy : forall n n', built n -> copy_net n = Ok n' -> built n'
  | built_intervene : forall n iv n', built n -> intervene n iv = (n', None) -> built n'
  | built_query : forall o roles n qs c iv n' f, built n -> distribution n -> query o roles n qs c iv = (n', Ok f) -> built n'
  | built_add_edge : forall n u v n', built n -> follows_edits n v -> add_edge n u v = (n', None) -> built n'
  | built_remove_edge : forall n u v n', built n -> follows_edits n v -> remove_edge n u v = (n', None) -> built n'.
(* E(v | c, do(iv)) *)
Definition expectation (n : net) (iv c : list (node * outcome)) (v : node) : Qc :=
  fold_right Qcplus 0 (map (fun x => x * (do_prob n iv ((v, x) :: c) / do_prob n iv c)) (dom_of (doms n) v)).
(* u and w are in the same connected part of the graph without the edges into xs *)
Inductive joined (g : graph) (xs : list node) : node -> node -> Prop :=
  | joined_refl : forall u, joined g xs u u
  | joined_step : forall u v w, edge g u v /\ ~ In v xs \/ edge g v u /\ ~ In u xs -> joined g xs v w -> joined g xs u w.
(* a child of an intervened variable that was given a ready-made table was given it for a sorted domain *)
Definition tables_sorted (n : net) (iv : list (node * outcome)) : Prop :=
  forall v u t, In v (keys iv) -> edge (ngraph n) v u -> lookup u (rels n) = Some (RTab t) -> increasing (dom_of (doms n) v).
(* a node of the network that the query keeps: it is connected to a query node *)
Definition near (n : net) (qs : list node) (v : node) : Prop := exists q, In q qs /\ joined (ngraph n) [] q v.
(* what remains of the network after a query, whether it succeeds or not *)
Definition only_far_removed (n n' : net) (qs : list node) : Prop :=
  doms n' = doms n /\ incl (nodes (ngraph n')) (nodes (ngraph n)) /\ (forall a b, edge (ngraph n') a b -> edge (ngraph n) a b) /\
  (forall v, near n qs v -> (In v (nodes (ngraph n)) -> In v (nodes (ngraph n'))) /\ (forall u, edge (ngraph n) u v <-> edge (ngraph n') u v) /\
     lookup v (rels n') = lookup v (rels n) /\ forall t, has_table n' v t <-> has_table n v t) /\
  ((forall v, In v (nodes (ngraph n)) -> near n qs v) -> n' = n).
(* d has no policy: its table, if any, is only a list of choices *)
Definition no_policy (n : net) (d : node) : Prop := forall t, has_table n d t -> tkind t = KDec.
