(* Model of CausalBayesianNetwork.Model and MACIDBase.Model (causal_bayesian_network.py 26-81, macid_base.py 56-68):
   the dictionary of relationships, the tables of the network and the domains.
   A state is returned together with an optional exception, since the code keeps what it did before raising.
   Simplifications: a ready-made table is filed under its own variable; relationships of other types are not
   modelled; the state names of the evidence of a table are those of the network (sync_state_names 70-73), so that
   step changes nothing here; the warning about domains for non-decisions (macid_base.py 58-59) is not modelled.
   No proofs in this file. *)
From Coq Require Import String List Bool Arith QArith Qcanon.
Import ListNotations.
From Verif Require Import MBase MGraph MMacid MCpd.

(* Relationship: a callable, a mapping, a list of decisions, or a table (causal_bayesian_network.py 16, macid_base.py 62) *)
Inductive rel : Type := RFun (f : fn) | RDist (d : dist) | RDom (l : list outcome) | RTab (t : tab).
Record net : Type := mkNet { ngraph : graph; rels : list (node * rel); cpds : list tab; doms : domains }.
(* the effect of a statement: the state it leaves and the exception it raises, if any *)
Definition outcome_of : Type := net * option error.

(* [external] pgmpy BayesianNetwork.get_cpds(node): the first table for the node, or None *)
Definition cpd_of (n : net) (v : node) : option tab := find (fun t => String.eqb (tvar t) v) (cpds n).
Definition get_cpds (n : net) (v : node) : result (option tab) :=
  if mem v (nodes (ngraph n)) then Ok (cpd_of n v) else Err ValueError.
(* [external] get_cardinality(node) *)
Definition get_cardinality (n : net) (v : node) : result nat :=
  c <- get_cpds n v ;; match c with None => Err AttributeError | Some t => Ok (length (tdom t)) end.
Definition cards_of (n : net) (ps : list node) : result (list nat) := map_r (get_cardinality n) ps.
(* [external] BayesianNetwork.remove_cpds(node): list.remove of the table found *)
Fixpoint remove_tab (v : node) (l : list tab) : list tab :=
  match l with
  | [] => []
  | t :: l' => if String.eqb (tvar t) v then l' else t :: remove_tab v l'
  end.
(* [external] BayesianNetwork.add_cpds(cpd): replaces the table for the variable in place, or appends *)
Fixpoint put_tab (t : tab) (l : list tab) : list tab :=
  match l with
  | [] => [t]
  | s :: l' => if String.eqb (tvar s) (tvar t) then t :: l' else s :: put_tab t l'
  end.
Definition in_scope (g : graph) (t : tab) : bool := forallb (fun u => mem u (nodes g)) (tvar t :: tev t).

(* causal_bayesian_network.py 75-81, macid_base.py 62-66: to_tabular_cpd *)
Definition table_from (g : graph) (ds : domains) (cards : list node -> result (list nat)) (v : node) (r : rel) : result tab :=
  match r with
  | RTab t => Ok t
  | RFun f => init_table g ds cards v f [] KStoch
  | RDist d => init_table g ds cards v (const_fn d) [] KConst
  | RDom l => init_table g ds cards v (const_fn []) l KDec
  end.
Definition to_tabular (n : net) (v : node) (r : rel) : result tab :=
  table_from (ngraph n) (doms n) (cards_of n) v r.

(* 63-68: __delitem__; ValueErrors of remove_cpds are swallowed *)
Definition del_item (n : net) (v : node) : outcome_of :=
  if mem v (keys (rels n)) then
    (mkNet (ngraph n) (ddel v (rels n)) (if mem v (nodes (ngraph n)) then remove_tab v (cpds n) else cpds n) (doms n), None)
  else (n, Some KeyError).

Fixpoint olist_eqb (l l' : list outcome) : bool :=
  match l, l' with
  | [], [] => true
  | x :: l1, y :: l2 => oeqb x y && olist_eqb l1 l2
  | _, _ => false
  end.
(* 56: old_domain and old_domain == self.domain[variable] *)
Definition same_domain (old : option (list outcome)) (new : list outcome) : bool :=
  match old with
  | None | Some [] => false
  | Some l => olist_eqb l new
  end.
(* 38-61: __setitem__; the recursion over children is bounded by the number of nodes *)
Fixpoint set_item (fuel : nat) (n : net) (v : node) (r : rel) : outcome_of :=
  match fuel with
  | O => (n, Some OutOfFuel)
  | S k =>
    let n0 := if mem v (keys (rels n)) then fst (del_item n v) else n in            (* 40-41 *)
    let n1 := mkNet (ngraph n0) (dset v r (rels n0)) (cpds n0) (doms n0) in          (* 42 *)
    match to_tabular n1 v r with                                                     (* 45-48 *)
    | Err ParentsNotReady => (n1, None)
    | Err e => (n1, Some e)
    | Ok t =>
      if negb (in_scope (ngraph n1) t) then (n1, Some ValueError)                    (* 51 *)
      else
        let old := lookup v (doms n1) in
        let n2 := mkNet (ngraph n1) (rels n1) (put_tab t (cpds n1)) (dset v (tdom t) (doms n1)) in
        if same_domain old (tdom t) then (n2, None)
        else
          (fix loop (m : net) (cs : list node) : outcome_of :=                       (* 56-59 *)
             match cs with
             | [] => (m, None)
             | c :: cs' =>
               match lookup c (rels m) with
               | None => loop m cs'
               | Some rc => match set_item k m c rc with
                            | (m', None) => loop m' cs'
                            | (m', Some e) => (m', Some e)
                            end
               end
             end) n2 (children (ngraph n1) v)
    end
  end.
Definition set_rel (n : net) (v : node) (r : rel) : outcome_of := set_item (S (length (nodes (ngraph n)))) n v r.

(* 109-115: add_cpds( *cpds, **relationships ) sets one after the other; 117-119: remove_cpds *)
Inductive op : Type := OAdd (v : node) (r : rel) | ODel (v : node).
Definition step (n : net) (o : op) : outcome_of :=
  match o with OAdd v r => set_rel n v r | ODel v => del_item n v end.
Fixpoint run (n : net) (os : list op) : outcome_of :=
  match os with
  | [] => (n, None)
  | o :: os' => match step n o with (n', None) => run n' os' | (n', Some e) => (n', Some e) end
  end.
Definition add_cpds (n : net) (l : list (node * rel)) : outcome_of := run n (map (fun vr => OAdd (fst vr) (snd vr)) l).
Definition remove_cpds (n : net) (l : list node) : outcome_of := run n (map ODel l).
(* a new network without relationships, 83-95 *)
Definition bare (g : graph) : net := mkNet g [] [] [].
