(* Specification vocabulary for probability tables. *)
From Coq Require Import String List Bool Arith QArith Qcanon Sorted.
Import ListNotations.
From Verif Require Import MBase MGraph MMacid MCpd Spec.
Local Open Scope Qc_scope.

(* a Python dictionary: no key twice *)
Definition is_dict (d : dist) : Prop := NoDup (map fst d).
(* the distribution a returned value stands for *)
Definition dist_of (v : value) : dist := match v with VDist d => d | VOut x => [(x, Some 1)] end.
(* d gives outcome x probability p *)
Definition gives (d : dist) (x : outcome) (p : Qc) : Prop := In (x, Some p) d.
(* the probability mass given by d *)
Definition mass (d : dist) : Qc :=
  fold_right Qcplus 0 (map (fun e => match snd e with Some p => p | None => 0 end) d).
(* l lists the outcomes of dom that d gives no probability, without repetition *)
Definition left_open (dom : list outcome) (d : dist) (l : list outcome) : Prop :=
  NoDup l /\ forall x, In x l <-> In x dom /\ forall p, ~ gives d x p.
(* the column for the domain dom and the partial distribution d: given probabilities are kept, the
   outcomes left open share the rest equally *)
Definition column (dom : list outcome) (d : dist) (col : list Qc) : Prop :=
  length col = length dom /\
  forall i x q, nth_error dom i = Some x -> nth_error col i = Some q ->
    (forall p, gives d x p -> q = p) /\
    (forall l, left_open dom d l -> In x l -> q * Qc_of_nat (length l) = 1 - mass d).
(* within 0.01 of one *)
Definition tolerance : Qc := Q2Qc (1 # 100).
Definition prob_column (col : list Qc) : Prop :=
  (forall q, In q col -> 0 <= q /\ q <= 1) /\
  1 - tolerance <= fold_right Qcplus 0 col /\ fold_right Qcplus 0 col <= 1 + tolerance.
(* a context: a value for every parent, in the order of the parents *)
Definition context_of (doms : domains) (ps : list node) (pv : list (node * outcome)) : Prop :=
  map fst pv = ps /\ forall p x, In (p, x) pv -> exists d, lookup p doms = Some d /\ In x d.
(* position of x in a list of outcomes *)
Fixpoint pos (x : outcome) (l : list outcome) : nat :=
  match l with
  | [] => 0%nat
  | y :: l' => if Qc_eq_dec x y then 0%nat else S (pos x l')
  end.
Definition dom_of (doms : domains) (p : node) : list outcome :=
  match lookup p doms with Some d => d | None => [] end.
Definition contexts_count (doms : domains) (ps : list node) : nat :=
  fold_right (fun p n => length (dom_of doms p) * n)%nat 1%nat ps.
(* the number of a context: mixed radix, the last parent varies fastest *)
Fixpoint context_index (doms : domains) (pv : list (node * outcome)) : nat :=
  match pv with
  | [] => 0%nat
  | (p, x) :: pv' => (pos x (dom_of doms p) * contexts_count doms (map fst pv') + context_index doms pv')%nat
  end.
(* in increasing order *)
Definition increasing (l : list outcome) : Prop := StronglySorted Qclt l.
(* t tabulates the function f for the current domains of the parents *)
Definition tabulates (g : graph) (doms : domains) (v : node) (f : fn) (force : list outcome) (t : tab) : Prop :=
  tvar t = v /\ tev t = parents g v /\ NoDup (tdom t) /\ tdom t <> [] /\
  (force <> [] -> tdom t = force) /\
  (force = [] -> increasing (tdom t) /\ forall x, In x (tdom t) <->
     exists pv w, context_of doms (parents g v) pv /\ call f pv = Ok w /\ In x (map fst (dist_of w))) /\
  length (tcols t) = contexts_count doms (parents g v) /\
  forall pv, context_of doms (parents g v) pv ->
    exists col w, nth_error (tcols t) (context_index doms pv) = Some col /\ call f pv = Ok w /\
      (forall x, In x (map fst (dist_of w)) -> In x (tdom t)) /\
      (is_dict (dist_of w) -> column (tdom t) (dist_of w) col) /\ prob_column col.
(* every parent has a domain, and the network reports the sizes of these domains *)
Definition parents_ready (g : graph) (doms : domains) (cards : list node -> result (list nat)) (v : node) : Prop :=
  (forall p, In p (parents g v) -> lookup p doms <> None) /\
  cards (parents g v) = Ok (map (fun p => length (dom_of doms p)) (parents g v)).
(* f answers every context with a dictionary or an outcome *)
Definition answers (doms : domains) (ps : list node) (f : fn) : Prop :=
  forall pv, context_of doms ps pv -> exists w, call f pv = Ok w /\ is_dict (dist_of w).
(* dom is the domain the variable should have: the declared one, or else the sorted possible outcomes *)
Definition right_domain (g : graph) (doms : domains) (v : node) (f : fn) (force dom : list outcome) : Prop :=
  (force <> [] -> dom = force) /\
  (force = [] -> increasing dom /\ forall x, In x dom <->
     exists pv w, context_of doms (parents g v) pv /\ call f pv = Ok w /\ In x (map fst (dist_of w))).
(* the parameter names of f are exactly the names ps, and none has a default *)
Definition signature_matches (f : fn) (ps : list node) : Prop :=
  (forall p, In p (keys (params f)) <-> In p ps) /\ (forall p b, In (p, b) (params f) -> b = false).
