(* Specification vocabulary for decision rules and policies. *)
From Coq Require Import String List Bool Arith QArith Qcanon.
Import ListNotations.
From Verif Require Import MBase MGraph MMacid MCpd MNet MProb MQuery Spec SpecC SpecN SpecQ.
Local Open Scope Qc_scope.

(* a deterministic decision rule of d: an outcome of d for every context *)
Definition choice_function (n : net) (d : node) (h : list (node * outcome) -> outcome) : Prop :=
  forall pv, context_of (doms n) (parents (ngraph n) d) pv -> In (h pv) (dom_of (doms n) d).
(* t is the rule that plays h: a table of d over its parents that gives h(context) probability one *)
Definition plays (n : net) (d : node) (h : list (node * outcome) -> outcome) (t : tab) : Prop :=
  tvar t = d /\ has_domain n d (tdom t) /\ tev t = parents (ngraph n) d /\
  tcards t = map (fun p => length (dom_of (doms n) p)) (parents (ngraph n) d) /\ tkind t = KStoch /\
  length (tcols t) = contexts_count (doms n) (parents (ngraph n) d) /\
  forall pv, context_of (doms n) (parents (ngraph n) d) pv ->
    exists col, nth_error (tcols t) (context_index (doms n) pv) = Some col /\ length col = length (tdom t) /\
      forall i x, nth_error (tdom t) i = Some x -> nth_error col i = Some (if Qc_eq_dec x (h pv) then 1 else 0).
(* the decision d has a domain without repetitions, and its parents have non-empty tables *)
Definition open_decision (n : net) (d : node) : Prop :=
  In d (nodes (ngraph n)) /\ (exists dom, has_domain n d dom /\ NoDup dom) /\
  forall p, edge (ngraph n) p d -> exists t, has_table n p t /\ has_domain n p (tdom t) /\ NoDup (tdom t) /\ tdom t <> [].

(* ---- behaviour and value ---- *)
(* the values are in the domains *)
Definition within (n : net) (a : asg) : Prop := forall v, In v (nodes (ngraph n)) -> In (a v) (dom_of (doms n) v).
(* b d a: the probability that d takes the value a(d) when its parents have the values a gives them *)
Definition behaviour : Type := node -> asg -> Qc.
(* b is a (possibly random) policy for the decisions ds: what d does depends only on what is observed *)
Definition policy (n : net) (ds : list node) (b : behaviour) : Prop :=
  forall d, In d ds ->
    (forall a a', a d = a' d -> (forall p, edge (ngraph n) p d -> a p = a' p) -> b d a = b d a') /\
    (forall a, 0 <= b d a) /\
    (forall a, (forall p, edge (ngraph n) p d -> In (a p) (dom_of (doms n) p)) -> fold_right Qcplus 0 (map (fun x => b d (upd a d x)) (dom_of (doms n) d)) = 1).
(* the conditional probability of v when the decisions ds behave as b *)
Definition follow (n : net) (ds : list node) (b : behaviour) (v : node) (a : asg) : Qc :=
  if in_dec String.string_dec v ds then b v a else kernel n v a.
(* the expected sum of the variables us when the decisions ds behave as b *)
Definition value (n : net) (ds : list node) (b : behaviour) (us : list node) : Qc :=
  total (dom_of (doms n)) (nodes (ngraph n))
    (fun a => fold_right Qcplus 0 (map a us) * fold_right Qcmult 1 (map (fun v => follow n ds b v a) (nodes (ngraph n)))) (fun _ => 0).
(* a choice for every decision, as a function of what it observes *)
Definition choice (n : net) (ds : list node) (H : node -> asg -> outcome) : Prop :=
  forall d, In d ds ->
    (forall a a', (forall p, edge (ngraph n) p d -> a p = a' p) -> H d a = H d a') /\
    (forall a, (forall p, edge (ngraph n) p d -> In (a p) (dom_of (doms n) p)) -> In (H d a) (dom_of (doms n) d)).
(* the behaviour of always making that choice *)
Definition pure (H : node -> asg -> outcome) : behaviour := fun d a => if Qc_eq_dec (a d) (H d a) then 1 else 0.
(* the tables p, one for each decision of ds, act as b *)
Definition acts (n : net) (ds : list node) (p : list tab) (b : behaviour) : Prop :=
  map tvar p = ds /\ forall t a, In t p -> within n a -> entry (doms n) t a = b (tvar t) a.
(* decisions without a rule (DecisionDomain objects) are made at random, with equal probabilities *)
Definition unset_uniform (n : net) : Prop :=
  forall d t a, has_table n d t -> tkind t = KDec -> within n a -> entry (doms n) t a = 1 / Qc_of_nat (length (dom_of (doms n) d)).
(* a and b differ by at most the fraction tol of one of them *)
Definition absolute (x : Qc) : Qc := if Qclt_le_dec x 0 then - x else x.
Definition close (tol a b : Qc) : Prop := a = b \/ absolute (a - b) <= tol * absolute a \/ absolute (a - b) <= tol * absolute b.
(* the expected sum of the variables us when d is set to x, given what d observes *)
Definition pay (n : net) (us : list node) (d : node) (pv : list (node * outcome)) (x : outcome) : Qc :=
  fold_right Qcplus 0 (map (expectation n [(d, x)] pv) us).
