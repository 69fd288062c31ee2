(* Specification vocabulary: the textbook notions the properties are stated with.
   Only the data types of graphs and motifs are taken from the model. *)
From Coq Require Import String List.
Import ListNotations.
From Verif Require Import MBase MGraph MPaths.

(* u -> v is an edge *)
Definition edge (g : graph) (u v : node) : Prop := In (u, v) (edges g).
Definition adjacent (g : graph) (u v : node) : Prop := edge g u v \/ edge g v u.

(* v is reachable from u along directed edges (in zero or more steps) *)
Inductive reach (g : graph) : node -> node -> Prop :=
| reach_refl : forall u, reach g u u
| reach_step : forall u v w, edge g u v -> reach g v w -> reach g u w.

(* v is a proper descendant of u *)
Definition descends (g : graph) (v u : node) : Prop := exists w, edge g u w /\ reach g w v.

Definition acyclic (g : graph) : Prop := forall u, ~ descends g u u.

(* what a networkx graph always satisfies *)
Definition wf_graph (g : graph) : Prop :=
  NoDup (nodes g) /\ NoDup (edges g) /\
  forall u v, edge g u v -> In u (nodes g) /\ In v (nodes g).

(* consecutive elements of a list are related *)
Inductive chain (R : node -> node -> Prop) : list node -> Prop :=
| chain_one : forall x, chain R [x]
| chain_cons : forall x y l, R x y -> chain R (y :: l) -> chain R (x :: y :: l).

(* p starts at s and ends at t *)
Definition from_to (p : list node) (s t : node) : Prop :=
  hd_error p = Some s /\ hd_error (rev p) = Some t.

Definition directed_path (g : graph) (s t : node) (p : list node) : Prop :=
  chain (edge g) p /\ from_to p s t.

(* a path in the undirected sense: adjacent consecutive nodes, no node twice *)
Definition simple_path (g : graph) (s t : node) (p : list node) : Prop :=
  chain (adjacent g) p /\ NoDup p /\ from_to p s t.

(* a, b, c are consecutive on p *)
Definition triple_on (p : list node) (a b c : node) : Prop :=
  exists l r, p = l ++ a :: b :: c :: r.

Definition is_collider (g : graph) (a b c : node) : Prop := edge g a b /\ edge g c b.

(* Pearl's blocking condition along a path, for a conditioning set Z *)
Definition active (g : graph) (Z : list node) (p : list node) : Prop :=
  forall a b c, triple_on p a b c ->
    (is_collider g a b c -> exists d, reach g b d /\ In d Z) /\
    (~ is_collider g a b c -> ~ In b Z).

(* d-connection of x and y given Z *)
Definition dconn (g : graph) (Z : list node) (x y : node) : Prop :=
  ~ In x Z /\ ~ In y Z /\ exists p, simple_path g x y p /\ active g Z p.

(* l is a topological order of (some) nodes of g: no element comes before one of its
   proper ancestors *)
Definition topological (g : graph) (l : list node) : Prop :=
  forall l1 x l2 y, l = l1 ++ x :: l2 -> In y l2 -> ~ descends g x y.

(* a well-formed network: what the constructor and the edits guarantee (C10, C11) *)
Definition wf_dag (g : graph) : Prop := wf_graph g /\ acyclic g.

(* which motif the triple a, b, c forms *)
Definition motif_of (g : graph) (a b c : node) (m : motif) : Prop :=
  match m with
  | Forward => edge g a b /\ edge g b c
  | Backward => edge g c b /\ edge g b a
  | Fork => edge g b a /\ edge g b c
  | Collider => edge g a b /\ edge g c b
  | Endpoint => False
  end.

(* some inner node of p is a collider on p *)
Definition has_collider (g : graph) (p : list node) : Prop :=
  exists a b c, triple_on p a b c /\ is_collider g a b c.

(* an active path that starts with an edge into s *)
Definition backdoor_path (g : graph) (Z : list node) (s t : node) (p : list node) : Prop :=
  simple_path g s t p /\ active g Z p /\ exists x r, p = s :: x :: r /\ edge g x s.
(* an active path that starts with an edge out of s and contains a collider *)
Definition frontdoor_indirect_path (g : graph) (Z : list node) (s t : node) (p : list node) : Prop :=
  simple_path g s t p /\ active g Z p /\ has_collider g p /\ exists x r, p = s :: x :: r /\ edge g s x.

(* x lies strictly between the two ends of p *)
Definition between (p : list node) (x : node) : Prop := exists a l r b, p = a :: l ++ x :: r ++ [b].
