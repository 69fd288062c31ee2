(* Specification vocabulary for networks with relationships. *)
From Coq Require Import String List Bool Arith QArith Qcanon.
Import ListNotations.
From Verif Require Import MBase MGraph MMacid MCpd MNet Spec SpecC.

(* the relationship belongs to v: a ready-made table is for v, and a function does not raise the exception
   the network uses internally for waiting *)
Definition proper (v : node) (r : rel) : Prop :=
  match r with
  | RTab t => tvar t = v
  | RFun f => forall pv, body f pv <> Err ParentsNotReady
  | _ => True
  end.
(* v has the table t *)
Definition has_table (n : net) (v : node) (t : tab) : Prop := In t (cpds n) /\ tvar t = v.
Definition has_domain (n : net) (v : node) (d : list outcome) : Prop := lookup v (doms n) = Some d.
(* t is the table that the relationship r gives v for the domains ds *)
Definition reflects (g : graph) (ds : domains) (v : node) (r : rel) (t : tab) : Prop :=
  match r with
  | RTab t' => t = t'
  | RFun f => tabulates g ds v f [] t
  | RDist d => tabulates g ds v (const_fn d) [] t
  | RDom l => tabulates g ds v (const_fn []) l t
  end.
(* r can be tabulated without looking at the parents, or all parents have domains *)
Definition can_tabulate (n : net) (v : node) (r : rel) : Prop :=
  (exists t, r = RTab t) \/ forall p, edge (ngraph n) p v -> exists d, has_domain n p d.
(* the relationship of v after a history of additions and removals: the last one given and not removed since *)
Definition last_given (os : list op) (v : node) : option rel :=
  fold_left (fun cur o => match o with
                          | OAdd u r => if String.eqb u v then Some r else cur
                          | ODel u => if String.eqb u v then None else cur
                          end) os None.
(* two networks agree on tables and domains *)
Definition same_tables (n m : net) : Prop := forall v t, has_table n v t <-> has_table m v t.
Definition same_domains (n m : net) : Prop := forall v d, has_domain n v d <-> has_domain m v d.
Definition same_rels (n m : net) : Prop := forall v, lookup v (rels n) = lookup v (rels m).
