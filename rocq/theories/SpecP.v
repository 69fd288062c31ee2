(* Specification vocabulary for reasoning patterns (Pfeffer and Gal 2007), as documented in the
   docstrings of reasoning_patterns.py. *)
From Coq Require Import String List Bool.
Import ListNotations.
From Verif Require Import MBase MGraph MPaths MMacid MIncent Spec SpecM SpecI.

(* every decision on the path, except possibly its first node, is in E *)
Definition effective (m : macid) (E p : list node) : Prop :=
  forall n, In n (tl p) -> is_decision m n -> In n E.
(* a directed path from s to t without decisions strictly between *)
Definition decision_free (m : macid) (s t : node) : Prop :=
  exists p, directed_path (mgraph m) s t p /\ forall x, between p x -> ~ is_decision m x.
(* u is a utility of the owner of the decision d *)
Definition utility_of (m : macid) (d u : node) : Prop :=
  exists a, has_role m d (RDecision a) /\ has_role m u (RUtility a).

Definition has_direct_effect (m : macid) (d : node) : Prop :=
  exists u, utility_of m d u /\ decision_free m d u.
(* conditions 1 and 2 of the other patterns: e is an effective decision reached from d without
   passing a decision, and an effective directed path leads from e to the utility u of d *)
Definition reaches_through (m : macid) (E : list node) (d e u : node) : Prop :=
  is_decision m e /\ e <> d /\ In e E /\ decision_free m d e /\ utility_of m d u /\
  exists p, directed_path (mgraph m) e u p /\ effective m E p.
Definition manipulates (m : macid) (E : list node) (d : node) : Prop :=
  exists e u v p, reaches_through m E d e u /\ utility_of m e v /\
    directed_path (mgraph m) d v p /\ effective m E p /\ ~ In e p.
(* W: e and the parents of e that do not descend from d *)
Definition blockers (g : graph) (e d : node) (Z : list node) : Prop :=
  forall z, In z Z <-> z = e \/ (edge g z e /\ ~ descends g z d).
Definition reveals (m : macid) (E : list node) (d : node) : Prop :=
  exists e u v p Z, reaches_through m E d e u /\ utility_of m e v /\
    blockers (mgraph m) e d Z /\ frontdoor_indirect_path (mgraph m) Z d v p.
(* c is the first fork on p *)
Definition first_fork (g : graph) (p : list node) (c : node) : Prop :=
  exists l a b r, p = l ++ a :: c :: b :: r /\ motif_of g a c b Fork /\
    forall l' x y z r', p = l' ++ x :: y :: z :: r' -> length l' < length l -> ~ motif_of g x y z Fork.
(* an effective back-door path from d to v that is not blocked *)
Definition opens (m : macid) (E : list node) (d e v : node) (p : list node) : Prop :=
  effective m E p /\ exists Z, blockers (mgraph m) e d Z /\ backdoor_path (mgraph m) Z d v p.
(* an effective path from c to u that is not blocked *)
Definition informs (m : macid) (E : list node) (d c u : node) : Prop :=
  exists Z q, blockers (mgraph m) d c Z /\ simple_path (mgraph m) c u q /\ active (mgraph m) Z q /\ effective m E q.
Definition signals (m : macid) (E : list node) (d : node) : Prop :=
  exists e u v p c, reaches_through m E d e u /\ utility_of m e v /\ opens m E d e v p /\
    first_fork (mgraph m) p c /\ informs m E d c u.
(* the same whichever back-door path is chosen *)
Definition signals_always (m : macid) (E : list node) (d : node) : Prop :=
  exists e u v, reaches_through m E d e u /\ utility_of m e v /\ (exists p, opens m E d e v p) /\
    forall p c, opens m E d e v p -> first_fork (mgraph m) p c -> informs m E d c u.
(* no edge leaves a utility *)
Definition leaf_utilities (m : macid) : Prop := forall u x, is_utility m u -> ~ edge (mgraph m) u x.

(* "an effective path is a path in which all decision nodes, except possibly the initial node,
   and except fork nodes, are effective" (docstrings, lines 105-106) *)
Definition effective_doc (m : macid) (E p : list node) : Prop :=
  forall n, In n (tl p) -> is_decision m n ->
    In n E \/ exists l a b r, p = l ++ a :: n :: b :: r /\ motif_of (mgraph m) a n b Fork.
(* the docstring of revealing_or_denying asks for an effective front-door path *)
Definition reveals_documented (m : macid) (E : list node) (d : node) : Prop :=
  exists e u v p Z, reaches_through m E d e u /\ utility_of m e v /\
    blockers (mgraph m) e d Z /\ frontdoor_indirect_path (mgraph m) Z d v p /\ effective_doc m E p.
(* the docstring of signaling *)
Definition signals_documented (m : macid) (E : list node) (d : node) : Prop :=
  exists e u v p c Z Y q, reaches_through m E d e u /\ utility_of m e v /\
    blockers (mgraph m) e d Z /\ backdoor_path (mgraph m) Z d v p /\ effective_doc m E p /\
    first_fork (mgraph m) p c /\
    blockers (mgraph m) d c Y /\ simple_path (mgraph m) c u q /\ active (mgraph m) Y q /\ effective_doc m E q.
