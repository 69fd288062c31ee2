(* Specification vocabulary for strategic dependence. *)
From Coq Require Import String List QArith Qcanon.
Import ListNotations.
From Verif Require Import MBase MGraph MMacid MCpd MNet Spec SpecM SpecN SpecQ SpecPol SpecVoi SpecGen.
Local Open Scope Qc_scope.

(* us are the utilities of the agent who takes decision d *)
Definition own_utilities (m : macid) (d : node) (us : list node) : Prop :=
  NoDup us /\ exists a, has_role m d (RDecision a) /\ forall u, In u us <-> has_role m u (RUtility a).
(* in some game on the diagram, d cannot be decided well without knowing how e is played: whatever rule b is chosen
   for d, there is a way to play e against which another rule gives the agent of d more *)
Definition needs_to_know (m : macid) (d e : node) : Prop :=
  exists us n, own_utilities m d us /\ distribution n /\ ngraph n = mgraph m /\
    forall b, policy n [d] b -> exists n' b', distribution n' /\ differ_in (fun x => x = e) n n' /\ policy n [d] b' /\ value n' [d] b us < value n' [d] b' us.
(* an order of the decisions in which nobody needs to know how an earlier decision is played: they can be taken from the last to the first *)
Definition solving_order (m : macid) (l : list node) : Prop :=
  forall pre d post e, l = pre ++ d :: post -> In e pre -> ~ needs_to_know m d e.
(* chains of decisions in ds, each of which needs to know the next *)
Inductive needs_chain (m : macid) (ds : list node) : node -> node -> Prop :=
| needs_refl : forall d, needs_chain m ds d d
| needs_step : forall x y z, In x ds -> In y ds -> needs_to_know m x y -> needs_chain m ds y z -> needs_chain m ds x z.
