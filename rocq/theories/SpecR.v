(* Specification vocabulary for the condensed relevance graph. *)
From Coq Require Import String List Permutation.
Import ListNotations.
From Verif Require Import MBase MRel.

(* an enumeration of components: any order of the components, any order inside each *)
Definition valid_components (so : component_order) : Prop :=
  forall cs, exists cs', Permutation cs cs' /\ Forall2 (@Permutation node) cs' (so cs).
