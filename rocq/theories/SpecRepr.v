(* Specification vocabulary for printed relationships. *)
From Coq Require Import Ascii String List Bool Arith QArith Qcanon Sorted.
Import ListNotations.
From Verif Require Import MBase MCpd MRepr SpecC.
Local Open Scope Qc_scope.

(* the line of a context with distribution d: an outcome of probability 1, or the whole distribution if there is none *)
Definition fits (d : dist) (s : shown) : Prop :=
  match s with SOut x => gives d x 1 | SDist d' => d' = d /\ forall x, ~ gives d x 1 end.
(* in alphabetical order *)
Definition alphabetical (l : list string) : Prop := Sorted (fun a b => String.leb a b = true) l.
(* different contexts are written differently *)
Definition written_apart (name : list (node * outcome) -> string) (doms : domains) (ps : list node) : Prop :=
  forall pv pv', context_of doms ps pv -> context_of doms ps pv' -> name pv = name pv' -> pv = pv'.
(* all columns add up to exactly one *)
Definition adds_up (t : tab) : Prop := forall col, In col (tcols t) -> fold_right Qcplus 0 col = 1.
(* the character with number k is not in the text s *)
Definition without (k : nat) (s : string) : Prop := ~ In (ascii_of_nat k) (list_ascii_of_string s).
(* s may be shown for a context of f *)
Definition may_show (doms : domains) (ps : list node) (f : fn) (s : shown) : Prop :=
  exists pv w, context_of doms ps pv /\ call f pv = Ok w /\ fits (dist_of w) s.
