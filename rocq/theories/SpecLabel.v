(* Specification: the text of an expression in a line of source code.  Independent of the model's search functions. *)
From Coq Require Import String Ascii List.
Import ListNotations.

Definition opens (c : ascii) : Prop := c = "("%char \/ c = "["%char \/ c = "{"%char.
Definition closes (c : ascii) : Prop := c = ")"%char \/ c = "]"%char \/ c = "}"%char.
(* text in which every bracket has its partner; unless free, all commas are inside brackets *)
Inductive expression : bool -> list ascii -> Prop :=
| e_nil : forall free, expression free []
| e_char : forall free c s, ~ opens c -> ~ closes c -> (c = ","%char -> free = true) -> expression free s -> expression free (c :: s)
| e_group : forall free o inner c s, opens o -> closes c -> expression true inner -> expression free s -> expression free (o :: inner ++ c :: s).
(* p occurs in s at the position i *)
Definition occurs (p s : list ascii) (i : nat) : Prop := exists a b, s = a ++ p ++ b /\ length a = i.
(* the first place at which it does so from the position k on *)
Definition first_from (p s : list ascii) (k i : nat) : Prop := k <= i /\ occurs p s i /\ forall j, k <= j -> occurs p s j -> i <= j.
