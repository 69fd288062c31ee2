(* Model of core/cpd.py 196-210: how a relationship given by a function, a distribution or a random draw is printed.
   [name] stands for str() of a dictionary of parent values, [show] for str() of what is shown for them, and [cls] for the name of
   the class of the relationship.
   No proofs in this file. *)
From Coq Require Import Ascii String List Bool Arith QArith Qcanon.
Import ListNotations.
From Verif Require Import MBase MGraph MCpd.
Local Open Scope Qc_scope.

(* what is put into the dictionary of line 197: an outcome or a distribution *)
Inductive shown : Type := SOut (x : outcome) | SDist (d : dist).
(* 201-206: the first outcome with probability 1, or else the distribution *)
Fixpoint certain (l d : dist) : shown :=
  match l with
  | [] => SDist d
  | (x, Some q) :: l' => if oeqb q 1 then SOut x else certain l' d
  | (x, None) :: l' => certain l' d
  end.
(* 199-208: the loop over the parent values; a ParentsNotReadyException ends it *)
Fixpoint repr_dict (name : list (node * outcome) -> string) (f : fn) (pvs : list (list (node * outcome))) (acc : list (string * shown)) :
  result (list (string * shown)) :=
  match pvs with
  | [] => Ok acc
  | pv :: pvs' =>
    match stochastic_function f pv with
    | Ok d => repr_dict name f pvs' (dset (name pv) (certain d d) acc)
    | Err ParentsNotReady => Ok acc
    | Err e => Err e
    end
  end.
(* sorted(list(...)) of strings *)
Fixpoint sinsert (x : string) (l : list string) : list string :=
  match l with
  | [] => [x]
  | y :: l' => if String.leb x y then x :: l else y :: sinsert x l'
  end.
Definition ssort (l : list string) : list string := fold_right sinsert [] l.
(* 196-209: the lines, each with its left-hand side and what is shown on the right *)
Definition repr_lines (name : list (node * outcome) -> string) (g : graph) (doms : domains) (v : node) (f : fn) : result (list (string * shown)) :=
  dic <- match parent_values g doms v with
         | Ok pvs => repr_dict name f pvs []
         | Err ParentsNotReady => Ok []
         | Err e => Err e
         end ;;
  map_r (fun k => match lookup k dic with Some s => Ok (k, s) | None => Err KeyError end) (ssort (keys dic)).   (* 209 *)
(* 209-210 *)
Definition newline : string := String (Ascii.ascii_of_nat 10) "".
Definition line_text (show : shown -> string) (l : string * shown) : string := (fst l ++ "  ->  " ++ show (snd l))%string.
Definition repr_text (name : list (node * outcome) -> string) (show : shown -> string) (cls : string) (g : graph) (doms : domains) (v : node) (f : fn) : result string :=
  ls <- repr_lines name g doms v f ;;
  Ok (cls ++ "<" ++ v ++ "> " ++ newline ++ String.concat newline (map (line_text show) ls))%string.
