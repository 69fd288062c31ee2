(* Basic vocabulary of the model: node names, Python exceptions as values,
   insertion-ordered dictionaries, finite sets with an arbitrary iteration order.
   No proofs in this file. *)
From Coq Require Import String List Bool Arith Permutation.
Import ListNotations.

(* Node labels are Python strings (causal_bayesian_network.py 91-93 rejects anything else). *)
Definition node := string.

(* Python exception types raised in /repo or in the library calls it makes.
   Messages are dropped. *)
Inductive error : Type :=
| KeyError | ValueError | IndexError | RuntimeError | TypeError | AttributeError
| AssertionError | NetworkXError | NetworkXPointlessConcept | ParentsNotReady | StopIteration
| OutOfFuel.   (* not a Python exception: the model's loop bound was reached *)

Inductive result (A : Type) : Type :=
| Ok (a : A)
| Err (e : error).
Arguments Ok {A} a.
Arguments Err {A} e.

Definition bind {A B} (m : result A) (f : A -> result B) : result B :=
  match m with Ok a => f a | Err e => Err e end.
Notation "x <- m ;; f" := (bind m (fun x => f)) (at level 61, m at next level, right associativity).

Definition is_ok {A} (m : result A) : bool := match m with Ok _ => true | Err _ => false end.

(* x in l *)
Definition mem (x : node) (l : list node) : bool := existsb (String.eqb x) l.

(* set(l): the members without repetition (order irrelevant, see [order]) *)
Definition to_set (l : list node) : list node := nodup string_dec l.
(* set(a) - set(b) *)
Definition set_diff (a b : list node) : list node := filter (fun x => negb (mem x b)) (to_set a).
(* set(a) | set(b) *)
Definition set_union (a b : list node) : list node := to_set (a ++ b).
(* set(a) & set(b) *)
Definition set_inter (a b : list node) : list node := filter (fun x => mem x b) (to_set a).

(* The order in which Python iterates over a set of strings depends on the hash seed of
   the process and on the history of the set.  An [order] says in which order the members
   of a set are visited at a given point of the computation (identified by a key). *)
Definition order := list node -> list node -> list node.
Definition valid_order (o : order) : Prop := forall k l, Permutation (o k l) l.
Definition id_order : order := fun _ l => l.
Definition rev_order : order := fun _ l => rev l.

(* Insertion-ordered dictionaries with string keys. *)
Fixpoint lookup {A} (k : string) (d : list (string * A)) : option A :=
  match d with
  | [] => None
  | (k', v) :: d' => if String.eqb k k' then Some v else lookup k d'
  end.
(* d[k] = v : keeps the position of an existing key, appends a new one *)
Fixpoint dset {A} (k : string) (v : A) (d : list (string * A)) : list (string * A) :=
  match d with
  | [] => [(k, v)]
  | (k', v') :: d' => if String.eqb k k' then (k, v) :: d' else (k', v') :: dset k v d'
  end.
(* del d[k] (absent keys are the caller's business) *)
Definition ddel {A} (k : string) (d : list (string * A)) : list (string * A) :=
  filter (fun kv => negb (String.eqb k (fst kv))) d.
Definition keys {A} (d : list (string * A)) : list string := map fst d.

(* list.remove(x): drops the first occurrence *)
Fixpoint remove_first (x : string) (l : list string) : list string :=
  match l with
  | [] => []
  | y :: l' => if String.eqb x y then l' else y :: remove_first x l'
  end.

(* list.index(x) *)
Fixpoint index_of (x : string) (l : list string) : option nat :=
  match l with
  | [] => None
  | y :: l' => if String.eqb x y then Some 0 else option_map S (index_of x l')
  end.

(* Work-list computation of the set of elements reachable from [todo] by [step]:
   the loop shape of pgmpy's _get_ancestors_of / active_trail_nodes and of networkx's
   descendants.  [fuel] bounds the number of iterations; [closure] supplies a bound that is
   large enough whenever everything reachable lies in [universe] (proved in LBase.v). *)
Section Closure.
  Context {A : Type} (eqb : A -> A -> bool) (step : A -> list A).
  Fixpoint worklist (fuel : nat) (visited todo : list A) : list A :=
    match fuel with
    | O => visited
    | S fuel' =>
        match todo with
        | [] => visited
        | x :: todo' =>
            if existsb (eqb x) visited then worklist fuel' visited todo'
            else worklist fuel' (x :: visited) (step x ++ todo')
        end
    end.
  Definition closure_fuel (universe todo : list A) : nat :=
    S (length todo + fold_right (fun x n => length (step x) + n) 0 universe).
  Definition closure (universe todo : list A) : list A :=
    worklist (closure_fuel universe todo) [] todo.
End Closure.
