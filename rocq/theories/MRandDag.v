(* Model of random/random_dag.py.
   The random module is a stream of numbers rnd : nat -> nat, of which every call takes the next one or two; every sequence of
   results that random.choice and random.sample can give is given by some stream.  The loops of the code need not
   end: fuel bounds the number of rounds, OutOfFuel means that the loop is still running.
   No proofs in this file. *)
From Coq Require Import String List Bool Arith ZArith QArith Qround Decimal DecimalString.
Import ListNotations.
From Verif Require Import MBase MGraph.
Local Open Scope nat_scope.

(* str(i) *)
Definition str_of (i : nat) : string := NilZero.string_of_uint (Nat.to_uint i).
(* random_dag.py 25: f"X{i}" *)
Definition xname (i : nat) : node := String.append "X" (str_of i).
Definition names (k : nat) : list node := map xname (seq 0 k).

(* [external] random.choice: IndexError for an empty sequence; takes the number k of the stream *)
Definition choice {A} (rnd : nat -> nat) (k : nat) (l : list A) : result A :=
  match l with
  | [] => Err IndexError
  | _ => match nth_error l (rnd k mod length l) with Some x => Ok x | None => Err IndexError end
  end.
(* [external] random.sample(l, 2): two different positions; ValueError if there are not two *)
Definition sample2 {A} (rnd : nat -> nat) (k : nat) (l : list A) : result (A * A) :=
  if length l <? 2 then Err ValueError
  else
    let i := rnd k mod length l in
    let j := rnd (k + 1) mod (length l - 1) in
    match nth_error l i, nth_error l (if j <? i then j else j + 1) with
    | Some x, Some y => Ok (x, y)
    | _, _ => Err IndexError
    end.
(* list.index, for an element of the list *)
Fixpoint index (x : node) (l : list node) : nat :=
  match l with [] => 0 | y :: l' => if String.eqb x y then 0 else S (index x l') end.
(* [external] DiGraph.in_degree *)
Definition in_degree (g : graph) (v : node) : nat := length (parents g v).

(* random_dag.py 7-18.  Simplification: max_in_degree is not negative. *)
Definition add_random_edge (rnd : nat -> nat) (k : nat) (g : graph) (order : list node) (max_in_degree : nat) : result graph :=
  s <- sample2 rnd k order ;;
  let '(n1, n2) := s in
  if (index n1 order <? index n2 order) && (in_degree g n2 <? max_in_degree) then Ok (nx_add_edge g n1 n2)
  else if (index n2 order <? index n1 order) && (in_degree g n1 <? max_in_degree) then Ok (nx_add_edge g n2 n1)
  else Ok g.
(* 36-46: join the nodes one after the other; returns the graph and how many numbers have been used *)
Fixpoint connect (fuel : nat) (rnd : nat -> nat) (k : nat) (order : list node) (max_in_degree : nat) (g : graph) (visited unvisited : list node) : result (graph * nat) :=
  match unvisited with
  | [] => Ok (g, k)
  | _ =>
    match fuel with
    | 0 => Err OutOfFuel
    | S fuel' =>
      n <- choice rnd k unvisited ;;
      neighbor <- choice rnd (k + 1) visited ;;
      if (index n order <? index neighbor order) && (in_degree g neighbor <? max_in_degree) then
        connect fuel' rnd (k + 2) order max_in_degree (nx_add_edge g n neighbor) (visited ++ [n]) (remove_first n unvisited)
      else if index neighbor order <? index n order then
        connect fuel' rnd (k + 2) order max_in_degree (nx_add_edge g neighbor n) (visited ++ [n]) (remove_first n unvisited)
      else connect fuel' rnd (k + 2) order max_in_degree g visited unvisited
    end
  end.
(* 49-50: the call leaves max_in_degree of add_random_edge at its default, 4 *)
Fixpoint densify (fuel : nat) (rnd : nat -> nat) (k : nat) (order : list node) (target : Z) (g : graph) : result graph :=
  if (Z.of_nat (length (edges g)) <? target)%Z then
    match fuel with
    | 0 => Err OutOfFuel
    | S fuel' => g' <- add_random_edge rnd k g order 4 ;; densify fuel' rnd (k + 2) order target g'
    end
  else Ok g.
(* 48-49: int(edge_density * (n * (n - 1) / 2)), for a rational density; floats may round the product differently *)
Definition wanted_edges (n : nat) (density : Q) : Z := Qfloor (density * (inject_Z (Z.of_nat (n * (n - 1))) / 2))%Q.
(* 21-51 *)
Definition random_dag (fuel : nat) (rnd : nat -> nat) (n : nat) (density : Q) (max_in_degree : nat) : result graph :=
  let order := names n in
  first <- choice rnd 0 order ;;
  s <- connect fuel rnd 1 order max_in_degree (add_node empty_graph first) [first] (remove_first first order) ;;
  densify fuel rnd (snd s) order (wanted_edges n density) (fst s).
