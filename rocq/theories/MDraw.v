(* What the drawing functions decide about a node: shape, colour, label colour of a component.
   The drawing itself (matplotlib, layouts, label positions) is not modelled.  No proofs in this file. *)
From Coq Require Import String List Bool Arith.
Import ListNotations.
From Verif Require Import MBase MGraph MMacid MRel.
Local Open Scope string_scope.

(* matplotlib's cm.rainbow(np.linspace(0, 1, k))[i] is kept as Rainbow i k *)
Inductive color : Type := Named (c : string) | Rainbow (i k : nat).

(* list.index *)
Fixpoint index_of (x : string) (l : list string) : option nat :=
  match l with
  | [] => None
  | y :: l' => if String.eqb x y then Some 0 else option_map S (index_of x l')
  end.
(* macid_base.py 436-453: MACIDBase._get_color *)
Definition macid_color (m : macid) (v : node) : result color :=
  let ags := agents m in
  match (match lookup v (decision_agent m) with Some a => Some a | None => lookup v (utility_agent m) end) with
  | Some a => match index_of a ags with Some i => Ok (Rainbow i (length ags)) | None => Err ValueError end
  | None => Ok (Named "lightgray")
  end.
(* macid_base.py 455-461: MACIDBase._get_shape *)
Definition macid_shape (m : macid) (v : node) : string :=
  if mem v (decisions m) then "s" else if mem v (utilities m) then "D" else "o".
(* cid.py 84-90: CID._get_color *)
Definition cid_color (m : macid) (v : node) : color :=
  if mem v (decisions m) then Named "lightblue" else if mem v (utilities m) then Named "yellow" else Named "lightgray".
(* causal_bayesian_network.py 254-260: CausalBayesianNetwork._get_color, _get_shape *)
Definition cbn_color (v : node) : color := Named "lightgray".
Definition cbn_shape (v : node) : string := "o".
(* causal_bayesian_network.py 305-314: the colour function of draw_property *)
Definition property_color (p : node -> bool) (c : string) (get : node -> result color) (v : node) : result color :=
  if p v then Ok (Named c) else get v.
(* relevance_graph.py 48-56: RelevanceGraph._set_color_scc (the first component that holds the node; 0 if none does) *)
Fixpoint first_holding (v : node) (sccs : list (list node)) (i : nat) : option nat :=
  match sccs with
  | [] => None
  | c :: cs => if mem v c then Some i else first_holding v cs (S i)
  end.
Definition set_color_scc (v : node) (sccs : list (list node)) : result color :=
  let k := match first_holding v sccs 0 with Some i => i | None => 0 end in
  match sccs with [] => Err IndexError | _ => Ok (Rainbow k (length sccs)) end.
