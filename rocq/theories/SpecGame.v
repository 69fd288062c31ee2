(* Specification vocabulary for the exported game.  A position of the tree is the list of the numbers of the branches taken from the
   root; at depth i the branches are the values of the i-th variable of the list vs. *)
From Coq Require Import String List Bool Arith QArith Qcanon.
Import ListNotations.
From Verif Require Import MBase MGraph MMacid MCpd MNet MProb MQuery MGame Spec SpecM SpecC SpecN SpecQ SpecPol.
Local Open Scope nat_scope.

(* the joint outcome that the position p stands for *)
Fixpoint history (n : net) (vs : list node) (p : list nat) : list (node * outcome) :=
  match vs, p with
  | v :: vs', i :: p' => (v, nth i (dom_of (doms n) v) (Q2Qc 0)) :: history n vs' p'
  | _, _ => []
  end.
(* p is a position *)
Fixpoint position (n : net) (vs : list node) (p : list nat) {struct p} : Prop :=
  match p, vs with
  | [], _ => True
  | i :: p', v :: vs' => i < length (dom_of (doms n) v) /\ position n vs' p'
  | _ :: _, [] => False
  end.
(* the variable at the position p is v *)
Definition at_variable (vs : list node) (p : list nat) (v : node) : Prop := nth_error vs (length p) = Some v.
(* pv: the parents of v with their values in h *)
Definition sees (n : net) (v : node) (h pv : list (node * outcome)) : Prop := map fst pv = parents (ngraph n) v /\ incl pv h.
(* the position p belongs to the information set number k *)
Definition belongs (g : game) (p : list nat) (k : nat) : Prop := In (0 :: p, k) (g_moves g).
(* every part of the diagram is connected with every other *)
Definition connected (n : net) : Prop := forall u v, In u (nodes (ngraph n)) -> In v (nodes (ngraph n)) -> joined (ngraph n) [] u v.
(* two decisions of one agent never observe the same variables *)
Definition separate (m : macid) (n : net) (sg : list node) : Prop :=
  forall d d', In d sg -> In d' sg -> lookup d (decision_agent m) = lookup d' (decision_agent m) -> parents (ngraph n) d = parents (ngraph n) d' -> d = d'.
(* vs lists the decisions sg and their parents, ancestors first *)
Definition tree_variables (n : net) (sg vs : list node) : Prop :=
  NoDup vs /\ (forall v, In v vs <-> In v sg \/ exists d, In d sg /\ edge (ngraph n) v d) /\ topological (ngraph n) vs.
(* an optional argument and its default *)
Definition or_default {A} (x : option A) (d : A) : A := match x with Some y => y | None => d end.

(* ---- playing the game ---- *)
(* b gives the probabilities of the actions of every information set of a player *)
Definition behaves (g : game) (b : nat -> list Qc) : Prop :=
  forall k s a, nth_error (g_isets g) k = Some s -> is_player s = Some a ->
    length (b k) = length (is_actions s) /\ (forall q, In q (b k) -> (0 <= q)%Qc) /\ fold_right Qcplus 0%Qc (b k) = 1%Qc.
(* the probability of taking the branch i at the position p: the player's or that of chance *)
Definition branch_prob (g : game) (b : nat -> list Qc) (p : list nat) (i : nat) : Qc :=
  match find idx_dec (0 :: p) (g_moves g) with
  | Some k => match nth_error (g_isets g) k with
              | Some s => nth i (match is_player s with Some _ => b k | None => is_probs s end) 0%Qc
              | None => 0%Qc
              end
  | None => 0%Qc
  end.
(* the probability of going on along rest from the position p *)
Fixpoint reach_prob (g : game) (b : nat -> list Qc) (p rest : list nat) : Qc :=
  match rest with
  | [] => 1%Qc
  | i :: rest' => (branch_prob g b p i * reach_prob g b (p ++ [i]) rest')%Qc
  end.
(* the expected payoff of the player number j *)
Definition game_value (g : game) (b : nat -> list Qc) (j : nat) : Qc :=
  fold_right Qcplus 0%Qc (map (fun e => (reach_prob g b [] (tl (fst e)) * nth j (snd e) 0)%Qc) (g_payoffs g)).
(* decisions that would share information sets (see C49) have equally many choices *)
Definition compatible (m : macid) (n : net) (sg : list node) : Prop :=
  forall d d', In d sg -> In d' sg -> lookup d (decision_agent m) = lookup d' (decision_agent m) -> parents (ngraph n) d = parents (ngraph n) d' ->
    length (dom_of (doms n) d) = length (dom_of (doms n) d').
(* b' differs from b only in what the player a does *)
Definition game_deviation (g : game) (a : agent) (b b' : nat -> list Qc) : Prop :=
  behaves g b' /\ forall k s, nth_error (g_isets g) k = Some s -> is_player s <> Some a -> b' k = b k.
(* a Nash equilibrium of the game: no player gains by deviating alone *)
Definition game_equilibrium (g : game) (b : nat -> list Qc) : Prop :=
  forall j a b', nth_error (g_players g) j = Some a -> game_deviation g a b b' -> (game_value g b' j <= game_value g b j)%Qc.
(* the same for policies of the decisions sg of the diagram: c' differs from c only in the decisions of a *)
Definition deviation (m : macid) (n : net) (sg : list node) (a : agent) (c c' : behaviour) : Prop :=
  policy n sg c' /\ forall d x, In d sg -> lookup d (decision_agent m) <> Some a -> within n x -> c' d x = c d x.
Definition equilibrium (m : macid) (n : net) (sg : list node) (ags : list agent) (c : behaviour) : Prop :=
  forall a us c', In a ags -> lookup a (agent_utilities m) = Some us -> deviation m n sg a c c' -> (value n sg c' us <= value n sg c us)%Qc.
