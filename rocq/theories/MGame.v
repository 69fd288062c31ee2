(* Model of export/gambit.py: macid_to_efg, _add_players, _add_payoffs, _get_cur_node and behavior_to_cpd.
   The roles of the diagram are in m, its graph, relationships and tables in n; the queries of macid_to_efg are asked of the diagram
   itself and may change it (see C37), so it is returned as it is left.
   [external] pygambit: a game is a list of players, a list of information sets, the moves (which information set a node of the
   tree belongs to) and the payoffs of leaves.  A node of the tree is given by the index tuple of gambit.py, that starts with 0; it
   has as many children as its information set has actions.  Decimals are the rationals they stand for; labels of actions are the
   outcomes themselves.  When the context of the query at a chance node has probability zero the engine's answer is not a number; as in
   MProb.v such a column is modelled by zeros, and what pygambit does with it is not modelled.
   No proofs in this file. *)
From Coq Require Import String List Bool Arith QArith Qcanon.
Import ListNotations.
From Verif Require Import MBase MGraph MMacid MCpd MNet MProb MQuery.
Local Open Scope nat_scope.

(* [external] pygambit.Infoset; no player: chance *)
Record infoset : Type := mkIset { is_player : option agent; is_label : option node; is_actions : list (option outcome); is_probs : list Qc }.
(* [external] pygambit.Game *)
Record game : Type := mkGame { g_players : list agent; g_isets : list infoset; g_moves : list (list nat * nat); g_payoffs : list (list nat * list Qc) }.
(* gambit.py 79: (agent, ((parent, value), ...)) *)
Definition key : Type := (agent * list (node * outcome))%type.
(* the local variables game, parents_to_infoset and node_idx_to_state *)
Record tree : Type := mkTree { t_game : game; t_keys : list (key * nat); t_states : list (list nat * list (node * outcome)) }.

Definition find {A B} (dec : forall a b : A, {a = b} + {a <> b}) (k : A) (l : list (A * B)) : option B :=
  match List.find (fun e => if dec k (fst e) then true else false) l with Some e => Some (snd e) | None => None end.
Definition idx_dec : forall a b : list nat, {a = b} + {a <> b} := list_eq_dec Nat.eq_dec.
Definition pair_dec (a b : node * outcome) : {a = b} + {a <> b} :=
  match string_dec (fst a) (fst b), Qc_eq_dec (snd a) (snd b) with
  | left p, left q => left (injective_projections a b p q)
  | right p, _ => right (fun e => p (f_equal fst e))
  | _, right q => right (fun e => q (f_equal snd e))
  end.
Definition key_dec (a b : key) : {a = b} + {a <> b} :=
  match string_dec (fst a) (fst b), list_eq_dec pair_dec (snd a) (snd b) with
  | left p, left q => left (injective_projections a b p q)
  | right p, _ => right (fun e => p (f_equal fst e))
  | _, right q => right (fun e => q (f_equal snd e))
  end.
(* a defaultdict(dict) *)
Definition state_of (t : tree) (idx : list nat) : list (node * outcome) :=
  match find idx_dec idx (t_states t) with Some s => s | None => [] end.

(* [external] Node.children *)
Definition children_of (g : game) (idx : list nat) : nat :=
  match find idx_dec idx (g_moves g) with
  | Some k => match nth_error (g_isets g) k with Some i => length (is_actions i) | None => 0 end
  | None => 0
  end.
(* 258-267: _get_cur_node; a child that is not there is an IndexError *)
Fixpoint walk (g : game) (here rest : list nat) : result (list nat) :=
  match rest with
  | [] => Ok here
  | i :: rest' => if i <? children_of g here then walk g (here ++ [i]) rest' else Err IndexError
  end.
Definition get_cur_node (g : game) (idx : list nat) : result (list nat) :=
  match idx with [] => Err IndexError | r :: rest => walk g [r] rest end.

(* [external] Infoset.actions[i].label = ..., for the first actions *)
Definition put_labels (acts : list outcome) (i : infoset) : result infoset :=
  if length acts <=? length (is_actions i)
  then Ok (mkIset (is_player i) (is_label i) (map Some acts ++ skipn (length acts) (is_actions i)) (is_probs i))
  else Err IndexError.
Fixpoint put_nth {A} (k : nat) (x : A) (l : list A) : list A :=
  match l, k with
  | [], _ => []
  | _ :: l', 0 => x :: l'
  | y :: l', S k' => y :: put_nth k' x l'
  end.
(* 92-96, 103-108: the state of every child *)
Definition child_states (t : tree) (idx : list nat) (d : node) (acts : list outcome) : list (list nat * list (node * outcome)) :=
  map (fun ix => (idx ++ [fst ix], dset d (snd ix) (state_of t idx))) (combine (seq 0 (length acts)) acts).
(* [external] Node.append_move with an existing information set *)
Definition move_to (t : tree) (idx : list nat) (k : nat) (isets : list infoset) (keys : list (key * nat)) (new : list (list nat * list (node * outcome))) : tree :=
  mkTree (mkGame (g_players (t_game t)) isets ((idx, k) :: g_moves (t_game t)) (g_payoffs (t_game t))) keys (new ++ t_states t).
(* 75-96 *)
Definition add_decision (m : macid) (n : net) (d : node) (t : tree) (idx : list nat) (pv : list (node * outcome)) : result tree :=
  a <- dict_get d (decision_agent m) ;;
  if negb (mem a (g_players (t_game t))) then Err KeyError                                       (* 77 *)
  else
    acts <- dict_get d (doms n) ;;
    let isets := g_isets (t_game t) in
    match find key_dec (a, pv) (t_keys t) with
    | Some k =>                                                                                  (* 81-83 *)
      match nth_error isets k with
      | None => Err IndexError
      | Some i => i' <- put_labels acts i ;; Ok (move_to t idx k (put_nth k i' isets) (t_keys t) (child_states t idx d acts))
      end
    | None =>                                                                                    (* 85-90 *)
      i' <- put_labels acts (mkIset (Some a) (Some d) (repeat None (length acts)) []) ;;
      Ok (move_to t idx (length isets) (isets ++ [i']) (((a, pv), length isets) :: t_keys t) (child_states t idx d acts))
    end.
(* 98-108, after the query: the values of the factor are used as they are *)
Definition add_chance (n : net) (d : node) (t : tree) (idx : list nat) (f : factor) : result tree :=
  acts <- dict_get d (doms n) ;;
  let k := length (fentries f) in
  if k <=? length acts then
    let isets := g_isets (t_game t) in
    Ok (move_to t idx (length isets) (isets ++ [mkIset None None (map Some (firstn k acts)) (map snd (fentries f))]) (t_keys t) (child_states t idx d (firstn k acts)))
  else Err IndexError.
(* 68-108: one tree node *)
Definition grow_at (o : order) (m : macid) (sg : list node) (d : node) (n : net) (t : tree) (idx : list nat) : net * result tree :=
  match (cur <- get_cur_node (t_game t) idx ;;
         ps <- get_parents (ngraph n) d ;;
         pv <- map_r (fun p => x <- dict_get p (state_of t idx) ;; Ok (p, x)) ps ;; Ok (cur, pv)) with
  | Err e => (n, Err e)
  | Ok (cur, pv) =>
    if mem d sg then (n, add_decision m n d t cur pv)
    else let '(n', r) := macid_query o m n [d] pv [] in (n', f <- r ;; add_chance n' d t cur f)
  end.
Fixpoint loop_tree {A} (f : net -> tree -> A -> net * result tree) (n : net) (t : tree) (l : list A) : net * result tree :=
  match l with
  | [] => (n, Ok t)
  | x :: l' => match f n t x with (n', Ok t') => loop_tree f n' t' l' | (n', Err e) => (n', Err e) end
  end.
(* 61-62, 67, 245: the index tuples of the tree nodes at which the next variable is put *)
Definition indices (cards : list nat) : list (list nat) := product ([0] :: map (seq 0) cards).
Definition grow (o : order) (m : macid) (sg : list node) (cards : list nat) (n : net) (t : tree) (id : nat * node) : net * result tree :=
  loop_tree (fun n t idx => grow_at o m sg (snd id) n t idx) n t (indices (firstn (fst id) cards)).
(* 246-253: the payoffs of one leaf *)
Fixpoint payoffs (o : order) (m : macid) (n : net) (c : list (node * outcome)) (ags : list agent) : net * result (list Qc) :=
  match ags with
  | [] => (n, Ok [])
  | a :: ags' =>
    let '(n1, r) := expected_utility o m n c [] a in
    match r with
    | Err e => (n1, Err e)
    | Ok u => let '(n2, r2) := payoffs o m n1 c ags' in (n2, us <- r2 ;; Ok (u :: us))
    end
  end.
Definition add_payoff (o : order) (m : macid) (ags : list agent) (n : net) (t : tree) (idx : list nat) : net * result tree :=
  match get_cur_node (t_game t) idx with
  | Err e => (n, Err e)
  | Ok cur =>
    let '(n', r) := payoffs o m n (state_of t idx) ags in
    (n', us <- r ;;
         Ok (mkTree (mkGame (g_players (t_game t)) (g_isets (t_game t)) (g_moves (t_game t)) ((cur, us) :: g_payoffs (t_game t))) (t_keys t) (t_states t)))
  end.
(* 17-112; None: the default of the argument *)
Definition macid_to_efg (o : order) (m : macid) (n : net) (sg : option (list node)) (ags : option (list agent)) : net * result (game * list (key * nat)) :=
  let sg := match sg with Some l => l | None => decisions m end in
  let ags := match ags with Some l => l | None => agents m end in
  match (pss <- map_r (get_parents (ngraph n)) sg ;;
         vs <- get_valid_order o (with_graph m (ngraph n)) (Some (to_set (sg ++ concat pss))) ;;
         cards <- map_r (fun v => d <- dict_get v (doms n) ;; Ok (length d)) vs ;; Ok (vs, cards)) with
  | Err e => (n, Err e)
  | Ok (vs, cards) =>
    match loop_tree (grow o m sg cards) n (mkTree (mkGame ags [] [] []) [] []) (combine (seq 0 (length vs)) vs) with
    | (n1, Err e) => (n1, Err e)
    | (n1, Ok t) =>
      let '(n2, r) := loop_tree (add_payoff o m ags) n1 t (indices cards) in
      (n2, t' <- r ;; Ok (t_game t', t_keys t'))
    end
  end.

(* 192-203: the distribution of a decision; a missing information set gives {} *)
Definition action_prob (m : macid) (n : net) (keys : list (key * nat)) (b : nat -> list Qc) (d : node) (pv : list (node * outcome)) : result value :=
  a <- dict_get d (decision_agent m) ;;
  match find key_dec (a, pv) keys with
  | None => Ok (VDist [])
  | Some k => acts <- dict_get d (doms n) ;; if length (b k) <=? length acts then Ok (VDist (map (fun xp => (fst xp, Some (snd xp))) (combine acts (b k)))) else Err IndexError
  end.
(* 176-224; b is the behaviour: the probabilities of the actions of every information set *)
Definition behavior_to_cpd (m : macid) (n : net) (keys : list (key * nat)) (b : nat -> list Qc) (sg : option (list node)) : result (list tab) :=
  map_r (fun d => dom <- dict_get d (doms n) ;; init_table (ngraph n) (doms n) (cards_of n) d (mkFn [] true (action_prob m n keys b d)) dom KStoch)
        (match sg with Some l => l | None => decisions m end).
