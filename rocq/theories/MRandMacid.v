(* Model of random/random_macidbase.py; for random_cid.py, random_macid.py and add_random_cpds see MRandCid.v.
   Randomness is given as in MRandDag.v by streams of numbers, one for every use in every attempt.  CPDs (add_cpds,
   add_random_cpds) are in MRandCid.v and MRandCpd.v.
   No proofs in this file. *)
From Coq Require Import String List Bool Arith ZArith QArith.
Import ListNotations.
From Verif Require Import MBase MGraph MPaths MMacid MRandDag.
Local Open Scope string_scope.
Local Open Scope list_scope.
Local Open Scope nat_scope.

(* [external] random.sample(l, m) and, for m = len(l), numpy.random.shuffle: any choice of different elements in any order.  The order in
   which list(set) gives the elements is absorbed by the choices. *)
Fixpoint pick (rnd : nat -> nat) (m : nat) (l : list node) : list node :=
  match m with
  | 0 => []
  | S m' => match l with
            | [] => []
            | x0 :: _ => let x := nth (rnd m' mod length l) l x0 in x :: pick rnd m' (remove_first x l)
            end
  end.
(* the random choices of one attempt *)
Record draws : Type := mkDraws {
  dr_dag : nat -> nat;                (* in random_dag *)
  dr_util : nat -> nat;               (* 51: shuffling the barren nodes *)
  dr_dec : nat -> nat -> nat;         (* 73: the decisions of each agent *)
  dr_recall : nat -> nat }.           (* 158: in all calls of _add_sufficient_recall, one after the other *)

(* 52-55: next(util_node_candidates) for every utility of every agent *)
Fixpoint deal (nums : list nat) (l : list node) : list (list node) :=
  match nums with [] => [] | k :: ks => firstn k l :: deal ks (skipn k l) end.
(* 66-70 *)
Definition possible_decs (g : graph) (us used : list node) : list node :=
  set_diff (set_diff (to_set (flat_map (fun u => ancestors_of g [u]) us)) us) used.
(* 57-74: the decisions of all agents, by their old names; None when there are not enough candidates (72: break) *)
Fixpoint give_decisions (g : graph) (rnd : nat -> nat -> nat) (i : nat) (uss : list (list node)) (nums : list nat) (used : list node) : option (list (list node)) :=
  match uss, nums with
  | us :: uss', num :: nums' =>
      let cands := possible_decs g us used in
      if length cands <? num then None
      else
        let ds := pick (rnd i) num cands in
        match give_decisions g rnd (S i) uss' nums' (used ++ ds) with Some dss => Some (ds :: dss) | None => None end
  | _, _ => Some []
  end.
(* 78, 81, 90 *)
Definition uname (i j : nat) : node := ("U^" ++ str_of i ++ "_" ++ str_of j)%string.
Definition dname (i j : nat) : node := ("D^" ++ str_of i ++ "_" ++ str_of j)%string.
Definition cname (j : nat) : node := ("X_" ++ str_of j)%string.
(* 77-82: new names for one list; 83-85 *)
Definition new_names (name : nat -> node) (l : list node) : list node := map name (seq 0 (length l)).
Fixpoint role_lists (name : nat -> nat -> node) (i : nat) (lss : list (list node)) : list (agent * list node) :=
  match lss with [] => [] | l :: lss' => (str_of i, new_names (name i) l) :: role_lists name (S i) lss' end.
(* 76-91: node_name_change_map; the order of its entries does not matter, no key comes twice *)
Fixpoint role_names (name : nat -> nat -> node) (i : nat) (lss : list (list node)) : list (node * node) :=
  match lss with [] => [] | l :: lss' => combine l (new_names (name i) l) ++ role_names name (S i) lss' end.
Definition name_changes (g : graph) (uss dss : list (list node)) : list (node * node) :=
  let roles := role_names uname 0 uss ++ role_names dname 0 dss in
  let chance := filter (fun x => negb (mem x (keys roles))) (nodes g) in
  roles ++ combine chance (new_names cname chance).
(* [external] nx.relabel_nodes(dag, map): a new graph; nodes outside the map keep their names *)
Definition renamed (mp : list (node * node)) (x : node) : node := match lookup x mp with Some y => y | None => x end.
Definition relabel (g : graph) (mp : list (node * node)) : graph :=
  fold_left (fun h e => nx_add_edge h (renamed mp (fst e)) (renamed mp (snd e))) (edges_view g) (add_nodes_from empty_graph (map (renamed mp) (nodes g))).

(* 157-163: draw positions on the path until one can be used; returns the node and how many numbers have been used *)
Fixpoint pick_on_path (fuel : nat) (rnd : nat -> nat) (k : nat) (mg : graph) (path : list node) (d2 : node) : result (node * nat) :=
  match fuel with
  | 0 => Err OutOfFuel
  | S fuel' =>
      if length path <=? 2 then Err ValueError
      else
        let idx := 1 + rnd k mod (length path - 2) in
        mo <- get_motif mg path idx ;;
        let x := nth idx path EmptyString in
        match mo with
        | Collider => pick_on_path fuel' rnd (k + 1) mg path d2
        | _ => if mem d2 (ancestors_of mg [x]) then pick_on_path fuel' rnd (k + 1) mg path d2 else Ok (x, k + 1)
        end
  end.
(* 153-163, with the graphs of mb and of mg *)
Fixpoint recall_loop (fuel : nat) (o : order) (rnd : nat -> nat) (k : nat) (g mg : graph) (d1 d2 u : node) : result (graph * nat) :=
  ps <- get_parents mg d2 ;;
  b <- is_dconnected mg (mec d1) u (ps ++ [d2]) ;;
  if negb b then Ok (g, k)
  else
    match fuel with
    | 0 => Err OutOfFuel
    | S fuel' =>
        path <- find_active_path o mg (mec d1) u (to_set (d2 :: ps)) ;;
        xk <- pick_on_path (S fuel') rnd k mg path d2 ;;
        g' <- bn_add_edge g (fst xk) d2 ;;
        mg' <- bn_add_edge mg (fst xk) d2 ;;
        recall_loop fuel' o rnd (snd xk) g' mg' d1 d2 u
    end.
(* 137-163 *)
Definition add_sufficient_recall (fuel : nat) (o : order) (rnd : nat -> nat) (k : nat) (m : macid) (d1 d2 u : node) : result (macid * nat) :=
  if mem d2 (ancestors_of (mgraph m) [d1]) then Err ValueError
  else
    mg <- mechanism_graph m ;;
    gk <- recall_loop fuel o rnd k (mgraph m) (mgraph mg) d1 d2 u ;;
    Ok (with_graph m (fst gk), snd gk).
(* 174-179 *)
Definition recall_pair (fuel : nat) (o : order) (rnd : nat -> nat) (mk : macid * nat) (u dec1 dec2 : node) : result (macid * nat) :=
  let '(m, k) := mk in
  if mem dec1 (ancestors_of (mgraph m) [dec2]) then
    if mem u (descendants (mgraph m) dec2) then add_sufficient_recall fuel o rnd k m dec1 dec2 u else Ok (m, k)
  else
    if mem u (descendants (mgraph m) dec1) then add_sufficient_recall fuel o rnd k m dec2 dec1 u else Ok (m, k).
Fixpoint fold_r {A B} (f : B -> A -> result B) (b : B) (l : list A) : result B :=
  match l with [] => Ok b | x :: l' => b' <- f b x ;; fold_r f b' l' end.
(* 172-173: the pairs of a decision and a later one *)
Fixpoint later_pairs (l : list node) : list (node * node) :=
  match l with [] => [] | x :: l' => map (pair x) l' ++ later_pairs l' end.
(* 166-179; the two dictionaries have the same keys here *)
Definition add_sufficient_recalls (fuel : nat) (o : order) (rnd : nat -> nat) (m : macid) : result macid :=
  r <- fold_r (fun mk a =>
         ds <- dict_get a (agent_decisions (fst mk)) ;;
         us <- dict_get a (agent_utilities (fst mk)) ;;
         fold_r (fun mk u => fold_r (fun mk p => recall_pair fuel o rnd mk u (fst p) (snd p)) mk (later_pairs ds)) mk us)
       (m, 0) (agents m) ;;
  Ok (fst r).
(* 126-134 *)
Definition check_max_in_degree (g : graph) (max_in_degree : nat) : bool := forallb (fun v => in_degree g v <=? max_in_degree) (nodes g).

(* 44-106: one attempt; None is continue *)
Definition attempt (fuel : nat) (o : order) (dr : draws) (n : nat) (dnum unum : list nat) (recall : bool) (density : Q) (max_in_degree : nat) : result (option macid) :=
  g <- random_dag fuel (dr_dag dr) n density max_in_degree ;;
  let barren := filter (fun x => match children g x with [] => true | _ => false end) (nodes g) in
  if length barren <? fold_right Nat.add 0 unum then Ok None
  else
    let uss := deal unum (pick (dr_util dr) (length barren) barren) in
    match give_decisions g (dr_dec dr) 0 uss dnum [] with
    | None => Ok None
    | Some dss =>
        let h := relabel g (name_changes g uss dss) in
        m <- macid_init (edges_view h) (role_lists dname 0 dss) (role_lists uname 0 uss) ;;
        if recall then
          m' <- add_sufficient_recalls fuel o (dr_recall dr) m ;;
          if check_max_in_degree (mgraph m') max_in_degree then Ok (Some m') else Ok None
        else Ok (Some m)
    end.
(* 43, 107-110 *)
Fixpoint attempts (fuel : nat) (o : order) (drs : nat -> draws) (k : nat) (n : nat) (dnum unum : list nat) (recall : bool) (density : Q) (max_in_degree : nat) : result macid :=
  match k with
  | 0 => Err ValueError
  | S k' =>
      r <- attempt fuel o (drs k') n dnum unum recall density max_in_degree ;;
      match r with Some m => Ok m | None => attempts fuel o drs k' n dnum unum recall density max_in_degree end
  end.
(* 18-41 *)
Definition random_macidbase (fuel : nat) (o : order) (drs : nat -> draws) (n : nat) (dnum unum : list nat) (recall : bool) (density : Q) (max_in_degree max_attempts : nat) : result macid :=
  if negb (length dnum =? length unum) then Err ValueError
  else attempts fuel o drs max_attempts n dnum unum recall density max_in_degree.
