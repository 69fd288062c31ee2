(* Model of pycid/core/get_paths.py.  No proofs in this file. *)
From Coq Require Import String List Bool Arith.
Import ListNotations.
From Verif Require Import MBase MGraph.

(* ---- get_paths.py 8-33: _dfs_search_paths, the generator as a stack machine ---- *)
(* [dstack] is successor_stack with the top first; each entry is what is left of the iterator;
   [dout] is what has been yielded so far. *)
Record dfs_state : Type := mkDfs { dpath : list node; dstack : list (list node); dout : list (list node) }.

(* one turn of the while loop, lines 19-33; None when successor_stack is empty *)
Definition dfs_step (succ : list node -> list node) (t : node) (st : dfs_state) : option dfs_state :=
  match dstack st with
  | [] => None
  | [] :: stk => Some (mkDfs (removelast (dpath st)) stk (dout st))                (* 22-26 *)
  | (x :: xs) :: stk =>
      if String.eqb x t
      then Some (mkDfs (dpath st) (xs :: stk) (dout st ++ [dpath st ++ [x]]))      (* 28-30 *)
      else Some (mkDfs (dpath st ++ [x]) (succ (dpath st ++ [x]) :: xs :: stk) (dout st)) (* 32-33 *)
  end.
Fixpoint dfs_run (succ : list node -> list node) (t : node) (fuel : nat) (st : dfs_state)
  : option (list (list node)) :=
  match fuel with
  | O => None
  | S fuel' =>
      match dfs_step succ t st with
      | None => Some (dout st)
      | Some st' => dfs_run succ t fuel' st'
      end
  end.
(* lines 13-18: everything the generator yields, if it stops within [fuel] turns *)
Definition dfs_machine (succ : list node -> list node) (s t : node) (fuel : nat)
  : option (list (list node)) :=
  if String.eqb s t then Some [[s]] else dfs_run succ t fuel (mkDfs [s] [succ [s]] []).

(* The same search written as a recursion over the path, with a bound on the depth.
   LPaths.v proves that the machine halts with exactly this list. *)
Fixpoint dfs_from (succ : list node -> list node) (t : node) (depth : nat) (path : list node)
  : list (list node) :=
  match depth with
  | O => []
  | S d =>
      flat_map (fun x => if String.eqb x t then [path ++ [x]] else dfs_from succ t d (path ++ [x]))
               (succ path)
  end.
Definition dfs_paths (succ : list node -> list node) (s t : node) (depth : nat) : list (list node) :=
  if String.eqb s t then [[s]] else dfs_from succ t depth [s].

(* path[-1] of a non-empty path *)
Definition end_of (path : list node) : node := last path EmptyString.

(* ---- get_paths.py 130-139: find_all_dir_paths ---- *)
Definition dir_succ (g : graph) (path : list node) : list node := children g (end_of path).
Definition find_all_dir_paths (g : graph) (s t : node) : result (list (list node)) :=
  if mem s (nodes g) && mem t (nodes g)
  then Ok (dfs_paths (dir_succ g) s t (length (nodes g)))
  else Err KeyError.

(* ---- get_paths.py 142-156: find_all_undir_paths; [o] is the set iteration order ---- *)
Definition undir_succ (o : order) (g : graph) (path : list node) : list node :=
  o path (set_diff (children g (end_of path) ++ parents g (end_of path)) path).
Definition find_all_undir_paths (o : order) (g : graph) (s t : node) : result (list (list node)) :=
  if mem s (nodes g) && mem t (nodes g)
  then Ok (dfs_paths (undir_succ o g) s t (length (nodes g)))
  else Err KeyError.

(* ---- get_paths.py 36-56: _active_neighbours ---- *)
Definition last_forward (g : graph) (path : list node) : bool :=     (* line 39 *)
  match rev path with
  | e :: p :: _ => mem e (children g p)
  | _ => false
  end.
Definition active_neighbours (g : graph) (path : list node) (observed : list node) : list node :=
  let e := end_of path in
  let possible_colliders := ancestors_of g observed in               (* line 40 *)
  let active_parents :=                                              (* 43-46 *)
    if negb (last_forward g path) || mem e possible_colliders
    then set_diff (parents g e) observed else [] in
  let active_children := if mem e observed then [] else to_set (children g e) in  (* 49-52 *)
  set_diff (set_union active_parents active_children) path.          (* 54-56 *)

(* ---- get_paths.py 59-77: find_active_path ---- *)
Definition active_succ (o : order) (g : graph) (observed : list node) (path : list node) : list node :=
  o path (active_neighbours g path observed).
Definition find_active_path (o : order) (g : graph) (s t : node) (observed : list node)
  : result (list node) :=
  if forallb (fun n => mem n (nodes g)) (observed ++ [s; t]) then
    if mem t observed then Err ValueError
    else match dfs_paths (active_succ o g observed) s t (length (nodes g)) with
         | p :: _ => Ok p
         | [] => Err ValueError
         end
  else Err KeyError.

(* ---- get_paths.py 80-108: get_motif ---- *)
Inductive motif : Type := Forward | Backward | Fork | Collider | Endpoint.
Definition eqb_motif (a b : motif) : bool :=
  match a, b with
  | Forward, Forward | Backward, Backward | Fork, Fork | Collider, Collider | Endpoint, Endpoint => true
  | _, _ => false
  end.
(* path[idx - 1] with Python's meaning of index -1.  Simplification: idx >= 0. *)
Definition nth_prev (path : list node) (idx : nat) : node :=
  match idx with O => end_of path | S i => nth i path EmptyString end.
Definition get_motif (g : graph) (path : list node) (idx : nat) : result motif :=
  if negb (forallb (fun n => mem n (nodes g)) path) then Err KeyError          (* 85-87 *)
  else if length path <=? idx then Err IndexError                              (* 89-90 *)
  else if length path =? S idx then Ok Endpoint                                (* 92-93 *)
  else
    let a := nth_prev path idx in
    let b := nth idx path EmptyString in
    let c := nth (S idx) path EmptyString in
    if has_edge g a b && has_edge g b c then Ok Forward
    else if has_edge g c b && has_edge g b a then Ok Backward
    else if has_edge g a b && has_edge g c b then Ok Collider
    else if has_edge g b a && has_edge g b c then Ok Fork
    else Err RuntimeError.

(* ---- get_paths.py 111-127: get_motifs ---- *)
Fixpoint motifs_from (g : graph) (path : list node) (i n : nat) : result (list motif) :=
  match n with
  | O => Ok []
  | S n' =>
      m <- (match i with
            | O => match path with
                   | a :: b :: _ => Ok (if mem a (parents g b) then Forward else Backward)  (* 121-124 *)
                   | _ => Err IndexError                                                  (* path[1] *)
                   end
            | S _ => get_motif g path i
            end) ;;
      ms <- motifs_from g path (S i) n' ;;
      Ok (m :: ms)
  end.
Definition get_motifs (g : graph) (path : list node) : result (list motif) :=
  if negb (forallb (fun n => mem n (nodes g)) path) then Err KeyError
  else motifs_from g path 0 (length path).

(* ---- get_paths.py 187-212: is_active_path ---- *)
Fixpoint active_loop (g : graph) (path observed : list node) (bs : list node) : result bool :=
  match bs with
  | [] => Ok true                                                              (* 212 *)
  | b :: bs' =>
      match index_of b path with                                               (* 202 path.index(b) *)
      | None => Err ValueError
      | Some i =>
          m <- get_motif g path i ;;
          match m with
          | Fork | Forward | Backward =>                                       (* 204-205 *)
              if mem b observed then Ok false else active_loop g path observed bs'
          | Collider =>                                                        (* 207-210 *)
              if existsb (fun d => mem d observed) (b :: descendants g b)
              then active_loop g path observed bs' else Ok false
          | Endpoint => active_loop g path observed bs'
          end
      end
  end.
Definition is_active_path (g : graph) (path observed : list node) : result bool :=
  if negb (forallb (fun n => mem n (nodes g)) (path ++ observed)) then Err KeyError  (* 193-196 *)
  else if length path <? 3 then Ok true                                        (* 198-199 *)
  else active_loop g path observed (removelast (tl path)).                     (* 201 *)

(* ---- get_paths.py 215-239: is_active_indirect_frontdoor_trail ---- *)
Fixpoint frontdoor_loop (g : graph) (observed : list node) (ps : list (list node)) : result bool :=
  match ps with
  | [] => Ok false
  | path :: ps' =>
      match path with
      | a :: b :: _ =>
          let fd := mem a (parents g b) in                                     (* 232 *)
          act <- is_active_path g path observed ;;                             (* 233 *)
          ms <- get_motifs g path ;;                                           (* 234 *)
          if fd && act && existsb (eqb_motif Collider) ms then Ok true         (* 236-237 *)
          else frontdoor_loop g observed ps'
      | _ => Err IndexError                                                    (* path[1] at 232 *)
      end
  end.
Definition is_active_indirect_frontdoor_trail (o : order) (g : graph) (s t : node) (observed : list node)
  : result bool :=
  if negb (forallb (fun n => mem n (nodes g)) (observed ++ [s; t])) then Err KeyError
  else ps <- find_all_undir_paths o g s t ;; frontdoor_loop g observed ps.

(* ---- get_paths.py 242-263: is_active_backdoor_trail ---- *)
Fixpoint backdoor_loop (g : graph) (observed : list node) (ps : list (list node)) : result bool :=
  match ps with
  | [] => Ok false
  | path :: ps' =>
      match path with
      | a :: b :: _ =>
          let bd := mem b (parents g a) in                                     (* 258 *)
          act <- is_active_path g path observed ;;                             (* 259 *)
          if bd && act then Ok true else backdoor_loop g observed ps'          (* 260-261 *)
      | _ => backdoor_loop g observed ps'                                      (* 257 *)
      end
  end.
Definition is_active_backdoor_trail (o : order) (g : graph) (s t : node) (observed : list node)
  : result bool :=
  if negb (forallb (fun n => mem n (nodes g)) (observed ++ [s; t])) then Err KeyError
  else ps <- find_all_undir_paths o g s t ;; backdoor_loop g observed ps.

(* path[1:-1] *)
Definition interior (path : list node) : list node := removelast (tl path).

(* ---- get_paths.py 159-168: directed_decision_free_path; [decisions] is cbn.decisions ---- *)
Definition directed_decision_free_path (g : graph) (decisions : list node) (s t : node) : result bool :=
  ps <- find_all_dir_paths g s t ;;
  Ok (existsb (fun p => negb (existsb (fun n => mem n decisions) (interior p))) ps).

(* ---- get_paths.py 171-184: _get_path_edges ---- *)
Fixpoint get_path_edges (g : graph) (path : list node) : list (node * node) :=
  match path with
  | a :: ((b :: _) as rest) =>
      (if mem a (parents g b) then [(a, b)]
       else if mem b (parents g a) then [(b, a)] else []) ++ get_path_edges g rest
  | _ => []
  end.
