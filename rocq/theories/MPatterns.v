(* Model of pycid/analyze/reasoning_patterns.py.  [o] is the order in which sets are iterated
   (find_all_undir_paths, the effective set).  No proofs in this file. *)
From Coq Require Import String List Bool Arith.
Import ListNotations.
From Verif Require Import MBase MGraph MPaths MMacid MIncent.

(* the first x of l with f x, stopping at the first exception *)
Fixpoint first_r {A} (f : A -> result bool) (l : list A) : result (option A) :=
  match l with
  | [] => Ok None
  | x :: l' => b <- f x ;; if b then Ok (Some x) else first_r f l'
  end.
(* a for loop whose body may return (Some v), go on (None) or raise *)
Fixpoint loop_r {A B} (f : A -> result (option B)) (l : list A) : result (option B) :=
  match l with
  | [] => Ok None
  | x :: l' => v <- f x ;; match v with Some b => Ok (Some b) | None => loop_r f l' end
  end.

(* reasoning_patterns.py 17-23: _get_key_node; [bs] are the inner nodes still to look at *)
Fixpoint key_node_loop (g : graph) (path bs : list node) : result node :=
  match bs with
  | [] => Err ValueError                                                     (* 23 *)
  | b :: bs' =>
      match index_of b path with
      | None => Err ValueError
      | Some i => mo <- get_motif g path i ;;
                  match mo with Fork => Ok b | _ => key_node_loop g path bs' end
      end
  end.
Definition get_key_node (g : graph) (path : list node) : result node :=
  key_node_loop g path (interior path).

(* 36-40: _path_is_effective *)
Definition path_is_effective (m : macid) (E path : list node) : bool :=
  forallb (fun d => mem d E) (filter (fun n => mem n (decisions m)) (tl path)).
(* 26-28: _effective_dir_path_exists *)
Definition effective_dir_path_exists (m : macid) (s t : node) (E : list node) : result bool :=
  ps <- find_all_dir_paths (mgraph m) s t ;; Ok (existsb (path_is_effective m E) ps).
(* 43-52: _directed_effective_path_not_through_set_y *)
Definition effective_path_not_through (m : macid) (s t : node) (E y : list node) : result bool :=
  ps <- find_all_dir_paths (mgraph m) s t ;;
  Ok (existsb (fun p => negb (existsb (fun n => mem n y) p) && path_is_effective m E p) ps).
(* 55-67: _effective_backdoor_path_not_blocked_by_set_w *)
Definition effective_backdoor_path (o : order) (m : macid) (s t : node) (E w : list node)
  : result (option (list node)) :=
  ps <- find_all_undir_paths o (mgraph m) s t ;;
  first_r (fun path =>
    match path with
    | a :: b :: _ =>
        pa <- get_parents (mgraph m) a ;;                                    (* 63 *)
        act <- is_active_path (mgraph m) path w ;;                           (* 64 *)
        Ok (mem b pa && act && path_is_effective m E path)                   (* 65 *)
    | _ => Err IndexError                                                    (* path[1] *)
    end) ps.
(* 70-82: _effective_undir_path_not_blocked_by_set_w *)
Definition effective_undir_path (o : order) (m : macid) (s t : node) (E w : list node)
  : result (option (list node)) :=
  ps <- find_all_undir_paths o (mgraph m) s t ;;
  first_r (fun path => act <- is_active_path (mgraph m) path w ;; Ok (act && path_is_effective m E path)) ps.

(* 85-97: direct_effect *)
Definition direct_effect (m : macid) (d : node) : result bool :=
  a <- dict_get d (decision_agent m) ;;
  us <- dict_get a (agent_utilities m) ;;
  any_r (directed_decision_free_path (mgraph m) (decisions m) d) us.

(* 109-121, 145-157, 197-209: the common head of the other three tests: the agent's utilities
   and the effective decisions reached by a decision-free path *)
Definition pattern_head (m : macid) (d : node) (E : list node) : result (list node * list node) :=
  if existsb (fun n => negb (mem n (nodes (mgraph m)))) E then Err KeyError
  else
    a <- dict_get d (decision_agent m) ;;
    us <- dict_get a (agent_utilities m) ;;
    rs <- filter_r (fun e => if mem e E then directed_decision_free_path (mgraph m) (decisions m) d e else Ok false)
                   (remove_first d (decisions m)) ;;
    Ok (us, rs).
Definition owner_utils (m : macid) (e : node) : result (list node) :=
  b <- dict_get e (decision_agent m) ;; dict_get b (agent_utilities m).

(* 100-132: manipulation *)
Definition manipulation (m : macid) (d : node) (E : list node) : result bool :=
  h <- pattern_head m d E ;;
  any_r (fun e =>
    ubs <- owner_utils m e ;;
    any_r (fun u =>
      p <- effective_dir_path_exists m e u E ;;
      if negb p then Ok false
      else any_r (fun ub => effective_path_not_through m d ub E [e]) ubs) (fst h)) (snd h).

(* 167-168, 220-221: {D_B} and its parents that do not descend from the decision *)
Definition cond_nodes (m : macid) (e : node) (below : list node) : result (list node) :=
  ps <- get_parents (mgraph m) e ;; Ok (e :: filter (fun n => negb (mem n below)) ps).

(* 135-186: signaling *)
Definition signaling (o : order) (m : macid) (d : node) (E : list node) : result bool :=
  h <- pattern_head m d E ;;
  below <- nx_descendants (mgraph m) d ;;                                    (* 158 *)
  v <- loop_r (fun e =>
    ubs <- owner_utils m e ;;
    loop_r (fun u =>
      p <- effective_dir_path_exists m e u E ;;
      if negb p then Ok None                                                 (* 164 *)
      else loop_r (fun ub =>
        cn <- cond_nodes m e below ;;
        path <- effective_backdoor_path o m d ub E cn ;;                     (* 170 *)
        match path with
        | None => Ok None
        | Some path =>
            c <- get_key_node (mgraph m) path ;;                             (* 174-175 *)
            if String.eqb c EmptyString then Ok (Some false)                 (* 177 *)
            else
              kd <- nx_descendants (mgraph m) c ;;
              cn2 <- cond_nodes m d kd ;;                                    (* 179-181 *)
              q <- effective_undir_path o m c u E cn2 ;;
              match q with Some _ => Ok (Some true) | None => Ok None end    (* 183-184 *)
        end) ubs) (fst h)) (snd h) ;;
  Ok (match v with Some b => b | None => false end).

(* 189-225: revealing_or_denying *)
Definition revealing_or_denying (o : order) (m : macid) (d : node) (E : list node) : result bool :=
  h <- pattern_head m d E ;;
  below <- nx_descendants (mgraph m) d ;;
  any_r (fun e =>
    ubs <- owner_utils m e ;;
    any_r (fun u =>
      p <- effective_dir_path_exists m e u E ;;
      if negb p then Ok false
      else any_r (fun ub =>
        cn <- cond_nodes m e below ;;
        is_active_indirect_frontdoor_trail o (mgraph m) d ub cn) ubs) (fst h)) (snd h).

(* a or b, lazily *)
Definition or_r (a b : result bool) : result bool := x <- a ;; if x then Ok true else b.
(* 238-245: the test in the set comprehension *)
Definition motivated (o : order) (m : macid) (E : list node) (d : node) : result bool :=
  or_r (direct_effect m d) (or_r (manipulation m d E) (or_r (signaling o m d E) (revealing_or_denying o m d E))).
(* 236-249: the while loop; each turn iterates over the current set in the order [o] gives *)
Fixpoint effective_loop (o : order) (m : macid) (fuel : nat) (E : list node) : result (list node) :=
  match fuel with
  | O => Err OutOfFuel
  | S fuel' =>
      E' <- filter_r (motivated o m E) (o E E) ;;
      if length E' =? length E then Ok E                                     (* 247-248 *)
      else effective_loop o m fuel' E'
  end.
Inductive pattern : Type := DirEffect | Sig | Manip | RevDen.
(* 251-259: the first pattern that applies *)
Definition pattern_of (o : order) (m : macid) (E : list node) (d : node) : result (option pattern) :=
  b1 <- direct_effect m d ;;
  if b1 then Ok (Some DirEffect)
  else b2 <- signaling o m d E ;;
  if b2 then Ok (Some Sig)
  else b3 <- manipulation m d E ;;
  if b3 then Ok (Some Manip)
  else b4 <- revealing_or_denying o m d E ;;
  Ok (if b4 then Some RevDen else None).
Fixpoint classify (f : node -> result (option pattern)) (l : list node) : result (list (pattern * node)) :=
  match l with
  | [] => Ok []
  | d :: l' => p <- f d ;; r <- classify f l' ;; Ok (match p with Some p => (p, d) :: r | None => r end)
  end.
(* 228-261: get_reasoning_patterns, as the list of (pattern, decision) entries appended; the
   dictionary has exactly the decisions of one pattern under its key, in this order *)
Definition get_reasoning_patterns (o : order) (m : macid) : result (list (pattern * node)) :=
  E <- effective_loop o m (S (length (decisions m))) (decisions m) ;;
  classify (pattern_of o m E) (o E E).
