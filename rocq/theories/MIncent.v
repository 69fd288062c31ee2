(* Model of pycid/analyze: requisite_graph.py, value_of_information.py, value_of_control.py,
   response_incentive.py, instrumental_control_incentive.py (graphical criteria).
   Simplification: the diagrams carry no CPDs here.  CPDs have no influence on the graph or the
   roles: copy() is copy_without_cpds() followed by setting relationships
   (causal_bayesian_network.py 247-252), and add_edge / remove_edge re-set a constant
   relationship of the head at most (97-107). *)
From Coq Require Import String List Bool Arith.
Import ListNotations.
From Verif Require Import MBase MGraph MPaths MMacid.

(* the class of the object decides which copy_without_cpds runs *)
Inductive class_of : Type := IsMACID | IsCID.
Definition copy (k : class_of) (m : macid) : result macid :=
  match k with IsMACID => copy_without_cpds m | IsCID => cid_copy_without_cpds m end.

(* [x for x in l if f(x)], stopping at the first exception *)
Fixpoint filter_r {A} (f : A -> result bool) (l : list A) : result (list A) :=
  match l with
  | [] => Ok []
  | x :: l' => b <- f x ;; r <- filter_r f l' ;; Ok (if b then x :: r else r)
  end.

(* requisite_graph.py 8-26.  The order in which the set of line 23 is iterated does not matter:
   is_dconnected raises for all members or for none. *)
Definition requisite (m : macid) (d x : node) : result bool :=
  ps <- get_parents (mgraph m) d ;;
  if negb (mem x ps) then Err KeyError                                         (* 20-21 *)
  else
    a <- dict_get d (decision_agent m) ;;                                      (* 22 *)
    us <- dict_get a (agent_utilities m) ;;
    ds <- nx_descendants (mgraph m) d ;;                                       (* 23 *)
    let conditioning := filter (fun i => negb (String.eqb i x)) (d :: ps) in   (* 24-25 *)
    any_r (fun u => is_dconnected (mgraph m) x u conditioning) (set_inter us ds).
(* requisite_graph.py 29-31 *)
Definition requisite_list (m : macid) (d : node) : result (list node) :=
  ps <- get_parents (mgraph m) d ;; filter_r (requisite m d) ps.

(* requisite_graph.py 47-48; the removals commute, so the set order does not matter *)
Fixpoint remove_links (g : graph) (xs : list node) (d : node) : result graph :=
  match xs with
  | [] => Ok g
  | x :: xs' => g' <- nx_remove_edge g x d ;; remove_links g' xs' d
  end.
(* requisite_graph.py 45-48 *)
Fixpoint trim_loop (m rg : macid) (ds : list node) : result macid :=
  match ds with
  | [] => Ok rg
  | d :: ds' =>
      ps <- get_parents (mgraph m) d ;;
      req <- requisite_list rg d ;;
      g <- remove_links (mgraph rg) (set_diff ps req) d ;;
      trim_loop m (with_graph rg g) ds'
  end.
(* requisite_graph.py 34-49; [o] breaks the ties of the topological sort *)
Definition requisite_graph (k : class_of) (o : order) (m : macid) : result macid :=
  rg <- copy k m ;;
  ds <- get_valid_order o m None ;;
  trim_loop m rg (rev ds).

Definition several_agents (m : macid) : bool := 1 <? length (agents m).

(* value_of_information.py 9-35 *)
Definition admits_voi (k : class_of) (o : order) (m : macid) (d x : node) : result bool :=
  if several_agents m then Err ValueError
  else if negb (mem x (nodes (mgraph m))) then Err KeyError
  else if negb (mem d (nodes (mgraph m))) then Err KeyError
  else
    sr <- sufficient_recall m None ;;
    if negb sr then Err ValueError
    else
      ds <- nx_descendants (mgraph m) d ;;
      if mem x ds || String.eqb x d then Ok false
      else
        m2 <- copy k m ;;                                                      (* 32 *)
        g2 <- bn_add_edge (mgraph m2) x d ;;                                   (* 33 *)
        rg <- requisite_graph k o (with_graph m2 g2) ;;
        ps <- get_parents (mgraph rg) d ;;
        Ok (mem x ps).
(* value_of_information.py 38-43; [s] is the iteration order of the set *)
Definition admits_voi_list (k : class_of) (o s : order) (m : macid) (d : node) : result (list node) :=
  ds <- nx_descendants (mgraph m) d ;;
  filter_r (admits_voi k o m d) (s [d] (set_diff (set_diff (nodes (mgraph m)) ds) [d])).

(* value_of_control.py 10-37 *)
Definition admits_voc (k : class_of) (o : order) (m : macid) (x : node) : result bool :=
  if several_agents m then Err ValueError
  else if negb (mem x (nodes (mgraph m))) then Err KeyError
  else
    sr <- sufficient_recall m None ;;
    if negb sr then Err ValueError
    else if mem x (decisions m) then Ok false
    else
      rg <- requisite_graph k o m ;;
      any_r (fun u => if String.eqb x u then Ok true
                      else ds <- nx_descendants (mgraph rg) x ;; Ok (mem u ds)) (utilities m).
Definition admits_voc_list (k : class_of) (o : order) (m : macid) : result (list node) :=    (* 40-44 *)
  filter_r (admits_voc k o m) (nodes (mgraph m)).

(* value_of_control.py 75-115; [s] is the set order used by find_all_undir_paths *)
Definition admits_indir_voc (k : class_of) (o s : order) (m : macid) (d x : node) : result bool :=
  if several_agents m then Err ValueError
  else if negb (mem x (nodes (mgraph m))) then Err KeyError
  else if negb (mem d (nodes (mgraph m))) then Err KeyError
  else
    sr <- sufficient_recall m None ;;
    if negb sr then Err ValueError
    else
      rg <- requisite_graph k o m ;;
      ps <- get_parents (mgraph m) d ;;
      let con := filter (fun i => negb (String.eqb i x)) (d :: ps) in
      voc <- admits_voc k o m x ;;
      if negb voc then Ok false
      else
        ds <- nx_descendants (mgraph rg) x ;;
        any_r (fun u =>
          if negb (String.eqb u x) && negb (mem u ds) then Ok false
          else
            b <- is_active_backdoor_trail s (mgraph rg) x u con ;;
            if negb b then Ok false
            else paths <- find_all_dir_paths (mgraph rg) x u ;; Ok (existsb (mem d) paths)) (utilities m).
Definition admits_indir_voc_list (k : class_of) (o s : order) (m : macid) (d : node) : result (list node) :=  (* 118-122 *)
  filter_r (admits_indir_voc k o s m d) (nodes (mgraph m)).

(* value_of_control.py 125-160; the requisite graph is computed before the recall test of
   admits_voc *)
Definition admits_dir_voc (k : class_of) (o : order) (m : macid) (x : node) : result bool :=
  if several_agents m then Err ValueError
  else if negb (mem x (nodes (mgraph m))) then Err KeyError
  else
    rg <- requisite_graph k o m ;;
    voc <- admits_voc k o m x ;;
    if negb voc then Ok false
    else
      ds <- nx_descendants (mgraph rg) x ;;
      any_r (fun u =>
        if negb (String.eqb u x) && negb (mem u ds) then Ok false
        else
          paths <- find_all_dir_paths (mgraph rg) x u ;;
          Ok (existsb (fun p => match set_inter p (decisions m) with [] => true | _ => false end) paths))
        (utilities m).
Definition admits_dir_voc_list (k : class_of) (o : order) (m : macid) : result (list node) :=  (* 163-167 *)
  filter_r (admits_dir_voc k o m) (nodes (mgraph m)).

(* response_incentive.py 8-35 *)
Definition admits_ri (k : class_of) (o : order) (m : macid) (d x : node) : result bool :=
  if several_agents m then Err ValueError
  else if negb (mem x (nodes (mgraph m))) then Err KeyError
  else if negb (mem d (nodes (mgraph m))) then Err KeyError
  else
    sr <- sufficient_recall m None ;;
    if negb sr then Err ValueError
    else if String.eqb x d then Ok false
    else
      rg <- requisite_graph k o m ;;
      paths <- find_all_dir_paths (mgraph rg) x d ;;
      match paths with [] => Ok false | _ => Ok true end.
Definition admits_ri_list (k : class_of) (o : order) (m : macid) (d : node) : result (list node) :=  (* 38-42 *)
  filter_r (admits_ri k o m d) (nodes (mgraph m)).

(* [path for util in us for path in find_all_dir_paths(cid, d, util)] *)
Fixpoint paths_to_all (g : graph) (d : node) (us : list node) : result (list (list node)) :=
  match us with
  | [] => Ok []
  | u :: us' => ps <- find_all_dir_paths g d u ;; rest <- paths_to_all g d us' ;; Ok (ps ++ rest)
  end.
(* instrumental_control_incentive.py 7-28 *)
Definition admits_ici (m : macid) (d x : node) : result bool :=
  if several_agents m then Err ValueError
  else if negb (mem x (nodes (mgraph m))) then Err KeyError
  else if negb (mem d (nodes (mgraph m))) then Err KeyError
  else
    ps <- paths_to_all (mgraph m) d (utilities m) ;;
    Ok (existsb (mem x) ps).
Definition admits_ici_list (m : macid) (d : node) : result (list node) :=                      (* 31-35 *)
  filter_r (admits_ici m d) (nodes (mgraph m)).
