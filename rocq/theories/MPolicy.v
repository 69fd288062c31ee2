(* Model of the policies of a diagram: MACIDBase.pure_decision_rules, pure_policies, optimal_pure_policies,
   optimal_pure_decision_rules, impute_random_decision, impute_fully_mixed_policy_profile, remove_all_decision_rules,
   impute_optimal_decision (macid_base.py 282-400) and CID.impute_optimal_policy, optimal_policies,
   impute_random_policy, solve (cid.py 35-72).
   The roles of the diagram are in m, its graph, relationships and tables in n.
   Simplifications: agents are strings; a decision rule is the table it was tabulated to.  The function of
   impute_optimal_decision asks a private copy, which its queries may change (see C37); its answers are therefore
   computed in the order in which StochasticFunctionCPD asks for them, once for every context (lru_cache).
   No proofs in this file. *)
From Coq Require Import String List Bool Arith QArith Qcanon.
Import ListNotations.
From Verif Require Import MBase MGraph MMacid MCpd MNet MProb MQuery.
Local Open Scope Qc_scope.

(* int(np.prod(l)) *)
Definition prod_of (l : list nat) : nat := fold_right Nat.mul 1%nat l.
(* [external] TabularCPD.name_to_no[variable]: the number of a state *)
Fixpoint number_of (x : outcome) (l : list outcome) : option nat :=
  match l with
  | [] => None
  | y :: l' => if oeqb x y then Some 0%nat else match number_of x l' with Some k => Some (S k) | None => None end
  end.
Definition state_no (n : net) (p : node) (x : outcome) : result nat :=
  c <- get_cpds n p ;;
  match c with
  | None => Err AttributeError
  | Some t => match number_of x (tdom t) with Some k => Ok k | None => Err KeyError end
  end.
(* macid_base.py 294-301: the loop of arg2idx, from the i-th parent on *)
Fixpoint arg2idx_loop (n : net) (cards : list nat) (pv : list (node * outcome)) (i : nat) (ps : list node) (idx : nat) : result nat :=
  match ps with
  | [] => Ok idx
  | p :: ps' =>
    x <- dict_get p pv ;;
    k <- state_no n p x ;;
    arg2idx_loop n cards pv (S i) ps' (idx + k * prod_of (firstn i cards))
  end.
Definition arg2idx (n : net) (ps : list node) (cards : list nat) (pv : list (node * outcome)) : result nat :=
  idx <- arg2idx_loop n cards pv 0 ps 0 ;;
  if (idx <=? prod_of cards)%nat then Ok idx else Err AssertionError.
(* 303-308: the function for a tuple of outcomes *)
Definition rule_fn (n : net) (ps : list node) (cards : list nat) (fl : list outcome) : fn :=
  mkFn [] true (fun pv => i <- arg2idx n ps cards pv ;; match nth_error fl i with Some x => Ok (VOut x) | None => Err IndexError end).
(* 282-310 *)
Definition pure_decision_rules (n : net) (d : node) : result (list tab) :=
  dom <- dict_get d (doms n) ;;
  ps <- get_parents (ngraph n) d ;;
  cards <- map_r (get_cardinality n) ps ;;
  map_r (fun fl => init_table (ngraph n) (doms n) (cards_of n) d (rule_fn n ps cards fl) dom KStoch)
        (product (repeat dom (prod_of cards))).
(* 312-317 *)
Definition pure_policies (n : net) (ds : list node) : result (list (list tab)) :=
  ls <- map_r (pure_decision_rules n) ds ;; Ok (product ls).

(* 362-372 *)
Definition impute_random_decision (n : net) (d : node) : outcome_of :=
  match lookup d (doms n) with
  | None => (n, Some ValueError)
  | Some dom =>
    match init_table (ngraph n) (doms n) (cards_of n) d (const_fn (discrete_uniform dom)) dom KStoch with
    | Err e => (n, Some e)
    | Ok t => set_rel n d (RTab t)
    end
  end.
(* 374-377; cid.py 53-56 *)
Definition impute_random_policy (m : macid) (n : net) : outcome_of := loop_net impute_random_decision n (decisions m).
(* 379-382 *)
Definition remove_all_decision_rules (m : macid) (n : net) : outcome_of :=
  loop_net (fun n d => match lookup d (doms n) with None => (n, Some KeyError) | Some dom => set_rel n d (RDom dom) end) n (decisions m).
(* copy *)
Definition macid_copy (m : macid) (n : net) : result (macid * net) :=
  m' <- copy_without_cpds (with_graph m (ngraph n)) ;; n' <- copy_net n ;; Ok (m', n').

(* [external] math.isclose(a, b, rel_tol) for finite numbers; it raises ValueError for a negative tolerance (see search) *)
Definition qabs (x : Qc) : Qc := if qleb 0 x then x else - x.
Definition isclose (tol a b : Qc) : bool :=
  oeqb a b || qleb (qabs (a - b)) (tol * qabs a) || qleb (qabs (a - b)) (tol * qabs b).
(* self.add_cpds( *policy ) *)
Definition add_policy (n : net) (p : list tab) : outcome_of := add_cpds n (map (fun t => (tvar t, RTab t)) p).
(* 343-353: the search; best is max_utility, None for -inf *)
Fixpoint search (o : order) (m : macid) (a : agent) (tol : Qc) (n : net) (best : option Qc) (acc : list (list tab)) (l : list (list tab)) :
  result (list (list tab)) :=
  match l with
  | [] => Ok acc
  | p :: l' =>
    match add_policy n p with
    | (_, Some e) => Err e
    | (n1, None) =>
      let '(n2, r) := expected_utility o m n1 [] [] a in
      eu <- r ;;
      if negb (qleb 0 tol) then Err ValueError else
      match best with
      | Some b => if isclose tol eu b then search o m a tol n2 best (acc ++ [p]) l'
                  else if negb (qleb eu b) then search o m a tol n2 (Some eu) [p] l'
                  else search o m a tol n2 best acc l'
      | None => search o m a tol n2 (Some eu) [p] l'
      end
    end
  end.
(* 334-341: random rules for the decisions that do not matter *)
Definition impute_irrelevant (m : macid) (ds : list node) (n : net) (d : node) : outcome_of :=
  match get_cpds n d with
  | Err e => (n, Some e)
  | Ok c =>
    if match c with Some t => match tkind t with KDec => true | _ => false end | None => false end then
      match is_s_reachable (with_graph m (ngraph n)) ds d with
      | Err e => (n, Some e)
      | Ok b => if negb b && negb (mem d ds) then impute_random_decision n d else (n, None)
      end
    else (n, None)
  end.
(* 318-354 *)
Definition optimal_pure_policies (o : order) (m : macid) (n : net) (ds0 : list node) (tol : Qc) : result (list (list tab)) :=
  match ds0 with
  | [] => Ok []
  | _ =>
    let ds := o [] (nodup String.string_dec ds0) in
    ags <- map_r (fun d => dict_get d (decision_agent m)) ds ;;
    match nodup String.string_dec ags with
    | [a] =>
      mn <- macid_copy m n ;;
      let '(m1, n1) := mn in
      match loop_net (impute_irrelevant m1 ds) n1 (decisions m1) with
      | (_, Some e) => Err e
      | (n2, None) => ps <- pure_policies n2 ds ;; search o m1 a tol n2 None [] ps
      end
    | _ => Err ValueError
    end
  end.
Definition default_tol : Qc := Q2Qc (1 # 1000000000).
(* 356-360 *)
Definition optimal_pure_decision_rules (o : order) (m : macid) (n : net) (d : node) : result (list tab) :=
  ps <- optimal_pure_policies o m n [d] default_tol ;;
  map_r (fun p => match p with t :: _ => Ok t | [] => Err IndexError end) ps.

(* [external] max(eu, key=eu.get): the first of the greatest *)
Fixpoint arg_max (best : outcome * Qc) (l : list (outcome * Qc)) : outcome :=
  match l with
  | [] => fst best
  | xv :: l' => arg_max (if negb (qleb (snd xv) (snd best)) then xv else best) l'
  end.
(* 393-398: opt_policy on the copy n; the copy as it is left is returned, too *)
Fixpoint action_values (o : order) (m : macid) (us : list node) (d : node) (pv : list (node * outcome)) (n : net) (dom : list outcome) :
  net * result (list (outcome * Qc)) :=
  match dom with
  | [] => (n, Ok [])
  | x :: dom' =>
    let '(n1, r) := macid_expected_value o m n us (dset d x pv) [] in
    match r with
    | Err e => (n1, Err e)
    | Ok l => let '(n2, r2) := action_values o m us d pv n1 dom' in (n2, vs <- r2 ;; Ok ((x, qsum l) :: vs))
    end
  end.
Definition opt_action (o : order) (m : macid) (us : list node) (d : node) (dom : list outcome) (n : net) (pv : list (node * outcome)) : net * result outcome :=
  let '(n1, r) := action_values o m us d pv n dom in
  (n1, vs <- r ;; match vs with [] => Err ValueError | xv :: vs' => Ok (arg_max xv vs') end).
Fixpoint opt_answers (o : order) (m : macid) (us : list node) (d : node) (dom : list outcome) (n : net) (pvs : list (list (node * outcome))) :
  result (list (list (node * outcome) * outcome)) :=
  match pvs with
  | [] => Ok []
  | pv :: pvs' =>
    let '(n1, r) := opt_action o m us d dom n pv in
    x <- r ;; l <- opt_answers o m us d dom n1 pvs' ;; Ok ((pv, x) :: l)
  end.
Fixpoint answer_of (l : list (list (node * outcome) * outcome)) (pv : list (node * outcome)) : result value :=
  match l with
  | [] => Err KeyError
  | (pv', x) :: l' => if list_eq_dec (fun a b => match string_dec (fst a) (fst b), Qc_eq_dec (snd a) (snd b) with
                                                 | left p, left q => left (injective_projections a b p q)
                                                 | right p, _ => right (fun e => p (f_equal fst e))
                                                 | _, right q => right (fun e => q (f_equal snd e))
                                                 end) pv pv' then Ok (VOut x) else answer_of l' pv
  end.
Definition answers_fn (l : list (list (node * outcome) * outcome)) : fn := mkFn [] true (answer_of l).
(* 383-400 *)
Definition impute_optimal_decision (o : order) (m : macid) (n : net) (d : node) : outcome_of :=
  match impute_random_decision n d with
  | (n1, Some e) => (n1, Some e)
  | (n1, None) =>
    match (dom <- dict_get d (doms n1) ;;
           a <- dict_get d (decision_agent m) ;;
           us <- dict_get a (agent_utilities m) ;;
           desc <- nx_descendants (ngraph n1) d ;;
           mn <- macid_copy m n1 ;;
           pvs <- parent_values (ngraph n1) (doms n1) d ;;
           l <- opt_answers o (fst mn) (o [] (set_inter us desc)) d dom (snd mn) pvs ;;
           init_table (ngraph n1) (doms n1) (cards_of n1) d (answers_fn l) dom KStoch) with
    | Err e => (n1, Some e)
    | Ok t => set_rel n1 d (RTab t)
    end
  end.

(* cid.py 35-43; choose is random.choice of a non-empty list *)
Definition impute_optimal_policy (o : order) (choose : list (list tab) -> option (list tab)) (m : macid) (n : net) : outcome_of :=
  match impute_random_policy m n with
  | (n1, Some e) => (n1, Some e)
  | (n1, None) =>
    let m1 := with_graph m (ngraph n1) in
    match sufficient_recall m1 None with
    | Err e => (n1, Some e)
    | Ok true =>
      match get_valid_order o m1 (Some (decisions m1)) with
      | Err e => (n1, Some e)
      | Ok ds => loop_net (fun n d => impute_optimal_decision o m n d) n1 (rev ds)
      end
    | Ok false =>
      match optimal_pure_policies o m n1 (decisions m) default_tol with
      | Err e => (n1, Some e)
      | Ok ps => match choose ps with None => (n1, Some IndexError) | Some p => add_policy n1 p end
      end
    end
  end.
(* cid.py 58-66; the copy of a CID differs from that of a MACIDBase in the agents *)
Definition solve (o : order) (choose : list (list tab) -> option (list tab)) (m : macid) (n : net) : result (list (node * option tab)) :=
  m' <- cid_copy_without_cpds (with_graph m (ngraph n)) ;;
  n' <- copy_net n ;;
  match impute_optimal_policy o choose m' n' with
  | (_, Some e) => Err e
  | (n2, None) => map_r (fun d => c <- get_cpds n2 d ;; Ok (d, c)) (decisions m')
  end.
