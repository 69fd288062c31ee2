(* Model of random/random_cid.py, random/random_macid.py and of add_random_cpds (random/random_macidbase.py 113-123).
   The generators return diagrams here; giving them CPDs (their add_cpds argument) is add_random_cpds on the graph of the diagram.
   No proofs in this file. *)
From Coq Require Import String List Bool Arith ZArith QArith Qcanon.
Import ListNotations.
From Verif Require Import MBase MGraph MPaths MMacid MCpd MNet MRandDag MRandMacid MRandCpd.
Local Open Scope string_scope.
Local Open Scope list_scope.
Local Open Scope nat_scope.

(* random_cid.py 70, 71 *)
Definition cid_dname (i : nat) : node := ("D" ++ str_of i)%string.
Definition cid_uname (i : nat) : node := ("U" ++ str_of i)%string.
(* 54-75 *)
Definition random_cid (fuel : nat) (o : order) (drs : nat -> draws) (n nd nu : nat) (recall : bool) (density : Q) (max_in_degree max_attempts : nat) : result macid :=
  mb <- random_macidbase fuel o drs n [nd] [nu] recall density max_in_degree max_attempts ;;
  g <- new_graph (edges_view (mgraph mb)) ;;                                     (* 65: DAG(mb.edges) *)
  let ds := new_names cid_dname (decisions mb) in
  let us := new_names cid_uname (utilities mb) in
  let h := relabel g (combine (decisions mb) ds ++ combine (utilities mb) us) in  (* 72, 73 *)
  cid_init (edges_view h) ds us.
(* random_macid.py 55-65 *)
Definition random_macid (fuel : nat) (o : order) (drs : nat -> draws) (n : nat) (dnum unum : list nat) (recall : bool) (density : Q) (max_in_degree max_attempts : nat) : result macid :=
  mb <- random_macidbase fuel o drs n dnum unum recall density max_in_degree max_attempts ;;
  macid_init (edges_view (mgraph mb)) (agent_decisions mb) (agent_utilities mb).

(* [external] random.randint(lo, hi): both ends can be drawn; ValueError for an empty range *)
Definition randint_in (raw lo hi : nat) : result nat := if hi <? lo then Err ValueError else Ok (lo + raw mod (hi - lo + 1)).
(* [external] random.choices(range(lo, hi), k=k): the upper end of a range is not in it; IndexError for an empty one *)
Fixpoint choices (rnd : nat -> nat) (lo hi k : nat) : result (list nat) :=
  match k with
  | 0 => Ok []
  | S k' => if hi <=? lo then Err IndexError else l <- choices rnd lo hi k' ;; Ok (lo + rnd k' mod (hi - lo) :: l)
  end.
(* the choices of one round of the loops below *)
Record round : Type := mkRound {
  ro_nodes : nat; ro_decs : nat; ro_utils : nat;           (* random_cid.py 95-97; in random_macid.py 86, 87 ro_nodes and ro_decs *)
  ro_dec_list : nat -> nat; ro_util_list : nat -> nat;     (* random_macid.py 88, 89 *)
  ro_draws : nat -> draws }.

(* random_cid.py 82-111; the defaults of random_cid: max_in_degree 4, 1000 attempts.  found are the diagrams so far *)
Fixpoint cids_loop (fuel : nat) (o : order) (rs : nat -> round) (nodes_range decs_range utils_range : nat * nat) (recall : bool) (density : Q) (count : nat) (found : list macid) : result (list macid) :=
  if count <=? length found then Ok found
  else
    match fuel with
    | 0 => Err OutOfFuel
    | S fuel' =>
        let r := rs fuel' in
        n <- randint_in (ro_nodes r) (fst nodes_range) (snd nodes_range) ;;
        nd <- randint_in (ro_decs r) (fst decs_range) (snd decs_range) ;;
        nu <- randint_in (ro_utils r) (fst utils_range) (snd utils_range) ;;
        m <- random_cid fuel o (ro_draws r) n nd nu recall density 4 1000 ;;
        b <- sufficient_recall m None ;;
        cids_loop fuel' o rs nodes_range decs_range utils_range recall density count (if b then found ++ [m] else found)
    end.
Definition random_cids (fuel : nat) (o : order) (rs : nat -> round) (nodes_range decs_range utils_range : nat * nat) (recall : bool) (density : Q) (count : nat) : result (list macid) :=
  cids_loop fuel o rs nodes_range decs_range utils_range recall density count [].
(* random_macid.py 73-103; the defaults of random_macid: max_in_degree 4, 5000 attempts *)
Fixpoint macids_loop (fuel : nat) (o : order) (rs : nat -> round) (nodes_range decs_range utils_range : nat * nat) (recall : bool) (density : Q) (count : nat) (found : list macid) : result (list macid) :=
  if count <=? length found then Ok found
  else
    match fuel with
    | 0 => Err OutOfFuel
    | S fuel' =>
        let r := rs fuel' in
        n <- randint_in (ro_nodes r) (fst nodes_range) (snd nodes_range) ;;
        k <- randint_in (ro_decs r) 1 3 ;;
        dnum <- choices (ro_dec_list r) (fst decs_range) (snd decs_range) k ;;
        unum <- choices (ro_util_list r) (fst utils_range) (snd utils_range) k ;;
        m <- random_macid fuel o (ro_draws r) n dnum unum recall density 4 5000 ;;
        b <- sufficient_recall m None ;;
        macids_loop fuel' o rs nodes_range decs_range utils_range recall density count (if b then found ++ [m] else found)
    end.
Definition random_macids (fuel : nat) (o : order) (rs : nat -> round) (nodes_range decs_range utils_range : nat * nat) (recall : bool) (density : Q) (count : nat) : result (list macid) :=
  macids_loop fuel o rs nodes_range decs_range utils_range recall density count [].

(* a RandomCPD object as a callable: __call__(self, **parent_values), random_cpd.py 46-49.  The state of the generator when it is
   called does not matter, see C54. *)
Definition random_fn {S} (np : numpy S) (hash : list (node * outcome) -> Z) (st : S) (c : random_cpd) : fn :=
  mkFn [] true (fun pv => l <- fst (call_random_cpd np hash st c pv) ;; Ok (VDist (map (fun xp => (fst xp, Some (snd xp))) l))).
(* random_macidbase.py 117-122 *)
Fixpoint random_rels {S} (np : numpy S) (hash : list (node * outcome) -> Z) (st : S) (ds vs : list node) : list (node * rel) :=
  match vs with
  | [] => []
  | v :: vs' =>
      if mem v ds then (v, RDom [Q2Qc 0; Q2Qc 1]) :: random_rels np hash st ds vs'
      else let '(c, st') := new_random_cpd np st None (Q2Qc 1) None in (v, RFun (random_fn np hash st' c)) :: random_rels np hash st' ds vs'
  end.
(* 113-123, for a diagram that has no CPDs *)
Definition add_random_cpds {S} (np : numpy S) (hash : list (node * outcome) -> Z) (st : S) (m : macid) : outcome_of :=
  add_cpds (bare (mgraph m)) (random_rels np hash st (decisions m) (nodes (mgraph m))).
