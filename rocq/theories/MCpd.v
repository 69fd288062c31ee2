(* Model of pycid/core/cpd.py: probability tables built from functions, distributions and
   decision domains.  Floats are exact rationals (Qc); outcomes are numbers, so that they can be
   sorted and added up (strings as outcomes are not modelled).  User functions are pure.
   No proofs in this file. *)
From Coq Require Import String List Bool Arith QArith Qcanon.
Import ListNotations.
From Verif Require Import MBase MGraph MMacid.
Local Open Scope Qc_scope.

Definition outcome := Qc.
Definition oeqb (x y : outcome) : bool := Qc_eq_bool x y.
Definition qleb (x y : Qc) : bool := Qle_bool (this x) (this y).
Definition omem (x : outcome) (l : list outcome) : bool := existsb (oeqb x) l.
(* sorted(set(l)) *)
Fixpoint oinsert (x : outcome) (l : list outcome) : list outcome :=
  match l with
  | [] => [x]
  | y :: l' => if oeqb x y then l else if qleb x y then x :: l else y :: oinsert x l'
  end.
Definition sorted_set (l : list outcome) : list outcome := fold_right oinsert [] l.

(* {outcome: probability or None} *)
Definition dist := list (outcome * option Qc).
(* what a user function may return: a Mapping or a bare outcome *)
Inductive value : Type := VDist (d : dist) | VOut (x : outcome).
(* a Python callable: its parameters (with a flag: has a default), whether it takes **kwargs,
   and what it returns for the keyword arguments it is called with *)
Record fn : Type := mkFn { params : list (string * bool); varkw : bool; body : list (node * outcome) -> result value }.
(* f( **pv ): TypeError for an unknown keyword or a missing parameter *)
Definition binds (f : fn) (names : list string) : bool :=
  (varkw f || forallb (fun n => mem n (keys (params f))) names)
  && forallb (fun p => snd p || mem (fst p) names) (params f).
Definition call (f : fn) (pv : list (node * outcome)) : result value :=
  if binds f (keys pv) then body f pv else Err TypeError.
(* cpd.py 126-131: stochastic_function; called with keyword arguments whatever they are *)
Definition stochastic_function (f : fn) (pv : list (node * outcome)) : result dist :=
  v <- call f pv ;; Ok (match v with VDist d => d | VOut x => [(x, Some 1)] end).
(* its own signature is ( **pv ) *)
Definition wrapper_params : list (string * bool) := [].
Definition wrapper_varkw : bool := true.
(* 159-168: check_function_arguments_match_parent_names *)
Definition check_arguments (ps : list node) : result unit :=
  let args := keys wrapper_params in
  if negb wrapper_varkw
     && negb (forallb (fun a => mem a ps) args && forallb (fun p => mem p args) ps)
  then Err ValueError else Ok tt.

(* itertools.product: the last position varies fastest *)
Fixpoint product {A} (ls : list (list A)) : list (list A) :=
  match ls with
  | [] => [[]]
  | l :: ls' => flat_map (fun x => map (cons x) (product ls')) l
  end.
(* for x in l: append(f(x)), stopping at the first exception *)
Fixpoint map_r {A B} (f : A -> result B) (l : list A) : result (list B) :=
  match l with
  | [] => Ok []
  | x :: l' => y <- f x ;; ys <- map_r f l' ;; Ok (y :: ys)
  end.
Definition domains := list (node * list outcome).
Definition parent_domain (doms : domains) (p : node) : result (list outcome) :=
  match lookup p doms with None => Err ParentsNotReady | Some d => Ok d end.
(* 170-179: parent_values *)
Definition parent_values (g : graph) (doms : domains) (v : node) : result (list (list (node * outcome))) :=
  ps <- get_parents g v ;;
  ds <- map_r (parent_domain doms) ps ;;
  Ok (map (combine ps) (product ds)).
(* 181-185: possible_values *)
Definition possible_values (g : graph) (doms : domains) (v : node) (f : fn) : result (list outcome) :=
  pvs <- parent_values g doms v ;;
  ds <- map_r (stochastic_function f) pvs ;;
  Ok (sorted_set (flat_map (map fst) ds)).

Definition qsum (l : list Qc) : Qc := fold_right Qcplus 0 l.
Definition Qc_of_nat (n : nat) : Qc := Q2Qc (inject_Z (Z.of_nat n)).
(* 93-102: complete_prob_dictionary, then probabilities[t] *)
Definition given_entries (d : dist) : list (outcome * Qc) :=
  flat_map (fun e => match snd e with Some p => [(fst e, p)] | None => [] end) d.
Fixpoint olookup {A} (x : outcome) (d : list (outcome * A)) : option A :=
  match d with
  | [] => None
  | (y, v) :: d' => if oeqb x y then Some v else olookup x d'
  end.
Definition complete (dom : list outcome) (d : dist) (t : outcome) : Qc :=
  let gs := given_entries d in
  let missing := filter (fun x => negb (omem x (map fst gs))) (nodup Qc_eq_dec dom) in
  match olookup t gs with
  | Some p => p
  | None => (1 - qsum (map snd gs)) / Qc_of_nat (length missing)
  end.

(* the class of a TabularCPD object *)
Inductive kind : Type := KTab | KStoch | KConst | KDec.
(* a TabularCPD: variable, its state names, evidence and their cardinalities, and the columns of the
   table in the order of itertools.product.  The state names of the evidence are always those of the
   network (sync_state_names), so they are not stored. *)
Record tab : Type := mkTab {
  tvar : node; tdom : list outcome; tev : list node; tcards : list nat; tcols : list (list Qc); tkind : kind }.

Definition qabs_close (a b eps : Qc) : bool := qleb (a - b) eps && qleb (b - a) eps.
Definition hundredth : Qc := Q2Qc (1 # 100).
(* 71-124: StochasticFunctionCPD.__init__.  [cards] is what cbn.get_cardinality gives for the parents.
   [external] TabularCPD.__init__ checks the shape of the table and that no state name is repeated. *)
Definition init_table (g : graph) (doms : domains) (cards : list node -> result (list nat))
  (v : node) (f : fn) (force : list outcome) (k : kind) : result tab :=
  ps0 <- get_parents g v ;;
  _ <- check_arguments ps0 ;;                                                         (* 86 *)
  dom <- (match force with
          | [] => possible_values g doms v f                                          (* 91 *)
          | _ => pvs <- possible_values g doms v f ;;
                 if forallb (fun x => omem x force) pvs then Ok force else Err ValueError   (* 87-91 *)
          end) ;;
  ps <- get_parents g v ;;
  ecards <- cards ps ;;                                                               (* 104-106 *)
  pvs <- parent_values g doms v ;;
  cols <- map_r (fun pv => d <- stochastic_function f pv ;; Ok (map (complete dom d) dom)) pvs ;;   (* 107-110 *)
  if negb (match cols with [] => false | _ => true end && forallb (fun c => qabs_close (qsum c) 1 hundredth) cols)
  then Err ValueError                                                                 (* 112-113 *)
  else if negb (forallb (forallb (fun p => qleb 0 p && qleb p 1)) cols)
  then Err ValueError                                                                 (* 114-115 *)
  else if negb (length cols =? fold_right Nat.mul 1%nat ecards)%nat then Err ValueError
  else if negb (length (nodup Qc_eq_dec dom) =? length dom)%nat then Err ValueError
  else Ok (mkTab v dom ps ecards cols k).

(* 221-230: ConstantCPD: lambda **pv: dictionary *)
Definition const_fn (d : dist) : fn := mkFn [] true (fun _ => Ok (VDist d)).

(* 259-275: bernoulli, discrete_uniform, noisy_copy *)
Definition bernoulli (p : Qc) : dist := [(0, Some (1 - p)); (1, Some p)].
Fixpoint odset {A} (x : outcome) (v : A) (d : list (outcome * A)) : list (outcome * A) :=
  match d with
  | [] => [(x, v)]
  | (y, w) :: d' => if oeqb x y then (y, v) :: d' else (y, w) :: odset x v d'
  end.
Definition discrete_uniform (dom : list outcome) : dist :=
  fold_left (fun d x => odset x (Some (1 / Qc_of_nat (length dom))) d) dom [].
Definition noisy_copy (x : outcome) (p : Qc) (dom : option (list outcome)) : dist :=
  odset x (Some p) (match dom with Some l => fold_left (fun d y => odset y None d) l [] | None => [] end).
