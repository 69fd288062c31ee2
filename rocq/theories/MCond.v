(* Model of MACIDBase.impute_conditional_expectation_decision (macid_base.py 402-416).
   The rule is a Python function that asks a copy of the diagram for an expected value whenever it is called.  Asking changes
   the copy (see MQuery.query_connected), and answers are cached, so the answers for the contexts of the decision are
   worked out here one after the other, in the order in which the table of the decision is made (cpd.py 107-110, 181-185).
   Simplification: a context that first comes up later, because the domain of a parent was changed, gets a KeyError.
   No proofs in this file. *)
From Coq Require Import String List Bool Arith QArith Qcanon.
Import ListNotations.
From Verif Require Import MBase MGraph MMacid MCpd MNet MProb MQuery MPolicy.
Local Open Scope Qc_scope.

(* 408-413: cond_exp_policy for one context; m and n are the copy *)
Definition cond_exp (o : order) (m : macid) (y : node) (n : net) (pv : list (node * outcome)) : net * result outcome :=
  match lookup y pv with
  | Some x => (n, Ok x)
  | None => let '(n1, r) := macid_expected_value o m n [y] pv [] in
            (n1, l <- r ;; match l with [] => Err IndexError | x :: _ => Ok x end)
  end.
(* the answers for the contexts pvs *)
Fixpoint cond_answers (o : order) (m : macid) (y : node) (n : net) (pvs : list (list (node * outcome))) : list (list (node * outcome) * result outcome) :=
  match pvs with
  | [] => []
  | pv :: pvs' => let '(n1, r) := cond_exp o m y n pv in (pv, r) :: cond_answers o m y n1 pvs'
  end.
(* keyword arguments: their order does not matter *)
Definition same_kwargs (pv pv' : list (node * outcome)) : bool :=
  (length pv =? length pv')%nat && forallb (fun px => match lookup (fst px) pv' with Some x => oeqb (snd px) x | None => false end) pv.
Fixpoint cached (l : list (list (node * outcome) * result outcome)) (pv : list (node * outcome)) : result outcome :=
  match l with
  | [] => Err KeyError
  | (pv', r) :: l' => if same_kwargs pv' pv then r else cached l' pv
  end.
Definition cond_fn (l : list (list (node * outcome) * result outcome)) : fn := mkFn [] true (fun pv => x <- cached l pv ;; Ok (VOut x)).
(* 402-416.  The function is not called when the parents are not ready *)
Definition impute_conditional_expectation_decision (o : order) (m : macid) (n : net) (d y : node) : outcome_of :=
  match macid_copy m n with
  | Err e => (n, Some e)
  | Ok (m1, n1) =>
    let pvs := match parent_values (ngraph n) (doms n) d with Ok l => l | Err _ => [] end in
    set_rel n d (RFun (cond_fn (cond_answers o m1 y n1 pvs)))
  end.
