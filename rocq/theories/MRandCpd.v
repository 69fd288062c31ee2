(* Model of random/random_cpd.py.
   numpy's global generator is an abstract state; [seeded s] is the state after np.random.seed(s), which numpy accepts only for
   0 <= s < 2^32, and [dirichlet] draws a vector.  hash(frozenset(...)) is a function of the process that does not depend
   on the order of the items.  Floats are rationals.
   No proofs in this file. *)
From Coq Require Import String List Bool Arith ZArith QArith Qcanon.
Import ListNotations.
From Verif Require Import MBase MCpd.

(* [external] numpy *)
Record numpy (S : Type) := mkNumpy {
  seeded : Z -> S;
  dirichlet : S -> list Qc -> result (list Qc) * S;
  randint : S -> Z -> Z * S                      (* randint(0, k) *)
}.
Arguments seeded {S}. Arguments dirichlet {S}. Arguments randint {S}.
(* [external] np.random.seed *)
Definition np_seed {S} (np : numpy S) (s : Z) : result S :=
  if ((0 <=? s) && (s <? 2 ^ 32))%Z then Ok (seeded np s) else Err ValueError.

(* random_cpd.py 21-24, 41-43 *)
Record random_cpd := mkRandom { rc_seed : Z; rc_smoothness : Qc; rc_domain : list outcome }.
(* 26-43: [seed or randint(0, 10000)] takes the seed 0 for a missing one *)
Definition new_random_cpd {S} (np : numpy S) (st : S) (domain : option (list outcome)) (smoothness : Qc) (seed : option Z) : random_cpd * S :=
  let dom := match domain with Some (x :: l) => x :: l | _ => [Q2Qc 0; Q2Qc 1] end in
  match seed with
  | Some s => if (s =? 0)%Z then let '(r, st') := randint np st 10000 in (mkRandom r smoothness dom, st') else (mkRandom s smoothness dom, st)
  | None => let '(r, st') := randint np st 10000 in (mkRandom r smoothness dom, st')
  end.
(* 12-19 and 45-48: the generator's state is put back *)
Definition call_random_cpd {S} (np : numpy S) (hash : list (node * outcome) -> Z) (st : S) (c : random_cpd) (pv : list (node * outcome)) : result (list (outcome * Qc)) * S :=
  match np_seed np (rc_seed c + hash pv mod 2 ^ 31 - 1) with
  | Err e => (Err e, st)
  | Ok st1 =>
    let '(v, _) := dirichlet np st1 (map (fun _ => rc_smoothness c) (rc_domain c)) in
    (l <- v ;; Ok (combine (rc_domain c) l), st)
  end.
