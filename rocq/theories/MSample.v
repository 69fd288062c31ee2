(* Model of CausalBayesianNetwork.sample (causal_bayesian_network.py 233-238).  No proofs in this file. *)
From Coq Require Import String List Bool Arith QArith Qcanon.
Import ListNotations.
From Verif Require Import MBase MGraph MCpd MNet MProb.
Local Open Scope Qc_scope.

(* [external] numpy.random.choice(values, p=ws): one number u from [0,1) is drawn, and the index is
   cumsum(ws).searchsorted(u, side='right').  Simplified: numpy first divides by the last partial sum and
   refuses weights that do not sum to one up to 2^-26; both are without effect on columns that sum to one. *)
Fixpoint choice_index (u acc : Qc) (ws : list Qc) : nat :=
  match ws with
  | [] => 0%nat
  | w :: ws' => if Qclt_le_dec u (acc + w) then 0%nat else S (choice_index u (acc + w) ws')
  end.
(* [external] pgmpy BayesianModelSampling.forward_sample(size=1): the nodes in topological order, each from the
   column of its table for the values drawn for its evidence.  draw v is the number drawn for v (from the global
   generator of numpy, after seeding). *)
Fixpoint forward_loop (n : net) (draw : node -> Qc) (vs : list node) (a : asg) : asg :=
  match vs with
  | [] => a
  | v :: vs' =>
      let xs := states (doms n) v in
      let i := choice_index (draw v) 0 (map (fun x => kernel n v (upd a v x)) xs) in
      forward_loop n draw vs' (upd a v (nth i xs 0))
  end.
(* causal_bayesian_network.py 233-238: {var: sampled_df[var][0] for var in sampled_df.columns}; the columns are the
   nodes; creating the sampler runs check_model *)
Definition sample (o : order) (n : net) (draw : node -> Qc) : result (list (node * outcome)) :=
  _ <- check_model n ;;
  match toposort o (ngraph n) with
  | None => Err NetworkXError
  | Some vs => let a := forward_loop n draw vs (fun _ => 0) in Ok (map (fun v => (v, a v)) (nodes (ngraph n)))
  end.
