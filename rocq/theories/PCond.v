(* C69: impute_conditional_expectation_decision. *)
From Coq Require Import String List Bool Arith QArith Qcanon Lia Permutation.
Import ListNotations.
From Verif Require Import MBase MGraph MMacid MCpd MNet MProb MQuery MPolicy MCond Spec SpecM SpecC SpecN SpecQ SpecPol SpecCond LBase LGraph LRoles LCopy LQc LCpd LNet LSum LBayes LSep LQuery LDo LInter LFactor LEdit LBuilt LTotal LCheckN LEffects PMacid PQuery LPolicy LValue LQcArith LSearch LLike LOptimal LOptDec LBest PPolicy LCheck LCond.
Local Open Scope string_scope.
Local Open Scope Qc_scope.

(* the decision follows a rule that gives, in every context that can come up, the expectation of y there, and y itself if it is observed *)
Theorem C69_rule : forall o m n d y n', valid_order o -> built n -> distribution n -> impute_conditional_expectation_decision o m n d y = (n', None) ->
  exists t (g : list (node * outcome) -> Qc), has_table n' d t /\ plays n' d g t /\ choice_function n' d g /\
    forall pv, context_of (doms n) (parents (ngraph n) d) pv ->
      (do_prob n [] pv <> 0 -> g pv = expectation n [] pv y) /\ forall x, lookup y pv = Some x -> g pv = x.
Proof.
  intros o m n d y n' O B Hd H. destruct (imputes o m n d y n' O B Hd H) as (t & g & _ & _ & _ & _ & _ & Ht & Pl & Cf & K1 & K2). exists t, g. auto 10.
Qed.
(* the graph and all that does not depend on the decision stay as they are *)
Theorem C69_frame : forall o m n d y n', valid_order o -> built n -> distribution n -> impute_conditional_expectation_decision o m n d y = (n', None) ->
  In d (nodes (ngraph n)) /\ In y (nodes (ngraph n)) /\ built n' /\ ngraph n' = ngraph n /\
  forall v, v <> d -> ~ descends (ngraph n) v d -> (forall t, has_table n v t <-> has_table n' v t) /\ forall l, has_domain n v l <-> has_domain n' v l.
Proof.
  intros o m n d y n' O B Hd H. destruct (imputes o m n d y n' O B Hd H) as (t & g & Hn & Hy & B' & G & Fr & _). split; auto. split; auto. split; auto. split; auto.
  intros v Ne Nd. destruct (Fr v) as [F1 F2]. { intro R. inversion R; subst; [congruence|]. apply Nd. eexists; eauto. }
  assert (I := s_inv n (proj1 (built_sound n B))). assert (I' := s_inv n' (proj1 (built_sound n' B'))). split; [intro s; rewrite !has_table_iff by auto; rewrite F1; tauto|]. intro l. unfold has_domain. rewrite F2. tauto.
Qed.
(* no rule for the decision predicts y better *)
Theorem C69_least_squares : forall o m n d y n', valid_order o -> built n -> distribution n -> impute_conditional_expectation_decision o m n d y = (n', None) ->
  exists t g, has_table n' d t /\ plays n' d g t /\ forall h, mean_squared_error n d y g <= mean_squared_error n d y h.
Proof.
  intros o m n d y n' O B Hd H. destruct (imputes o m n d y n' O B Hd H) as (t & g & Hn & Hy & _ & _ & _ & Ht & Pl & _ & K & _). exists t, g. split; auto. split; auto. intro h. apply least_squares; auto.
Qed.
(* in the new diagram the decision is the best prediction of y *)
Theorem C69_prediction : forall o m n d y n', valid_order o -> built n -> distribution n -> impute_conditional_expectation_decision o m n d y = (n', None) ->
  distribution n' -> y <> d -> ~ descends (ngraph n) y d -> forall h, realised_error n' d y <= mean_squared_error n d y h.
Proof.
  intros o m n d y n' O B Hd H Hd' Ne Nd h. destruct (imputes o m n d y n' O B Hd H) as (t & g & Hn & Hy & _ & G & Fr & Ht & Pl & Cf & K & _).
  rewrite (error_realised n n' d y g t); auto; [apply least_squares; auto|]. intro R. inversion R; subst; [congruence|]. apply Nd. eexists; eauto.
Qed.

(* ---- a case ---- *)
Definition follow_graph : graph := mkG ["X"; "Y"; "D"; "U"] [("X", "Y"); ("X", "D"); ("D", "U")].
Definition follow_roles : macid := diagram_of follow_graph [("0", ["D"])] [("0", ["U"])].
Definition follow_net : net := made follow_graph [("X", RDist coin); ("Y", RFun (fn1 "X" noisy)); ("D", RDom [0; 1]); ("U", RFun (fn1 "D" VOut))].
Lemma follow_ok : built follow_net /\ distribution follow_net.
Proof.
  split; [apply made_built|apply dist_check_ok]; [vm_compute; reflexivity| |vm_compute; reflexivity|vm_compute; reflexivity].
  rels_ok; [split; [exact I|exact coin_dict]|apply fn1_admissible; exact noisy_dict|split; exact I|apply fn1_admissible; intros x d E; discriminate].
Qed.
Definition returns_with (r : outcome_of) (f : net -> bool) : bool := match r with (n, None) => f n | _ => false end.
Lemma returns_ok : forall r f, returns_with r f = true -> exists n, r = (n, None) /\ f n = true.
Proof. intros [n [e|]] f H; [discriminate|]. exists n. auto. Qed.
Example C69_example : exists n', built follow_net /\ distribution follow_net /\ impute_conditional_expectation_decision (fun _ l => l) follow_roles follow_net "D" "Y" = (n', None) /\
  distribution n' /\ "Y" <> "D" /\ has_domain n' "D" [q 1 4; q 3 4].
Proof.
  destruct (returns_ok (impute_conditional_expectation_decision (fun _ l => l) follow_roles follow_net "D" "Y")
    (fun n => dist_check n && match lookup "D" (doms n) with Some [a; b] => oeqb a (q 1 4) && oeqb b (q 3 4) | _ => false end)) as (n' & E & K); [vm_compute; reflexivity|].
  apply andb_true_iff in K. destruct K as [K1 K2]. exists n'. split; [exact (proj1 follow_ok)|]. split; [exact (proj2 follow_ok)|]. split; [exact E|]. split; [apply dist_check_ok; exact K1|]. split; [discriminate|].
  clear E K1. unfold has_domain. destruct (lookup "D" (doms n')) as [[|a [|b [|]]]|]; try discriminate K2. apply andb_true_iff in K2. destruct K2 as [K2 K3]. apply oeqb_iff in K2. apply oeqb_iff in K3. rewrite K2, K3. reflexivity.
Qed.

(* ---- what can be lost: the new outcomes of the decision need not fit the tables of the variables that depend on it ---- *)
Definition misfit_graph : graph := mkG ["Y"; "D"; "U"] [("D", "U")].
Definition misfit_roles : macid := diagram_of misfit_graph [("0", ["D"])] [("0", ["U"])].
Definition misfit_net : net := made misfit_graph [("Y", RDist coin); ("D", RDom [0; 1]); ("U", tab_of "U" [0; 1] ["D"] [2%nat] [[1; 0]; [0; 1]])].
Lemma misfit_ok : built misfit_net /\ distribution misfit_net.
Proof.
  split; [apply made_built|apply dist_check_ok]; [vm_compute; reflexivity| |vm_compute; reflexivity|vm_compute; reflexivity].
  rels_ok; [split; [exact I|exact coin_dict]|split; exact I|apply tab_admissible].
Qed.
Theorem C69_distribution_refuted : exists o m n d y n', valid_order o /\ built n /\ distribution n /\ impute_conditional_expectation_decision o m n d y = (n', None) /\ ~ distribution n'.
Proof.
  destruct (returns_ok (impute_conditional_expectation_decision (fun _ l => l) misfit_roles misfit_net "D" "Y")
    (fun n => mem "U" (nodes (ngraph n)) && match lookup "D" (doms n), cpd_of n "U" with Some [a], Some t => match tev t with [p] => String.eqb p "D" | _ => false end && match tcards t with [c] => Nat.eqb c 2 | _ => false end | _, _ => false end)) as (n' & E & K); [vm_compute; reflexivity|].
  exists (fun _ l => l), misfit_roles, misfit_net, "D", "Y", n'. split; [intros k l; apply Permutation_refl|]. split; [exact (proj1 misfit_ok)|]. split; [exact (proj2 misfit_ok)|]. split; [exact E|]. clear E.
  intro Hd. apply andb_true_iff in K. destruct K as [Hu K]. apply mem_In in Hu. destruct (dist_table n' "U" Hd Hu) as (t & Ct & T). rewrite Ct in K. assert (C := ok_cards _ _ _ T).
  destruct (lookup "D" (doms n')) as [[|a [|]]|] eqn:L; try discriminate.
  apply andb_true_iff in K. destruct K as [K1 K2]. destruct (tev t) as [|p [|]]; try discriminate. apply String.eqb_eq in K1. subst p. rewrite C in K2. cbn [map] in K2. unfold dom_of in K2. rewrite L in K2. discriminate.
Qed.
Print Assumptions C69_rule.
Print Assumptions C69_frame.
Print Assumptions C69_least_squares.
Print Assumptions C69_prediction.
Print Assumptions C69_distribution_refuted.
