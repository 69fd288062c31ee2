(* Property C56: editing edges, and C35 for all histories of operations. *)
From Coq Require Import String List Bool Arith QArith Qcanon Lia Permutation.
Import ListNotations.
From Verif Require Import MBase MGraph MMacid MCpd MNet MProb MQuery Spec SpecM SpecC SpecN SpecQ LBase LGraph LQc LCpd LNet LCheck LQuery LInter LFactor LEdit LBuilt LCheckN PQuery.
Local Open Scope string_scope.
Local Open Scope list_scope.
Local Open Scope Qc_scope.

(* every variable with a relationship has the table it gives for the current parents and domains, if it can be tabulated,
   and no table otherwise; there are no other tables *)
Definition tables_current (n : net) : Prop :=
  (forall v r, lookup v (rels n) = Some r -> can_tabulate n v r -> exists t, has_table n v t /\ reflects (ngraph n) (doms n) v r t /\ has_domain n v (tdom t)) /\
  (forall v r, lookup v (rels n) = Some r -> ~ can_tabulate n v r -> forall t, ~ has_table n v t) /\
  (forall v t, has_table n v t -> In v (nodes (ngraph n)) /\ lookup v (rels n) <> None /\ forall t', has_table n v t' -> t' = t).
Lemma sound_current : forall n, sound n -> tables_current n.
Proof.
  intros n [_ I S _]. assert (Nd : forall v r, lookup v (rels n) = Some r -> In v (nodes (ngraph n))) by (intros v r Hr; eapply settled_node; eauto).
  assert (Can : forall v r, lookup v (rels n) = Some r -> can_tabulate n v r -> exists t, table_of (ngraph n) (doms n) v r = Ok t /\ cpd_of n v = Some t).
  { intros v r Hr Hc. assert (Sv := S v r Hr). unfold settled in Sv. destruct (table_of (ngraph n) (doms n) v r) as [t|e] eqn:E; eauto.
    exfalso. assert (e = ParentsNotReady) by (destruct e; auto; destruct Sv). subst e. destruct Hc as [[t ->]|Hc]; [discriminate|].
    apply (ready_not_pnr (ngraph n) (doms n) v r (Nd v r Hr) (inv_proper n I v r Hr)); auto. intros p Hp K.
    destruct (Hc p Hp) as [d Hd]. unfold has_domain in Hd. congruence. }
  split; [|split].
  - intros v r Hr Hc. destruct (Can v r Hr Hc) as (t & T1 & T2). exists t. split; [apply has_table_iff; auto|].
    split; [apply ok_reflects; eauto|]. apply (inv_dom n I v t T2).
  - intros v r Hr Hc t Ht. apply has_table_iff in Ht; auto. apply Hc. assert (Sv := S v r Hr). unfold settled in Sv.
    destruct (table_of (ngraph n) (doms n) v r) as [t'|e] eqn:E; [|exfalso; destruct e; congruence].
    destruct (ok_ready (ngraph n) (doms n) v r t' (Nd v r Hr) E) as [|Rd]; [left; auto|]. right. intros p Hp. specialize (Rd p Hp).
    unfold has_domain. destruct (lookup p (doms n)) as [d|]; [eauto|congruence].
  - intros v t Ht. apply has_table_iff in Ht; auto. destruct (inv_rel n I v t Ht) as [K1 K2]. split; auto. split.
    + apply lookup_In_keys in K1. destruct K1 as [r Hr]. congruence.
    + intros t' Ht'. apply has_table_iff in Ht'; auto. congruence.
Qed.
(* C35 for every history of additions, removals, copies, interventions, queries and edge edits *)
Theorem C35_every_history : forall n, built n -> tables_current n.
Proof. intros n B. apply sound_current. apply (built_sound n B). Qed.
Print Assumptions C35_every_history.

(* C56: after an edit of an edge into a variable without relationship, with a ready-made table, or with a table made from a
   dictionary or a list of decisions, only that edge has changed, all relationships are kept and all tables are current *)
Theorem C56_partial : forall n u v n', built n -> follows_edits n v ->
  (add_edge n u v = (n', None) -> tables_current n' /\ same_rels n' n /\
     (forall x, In x (nodes (ngraph n')) <-> In x (nodes (ngraph n)) \/ x = u \/ x = v) /\ (forall a b, edge (ngraph n') a b <-> edge (ngraph n) a b \/ a = u /\ b = v)) /\
  (remove_edge n u v = (n', None) -> tables_current n' /\ same_rels n' n /\
     nodes (ngraph n') = nodes (ngraph n) /\ (forall a b, edge (ngraph n') a b <-> edge (ngraph n) a b /\ ~ (a = u /\ b = v))).
Proof.
  intros n u v n' B F. destruct (built_sound n B) as [S _]. split; intro H.
  - destruct (add_edge_sound n u v n' S F H) as (S' & R & N & E). split; [apply sound_current; auto|auto].
  - destruct (remove_edge_sound n u v n' S F H) as (S' & R & N & _ & E). split; [apply sound_current; auto|auto].
Qed.
Print Assumptions C56_partial.
(* the edit is refused, leaving the network as it is, exactly when it is no edit of an acyclic graph *)
Theorem C56_refused : forall n u v, wf_dag (ngraph n) ->
  (~ edge (ngraph n) u v -> remove_edge n u v = (n, Some NetworkXError)) /\
  (~ acyclic (nx_add_edge (ngraph n) u v) -> add_edge n u v = (n, Some ValueError)) /\
  (acyclic (nx_add_edge (ngraph n) u v) -> ngraph (fst (add_edge n u v)) = nx_add_edge (ngraph n) u v).
Proof.
  intros n u v W. destruct (bn_add_edge_err (ngraph n) u v W) as [E1 E2]. split; [|split].
  - intro H. unfold remove_edge, nx_remove_edge. apply has_edge_false in H. rewrite H. auto.
  - intro H. apply E1 in H. destruct H as [e H]. unfold add_edge. rewrite H. rewrite (E2 e H). auto.
  - intro H. unfold add_edge. destruct (bn_add_edge (ngraph n) u v) as [g|e] eqn:E; [|exfalso; apply (proj1 E1); eauto].
    destruct (bn_add_edge_ok _ _ _ _ W E) as [_ ->]. unfold renew. cbn [on_graph rels]. destruct (lookup v (rels n)); [|auto].
    destruct (mem v (nodes (ngraph (on_graph n (nx_add_edge (ngraph n) u v))))); [|auto]. destruct (is_constant _); [|auto].
    unfold set_rel. rewrite set_item_graph. auto.
Qed.
Print Assumptions C56_refused.

(* a function keeps the table made for the old parents, and a relationship that waited for a parent goes on waiting *)
Definition any_fn : fn := mkFn [] true (fun _ => Ok (VDist coin)).
Definition ex_function : net := made (mkG ["A"; "B"] [("A", "B")]) [("A", RDist coin); ("B", RFun any_fn)].
Definition ex_waiting : net := made (mkG ["A"; "B"] [("A", "B")]) [("B", RDist coin)].
Definition ex_constant : net := made (mkG ["A"; "B"] [("A", "B")]) [("A", RDist coin); ("B", RDist coin)].
Lemma any_admissible : admissible "B" (RFun any_fn).
Proof. split; [intros pv K; discriminate|split; [auto|]]. intros pv d H. injection H as <-. exact coin_dict. Qed.
Lemma ex_edit_built : built ex_function /\ built ex_waiting /\ built ex_constant.
Proof.
  split; [|split]; apply made_built; try (vm_compute; reflexivity).
  - rels_ok; [split; [exact I|exact coin_dict]|exact any_admissible].
  - rels_ok; split; [exact I|exact coin_dict].
  - rels_ok; split; [exact I|exact coin_dict| exact I|exact coin_dict].
Qed.
Opaque ex_function ex_waiting ex_constant.
Theorem C56_refuted :
  (exists n u v n', built n /\ distribution n /\ remove_edge n u v = (n', None) /\ ~ tables_current n' /\ ~ distribution n') /\
  (exists n u v n' r, built n /\ remove_edge n u v = (n', None) /\ lookup v (rels n') = Some r /\ can_tabulate n' v r /\ forall t, ~ has_table n' v t).
Proof.
  split.
  - exists ex_function, "A", "B". destruct (remove_edge ex_function "A" "B") as [n' e] eqn:E. exists n'. split; [exact (proj1 ex_edit_built)|]. split; [apply dist_check_ok; vm_compute; reflexivity|].
    assert (X : match remove_edge ex_function "A" "B" with (n', None) => match cpd_of n' "B", lookup "B" (rels n'), parents (ngraph n') "B" with
      | Some t, Some (RFun f), [] => mem "B" (nodes (ngraph n')) && match tev t with [] => false | _ => true end | _, _, _ => false end | _ => false end = true) by (vm_compute; reflexivity).
    rewrite E in X. destruct e; [discriminate|]. destruct (cpd_of n' "B") as [t|] eqn:Ec; [|discriminate]. destruct (lookup "B" (rels n')) as [[f|d|l|t0]|] eqn:Er; try discriminate.
    destruct (parents (ngraph n') "B") eqn:Ep; [|discriminate]. apply andb_true_iff in X. destruct X as [Xn X]. apply mem_In in Xn. split; auto.
    assert (Ht : has_table n' "B" t) by (apply find_tab_in; exact Ec).
    assert (No : forall p, ~ edge (ngraph n') p "B") by (intros p Hp; apply in_parents in Hp; rewrite Ep in Hp; exact Hp).
    split.
    + intros (C1 & _ & C3). destruct (C1 "B" (RFun f) Er) as (t' & T1 & T2 & _); [right; intros p Hp; destruct (No p Hp)|]. destruct (C3 "B" t Ht) as (_ & _ & U). rewrite (U t' T1) in T2.
      cbn [reflects] in T2. destruct T2 as (_ & Te & _). rewrite Ep in Te. rewrite Te in X. discriminate.
    + intros (W & Sg & _ & Ft). destruct (Ft "B" Xn) as (t' & T1 & _ & T2 & _). rewrite (Sg "B" t' t T1 Ht) in T2. destruct (tev t) as [|p l]; [discriminate|]. apply (No p). apply T2. left; auto.
  - exists ex_waiting, "A", "B". destruct (remove_edge ex_waiting "A" "B") as [n' e] eqn:E. exists n', (RDist coin). split; [exact (proj1 (proj2 ex_edit_built))|].
    assert (X : match remove_edge ex_waiting "A" "B" with (n', None) => match cpds n', parents (ngraph n') "B" with [], [] => true | _, _ => false end | _ => false end = true) by (vm_compute; reflexivity).
    rewrite E in X. destruct e; [discriminate|]. destruct (cpds n') eqn:Ec; [|discriminate]. destruct (parents (ngraph n') "B") eqn:Ep; [|discriminate]. split; auto.
    assert (L : lookup "B" (rels (fst (remove_edge ex_waiting "A" "B"))) = Some (RDist coin)) by (vm_compute; reflexivity). rewrite E in L. split; [exact L|]. split.
    + right. intros p Hp. apply in_parents in Hp. rewrite Ep in Hp. destruct Hp.
    + intros t [Ht _]. rewrite Ec in Ht. destruct Ht.
Qed.
Print Assumptions C56_refuted.
Example C56_example : built ex_constant /\ follows_edits ex_constant "B" /\ exists n', remove_edge ex_constant "A" "B" = (n', None) /\ distribution n'.
Proof.
  split; [exact (proj2 (proj2 ex_edit_built))|]. split.
  - right. right. assert (X : match cpd_of ex_constant "B" with Some t => match tkind t with KConst => true | _ => false end | None => false end = true) by (vm_compute; reflexivity).
    destruct (cpd_of ex_constant "B") as [t|] eqn:E; [|discriminate]. exists t. split; [apply find_tab_in; exact E|]. left. destruct (tkind t); try discriminate. auto.
  - assert (X : match remove_edge ex_constant "A" "B" with (n', None) => dist_check n' | _ => false end = true) by (vm_compute; reflexivity).
    destruct (remove_edge ex_constant "A" "B") as [n' [e|]]; [discriminate|]. exists n'. split; auto. apply dist_check_ok; auto.
Qed.
