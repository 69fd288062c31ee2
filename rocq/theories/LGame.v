(* Lemmas about the exported game. *)
From Coq Require Import String List Bool Arith QArith Qcanon Lia Permutation.
Import ListNotations.
From Verif Require Import MBase MGraph MMacid MCpd MNet MProb MQuery MGame Spec SpecM SpecC SpecN SpecQ LBase LGraph LRoles LQc LCpd LNet LCheck LSum LBayes LQuery LFactor LBuilt LTotal PQuery SpecPol SpecGame.
Local Open Scope nat_scope.

(* ---- what a query leaves of the network ---- *)
(* the domains are the same, and the remaining variables have the same parents *)
Definition smaller (n n' : net) : Prop := doms n' = doms n /\ wf_dag (ngraph n') /\ forall d ps, get_parents (ngraph n') d = Ok ps -> get_parents (ngraph n) d = Ok ps.
Lemma smaller_refl : forall n, wf_dag (ngraph n) -> smaller n n.
Proof. intros n W. split; auto. Qed.
Lemma smaller_trans : forall n n' n'', smaller n n' -> smaller n' n'' -> smaller n n''.
Proof. intros n n' n'' (D & W & P) (D' & W' & P'). split; [congruence|]. split; auto. Qed.
Lemma remove_node_edges : forall n v n', remove_node n v = (n', None) -> edges (ngraph n') = filter (fun e => negb (String.eqb v (fst e)) && negb (String.eqb v (snd e))) (edges (ngraph n)) /\ nodes (ngraph n') = filter (fun m => negb (String.eqb v m)) (nodes (ngraph n)).
Proof.
  intros n v n' H. unfold remove_node in H.
  assert (Y : forall n0, ngraph n0 = ngraph n -> match nx_remove_node (ngraph n0) v with Err e => (n0, Some e) | Ok g => (on_graph n0 g, None) end = (n', None) -> edges (ngraph n') = filter (fun e => negb (String.eqb v (fst e)) && negb (String.eqb v (snd e))) (edges (ngraph n)) /\ nodes (ngraph n') = filter (fun m => negb (String.eqb v m)) (nodes (ngraph n))).
  { intros n0 E K. rewrite E in K. unfold nx_remove_node in K. destruct (mem v (nodes (ngraph n))); [|discriminate]. injection K as <-. split; reflexivity. }
  destruct (cpd_of n v); cbn [fst snd] in H; [|apply (Y n); auto]. destruct (del_item n v) as [n0 [e|]] eqn:E; [discriminate|]. apply del_item_others in E. apply (Y n0); [apply E|auto].
Qed.
Lemma filter_filter : forall (A : Type) (f h : A -> bool) l, filter f (filter h l) = filter (fun x => h x && f x) l.
Proof. intros A f h l. induction l as [|a l IH]; auto. cbn. destruct (h a); cbn; rewrite IH; destruct (f a); auto. Qed.
Lemma remove_nodes_edges : forall vs n n', loop_net remove_node n vs = (n', None) -> edges (ngraph n') = filter (fun e => negb (mem (fst e) vs) && negb (mem (snd e) vs)) (edges (ngraph n)) /\ nodes (ngraph n') = filter (fun m => negb (mem m vs)) (nodes (ngraph n)).
Proof.
  induction vs as [|v vs IH]; intros n n' H; cbn [loop_net] in H.
  - injection H as <-. cbn. split; [induction (edges (ngraph n)) as [|a l IH]|induction (nodes (ngraph n)) as [|a l IH]]; cbn; auto; rewrite <- IH; auto.
  - destruct (remove_node n v) as [n0 [e|]] eqn:E; [discriminate|]. apply remove_node_edges in E. destruct E as [E1 E2]. apply IH in H. destruct H as [H1 H2]. rewrite H1, H2, E1, E2, !filter_filter. split; apply filter_ext; intros; cbn [mem existsb];
    rewrite ?(String.eqb_sym v); unfold mem; [destruct a as [x y]; cbn [fst snd]; destruct (String.eqb x v), (String.eqb y v), (existsb (String.eqb x) vs), (existsb (String.eqb y) vs); auto|destruct (String.eqb a v); auto].
Qed.
Lemma query_smaller : forall o roles n qs c n' f, wf_dag (ngraph n) -> query o roles n qs c [] = (n', Ok f) ->
  smaller n n' /\ exists c', f = normalised (tabulate n' (o qs (to_set qs)) c').
Proof.
  intros o roles n qs c n' f W H. unfold query in H. destruct (check_context (doms n) c); [|discriminate]. unfold query_connected in H.
  destruct (map_r (component (ngraph n)) qs) as [cs|e] eqn:Ec; [|discriminate]. destruct (components_spec _ _ _ W Ec) as [Iq Cq].
  destruct (loop_net remove_node n (filter (fun v => negb (mem v (concat cs))) (nodes (ngraph n)))) as [n3 [e3|]] eqn:El; [discriminate|].
  destruct (is_connected (ngraph n3)) as [[|]|]; try discriminate. destruct (bp_query o n3 qs _) as [f3|] eqn:B; [|discriminate]. assert (n' = n3 /\ f = f3) as [-> ->] by (split; congruence). clear H.
  split.
  - destruct (remove_nodes_any _ _ _ _ W El) as (W3 & D3 & _). destruct (remove_nodes_edges _ _ _ El) as [E1 E2]. split; auto. split; auto.
    intros d ps K. unfold get_parents in *. destruct (mem d (nodes (ngraph n3))) eqn:Md; [|discriminate]. apply mem_In in Md. rewrite E2 in Md. apply filter_In in Md. destruct Md as [M1 M2].
    rewrite (proj2 (mem_In _ _) M1). rewrite <- K. f_equal. unfold parents. f_equal. rewrite E1, filter_filter. apply filter_ext_in. intros [x y] He. cbn [fst snd].
    destruct (String.eqb_spec y d) as [->|]; [|rewrite andb_false_r; auto]. rewrite andb_true_r.
    set (far := filter (fun v => negb (mem v (concat cs))) (nodes (ngraph n))) in *. assert (Hd : mem d (concat cs) = true).
    { apply negb_true_iff in M2. apply mem_nIn in M2. destruct (mem d (concat cs)) eqn:E; auto. exfalso. apply M2. apply filter_In. split; auto. rewrite E. auto. }
    apply mem_In in Hd. apply Cq in Hd. destruct Hd as (_ & q & Hq & L). assert (Hx : In x (nodes (ngraph n))) by (apply W in He; apply He).
    assert (Hx2 : mem x (concat cs) = true). { apply mem_In. apply Cq. split; auto. exists q. split; auto. eapply linked_edge; eauto. }
    rewrite M2, andb_true_r. symmetry. apply negb_true_iff. apply mem_nIn. intro K'. apply filter_In in K'. rewrite Hx2 in K'. destruct K'; discriminate.
  - unfold bp_query in B. destruct (check_model n3); [|discriminate]. cbn [bind] in B. destruct (existsb _ qs); [discriminate|]. injection B as <-. eauto.
Qed.
Lemma macid_query_smaller : forall o m n d c n' f, valid_order o -> wf_dag (ngraph n) -> macid_query o m n [d] c [] = (n', Ok f) ->
  smaller n n' /\ map fst (fentries f) = map (fun x => [x]) (dom_of (doms n) d).
Proof.
  intros o m n d c n' f O W H. apply macid_query_inv in H. destruct H as (_ & _ & _ & H). apply query_smaller in H; auto. destruct H as [S (c' & ->)]. split; auto.
  assert (E : o [d] (to_set [d]) = [d]) by (specialize (O [d] (to_set [d])); cbn in O |- *; apply Permutation_length_1_inv; apply Permutation_sym; auto).
  unfold normalised, tabulate. rewrite E. cbn [fentries map product]. destruct S as (D & _). rewrite D, !map_map. cbn [fst]. unfold states, dom_of. destruct (lookup d (doms n)) as [l|]; [|auto]. clear. induction l as [|x l IH]; cbn; auto. f_equal. auto.
Qed.
