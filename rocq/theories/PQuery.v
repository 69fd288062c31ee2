(* Properties C37, C38, C39, C40, C41 and C55: queries and interventions. *)
From Coq Require Import String List Bool Arith QArith Qcanon Lia Permutation.
Import ListNotations.
From Verif Require Import MBase MGraph MMacid MCpd MNet MProb MQuery Spec SpecM SpecC SpecN SpecQ LBase LGraph LQc LCpd LNet LCheck LSum LBayes LSep LQuery LDo LInter LFactor LBuilt LTotal LCheckN.
Local Open Scope string_scope.
Local Open Scope list_scope.
Local Open Scope Qc_scope.

(* ---- C37 ---- *)
Lemma in_remove_tab : forall v l t, tvar t <> v -> (In t (remove_tab v l) <-> In t l).
Proof.
  intros v l t H. induction l as [|s l IH]; simpl; [tauto|]. destruct (String.eqb_spec (tvar s) v) as [E|E]; simpl; [|tauto].
  split; auto. intros [->|K]; [congruence|auto].
Qed.
Lemma del_item_others : forall n v n' e, del_item n v = (n', e) -> ngraph n' = ngraph n /\ doms n' = doms n /\
  forall u, u <> v -> lookup u (rels n') = lookup u (rels n) /\ forall t, has_table n' u t <-> has_table n u t.
Proof.
  intros n v n' e H. unfold del_item in H. destruct (mem v (keys (rels n))); injection H as <- <-; [|split; [|split]; auto; intros; split; [auto|tauto]].
  cbn [ngraph doms rels]. split; auto. split; auto. intros u Hu. split.
  - rewrite lookup_ddel. destruct (String.eqb_spec u v); congruence.
  - intro t. unfold has_table. cbn [cpds]. destruct (mem v (nodes (ngraph n))); [|tauto]. split; intros [K <-]; (split; [|auto]); eapply in_remove_tab; eauto.
Qed.
Lemma remove_node_any : forall n v n' e, wf_dag (ngraph n) -> remove_node n v = (n', e) ->
  wf_dag (ngraph n') /\ doms n' = doms n /\ incl (nodes (ngraph n')) (nodes (ngraph n)) /\ (forall a b, edge (ngraph n') a b -> edge (ngraph n) a b) /\
  (forall a b, a <> v -> b <> v -> edge (ngraph n) a b -> edge (ngraph n') a b) /\
  forall u, u <> v -> (In u (nodes (ngraph n)) -> In u (nodes (ngraph n'))) /\ lookup u (rels n') = lookup u (rels n) /\ forall t, has_table n' u t <-> has_table n u t.
Proof.
  intros n v n' e W H. unfold remove_node in H.
  set (r := if match cpd_of n v with Some _ => true | None => false end then del_item n v else (n, None)) in H.
  assert (X : ngraph (fst r) = ngraph n /\ doms (fst r) = doms n /\ forall u, u <> v -> lookup u (rels (fst r)) = lookup u (rels n) /\ forall t, has_table (fst r) u t <-> has_table n u t).
  { unfold r. destruct (cpd_of n v); [|cbn [fst]; split; [|split]; auto; intros; split; [auto|tauto]].
    destruct (del_item n v) as [m e0] eqn:E. exact (del_item_others n v m e0 E). }
  destruct r as [n0 e0]. cbn [fst] in X. destruct X as (G & Dm & X).
  assert (Same : n' = n0 -> wf_dag (ngraph n') /\ doms n' = doms n /\ incl (nodes (ngraph n')) (nodes (ngraph n)) /\ (forall a b, edge (ngraph n') a b -> edge (ngraph n) a b) /\
    (forall a b, a <> v -> b <> v -> edge (ngraph n) a b -> edge (ngraph n') a b) /\
    forall u, u <> v -> (In u (nodes (ngraph n)) -> In u (nodes (ngraph n'))) /\ lookup u (rels n') = lookup u (rels n) /\ forall t, has_table n' u t <-> has_table n u t).
  { intros ->. rewrite G. split; auto. split; auto. split; [apply incl_refl|]. split; auto. }
  destruct e0 as [e1|]; [injection H as <- _; auto|]. rewrite G in H.
  destruct (nx_remove_node (ngraph n) v) as [g|e1] eqn:R; [|injection H as <- _; auto]. injection H as <- _.
  assert (En := nx_remove_nodes _ _ _ R). assert (Ee := fun a b => edge_nx_remove_node _ _ _ a b R). cbn [on_graph ngraph doms rels].
  split; [split; [eapply wf_nx_remove_node; eauto; apply W|eapply acyclic_sub; [|apply W]; intros a b K; apply Ee in K; tauto]|].
  split; auto. split; [rewrite En; intros u Hu; apply filter_In in Hu; tauto|]. split; [intros a b K; apply Ee in K; tauto|].
  split; [intros; apply Ee; auto|]. intros u Hu. split; [|exact (X u Hu)].
  intro K. rewrite En. apply filter_In. split; auto. destruct (String.eqb_spec u v); [congruence|auto].
Qed.
Lemma remove_nodes_any : forall vs n n' e, wf_dag (ngraph n) -> loop_net remove_node n vs = (n', e) ->
  wf_dag (ngraph n') /\ doms n' = doms n /\ incl (nodes (ngraph n')) (nodes (ngraph n)) /\ (forall a b, edge (ngraph n') a b -> edge (ngraph n) a b) /\
  (forall a b, ~ In a vs -> ~ In b vs -> edge (ngraph n) a b -> edge (ngraph n') a b) /\
  forall u, ~ In u vs -> (In u (nodes (ngraph n)) -> In u (nodes (ngraph n'))) /\ lookup u (rels n') = lookup u (rels n) /\ forall t, has_table n' u t <-> has_table n u t.
Proof.
  induction vs as [|v vs IH]; intros n n' e W H; cbn [loop_net] in H.
  - injection H as <- <-. split; auto. split; auto. split; [apply incl_refl|]. split; auto. split; auto. intros u _. split; auto. split; auto. tauto.
  - destruct (remove_node n v) as [n0 e0] eqn:E. destruct (remove_node_any n v n0 e0 W E) as (W0 & D0 & I0 & A0 & B0 & C0).
    destruct e0 as [e1|].
    + injection H as <- <-. split; auto. split; auto. split; auto. split; auto. split; [intros a b Ha Hb; apply B0; intro; [apply Ha|apply Hb]; left; auto|].
      intros u Hu. apply C0. intro; apply Hu; left; auto.
    + destruct (IH n0 n' e W0 H) as (W1 & D1 & I1 & A1 & B1 & C1). split; auto. split; [congruence|]. split; [eapply incl_tran; eauto|]. split; [auto|]. split.
      * intros a b Ha Hb K. apply B1; [intro; apply Ha; right; auto|intro; apply Hb; right; auto|]. apply B0; auto; intro; [apply Ha|apply Hb]; left; auto.
      * intros u Hu. destruct (C1 u) as (X1 & X2 & X3); [intro; apply Hu; right; auto|]. destruct (C0 u) as (Y1 & Y2 & Y3); [intro; apply Hu; left; auto|].
        split; auto. split; [congruence|]. intro t. rewrite X3. auto.
Qed.
Lemma far_self : forall n qs, only_far_removed n n qs.
Proof. intros n qs. split; auto. split; [apply incl_refl|]. split; auto. split; auto. intros v _. split; auto. split; [tauto|]. split; [auto|tauto]. Qed.
Lemma query_connected_far : forall o n qs c n' r, wf_dag (ngraph n) -> query_connected o n qs c = (n', r) -> only_far_removed n n' qs.
Proof.
  intros o n qs c n' r W H. unfold query_connected in H. destruct (map_r (component (ngraph n)) qs) as [cs|e] eqn:Ec; [|injection H as <- _; apply far_self].
  destruct (components_spec _ _ _ W Ec) as [Iq Cq]. set (far := filter (fun v => negb (mem v (concat cs))) (nodes (ngraph n))) in H.
  destruct (loop_net remove_node n far) as [n3 e3] eqn:El.
  assert (n' = n3) as ->.
  { destruct e3; [congruence|]. destruct (is_connected (ngraph n3)) as [[|]|]; congruence. }
  clear H. destruct (remove_nodes_any far n n3 e3 W El) as (W3 & D3 & I3 & A3 & B3 & C3).
  assert (Lj : forall u v, linked (ngraph n) u v <-> joined (ngraph n) [] u v) by (apply linked_joined; simpl; tauto).
  assert (Nf : forall v, near n qs v -> ~ In v far).
  { intros v (q & Hq & J) K. unfold far in K. rewrite filter_In, negb_true_iff, mem_nIn in K. destruct K as [K1 K2]. apply K2. apply Cq. split; auto. exists q. split; auto. apply Lj; auto. }
  split; auto. split; auto. split; auto. split.
  - intros v Hv. destruct (C3 v (Nf v Hv)) as (X1 & X2 & X3). split; auto. split; [|auto]. intro u. split; [|auto].
    intro K. apply B3; auto. apply Nf. destruct Hv as (q & Hq & J). exists q. split; auto. apply Lj. apply Lj in J. eapply linked_edge; eauto.
  - intro All. assert (E : far = []).
    { unfold far. clear - All Nf. assert (Z : forall v, ~ In v far). { intros v K. apply (Nf v); auto. apply All. unfold far in K. apply filter_In in K. tauto. }
      fold far. destruct far as [|v l]; auto. exfalso. apply (Z v). left; auto. }
    rewrite E in El. cbn [loop_net] in El. congruence.
Qed.
Theorem C37_partial : forall o roles n qs c iv n' r, wf_dag (ngraph n) -> query o roles n qs c iv = (n', r) ->
  (iv <> [] -> n' = n) /\ only_far_removed n n' qs.
Proof.
  intros o roles n qs c iv n' r W H. unfold query in H. destruct (check_context (doms n) c); [|injection H as <- _; split; [auto|apply far_self]].
  destruct iv as [|x iv]; [|injection H as <- _; split; [auto|apply far_self]]. split; [congruence|]. eapply query_connected_far; eauto.
Qed.
Print Assumptions C37_partial.
(* expected values, and the methods of diagrams *)
Theorem C37_methods_partial : forall o m n qs c iv, wf_dag (ngraph n) ->
  (forall n' r, macid_query o m n qs c iv = (n', r) -> (iv <> [] -> n' = n) /\ only_far_removed n n' qs) /\
  (forall roles n' r, expected_value o roles n qs c iv = (n', r) -> (iv <> [] -> n' = n) /\ only_far_removed n n' qs) /\
  (forall n' r, macid_expected_value o m n qs c iv = (n', r) -> (iv <> [] -> n' = n) /\ only_far_removed n n' qs) /\
  (forall a us n' r, lookup a (agent_utilities m) = Some us -> expected_utility o m n c iv a = (n', r) -> (iv <> [] -> n' = n) /\ only_far_removed n n' us).
Proof.
  intros o m n qs c iv W.
  assert (Q : forall qs n' r, macid_query o m n qs c iv = (n', r) -> (iv <> [] -> n' = n) /\ only_far_removed n n' qs).
  { clear qs. intros qs n' r H. unfold macid_query in H. destruct (_ <- check_domains n c ;; check_policies m n qs c iv); [eapply C37_partial; eauto|].
    injection H as <- _. split; [auto|apply far_self]. }
  split; [exact (Q qs)|]. split; [|split].
  - intros roles n' r H. unfold expected_value in H. destruct (query o roles n qs c iv) as [n1 r1] eqn:E. injection H as <- _. eapply C37_partial; eauto.
  - intros n' r H. unfold macid_expected_value in H. destruct (macid_query o m n qs c iv) as [n1 r1] eqn:E. injection H as <- _. eapply Q; eauto.
  - intros a us n' r L H. unfold expected_utility, dict_get in H. rewrite L in H. unfold macid_expected_value in H.
    destruct (macid_query o m n us c iv) as [n1 r1] eqn:E. injection H as <- _. eapply Q; eauto.
Qed.
Print Assumptions C37_methods_partial.

(* ---- C38 ---- *)
Theorem C38_truncated_product_partial : forall n iv, built n -> distribution n -> NoDup (keys iv) -> incl (keys iv) (nodes (ngraph n)) ->
  in_domains n iv -> tables_sorted n iv -> exists n', intervene n iv = (n', None) /\ built n' /\ distribution n' /\
  nodes (ngraph n') = nodes (ngraph n) /\ (forall u v, edge (ngraph n') u v <-> edge (ngraph n) u v /\ ~ In v (keys iv)) /\
  (forall v, In v (nodes (ngraph n)) -> Permutation (dom_of (doms n) v) (dom_of (doms n') v)) /\
  (forall v, In v (nodes (ngraph n)) -> ~ In v (keys iv) -> dom_of (doms n') v = dom_of (doms n) v /\ lookup v (rels n') = lookup v (rels n) /\
     forall a, (forall u, u = v \/ edge (ngraph n) u v -> In (a u) (dom_of (doms n) u)) -> kernel n' v a = kernel n v a) /\
  (forall v x a, In (v, x) iv -> In (a v) (dom_of (doms n) v) -> kernel n' v a = if Qc_eq_dec (a v) x then 1 else 0) /\
  (forall c, incl (keys c) (nodes (ngraph n)) -> prob n' c = do_prob n iv c).
Proof.
  intros n iv B Hd Ni Ii Di Ts. assert (Po := built_portable n B Hd).
  destruct (intervene_steps n iv [] n Po Hd (self_tracks n Po) Ni Di Ii Ts) as [n' E]. exists n'.
  assert (T := intervene_tracks n n iv n' Po (self_tracks n Po) E Ni Di Ts). assert (Hd' := tracks_distribution n n' iv Po Hd Ni Di T).
  split; auto. split; [eapply built_intervene; eauto|]. split; auto. assert (R := realises_tracks n n' iv T).
  assert (Pr : forall c, incl (keys c) (nodes (ngraph n)) -> prob n' c = do_prob n iv c).
  { intros c Hc. assert (N' : nodes (ngraph n') = nodes (ngraph n)) by apply T. apply (prob_kept n n' iv Hd Ni Ii Di R n'); auto; try apply Hd'.
    - rewrite N'. apply incl_refl.
    - intros u v Ke _. apply (proj1 Hd') in Ke. tauto.
    - rewrite N'. auto. }
  destruct T as [S C N Ed Rl Pt Dm Sm K]. split; auto. split; auto. split; auto. split; [|split; auto].
  - intros v Hv Hn. split; [apply Sm; auto|]. split; auto. intros a Ha. rewrite K; auto.
    + unfold do_kernel. rewrite (proj1 (lookup_None_keys _ _ _) Hn). auto.
    + intros u [->|[Ke _]]; auto.
  - intros v x a Hi Ha. assert (Kv : In v (keys iv)) by exact (in_map fst _ _ Hi). rewrite K; auto.
    + unfold do_kernel. rewrite (In_lookup _ _ _ _ Ni Hi). destruct (Qc_eq_dec (a v) x) as [->|Hx].
      * replace (oeqb x x) with true by (symmetry; apply oeqb_iff; auto). auto.
      * destruct (oeqb_spec (a v) x); [contradiction|auto].
    + intros u [->|[_ Hk]]; [auto|contradiction].
Qed.
Print Assumptions C38_truncated_product_partial.

(* ---- C39 ---- *)
(* a context with a value outside the domain is rejected, if all variables of the context have domains *)
Theorem C39_context_partial : forall o roles n qs c iv, (forall v x, In (v, x) c -> exists d, has_domain n v d) -> ~ in_domains n c ->
  query o roles n qs c iv = (n, Err ValueError).
Proof.
  intros o roles n qs c iv H Ho. unfold query. assert (E : check_context (doms n) c = Err ValueError); [|rewrite E; auto].
  rewrite check_context_ok in Ho. induction c as [|[v x] c IH]; cbn [check_context] in *; [congruence|]. destruct (H v x (or_introl eq_refl)) as [d L]. unfold has_domain in L. rewrite L in *.
  destruct (omem x d); auto. apply IH; auto. intros w y Hw. apply (H w y). right; auto.
Qed.
Print Assumptions C39_context_partial.
Theorem C39_diagram_context_partial : forall o m n qs c iv, single_tables n -> (forall v x, In (v, x) c -> In v (nodes (ngraph n)) /\ exists t, has_table n v t /\ has_domain n v (tdom t) /\ tkind t <> KTab) -> ~ in_domains n c ->
  macid_query o m n qs c iv = (n, Err ValueError).
Proof.
  intros o m n qs c iv Sg H Ho. unfold macid_query. assert (E : check_domains n c = Err ValueError); [|rewrite E; auto].
  rewrite check_context_ok in Ho. induction c as [|[v x] c IH]; cbn [check_context check_domains] in *; [congruence|].
  destruct (H v x (or_introl eq_refl)) as (Hv & t & Ht & L & Kt). unfold has_domain in L. rewrite L in Ho. unfold get_cpds. rewrite (proj2 (mem_In _ _) Hv). apply single_cpd in Ht; auto. rewrite Ht. cbn [bind].
  assert (IH' : omem x (tdom t) = true -> check_domains n c = Err ValueError). { intro X. rewrite X in Ho. apply IH; auto. intros w y Hw. apply (H w y). right; auto. }
  destruct (tkind t); try congruence; destruct (omem x (tdom t)); auto.
Qed.
Print Assumptions C39_diagram_context_partial.
(* with values in the domains no exception is raised, if the question makes sense *)
Theorem C39_accepted_partial : forall o roles n qs c iv, built n -> distribution n ->
  NoDup (keys iv) -> incl (keys iv) (nodes (ngraph n)) -> in_domains n iv -> tables_sorted n iv -> in_domains n c ->
  qs <> [] -> incl qs (nodes (ngraph n)) -> (forall q q', In q qs -> In q' qs -> joined (ngraph n) (keys iv) q q') -> (forall q, In q qs -> ~ In q (keys c)) ->
  iv = [] \/ roles = Ok tt -> exists n' f, query o roles n qs c iv = (n', Ok f).
Proof. exact query_total. Qed.
Print Assumptions C39_accepted_partial.

(* ---- C55 ---- *)
Lemma do_prob_perm : forall n iv c c', Permutation c c' -> do_prob n iv c = do_prob n iv c'.
Proof.
  intros n iv c c' P. unfold do_prob. apply total_ext. intro a. rewrite (agrees_perm c c' a P). auto.
Qed.
Lemma nth_error_ext' : forall (A : Type) (l l' : list A), (forall i, nth_error l i = nth_error l' i) -> l = l'.
Proof.
  intros A l. induction l as [|x l IH]; intros [|y l'] H; auto; try (specialize (H 0%nat); discriminate). f_equal; [specialize (H 0%nat); cbn in H; congruence|]. apply IH. intro i. apply (H (S i)).
Qed.
(* the entries of the factor for values xs of its variables are the conditional probabilities; if the context has probability zero and
   is connected with the question, all entries are nan (represented by 0) *)
Theorem C55_query_conditional : forall o roles n qs c iv n' f, valid_order o -> built n -> distribution n ->
  NoDup (keys c) -> incl (keys c) (nodes (ngraph n)) -> NoDup (keys iv) -> in_domains n iv -> tables_sorted n iv -> query o roles n qs c iv = (n', Ok f) ->
  NoDup (fvars f) /\ (forall v, In v (fvars f) <-> In v qs) /\ NoDup (map fst (fentries f)) /\
  (forall xs, (exists p, In (xs, p) (fentries f)) <-> Forall2 (fun v x => In x (dom_of (doms n) v)) (fvars f) xs) /\
  (do_prob n iv c <> 0 -> qsum (map snd (fentries f)) = 1 /\
     forall xs p, In (xs, p) (fentries f) -> p = do_prob n iv (combine (fvars f) xs ++ c) / do_prob n iv c) /\
  (do_prob n iv c = 0 -> (forall v, In v (keys c) -> exists q, In q qs /\ joined (ngraph n) (keys iv) q v) ->
     forall xs p, In (xs, p) (fentries f) -> p = 0).
Proof.
  intros o roles n qs c iv n' f O B Hd Nc Ic Ni Di Ts H.
  destruct (query_exact o roles n qs c iv n' f O B Hd Nc Ic Ni Di Ts H) as (Pf & Iq & Ii & Dq & Ne & Fe & c1 & c2 & Pc & Far & E1 & E2 & E3).
  split; [eapply Permutation_NoDup; [apply Permutation_sym; eauto|apply NoDup_to_set]|]. split.
  { intro v. rewrite <- (in_to_set v qs). split; intro X; [exact (Permutation_in v Pf X)|exact (Permutation_in v (Permutation_sym Pf) X)]. }
  split; auto. split.
  { intro xs. rewrite <- Fe, in_map_iff. split; [intros [p Hp]; exists (xs, p); auto|intros ([ys p] & <- & Hp); exists p; auto]. }
  split.
  - intro Nz. rewrite E1 in Nz. assert (N1 : do_prob n iv c1 <> 0) by (intro Z; apply Nz; rewrite Z; ring). assert (N2 : do_prob n iv c2 <> 0) by (intro Z; apply Nz; rewrite Z; ring).
    rewrite E2. split; [apply Qcmult_inv_r; auto|]. intros xs p Hp. destruct (E3 xs p Hp) as [_ X]. rewrite (X N1), E1. field. auto.
  - intros Z Near xs p Hp. destruct (E3 xs p Hp) as [X _]. assert (c2 = []) as ->.
    { destruct c2 as [|[v x] c2]; auto. exfalso. destruct (Near v) as (q & Hq & J).
      - apply (in_map fst c (v, x)). apply (Permutation_in _ (Permutation_sym Pc)). apply in_or_app. right; left; auto.
      - apply (Far v q); auto. left; auto. }
    rewrite app_nil_r in Pc. rewrite X, (do_prob_perm n iv c1 c (Permutation_sym Pc)), Z. unfold Qcdiv. change (/ 0) with 0. ring.
Qed.
Print Assumptions C55_query_conditional.
(* ---- C40 ---- *)
Lemma check_domains_nodes : forall n c, check_domains n c = Ok tt -> incl (keys c) (nodes (ngraph n)).
Proof.
  intros n c. induction c as [|[v x] c IH]; cbn [check_domains]; intros H u Hu; [destruct Hu|]. unfold get_cpds in H. destruct (mem_spec v (nodes (ngraph n))) as [Hv|]; [|discriminate]. cbn [bind] in H.
  destruct Hu as [<-|Hu]; [exact Hv|]. destruct (cpd_of n v) as [t|]; [|discriminate]. apply IH; auto. destruct (tkind t); try discriminate; destruct (omem x (tdom t)); auto; discriminate.
Qed.
Lemma macid_query_inv : forall o m n qs c iv n' f, macid_query o m n qs c iv = (n', Ok f) ->
  incl (keys c) (nodes (ngraph n)) /\ check_policies m n qs c iv = Ok tt /\ in_domains n c /\ query o (copy_roles_only m n) n qs c iv = (n', Ok f).
Proof.
  intros o m n qs c iv n' f H. unfold macid_query in H. destruct (check_domains n c) as [[]|] eqn:E1; [|discriminate]. cbn [bind] in H.
  destruct (check_policies m n qs c iv) as [[]|] eqn:E2; [|discriminate]. split; [apply check_domains_nodes; auto|]. split; auto. split; auto.
  apply check_context_ok. unfold query in H. destruct (check_context (doms n) c) as [[]|]; [auto|discriminate].
Qed.
Lemma no_policy_has : forall n d, distribution n -> no_policy n d -> has_policy n d = false.
Proof.
  intros n d (_ & Sg & _) H. unfold has_policy. destruct (cpd_of n d) as [t|] eqn:E; auto. rewrite (H t); auto. apply single_cpd; auto.
Qed.
Lemma has_no_policy : forall n d, distribution n -> has_policy n d = false -> no_policy n d.
Proof.
  intros n d (_ & Sg & _) H t Ht. apply single_cpd in Ht; auto. unfold has_policy in H. rewrite Ht in H. destruct (tkind t); auto; discriminate.
Qed.
(* an answer does not depend on the policies that are missing: n2 is any network that differs from n in their tables *)
Theorem C40_answers_only_if_irrelevant : forall o m n n2 qs c iv x n' f, distribution n -> distribution n2 -> no_clash (ngraph n) ->
  macid_query o m n qs c iv = (n', Ok f) -> differ_in (fun d => In d (decisions m) /\ no_policy n d) n n2 ->
  NoDup (keys c) -> NoDup (keys iv) -> NoDup (keys x) -> incl (keys x) qs -> incl qs (nodes (ngraph n)) -> (forall v, In v (keys x) -> ~ In v (keys c)) ->
  in_domains n iv -> in_domains n x -> do_prob n iv c <> 0 -> do_prob n2 iv c <> 0 ->
  do_prob n2 iv (x ++ c) / do_prob n2 iv c = do_prob n iv (x ++ c) / do_prob n iv c.
Proof.
  intros o m n n2 qs c iv x n' f Hd Hd2 NC H Df Nc Ni Nx Ix Iq Dj Di Dx Z1 Z2. destruct (macid_query_inv _ _ _ _ _ _ _ _ H) as (Ic & Cp & Dc & _).
  assert (Df' : differ_in (fun d => In d (decisions m) /\ has_policy n d = false) n n2).
  { destruct Df as (A & B & C). split; auto. split; auto. intros v t Hv. apply C. intros [X Y]. apply Hv. split; auto. apply no_policy_has; auto. }
  assert (E := unset_irrelevant m n n2 qs c iv x Hd Hd2 NC Cp Df' Nc Ni Nx Ic Ix Iq Dj Dc Di Dx).
  replace (do_prob n2 iv (x ++ c)) with (do_prob n iv (x ++ c) * do_prob n2 iv c / do_prob n iv c); [field; auto|]. rewrite E. field. auto.
Qed.
Print Assumptions C40_answers_only_if_irrelevant.
(* so the answer is the conditional probability under every choice of the missing policies *)
Theorem C40_answer_right : forall o m n n2 qs c iv n' f, valid_order o -> built n -> distribution n -> distribution n2 -> no_clash (ngraph n) ->
  macid_query o m n qs c iv = (n', Ok f) -> differ_in (fun d => In d (decisions m) /\ no_policy n d) n n2 ->
  NoDup (keys c) -> NoDup (keys iv) -> in_domains n iv -> tables_sorted n iv -> do_prob n iv c <> 0 -> do_prob n2 iv c <> 0 ->
  forall xs p, In (xs, p) (fentries f) -> p = do_prob n2 iv (combine (fvars f) xs ++ c) / do_prob n2 iv c.
Proof.
  intros o m n n2 qs c iv n' f O B Hd Hd2 NC H Df Nc Ni Di Ts Z1 Z2 xs p Hp. destruct (macid_query_inv _ _ _ _ _ _ _ _ H) as (Ic & Cp & Dc & Hq).
  destruct (C55_query_conditional _ _ _ _ _ _ _ _ O B Hd Nc Ic Ni Di Ts Hq) as (Nf & Vf & Ne & Fe & X & _). destruct (X Z1) as [_ X']. rewrite (X' xs p Hp). symmetry.
  destruct (query_exact _ _ _ _ _ _ _ _ O B Hd Nc Ic Ni Di Ts Hq) as (_ & Iq & _ & Dq & _).
  assert (F := proj1 (Fe xs) (ex_intro _ p Hp)). assert (L : length xs = length (fvars f)) by (symmetry; eapply Forall2_len; eauto).
  assert (K : keys (combine (fvars f) xs) = fvars f) by (apply keys_combine; auto).
  eapply C40_answers_only_if_irrelevant; eauto.
  - rewrite K. auto.
  - rewrite K. intros v Hv. apply Vf. auto.
  - rewrite K. intros v Hv. apply Dq, Vf. auto.
  - intros v x Hvx. assert (Hv : In v (nodes (ngraph n))) by (apply Iq, Vf; rewrite <- K; exact (in_map fst _ _ Hvx)).
    destruct Hd as (_ & _ & _ & Ft). destruct (Ft v Hv) as (t & _ & Ld & _). exists (tdom t). split; auto.
    assert (Hx : In x (dom_of (doms n) v)) by (clear - F Hvx; induction F as [|w y l l' Hw F IH]; [destruct Hvx|]; destruct Hvx as [E|Hvx]; [injection E as <- <-; auto|auto]).
    unfold dom_of in Hx. unfold has_domain in Ld. rewrite Ld in Hx. auto.
Qed.
Print Assumptions C40_answer_right.

(* ---- C41 ---- *)
Lemma expected_value_inv : forall o roles n qs c iv n' l, expected_value o roles n qs c iv = (n', Ok l) ->
  exists f, query o roles n qs c iv = (n', Ok f) /\ expectations f = Ok l.
Proof.
  intros o roles n qs c iv n' l H. unfold expected_value in H. destruct (query o roles n qs c iv) as [n1 [f|e]]; [|discriminate]. cbn [bind] in H. injection H as <- H. eauto.
Qed.
(* the numbers are the expectations of the different requested variables, in an order chosen by the engine *)
Theorem C41_expectations_partial : forall o roles n qs c iv n' l, valid_order o -> built n -> distribution n -> NoDup (keys c) -> incl (keys c) (nodes (ngraph n)) ->
  NoDup (keys iv) -> in_domains n iv -> tables_sorted n iv -> do_prob n iv c <> 0 -> expected_value o roles n qs c iv = (n', Ok l) ->
  exists vs, NoDup vs /\ (forall v, In v vs <-> In v qs) /\ l = map (expectation n iv c) vs.
Proof.
  intros o roles n qs c iv n' l O B Hd Nc Ic Ni Di Ts Nz H. destruct (expected_value_inv _ _ _ _ _ _ _ _ H) as (f & Q & E).
  destruct (query_exact o roles n qs c iv n' f O B Hd Nc Ic Ni Di Ts Q) as (Pf & Iq & Ii & Dq & Ne & Fe & c1 & c2 & Pc & Far & E1 & E2 & E3).
  assert (Nf : NoDup (fvars f)) by (eapply Permutation_NoDup; [apply Permutation_sym; eauto|apply NoDup_to_set]).
  assert (Vf : forall v, In v (fvars f) <-> In v qs). { intro v. rewrite <- (in_to_set v qs). split; intro X; [exact (Permutation_in v Pf X)|exact (Permutation_in v (Permutation_sym Pf) X)]. }
  destruct (expected_exact n iv c f l Hd Ni Ii Nf) as [L X]; auto.
  - intros v Hv. apply Iq, Vf. auto.
  - exists c1, c2. split; auto. split; auto. intros xs p Hp. apply (E3 xs p Hp).
  - exists (fvars f). split; auto. split; auto. apply nth_error_ext'. intro i. rewrite nth_error_map. destruct (nth_error (fvars f) i) as [v|] eqn:Ei; [apply X; auto|].
    cbn [option_map]. apply nth_error_None. apply nth_error_None in Ei. lia.
Qed.
Print Assumptions C41_expectations_partial.
Theorem C41_single : forall o roles n v c iv n' l, valid_order o -> built n -> distribution n -> NoDup (keys c) -> incl (keys c) (nodes (ngraph n)) ->
  NoDup (keys iv) -> in_domains n iv -> tables_sorted n iv -> do_prob n iv c <> 0 -> expected_value o roles n [v] c iv = (n', Ok l) -> l = [expectation n iv c v].
Proof.
  intros o roles n v c iv n' l O B Hd Nc Ic Ni Di Ts Nz H. destruct (C41_expectations_partial o roles n [v] c iv n' l O B Hd Nc Ic Ni Di Ts Nz H) as (vs & N & I & ->).
  assert (vs = [v]) as ->; auto. destruct vs as [|w vs]; [exfalso; apply (proj2 (I v)); left; auto|]. assert (w = v) as -> by (destruct (proj1 (I w)) as [X|[]]; [left|]; auto).
  f_equal. destruct vs as [|u vs]; auto. exfalso. inversion N as [|? ? N1 _]; subst. apply N1. left. destruct (proj1 (I u)) as [X|[]]; [right; left|]; auto.
Qed.
Print Assumptions C41_single.
Theorem C41_expected_utility : forall o m n c iv a us n' u, valid_order o -> built n -> distribution n -> NoDup (keys c) -> NoDup (keys iv) -> in_domains n iv -> tables_sorted n iv ->
  do_prob n iv c <> 0 -> lookup a (agent_utilities m) = Some us -> NoDup us -> expected_utility o m n c iv a = (n', Ok u) ->
  u = fold_right Qcplus 0 (map (expectation n iv c) us).
Proof.
  intros o m n c iv a us n' u O B Hd Nc Ni Di Ts Nz L Nu H. unfold expected_utility, dict_get in H. rewrite L in H. unfold macid_expected_value in H.
  destruct (macid_query o m n us c iv) as [n1 [f|e]] eqn:E; [|discriminate]. cbn [bind] in H. destruct (expectations f) as [l|e] eqn:Ef; [|discriminate]. injection H as <- <-.
  destruct (macid_query_inv _ _ _ _ _ _ _ _ E) as (Ic & _ & _ & Q).
  destruct (C41_expectations_partial o (copy_roles_only m n) n us c iv n1 l O B Hd Nc Ic Ni Di Ts Nz) as (vs & N & I & ->).
  { unfold expected_value. rewrite Q. cbn [bind]. rewrite Ef. auto. }
  change (qsum (map (expectation n iv c) vs) = qsum (map (expectation n iv c) us)). apply qsum_perm, Permutation_map. apply NoDup_Permutation; auto.
Qed.
Print Assumptions C41_expected_utility.
(* expectations exist when the context has positive probability, and not when its part that matters has probability zero *)
Theorem C41_defined : forall o roles n qs c iv, valid_order o -> built n -> distribution n ->
  NoDup (keys iv) -> incl (keys iv) (nodes (ngraph n)) -> in_domains n iv -> tables_sorted n iv -> NoDup (keys c) -> in_domains n c -> incl (keys c) (nodes (ngraph n)) ->
  qs <> [] -> incl qs (nodes (ngraph n)) -> (forall q q', In q qs -> In q' qs -> joined (ngraph n) (keys iv) q q') -> (forall q, In q qs -> ~ In q (keys c)) ->
  iv = [] \/ roles = Ok tt ->
  (do_prob n iv c <> 0 -> exists n' l, expected_value o roles n qs c iv = (n', Ok l)) /\
  (do_prob n iv c = 0 -> (forall v, In v (keys c) -> exists q, In q qs /\ joined (ngraph n) (keys iv) q v) ->
     exists n', expected_value o roles n qs c iv = (n', Err RuntimeError)).
Proof.
  intros o roles n qs c iv O B Hd Ni Ii Di Ts Nc Dc Ic Nq Iq Jq Dq Ro. destruct (query_total o roles n qs c iv B Hd Ni Ii Di Ts Dc Nq Iq Jq Dq Ro) as (n' & f & Q).
  unfold expected_value. rewrite Q. cbn [bind]. unfold expectations.
  destruct (query_exact o roles n qs c iv n' f O B Hd Nc Ic Ni Di Ts Q) as (Pf & _ & _ & _ & Ne & Fe & c1 & c2 & Pc & Far & E1 & E2 & E3). rewrite E2. split.
  - intro Nz. assert (Z : do_prob n iv c1 <> 0) by (intro Z; apply Nz; rewrite E1, Z; ring). rewrite (Qcmult_inv_r _ Z : do_prob n iv c1 / do_prob n iv c1 = 1). destruct (oeqb_spec 1 0) as [K|_]; [discriminate|]. eauto.
  - intros Z Near. assert (c2 = []) as ->.
    { destruct c2 as [|[v x] c2]; auto. exfalso. destruct (Near v) as (q & Hq & J).
      - apply (in_map fst c (v, x)). apply (Permutation_in _ (Permutation_sym Pc)). apply in_or_app. right; left; auto.
      - apply (Far v q); auto. left; auto. }
    rewrite app_nil_r in Pc. rewrite (do_prob_perm n iv c1 c (Permutation_sym Pc)), Z. exists n'. auto.
Qed.
Print Assumptions C41_defined.

(* ---- concrete networks ---- *)
Lemma lookup_perm : forall (A : Type) k (d d' : list (string * A)), NoDup (map fst d) -> Permutation d d' -> lookup k d = lookup k d'.
Proof.
  intros A k d d' N P. destruct (lookup k d') as [v|] eqn:E.
  - apply In_lookup; auto. apply lookup_In in E. exact (Permutation_in _ (Permutation_sym P) E).
  - apply lookup_None_keys. apply lookup_None_keys in E. intro K. apply E. unfold keys in *. eapply Permutation_in; [apply Permutation_map; exact P|exact K].
Qed.
(* a function of one parent *)
Definition fn1 (p : node) (h : outcome -> value) : fn :=
  mkFn [(p, false)] false (fun pv => match lookup p pv with Some x => Ok (h x) | None => Err KeyError end).
Lemma fn1_admissible : forall v p h, (forall x d, h x = VDist d -> is_dict d) -> admissible v (RFun (fn1 p h)).
Proof.
  intros v p h H. split; [|split].
  - intro pv. cbn. destruct (lookup p pv); discriminate.
  - intros pv pv' N P. cbn. rewrite (lookup_perm _ p pv pv' N P). auto.
  - intros pv d E. cbn in E. destruct (lookup p pv) as [x|]; [|discriminate]. injection E as E. eapply H; eauto.
Qed.
Definition q (a : Z) (b : positive) : Qc := Q2Qc (a # b).
Definition coin : dist := [(0, Some (q 1 2)); (1, Some (q 1 2))].
Lemma coin_dict : is_dict coin.
Proof. apply nodupo_ok. vm_compute. reflexivity. Qed.
Definition noisy (x : outcome) : value := if oeqb x 0 then VDist [(0, Some (q 3 4)); (1, Some (q 1 4))] else VDist [(0, Some (q 1 4)); (1, Some (q 3 4))].
Lemma noisy_dict : forall x d, noisy x = VDist d -> is_dict d.
Proof. intros x d. unfold noisy. destruct (oeqb x 0); intro E; injection E as <-; apply nodupo_ok; vm_compute; reflexivity. Qed.
Definition tab_of (v : node) (d : list outcome) (ev : list node) (cards : list nat) (cols : list (list Qc)) : rel := RTab (mkTab v d ev cards cols KTab).
Lemma tab_admissible : forall v d ev cards cols, admissible v (tab_of v d ev cards cols).
Proof. intros. split; [reflexivity|exact I]. Qed.
Definition made (g : graph) (l : list (node * rel)) : net := fst (add_cpds (bare g) l).
Lemma made_built : forall g l, graph_ok g = true -> (forall v r, In (v, r) l -> admissible v r) -> match snd (add_cpds (bare g) l) with None => true | _ => false end = true -> built (made g l).
Proof.
  intros g l G A H. unfold made. destruct (add_cpds (bare g) l) as [n' [e|]] eqn:E; [discriminate|]. cbn [fst]. eapply built_run; [apply built_new, graph_ok_wf, G| |exact E].
  intros v r K. apply in_map_iff in K. destruct K as ([u s] & E' & K). cbn in E'. injection E' as -> ->. auto.
Qed.
Lemma id_order : valid_order (fun _ l => l).
Proof. intros k l. apply Permutation_refl. Qed.
Lemma rev_order : valid_order (fun _ l => rev l).
Proof. intros k l. apply Permutation_sym, Permutation_rev. Qed.
Ltac rels_ok := let H := fresh in intros ? ? H; repeat (destruct H as [H|H]; [injection H as <- <-|]); [..|destruct H].

(* two unconnected coins; a chain of three; a chain of ready-made tables whose first domain is not sorted *)
Definition ex_apart : net := made (mkG ["A"; "B"] []) [("A", RDist coin); ("B", RDist coin)].
Definition ex_chain : net := made (mkG ["A"; "B"; "C"] [("A", "B"); ("B", "C")])
  [("C", tab_of "C" [0; 1] ["B"] [2%nat] [[q 2 3; q 1 3]; [q 1 3; q 2 3]]); ("B", RFun (fn1 "A" noisy)); ("A", RDist coin)].
Definition ex_unsorted : net := made (mkG ["A"; "B"] [("A", "B")])
  [("A", tab_of "A" [1; 0] [] [] [[q 1 2; q 1 2]]); ("B", tab_of "B" [0; 1] ["A"] [2%nat] [[1; 0]; [0; 1]])].
Lemma ex_apart_built : built ex_apart /\ distribution ex_apart.
Proof. split; [apply made_built|apply dist_check_ok]; [vm_compute; reflexivity| |vm_compute; reflexivity|vm_compute; reflexivity]. rels_ok; (split; [exact I|exact coin_dict]). Qed.
Lemma ex_chain_built : built ex_chain /\ distribution ex_chain.
Proof.
  split; [apply made_built|apply dist_check_ok]; [vm_compute; reflexivity| |vm_compute; reflexivity|vm_compute; reflexivity].
  rels_ok; [apply tab_admissible|apply fn1_admissible, noisy_dict|split; [exact I|exact coin_dict]].
Qed.
Lemma ex_unsorted_built : built ex_unsorted /\ distribution ex_unsorted.
Proof.
  split; [apply made_built|apply dist_check_ok]; [vm_compute; reflexivity| |vm_compute; reflexivity|vm_compute; reflexivity].
  rels_ok; apply tab_admissible.
Qed.

Opaque ex_apart ex_chain ex_unsorted.
(* C37: a query about one coin removes the other *)
Theorem C37_refuted : exists o n qs n' f, valid_order o /\ built n /\ distribution n /\ query o (Ok tt) n qs [] [] = (n', Ok f) /\
  exists v, In v (nodes (ngraph n)) /\ ~ In v (nodes (ngraph n')) /\ lookup v (rels n) <> None /\ lookup v (rels n') = None.
Proof.
  exists (fun _ l => l), ex_apart, ["A"].
  assert (X : match query (fun _ l => l) (Ok tt) ex_apart ["A"] [] [] with
              | (n', Ok f) => negb (mem "B" (nodes (ngraph n'))) && match lookup "B" (rels n') with None => true | _ => false end | _ => false end = true) by (vm_compute; reflexivity).
  destruct (query (fun _ l => l) (Ok tt) ex_apart ["A"] [] []) as [n' [f|]]; [|discriminate]. exists n', f.
  split; [apply id_order|]. split; [exact (proj1 ex_apart_built)|]. split; [exact (proj2 ex_apart_built)|]. split; [reflexivity|]. exists "B". apply andb_true_iff in X. destruct X as [X1 X2].
  split; [vm_compute; auto|]. split; [apply mem_nIn; apply negb_true_iff; auto|]. split; [vm_compute; discriminate|]. destruct (lookup "B" (rels n')); [discriminate|auto].
Qed.
Print Assumptions C37_refuted.
(* a query about a connected network leaves it as it is *)
Example C37_example : exists n' f, wf_dag (ngraph ex_chain) /\ query (fun _ l => l) (Ok tt) ex_chain ["C"] [("A", 1)] [] = (n', Ok f) /\
  (forall v, In v (nodes (ngraph ex_chain)) -> near ex_chain ["C"] v) /\ n' = ex_chain.
Proof.
  assert (X : match snd (query (fun _ l => l) (Ok tt) ex_chain ["C"] [("A", 1)] []) with Ok _ => true | _ => false end = true) by (vm_compute; reflexivity).
  destruct (query (fun _ l => l) (Ok tt) ex_chain ["C"] [("A", 1)] []) as [n' [f|]] eqn:E; [|discriminate]. exists n', f. assert (W : wf_dag (ngraph ex_chain)) by exact (proj1 (proj2 ex_chain_built)).
  assert (Ne : forall v, In v (nodes (ngraph ex_chain)) -> near ex_chain ["C"] v).
  { intros v Hv. exists "C". split; [left; auto|]. vm_compute in Hv.
    assert (J1 : joined (ngraph ex_chain) [] "C" "B") by (eapply joined_step; [right; split; [vm_compute; auto|auto]|constructor]).
    assert (J2 : joined (ngraph ex_chain) [] "C" "A") by (eapply joined_step with (v := "B"); [right; split; [vm_compute; auto|auto]|]; eapply joined_step; [right; split; [vm_compute; auto|auto]|constructor]).
    destruct Hv as [<-|[<-|[<-|[]]]]; auto. constructor. }
  split; [exact W|]. split; [reflexivity|]. split; [exact Ne|]. apply (C37_partial _ _ _ _ _ _ _ _ W E). exact Ne.
Qed.

(* ---- C38 ---- *)
Lemma intervened_kernel : forall n iv v a x, match intervene n iv with (n', None) => oeqb (kernel n' v a) x | _ => false end = true ->
  exists n', intervene n iv = (n', None) /\ kernel n' v a = x.
Proof. intros n iv v a x H. destruct (intervene n iv) as [n' [e|]]; [discriminate|]. exists n'. split; auto. apply oeqb_iff; auto. Qed.
(* intervening on A changes the conditional distribution of B given A, since it sorts the domain of A *)
Theorem C38_refuted : exists n iv n', built n /\ distribution n /\ NoDup (keys iv) /\ incl (keys iv) (nodes (ngraph n)) /\ in_domains n iv /\
  intervene n iv = (n', None) /\ exists v a, In v (nodes (ngraph n)) /\ ~ In v (keys iv) /\ (forall u, In u (nodes (ngraph n)) -> In (a u) (dom_of (doms n) u)) /\ kernel n' v a <> kernel n v a.
Proof.
  destruct (intervened_kernel ex_unsorted [("A", 1)] "B" (fun _ => 1) 1) as (n' & E & K); [vm_compute; reflexivity|].
  exists ex_unsorted, [("A", 1)], n'. split; [exact (proj1 ex_unsorted_built)|]. split; [exact (proj2 ex_unsorted_built)|].
  split; [repeat constructor; simpl; auto|]. split; [intros u [<-|[]]; vm_compute; auto|].
  split; [intros v x [X|[]]; injection X as <- <-; exists [1; 0]; split; [vm_compute; reflexivity|left; auto]|]. split; [exact E|].
  exists "B", (fun _ => 1). split; [vm_compute; auto|]. split; [intros [X|[]]; discriminate|]. split.
  - intros u Hu. apply omem_In. vm_compute in Hu. destruct Hu as [<-|[<-|[]]]; vm_compute; reflexivity.
  - rewrite K. intro X. assert (Y : oeqb (kernel ex_unsorted "B" (fun _ => 1)) 1 = false) by (vm_compute; reflexivity). rewrite <- X in Y. vm_compute in Y. discriminate.
Qed.
Print Assumptions C38_refuted.
Example C38_example : built ex_chain /\ distribution ex_chain /\ NoDup (keys [("B", (1 : outcome))]) /\ incl (keys [("B", (1 : outcome))]) (nodes (ngraph ex_chain)) /\
  in_domains ex_chain [("B", 1)] /\ tables_sorted ex_chain [("B", 1)] /\ do_prob ex_chain [("B", 1)] [("A", 1); ("C", 1)] = q 1 3 /\ prob ex_chain [("A", 1); ("C", 1)] = q 7 24.
Proof.
  split; [exact (proj1 ex_chain_built)|]. split; [exact (proj2 ex_chain_built)|]. split; [repeat constructor; simpl; auto|]. split; [intros u [<-|[]]; vm_compute; auto|].
  split; [intros v x [X|[]]; injection X as <- <-; eexists; split; [vm_compute; reflexivity|right; left; apply oeqb_iff; vm_compute; reflexivity]|].
  split; [|split; apply oeqb_iff; vm_compute; reflexivity].
  intros v u t [<-|[]] _ _. cbn [fst]. assert (X : dom_of (doms ex_chain) "B" = [0; 1]) by (apply olist_eqb_iff; vm_compute; reflexivity). rewrite X. repeat constructor; vm_compute; reflexivity.
Qed.

(* ---- C39 ---- *)
(* an intervention with a value outside the domain is accepted; in diagrams a value in the domain is rejected, with another
   exception, when the variable has a ready-made table *)
Theorem C39_refuted :
  (exists o n qs iv n' f, valid_order o /\ built n /\ distribution n /\ ~ in_domains n iv /\ query o (Ok tt) n qs [] iv = (n', Ok f)) /\
  (exists o m n qs c, valid_order o /\ built n /\ distribution n /\ in_domains n c /\ macid_query o m n qs c [] = (n, Err AttributeError)).
Proof.
  split.
  - assert (X : match snd (query (fun _ l => l) (Ok tt) ex_apart ["A"] [] [("A", q 2 1)]) with Ok _ => true | _ => false end = true) by (vm_compute; reflexivity).
    destruct (query (fun _ l => l) (Ok tt) ex_apart ["A"] [] [("A", q 2 1)]) as [n' [f|]] eqn:E; [|discriminate].
    exists (fun _ l => l), ex_apart, ["A"], [("A", q 2 1)], n', f. split; [apply id_order|]. split; [exact (proj1 ex_apart_built)|]. split; [exact (proj2 ex_apart_built)|].
    split; [|exact E]. intro D. destruct (D "A" (q 2 1)) as (d & L & Hx); [left; auto|]. unfold has_domain in L.
    assert (Y : match lookup "A" (doms ex_apart) with Some d => omem (q 2 1) d | None => false end = false) by (vm_compute; reflexivity).
    rewrite L in Y. apply omem_In in Hx. congruence.
  - exists (fun _ l => l), (diagram_of (ngraph ex_chain) [] []), ex_chain, ["A"], [("C", 1)]. split; [apply id_order|]. split; [exact (proj1 ex_chain_built)|]. split; [exact (proj2 ex_chain_built)|].
    split; [|unfold macid_query; assert (X : match check_domains ex_chain [("C", 1)] with Err AttributeError => true | _ => false end = true) by (vm_compute; reflexivity);
      destruct (check_domains ex_chain [("C", 1)]) as [[]|e]; [discriminate|destruct e; try discriminate; reflexivity]].
    intros v x [X|[]]; injection X as <- <-; eexists; split; [vm_compute; reflexivity|right; left; apply oeqb_iff; vm_compute; reflexivity].
Qed.
Print Assumptions C39_refuted.
(* the hypotheses of the theorems about accepted and rejected values *)
Example C39_example : in_domains ex_chain [("A", 1)] /\ in_domains ex_chain [("B", 1)] /\ (forall a b, In a ["C"] -> In b ["C"] -> joined (ngraph ex_chain) ["B"] a b) /\
  (exists d, has_domain ex_chain "A" d) /\ ~ in_domains ex_chain [("A", q 2 1)] /\ (exists t, has_table ex_chain "A" t /\ has_domain ex_chain "A" (tdom t) /\ tkind t <> KTab).
Proof.
  split; [intros v x [X|[]]; injection X as <- <-; eexists; split; [vm_compute; reflexivity|right; left; apply oeqb_iff; vm_compute; reflexivity]|].
  split; [intros v x [X|[]]; injection X as <- <-; eexists; split; [vm_compute; reflexivity|right; left; apply oeqb_iff; vm_compute; reflexivity]|].
  split; [intros a b [<-|[]] [<-|[]]; constructor|]. split; [eexists; vm_compute; reflexivity|]. split.
  - intro D. destruct (D "A" (q 2 1)) as (d & L & Hx); [left; auto|]. unfold has_domain in L.
    assert (Y : match lookup "A" (doms ex_chain) with Some d => omem (q 2 1) d | None => false end = false) by (vm_compute; reflexivity).
    rewrite L in Y. apply omem_In in Hx. congruence.
  - assert (X : match cpd_of ex_chain "A" with Some t => match lookup "A" (doms ex_chain) with Some d => olist_eqb d (tdom t) && match tkind t with KTab => false | _ => true end | None => false end | None => false end = true) by (vm_compute; reflexivity).
    destruct (cpd_of ex_chain "A") as [t|] eqn:E; [|discriminate]. exists t. split; [apply single_cpd; [exact (proj1 (proj2 (proj2 ex_chain_built)))|exact E]|].
    unfold has_domain. destruct (lookup "A" (doms ex_chain)) as [d|]; [|discriminate]. apply andb_true_iff in X. destruct X as [X1 X2]. apply olist_eqb_iff in X1. subst d. split; auto. intro K. rewrite K in X2. discriminate.
Qed.

(* ---- C40 ---- *)
Definition ex_cid_graph : graph := mkG ["X"; "D"; "U"] [("X", "U"); ("D", "U")].
Definition ex_cid : macid := diagram_of ex_cid_graph [("0", ["D"])] [("0", ["U"])].
Definition same_u : rel := tab_of "U" [0; 1] ["X"; "D"] [2%nat; 2%nat] [[0; 1]; [1; 0]; [1; 0]; [0; 1]].
Definition ex_unset : net := made ex_cid_graph [("X", RDist coin); ("D", RDom [0; 1]); ("U", same_u)].
Definition ex_set : net := made ex_cid_graph [("X", RDist coin); ("D", RDist [(0, Some (q 1 3)); (1, Some (q 2 3))]); ("U", same_u)].
Lemma ex_unset_built : built ex_unset /\ distribution ex_unset.
Proof.
  split; [apply made_built|apply dist_check_ok]; [vm_compute; reflexivity| |vm_compute; reflexivity|vm_compute; reflexivity].
  rels_ok; [split; [exact I|exact coin_dict]|split; exact I|apply tab_admissible].
Qed.
Lemma ex_set_dist : distribution ex_set.
Proof. apply dist_check_ok. vm_compute. reflexivity. Qed.
Lemma ex_cid_tables : exists tX tD tD' tU, cpds ex_unset = [tX; tD; tU] /\ cpds ex_set = [tX; tD'; tU] /\ tvar tX = "X" /\ tvar tD = "D" /\ tvar tD' = "D" /\ tvar tU = "U" /\ tkind tD = KDec.
Proof. eexists. eexists. eexists. eexists. split; [vm_compute; reflexivity|]. split; [vm_compute; reflexivity|]. repeat split. Qed.
Lemma ex_cid_doms : doms ex_unset = doms ex_set.
Proof. vm_compute. reflexivity. Qed.
Opaque ex_unset ex_set.
(* the docstrings say that the entries are P(Q, c); they are not *)
Lemma entry_differs : forall o n qs c, match query o (Ok tt) n qs c [] with (_, Ok f) => existsb (fun e => negb (oeqb (snd e) (do_prob n [] (combine (fvars f) (fst e) ++ c)))) (fentries f) | _ => false end = true ->
  exists n' f xs p, query o (Ok tt) n qs c [] = (n', Ok f) /\ In (xs, p) (fentries f) /\ p <> do_prob n [] (combine (fvars f) xs ++ c).
Proof.
  intros o n qs c H. destruct (query o (Ok tt) n qs c []) as [n' [f|e]]; [|discriminate]. apply existsb_exists in H. destruct H as ([xs p] & Hi & Hn). cbn [fst snd] in Hn. exists n', f, xs, p. split; auto. split; auto.
  destruct (oeqb_spec p (do_prob n [] (combine (fvars f) xs ++ c))); [discriminate|auto].
Qed.
Lemma ex_chain_differs : exists n' f xs p, query (fun _ l => l) (Ok tt) ex_chain ["C"] [("B", 1)] [] = (n', Ok f) /\ In (xs, p) (fentries f) /\ p <> do_prob ex_chain [] (combine (fvars f) xs ++ [("B", 1)]).
Proof. apply entry_differs. vm_compute. reflexivity. Qed.
Lemma ex_chain_edge : edge (ngraph ex_chain) "B" "C".
Proof. vm_compute. auto. Qed.
Theorem C55_documented_refuted : exists o n qs c n' f xs p, valid_order o /\ built n /\ distribution n /\ query o (Ok tt) n qs c [] = (n', Ok f) /\
  (forall v, In v (keys c) -> exists q, In q qs /\ joined (ngraph n) [] q v) /\ In (xs, p) (fentries f) /\ p <> do_prob n [] (combine (fvars f) xs ++ c).
Proof.
  destruct ex_chain_differs as (n' & f & xs & p & Q & Hi & Hn).
  exists (fun _ l => l), ex_chain, ["C"], [("B", 1)], n', f, xs, p. refine (conj id_order (conj (proj1 ex_chain_built) (conj (proj2 ex_chain_built) (conj Q (conj _ (conj Hi Hn)))))).
  intros v [<-|[]]. exists "C". split; [left; exact eq_refl|]. apply joined_step with "B"; [|constructor]. right. split; [exact ex_chain_edge|intros []].
Qed.
Print Assumptions C55_documented_refuted.
Example C40_example : built ex_unset /\ distribution ex_unset /\ distribution ex_set /\ no_clash (ngraph ex_unset) /\
  differ_in (fun d => In d (decisions ex_cid) /\ no_policy ex_unset d) ex_unset ex_set /\ ~ same_tables ex_unset ex_set /\
  (exists n' f, macid_query (fun _ l => l) ex_cid ex_unset ["X"] [] [] = (n', Ok f)) /\ macid_query (fun _ l => l) ex_cid ex_unset ["U"] [] [] = (ex_unset, Err ValueError) /\
  (exists n' f, macid_query (fun _ l => l) ex_cid ex_unset ["U"] [] [("D", 1)] = (n', Ok f)) /\ tables_sorted ex_unset [("D", 1)].
Proof.
  destruct ex_cid_tables as (tX & tD & tD' & tU & C1 & C2 & VX & VD & VD' & VU & KD).
  split; [exact (proj1 ex_unset_built)|]. split; [exact (proj2 ex_unset_built)|]. split; [exact ex_set_dist|]. split; [apply clash_free_ok; vm_compute; reflexivity|]. split; [|split].
  - split; [vm_compute; reflexivity|]. split; [intros v d; unfold has_domain; rewrite ex_cid_doms; tauto|].
    intros v t Hv. unfold has_table. rewrite C1, C2. assert (Nd : v <> "D").
    { intros ->. apply Hv. split; [vm_compute; auto|]. intros t' [H1 H2]. rewrite C1 in H1. destruct H1 as [<-|[<-|[<-|[]]]]; congruence. }
    simpl. split; intros [H1 H2]; (split; [|exact H2]); destruct H1 as [H1|[H1|[H1|[]]]]; auto; exfalso; apply Nd; congruence.
  - intro Sm. assert (H : has_table ex_set "D" tD) by (apply Sm; split; [rewrite C1; right; left; auto|auto]). destruct H as [H _]. rewrite C2 in H.
    assert (K : forallb (fun t => match tkind t with KDec => false | _ => true end) (cpds ex_set) = true) by (vm_compute; reflexivity). rewrite C2, forallb_forall in K. specialize (K tD H). rewrite KD in K. discriminate.
  - split; [|split; [|split]].
    + assert (X : match snd (macid_query (fun _ l => l) ex_cid ex_unset ["X"] [] []) with Ok _ => true | _ => false end = true) by (vm_compute; reflexivity).
      destruct (macid_query (fun _ l => l) ex_cid ex_unset ["X"] [] []) as [n' [f|]]; [|discriminate]. eauto.
    + unfold macid_query. assert (X : match _ <- check_domains ex_unset [] ;; check_policies ex_cid ex_unset ["U"] [] [] with Err ValueError => true | _ => false end = true) by (vm_compute; reflexivity).
      destruct (_ <- check_domains ex_unset [] ;; check_policies ex_cid ex_unset ["U"] [] []) as [[]|e]; [discriminate|destruct e; try discriminate; reflexivity].
    + assert (X : match snd (macid_query (fun _ l => l) ex_cid ex_unset ["U"] [] [("D", 1)]) with Ok _ => true | _ => false end = true) by (vm_compute; reflexivity).
      destruct (macid_query (fun _ l => l) ex_cid ex_unset ["U"] [] [("D", 1)]) as [n' [f|]]; [|discriminate]. eauto.
    + intros v u t [<-|[]] _ _. cbn [fst]. assert (X : dom_of (doms ex_unset) "D" = [0; 1]) by (apply olist_eqb_iff; vm_compute; reflexivity). rewrite X. repeat constructor; vm_compute; reflexivity.
Qed.

(* ---- C41 ---- *)
Definition ex_skew : net := made (mkG ["A"; "B"] [("A", "B")])
  [("A", RDist [(0, Some (q 3 4)); (1, Some (q 1 4))]);
   ("B", tab_of "B" [0; q 2 1; q 3 1] ["A"] [2%nat] [[q 11 12; q 1 12; 0]; [q 1 4; q 3 4; 0]])].
Lemma ex_skew_built : built ex_skew /\ distribution ex_skew.
Proof.
  split; [apply made_built|apply dist_check_ok]; [vm_compute; reflexivity| |vm_compute; reflexivity|vm_compute; reflexivity].
  rels_ok; [split; [exact I|apply nodupo_ok; vm_compute; reflexivity]|apply tab_admissible].
Qed.
Opaque ex_skew.
(* the order is the engine's, and a variable asked for twice is given once *)
Theorem C41_refuted :
  (exists o n qs n' l, valid_order o /\ built n /\ distribution n /\ NoDup qs /\ expected_value o (Ok tt) n qs [] [] = (n', Ok l) /\ l <> map (expectation n [] []) qs) /\
  (exists o n qs n' l, valid_order o /\ built n /\ distribution n /\ expected_value o (Ok tt) n qs [] [] = (n', Ok l) /\ length l <> length qs).
Proof.
  split.
  - assert (X : match snd (expected_value (fun _ l => rev l) (Ok tt) ex_skew ["A"; "B"] [] []) with Ok l => negb (olist_eqb l (map (expectation ex_skew [] []) ["A"; "B"])) | _ => false end = true) by (vm_compute; reflexivity).
    destruct (expected_value (fun _ l => rev l) (Ok tt) ex_skew ["A"; "B"] [] []) as [n' [l|]] eqn:E; [|discriminate]. exists (fun _ l => rev l), ex_skew, ["A"; "B"], n', l.
    split; [apply rev_order|]. split; [exact (proj1 ex_skew_built)|]. split; [exact (proj2 ex_skew_built)|]. split; [apply nodupb_iff; reflexivity|]. split; [exact E|].
    intros ->. cbn [snd] in X. rewrite (proj2 (olist_eqb_iff _ _) eq_refl) in X. discriminate X.
  - assert (X : match snd (expected_value (fun _ l => l) (Ok tt) ex_skew ["A"; "A"] [] []) with Ok l => Nat.eqb (length l) 1 | _ => false end = true) by (vm_compute; reflexivity).
    destruct (expected_value (fun _ l => l) (Ok tt) ex_skew ["A"; "A"] [] []) as [n' [l|]] eqn:E; [|discriminate]. exists (fun _ l => l), ex_skew, ["A"; "A"], n', l.
    split; [apply id_order|]. split; [exact (proj1 ex_skew_built)|]. split; [exact (proj2 ex_skew_built)|]. split; [exact E|]. apply Nat.eqb_eq in X. rewrite X. discriminate.
Qed.
Print Assumptions C41_refuted.
(* a context of positive probability, and one of probability zero *)
Example C41_example : built ex_skew /\ distribution ex_skew /\ do_prob ex_skew [] [("B", q 2 1)] = q 1 4 /\ expectation ex_skew [] [("B", q 2 1)] "A" = q 3 4 /\
  in_domains ex_skew [("B", q 3 1)] /\ do_prob ex_skew [] [("B", q 3 1)] = 0.
Proof.
  split; [exact (proj1 ex_skew_built)|]. split; [exact (proj2 ex_skew_built)|]. split; [apply oeqb_iff; vm_compute; reflexivity|]. split; [apply oeqb_iff; vm_compute; reflexivity|].
  split; [|apply oeqb_iff; vm_compute; reflexivity]. intros v x [X|[]]; injection X as <- <-; eexists; split; [vm_compute; reflexivity|]. apply omem_In. vm_compute. reflexivity.
Qed.
