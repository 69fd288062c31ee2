(* Lemmas about the search for optimal pure policies: the copy it works on, and the random rules. *)
From Coq Require Import String List Bool Arith QArith Qcanon Lia Permutation Setoid.
Import ListNotations.
From Verif Require Import MBase MGraph MMacid MCpd MNet MProb MQuery MPolicy Spec SpecM SpecC SpecN SpecQ SpecPol LBase LGraph LRoles LCopy LMech LActive LTrim LQc LCpd LNet LSum LBayes LSep LQuery LDo LInter LFactor LEdit LBuilt LTotal LCheckN LEffects PMacid PQuery LPolicy LValue LQcArith LSearch LLike.
Local Open Scope Qc_scope.

(* ---- random rules for the decisions that do not matter ---- *)
Lemma same_doms_dom : forall n n', (forall u, lookup u (doms n') = lookup u (doms n)) -> forall v, dom_of (doms n') v = dom_of (doms n) v.
Proof. intros n n' H v. unfold dom_of. rewrite H. auto. Qed.
Lemma random_like : forall n d n', built n -> distribution n -> unset_uniform n -> impute_random_decision n d = (n', None) -> (exists t, cpd_of n d = Some t /\ tkind t = KDec) ->
  like n n' /\ unset_uniform n' /\ ngraph n' = ngraph n /\ (forall u, u <> d -> cpd_of n' u = cpd_of n u) /\ cpd_of n' d = Some (uni_tab n d).
Proof.
  intros n d n' B Hd U E (t0 & T0 & K0). assert (Hn := random_inv n d n' Hd B E). destruct (random_set n d B Hd Hn) as (n2 & E2 & B' & Hd' & G & Dm & Cp & Rl). rewrite E in E2. injection E2 as <-.
  assert (Ed := same_doms_dom n n' Dm). assert (Wi : forall a, within n' a <-> within n a) by (intro a; unfold within; rewrite G; split; intros H v Hv; specialize (H v Hv); rewrite Ed in *; auto).
  split; [|split; [|split; [auto|split]]].
  - constructor; auto; try (rewrite G; auto; tauto).
    intros v a Hv Wa. destruct (dist_table n v Hd Hv) as (t & T & Ok1). unfold kernel. rewrite Cp. destruct (String.eqb_spec v d) as [->|Hne].
    + rewrite T0. rewrite (entry_doms (doms n') (doms n)) by auto. unfold uni_tab. rewrite col_entry by auto. symmetry. apply U; auto. split; [apply find_tab_in in T0; tauto|apply find_tab_in in T0; tauto].
    + rewrite T. apply entry_doms; auto.
  - intros v t a [T1 T2] K Wa. assert (S' : single_tables n') by apply Hd'. assert (T : cpd_of n' v = Some t) by (apply (single_cpd n' v t S'); split; auto). rewrite Cp in T. destruct (String.eqb_spec v d) as [->|Hne].
    + injection T as <-. discriminate.
    + rewrite Ed, (entry_doms (doms n') (doms n)) by auto. apply U; auto; [apply single_cpd; auto; apply Hd|apply Wi; auto].
  - intros u Hu. rewrite Cp. destruct (String.eqb_spec u d); [congruence|auto].
  - rewrite Cp, String.eqb_refl. auto.
Qed.
Lemma irrelevant_like : forall m ds n d n', built n -> distribution n -> unset_uniform n -> impute_irrelevant m ds n d = (n', None) ->
  like n n' /\ unset_uniform n' /\ ngraph n' = ngraph n /\ (forall u, cpd_of n' u = cpd_of n u \/ exists t, cpd_of n' u = Some t /\ tkind t = KStoch) /\
  (In d (nodes (ngraph n)) /\ (has_policy n' d = true \/ In d ds \/ is_s_reachable (with_graph m (ngraph n)) ds d = Ok true)).
Proof.
  intros m ds n d n' B Hd U E. unfold impute_irrelevant in E. unfold get_cpds in E. destruct (mem d (nodes (ngraph n))) eqn:M; [|discriminate]. apply mem_In in M. destruct (dist_table n d Hd M) as (t & T & _). rewrite T in E.
  assert (Id : like n n /\ unset_uniform n /\ ngraph n = ngraph n /\ (forall u, cpd_of n u = cpd_of n u \/ exists t0, cpd_of n u = Some t0 /\ tkind t0 = KStoch)) by (split; [apply like_self; auto|auto]).
  assert (Hp : match tkind t with KDec => false | _ => true end = has_policy n d) by (unfold has_policy; rewrite T; auto).
  destruct (tkind t) eqn:K; try (injection E as <-; destruct Id as (I1 & I2 & I3 & I4); repeat (split; [assumption|]); left; auto; fail).
  destruct (is_s_reachable (with_graph m (ngraph n)) ds d) as [b|e] eqn:Es; [|discriminate]. destruct (negb b && negb (mem d ds)) eqn:C.
  - assert (Kt : exists t0, cpd_of n d = Some t0 /\ tkind t0 = KDec) by eauto. destruct (random_like n d n' B Hd U E Kt) as (L & U' & G & Co & Cd). repeat (split; [assumption|]). split; [|split; [assumption|]].
    + intro u. destruct (String.string_dec u d) as [->|Hu]; [right; eauto|left; auto].
    + left. unfold has_policy. rewrite Cd. auto.
  - injection E as <-. destruct Id as (I1 & I2 & I3 & I4). repeat (split; [assumption|]). right. destruct b; auto. left. apply mem_In. destruct (mem d ds); auto.
Qed.
Lemma irrelevant_loop : forall m ds l n n', built n -> distribution n -> unset_uniform n -> loop_net (impute_irrelevant m ds) n l = (n', None) ->
  like n n' /\ ngraph n' = ngraph n /\ (forall u, cpd_of n' u = cpd_of n u \/ exists t, cpd_of n' u = Some t /\ tkind t = KStoch) /\
  (forall d, In d l -> In d (nodes (ngraph n)) /\ (has_policy n' d = true \/ In d ds \/ is_s_reachable (with_graph m (ngraph n)) ds d = Ok true)).
Proof.
  intros m ds l. induction l as [|d l IH]; intros n n' B Hd U E; cbn [loop_net] in E.
  - injection E as <-. split; [apply like_self; auto|]. split; auto. split; auto. intros d [].
  - destruct (impute_irrelevant m ds n d) as [n1 [e|]] eqn:E1; [discriminate|]. destruct (irrelevant_like m ds n d n1 B Hd U E1) as (L1 & U1 & G1 & C1 & D1).
    destruct (IH n1 n' (l_built _ _ L1) (l_dist _ _ L1) U1 E) as (L2 & G2 & C2 & D2). split; [apply (like_trans n n1); auto|]. split; [congruence|]. split.
    + intro u. destruct (C2 u) as [->|X]; auto.
    + intros x [<-|Hx]; [|rewrite G1 in D2; auto]. destruct D1 as [D0 D1]. split; auto. destruct D1 as [D1|[D1|D1]]; auto. left. unfold has_policy in *. destruct (C2 d) as [->|(t & -> & ->)]; auto.
Qed.
(* ---- the roles of the copy ---- *)
Lemma with_graph_eq : forall m g, mgraph m = g -> with_graph m g = m.
Proof. intros [g ad au da ua] g' <-. reflexivity. Qed.
Lemma copy_complete : forall m c, valid m -> copy_without_cpds m = Ok c -> decisions_complete m.
Proof.
  intros m c V E a Ha. destruct (mem a (keys (agent_decisions m))) eqn:M; [apply mem_In; auto|]. exfalso. apply mem_nIn in M.
  assert (X : copy_without_cpds m = Err KeyError) by (apply C14_copy_raises; auto; intro D; apply M, D; auto). congruence.
Qed.
Lemma utilities_nodup : forall m a us, consistent m -> lookup a (agent_utilities m) = Some us -> NoDup us.
Proof. intros m a us (_ & _ & _ & _ & N & _) L. apply (N a us). right. apply lookup_In; auto. Qed.
Lemma listed_utility : forall m a us u, consistent m -> lookup a (agent_utilities m) = Some us -> (In u us <-> has_role m u (RUtility a)).
Proof.
  intros m a us u C L. unfold has_role. rewrite listed_lookup by apply C. split; [eauto|]. intros (l & L' & H). congruence.
Qed.
Lemma copy_utilities : forall m c a us us', valid m -> copy_without_cpds m = Ok c -> lookup a (agent_utilities m) = Some us -> lookup a (agent_utilities c) = Some us' -> Permutation us us'.
Proof.
  intros m c a us us' V E L L'. destruct (C14_copy m V (copy_complete m c V E)) as (c' & E' & Cc & _ & _ & R). rewrite E in E'. injection E' as <-. assert (Cm : consistent m) by apply V.
  apply NoDup_Permutation; [exact (utilities_nodup m a us Cm L)|exact (utilities_nodup c a us' Cc L')|]. intro u. rewrite (listed_utility m a us u Cm L), (listed_utility c a us' u Cc L'), R. split; [left; auto|]. intros [[H _]|[H _]]; auto. discriminate.
Qed.
Lemma copy_no_utilities : forall m c a us', valid m -> copy_without_cpds m = Ok c -> lookup a (agent_utilities m) = None -> lookup a (agent_utilities c) = Some us' -> us' = [].
Proof.
  intros m c a us' V E L L'. destruct (C14_copy m V (copy_complete m c V E)) as (c' & E' & Cc & _ & _ & R). rewrite E in E'. injection E' as <-. destruct us' as [|u us']; auto. exfalso.
  assert (H : has_role c u (RUtility a)) by (apply (listed_utility c a (u :: us') u Cc L'); left; auto). apply R in H. destruct H as [[H _]|[H _]]; [|discriminate]. unfold has_role in H. rewrite listed_lookup in H by apply V. destruct H as (l & H & _). congruence.
Qed.
Lemma value_us : forall n ds b us us', Permutation us us' -> value n ds b us = value n ds b us'.
Proof. intros n ds b us us' P. unfold value. apply total_ext. intro a. f_equal. change (fold_right Qcplus 0) with qsum. apply qsum_perm. apply Permutation_map; auto. Qed.
(* ---- rules are determined by what they do ---- *)
Lemma some_within : forall n, distribution n -> exists a, within n a.
Proof.
  intros n Hd. exists (fun v => match dom_of (doms n) v with x :: _ => x | [] => 0 end). intros v Hv. destruct (dist_lookup n v Hd Hv) as [_ Ne]. destruct (dom_of (doms n) v); [congruence|left; auto].
Qed.
Lemma context_asg : forall n d pv x, distribution n -> In d (nodes (ngraph n)) -> context_of (doms n) (parents (ngraph n) d) pv -> In x (dom_of (doms n) d) -> exists a, within n a /\ ctx a (parents (ngraph n) d) = pv /\ a d = x.
Proof.
  intros n d pv x Hd Hn [E C] Hx. destruct (some_within n Hd) as [a0 W0]. assert (Np : NoDup (parents (ngraph n) d)) by (apply nodup_parents; apply Hd).
  assert (Nd : ~ In d (parents (ngraph n) d)). { intro K. apply in_parents in K. exact (no_self_edge (ngraph n) d (proj2 (proj1 Hd)) K). }
  exists (fun v => if String.eqb v d then x else match lookup v pv with Some y => y | None => a0 v end). split; [|split].
  - intros v Hv. destruct (String.eqb_spec v d) as [->|Ne]; auto. destruct (lookup v pv) as [y|] eqn:L; [|apply W0; auto]. apply lookup_In in L. destruct (C v y L) as (dm & Ld & Hy). unfold dom_of. rewrite Ld. auto.
  - unfold ctx. rewrite <- E in Np, Nd |- *. clear - Np Nd. induction pv as [|[p y] pv IH]; cbn [map fst lookup] in *; auto. inversion Np as [|? ? N1 N2]; subst. f_equal.
    + f_equal. destruct (String.eqb_spec p d) as [->|]; [exfalso; apply Nd; left; auto|]. rewrite String.eqb_refl. auto.
    + etransitivity; [|apply IH; [exact N2|intro K; apply Nd; right; exact K]]. apply map_ext_in. intros q Hq. f_equal. destruct (String.eqb_spec q d) as [->|]; [exfalso; apply Nd; right; auto|]. destruct (String.eqb_spec q p) as [->|]; [contradiction|auto].
  - rewrite String.eqb_refl. auto.
Qed.
Lemma rule_unique : forall n d t t', distribution n -> In d (nodes (ngraph n)) -> rule n d t -> rule n d t' -> (forall a, within n a -> entry (doms n) t a = entry (doms n) t' a) -> t = t'.
Proof.
  intros n d t t' Hd Hn R R' E. apply rule_det in R; auto. apply rule_det in R'; auto. destruct R as (h & C & ->). destruct R' as (h' & C' & ->). unfold det_tab. f_equal. apply map_ext_in. intros pv Hp.
  apply in_contexts' in Hp; [|apply dist_ready; auto]. f_equal. destruct (context_asg n d pv (h pv) Hd Hn Hp (C pv Hp)) as (a & Wa & Ca & Ea). specialize (E a Wa).
  rewrite (rule_acts n d _ h a Hd Hn Wa eq_refl), (rule_acts n d _ h' a Hd Hn Wa eq_refl), Ca, Ea in E. destruct (Qc_eq_dec (h pv) (h pv)); [|congruence]. destruct (Qc_eq_dec (h pv) (h' pv)); auto. discriminate.
Qed.
Lemma rules_unique : forall n ds p p', distribution n -> incl ds (nodes (ngraph n)) -> NoDup ds -> Forall2 (rule n) ds p -> Forall2 (rule n) ds p' -> forall b, acts n ds p b -> acts n ds p' b -> p = p'.
Proof.
  intros n ds p p' Hd I N F. revert p'. induction F as [|d t ds p R F IH]; intros p' F' b [A1 A2] [B1 B2]; inversion F' as [|? t' ? p1 R' F1]; subst; auto. inversion N; subst. f_equal.
  - apply (rule_unique n d); auto; [apply I; left; auto|]. intros a Wa. rewrite A2, B2 by (auto; left; auto). rewrite (rule_var _ _ _ R), (rule_var _ _ _ R'). auto.
  - apply (IH ltac:(intros x Hx; apply I; right; auto) ltac:(auto) p1 F1 b).
    + split; [cbn [map] in A1; congruence|]. intros; apply A2; auto. right; auto.
    + split; [cbn [map] in B1; congruence|]. intros; apply B2; auto. right; auto.
Qed.

(* ---- the search succeeds ---- *)
Lemma check_policies_ok : forall m n qs, wf_dag (ngraph n) -> no_clash (ngraph n) -> (forall d, In d (decisions m) -> In d (nodes (ngraph n)) /\ has_policy n d = true) ->
  check_policies m n qs [] [] = Ok tt.
Proof.
  intros m n qs W C H. unfold check_policies. destruct (mechanism_graph_ok (with_graph m (ngraph n)) W C) as (h & E & (H1 & H2 & H3)). rewrite E. cbn [bind edges_into map_r concat mgraph cut_edges]. cbn [bind].
  assert (M : exists l, map_r (check_decision h n (keys (@nil (node * outcome)) ++ keys (@nil (node * outcome)))) (list_prod (decisions m) qs) = Ok l).
  { assert (X : forall d q, In (d, q) (list_prod (decisions m) qs) -> In d (decisions m)) by (intros d q K; apply in_prod_iff in K; tauto). induction (list_prod (decisions m) qs) as [|[d q] l IH]; [exists []; reflexivity|]. cbn [map_r].
    destruct IH as [l' El]; [intros; eapply X; right; eauto|]. destruct (H d (X d q (or_introl eq_refl))) as [Hd Hp]. unfold check_decision at 1. cbn [fst snd].
    destruct (is_dconnected_spec h (mec d) q (keys (@nil (node * outcome)) ++ keys (@nil (node * outcome))) H1) as (b & Eb & _); [intros ? []|apply H3; right; exists d; auto|]. rewrite Eb. cbn [bind].
    rewrite (proj2 (mem_In _ _) Hd), Hp, andb_false_r. cbn [bind]. rewrite El. cbn [bind]. eauto. }
  destruct M as [l ->]. reflexivity.
Qed.
Lemma joined_edges : forall g g' u v, (forall a b, edge g a b -> edge g' a b) -> joined g [] u v -> joined g' [] u v.
Proof. intros g g' u v H J. induction J as [u|u v w E J IH]; [constructor|]. apply (joined_step g' [] u v w); auto. destruct E as [[E K]|[E K]]; auto. Qed.
Lemma rule_kind : forall n d t, rule n d t -> tkind t = KStoch.
Proof. intros n d t (h & _ & _ & _ & _ & _ & K & _). auto. Qed.
Lemma rules_in : forall n ds p d, Forall2 (rule n) ds p -> In d ds -> exists t, In t p /\ rule n d t.
Proof. intros n ds p d F. induction F as [|x t ds p R F IH]; intros []; [subst; exists t; split; [left|]; auto|]. destruct (IH H) as (t' & K1 & K2). exists t'. split; [right|]; auto. Qed.
Lemma search_total : forall o m a us tol n ds l n' best acc, valid_order o -> distribution n -> no_clash (ngraph n) -> (forall u v, In u (nodes (ngraph n)) -> In v (nodes (ngraph n)) -> joined (ngraph n) [] u v) ->
  (forall d, In d (decisions m) -> In d (nodes (ngraph n)) /\ (In d ds \/ has_policy n d = true)) -> 0 <= tol ->
  variant n ds n' -> nodes (ngraph n') = nodes (ngraph n) -> NoDup ds -> incl ds (nodes (ngraph n)) ->
  (forall p, In p l -> Forall2 (rule n) ds p) -> us <> [] -> incl us (nodes (ngraph n)) -> NoDup us -> lookup a (agent_utilities m) = Some us ->
  exists r, search o m a tol n' best acc l = Ok r.
Proof.
  intros o m a us tol n ds l. induction l as [|p l IH]; intros n' best acc O Hd NC J P T V Nn Nds Ids R Nu Iu Nus L; [exists acc; reflexivity|]. cbn [search].
  assert (Rp := R p (or_introl eq_refl)). assert (Ids' : incl ds (nodes (ngraph n'))) by (rewrite Nn; auto).
  destruct (add_policy_total n ds ds p n' Hd V (incl_refl _) Rp Ids') as [n1 E1]. rewrite E1.
  destruct (add_policy_variant n ds ds p n' n1 Hd V (incl_refl _) Nds Rp E1) as (V1 & G1 & _ & Tb & Ot).
  assert (J1 : forall u v, In u (nodes (ngraph n1)) -> In v (nodes (ngraph n1)) -> joined (ngraph n1) [] u v).
  { intros u v Hu Hv. rewrite G1, Nn in Hu, Hv. apply (joined_edges (ngraph n)); auto. intros x y K. apply (v_edges _ _ _ V1). split; auto. rewrite G1, Nn. apply (proj1 Hd) in K. tauto. }
  assert (W1 : wf_dag (ngraph n1)) by apply (v_dist _ _ _ V1).
  assert (Ck : check_policies m n1 us [] [] = Ok tt).
  { apply check_policies_ok; auto; [rewrite G1; intros x Hx; rewrite Nn in *; apply NC; auto|]. intros d K. destruct (P d K) as [Kd Kp]. rewrite G1, Nn. split; auto. destruct (in_dec String.string_dec d ds) as [I|I].
    - destruct (rules_in n ds p d Rp I) as (t & Ht & Rt). unfold has_policy. rewrite <- (rule_var _ _ _ Rt), (Tb t Ht), (rule_kind _ _ _ Rt). auto.
    - destruct Kp as [Kp|Kp]; [contradiction|]. unfold has_policy. rewrite (v_tables _ _ _ V1 d); auto. rewrite G1, Nn. auto. }
  assert (Iu1 : incl us (nodes (ngraph n1))) by (rewrite G1, Nn; auto).
  assert (Z : do_prob n1 [] [] <> 0). { rewrite do_prob_nil; [discriminate|apply (v_dist _ _ _ V1)|constructor|intros ? []|intros ? ? []]. }
  destruct (proj1 (C41_defined o (copy_roles_only m n1) n1 us [] [] O (v_built _ _ _ V1) (v_dist _ _ _ V1) (NoDup_nil _) ltac:(intros ? []) ltac:(intros ? ? []) ltac:(intros ? ? ? []) (NoDup_nil _) ltac:(intros ? ? []) ltac:(intros ? [])
     Nu Iu1 (fun q q' Hq Hq' => J1 q q' (Iu1 q Hq) (Iu1 q' Hq')) ltac:(intros ? ? []) (or_introl eq_refl)) Z) as (n2 & lv & Ev).
  assert (Eu : expected_utility o m n1 [] [] a = (n2, Ok (qsum lv))).
  { assert (X : macid_expected_value o m n1 us [] [] = expected_value o (copy_roles_only m n1) n1 us [] []) by (unfold macid_expected_value, macid_query; cbn [check_domains]; cbn [bind]; rewrite Ck; reflexivity).
    unfold expected_utility, dict_get. rewrite L. exact (f_equal (fun z : net * result (list Qc) => let '(n', r) := z in (n', l0 <- r ;; Ok (qsum l0))) (eq_trans X Ev)). }
  rewrite Eu. cbn [bind]. rewrite (proj2 (qleb_iff 0 tol) T). cbn [negb].
  destruct (utility_round o m a us n ds p n' n1 n2 _ O Hd V Nds Ids Rp L Nus E1 Eu) as (V2 & _ & Nr).
  assert (N2 : nodes (ngraph n2) = nodes (ngraph n)).
  { assert (X : n2 = n1).
    { destruct (C37_methods_partial o m n1 us [] [] W1) as (_ & _ & _ & Fr). apply (Fr a us n2 _ L Eu). intros v Hv. destruct us as [|u us']; [congruence|]. exists u. split; [left; auto|]. apply J1; auto. apply Iu1. left; auto. }
    rewrite X, G1. auto. }
  assert (Go : forall b c, exists r, search o m a tol n2 b c l = Ok r) by (intros b c; apply IH; auto; intros p' K; apply R; right; auto).
  destruct best as [b|]; auto. destruct (isclose tol (qsum lv) b); auto. destruct (negb (qleb (qsum lv) b)); auto.
Qed.

(* relevance is the same in the copy *)
Lemma descends_more : forall g g' u v, (forall a b, edge g a b -> edge g' a b) -> descends g u v -> descends g' u v.
Proof. intros g g' u v H (w & E & R). exists w. split; auto. eapply LGraph.reach_sub; eauto. Qed.
Lemma extend_acyclic : forall g w v, wf_dag g -> In v (nodes g) -> ~ In w (nodes g) -> acyclic (extend g w v).
Proof.
  intros g w v [W A] Hv Hw u (x & E & R). assert (P := pendant_extend g w v W Hv Hw).
  assert (Hx : In x (nodes g)) by (eapply pd_edge_in; eauto). apply (pd_reach _ _ _ _ _ _ P Hx) in R.
  assert (Hu : In u (nodes g)). { destruct (reach_descends _ _ _ R) as [<-|D]; auto. apply descends_last in D. destruct D as (y & _ & E'). apply W in E'. tauto. }
  apply (pd_edge_old _ _ _ _ _ _ P Hu) in E. apply (A u). exists x. auto.
Qed.
Lemma relevant_more : forall m c d v, wf_dag (mgraph m) -> wf_dag (mgraph c) -> In v (nodes (mgraph m)) -> (forall u w, edge (mgraph m) u w <-> edge (mgraph c) u w) -> nodes (mgraph m) = nodes (mgraph c) ->
  (forall n r, has_role m n r <-> has_role c n r) -> r_relevant m d v -> r_relevant c d v.
Proof.
  intros m c d v W Wc Hv E N R (a & u & w & H1 & H2 & H3 & H4 & Z & H5 & H6). exists a, u, w. split; [apply (R d (RDecision a)); auto|]. split; [apply (R u (RUtility a)); auto|]. split; [eapply descends_more; [|exact H3]; intros; apply E; auto|].
  rewrite <- N. split; auto. exists Z. split; [intro x; rewrite H5, E; tauto|]. eapply dconn_more; [| |exact H6].
  - apply extend_acyclic; auto; rewrite <- N; auto.
  - intros x y [K|K]; [left; auto|right; apply E; auto].
Qed.
