(* Networks with the same variables, domains and conditional probabilities; random rules. *)
From Coq Require Import String List Bool Arith QArith Qcanon Lia Permutation Setoid.
Import ListNotations.
From Verif Require Import MBase MGraph MMacid MCpd MNet MProb MQuery MPolicy Spec SpecM SpecC SpecN SpecQ SpecPol LBase LGraph LRoles LCopy LQc LCpd LNet LSum LBayes LSep LQuery LDo LInter LFactor LEdit LBuilt LTotal LCheckN LEffects LPolicy LValue LQcArith PQuery PCpd LSearch.
Local Open Scope Qc_scope.

Record like (n n' : net) : Prop := {
  l_built : built n';
  l_dist : distribution n';
  l_nodes : nodes (ngraph n') = nodes (ngraph n);
  l_edges : forall u v, edge (ngraph n') u v <-> edge (ngraph n) u v;
  l_dom : forall v, In v (nodes (ngraph n)) -> dom_of (doms n') v = dom_of (doms n) v;
  l_kernel : forall v a, In v (nodes (ngraph n)) -> within n a -> kernel n' v a = kernel n v a }.
Lemma like_self : forall n, built n -> distribution n -> like n n.
Proof. intros n B D. constructor; auto; tauto. Qed.
Lemma like_within : forall n n' a, like n n' -> (within n' a <-> within n a).
Proof. intros n n' a L. unfold within. rewrite (l_nodes _ _ L). split; intros H v Hv; specialize (H v Hv); [rewrite <- (l_dom _ _ L)|rewrite (l_dom _ _ L)]; auto. Qed.
Lemma like_trans : forall n n' n2, like n n' -> like n' n2 -> like n n2.
Proof.
  intros n n' n2 L M. constructor; try apply M.
  - rewrite (l_nodes _ _ M). apply L.
  - intros u v. rewrite (l_edges _ _ M). apply L.
  - intros v Hv. rewrite (l_dom _ _ M) by (rewrite (l_nodes _ _ L); auto). apply L; auto.
  - intros v a Hv W. rewrite (l_kernel _ _ M); [apply L; auto|rewrite (l_nodes _ _ L); auto|apply (like_within n); auto].
Qed.
Lemma like_copy : forall n n1, built n -> distribution n -> copy_net n = Ok n1 -> like n n1.
Proof.
  intros n n1 B Hd E. assert (Po := built_portable n B Hd). assert (T := tracks_copy n n1 Po E). constructor.
  - eapply built_copy; eauto.
  - apply (tracks_distribution n n1 [] Po Hd); auto; [constructor|intros ? ? []].
  - apply (k_nodes _ _ _ T).
  - intros u v. rewrite (k_edges _ _ _ T). cbn [keys map In]. tauto.
  - intros v Hv. apply (k_same _ _ _ T v Hv). left. intros [].
  - intros v a Hv W. rewrite (k_kernel _ _ _ T v a Hv); [reflexivity|]. intros u [->|[K _]]; [apply W; auto|]. apply W. apply (proj1 Hd) in K. tauto.
Qed.
(* ---- values, choices and rules ---- *)
Lemma like_value : forall n n' ds b us, like n n' -> value n' ds b us = value n ds b us.
Proof.
  intros n n' ds b us L. unfold value. rewrite (l_nodes _ _ L). rewrite (total_dom_perm (dom_of (doms n')) (dom_of (doms n))).
  2:{ intros v Hv. rewrite (l_dom _ _ L) by auto. apply Permutation_refl. }
  apply total_ext_in. intros a Wa _. f_equal. change (fold_right Qcmult 1) with qprod. apply qprod_ext. intros v Hv. unfold follow. destruct (in_dec String.string_dec v ds); auto. apply L; auto.
Qed.
Lemma like_choice : forall n n' ds H, like n n' -> wf_dag (ngraph n) -> incl ds (nodes (ngraph n)) -> (choice n' ds H <-> choice n ds H).
Proof.
  intros n n' ds H L W I. assert (P : forall p d, edge (ngraph n) p d -> In p (nodes (ngraph n))) by (intros p d E; apply W in E; tauto).
  split; intros C d Hd; destruct (C d Hd) as [C1 C2]; split.
  - intros a a' E. apply C1. intros p K. apply E. apply L; auto.
  - intros a E. rewrite <- (l_dom _ _ L) by auto. apply C2. intros p K. apply (l_edges _ _ L) in K. rewrite (l_dom _ _ L) by eauto. auto.
  - intros a a' E. apply C1. intros p K. apply E. apply L; auto.
  - intros a E. rewrite (l_dom _ _ L) by auto. apply C2. intros p K. rewrite <- (l_dom _ _ L) by eauto. apply E. apply L; auto.
Qed.
Lemma like_policy : forall n n' ds b, like n n' -> wf_dag (ngraph n) -> incl ds (nodes (ngraph n)) -> (policy n' ds b <-> policy n ds b).
Proof.
  intros n n' ds b L W I. assert (P : forall p d, edge (ngraph n) p d -> In p (nodes (ngraph n))) by (intros p d E; apply W in E; tauto).
  split; intros C d Hd; destruct (C d Hd) as (C1 & C2 & C3); (split; [|split; [exact C2|]]).
  - intros a a' E F. apply C1; auto. intros p K. apply F. apply L; auto.
  - intros a E. rewrite <- (l_dom _ _ L) by auto. apply C3. intros p K. apply (l_edges _ _ L) in K. rewrite (l_dom _ _ L) by eauto. auto.
  - intros a a' E F. apply C1; auto. intros p K. apply F. apply L; auto.
  - intros a E. rewrite (l_dom _ _ L) by auto. apply C3. intros p K. rewrite <- (l_dom _ _ L) by eauto. apply E. apply L; auto.
Qed.
Lemma entry_doms_in : forall ds ds' t a, dom_of ds (tvar t) = dom_of ds' (tvar t) -> (forall v, In v (tev t) -> dom_of ds v = dom_of ds' v) -> entry ds t a = entry ds' t a.
Proof.
  intros ds ds' t a Hv H. unfold entry. rewrite !states_dom, Hv. f_equal. f_equal. unfold column_no. generalize 0%nat as i. induction (tev t) as [|p l IH]; intro i; cbn [fold_left]; auto.
  rewrite IH by (intros; apply H; right; auto). rewrite !states_dom, (H p) by (left; auto). auto.
Qed.
Lemma rule_entry : forall n n' d t a, like n n' -> wf_dag (ngraph n) -> In d (nodes (ngraph n)) -> rule n' d t -> entry (doms n') t a = entry (doms n) t a.
Proof.
  intros n n' d t a L W I (h & _ & Hv & _ & He & _). apply entry_doms_in.
  - rewrite Hv. apply L; auto.
  - intros p K. rewrite He in K. apply L. rewrite <- (l_nodes _ _ L). assert (E : edge (ngraph n') p d) by (apply edge_parents; exact K). apply (l_edges _ _ L) in E. rewrite (l_nodes _ _ L). apply W in E. tauto.
Qed.
Lemma rules_entry : forall n n' ds p a t, like n n' -> wf_dag (ngraph n) -> incl ds (nodes (ngraph n)) -> Forall2 (rule n') ds p -> In t p -> entry (doms n') t a = entry (doms n) t a.
Proof.
  intros n n' ds p a t L W I F. revert I. induction F as [|d t' ds p R F IH]; intros I [].
  - subst. apply (rule_entry n n' d); auto. apply I. left; auto.
  - apply IH; auto. intros x Hx. apply I. right; auto.
Qed.
Lemma like_acts : forall n n' ds p b, like n n' -> wf_dag (ngraph n) -> incl ds (nodes (ngraph n)) -> Forall2 (rule n') ds p -> (acts n' ds p b <-> acts n ds p b).
Proof.
  intros n n' ds p b L W I F. split; intros [A1 A2]; split; auto; intros t a Ht Wa.
  - rewrite <- (rules_entry n n' ds p a t L W I F Ht). apply A2; auto. apply (like_within n); auto.
  - rewrite (rules_entry n n' ds p a t L W I F Ht). apply A2; auto. apply (like_within n n'); auto.
Qed.

(* ---- tables with given columns ---- *)
Definition col_tab (n : net) (d : node) (c : list (node * outcome) -> outcome -> Qc) (k : kind) : tab :=
  mkTab d (dom_of (doms n) d) (parents (ngraph n) d) (map (fun p => length (dom_of (doms n) p)) (parents (ngraph n) d))
    (map (fun pv => map (c pv) (dom_of (doms n) d)) (contexts (doms n) (parents (ngraph n) d))) k.
Lemma col_entry : forall n d c k a, distribution n -> In d (nodes (ngraph n)) -> within n a -> entry (doms n) (col_tab n d c k) a = c (ctx a (parents (ngraph n) d)) (a d).
Proof.
  intros n d c k a Hd Hn Wa. assert (R := dist_ready n d Hd). assert (Hp : forall p, In p (parents (ngraph n) d) -> In (a p) (dom_of (doms n) p)) by (intros p K; apply in_parents in K; apply (proj1 (proj1 Hd)) in K; apply Wa; tauto).
  assert (C := ctx_context (doms n) a (parents (ngraph n) d) R Hp). unfold entry, col_tab. cbn [tvar tdom tev tcols].
  rewrite name_pos, states_dom, column_context. change (map (fun p => (p, a p)) (parents (ngraph n) d)) with (ctx a (parents (ngraph n) d)).
  destruct (context_at (doms n) (parents (ngraph n) d) _ C) as [I1 I2].
  assert (E : nth_error (map (fun pv => map (c pv) (dom_of (doms n) d)) (contexts (doms n) (parents (ngraph n) d))) (context_index (doms n) (ctx a (parents (ngraph n) d))) = Some (map (c (ctx a (parents (ngraph n) d))) (dom_of (doms n) d))) by exact (map_nth_error _ _ _ I2).
  rewrite (nth_error_nth _ _ [] E). assert (P := pos_nth _ _ (Wa d Hn)).
  rewrite (nth_error_nth _ _ 0 (map_nth_error (c (ctx a (parents (ngraph n) d))) _ _ P)). reflexivity.
Qed.
Lemma col_ok : forall n d c k, distribution n -> In d (nodes (ngraph n)) -> (forall pv, context_of (doms n) (parents (ngraph n) d) pv -> (forall x, In x (dom_of (doms n) d) -> 0 <= c pv x) /\ qsum (map (c pv) (dom_of (doms n) d)) = 1) ->
  table_ok n d (col_tab n d c k).
Proof.
  intros n d c k Hd Hn H. assert (R := dist_ready n d Hd). constructor; auto.
  - unfold exact_table, col_tab. cbn [tvar tdom tev tcards tcols]. split; [apply nodup_parents; apply Hd|]. split; [apply dom_nodup; auto|]. split; [apply map_length|]. split.
    + rewrite map_length, contexts_len. symmetry. apply prod_cards.
    + intros col Hc. apply in_map_iff in Hc. destruct Hc as (pv & <- & Hp). apply in_contexts' in Hp; auto. destruct (H pv Hp) as [H1 H2]. split; [apply map_length|]. split; auto.
      intros x Hx. apply in_map_iff in Hx. destruct Hx as (y & <- & Hy). auto.
  - intro p. cbn [col_tab tev]. apply in_parents.
Qed.
Lemma open_of : forall n d, distribution n -> In d (nodes (ngraph n)) -> open_decision n d.
Proof.
  intros n d Hd K. assert (T : forall v, In v (nodes (ngraph n)) -> exists t, has_table n v t /\ has_domain n v (tdom t) /\ NoDup (tdom t) /\ tdom t <> []).
  { intros v Hv. assert (Ne := dist_inhabited n Hd v Hv). destruct Hd as (W & S & E & F). destruct (F v Hv) as (t & H1 & H2 & H3 & H4). exists t. split; auto. split; auto.
    split; [apply (E v t H1)|]. intro K'. apply Ne. unfold dom_of. unfold has_domain in H2. rewrite H2. auto. }
  split; auto. split.
  - destruct (T d K) as (t & _ & H1 & H2 & _). eauto.
  - intros p E. apply T. apply (proj1 Hd) in E. tauto.
Qed.
Lemma dist_tabled : forall n d, distribution n -> In d (nodes (ngraph n)) -> tabled n (parents (ngraph n) d).
Proof. intros n d Hd Hn. apply (open_tabled n d); [apply Hd|apply Hd|apply open_of; auto]. Qed.
Lemma exact_column : forall l, (forall q, In q l -> 0 <= q) -> qsum l = 1 -> prob_column l.
Proof.
  intros l H S. split.
  - intros q Hq. split; auto. rewrite <- S. clear S. induction l as [|x l IH]; [destruct Hq|]. change (qsum (x :: l)) with (x + qsum l).
    assert (N : 0 <= qsum l). { clear - H. induction l as [|y l IH]; [discriminate|]. change (qsum (y :: l)) with (y + qsum l). apply Qc_add_nonneg; [apply H; right; left; auto|]. apply IH. intros q [<-|Hq]; apply H; [left|right; right]; auto. }
    destruct Hq as [<-|Hq]; [qclra|]. assert (q <= qsum l) by (apply IH; auto; intros; apply H; right; auto). assert (0 <= x) by (apply H; left; auto). qclra.
  - change (fold_right Qcplus 0 l) with (qsum l). rewrite S. split; discriminate.
Qed.
Lemma forced_col : forall n d f (h : list (node * outcome) -> dist) k, distribution n -> In d (nodes (ngraph n)) ->
  (forall pv, context_of (doms n) (parents (ngraph n) d) pv -> stochastic_function f pv = Ok (h pv) /\ incl (map fst (h pv)) (dom_of (doms n) d) /\ prob_column (map (complete (dom_of (doms n) d) (h pv)) (dom_of (doms n) d))) ->
  init_table (ngraph n) (doms n) (cards_of n) d f (dom_of (doms n) d) k = Ok (col_tab n d (fun pv => complete (dom_of (doms n) d) (h pv)) k).
Proof.
  intros n d f h k Hd Hn H. unfold col_tab. apply forced_table; auto.
  - apply dist_ready; auto.
  - apply tabled_cards, dist_tabled; auto.
  - apply dom_nodup; auto.
  - apply (dist_lookup n d Hd Hn).
  - apply count_pos. intros p K. apply in_parents in K. apply (proj1 (proj1 Hd)) in K. apply (dist_lookup n p Hd); tauto.
Qed.
(* ---- the uniform rule ---- *)
Definition even (l : list outcome) : Qc := 1 / Qc_of_nat (length l).
Lemma even_pos : forall l, l <> [] -> 0 < even l.
Proof.
  intros l Ne. assert (Ln : (0 < length l)%nat) by (destruct l; [congruence|simpl; lia]). assert (P := Qc_of_nat_pos _ Ln). assert (Nz := Qc_of_nat_nz _ Ln).
  destruct (Qclt_le_dec 0 (even l)) as [H|H]; auto. exfalso. assert (K : even l * Qc_of_nat (length l) <= 0 * Qc_of_nat (length l)) by (apply Qcmult_le_compat_r; auto; apply Qclt_le_weak; auto).
  replace (even l * Qc_of_nat (length l)) with 1 in K by (unfold even; field; auto). replace (0 * Qc_of_nat (length l)) with 0 in K by ring. apply K. reflexivity.
Qed.
Lemma even_sum : forall (l : list outcome), l <> [] -> qsum (map (fun _ => even l) l) = 1.
Proof. intros l Ne. rewrite qsum_const. unfold even. field. apply Qc_of_nat_nz. destruct l; [congruence|simpl; lia]. Qed.
Definition uni_tab (n : net) (d : node) : tab := col_tab n d (fun _ _ => even (dom_of (doms n) d)) KStoch.
Lemma uni_ok : forall n d, distribution n -> In d (nodes (ngraph n)) -> table_ok n d (uni_tab n d).
Proof.
  intros n d Hd Hn. destruct (dist_lookup n d Hd Hn) as [_ Ne]. apply col_ok; auto. intros pv _. split; [intros x _; apply Qclt_le_weak, even_pos; auto|apply even_sum; auto].
Qed.
Lemma random_table : forall n d, distribution n -> In d (nodes (ngraph n)) -> init_table (ngraph n) (doms n) (cards_of n) d (const_fn (discrete_uniform (dom_of (doms n) d))) (dom_of (doms n) d) KStoch = Ok (uni_tab n d).
Proof.
  intros n d Hd Hn. destruct (dist_lookup n d Hd Hn) as [_ Ne]. assert (N := dom_nodup n d Hd Hn). set (dom := dom_of (doms n) d) in *. assert (Eq := uniform_eq dom N). change (1 / Qc_of_nat (length dom)) with (even dom) in Eq.
  assert (Fst : map fst (discrete_uniform dom) = dom) by (rewrite Eq, map_map; simpl; apply map_id).
  assert (D : is_dict (discrete_uniform dom)) by (unfold is_dict; rewrite Fst; auto).
  assert (Cm : map (complete dom (discrete_uniform dom)) dom = map (fun _ => even dom) dom).
  { apply map_ext_in. intros x Hx. apply complete_given; auto. unfold gives. rewrite Eq. apply in_map_iff. eauto. }
  unfold dom. rewrite (forced_col n d _ (fun _ => discrete_uniform dom)); auto.
  - unfold uni_tab, col_tab. fold dom. do 2 f_equal. apply map_ext. intros _. exact Cm.
  - fold dom. intros pv _. split; [reflexivity|]. split; [rewrite Fst; apply incl_refl|]. rewrite Cm. apply exact_column; [|apply even_sum; auto]. intros q Hq. apply in_map_iff in Hq. destruct Hq as (x & <- & _). apply Qclt_le_weak, even_pos; auto.
Qed.
Lemma random_set : forall n d, built n -> distribution n -> In d (nodes (ngraph n)) -> exists n', impute_random_decision n d = (n', None) /\ built n' /\ distribution n' /\ ngraph n' = ngraph n /\
  (forall u, lookup u (doms n') = lookup u (doms n)) /\ (forall u, cpd_of n' u = if String.eqb u d then Some (uni_tab n d) else cpd_of n u) /\ (forall u, lookup u (rels n') = if String.eqb u d then Some (RTab (uni_tab n d)) else lookup u (rels n)).
Proof.
  intros n d B Hd Hn. unfold impute_random_decision. destruct (dist_lookup n d Hd Hn) as [L _]. rewrite L. rewrite (random_table n d Hd Hn). apply set_same; auto. apply uni_ok; auto.
Qed.
Lemma random_inv : forall n d n', distribution n -> built n -> impute_random_decision n d = (n', None) -> In d (nodes (ngraph n)).
Proof.
  intros n d n' Hd B H. unfold impute_random_decision in H. destruct (lookup d (doms n)) as [dom|]; [|discriminate].
  destruct (init_table (ngraph n) (doms n) (cards_of n) d (const_fn (discrete_uniform dom)) dom KStoch) as [t|e] eqn:E; [|discriminate].
  unfold init_table in E. destruct (mem d (nodes (ngraph n))) eqn:M; [apply mem_In; auto|]. exfalso. revert E. unfold get_parents. rewrite M. discriminate.
Qed.

(* ---- decisions without a rule ---- *)
Lemma settled_table : forall n v t r, sound n -> cpd_of n v = Some t -> lookup v (rels n) = Some r -> table_of (ngraph n) (doms n) v r = Ok t.
Proof.
  intros n v t r S E L. assert (X := s_settled n S v r L). unfold settled in X. destruct (table_of (ngraph n) (doms n) v r) as [t'|e]; [congruence|]. destruct e; congruence || destruct X.
Qed.
Lemma init_kind : forall g ds cards v f fo k t, init_table g ds cards v f fo k = Ok t -> tkind t = k.
Proof.
  intros g ds cards v f fo k t E. unfold init_table in E. destruct (get_parents g v); cbn [bind] in E; [|discriminate].
  destruct (check_arguments _); cbn [bind] in E; [|discriminate].
  match type of E with bind ?a _ = _ => destruct a; cbn [bind] in E; [|discriminate] end.
  destruct (cards _); cbn [bind] in E; [|discriminate]. destruct (parent_values _ _ _); cbn [bind] in E; [|discriminate].
  destruct (map_r _ _); cbn [bind] in E; [|discriminate].
  repeat match type of E with (if ?b then _ else _) = _ => destruct b; [congruence|] end. injection E as <-. auto.
Qed.
Definition rel_kind (r : rel) : kind := match r with RTab t => tkind t | RFun _ => KStoch | RDist _ => KConst | RDom _ => KDec end.
Lemma table_kind : forall n v t r, sound n -> cpd_of n v = Some t -> lookup v (rels n) = Some r -> tkind t = rel_kind r.
Proof.
  intros n v t r S E L. assert (X := settled_table n v t r S E L). destruct r; cbn [rel_kind table_of table_from] in *; unfold table_of, table_from in X; try (apply init_kind in X; auto). congruence.
Qed.
Lemma cpd_rel : forall n v t, sound n -> cpd_of n v = Some t -> exists r, lookup v (rels n) = Some r.
Proof. intros n v t S E. destruct (inv_rel n (s_inv n S) v t E) as [K _]. apply lookup_In_keys; auto. Qed.
Lemma dist_kernel : forall n v t a, cpd_of n v = Some t -> kernel n v a = entry (doms n) t a.
Proof. intros n v t a E. unfold kernel. rewrite E. auto. Qed.
(* a copy keeps the kinds *)
Lemma copy_unset : forall n n1, built n -> distribution n -> copy_net n = Ok n1 -> unset_uniform n -> unset_uniform n1.
Proof.
  intros n n1 B Hd E U d t a T K Wa. assert (L := like_copy n n1 B Hd E). destruct (built_sound n B) as [S _]. destruct (copy_sound n n1 S E) as (S1 & _ & R1).
  assert (Wa' : within n a) by (apply (like_within n n1); auto).
  apply has_table_iff in T; [|apply S1]. destruct (cpd_rel n1 d t S1 T) as [r Lr]. assert (Kr := table_kind n1 d t r S1 T Lr).
  assert (Hn : In d (nodes (ngraph n))) by (rewrite <- (l_nodes _ _ L); apply (inv_rel n1 (s_inv n1 S1) d t T)).
  destruct (dist_table n d Hd Hn) as (t0 & T0 & _). assert (Lr0 : lookup d (rels n) = Some r) by (rewrite <- (R1 d); auto). assert (K0 := table_kind n d t0 r S T0 Lr0).
  rewrite <- (dist_kernel n1 d t a T), (l_kernel _ _ L d a Hn Wa'), (dist_kernel n d t0 a T0), (l_dom _ _ L d Hn). apply U; auto; [|congruence]. apply has_table_iff; auto. apply S.
Qed.
(* only ready-made tables can be other than uniform *)
Lemma unset_rels : forall n, built n -> distribution n -> (forall v t, lookup v (rels n) = Some (RTab t) -> tkind t <> KDec) -> unset_uniform n.
Proof.
  intros n B Hd H d t a T K Wa. destruct (built_sound n B) as [S _]. apply has_table_iff in T; [|apply S]. destruct (cpd_rel n d t S T) as [r Lr]. assert (Kr := table_kind n d t r S T Lr).
  assert (Hn : In d (nodes (ngraph n))) by (apply (inv_rel n (s_inv n S) d t T)). assert (X := settled_table n d t r S T Lr). rewrite K in Kr. destruct r as [f|l|l|t']; cbn [rel_kind] in Kr; try discriminate; [|exfalso; apply (H d t' Lr); auto].
  destruct (dist_table n d Hd Hn) as (t0 & T0 & Ok0). rewrite T in T0. injection T0 as <-. assert (Dm := ok_dom _ _ _ Ok0).
  assert (Rf := ok_reflects _ _ _ _ _ Hn X). cbn [reflects] in Rf. destruct Rf as (_ & _ & _ & Ne & Fo & Fe & _ & _).
  assert (El : dom_of (doms n) d = l).
  { rewrite Dm. apply Fo. intros ->. destruct (Fe eq_refl) as [_ I]. destruct (tdom t) as [|x td]; [congruence|]. destruct (proj1 (I x) (or_introl eq_refl)) as (pv & w & _ & C & Hx). rewrite const_call in C. injection C as <-. destruct Hx. }
  unfold table_of, table_from in X. rewrite <- El in X. destruct (dist_lookup n d Hd Hn) as [_ Nd].
  assert (Cm : forall x, complete (dom_of (doms n) d) [] x = even (dom_of (doms n) d)).
  { intro x. rewrite complete_open; [|intros p Hp; destruct Hp]. unfold even. replace (open (dom_of (doms n) d) []) with (dom_of (doms n) d); [change (mass []) with 0; f_equal; ring|].
    unfold open. rewrite nodup_fixed_point by (apply dom_nodup; auto). symmetry. generalize (dom_of (doms n) d) as l'. induction l' as [|y l' IH]; simpl; auto. f_equal. exact IH. }
  rewrite (forced_table (ngraph n) (doms n) _ d _ (fun _ => [])) in X; auto.
  - injection X as <-. change (mkTab _ _ _ _ _ KDec) with (col_tab n d (fun _ => complete (dom_of (doms n) d) []) KDec). rewrite col_entry by auto. apply Cm.
  - apply dist_ready; auto.
  - apply dom_nodup; auto.
  - apply count_pos. intros p Kp. apply in_parents in Kp. apply (proj1 (proj1 Hd)) in Kp. apply (dist_lookup n p Hd); tauto.
  - intros pv _. split; [reflexivity|]. split; [intros x []|]. rewrite (map_ext _ _ Cm). apply exact_column; [|apply even_sum; auto]. intros q Hq. apply in_map_iff in Hq. destruct Hq as (x & <- & _). apply Qclt_le_weak, even_pos; auto.
Qed.
