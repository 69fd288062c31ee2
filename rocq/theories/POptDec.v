(* Properties C45 and C46: optimal decisions. *)
From Coq Require Import String List Bool Arith QArith Qcanon Lia Permutation.
Import ListNotations.
From Verif Require Import LIncent LCopy.
From Verif Require PPatterns.
From Verif Require Import MBase MGraph MMacid MCpd MNet MProb MQuery MPolicy Spec SpecM SpecC SpecN SpecQ SpecPol LBase LGraph LQc LCpd LNet LSum LBayes LSep LQuery LDo LInter LFactor LEdit LBuilt LTotal LCheckN LCheck LEffects PMacid PQuery LRoles LReach LPolicy LValue LQcArith LSearch LLike LOptimal LOptDec LMech LOptTotal PPolicy.
Local Open Scope string_scope.
Local Open Scope list_scope.
Local Open Scope Qc_scope.

(* ---- C45 ---- *)
Lemma differ_single : forall n n' d t, built n' -> distribution n -> ngraph n' = ngraph n -> (forall u, lookup u (doms n') = lookup u (doms n)) -> (forall u, cpd_of n' u = if String.eqb u d then Some t else cpd_of n u) -> single_tables n' -> differ_in (eq d) n n' /\ has_table n' d t.
Proof.
  intros n n' d t B Hd G Dm Cp S'. split.
  - split; auto. split; [intros v s; unfold has_domain; rewrite Dm; tauto|]. intros v s Hv. rewrite !single_cpd by (auto; apply Hd). rewrite Cp. destruct (String.eqb_spec v d) as [->|]; [congruence|tauto].
  - apply single_cpd; auto. rewrite Cp, String.eqb_refl. auto.
Qed.
Lemma count_doms : forall ds ds' ps, (forall v, dom_of ds v = dom_of ds' v) -> contexts_count ds ps = contexts_count ds' ps.
Proof. intros ds ds' ps E. unfold contexts_count. induction ps as [|p ps IH]; cbn [fold_right]; auto. rewrite IH, E. auto. Qed.
Lemma index_doms : forall ds ds' pv, (forall v, dom_of ds v = dom_of ds' v) -> context_index ds pv = context_index ds' pv.
Proof. intros ds ds' pv E. induction pv as [|[p x] pv IH]; cbn [context_index]; auto. rewrite IH, E, (count_doms ds ds') by auto. auto. Qed.
Lemma plays_doms : forall n n' d h t, ngraph n' = ngraph n -> (forall u, lookup u (doms n') = lookup u (doms n)) -> plays n' d h t -> plays n d h t.
Proof.
  intros n n' d h t G Dm (P1 & P2 & P3 & P4 & P5 & P6 & P7). assert (Ed := same_doms_dom n n' Dm). rewrite G in P3, P4, P6, P7. unfold has_domain in P2. rewrite Dm in P2.
  split; auto. split; auto. split; auto. split; [rewrite P4; apply map_ext; intro; rewrite Ed; auto|]. split; auto. split.
  - rewrite P6. apply count_doms. auto.
  - intros pv [K1 K2]. destruct (P7 pv) as (col & C1 & C2).
    + split; auto. intros p x K. destruct (K2 p x K) as (l & Hl & Hx). exists l. rewrite Dm. auto.
    + exists col. split; auto. rewrite <- C1. f_equal. symmetry. apply index_doms. auto.
Qed.
Lemma do_prob_nonneg : forall n iv c, distribution n -> NoDup (keys iv) -> incl (keys iv) (nodes (ngraph n)) -> in_domains n iv -> 0 <= do_prob n iv c.
Proof. intros n iv c Hd N I D. rewrite do_prob_P by auto. apply P_nonneg. apply do_kernel_cond; auto. intros v x K. apply lookup_In in K. destruct (D v x K) as (l & Hl & Hx). unfold dom_of. rewrite Hl. auto. Qed.
Lemma optimal_rule : forall o m n d n', valid_order o -> valid m -> built n -> distribution n -> impute_optimal_decision o m n d = (n', None) ->
  exists a us h t, has_role m d (RDecision a) /\ us <> [] /\ (NoDup us /\ forall u, In u us <-> has_role m u (RUtility a) /\ descends (ngraph n) u d) /\
    built n' /\ distribution n' /\ differ_in (eq d) n n' /\ has_table n' d t /\ tkind t = KStoch /\ choice_function n d h /\ plays n d h t /\
    forall pv, context_of (doms n) (parents (ngraph n) d) pv ->
      0 < do_prob n [] pv /\ forall x, In x (dom_of (doms n) d) -> pay n us d pv x <= pay n us d pv (h pv).
Proof.
  intros o m n d n' O V B Hd E. assert (W : wf_dag (ngraph n)) by apply Hd. assert (Cm : consistent m) by apply V. assert (Gm : good_roles m) by (apply good_consistent; auto).
  unfold impute_optimal_decision in E. destruct (impute_random_decision n d) as [n1 [e|]] eqn:E1; [discriminate|]. assert (Hn := random_inv n d n1 Hd B E1).
  destruct (random_set n d B Hd Hn) as (n1' & X & B1 & Hd1 & G1 & Dm1 & Cp1 & _). rewrite E1 in X. injection X as <-. assert (Ed1 := same_doms_dom n n1 Dm1). assert (Hn1 : In d (nodes (ngraph n1))) by (rewrite G1; auto).
  destruct (dist_lookup n d Hd Hn) as [Ld Ned]. assert (Ld1 := Dm1 d). rewrite Ld in Ld1. set (dom := dom_of (doms n) d) in *. unfold dict_get at 1 in E. rewrite Ld1 in E. cbn [bind] in E.
  unfold dict_get at 1 in E. destruct (lookup d (decision_agent m)) as [a|] eqn:La; [|discriminate]. cbn [bind] in E. unfold dict_get at 1 in E. destruct (lookup a (agent_utilities m)) as [us|] eqn:Lu; [|discriminate]. cbn [bind] in E.
  unfold nx_descendants in E. rewrite (proj2 (mem_In _ _) Hn1) in E. cbn [bind] in E. destruct (macid_copy m n1) as [[m1 n2]|e] eqn:Ec; [|discriminate]. cbn [bind fst snd] in E.
  assert (Cn : copy_net n1 = Ok n2). { unfold macid_copy in Ec. destruct (copy_without_cpds (with_graph m (ngraph n1))); [|discriminate]. cbn [bind] in Ec. destruct (copy_net n1); [|discriminate]. injection Ec as _ <-. auto. }
  assert (L := like_copy n1 n2 B1 Hd1 Cn). assert (Hd2 := l_dist _ _ L). assert (W1 : wf_dag (ngraph n1)) by apply Hd1.
  assert (R1 := dist_ready n1 d Hd1). rewrite (contexts_ok (ngraph n1) (doms n1) d Hn1 R1) in E. cbn [bind] in E. fold (contexts (doms n1) (parents (ngraph n1) d)) in E.
  set (ud := o [] (set_inter us (descendants (ngraph n1) d))) in *. assert (Pu := O [] (set_inter us (descendants (ngraph n1) d))). fold ud in Pu.
  assert (Nu : NoDup ud) by (apply (Permutation_NoDup (Permutation_sym Pu)); apply NoDup_filter, NoDup_to_set).
  assert (Iu : forall u, In u ud <-> has_role m u (RUtility a) /\ descends (ngraph n) u d).
  { intro u. rewrite <- (listed_utility m a us u Cm Lu), <- G1, <- (descendants_iff _ (proj1 W1) d u (proj2 W1) Hn1), <- in_set_inter. split; intro K; [apply (Permutation_in u Pu)|apply (Permutation_in u (Permutation_sym Pu))]; auto. }
  assert (Cx : forall pv, In pv (contexts (doms n1) (parents (ngraph n1) d)) <-> context_of (doms n) (parents (ngraph n) d) pv).
  { intro pv. rewrite in_contexts' by auto. rewrite G1. unfold context_of. split; intros [A1 A2]; (split; [auto|]); intros p x K; destruct (A2 p x K) as (l & Hl & Hx); exists l; (split; [|auto]); [rewrite <- Dm1|rewrite Dm1]; auto. }
  assert (Pk : forall pv, context_of (doms n) (parents (ngraph n) d) pv -> NoDup (keys pv) /\ ~ In d (keys pv) /\ forall v, In v (keys pv) -> edge (ngraph n) v d).
  { intros pv [A1 _]. assert (Ek : keys pv = parents (ngraph n) d) by exact A1. rewrite Ek. split; [apply nodup_parents; apply W|]. split; [|intros v; apply edge_parents]. intro K. apply edge_parents in K. apply (proj2 W d). exists d. split; auto. constructor. }
  destruct (opt_answers o m1 ud d dom n2 (contexts (doms n1) (parents (ngraph n1) d))) as [l|e] eqn:Eo; [|discriminate]. cbn [bind] in E.
  assert (Ru : forall u, In u ud -> reach (ngraph n2) d u).
  { intros u K. apply Iu in K. destruct K as [_ (w & K1 & K2)]. apply reach_sub with (ngraph n1); [intros x y; apply (l_edges _ _ L)|]. rewrite G1. eapply reach_step; eauto. }
  assert (Hp : forall pv, In pv (contexts (doms n1) (parents (ngraph n1) d)) -> NoDup (keys pv) /\ ~ In d (keys pv) /\ forall v, In v (keys pv) -> edge (ngraph n2) v d).
  { intros pv K. apply Cx in K. destruct (Pk pv K) as (K1 & K2 & K3). split; auto. split; auto. intros v Hv. apply (l_edges _ _ L). rewrite G1. auto. }
  destruct (answers_best o m1 n2 ud d dom _ n2 l O Hd2 (variant_self n2 [] (l_built _ _ L) Hd2) Nu Ru Ned Hp Eo) as (-> & Nus & Z).
  set (h := best n2 ud d dom) in *. assert (T1 := dist_tabled n1 d Hd1 Hn1). assert (Hh : choice_function n1 d h). { intros pv _. rewrite Ed1. apply best_spec; auto. }
  assert (Ei : init_table (ngraph n1) (doms n1) (cards_of n1) d (answers_fn (map (fun pv => (pv, h pv)) (contexts (doms n1) (parents (ngraph n1) d)))) dom KStoch = Ok (det_tab n1 d dom h)).
  { apply det_table; auto.
    - apply (tabled_cards n1 _ T1).
    - apply dom_nodup; auto.
    - apply count_pos. intros p K. apply edge_parents in K. apply (proj1 W1) in K. apply (dist_inhabited n1 Hd1 p). tauto.
    - intros pv K. split; [unfold answers_fn; rewrite call_kw; apply answer_found; apply in_contexts'; auto|]. apply best_spec; auto. }
  rewrite Ei in E. set (t := det_tab n1 d dom h) in *. assert (Rt : rule n1 d t). { apply rule_det; auto. exists h. split; auto. rewrite Ed1. auto. }
  destruct (set_same n1 d t B1 Hd1 Hn1 (rule_ok n1 [] n1 d t Hd1 (variant_self n1 [] B1 Hd1) Hn1 Rt)) as (n3 & E3 & B3 & Hd3 & G3 & Dm3 & Cp3 & _). rewrite E in E3. injection E3 as <-.
  assert (Gn : ngraph n' = ngraph n) by congruence. assert (Dn : forall u, lookup u (doms n') = lookup u (doms n)) by (intro u; rewrite Dm3; apply Dm1).
  assert (Cn' : forall u, cpd_of n' u = if String.eqb u d then Some t else cpd_of n u). { intro u. rewrite Cp3, Cp1. destruct (String.eqb u d); auto. }
  destruct (differ_single n n' d t B3 Hd Gn Dn Cn' (proj1 (proj2 Hd3))) as [Df Ht].
  assert (Ko : forall v b, In v (nodes (ngraph n)) -> v <> d -> within n b -> kernel n1 v b = kernel n v b).
  { intros v b Hv Nv _. unfold kernel. rewrite Cp1. destruct (String.eqb_spec v d); [congruence|]. destruct (cpd_of n v); auto. apply entry_doms; auto. }
  assert (Kd : forall x b, within n b -> b d = x -> kernel n1 d b = even dom).
  { intros x b Wb _. unfold kernel. rewrite Cp1, String.eqb_refl. rewrite (entry_doms (doms n1) (doms n)) by auto. unfold uni_tab. rewrite col_entry; auto. }
  assert (Ke : even dom <> 0) by (assert (P := even_pos dom Ned); intros K; rewrite K in P; discriminate P).
  assert (Nz : forall pv x, context_of (doms n) (parents (ngraph n) d) pv -> In x dom -> do_prob n [(d, x)] pv <> 0).
  { intros pv x K Hx. assert (Y := Z pv x (proj2 (Cx pv) K) Hx). intro Q. apply Y. eapply eq_trans; [exact (like_prob n1 n2 [] _ L)|]. eapply eq_trans; [exact (random_prob n n1 d (even dom) x pv Hn (proj1 (proj1 W)) G1 Ed1 Ko (Kd x))|]. eapply eq_trans; [exact (f_equal (Qcmult (even dom)) Q)|ring]. }
  assert (Wp : forall pv x, context_of (doms n) (parents (ngraph n) d) pv -> In x dom -> worth n2 ud d pv x = pay n ud d pv x).
  { intros pv x K Hx. unfold worth, pay. apply qsum_ext. intros u Hu. assert (Un : In u (nodes (ngraph n1))). { apply Iu in Hu. destruct Hu as [_ (w & K1 & K2)]. rewrite G1. apply (wf_reach (ngraph n) (proj1 W) w u K2). apply W in K1. tauto. }
    eapply eq_trans; [exact (like_expectation n1 n2 [] _ u L Un)|]. apply (random_expectation n n1 d (even dom) x pv u Hn (proj1 (proj1 W)) G1 Ed1 Ko (Kd x) Ke). auto. }
  exists a, ud, h, t. split; [apply (good_listed_decision m a d Gm); auto|]. split.
  { apply Nus. intro K. apply (count_pos (doms n1) (parents (ngraph n1) d)); [|rewrite <- contexts_len, K; auto]. intros p Kp. apply edge_parents in Kp. apply (proj1 W1) in Kp. apply (dist_inhabited n1 Hd1 p). tauto. }
  split; [auto|]. split; auto. split; auto. split; auto. split; auto. split; [reflexivity|]. split; [intros pv _; apply best_spec; auto|]. split.
  - apply (plays_doms n n1 d h t G1 Dm1). apply (plays_iff n1 d dom h t R1 (fun p Kp => dist_parents_nodup n1 d p Hd1 Kp) Ld1). auto.
  - intros pv K. split.
    + destruct (Pk pv K) as (K1 & K2 & K3). assert (Dx : exists x, In x dom) by (destruct dom as [|x0 ?]; [congruence|exists x0; left; auto]). destruct Dx as [x Hx]. assert (Y := Nz pv x K Hx).
      rewrite (do_prob_unaffected n [(d, x)] pv) in Y.
      * destruct (Qcle_lt_or_eq 0 (do_prob n [] pv)) as [Q|Q]; [|exact Q|congruence]. apply do_prob_nonneg; [auto|constructor|intros ? []|intros ? ? []].
      * auto.
      * constructor; [intros []|constructor].
      * intros v [<-|[]]. auto.
      * intros v y [J|[]]. injection J as <- <-. exists dom. split; auto.
      * intros v Hv. apply K3 in Hv. apply W in Hv. tauto.
      * intros v w [<-|[]] Hw J. apply K3 in Hw. apply (proj2 W w). exists d. auto.
    + intros x Hx. destruct (best_spec n2 ud d dom pv Ned) as [I M]. fold h in I, M. rewrite <- (Wp pv x K Hx), <- (Wp pv (h pv) K I). auto.
Qed.
(* if it returns, every context is possible, and the new rule plays a best action in every context *)
Theorem C45_optimal_partial : forall o m n d n', valid_order o -> valid m -> built n -> distribution n -> impute_optimal_decision o m n d = (n', None) ->
  exists a us h t, has_role m d (RDecision a) /\ us <> [] /\ (NoDup us /\ forall u, In u us <-> has_role m u (RUtility a) /\ descends (ngraph n) u d) /\
    built n' /\ distribution n' /\ differ_in (eq d) n n' /\ has_table n' d t /\ choice_function n d h /\ plays n d h t /\
    forall pv, context_of (doms n) (parents (ngraph n) d) pv ->
      0 < do_prob n [] pv /\ forall x, In x (dom_of (doms n) d) -> pay n us d pv x <= pay n us d pv (h pv).
Proof. intros o m n d n' O V B Hd E. destruct (optimal_rule o m n d n' O V B Hd E) as (a & us & h & t & K1 & K2 & K3 & K4 & K5 & K6 & K7 & _ & K). exists a, us, h, t. auto 10. Qed.
Print Assumptions C45_optimal_partial.
Lemma pend_ext : forall g Z Z' v u, (forall x, In x Z <-> In x Z') -> pend_conn g Z v u -> pend_conn g Z' v u.
Proof.
  intros g Z Z' v u S [N [q (Q1 & Q2 & Q3)]]. split; [rewrite <- S; auto|]. exists q. split; [auto|]. split.
  - intros x y z T. destruct (Q2 x y z T) as [T1 T2]. split.
    + intro K. destruct (T1 K) as [e [E1 E2]]. exists e. rewrite <- S. auto.
    + intro K. rewrite <- S. auto.
  - destruct q as [|x [|y q]]; auto. destruct Q3 as [Q3 Q4]. split.
    + intro K. destruct (Q3 K) as [e [E1 E2]]. exists e. rewrite <- S. auto.
    + intro K. rewrite <- S. auto.
Qed.
(* it returns, if every context is possible, a utility can be reached, no parent has a plain table,
   every other relevant decision has a rule, and the graph is connected *)
Theorem C45_returns_partial : forall o m n d a, valid_order o -> valid m -> SpecI.proper MIncent.IsMACID m -> mgraph m = ngraph n -> no_clash (ngraph n) -> built n -> distribution n ->
  has_role m d (RDecision a) -> (exists u, has_role m u (RUtility a) /\ descends (ngraph n) u d) ->
  (forall pv, context_of (doms n) (parents (ngraph n) d) pv -> do_prob n [] pv <> 0) ->
  (forall p t, edge (ngraph n) p d -> has_table n p t -> tkind t <> KTab) ->
  (forall e b, has_role m e (RDecision b) -> e = d \/ (exists t, has_table n e t /\ tkind t <> KDec) \/ ~ r_relevant m d e) ->
  (forall u v, In u (nodes (ngraph n)) -> In v (nodes (ngraph n)) -> joined (ngraph n) [] u v) ->
  exists n', impute_optimal_decision o m n d = (n', None).
Proof.
  intros o m n d a O V Pr Eg NC B Hd Rd (u0 & Ru0 & Du0) Pos Kt De J. assert (W : wf_dag (ngraph n)) by apply Hd. assert (Cm : consistent m) by apply V. assert (Gm : good_roles m) by (apply good_consistent; auto).
  assert (Hn : In d (nodes (ngraph n))) by (rewrite <- Eg; apply (proj2 (proj2 V) a d); left; auto).
  destruct (random_set n d B Hd Hn) as (n1 & X & B1 & Hd1 & G1 & Dm1 & Cp1 & Rl1). unfold impute_optimal_decision. rewrite X. assert (Ed1 := same_doms_dom n n1 Dm1). assert (Hn1 : In d (nodes (ngraph n1))) by (rewrite G1; auto).
  destruct (dist_lookup n d Hd Hn) as [Ld Ned]. assert (Ld1 := Dm1 d). rewrite Ld in Ld1. set (dom := dom_of (doms n) d) in *. unfold dict_get at 1. rewrite Ld1. cbn [bind].
  unfold dict_get at 1. rewrite (proj1 (good_listed_decision m a d Gm) Rd). cbn [bind]. assert (Hu' := Ru0). unfold has_role in Hu'. rewrite listed_lookup in Hu' by apply V. destruct Hu' as (us & Lu & Iu0).
  unfold dict_get at 1. rewrite Lu. cbn [bind]. unfold nx_descendants. rewrite (proj2 (mem_In _ _) Hn1). cbn [bind].
  unfold macid_copy. rewrite (with_graph_eq m (ngraph n1)) by congruence. destruct (LIncent.copy_spec MIncent.IsMACID m V Pr) as (m1 & Em & V1 & Pr1 & Gg & Sr). change (copy_without_cpds m = Ok m1) in Em. rewrite Em. cbn [bind].
  destruct (built_sound n1 B1) as [So _]. destruct (copy_total n1 (built_portable n1 B1 Hd1)) as [n2 Ec]. { intros v r Lr. destruct (dist_table n1 v Hd1) as (t & Ct & _); [|congruence]. apply (settled_node n1 v r (s_inv n1 So) (s_settled n1 So v r Lr)). }
  rewrite Ec. cbn [bind fst snd]. assert (L := like_copy n1 n2 B1 Hd1 Ec). destruct (copy_sound n1 n2 So Ec) as (S2 & Gn2 & Rs2). assert (Hd2 := l_dist _ _ L). assert (B2 := l_built _ _ L). assert (Nn := l_nodes _ _ L). rewrite G1 in Nn.
  assert (Eg2 : mgraph m1 = ngraph n2) by (rewrite Gg, Gn2, Eg, G1; auto). assert (W1 : wf_dag (ngraph n1)) by apply Hd1. assert (W2 : wf_dag (ngraph n2)) by apply Hd2.
  assert (R1 := dist_ready n1 d Hd1). rewrite (contexts_ok (ngraph n1) (doms n1) d Hn1 R1). cbn [bind]. fold (contexts (doms n1) (parents (ngraph n1) d)).
  set (ud := o [] (set_inter us (descendants (ngraph n1) d))) in *. assert (Pu := O [] (set_inter us (descendants (ngraph n1) d))). fold ud in Pu.
  assert (Nu : NoDup ud) by (apply (Permutation_NoDup (Permutation_sym Pu)); apply NoDup_filter, NoDup_to_set).
  assert (Iu : forall u, In u ud <-> has_role m u (RUtility a) /\ descends (ngraph n) u d).
  { intro u. rewrite <- (listed_utility m a us u Cm Lu), <- G1, <- (descendants_iff _ (proj1 W1) d u (proj2 W1) Hn1), <- in_set_inter. split; intro K; [apply (Permutation_in u Pu)|apply (Permutation_in u (Permutation_sym Pu))]; auto. }
  assert (Cx : forall pv, In pv (contexts (doms n1) (parents (ngraph n1) d)) <-> context_of (doms n) (parents (ngraph n) d) pv).
  { intro pv. rewrite in_contexts' by auto. rewrite G1. unfold context_of. split; intros [A1 A2]; (split; [auto|]); intros p x K; destruct (A2 p x K) as (l & Hl & Hx); exists l; (split; [|auto]); [rewrite <- Dm1|rewrite Dm1]; auto. }
  assert (Pk : forall pv, context_of (doms n) (parents (ngraph n) d) pv -> keys pv = parents (ngraph n) d /\ NoDup (keys pv) /\ ~ In d (keys pv) /\ forall v, In v (keys pv) -> edge (ngraph n) v d).
  { intros pv [A1 _]. assert (Ek : keys pv = parents (ngraph n) d) by exact A1. rewrite Ek. split; auto. split; [apply nodup_parents; apply W|]. split; [|intros v; apply edge_parents]. intro K. apply edge_parents in K. apply (proj2 W d). exists d. split; auto. constructor. }
  assert (Un : forall u, In u ud -> In u (nodes (ngraph n))) by (intros u K; apply Iu in K; rewrite <- Eg; apply (proj2 (proj2 V) a u); right; tauto).
  assert (Ed2 : dom_of (doms n2) d = dom) by (eapply eq_trans; [exact (l_dom _ _ L d Hn1)|apply Ed1]). assert (Hn2 : In d (nodes (ngraph n2))) by (rewrite Nn; auto).
  assert (Ko : forall v b, In v (nodes (ngraph n)) -> v <> d -> within n b -> kernel n1 v b = kernel n v b).
  { intros v b Hv Nv _. unfold kernel. rewrite Cp1. destruct (String.eqb_spec v d); [congruence|]. destruct (cpd_of n v); auto. apply entry_doms; auto. }
  assert (Kd : forall x b, within n b -> b d = x -> kernel n1 d b = even dom).
  { intros x b Wb _. unfold kernel. rewrite Cp1, String.eqb_refl. rewrite (entry_doms (doms n1) (doms n)) by auto. unfold uni_tab. rewrite col_entry; auto. }
  assert (Ke : even dom <> 0) by (assert (P := even_pos dom Ned); intros K; rewrite K in P; discriminate P).
  assert (Tk : forall v, In v (nodes (ngraph n)) -> exists t1 t2, cpd_of n1 v = Some t1 /\ cpd_of n2 v = Some t2 /\ tkind t2 = tkind t1 /\ lookup v (doms n2) = Some (tdom t2) /\ tdom t2 = dom_of (doms n) v).
  { intros v Hv. destruct (dist_table n1 v Hd1) as (t1 & T1 & _); [rewrite G1; auto|]. destruct (dist_table n2 v Hd2) as (t2 & T2 & Ok2); [rewrite Nn; auto|]. exists t1, t2. split; auto. split; auto. destruct (cpd_rel n1 v t1 So T1) as [r Lr]. split.
    - rewrite (table_kind n1 v t1 r So T1 Lr). apply (table_kind n2 v t2 r S2 T2). rewrite (Rs2 v). auto.
    - assert (Y : tdom t2 = dom_of (doms n2) v) by (symmetry; apply Ok2). rewrite Y. split; [apply dist_lookup; auto; rewrite Nn; auto|]. eapply eq_trans; [apply (l_dom _ _ L v); rewrite G1; auto|]. apply Ed1. }
  destruct (answers_total o m1 n2 ud d (contexts (doms n1) (parents (ngraph n1) d)) O B2 Hd2) as [l El]; auto.
  - intros x Hx. rewrite Nn in *. apply NC; auto.
  - intros x y Hx Hy. rewrite Nn in Hx, Hy. apply (joined_edges (ngraph n)); auto. intros p q K. apply (l_edges _ _ L). rewrite G1. auto.
  - intro K. assert (Y : In u0 ud) by (apply Iu; auto). rewrite K in Y. destruct Y.
  - intros u K. rewrite Nn. auto.
  - intros pv K. apply Cx in K. destruct (Pk pv K) as (K0 & K1 & K2 & K3). split; auto. split; auto. split; [|split; [|split]].
    + intros v x Hv. assert (Ev : edge (ngraph n) v d) by (apply K3; apply in_map_iff; exists (v, x); auto). assert (Vn : In v (nodes (ngraph n))) by (apply W in Ev; tauto). rewrite Nn. split; auto.
      destruct (Tk v Vn) as (t1 & t2 & T1 & T2 & T3 & T4 & T5). exists t2. split; auto. rewrite Cp1 in T1. destruct (String.eqb_spec v d) as [->|]; [exfalso; apply (no_self_edge (ngraph n) d (proj2 W) Ev)|].
      split; [rewrite T3; apply (Kt v t1 Ev); apply single_cpd; auto; apply Hd|]. split; auto. rewrite T5. destruct (proj2 K v x Hv) as (dl & Hl & Hx). unfold dom_of. rewrite Hl. auto.
    + intros e Ke'. assert (G1' : good_roles m1) by (apply good_consistent; apply V1). assert (Re : exists b, has_role m e (RDecision b)).
      { unfold decisions in Ke'. rewrite in_keys_lookup in Ke'. destruct Ke' as [b Hb]. exists b. apply (Sr e (RDecision b)). apply (good_listed_decision m1 b e G1'); auto. }
      destruct Re as [b Rb]. assert (En : In e (nodes (ngraph n))) by (rewrite <- Eg; apply (proj2 (proj2 V) b e); left; auto). rewrite Nn. split; auto. destruct (Tk e En) as (t1 & t2 & T1 & T2 & T3 & _). rewrite Cp1 in T1.
      destruct (De e b Rb) as [->|[(t & Ht & Kt')|Ir]].
      * left. rewrite String.eqb_refl in T1. injection T1 as <-. unfold has_policy. rewrite T2, T3. reflexivity.
      * left. unfold has_policy. rewrite T2, T3. destruct (String.eqb_spec e d) as [->|]; [injection T1 as <-; reflexivity|]. apply single_cpd in Ht; [|apply Hd]. rewrite Ht in T1. injection T1 as <-. destruct (tkind t); congruence.
      * right. intros q Hq Pc. apply Ir. apply (relevant_more m1 m d e); [rewrite Eg2; auto|rewrite Eg; auto|rewrite Eg2, Nn; auto| | | |].
        -- intros x y. rewrite Eg2, Eg. rewrite <- G1. apply (l_edges _ _ L).
        -- rewrite Eg2, Eg. auto.
        -- intros x r. symmetry. apply Sr.
        -- apply r_relevant_char; rewrite ?Eg2, ?Nn; auto; [intros x Hx; rewrite Nn in *; apply NC; auto|]. exists a, q. apply Iu in Hq. destruct Hq as [Q1 Q2]. split; [apply (Sr d (RDecision a)); auto|]. split; [apply (Sr q (RUtility a)); auto|]. split.
           ++ destruct Q2 as (w & E1 & E2). exists w. split; [apply (l_edges _ _ L); rewrite G1; auto|]. apply reach_sub with (ngraph n); auto. intros x y K'. apply (l_edges _ _ L). rewrite G1. auto.
           ++ eapply pend_ext; [|exact Pc]. intro x. rewrite in_app_iff, in_family, (l_edges _ _ L), G1. rewrite K0, in_parents. cbn [In]. intuition.
    + intros u Hu. apply Iu in Hu. destruct Hu as [_ Q2]. split; [|intros ->; apply (proj2 W d); auto]. intro Kv. apply K3 in Kv. apply (proj2 W u). apply descends_trans with d; auto. eapply reach_step; [exact Kv|constructor].
    + intros x Hx. rewrite Ed2 in Hx. intro Q. eapply eq_trans in Q; [|symmetry; exact (like_prob n1 n2 [] _ L)]. eapply eq_trans in Q; [|symmetry; exact (random_prob n n1 d (even dom) x pv Hn (proj1 (proj1 W)) G1 Ed1 Ko (Kd x))].
      apply (Pos pv K). apply Qcmult_integral in Q. destruct Q as [Q|Q]; [congruence|]. rewrite <- Q. symmetry. apply do_prob_unaffected; auto.
      * constructor; [intros []|constructor].
      * intros v [<-|[]]. auto.
      * intros v y [J'|[]]. injection J' as <- <-. exists dom. split; auto.
      * intros v Hv. apply K3 in Hv. apply W in Hv. tauto.
      * intros v w [<-|[]] Hw J'. apply K3 in Hw. apply (proj2 W w). exists d. auto.
  - destruct (Tk d Hn) as (t1 & t2 & T1 & T2 & T3 & T4 & T5). exists t2. split; auto. split; auto. rewrite T3. rewrite Cp1, String.eqb_refl in T1. injection T1 as <-. discriminate.
  - rewrite Ed2 in El. rewrite El. cbn [bind].
    assert (Ru : forall u, In u ud -> reach (ngraph n2) d u).
    { intros u K. apply Iu in K. destruct K as [_ (w & K1 & K2)]. apply reach_sub with (ngraph n1); [intros x y; apply (l_edges _ _ L)|]. rewrite G1. eapply reach_step; eauto. }
    assert (Hp : forall pv, In pv (contexts (doms n1) (parents (ngraph n1) d)) -> NoDup (keys pv) /\ ~ In d (keys pv) /\ forall v, In v (keys pv) -> edge (ngraph n2) v d).
    { intros pv K. apply Cx in K. destruct (Pk pv K) as (_ & K1 & K2 & K3). split; auto. split; auto. intros v Hv. apply (l_edges _ _ L). rewrite G1. auto. }
    destruct (answers_best o m1 n2 ud d dom _ n2 l O Hd2 (variant_self n2 [] B2 Hd2) Nu Ru Ned Hp El) as (-> & _).
    set (h := best n2 ud d dom) in *. assert (T1 := dist_tabled n1 d Hd1 Hn1). assert (Hh : choice_function n1 d h). { intros pv _. rewrite Ed1. apply best_spec; auto. }
    assert (Ei : init_table (ngraph n1) (doms n1) (cards_of n1) d (answers_fn (map (fun pv => (pv, h pv)) (contexts (doms n1) (parents (ngraph n1) d)))) dom KStoch = Ok (det_tab n1 d dom h)).
    { apply det_table; auto.
      - apply (tabled_cards n1 _ T1).
      - apply dom_nodup; auto.
      - apply count_pos. intros p K. apply edge_parents in K. apply (proj1 W1) in K. apply (dist_inhabited n1 Hd1 p). tauto.
      - intros pv K. split; [unfold answers_fn; rewrite call_kw; apply answer_found; apply in_contexts'; auto|]. apply best_spec; auto. }
    rewrite Ei. assert (Rt : rule n1 d (det_tab n1 d dom h)). { apply rule_det; auto. exists h. split; auto. rewrite Ed1. auto. }
    destruct (set_same n1 d _ B1 Hd1 Hn1 (rule_ok n1 [] n1 d _ Hd1 (variant_self n1 [] B1 Hd1) Hn1 Rt)) as (n3 & E3 & _). exists n3. exact E3.
Qed.
Print Assumptions C45_returns_partial.
(* it can fail in a diagram with complete tables: a context of probability zero, no utility below the decision, a parent with a plain table *)
Definition ex_sure_net : net := made ex_bet_graph [("X", RDist [(0, Some 1); (1, Some 0)]); ("D", RDom [0; 1]); ("U", same_u)].
Definition ex_plain_net : net := made ex_bet_graph [("X", tab_of "X" [0; 1] [] [] [[q 1 2; q 1 2]]); ("D", RDom [0; 1]); ("U", same_u)].
Definition error_is (e : error) (r : outcome_of) : bool := match snd r, e with Some RuntimeError, RuntimeError => true | Some NetworkXPointlessConcept, NetworkXPointlessConcept => true | Some AttributeError, AttributeError => true | _, _ => false end.
Lemma error_is_ok : forall e r, error_is e r = true -> exists n, r = (n, Some e).
Proof. intros e [n [e'|]] H; [|destruct e; discriminate]. exists n. destruct e', e; try discriminate; auto. Qed.
Theorem C45_succeeds_refuted : forall e, In e [RuntimeError; NetworkXPointlessConcept; AttributeError] ->
  exists m n n', valid m /\ SpecI.proper MIncent.IsMACID m /\ mgraph m = ngraph n /\ no_clash (ngraph n) /\ built n /\ distribution n /\ unset_uniform n /\ has_role m "D" (RDecision "0") /\
    impute_optimal_decision (fun _ l => l) m n "D" = (n', Some e).
Proof.
  assert (S : built ex_sure_net /\ distribution ex_sure_net).
  { split; [apply made_built|apply dist_check_ok]; [vm_compute; reflexivity| |vm_compute; reflexivity|vm_compute; reflexivity].
    rels_ok; [split; [exact I|]|split; exact I|apply tab_admissible]. vm_compute. repeat constructor; intros H; repeat (destruct H as [H|H]; [discriminate|]); destruct H. }
  assert (P : built ex_plain_net /\ distribution ex_plain_net).
  { split; [apply made_built|apply dist_check_ok]; [vm_compute; reflexivity| |vm_compute; reflexivity|vm_compute; reflexivity]. rels_ok; [apply tab_admissible|split; exact I|apply tab_admissible]. }
  assert (D : built ex_idle /\ distribution ex_idle).
  { split; [apply made_built|apply dist_check_ok]; [vm_compute; reflexivity| |vm_compute; reflexivity|vm_compute; reflexivity]. rels_ok; [split; exact I|split; [exact I|exact coin_dict]]. }
  assert (Pi : SpecI.proper MIncent.IsMACID ex_idle_cid).
  { split; intros a; cbn.
    - intros [<-|[]]. exists "D". exists ["D"]. split; left; auto.
    - intros d (l & [K|[]] & Hd'). injection K as <- <-. exists "U". exists ["U"]. split; left; auto. }
  intros e [<-|[<-|[<-|[]]]].
  - exists ex_bet, ex_sure_net. destruct (error_is_ok RuntimeError (impute_optimal_decision (fun _ l => l) ex_bet ex_sure_net "D")) as [n' E]; [vm_compute; reflexivity|]. exists n'.
    split; [exact (proj1 ex_bet_roles)|]. split; [exact (proj2 ex_bet_roles)|]. split; [vm_compute; reflexivity|]. split; [apply clash_free_ok; vm_compute; reflexivity|]. split; [exact (proj1 S)|]. split; [exact (proj2 S)|].
    split; [apply unset_check; [exact (proj1 S)|exact (proj2 S)|vm_compute; reflexivity]|]. split; [exists ["D"]; split; left; auto|]. exact E.
  - exists ex_idle_cid, ex_idle. destruct (error_is_ok NetworkXPointlessConcept (impute_optimal_decision (fun _ l => l) ex_idle_cid ex_idle "D")) as [n' E]; [vm_compute; reflexivity|]. exists n'.
    split; [apply LCheck.check_ok; vm_compute; reflexivity|]. split; [exact Pi|]. split; [vm_compute; reflexivity|]. split; [apply clash_free_ok; vm_compute; reflexivity|]. split; [exact (proj1 D)|]. split; [exact (proj2 D)|].
    split; [apply unset_check; [exact (proj1 D)|exact (proj2 D)|vm_compute; reflexivity]|]. split; [exists ["D"]; split; left; auto|]. exact E.
  - exists ex_bet, ex_plain_net. destruct (error_is_ok AttributeError (impute_optimal_decision (fun _ l => l) ex_bet ex_plain_net "D")) as [n' E]; [vm_compute; reflexivity|]. exists n'.
    split; [exact (proj1 ex_bet_roles)|]. split; [exact (proj2 ex_bet_roles)|]. split; [vm_compute; reflexivity|]. split; [apply clash_free_ok; vm_compute; reflexivity|]. split; [exact (proj1 P)|]. split; [exact (proj2 P)|].
    split; [apply unset_check; [exact (proj1 P)|exact (proj2 P)|vm_compute; reflexivity]|]. split; [exists ["D"]; split; left; auto|]. exact E.
Qed.
Print Assumptions C45_succeeds_refuted.
Definition returned (r : outcome_of) : bool := match snd r with None => true | _ => false end.
Lemma single_context : forall ds p l pv, lookup p ds = Some l -> context_of ds [p] pv -> exists x, In x l /\ pv = [(p, x)].
Proof.
  intros ds p l pv L [K H]. destruct pv as [|[p' x] [|]]; try discriminate. injection K as ->. destruct (H p x (or_introl eq_refl)) as (l' & H1 & H2). rewrite L in H1. injection H1 as <-. exists x. auto.
Qed.
Example C45_example : valid ex_bet /\ SpecI.proper MIncent.IsMACID ex_bet /\ mgraph ex_bet = ngraph ex_bet_net /\ no_clash (ngraph ex_bet_net) /\ built ex_bet_net /\ distribution ex_bet_net /\
  has_role ex_bet "D" (RDecision "0") /\ (exists u, has_role ex_bet u (RUtility "0") /\ descends (ngraph ex_bet_net) u "D") /\
  (forall pv, context_of (doms ex_bet_net) (parents (ngraph ex_bet_net) "D") pv -> do_prob ex_bet_net [] pv <> 0) /\
  (forall p t, edge (ngraph ex_bet_net) p "D" -> has_table ex_bet_net p t -> tkind t <> KTab) /\
  (forall e b, has_role ex_bet e (RDecision b) -> e = "D") /\
  returned (impute_optimal_decision (fun _ l => l) ex_bet ex_bet_net "D") = true.
Proof.
  destruct ex_bet_built as [B Hd]. split; [exact (proj1 ex_bet_roles)|]. split; [exact (proj2 ex_bet_roles)|]. split; [vm_compute; reflexivity|]. split; [apply clash_free_ok; vm_compute; reflexivity|].
  split; [exact B|]. split; [exact Hd|]. split; [exists ["D"]; split; left; auto|]. split; [|split; [|split; [|split; [|vm_compute; reflexivity]]]].
  - exists "U". split; [exists ["U"]; split; left; auto|]. exists "U". split; [apply PPatterns.edge_in; vm_compute; reflexivity|constructor].
  - assert (X : forallb (fun x => negb (oeqb (do_prob ex_bet_net [] [("X", x)]) 0)) [0; 1] = true) by (vm_compute; reflexivity). rewrite forallb_forall in X.
    intros pv K. assert (Ep : parents (ngraph ex_bet_net) "D" = ["X"]) by (vm_compute; reflexivity). rewrite Ep in K. destruct (single_context (doms ex_bet_net) "X" [0; 1] pv) as (x & Hx & ->); [vm_compute; reflexivity|exact K|].
    specialize (X x Hx). intro Q. rewrite Q in X. discriminate X.
  - intros p t K Ht. assert (X : match cpd_of ex_bet_net "X" with Some t => match tkind t with KTab => false | _ => true end | None => false end = true) by (vm_compute; reflexivity).
    apply single_cpd in Ht; [|exact (proj1 (proj2 Hd))]. assert (p = "X"). { apply edge_parents in K. assert (Ep : parents (ngraph ex_bet_net) "D" = ["X"]) by (vm_compute; reflexivity). rewrite Ep in K. destruct K as [<-|[]]. reflexivity. }
    subst p. rewrite Ht in X. intro Q. rewrite Q in X. discriminate.
  - intros d b (l & [K|[]] & Hd'). injection K as <- <-. destruct Hd' as [<-|[]]. reflexivity.
Qed.
