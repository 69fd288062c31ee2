(* Changing what one of several decisions observes. *)
From Coq Require Import String List Bool Arith QArith Qcanon Lia Permutation.
Import ListNotations.
From Verif Require LRel.
From Verif Require Import LIncent LCopy SpecI.
From Verif Require Import MBase MGraph MMacid MCpd MNet MProb MQuery MPolicy MVoi Spec SpecM SpecC SpecN SpecQ SpecPol SpecVoi SpecVoiN LBase LGraph LDfs LPaths LQc LCpd LNet LSum LBayes LSep LQuery LDo LInter LFactor LEdit LBuilt LTotal LCheckN LCheck LEffects PMacid PQuery PCpd LRoles LReach LTrim LActive LMech LPolicy LValue LQcArith LSearch LLike LOptimal LOptDec LOptTotal LBest LSolve LIndep PPolicy POptDec PSolve LVoi LVoc.
Local Open Scope string_scope.
Local Open Scope list_scope.
Local Open Scope Qc_scope.

(* all tables are there and have the right domains, but those in S may be for other parents *)
Record partly (S : node -> Prop) (n : net) : Prop := {
  pa_built : built n;
  pa_wf : wf_dag (ngraph n);
  pa_dom : forall v, In v (nodes (ngraph n)) -> lookup v (doms n) = Some (dom_of (doms n) v) /\ dom_of (doms n) v <> [] /\ NoDup (dom_of (doms n) v);
  pa_tab : forall v, In v (nodes (ngraph n)) -> exists t, cpd_of n v = Some t /\ dom_of (doms n) v = tdom t /\ (S v \/ table_ok n v t) }.
Lemma partly_dist : forall S n, partly S n -> (forall v, In v (nodes (ngraph n)) -> ~ S v) -> distribution n.
Proof.
  intros S n P N. assert (I := s_inv n (proj1 (built_sound n (pa_built _ _ P)))). assert (Sg : single_tables n) by (apply nodup_tables; apply I). split; [apply P|]. split; auto. split.
  - intros v t H. apply single_cpd in H; auto. destruct (inv_rel n I v t H) as [_ Hv]. destruct (pa_tab _ _ P v Hv) as (s & C & _ & [K|K]); [destruct (N v Hv K)|]. rewrite H in C. injection C as <-. apply K.
  - intros v Hv. destruct (pa_tab _ _ P v Hv) as (s & C & E & [K|K]); [destruct (N v Hv K)|]. exists s. split; [apply single_cpd; auto|]. split; [unfold has_domain; rewrite <- E; apply (pa_dom _ _ P v Hv)|]. split; apply K.
Qed.
Lemma partly_redo : forall n n' d, distribution n -> built n' -> redo n n' d -> cpd_of n' d <> None -> partly (eq d) n'.
Proof.
  intros n n' d Hd B R Ne. assert (I := s_inv n' (proj1 (built_sound n' B))). constructor; auto; [apply R| |].
  - intros v Hv. rewrite (r_nodes _ _ _ R) in Hv. rewrite (redo_dom _ _ _ v R), (r_doms _ _ _ R). destruct (dist_lookup n v Hd Hv) as [L Nv]. split; auto. split; auto. apply dom_nodup; auto.
  - intros v Hv. rewrite (r_nodes _ _ _ R) in Hv. destruct (String.string_dec v d) as [->|N].
    + destruct (cpd_of n' d) as [t|] eqn:C; [|congruence]. exists t. split; auto. split; auto. unfold dom_of. rewrite (inv_dom n' I d t C). auto.
    + destruct (dist_table n v Hd Hv) as (t & C & T). exists t. rewrite (r_cpds _ _ _ R) by auto. split; auto. rewrite (redo_dom _ _ _ v R). split; [apply T|]. right. destruct T as [T1 T2 T3 T4 T5]. constructor; auto.
      * rewrite (redo_dom _ _ _ v R). auto.
      * intro p. rewrite (r_edges _ _ _ R) by auto. auto.
      * rewrite T5. apply map_ext. intro p. rewrite (redo_dom _ _ _ p R). auto.
Qed.
(* networks that agree but for the tables (and parents) of ds *)
Record redos (n n' : net) (ds : list node) : Prop := {
  rs_nodes : nodes (ngraph n') = nodes (ngraph n);
  rs_doms : forall v, lookup v (doms n') = lookup v (doms n);
  rs_cpds : forall v, ~ In v ds -> cpd_of n' v = cpd_of n v }.
Lemma redos_refl : forall n ds, redos n n ds.
Proof. intros. constructor; auto. Qed.
Lemma redos_trans : forall n n1 n2 ds, redos n n1 ds -> redos n1 n2 ds -> redos n n2 ds.
Proof. intros n n1 n2 ds [A1 A2 A3] [B1 B2 B3]. constructor; [congruence|intro v; congruence|intros v N; rewrite B3; auto]. Qed.
Lemma redo_redos : forall n n' d ds, In d ds -> redo n n' d -> redos n n' ds.
Proof. intros n n' d ds K R. constructor; [apply R|apply R|]. intros v N. apply R. intros ->. auto. Qed.
Lemma redos_dom : forall n n' ds v, redos n n' ds -> dom_of (doms n') v = dom_of (doms n) v.
Proof. intros n n' ds v R. unfold dom_of. rewrite (rs_doms _ _ _ R). auto. Qed.
Lemma redos_more : forall n n' ds ds', incl ds ds' -> redos n n' ds -> redos n n' ds'.
Proof. intros n n' ds ds' I [A1 A2 A3]. constructor; auto. Qed.
Lemma redos_value : forall n n' ds b us, redos n n' ds -> value n' ds b us = value n ds b us.
Proof.
  intros n n' ds b us R. unfold value. rewrite (rs_nodes _ _ _ R). rewrite (total_dom_perm (dom_of (doms n')) (dom_of (doms n))).
  2:{ intros v Hv. rewrite (redos_dom _ _ _ v R). apply Permutation_refl. }
  apply total_ext. intro a. f_equal. change (fold_right Qcmult 1) with qprod. apply qprod_ext. intros v Hv. unfold follow. destruct (in_dec String.string_dec v ds) as [K|K]; auto.
  unfold kernel. rewrite (rs_cpds _ _ _ R) by auto. destruct (cpd_of n v); auto. apply entry_doms_in; intros; apply (redos_dom _ _ _ _ R).
Qed.
Lemma differ_redos : forall n n' ds, distribution n -> distribution n' -> differ_in (fun v => In v ds) n n' -> redos n n' ds.
Proof.
  intros n n' ds Hd Hd' (G & D & T). constructor; [rewrite G; auto| |].
  - intro v. destruct (lookup v (doms n)) as [l|] eqn:E; [apply D; auto|]. destruct (lookup v (doms n')) as [l|] eqn:E'; auto. apply (D v l) in E'. unfold has_domain in E'. congruence.
  - intros v N. assert (S : single_tables n) by apply Hd. assert (S' : single_tables n') by apply Hd'. assert (X : forall t, has_table n v t <-> has_table n' v t) by (intro t; apply T; auto).
    destruct (cpd_of n v) as [t|] eqn:E; [apply single_cpd; auto; apply X, single_cpd; auto|]. destruct (cpd_of n' v) as [t|] eqn:E'; auto. apply single_cpd, X, single_cpd in E'; auto. congruence.
Qed.
(* ---- random rules ---- *)
Lemma partly_ground : forall S n d, partly S n -> In d (nodes (ngraph n)) -> ground n d.
Proof.
  intros S n d P Hn. constructor; auto; [apply P|apply P|]. intros p E. assert (Hp : In p (nodes (ngraph n))) by (apply (pa_wf _ _ P) in E; tauto). destruct (pa_tab _ _ P p Hp) as (t & C & T & _). eauto.
Qed.
Lemma partly_random : forall S n d, partly S n -> In d (nodes (ngraph n)) ->
  exists n', impute_random_decision n d = (n', None) /\ partly (fun v => S v /\ v <> d) n' /\ redo n n' d /\ ngraph n' = ngraph n.
Proof.
  intros S n d P Hn. assert (B := pa_built _ _ P). assert (I := s_inv n (proj1 (built_sound n B))). assert (Gr := partly_ground S n d P Hn). assert (Fo := flat_ok n d KStoch Gr).
  unfold impute_random_decision. rewrite (proj1 (g_dom _ _ Gr d Hn)). rewrite (flat_table n n d KStoch) by auto.
  destruct (set_flat n d (RTab (flat n d KStoch)) (flat n d KStoch)) as (E & Re & C & G' & _); auto; try apply Fo.
  - intros u Hu. apply (ok_ev _ _ _ Fo) in Hu. apply (proj1 (g_wf _ _ Gr)) in Hu. apply Hu.
  - eexists. split; [exact E|]. set (n' := place (begin n d (RTab (flat n d KStoch))) d (flat n d KStoch)) in *.
    assert (B' : built n'). { apply (built_step n (OAdd d (RTab (flat n d KStoch)))); auto. intros v' r' X. injection X as <- <-. split; [apply (ok_var _ _ _ Fo)|exact Logic.I]. }
    split; auto. assert (Dm := fun v => redo_dom n n' d v Re). assert (Tf : forall v t, table_ok n v t -> table_ok n' v t) by (intros v t T; apply (table_frame n); auto).
    constructor; auto; [rewrite G'; apply P| |].
    + intros v Hv. rewrite G' in Hv. rewrite Dm, (r_doms _ _ _ Re). apply (pa_dom _ _ P v Hv).
    + intros v Hv. rewrite G' in Hv. destruct (String.string_dec v d) as [->|N].
      * exists (flat n d KStoch). split; auto. rewrite Dm. split; [apply Fo|]. right. auto.
      * destruct (pa_tab _ _ P v Hv) as (t & T1 & T2 & T3). exists t. rewrite (r_cpds _ _ _ Re) by auto. split; auto. rewrite Dm. split; auto. destruct T3; auto.
Qed.
Lemma partly_random_loop : forall l S n n', partly S n -> incl l (nodes (ngraph n)) -> loop_net impute_random_decision n l = (n', None) ->
  partly (fun v => S v /\ ~ In v l) n' /\ redos n n' l /\ ngraph n' = ngraph n.
Proof.
  induction l as [|d l IH]; intros S n n' P Il H; cbn [loop_net] in H.
  - injection H as <-. split; [|split; [apply redos_refl|auto]]. destruct P as [P1 P2 P3 P4]. constructor; auto. intros v Hv. destruct (P4 v Hv) as (t & T1 & T2 & T3). exists t. split; auto. split; auto. destruct T3; auto.
  - destruct (partly_random S n d P (Il d (or_introl eq_refl))) as (n1 & E & P1 & R1 & G1). rewrite E in H.
    destruct (IH _ n1 n' P1) with (2 := H) as (P2 & R2 & G2); [rewrite G1; intros v K; apply Il; right; auto|]. split; [|split; [|congruence]].
    + destruct P2 as [A1 A2 A3 A4]. constructor; auto. intros v Hv. destruct (A4 v Hv) as (t & T1 & T2 & T3). exists t. split; auto. split; auto. destruct T3 as [[[T3 T4] T5]|]; auto. left. split; auto. intros [->|K]; auto.
    + apply (redos_trans n n1); [apply (redo_redos n n1 d); auto; left; auto|]. apply (redos_more _ _ l); auto. intros v K. right; auto.
Qed.
Lemma partly_random_nodes : forall l S n n', partly S n -> loop_net impute_random_decision n l = (n', None) -> incl l (nodes (ngraph n)).
Proof.
  induction l as [|d l IH]; intros S n n' P H; [intros d []|]. cbn [loop_net] in H. destruct (impute_random_decision n d) as [n1 [e|]] eqn:E; [discriminate|].
  assert (Hn : In d (nodes (ngraph n))). { unfold impute_random_decision in E. destruct (lookup d (doms n)) as [dom|]; [|discriminate]. destruct (init_table (ngraph n) (doms n) (cards_of n) d (const_fn (discrete_uniform dom)) dom KStoch) as [t|e] eqn:E'; [|discriminate].
    unfold init_table in E'. destruct (mem d (nodes (ngraph n))) eqn:M; [apply mem_In; auto|]. exfalso. revert E'. unfold get_parents. rewrite M. discriminate. }
  destruct (partly_random S n d P Hn) as (n1' & X & P1 & R1 & G1). rewrite E in X. injection X as <-. intros v [<-|K]; auto. rewrite <- G1. apply (IH _ n1 n' P1); auto.
Qed.
(* ---- one call of impute_optimal_policy ---- *)
Lemma stage_many : forall o choose m a ds us n n' S, valid_order o -> consistent m -> agent_decisions m = [(a, ds)] -> agent_utilities m = [(a, us)] ->
  partly S n -> (forall v, S v -> In v ds) -> no_clash (ngraph n) -> incl us (nodes (ngraph n)) -> sufficient_recall (with_graph m (ngraph n)) None = Ok true ->
  impute_optimal_policy o choose (with_graph m (ngraph n)) n = (n', None) ->
  exists n1, built n1 /\ distribution n1 /\ redos n n1 ds /\ ngraph n1 = ngraph n /\ built n' /\ distribution n' /\ differ_in (fun v => In v ds) n1 n' /\ incl ds (nodes (ngraph n)) /\
    best_value n1 ds us (eu n' us).
Proof.
  intros o choose m0 a ds us n n' S O C0 Ea0 Eu0 P IS NC Iun Sr E. set (m := with_graph m0 (ngraph n)) in *. assert (Cm : consistent m) by exact C0. assert (Ea : agent_decisions m = [(a, ds)]) by exact Ea0. assert (Eu : agent_utilities m = [(a, us)]) by exact Eu0.
  destruct (solo m a ds us Cm Ea Eu) as (Nds & Nus & Iu & Id & Dm & UC & DC).
  unfold impute_optimal_policy, impute_random_policy in E. destruct (loop_net impute_random_decision n (decisions m)) as [n1 [e|]] eqn:E1; [discriminate|].
  assert (Idn := partly_random_nodes _ S n n1 P E1). destruct (partly_random_loop _ S n n1 P Idn E1) as (P1 & R1 & G1). assert (Ids : incl ds (nodes (ngraph n))) by (intros d K; apply Idn, Dm; auto).
  assert (B1 := pa_built _ _ P1). assert (Hd1 : distribution n1). { apply (partly_dist _ n1 P1). intros v _ [K K']. apply K', Dm. auto. }
  assert (R1' : redos n n1 ds) by (apply (redos_more _ _ (decisions m)); auto; intros v K; apply Dm; auto).
  assert (V : valid m). { split; [apply P|]. split; [auto|]. intros b v [K|K]; cbn [has_role] in K; rewrite ?Ea, ?Eu in K; destruct K as (l & [K|[]] & Hl); injection K as <- <-; [apply Ids|apply Iun]; auto. }
  rewrite (with_graph_eq m (ngraph n1)) in E by (symmetry; exact G1). rewrite Sr in E.
  assert (Ev : get_valid_order o m (Some (decisions m)) = get_valid_order o m None).
  { unfold get_valid_order. replace (forallb (fun n0 => mem n0 (nodes (mgraph m))) (decisions m)) with true; auto. symmetry. apply forallb_forall. intros d K. apply mem_In. apply Idn. auto. }
  rewrite Ev in E. destruct (C15_default o m V O) as (l & El & Nl & Tl & Il). rewrite El in E.
  assert (Ild : forall d, In d (rev l) <-> In d ds). { intro d. rewrite <- in_rev, Il. split; [intros [b K]|intro K; exists a; apply Id; auto]. cbn [has_role] in K. rewrite Ea in K. destruct K as (k & [K|[]] & Hk). injection K as _ <-. auto. }
  assert (NC1 : no_clash (ngraph n1)) by (rewrite G1; auto). assert (Eg1 : mgraph m = ngraph n1) by (symmetry; exact G1). assert (NCm : no_clash (mgraph m)) by exact NC.
  destruct (solve_loop o m a us (rev l) n1 n' O V Eg1 NC1 (conj Nus Iu)) as (B2 & Hd2 & Df2 & (h & Hh) & Opt); auto.
  - intros d K. apply Id, Ild; auto.
  - apply NoDup_rev; auto.
  - intros l1 d l2 K d' Kd' R. assert (El2 : l = rev l2 ++ d :: rev l1). { rewrite <- (rev_involutive l), K, rev_app_distr. cbn [rev]. rewrite <- app_assoc. reflexivity. }
    assert (X0 := C19_solving_order m o a ds l V NCm UC O Ea Sr DC El (rev l2) d (rev l1) El2 d' ltac:(rewrite <- in_rev; auto)).
    assert (Rd : has_role m d (RDecision a)). { apply Id, Ild. rewrite K. apply in_or_app. right; left; auto. } assert (Rd' : has_role m d' (RDecision a)). { apply Id, Ild. rewrite K. apply in_or_app. right; right; auto. }
    destruct (C17_s_reachable m [d] d' V NCm UC) as [X _]; [intros x [<-|[]]; eauto|]. destruct X as (b & X1 & X2); [eauto|]. rewrite X0 in X1. injection X1 as <-. assert (false = true) by (apply X2; exists d; split; [left; auto|auto]). discriminate.
  - assert (Df : differ_in (fun v => In v ds) n1 n'). { destruct Df2 as (D1 & D2 & D3). split; auto. split; auto. intros v t K. apply D3. intro K'. apply K, Ild. auto. }
    exists n1. do 8 (split; auto).
    assert (Ids1 : incl ds (nodes (ngraph n1))) by (rewrite G1; auto). assert (Ius : incl us (nodes (ngraph n1))) by (rewrite G1; auto).
    set (H := fun d b => h d (ctx b (parents (ngraph n1) d))).
    assert (Ch : choice n1 ds H). { apply obeyed_choice; auto. intros d K. apply Ild in K. destruct (Hh d K) as [K1 _]. auto. }
    assert (Ke : forall d b, In d ds -> within n1 b -> kernel n' d b = pure H d b).
    { intros d b K Wb. apply Ild in K. destruct (Hh d K) as [_ K2]. assert (Gn : ngraph n' = ngraph n1) by apply Df. rewrite (K2 b); [unfold pure, H; rewrite Gn; reflexivity|]. intros v Hv. rewrite (same_dom_of n1 n' (proj1 (proj2 Df))). apply Wb. rewrite <- Gn. auto. }
    assert (Ev' : eu n' us = value n1 ds (pure H) us) by (apply follow_value; auto).
    split; [exists (pure H); split; auto; apply pure_policy; auto|]. intros b Po. destruct (follow_net_ok n1 ds b Hd1 Ids1 Po) as (F1 & F2 & F3). rewrite <- (follow_value n1 (follow_net n1 ds b) ds b us); auto. apply Opt; auto.
    destruct F2 as (D1 & D2 & D3). split; auto. split; auto. intros v t K. apply D3. intro K'. apply K, Ild. auto.
Qed.
(* ---- changing one link, and taking the rules away ---- *)
Lemma renew_has : forall n g d n', built n -> distribution n -> In d (nodes (ngraph n)) -> plain_decision n d -> wf_dag g -> nodes g = nodes (ngraph n) -> (forall u v, v <> d -> (edge g u v <-> edge (ngraph n) u v)) ->
  renew (on_graph n g) d = (n', None) -> cpd_of n' d <> None.
Proof.
  intros n g d n' B Hd Hn (r & L & K) Wg Ng Eg H. destruct (built_sound n B) as [S _]. assert (I := s_inv n S). assert (Ig : inv (on_graph n g)) by (apply on_graph_inv; auto; rewrite Ng; apply incl_refl).
  assert (R : redo n (on_graph n g) d) by (constructor; auto). assert (Gr := redo_ground _ _ _ Hd Hn R). destruct (dist_table n d Hd Hn) as (t & T & Tok).
  unfold renew in H. change (rels (on_graph n g)) with (rels n) in H. rewrite L in H. destruct (mem d (nodes (ngraph (on_graph n g)))); [|discriminate].
  change (cpd_of (on_graph n g) d) with (cpd_of n d) in H. destruct (is_constant (cpd_of n d)) eqn:Ic; [|injection H as <-; change (cpd_of n d <> None); congruence].
  destruct r as [f|e|l|t0]; try contradiction.
  - assert (El := choices_dom n d l B Hd Hn L). assert (Fo := flat_ok (on_graph n g) d KDec Gr).
    destruct (set_flat (on_graph n g) d (RDom l) (flat (on_graph n g) d KDec)) as (E & Re & Cp & G' & _); auto.
    + unfold to_tabular, table_from. rewrite <- El. change (dom_of (doms n) d) with (dom_of (doms (on_graph n g)) d). apply flat_table; auto; [apply begin_graph|apply begin_doms|]. intros p Np. apply begin_find; auto.
    + intros u Hu. apply (ok_ev _ _ _ Fo) in Hu. apply (proj1 Wg) in Hu. apply Hu.
    + rewrite E in H. injection H as <-. congruence.
  - assert (t0 = t) by (assert (X := settled_table n d t _ S T L); cbn in X; congruence). subst t0.
    destruct (set_flat (on_graph n g) d (RTab t) t) as (E & Re & Cp & G' & _); auto; try apply Tok.
    + intros u Hu. apply (ok_ev _ _ _ Tok) in Hu. change (In u (nodes g)). rewrite Ng. apply (proj1 (proj1 Hd)) in Hu. apply Hu.
    + rewrite E in H. injection H as <-. congruence.
Qed.
Lemma add_partly : forall n x d n', built n -> distribution n -> In d (nodes (ngraph n)) -> In x (nodes (ngraph n)) -> plain_decision n d -> add_edge n x d = (n', None) ->
  partly (eq d) n' /\ redo n n' d /\ forall p, edge (ngraph n') p d <-> edge (ngraph n) p d \/ p = x.
Proof.
  intros n x d n' B Hd Hn Hx P H. destruct (add_redo n x d n' B Hd Hn Hx P H) as (B' & R & E'). split; auto. apply (partly_redo n); auto. unfold add_edge in H. destruct (bn_add_edge (ngraph n) x d) as [g|e] eqn:E; [|discriminate].
  assert (W : wf_dag (ngraph n)) by apply Hd. destruct (bn_add_edge_ok _ _ _ _ W E) as [Wg ->]. apply (renew_has n _ d n' B Hd Hn P Wg) with (3 := H).
  - apply LRel.nodes_nx_add_edge_present; auto.
  - intros u v N. rewrite edge_nx_add_edge. split; [intros [K|[_ K]]; [auto|congruence]|auto].
Qed.
Lemma remove_partly : forall n x d n', built n -> distribution n -> In d (nodes (ngraph n)) -> plain_decision n d -> remove_edge n x d = (n', None) ->
  partly (eq d) n' /\ redo n n' d /\ forall p, edge (ngraph n') p d <-> edge (ngraph n) p d /\ p <> x.
Proof.
  intros n x d n' B Hd Hn P H. destruct (remove_redo n x d n' B Hd Hn P H) as (B' & R & E'). split; auto. apply (partly_redo n); auto. unfold remove_edge in H. destruct (nx_remove_edge (ngraph n) x d) as [g|e] eqn:E; [|discriminate].
  assert (W : wf_dag (ngraph n)) by apply Hd. assert (Eg := fun a b => edge_nx_remove_edge _ _ _ _ a b E).
  assert (Wg : wf_dag g). { split; [eapply wf_nx_remove_edge; eauto; apply W|]. eapply acyclic_sub; [|apply W]. intros a b K. apply Eg in K. tauto. }
  apply (renew_has n g d n' B Hd Hn P Wg) with (3 := H).
  - eapply nodes_nx_remove_edge; eauto.
  - intros u v N. rewrite Eg. split; [tauto|]. intro K. split; auto. intros [_ ->]. auto.
Qed.
Lemma unset_nodes : forall n d l n', set_rel n d (RDom l) = (n', None) -> In d (nodes (ngraph n)).
Proof.
  intros n d l n' H. unfold set_rel in H. rewrite set_item_S in H. cbv zeta in H. assert (G := begin_graph n d (RDom l)). destruct (mem d (nodes (ngraph n))) eqn:M; [apply mem_In; auto|]. exfalso. revert H.
  unfold to_tabular, table_from, init_table, get_parents. rewrite G, M. cbn [bind]. discriminate.
Qed.
Lemma unset_one : forall n d, built n -> distribution n -> In d (nodes (ngraph n)) -> exists n', set_rel n d (RDom (dom_of (doms n) d)) = (n', None) /\ built n' /\ distribution n' /\ redo n n' d /\ ngraph n' = ngraph n /\ plain_decision n' d /\
  forall u, u <> d -> lookup u (rels n') = lookup u (rels n).
Proof.
  intros n d B Hd Hn. assert (I := s_inv n (proj1 (built_sound n B))). assert (Gr : ground n d) by (apply (redo_ground n); auto; apply redo_refl; apply Hd). assert (Fo := flat_ok n d KDec Gr).
  destruct (set_flat n d (RDom (dom_of (doms n) d)) (flat n d KDec)) as (E & Re & C & G' & Rl); auto; try exact Logic.I; try apply Fo.
  - unfold to_tabular, table_from. apply flat_table; auto; [apply begin_graph|apply begin_doms|]. intros p Np. apply begin_find; auto.
  - intros u Hu. apply (ok_ev _ _ _ Fo) in Hu. apply (proj1 (g_wf _ _ Gr)) in Hu. apply Hu.
  - destruct (unset_redo n d B Hd Hn) as (n' & E' & B' & Hd' & R' & Gn & Pl). rewrite E in E'. injection E' as E'. exists n'. rewrite E, E'. do 6 (split; auto). intros u N. rewrite <- E', Rl. destruct (String.eqb_spec u d); congruence.
Qed.
Lemma unset_many : forall l n n', built n -> distribution n ->
  loop_net (fun n d => match lookup d (doms n) with None => (n, Some KeyError) | Some dom => set_rel n d (RDom dom) end) n l = (n', None) ->
  built n' /\ distribution n' /\ redos n n' l /\ ngraph n' = ngraph n /\ incl l (nodes (ngraph n)) /\ (forall d, In d l \/ plain_decision n d -> plain_decision n' d).
Proof.
  induction l as [|d l IH]; intros n n' B Hd H; cbn [loop_net] in H.
  - injection H as <-. split; auto. split; auto. split; [apply redos_refl|]. split; auto. split; [intros v []|]. intros d [[]|K]; auto.
  - destruct (lookup d (doms n)) as [dom|] eqn:L; [|discriminate]. destruct (set_rel n d (RDom dom)) as [n1 [e|]] eqn:E; [discriminate|]. assert (Hn := unset_nodes _ _ _ _ E).
    destruct (dist_lookup n d Hd Hn) as [L' _]. rewrite L in L'. injection L' as ->. destruct (unset_one n d B Hd Hn) as (n1' & X & B1 & Hd1 & R1 & G1 & Pl1 & Rl1). rewrite E in X. injection X as <-.
    destruct (IH n1 n' B1 Hd1 H) as (B2 & Hd2 & R2 & G2 & I2 & Pl2). split; auto. split; auto. split.
    + apply (redos_trans n n1); [apply (redo_redos n n1 d); auto; left; auto|]. apply (redos_more _ _ l); auto. intros v K. right; auto.
    + split; [congruence|]. split; [intros v [<-|K]; auto; rewrite <- G1; auto|]. intros e K. apply Pl2. destruct (String.string_dec e d) as [->|N]; [auto|]. destruct K as [[->|K]|K]; [congruence|auto|right]. destruct K as (r & K1 & K2). exists r. rewrite Rl1; auto.
Qed.
(* ---- copies and recall ---- *)
Lemma solo_copies : forall m m1 ds us, valid m -> agent_decisions m = [(zero, ds)] -> agent_utilities m = [(zero, us)] -> cid_copy_without_cpds m = Ok m1 ->
  consistent m1 /\ same_roles m m1 /\ exists ds1 us1, agent_decisions m1 = [(zero, ds1)] /\ agent_utilities m1 = [(zero, us1)] /\ Permutation ds ds1 /\ Permutation us us1.
Proof.
  intros m m1 ds us V Ea Eu E. assert (Pr : SpecI.proper MIncent.IsCID m) by (split; [rewrite Ea|rewrite Eu]; reflexivity). destruct (copy_spec _ m V Pr) as (c & E' & Vc & [K1 K2] & _ & SR). change (MIncent.copy MIncent.IsCID m) with (cid_copy_without_cpds m) in E'. rewrite E in E'. injection E' as <-.
  assert (Cc : consistent m1) by apply Vc. split; auto. split; auto.
  assert (X : forall (al : list (agent * list node)), keys al = [zero] -> exists l, al = [(zero, l)]). { intros [|[k l] [|p al]] K; try discriminate. injection K as <-. eauto. }
  destruct (X _ K1) as [ds1 D1], (X _ K2) as [us1 U1]. destruct (solo m1 zero ds1 us1 Cc D1 U1) as (N1 & N2 & I2 & I1 & _). destruct (solo m zero ds us (proj1 (proj2 V)) Ea Eu) as (M1 & M2 & J2 & J1 & _).
  exists ds1, us1. split; auto. split; auto. split; apply NoDup_Permutation; auto; intro v; [rewrite I1, J1; apply (SR v (RDecision zero))|rewrite I2, J2; apply (SR v (RUtility zero))].
Qed.
Lemma piece_of_same : forall g h, wf_dag g -> (forall v, In v (nodes h) <-> In v (nodes g)) -> (forall u v, edge h u v <-> edge g u v) -> piece g h.
Proof.
  intros g h W N E. constructor.
  - intros v K. apply N; auto.
  - intros u v K. apply W in K. rewrite !N. tauto.
  - intros u v. rewrite E, N. split; [|tauto]. intro K. split; auto. apply W in K. tauto.
Qed.
(* recall passes to copies, and to unions of components *)
Lemma recall_passes : forall m m1 g k ds ds1 us us1, same_roles m m1 -> consistent m -> consistent m1 -> agent_decisions m = [(zero, ds)] -> agent_utilities m = [(zero, us)] -> agent_decisions m1 = [(zero, ds1)] -> agent_utilities m1 = [(zero, us1)] ->
  wf_dag g -> wf_dag k -> no_clash g -> piece g k -> incl ds1 (nodes k) -> incl us1 (nodes k) -> recalls (with_graph m g) -> sufficient_recall (with_graph m1 k) None = Ok true.
Proof.
  intros m m1 g k ds ds1 us us1 SR C C1 Ea Eu Ea1 Eu1 Wg Wk NC P Id Iu Rc. destruct (solo m zero ds us C Ea Eu) as (Nds & Nus & Hu & Hd & _ & UC & DC). destruct (solo m1 zero ds1 us1 C1 Ea1 Eu1) as (Nds1 & Nus1 & Hu1 & Hd1 & _ & UC1 & DC1).
  assert (V1 : valid (with_graph m1 k)). { split; [exact Wk|]. split; [exact C1|]. intros a v [K|K]; cbn [has_role with_graph agent_decisions agent_utilities mgraph] in *; [rewrite Ea1 in K|rewrite Eu1 in K]; destruct K as (l & [K|[]] & Kl); injection K as <- <-; auto. }
  assert (NCk : no_clash (mgraph (with_graph m1 k))) by (apply (piece_clash _ _ P NC)).
  destruct (C18_sufficient_recall_partial (with_graph m1 k) V1 NCk UC1 DC1) as (_ & _ & c & Ec & Hc). rewrite Ec. f_equal. apply Hc. intros a l K (d & p & Hp). assert (K' : In (a, l) (agent_decisions m1)) by exact K. rewrite Ea1 in K'. destruct K' as [K'|[]]. injection K' as <- <-.
  apply (Rc zero ds). { change (In (zero, ds) (agent_decisions m)). rewrite Ea. left; auto. } exists d, p. eapply chain_impl; [|exact Hp].
  assert (Dd : forall v, In v ds1 -> In v ds) by (intros v Kv; apply Hd, (SR v (RDecision zero)), Hd1; auto).
  intros x y (N & Ix & Iy & Rxy). split; auto. split; auto. split; auto.
  apply r_relevant_char in Rxy; auto. destruct Rxy as (b & u & L1 & L2 & D & Cn). cbn [with_graph mgraph] in *.
  apply r_relevant_char; auto; [apply (pi_nodes _ _ P); auto|apply (pi_nodes _ _ P); auto|]. exists b, u. split; [exact (proj2 (SR _ (RDecision b)) L1)|]. split; [exact (proj2 (SR _ (RUtility b)) L2)|]. split; [eapply piece_descends; eauto|]. cbn [with_graph mgraph]. eapply (piece_pend _ _ P); [apply Wk| |apply (Id y Iy)|exact Cn]; auto.
  intro z. rewrite !in_family. rewrite (piece_edge _ _ P) by auto. tauto.
Qed.
Lemma policies_seeing : forall n n' ds (sees : node -> node -> Prop) b, (forall e p, In e ds -> (edge (ngraph n') p e <-> sees e p)) -> (forall e p, In e ds -> sees e p -> dom_of (doms n') p = dom_of (doms n) p) -> (forall e, In e ds -> dom_of (doms n') e = dom_of (doms n) e) ->
  (policy n' ds b <-> rules_seeing n ds sees b).
Proof.
  intros n n' ds sees b E D Dd. split.
  - intros P e K. apply (policy_seeing n n' e (sees e) b); auto; [intros p Kp; apply (D e); auto|]. intros d [<-|[]]. apply P; auto.
  - intros P e K. assert (X : policy n' [e] b) by (apply (policy_seeing n n' e (sees e) b); auto; intros p Kp; apply (D e); auto). apply X. left; auto.
Qed.
