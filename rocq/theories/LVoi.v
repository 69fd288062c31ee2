(* Changing what a decision observes. *)
From Coq Require Import String List Bool Arith QArith Qcanon Lia Permutation.
Import ListNotations.
From Verif Require LRel.
From Verif Require Import LIncent LCopy.
From Verif Require Import MBase MGraph MMacid MCpd MNet MProb MQuery MPolicy MVoi Spec SpecM SpecC SpecN SpecQ SpecPol SpecVoi LBase LGraph LQc LCpd LNet LSum LBayes LSep LQuery LDo LInter LFactor LEdit LBuilt LTotal LCheckN LCheck LEffects PMacid PQuery PCpd LRoles LReach LTrim LActive LMech LPolicy LValue LQcArith LSearch LLike LOptimal LOptDec LOptTotal LBest LSolve LIndep PPolicy POptDec PSolve.
Local Open Scope string_scope.
Local Open Scope list_scope.
Local Open Scope Qc_scope.

(* the same network but for the parents and the table of d *)
Record redo (n n' : net) (d : node) : Prop := {
  r_nodes : nodes (ngraph n') = nodes (ngraph n);
  r_wf : wf_dag (ngraph n');
  r_edges : forall u v, v <> d -> (edge (ngraph n') u v <-> edge (ngraph n) u v);
  r_doms : forall v, lookup v (doms n') = lookup v (doms n);
  r_cpds : forall v, v <> d -> cpd_of n' v = cpd_of n v }.
Lemma redo_refl : forall n d, wf_dag (ngraph n) -> redo n n d.
Proof. intros n d W. constructor; auto; tauto. Qed.
Lemma redo_trans : forall n n1 n2 d, redo n n1 d -> redo n1 n2 d -> redo n n2 d.
Proof.
  intros n n1 n2 d R S. constructor; try apply S.
  - rewrite (r_nodes _ _ _ S). apply R.
  - intros u v N. rewrite (r_edges _ _ _ S) by auto. apply R; auto.
  - intro v. rewrite (r_doms _ _ _ S). apply R.
  - intros v N. rewrite (r_cpds _ _ _ S) by auto. apply R; auto.
Qed.
Lemma redo_dom : forall n n' d v, redo n n' d -> dom_of (doms n') v = dom_of (doms n) v.
Proof. intros n n' d v R. unfold dom_of. rewrite (r_doms _ _ _ R). auto. Qed.
Lemma redo_dist : forall n n' d t, distribution n -> redo n n' d -> single_tables n' -> cpd_of n' d = Some t -> table_ok n' d t -> distribution n'.
Proof.
  intros n n' d t Hd R Sg Ct T. assert (Dm := fun v => redo_dom n n' d v R). split; [apply R|]. split; [auto|]. split.
  - intros v s Hs. apply single_cpd in Hs; auto. destruct (String.string_dec v d) as [->|N]; [rewrite Ct in Hs; injection Hs as <-; apply T|]. rewrite (r_cpds _ _ _ R) in Hs by auto. destruct Hd as (_ & S & E & _). apply (E v). apply single_cpd; auto.
  - intros v Hv. rewrite (r_nodes _ _ _ R) in Hv. destruct (String.string_dec v d) as [->|N].
    + exists t. split; [apply single_cpd; auto|]. destruct (dist_lookup n d Hd Hv) as [L _]. split; [unfold has_domain; rewrite (r_doms _ _ _ R), L, <- Dm; f_equal; apply T|]. split; apply T.
    + destruct Hd as (_ & S & _ & F). destruct (F v Hv) as (s & H1 & H2 & H3 & H4). exists s. split; [apply single_cpd; auto; rewrite (r_cpds _ _ _ R) by auto; apply single_cpd; auto|].
      split; [unfold has_domain; rewrite (r_doms _ _ _ R); auto|]. split; [intro p; rewrite (r_edges _ _ _ R) by auto; auto|]. rewrite H4. apply map_ext. intro p. rewrite Dm. auto.
Qed.
(* ---- tables for d ---- *)
Definition flat (n : net) (d : node) (k : kind) : tab := col_tab n d (fun _ _ => even (dom_of (doms n) d)) k.
Record ground (n : net) (d : node) : Prop := {
  g_wf : wf_dag (ngraph n);
  g_node : In d (nodes (ngraph n));
  g_dom : forall v, In v (nodes (ngraph n)) -> lookup v (doms n) = Some (dom_of (doms n) v) /\ dom_of (doms n) v <> [] /\ NoDup (dom_of (doms n) v);
  g_tabs : forall p, edge (ngraph n) p d -> exists t, cpd_of n p = Some t /\ dom_of (doms n) p = tdom t }.
Lemma redo_ground : forall n n' d, distribution n -> In d (nodes (ngraph n)) -> redo n n' d -> ground n' d.
Proof.
  intros n n' d Hd Hn R. assert (W := r_wf _ _ _ R). constructor; auto.
  - rewrite (r_nodes _ _ _ R). auto.
  - intros v Hv. rewrite (r_nodes _ _ _ R) in Hv. rewrite (redo_dom _ _ _ v R), (r_doms _ _ _ R). destruct (dist_lookup n v Hd Hv) as [L Ne]. split; auto. split; auto. apply dom_nodup; auto.
  - intros p E. assert (Np : p <> d) by (intros ->; apply (no_self_edge _ _ (proj2 W) E)). assert (Hp : In p (nodes (ngraph n))) by (rewrite <- (r_nodes _ _ _ R); apply W in E; tauto).
    destruct (dist_table n p Hd Hp) as (t & C & T). exists t. rewrite (r_cpds _ _ _ R) by auto. split; auto. rewrite (redo_dom _ _ _ p R). apply T.
Qed.
Lemma ground_ready : forall n d, ground n d -> ready (doms n) (parents (ngraph n) d) /\ tabled n (parents (ngraph n) d).
Proof.
  intros n d G. assert (T : tabled n (parents (ngraph n) d)).
  { intros p Hp. apply edge_parents in Hp. assert (Hn : In p (nodes (ngraph n))) by (apply (proj1 (g_wf _ _ G)) in Hp; tauto). split; auto. destruct (g_tabs _ _ G p Hp) as (t & C & Et). exists t. split; auto. rewrite <- Et. apply (g_dom _ _ G p Hn). }
  split; auto. apply tabled_ready; auto.
Qed.
Lemma flat_ok : forall n d k, ground n d -> table_ok n d (flat n d k).
Proof.
  intros n d k G. destruct (ground_ready n d G) as [R T]. destruct (g_dom _ _ G d (g_node _ _ G)) as (_ & Ne & Nd). constructor; auto.
  - unfold exact_table, flat, col_tab. cbn [tvar tdom tev tcards tcols]. split; [apply nodup_parents; apply G|]. split; [auto|]. split; [apply map_length|]. split.
    + rewrite map_length, contexts_len. symmetry. apply prod_cards.
    + intros col Hc. apply in_map_iff in Hc. destruct Hc as (pv & <- & Hp). split; [apply map_length|]. split; [|apply even_sum; auto].
      intros x Hx. apply in_map_iff in Hx. destruct Hx as (y & <- & Hy). apply Qclt_le_weak, even_pos; auto.
  - intro p. cbn [flat col_tab tev]. apply in_parents.
Qed.
Lemma flat_table : forall n n1 d k e, ground n d -> ngraph n1 = ngraph n -> doms n1 = doms n -> (forall p, p <> d -> cpd_of n1 p = cpd_of n p) -> e = discrete_uniform (dom_of (doms n) d) \/ e = [] ->
  init_table (ngraph n1) (doms n1) (cards_of n1) d (const_fn e) (dom_of (doms n) d) k = Ok (flat n d k).
Proof.
  intros n n1 d k e G Eg Ed Ec He. destruct (ground_ready n d G) as [R T]. destruct (g_dom _ _ G d (g_node _ _ G)) as (_ & Ne & N). set (dom := dom_of (doms n) d) in *. assert (Eq := uniform_eq dom N). change (1 / Qc_of_nat (length dom)) with (even dom) in Eq.
  assert (Fst : map fst (discrete_uniform dom) = dom) by (rewrite Eq, map_map; simpl; apply map_id).
  assert (D : is_dict (discrete_uniform dom)) by (unfold is_dict; rewrite Fst; auto).
  assert (Cm : map (complete dom e) dom = map (fun _ => even dom) dom).
  { apply map_ext_in. intros x Hx. destruct He as [->| ->]; [apply complete_given; auto; unfold gives; rewrite Eq; apply in_map_iff; eauto|].
    rewrite complete_open; [|intros p Hp; destruct Hp]. unfold even. replace (open dom []) with dom; [change (mass []) with 0; f_equal; ring|].
    unfold open. rewrite nodup_fixed_point by auto. symmetry. clear. induction dom as [|y l' IH]; simpl; auto. f_equal. exact IH. }
  rewrite Eg, Ed. rewrite (forced_table (ngraph n) (doms n) (cards_of n1) d (const_fn e) (fun _ => e) dom k); auto.
  - unfold flat, col_tab. fold dom. do 2 f_equal. apply map_ext. intros _. exact Cm.
  - apply G.
  - assert (T1 : tabled n1 (parents (ngraph n) d)).
    { intros p Hp. destruct (T p Hp) as [H1 (t & H2 & H3)]. rewrite Eg. split; auto. exists t. rewrite Ed, Ec; auto. intros ->. apply edge_parents in Hp. apply (no_self_edge _ _ (proj2 (g_wf _ _ G)) Hp). }
    unfold cards_of. rewrite (tabled_cards n1 _ T1), Ed. auto.
  - apply count_pos. intros p K. apply edge_parents in K. apply (proj1 (g_wf _ _ G)) in K. apply (g_dom _ _ G p); tauto.
  - intros pv _. split; [reflexivity|]. split; [destruct He as [->| ->]; [rewrite Fst; apply incl_refl|intros x []]|]. rewrite Cm. apply exact_column; [|apply even_sum; auto]. intros q Hq. apply in_map_iff in Hq. destruct Hq as (x & <- & _). apply Qclt_le_weak, even_pos; auto.
Qed.
(* adding a relationship for d that keeps its domain *)
Lemma set_flat : forall n d r t, inv n -> ground n d -> proper d r -> to_tabular (begin n d r) d r = Ok t -> tvar t = d -> dom_of (doms n) d = tdom t -> incl (tev t) (nodes (ngraph n)) ->
  set_rel n d r = (place (begin n d r) d t, None) /\ redo n (place (begin n d r) d t) d /\ cpd_of (place (begin n d r) d t) d = Some t /\ ngraph (place (begin n d r) d t) = ngraph n /\
  forall u, lookup u (rels (place (begin n d r) d t)) = if String.eqb u d then Some r else lookup u (rels n).
Proof.
  intros n d r t I G Pr Et Tv Td Te. set (n1 := begin n d r) in *. assert (G1 : ngraph n1 = ngraph n) by apply begin_graph. destruct (g_dom _ _ G d (g_node _ _ G)) as (Lv & Nev & _). assert (W := g_wf _ _ G). split; [|split; [|split; [|split]]].
  - unfold set_rel. rewrite set_item_S. cbv zeta. fold n1. rewrite Et. replace (in_scope (ngraph n1) t) with true.
    + cbn [negb]. replace (same_domain (lookup d (doms n1)) (tdom t)) with true; auto. symmetry. apply same_domain_iff. unfold n1. rewrite begin_doms. rewrite <- Td. auto.
    + symmetry. apply in_scope_iff. rewrite G1, Tv. split; [apply G|]. exact Te.
  - constructor; cbn [place ngraph]; rewrite ?G1; auto; try tauto.
    + intro v. rewrite place_dom. unfold n1. rewrite begin_doms. destruct (String.eqb_spec v d) as [->|]; auto. rewrite Lv, Td. auto.
    + intros v N. rewrite place_cpd by exact Tv. destruct (String.eqb_spec v d); [congruence|]. unfold n1. rewrite begin_cpd by auto. destruct (String.eqb_spec v d); [congruence|]. auto.
  - rewrite place_cpd by exact Tv. rewrite String.eqb_refl. auto.
  - exact G1.
  - intro u. cbn [place rels]. apply begin_rels.
Qed.
Lemma choices_dom : forall n d l, built n -> distribution n -> In d (nodes (ngraph n)) -> lookup d (rels n) = Some (RDom l) -> dom_of (doms n) d = l.
Proof.
  intros n d l B Hd Hn L. destruct (built_sound n B) as [S _]. destruct (dist_table n d Hd Hn) as (t & T & Ok0). assert (X := settled_table n d t _ S T L).
  assert (Dm := ok_dom _ _ _ Ok0). assert (Rf := ok_reflects _ _ _ _ _ Hn X). cbn [reflects] in Rf. destruct Rf as (_ & _ & _ & Ne & Fo & Fe & _ & _).
  rewrite Dm. apply Fo. intros ->. destruct (Fe eq_refl) as [_ I]. destruct (tdom t) as [|x td]; [congruence|]. destruct (proj1 (I x) (or_introl eq_refl)) as (pv & w & _ & C & Hx). rewrite const_call in C. injection C as <-. destruct Hx.
Qed.
Lemma plain_follows : forall n d, built n -> distribution n -> In d (nodes (ngraph n)) -> plain_decision n d -> follows_edits n d.
Proof.
  intros n d B Hd Hn (r & L & K). destruct (built_sound n B) as [S _]. destruct (dist_table n d Hd Hn) as (t & T & _). right. destruct r as [f|e|l|t0]; try contradiction; [right|left; eauto].
  exists t. split; [apply single_cpd; auto; apply Hd|]. right. apply (table_kind n d t _ S T L).
Qed.
Lemma renew_redo : forall n g d n', built n -> distribution n -> In d (nodes (ngraph n)) -> plain_decision n d -> wf_dag g -> nodes g = nodes (ngraph n) -> (forall u v, v <> d -> (edge g u v <-> edge (ngraph n) u v)) ->
  renew (on_graph n g) d = (n', None) -> redo n n' d /\ ngraph n' = g.
Proof.
  intros n g d n' B Hd Hn (r & L & K) Wg Ng Eg H. destruct (built_sound n B) as [S _]. assert (I := s_inv n S). assert (Ig : inv (on_graph n g)) by (apply on_graph_inv; auto; rewrite Ng; apply incl_refl).
  assert (R : redo n (on_graph n g) d) by (constructor; auto). assert (Gr := redo_ground _ _ _ Hd Hn R). destruct (dist_table n d Hd Hn) as (t & T & Tok).
  unfold renew in H. change (rels (on_graph n g)) with (rels n) in H. rewrite L in H. destruct (mem d (nodes (ngraph (on_graph n g)))); [|discriminate].
  change (cpd_of (on_graph n g) d) with (cpd_of n d) in H. destruct (is_constant (cpd_of n d)) eqn:Ic; [|injection H as <-; auto].
  destruct r as [f|e|l|t0]; try contradiction.
  - assert (El := choices_dom n d l B Hd Hn L). assert (Fo := flat_ok (on_graph n g) d KDec Gr).
    destruct (set_flat (on_graph n g) d (RDom l) (flat (on_graph n g) d KDec)) as (E & Re & _ & G' & _); auto.
    + unfold to_tabular, table_from. rewrite <- El. change (dom_of (doms n) d) with (dom_of (doms (on_graph n g)) d). apply flat_table; auto; [apply begin_graph|apply begin_doms|]. intros p Np. apply begin_find; auto.
    + intros u Hu. apply (ok_ev _ _ _ Fo) in Hu. apply (proj1 Wg) in Hu. apply Hu.
    + rewrite E in H. injection H as <-. split; [apply (redo_trans _ _ _ _ R Re)|exact G'].
  - assert (t0 = t) by (assert (X := settled_table n d t _ S T L); cbn in X; congruence). subst t0.
    destruct (set_flat (on_graph n g) d (RTab t) t) as (E & Re & _ & G' & _); auto; try apply Tok.
    + intros u Hu. apply (ok_ev _ _ _ Tok) in Hu. change (In u (nodes g)). rewrite Ng. apply (proj1 (proj1 Hd)) in Hu. apply Hu.
    + rewrite E in H. injection H as <-. split; [apply (redo_trans _ _ _ _ R Re)|exact G'].
Qed.
Lemma add_redo : forall n x d n', built n -> distribution n -> In d (nodes (ngraph n)) -> In x (nodes (ngraph n)) -> plain_decision n d -> add_edge n x d = (n', None) ->
  built n' /\ redo n n' d /\ forall p, edge (ngraph n') p d <-> edge (ngraph n) p d \/ p = x.
Proof.
  intros n x d n' B Hd Hn Hx P H. split; [apply (built_add_edge n x d); auto; apply plain_follows; auto|]. unfold add_edge in H. destruct (bn_add_edge (ngraph n) x d) as [g|e] eqn:E; [|discriminate].
  assert (W : wf_dag (ngraph n)) by apply Hd. destruct (bn_add_edge_ok _ _ _ _ W E) as [Wg ->]. destruct (renew_redo n _ d n' B Hd Hn P Wg) with (3 := H) as [R G'].
  - apply LRel.nodes_nx_add_edge_present; auto.
  - intros u v N. rewrite edge_nx_add_edge. split; [intros [K|[_ K]]; [auto|congruence]|auto].
  - split; auto. intro p. rewrite G', edge_nx_add_edge. tauto.
Qed.
Lemma remove_redo : forall n x d n', built n -> distribution n -> In d (nodes (ngraph n)) -> plain_decision n d -> remove_edge n x d = (n', None) ->
  built n' /\ redo n n' d /\ forall p, edge (ngraph n') p d <-> edge (ngraph n) p d /\ p <> x.
Proof.
  intros n x d n' B Hd Hn P H. split; [apply (built_remove_edge n x d); auto; apply plain_follows; auto|]. unfold remove_edge in H. destruct (nx_remove_edge (ngraph n) x d) as [g|e] eqn:E; [|discriminate].
  assert (W : wf_dag (ngraph n)) by apply Hd. assert (Eg := fun a b => edge_nx_remove_edge _ _ _ _ a b E).
  assert (Wg : wf_dag g). { split; [eapply wf_nx_remove_edge; eauto; apply W|]. eapply acyclic_sub; [|apply W]. intros a b K. apply Eg in K. tauto. }
  destruct (renew_redo n g d n' B Hd Hn P Wg) with (3 := H) as [R G'].
  - eapply nodes_nx_remove_edge; eauto.
  - intros u v N. rewrite Eg. split; [tauto|]. intro K. split; auto. intros [_ ->]. auto.
  - split; auto. intro p. rewrite G', Eg. split; intros [K N]; (split; [auto|]); [intros ->; apply N; auto|intros [-> _]; auto].
Qed.
(* a random rule for a decision whose table may be for other parents *)
Lemma random_redo : forall n0 n d, distribution n0 -> built n -> redo n0 n d -> In d (nodes (ngraph n)) -> exists n', impute_random_decision n d = (n', None) /\ built n' /\ distribution n' /\ redo n n' d /\ ngraph n' = ngraph n.
Proof.
  intros n0 n d Hd B R Hn. assert (I := s_inv n (proj1 (built_sound n B))). assert (Gr : ground n d) by (apply (redo_ground n0); auto; rewrite <- (r_nodes _ _ _ R); auto). assert (Fo := flat_ok n d KStoch Gr).
  unfold impute_random_decision. rewrite (proj1 (g_dom _ _ Gr d Hn)). rewrite (flat_table n n d KStoch) by auto.
  destruct (set_flat n d (RTab (flat n d KStoch)) (flat n d KStoch)) as (E & Re & C & G' & _); auto; try apply Fo.
  - intros u Hu. apply (ok_ev _ _ _ Fo) in Hu. apply (proj1 (g_wf _ _ Gr)) in Hu. apply Hu.
  - eexists. split; [exact E|].
    assert (B' : built (place (begin n d (RTab (flat n d KStoch))) d (flat n d KStoch))). { apply (built_step n (OAdd d (RTab (flat n d KStoch)))); auto. intros v' r' X. injection X as <- <-. split; [apply (ok_var _ _ _ Fo)|exact Logic.I]. }
    split; auto. split; [|auto]. apply (redo_dist n0 _ d (flat n d KStoch)); auto; [apply (redo_trans _ _ _ _ R Re)|apply nodup_tables; apply (proj1 (built_sound _ B'))|].
    apply (table_frame n); auto. intro v. apply (redo_dom _ _ _ v Re).
Qed.
(* taking the rule of the decision away *)
Lemma unset_redo : forall n d, built n -> distribution n -> In d (nodes (ngraph n)) -> exists n', set_rel n d (RDom (dom_of (doms n) d)) = (n', None) /\ built n' /\ distribution n' /\ redo n n' d /\ ngraph n' = ngraph n /\ plain_decision n' d.
Proof.
  intros n d B Hd Hn. assert (I := s_inv n (proj1 (built_sound n B))). assert (Gr : ground n d) by (apply (redo_ground n); auto; apply redo_refl; apply Hd). assert (Fo := flat_ok n d KDec Gr).
  destruct (set_flat n d (RDom (dom_of (doms n) d)) (flat n d KDec)) as (E & Re & C & G' & Rl); auto; try exact Logic.I; try apply Fo.
  - unfold to_tabular, table_from. apply flat_table; auto; [apply begin_graph|apply begin_doms|]. intros p Np. apply begin_find; auto.
  - intros u Hu. apply (ok_ev _ _ _ Fo) in Hu. apply (proj1 (g_wf _ _ Gr)) in Hu. apply Hu.
  - eexists. split; [exact E|].
    assert (B' : built (place (begin n d (RDom (dom_of (doms n) d))) d (flat n d KDec))). { apply (built_step n (OAdd d (RDom (dom_of (doms n) d)))); auto. intros v' r' X. injection X as <- <-. split; exact Logic.I. }
    split; auto. split; [|split; [auto|split; [auto|]]].
    + apply (redo_dist n _ d (flat n d KDec)); auto; [apply nodup_tables; apply (proj1 (built_sound _ B'))|]. apply (table_frame n); auto. intro v. apply (redo_dom _ _ _ v Re).
    + exists (RDom (dom_of (doms n) d)). split; [rewrite Rl, String.eqb_refl; auto|exact Logic.I].
Qed.
(* ---- values ---- *)
Lemma redo_value : forall n n' d b us, redo n n' d -> value n' [d] b us = value n [d] b us.
Proof.
  intros n n' d b us R. unfold value. rewrite (r_nodes _ _ _ R). rewrite (total_dom_perm (dom_of (doms n')) (dom_of (doms n))).
  2:{ intros v Hv. rewrite (redo_dom _ _ _ v R). apply Permutation_refl. }
  apply total_ext. intro a. f_equal. change (fold_right Qcmult 1) with qprod. apply qprod_ext. intros v Hv. unfold follow. destruct (in_dec String.string_dec v [d]) as [K|K]; auto.
  unfold kernel. rewrite (r_cpds _ _ _ R) by (intros ->; apply K; left; auto). destruct (cpd_of n v); auto. apply entry_doms_in; intros; apply (redo_dom _ _ _ _ R).
Qed.
Lemma single_dec : forall m a d us, consistent m -> agent_decisions m = [(a, [d])] -> agent_utilities m = [(a, us)] -> decisions m = [d].
Proof.
  intros m a d us Cm Ea Eu. destruct (solo m a [d] us Cm Ea Eu) as (Nds & Nus & Iu & Id & Dm & UC & DC). assert (ND : NoDup (decisions m)) by (destruct Cm as (_ & _ & N3 & _); exact N3). assert (I1 : In d (decisions m)) by (apply Dm; left; auto). destruct (decisions m) as [|x [|y l]]; [destruct I1| |].
  - destruct I1 as [->|[]]. auto.
  - exfalso. assert (X1 : In x [d]) by (apply Dm; left; auto). assert (X2 : In y [d]) by (apply Dm; right; left; auto). destruct X1 as [<-|[]], X2 as [<-|[]]. inversion ND. apply H1. left; auto.
Qed.
Lemma single_recall : forall m a d us, valid m -> no_clash (mgraph m) -> agent_decisions m = [(a, [d])] -> agent_utilities m = [(a, us)] -> sufficient_recall m None = Ok true.
Proof.
  intros m a d us V NCm Ea Eu. destruct (solo m a [d] us (proj1 (proj2 V)) Ea Eu) as (Nds & Nus & Iu & Id & Dm & UC & DC).
  destruct (C18_sufficient_recall_partial m V NCm UC DC) as (_ & _ & b & Eb & Rb). rewrite Eb. f_equal. apply Rb. intros a' ds K (x & p & Hc). rewrite Ea in K. destruct K as [K|[]]. injection K as <- <-.
  assert (X : forall y z, ~ (y <> z /\ In y [d] /\ In z [d] /\ r_relevant m y z)). { intros y z (N & [<-|[]] & [<-|[]] & _). congruence. }
  destruct p as [|z p]; cbn [app] in Hc; inversion Hc; subst; eapply X; eauto.
Qed.
Lemma single_order : forall o m d, valid_order o -> valid m -> decisions m = [d] -> In d (nodes (mgraph m)) -> get_valid_order o m (Some [d]) = Ok [d].
Proof.
  intros o m d O V Dl Hn. destruct (proj1 (C15_valid_order o m [d] (proj1 V) O)) as (l & El & Nl & Il & _). { intros x [<-|[]]. auto. }
  rewrite El. f_equal. destruct l as [|x [|y l]].
  - destruct (proj2 (Il d) (or_introl eq_refl)).
  - destruct (proj1 (Il x) (or_introl eq_refl)) as [<-|[]]. auto.
  - exfalso. destruct (proj1 (Il x) (or_introl eq_refl)) as [<-|[]], (proj1 (Il y) (or_intror (or_introl eq_refl))) as [<-|[]]. inversion Nl. apply H1. left; auto.
Qed.
(* impute_optimal_policy with one decision, whose table may be for other parents *)
Lemma stage : forall o choose m a d us n0 n n', valid_order o -> consistent m -> agent_decisions m = [(a, [d])] -> agent_utilities m = [(a, us)] ->
  distribution n0 -> built n -> redo n0 n d -> no_clash (ngraph n) -> In d (nodes (ngraph n)) -> incl us (nodes (ngraph n)) -> impute_optimal_policy o choose (with_graph m (ngraph n)) n = (n', None) ->
  exists n1, built n1 /\ distribution n1 /\ redo n n1 d /\ ngraph n1 = ngraph n /\ built n' /\ distribution n' /\ differ_in (eq d) n1 n' /\
    (exists u, In u us /\ descends (ngraph n) u d) /\ (exists H, choice n1 [d] H /\ eu n' us = value n1 [d] (pure H) us) /\
    forall b, policy n1 [d] b -> value n1 [d] b us <= eu n' us.
Proof.
  intros o choose m a d us n0 n n' O Cm Ea Eu Hd0 B R NC Hn Iun E. set (m1 := with_graph m (ngraph n)) in *. assert (Ea1 : agent_decisions m1 = [(a, [d])]) by exact Ea. assert (Eu1 : agent_utilities m1 = [(a, us)]) by exact Eu.
  assert (C1 : consistent m1) by exact Cm. destruct (solo m1 a [d] us C1 Ea1 Eu1) as (Nds & Nus & Iu & Id & Dm & UC & DC). assert (W : wf_dag (ngraph n)) by apply R.
  assert (V : valid m1). { split; [exact W|]. split; [exact C1|]. intros b v [K|K]; cbn [has_role] in K; rewrite ?Ea1, ?Eu1 in K; destruct K as (l & [K|[]] & Hl); injection K as <- <-; [destruct Hl as [<-|[]]; auto|apply Iun; auto]. }
  assert (Dl := single_dec m1 a d us C1 Ea1 Eu1). unfold impute_optimal_policy, impute_random_policy in E. rewrite Dl in E. cbn [loop_net] in E.
  destruct (random_redo n0 n d Hd0 B R Hn) as (n1 & E1 & B1 & Hd1 & R1 & G1). rewrite E1 in E. rewrite (with_graph_eq m1 (ngraph n1)) in E by (symmetry; exact G1).
  rewrite (single_recall m1 a d us V NC Ea1 Eu1) in E. rewrite Dl in E. rewrite (single_order o m1 d O V Dl Hn) in E. cbn [rev app] in E.
  assert (Eg1 : mgraph m1 = ngraph n1) by (symmetry; exact G1). assert (NC1 : no_clash (ngraph n1)) by (rewrite G1; auto).
  destruct (solve_loop o m1 a us [d] n1 n' O V Eg1 NC1 (conj Nus Iu)) as (B2 & Hd2 & Df2 & (h & Hh) & Opt); auto.
  - intros e K. apply Id. auto.
  - intros l1 e l2 K d' Kd'. destruct l1 as [|y l1]; cbn [app] in K; injection K as _ K; [subst l2; destruct Kd'|destruct l1; discriminate].
  - exists n1. split; auto. split; auto. split; auto. split; auto. split; auto. split; auto. assert (Df : differ_in (eq d) n1 n') by (destruct Df2 as (D1 & D2 & D3); split; [auto|split; [auto|intros v t K; apply D3; intros [<-|[]]; apply K; auto]]).
    split; auto. assert (Hn1 : In d (nodes (ngraph n1))) by (rewrite G1; auto). assert (Iu1 : incl us (nodes (ngraph n1))) by (rewrite G1; auto). split; [|split].
    + cbn [loop_net] in E. destruct (impute_optimal_decision o m1 n1 d) as [c1 [e|]] eqn:E2; [discriminate|]. destruct (C45_optimal_partial o m1 n1 d c1 O V B1 Hd1 E2) as (a' & ud & h' & t & Ra & Ne & (Nud & Iud) & _).
      destruct ud as [|u ud]; [congruence|]. exists u. destruct (proj1 (Iud u) (or_introl eq_refl)) as [K1 K2]. rewrite G1 in K2. split; auto. cbn [has_role] in K1. rewrite Eu1 in K1. destruct K1 as (l & [K1|[]] & Hl). injection K1 as _ <-. auto.
    + destruct (Hh d (or_introl eq_refl)) as [Ch Ob]. set (H := fun (e : node) b => h d (ctx b (parents (ngraph n1) d))). exists H. assert (Chh : choice n1 [d] H). { intros e [<-|[]]. apply (obeyed_choice n1 [d] (fun _ => h d) Hd1); [|left; auto]. intros e [<-|[]]. auto. }
      split; auto. apply follow_value; auto. intros e b [<-|[]] _ Wb. assert (Gn : ngraph n' = ngraph n1) by apply Df. rewrite (Ob b); [unfold pure, H; rewrite Gn; reflexivity|]. intros v Hv. rewrite (same_dom_of n1 n' (proj1 (proj2 Df))). apply Wb. rewrite <- Gn. auto.
    + intros b Po. assert (Ids : incl [d] (nodes (ngraph n1))) by (intros e [<-|[]]; auto). destruct (follow_net_ok n1 [d] b Hd1 Ids Po) as (F1 & F2 & F3). rewrite <- (follow_value n1 (follow_net n1 [d] b) [d] b us); auto.
Qed.
Lemma value_perm : forall n ds b us us', Permutation us us' -> value n ds b us = value n ds b us'.
Proof. intros n ds b us us' P. unfold value. apply total_ext. intro a. f_equal. change (fold_right Qcplus 0) with qsum. apply qsum_perm, Permutation_map. exact P. Qed.
Lemma eu_query : forall o m a us n n' q, valid_order o -> built n -> distribution n -> lookup a (agent_utilities m) = Some us -> NoDup us -> expected_utility o m n [] [] a = (n', Ok q) ->
  q = eu n us /\ variant n [] n' /\ incl us (nodes (ngraph n')) /\ forall v, In v (nodes (ngraph n)) -> near n us v -> In v (nodes (ngraph n')).
Proof.
  intros o m a us n n' q O B Hd L Nu He. assert (V := variant_self n [] B Hd).
  assert (Z : do_prob n [] [] <> 0). { rewrite do_prob_nil; [discriminate|auto|constructor|intros ? []|intros ? ? []]. }
  assert (Eu := C41_expected_utility o m n [] [] a us n' q O B Hd (NoDup_nil _) (NoDup_nil _) (fun v x (K : In (v, x) []) => match K with end) (fun v u t (K : In v (keys [])) _ _ => match K with end) Z L Nu He).
  unfold expected_utility, dict_get in He. rewrite L in He. unfold macid_expected_value in He. destruct (macid_query o m n us [] []) as [n3 [f|e]] eqn:Q; [|discriminate]. cbn [bind] in He.
  destruct (expectations f) as [l|e]; [|discriminate]. cbn [bind] in He. injection He as <- _. destruct (macid_query_inv _ _ _ _ _ _ _ _ Q) as (_ & _ & _ & Q').
  assert (B3 : built n3) by (eapply built_query; [exact B|exact Hd|exact Q']). rewrite query_nil in Q'. destruct (query_variant _ _ _ _ _ _ _ _ V Q' B3) as (V3 & Iu & Ne & Ck). auto.
Qed.
Lemma differ_redo : forall n n' d, distribution n -> distribution n' -> differ_in (eq d) n n' -> redo n n' d.
Proof.
  intros n n' d Hd Hd' (G & D & T). constructor; try (rewrite G; auto; tauto); try (intros; rewrite G; tauto); [apply Hd'| |].
  - intro v. destruct (lookup v (doms n)) as [l|] eqn:E; [apply D; auto|]. destruct (lookup v (doms n')) as [l|] eqn:E'; auto. apply (D v l) in E'. unfold has_domain in E'. congruence.
  - intros v N. assert (S : single_tables n) by apply Hd. assert (S' : single_tables n') by apply Hd'. assert (X : forall t, has_table n v t <-> has_table n' v t) by (intro t; apply T; congruence).
    destruct (cpd_of n v) as [t|] eqn:E; [apply single_cpd; auto; apply X, single_cpd; auto|]. destruct (cpd_of n' v) as [t|] eqn:E'; auto. apply single_cpd, X, single_cpd in E'; auto. congruence.
Qed.
Lemma variant_nil_value : forall n n' d b us, distribution n -> policy n [d] b -> variant n [] n' -> incl us (nodes (ngraph n')) -> value n' [d] b us = value n [d] b us.
Proof.
  intros n n' d b us Hd Po V Iu. assert (Hd' := v_dist _ _ _ V). rewrite (value_barren n [d] b us (nodes (ngraph n'))); auto.
  - rewrite value_weight. rewrite (total_dom_perm (dom_of (doms n')) (dom_of (doms n))) by (intros v _; rewrite (variant_dom _ _ _ v V); auto). apply total_ext. intro a. f_equal. unfold weight. apply qprod_ext. intros v Hv. unfold follow. destruct (in_dec String.string_dec v [d]); auto.
    unfold kernel. rewrite (v_tables _ _ _ V) by auto. destruct (cpd_of n v); auto. apply entry_doms_in; intros; apply (variant_dom _ _ _ _ V).
  - apply V.
  - apply Hd'.
  - intros u v E Hv. apply (v_closed _ _ _ V u v E). auto.
Qed.
Lemma policy_seeing : forall n n' d (sees : node -> Prop) b, (forall p, edge (ngraph n') p d <-> sees p) -> (forall p, sees p -> dom_of (doms n') p = dom_of (doms n) p) -> dom_of (doms n') d = dom_of (doms n) d -> (policy n' [d] b <-> rule_seeing n d sees b).
Proof.
  intros n n' d sees b E D Dd. split.
  - intro P. destruct (P d (or_introl eq_refl)) as (P1 & P2 & P3). split; [|split; auto].
    + intros a a' H1 H2. apply P1; auto. intros p K. apply H2, E; auto.
    + intros a H. rewrite <- Dd. apply P3. intros p K. apply E in K. rewrite D; auto.
  - intros (P1 & P2 & P3) e [<-|[]]. split; [|split; auto].
    + intros a a' H1 H2. apply P1; auto. intros p K. apply H2, E; auto.
    + intros a H. rewrite Dd. apply P3. intros p K. rewrite <- D by auto. apply H, E; auto.
Qed.
Lemma seeing_more : forall n d (sees sees' : node -> Prop) b, (forall p, sees p -> sees' p) -> rule_seeing n d sees b -> rule_seeing n d sees' b.
Proof. intros n d sees sees' b I (P1 & P2 & P3). split; [|split; auto]. intros a a' H1 H2. apply P1; auto. Qed.
Lemma best_unique : forall n d us sees v w, best_seeing n d us sees v -> best_seeing n d us sees w -> v = w.
Proof. intros n d us sees v w [(b & R & <-) U] [(b' & R' & <-) U']. apply Qcle_antisym; auto. Qed.
Lemma no_clash_incl : forall g g', incl (nodes g') (nodes g) -> no_clash g -> no_clash g'.
Proof. intros g g' I NC v Hv. destruct (NC v (I v Hv)) as [H1 H2]. split; auto. Qed.
Lemma solo_copy : forall m m1 d us, valid m -> agent_decisions m = [(zero, [d])] -> agent_utilities m = [(zero, us)] -> cid_copy_without_cpds m = Ok m1 ->
  consistent m1 /\ agent_decisions m1 = [(zero, [d])] /\ exists us1, agent_utilities m1 = [(zero, us1)] /\ Permutation us us1.
Proof.
  intros m m1 d us V Ea Eu E. assert (Pr : SpecI.proper MIncent.IsCID m) by (split; [rewrite Ea|rewrite Eu]; reflexivity). destruct (copy_spec _ m V Pr) as (c & E' & Vc & [K1 K2] & _ & SR). change (MIncent.copy MIncent.IsCID m) with (cid_copy_without_cpds m) in E'. rewrite E in E'. injection E' as <-.
  assert (Cc : consistent m1) by apply Vc. split; auto.
  assert (X : forall (al : list (agent * list node)), keys al = [zero] -> exists l, al = [(zero, l)]). { intros [|[k l] [|p al]] K; try discriminate. injection K as <-. eauto. }
  destruct (X _ K1) as [ds1 D1], (X _ K2) as [us1 U1]. destruct (solo m1 zero ds1 us1 Cc D1 U1) as (N1 & N2 & I2 & I1 & _). destruct (solo m zero [d] us (proj1 (proj2 V)) Ea Eu) as (_ & M2 & J2 & J1 & _). split.
  - rewrite D1. do 2 f_equal. assert (Y : forall v, In v ds1 <-> In v [d]) by (intro v; rewrite I1, J1; symmetry; apply (SR v (RDecision zero))). destruct ds1 as [|y [|z l]].
    + destruct (proj2 (Y d) (or_introl eq_refl)).
    + destruct (proj1 (Y y) (or_introl eq_refl)) as [<-|[]]. auto.
    + destruct (proj1 (Y y) (or_introl eq_refl)) as [<-|[]]. destruct (proj1 (Y z) (or_intror (or_introl eq_refl))) as [<-|[]]. inversion N1. exfalso. apply H1. left; auto.
  - exists us1. split; auto. apply NoDup_Permutation; auto. intro u. rewrite I2, J2. apply (SR u (RUtility zero)).
Qed.

(* ---- observations that do not matter ---- *)
Definition unseen (x : node) (pv : list (node * outcome)) : list (node * outcome) := filter (fun e => negb (String.eqb (fst e) x)) pv.
Lemma unseen_keys : forall x pv v, In v (keys (unseen x pv)) <-> In v (keys pv) /\ v <> x.
Proof.
  intros x pv v. unfold keys, unseen. rewrite !in_map_iff. split.
  - intros ([u z] & <- & H). apply filter_In in H. cbn [fst] in *. rewrite negb_true_iff, String.eqb_neq in H. destruct H. split; auto. exists (u, z); auto.
  - intros [([u z] & <- & H) N]. exists (u, z). split; auto. apply filter_In. cbn [fst] in *. rewrite negb_true_iff, String.eqb_neq. auto.
Qed.
Lemma unseen_perm : forall x z pv, NoDup (keys pv) -> In (x, z) pv -> Permutation pv ((x, z) :: unseen x pv).
Proof.
  intros x z pv. induction pv as [|[u y] pv IH]; intros N H; [destruct H|]. inversion N as [|? ? N1 N2]; subst. unfold unseen. cbn [filter fst]. destruct H as [H|H].
  - injection H as -> ->. rewrite String.eqb_refl. cbn [negb]. constructor. fold (unseen x pv). replace (unseen x pv) with pv; auto. unfold unseen. clear - N1. induction pv as [|[v w] pv IH]; auto. cbn [filter fst]. destruct (String.eqb_spec v x) as [->|E]; [exfalso; apply N1; left; auto|]. cbn [negb]. f_equal. apply IH. intro K. apply N1. right; auto.
  - destruct (String.eqb_spec u x) as [->|E]; [exfalso; apply N1; apply (in_map fst) in H; auto|]. cbn [negb]. fold (unseen x pv). eapply perm_trans; [constructor; apply IH; auto|]. constructor.
Qed.
Lemma unseen_nodup : forall x pv, NoDup (keys pv) -> NoDup (keys (unseen x pv)).
Proof.
  intros x pv N. induction pv as [|[v w] pv IH]; [constructor|]. inversion N as [|? ? N1 N2]; subst. unfold unseen. cbn [filter fst]. fold (unseen x pv). destruct (negb (String.eqb v x)); auto. cbn [keys map fst]. constructor; auto. intro K. apply (unseen_keys x pv v) in K. tauto.
Qed.
Lemma pay_unseen : forall n ud d x pv y, distribution n -> edge (ngraph n) x d -> In y (dom_of (doms n) d) -> context_of (doms n) (parents (ngraph n) d) pv -> (forall u, In u ud -> descends (ngraph n) u d) ->
  (forall u Z, In u ud -> (forall z, In z Z <-> (z = d \/ edge (ngraph n) z d) /\ z <> x) -> ~ dconn (ngraph n) Z x u) -> do_prob n [] pv <> 0 ->
  pay n ud d pv y = pay n ud d (unseen x pv) y.
Proof.
  intros n ud d x pv y Hd E Hy [Cp Cx] De Sep P1. assert (W : wf_dag (ngraph n)) by apply Hd. assert (Ek : keys pv = parents (ngraph n) d) by exact Cp. assert (Exd : In x (nodes (ngraph n)) /\ In d (nodes (ngraph n))) by (apply W; auto). destruct Exd as [Hxn Hn].
  assert (Npv : NoDup (keys pv)) by (rewrite Ek; apply nodup_parents; apply W). assert (Nxd : x <> d) by (intros ->; apply (no_self_edge _ _ (proj2 W) E)).
  assert (Hxk : In x (keys pv)) by (rewrite Ek; apply edge_parents; auto). apply in_map_iff in Hxk. destruct Hxk as ([x' z] & Ex & Hxz). cbn [fst] in Ex. subst x'.
  assert (Pm := unseen_perm x z pv Npv Hxz). set (c := unseen x pv) in *. assert (Kc : forall v, In v (keys c) <-> edge (ngraph n) v d /\ v <> x) by (intro v; unfold c; rewrite unseen_keys, Ek, edge_parents; tauto).
  destruct (dist_lookup n d Hd Hn) as [Ld _]. assert (Div : in_domains n [(d, y)]) by (intros v w [K|[]]; injection K as <- <-; exists (dom_of (doms n) d); split; auto). assert (Nid : NoDup (keys [(d, y)])) by (constructor; [intros []|constructor]). assert (Iid : incl (keys [(d, y)]) (nodes (ngraph n))) by (intros v [<-|[]]; auto).
  assert (Q1 : do_prob n [(d, y)] pv <> 0). { rewrite do_prob_parents; auto. intros v K. rewrite Ek in K. apply edge_parents; auto. }
  assert (Q2 : do_prob n [(d, y)] c <> 0).
  { intro K. assert (L := do_prob_more n [(d, y)] c (x, z) Hd Nid Iid Div). rewrite <- (do_prob_perm n _ _ _ Pm), K in L. assert (G := do_prob_nonneg n [(d, y)] pv Hd Nid Iid Div). apply Q1. apply Qcle_antisym; auto. }
  unfold pay. apply qsum_ext. intros u Hu. unfold expectation. apply qsum_ext. intros w Hw. f_equal.
  assert (Du := De u Hu). assert (Hun : In u (nodes (ngraph n))) by (eapply wf_reach; [apply W|apply descends_reach; eauto|auto]). destruct (dist_lookup n u Hd Hun) as [Lu _].
  assert (Nup : forall v, edge (ngraph n) v d -> v <> u). { intros v K ->. apply (proj2 W d). apply (descends_trans (ngraph n) d u d); [exists d; split; [auto|constructor]|apply descends_reach; auto]. }
  assert (Hc : forall v a, In (v, a) c -> In (v, a) pv) by (intros v a K; unfold c, unseen in K; apply filter_In in K; tauto).
  assert (I := do_indep n [(d, y)] x z [(u, w)] c Hd Hxn). cbn [app] in I.
  assert (X : do_prob n [(d, y)] ((x, z) :: (u, w) :: c) * do_prob n [(d, y)] c = do_prob n [(d, y)] ((x, z) :: c) * do_prob n [(d, y)] ((u, w) :: c)).
  { apply I; auto; clear I.
    - intros [K|[]]. apply Nxd. symmetry. exact K.
    - intro K. apply Kc in K. tauto.
    - intros q [<-|[]] K. refine (Sep u _ Hu _ K). intro v. rewrite in_app_iff, Kc. cbn [keys map fst In]. split; [intros [K'|[<-|[]]]; split; try tauto; congruence|]. intros [[->|K'] N]; auto.
    - unfold c. apply unseen_nodup; auto.
    - constructor; [intros []|constructor].
    - intros v K. apply Kc in K. destruct K as [K _]. apply W in K. tauto.
    - intros v [<-|[]]. auto.
    - intros v [<-|[]] K. apply Kc in K. destruct K as [K _]. apply (Nup _ K). auto.
    - intros v a K. apply Cx. auto.
    - intros v a [K|[]]. injection K as <- <-. exists (dom_of (doms n) u). split; auto.
    - destruct (Cx x z Hxz) as (l & Hl & Hz). unfold dom_of. rewrite Hl. auto. }
  assert (E1 : do_prob n [(d, y)] ((u, w) :: pv) = do_prob n [(d, y)] ((x, z) :: (u, w) :: c)). { apply do_prob_perm. eapply perm_trans; [constructor; exact Pm|]. constructor. }
  rewrite E1, (do_prob_perm n [(d, y)] pv _ Pm) in *. set (P1' := do_prob n [(d, y)] ((x, z) :: c)) in *. set (P2 := do_prob n [(d, y)] c) in *. set (P3 := do_prob n [(d, y)] ((x, z) :: (u, w) :: c)) in *. set (P4 := do_prob n [(d, y)] ((u, w) :: c)) in *.
  assert (X' : P3 = P1' * P4 / P2) by (rewrite <- X; field; auto). rewrite X'. change (P1' * P4 / P2 / P1' = P4 / P2). field. auto.
Qed.
(* an observation that is not requisite can be ignored *)
Lemma ignore_best : forall n d x us ud, distribution n -> edge (ngraph n) x d -> NoDup us -> incl us (nodes (ngraph n)) -> ~ In d us -> NoDup ud -> (forall u, In u ud <-> In u us /\ descends (ngraph n) u d) ->
  (forall u Z, In u ud -> (forall z, In z Z <-> (z = d \/ edge (ngraph n) z d) /\ z <> x) -> ~ dconn (ngraph n) Z x u) ->
  exists b, rule_seeing n d (fun p => edge (ngraph n) p d /\ p <> x) b /\ forall b', policy n [d] b' -> value n [d] b' us <= value n [d] b us.
Proof.
  intros n d x us ud Hd E Nu Iu Du Nud Iud Sep. assert (W : wf_dag (ngraph n)) by apply Hd. assert (Exd : In x (nodes (ngraph n)) /\ In d (nodes (ngraph n))) by (apply W; auto). destruct Exd as [Hxn Hn]. destruct (dist_lookup n d Hd Hn) as [Ld Ned].
  set (h := fun pv => top (fun y => pay n ud d (unseen x pv) y) (dom_of (doms n) d)). set (H := fun (e : node) (a : asg) => h (ctx a (parents (ngraph n) d))).
  assert (Hh : forall pv, In (h pv) (dom_of (doms n) d)) by (intro pv; apply top_spec; auto).
  assert (Hx : forall a a', (forall p, edge (ngraph n) p d /\ p <> x -> a p = a' p) -> H d a = H d a').
  { intros a a' K. unfold H, h. replace (unseen x (ctx a (parents (ngraph n) d))) with (unseen x (ctx a' (parents (ngraph n) d))); auto.
    assert (Y : forall l, incl l (parents (ngraph n) d) -> unseen x (ctx a' l) = unseen x (ctx a l)); [|apply Y, incl_refl].
    induction l as [|p l IH]; intro Il; [reflexivity|]. unfold unseen, ctx in *. cbn [map filter fst]. rewrite IH by (intros q Hq; apply Il; right; auto). destruct (String.eqb_spec p x) as [|Np]; cbn [negb]; auto. rewrite (K p); auto. split; auto. apply edge_parents, Il. left; auto. }
  assert (Ch : choice n [d] H). { intros e [<-|[]]. split; [intros a a' K; apply Hx; intros p [K1 _]; auto|intros a _; apply Hh]. }
  assert (Po : policy n [d] (pure H)) by (apply pure_policy; auto; intros e [<-|[]]; auto).
  exists (pure H). split.
  - destruct (Po d (or_introl eq_refl)) as (P1 & P2 & P3). split; [|split; auto].
    + intros a a' K1 K2. unfold pure. rewrite K1, (Hx a a' K2). auto.
    + intros a K. change (fold_right Qcplus 0) with qsum. rewrite (qsum_single _ Qc_eq_dec _ _ (H d a)); [|apply dom_nodup; auto|apply Hh|].
      * unfold pure. rewrite upd_same, (Hx (upd a d (H d a)) a); [destruct (Qc_eq_dec _ _); congruence|]. intros p [Kp _]. apply upd_other. intros ->. apply (no_self_edge _ _ (proj2 W) Kp).
      * intros y Hy Ne. unfold pure. rewrite upd_same, (Hx (upd a d y) a); [destruct (Qc_eq_dec _ _); congruence|]. intros p [Kp _]. apply upd_other. intros ->. apply (no_self_edge _ _ (proj2 W) Kp).
  - intros b' Po'. assert (Ids : incl [d] (nodes (ngraph n))) by (intros e [<-|[]]; auto). destruct (follow_net_ok n [d] b' Hd Ids Po') as (F1 & F2 & F3). destruct (follow_net_ok n [d] (pure H) Hd Ids Po) as (G1 & G2 & G3).
    rewrite <- (follow_value n (follow_net n [d] b') [d] b' us), <- (follow_value n (follow_net n [d] (pure H)) [d] (pure H) us) by auto.
    set (nb := follow_net n [d] b') in *. set (n' := follow_net n [d] (pure H)) in *. assert (Mono : forall v, In v [d] -> d = v) by (intros v [<-|[]]; auto).
    assert (T1 : twin (eq d) n nb) by (apply (twin_mono (fun v => In v [d])); auto; apply differ_twin; auto). assert (T2 : twin (eq d) n n') by (apply (twin_mono (fun v => In v [d])); auto; apply differ_twin; auto).
    assert (Gb := t_graph _ _ _ T1). assert (Gn := t_graph _ _ _ T2). assert (Db := t_dom _ _ _ T1). assert (Dn := t_dom _ _ _ T2). assert (Sdb : same_domains n nb) by apply F2.
    refine (best_response nb n' us d h F1 G1 _ _ _ _ _ _).
    + apply (twin_trans _ nb n n'); auto. apply twin_sym; auto.
    + rewrite Gb. auto.
    + rewrite Gb. auto.
    + intros pv _. rewrite Db. apply Hh.
    + intros a Wa. assert (Wn : within n a) by (intros v Hv; rewrite <- Dn; apply Wa; rewrite Gn; auto). rewrite (G3 d a (or_introl eq_refl) Wn), Gn. reflexivity.
    + intros pv y Cb Hy Pb. rewrite Gb in Cb. assert (Cn : context_of (doms n) (parents (ngraph n) d) pv) by (apply (context_frame nb n); [intros v s; symmetry; apply Sdb|auto]). rewrite Db in Hy.
      assert (Pn : do_prob n [] pv <> 0). { assert (Kp : forall v, In v (keys pv) -> edge (ngraph n) v d) by (intros v K; assert (Ek : keys pv = parents (ngraph n) d) by apply Cn; rewrite Ek in K; apply edge_parents; auto). rewrite <- (do_prob_parents n d y) by auto. rewrite <- (twin_do n nb d y pv T1). rewrite do_prob_parents; rewrite ?Gb, ?Db; auto. }
      rewrite !(twin_pay n nb us d pv _ T1). rewrite !(pay_more n us ud d pv) by auto. apply Qcplus_le_compat; [|apply Qcle_refl].
      rewrite !(pay_unseen n ud d x pv) by (auto; intros u K; apply Iud in K; tauto). unfold h. apply (top_spec (fun y => pay n ud d (unseen x pv) y)); auto.
Qed.
