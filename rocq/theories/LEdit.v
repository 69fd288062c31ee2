(* Lemmas about editing the edges of a network with relationships. *)
From Coq Require Import String List Bool Arith QArith Qcanon Lia Permutation Setoid.
Import ListNotations.
From Verif Require Import MBase MGraph MMacid MCpd MNet MProb MQuery Spec SpecM SpecC SpecN SpecQ LBase LGraph LCopy LQc LCpd LNet LSum LBayes LQuery LDo LInter LFactor.

Lemma table_of_parents : forall g g' ds v r, (In v (nodes g) <-> In v (nodes g')) -> parents g' v = parents g v -> table_of g' ds v r = table_of g ds v r.
Proof.
  intros g g' ds v r Hn Hp. assert (E : get_parents g' v = get_parents g v).
  { unfold get_parents. rewrite Hp. destruct (mem_spec v (nodes g')), (mem_spec v (nodes g)); auto; tauto. }
  unfold table_of, table_from. assert (I : forall f fo k, init_table g' ds (ideal ds) v f fo k = init_table g ds (ideal ds) v f fo k).
  { intros f fo k. unfold init_table, possible_values, parent_values. rewrite E. auto. }
  destruct r; auto.
Qed.
(* a relationship that is settled belongs to a node *)
Lemma settled_node : forall n v r, inv n -> settled n v r -> In v (nodes (ngraph n)).
Proof.
  intros n v r I Sv. destruct (in_dec String.string_dec v (nodes (ngraph n))) as [K|K]; auto. unfold settled in Sv. destruct (table_of (ngraph n) (doms n) v r) as [t|e] eqn:Et.
  - apply (inv_rel n I v t Sv).
  - unfold table_of, table_from, init_table, possible_values, parent_values, get_parents in Et. rewrite (proj2 (mem_nIn _ _) K) in Et. destruct r; cbn [bind] in Et; try discriminate; injection Et as <-; contradiction.
Qed.
Lemma on_graph_inv : forall n g, inv n -> incl (nodes (ngraph n)) (nodes g) -> inv (on_graph n g).
Proof.
  intros n g [i1 i2 i3 i4 i5] Hn. constructor; auto.
  - intros u t Hu. destruct (i3 u t Hu) as [X Y]. exact (conj X (Hn _ Y)).
  - intros u t Hu. specialize (i5 u t Hu). apply in_scope_iff in i5. destruct i5 as [X Y]. apply in_scope_iff. cbn [on_graph ngraph]. auto.
Qed.
Lemma settled_on_graph : forall n g w r, inv n -> incl (nodes (ngraph n)) (nodes g) -> parents g w = parents (ngraph n) w -> settled n w r -> settled (on_graph n g) w r.
Proof.
  intros n g w r I Hn Hp Sw. assert (Kw := settled_node n w r I Sw). unfold settled in *. cbn [on_graph ngraph doms].
  rewrite (table_of_parents (ngraph n) g); auto. split; auto.
Qed.
Lemma renew_sound : forall n g v n', sound n -> wf_dag g -> incl (nodes (ngraph n)) (nodes g) -> (forall w, w <> v -> parents g w = parents (ngraph n) w) ->
  follows_edits n v -> renew (on_graph n g) v = (n', None) -> sound n' /\ ngraph n' = g /\ same_rels n' n.
Proof.
  intros n g v n' S Wg Hn Hp F H. assert (I := s_inv n S). assert (Ig := on_graph_inv n g I Hn).
  assert (So : forall w r, w <> v -> lookup w (rels n) = Some r -> settled (on_graph n g) w r).
  { intros w r Hw Hr. apply settled_on_graph; auto. apply (s_settled n S w r Hr). }
  unfold renew in H. cbn [on_graph rels ngraph] in H. destruct (lookup v (rels n)) as [r|] eqn:L.
  - destruct (mem v (nodes g)); [|discriminate]. change (cpd_of (on_graph n g) v) with (cpd_of n v) in H.
    destruct (is_constant (cpd_of n v)) eqn:Ic.
    + unfold set_rel in H. destruct (set_item_keeps _ (on_graph n g) v r n' Wg Ig (inv_proper n I v r L) H) as (K1 & K2 & K3 & K4 & K5 & K6).
      assert (R : same_rels n' n). { intro w. rewrite K3. destruct (String.eqb_spec w v) as [->|]; auto. }
      split; [|auto]. constructor; auto.
      * rewrite K2. auto.
      * intros w rw Hw. rewrite R in Hw. destruct (String.eqb_spec w v) as [->|E]; [rewrite L in Hw; injection Hw as <-; auto|]. apply K5; auto.
      * assert (X := set_item_keys (Datatypes.S (length (nodes (ngraph (on_graph n g))))) (on_graph n g) v r (s_keys n S)). cbn [on_graph ngraph] in *. rewrite H in X. exact X.
    + injection H as <-. assert (exists t, r = RTab t) as [t ->].
      { destruct F as [F|[[t F]|[t [F K]]]]; [congruence|exists t; congruence|]. exfalso. apply (has_table_iff n v t I) in F. rewrite F in Ic. cbn [is_constant] in Ic. destruct K as [K|K]; rewrite K in Ic; discriminate. }
      split; [|split; [auto|intro; auto]]. constructor; auto; [|exact (s_keys n S)]. intros w rw Hw. change (lookup w (rels n) = Some rw) in Hw. destruct (String.eqb_spec w v) as [->|E]; [|apply So; auto].
      rewrite L in Hw. injection Hw as <-. assert (X := s_settled n S v _ L). exact X.
  - injection H as <-. split; [|split; [auto|intro; auto]]. constructor; auto; [|exact (s_keys n S)]. intros w rw Hw. change (lookup w (rels n) = Some rw) in Hw. apply So; auto. congruence.
Qed.
Lemma parents_added : forall g u v w, w <> v -> parents (nx_add_edge g u v) w = parents g w.
Proof.
  intros g u v w Hw. unfold nx_add_edge. assert (E : forall x h, edges (add_node h x) = edges h) by (intros x h; unfold add_node; destruct (mem x (nodes h)); auto).
  unfold parents. destruct (has_edge (add_node (add_node g u) v) u v); cbn [edges]; rewrite !E; auto. rewrite filter_app, map_app. cbn [filter snd]. destruct (String.eqb_spec v w); [congruence|]. cbn [map]. apply app_nil_r.
Qed.
Lemma remove_edge_sound : forall n u v n', sound n -> follows_edits n v -> remove_edge n u v = (n', None) -> sound n' /\ same_rels n' n /\
  nodes (ngraph n') = nodes (ngraph n) /\ edge (ngraph n) u v /\ (forall a b, edge (ngraph n') a b <-> edge (ngraph n) a b /\ ~ (a = u /\ b = v)).
Proof.
  intros n u v n' S F H. unfold remove_edge in H. destruct (nx_remove_edge (ngraph n) u v) as [g|e] eqn:E; [|discriminate]. assert (W := s_dag n S). assert (Eg := fun a b => edge_nx_remove_edge _ _ _ _ a b E).
  assert (Wg : wf_dag g). { split; [eapply wf_nx_remove_edge; eauto; apply W|]. eapply acyclic_sub; [|apply W]. intros a b K. apply Eg in K. tauto. }
  assert (Nn : nodes g = nodes (ngraph n)) by (eapply nodes_nx_remove_edge; eauto).
  destruct (renew_sound n g v n' S Wg) as (S' & G' & R'); auto; [rewrite Nn; apply incl_refl|intros w Hw; eapply parents_removed; eauto|].
  split; auto. split; auto. rewrite G'. split; auto. split; auto. unfold nx_remove_edge in E. destruct (has_edge (ngraph n) u v) eqn:He; [|discriminate]. apply has_edge_iff in He. exact He.
Qed.
Lemma add_edge_sound : forall n u v n', sound n -> follows_edits n v -> add_edge n u v = (n', None) -> sound n' /\ same_rels n' n /\
  (forall x, In x (nodes (ngraph n')) <-> In x (nodes (ngraph n)) \/ x = u \/ x = v) /\ (forall a b, edge (ngraph n') a b <-> edge (ngraph n) a b \/ a = u /\ b = v).
Proof.
  intros n u v n' S F H. unfold add_edge in H. destruct (bn_add_edge (ngraph n) u v) as [g|e] eqn:E; [|discriminate]. assert (W := s_dag n S).
  destruct (bn_add_edge_ok _ _ _ _ W E) as [Wg ->].
  destruct (renew_sound n (nx_add_edge (ngraph n) u v) v n' S Wg) as (S' & G' & R'); auto; [intros x Hx; apply nodes_nx_add_edge; auto|intros w Hw; apply parents_added; auto|].
  split; auto. split; auto. rewrite G'. split; [intro x; rewrite nodes_nx_add_edge; tauto|intros a b; rewrite edge_nx_add_edge; tauto].
Qed.
