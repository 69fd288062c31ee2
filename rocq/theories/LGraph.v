(* Lemmas about graphs: reachability, cycles, edits, topological sort. *)
From Coq Require Import String List Bool Arith Permutation Lia.
Import ListNotations.
From Verif Require Import MBase MGraph Spec LBase.

Lemma eqb_edge_eq : forall e f, eqb_edge e f = true <-> e = f.
Proof.
  intros [a b] [c d]. unfold eqb_edge; simpl. rewrite andb_true_iff, !String.eqb_eq.
  split; [intros [H1 H2]; subst; auto|intro H; inversion H; auto].
Qed.
Lemma has_edge_iff : forall g u v, has_edge g u v = true <-> edge g u v.
Proof. intros. unfold has_edge, edge. apply memA_In. apply eqb_edge_eq. Qed.
Lemma has_edge_false : forall g u v, has_edge g u v = false <-> ~ edge g u v.
Proof. intros. rewrite <- has_edge_iff. destruct (has_edge g u v); split; congruence. Qed.
Lemma has_edge_spec : forall g u v, reflect (edge g u v) (has_edge g u v).
Proof.
  intros. destruct (has_edge g u v) eqn:E; constructor; [apply has_edge_iff|apply has_edge_false]; auto.
Qed.
Lemma in_children : forall g u v, In v (children g u) <-> edge g u v.
Proof.
  intros. unfold children, edge. rewrite in_map_iff. split.
  - intros [[a b] [H1 H2]]. apply filter_In in H2. destruct H2 as [H2 H3]. simpl in *.
    apply String.eqb_eq in H3. subst; auto.
  - intro H. exists (u, v). split; auto. apply filter_In; split; auto. apply String.eqb_refl.
Qed.
Lemma in_parents : forall g u v, In u (parents g v) <-> edge g u v.
Proof.
  intros. unfold parents, edge. rewrite in_map_iff. split.
  - intros [[a b] [H1 H2]]. apply filter_In in H2. destruct H2 as [H2 H3]. simpl in *.
    apply String.eqb_eq in H3. subst; auto.
  - intro H. exists (u, v). split; auto. apply filter_In; split; auto. apply String.eqb_refl.
Qed.
Lemma mem_children : forall g u v, mem v (children g u) = has_edge g u v.
Proof.
  intros. destruct (mem_spec v (children g u)) as [H|H]; rewrite in_children in H; symmetry.
  - apply has_edge_iff; auto.
  - apply has_edge_false; auto.
Qed.
Lemma mem_parents : forall g u v, mem u (parents g v) = has_edge g u v.
Proof.
  intros. destruct (mem_spec u (parents g v)) as [H|H]; rewrite in_parents in H; symmetry.
  - apply has_edge_iff; auto.
  - apply has_edge_false; auto.
Qed.
Lemma NoDup_map_inj : forall (A B : Type) (f : A -> B) l,
  (forall x y, In x l -> In y l -> f x = f y -> x = y) -> NoDup l -> NoDup (map f l).
Proof.
  intros A B f l Hi Hn. induction Hn; simpl; constructor.
  - intro H1. apply in_map_iff in H1. destruct H1 as [y [E Hy]].
    assert (y = x) by (apply Hi; simpl; auto). subst; auto.
  - apply IHHn. intros; apply Hi; simpl; auto.
Qed.
Lemma NoDup_children : forall g u, NoDup (edges g) -> NoDup (children g u).
Proof.
  intros. unfold children. apply NoDup_map_inj; [|apply NoDup_filter; auto].
  intros [a b] [c d] H1 H2 E. apply filter_In in H1, H2. simpl in *.
  destruct H1 as [_ H1], H2 as [_ H2]. apply String.eqb_eq in H1, H2. subst; auto.
Qed.
Lemma NoDup_parents : forall g u, NoDup (edges g) -> NoDup (parents g u).
Proof.
  intros. unfold parents. apply NoDup_map_inj; [|apply NoDup_filter; auto].
  intros [a b] [c d] H1 H2 E. apply filter_In in H1, H2. simpl in *.
  destruct H1 as [_ H1], H2 as [_ H2]. apply String.eqb_eq in H1, H2. subst; auto.
Qed.

(* ---- reachability ---- *)
Lemma reach_trans : forall g u v w, reach g u v -> reach g v w -> reach g u w.
Proof. intros g u v w H. induction H; auto. intros. econstructor; eauto. Qed.
Lemma reach_snoc : forall g u v w, reach g u v -> edge g v w -> reach g u w.
Proof. intros. eapply reach_trans; eauto. econstructor; eauto. constructor. Qed.
Lemma reach_edge : forall g u v, edge g u v -> reach g u v.
Proof. intros. econstructor; eauto. constructor. Qed.
Lemma descends_reach : forall g u v, descends g v u -> reach g u v.
Proof. intros g u v [w [H1 H2]]. econstructor; eauto. Qed.
Lemma reach_descends : forall g u v, reach g u v -> u = v \/ descends g v u.
Proof. intros g u v H. destruct H; auto. right; exists v; auto. Qed.
Lemma descends_trans : forall g u v w, descends g u v -> reach g w v -> descends g u w.
Proof.
  intros g u v w [x [H1 H2]] H. destruct H.
  - exists x; auto.
  - exists v; split; auto. eapply reach_trans; eauto. econstructor; eauto.
Qed.
Lemma descends_reach_trans : forall g u v w, descends g v u -> reach g v w -> descends g w u.
Proof. intros g u v w [x [H1 H2]] H. exists x; split; auto. eapply reach_trans; eauto. Qed.
Lemma edge_descends : forall g u v, edge g u v -> descends g v u.
Proof. intros. exists v; split; auto. constructor. Qed.
(* the last step of a proper descent *)
Lemma descends_last : forall g u v, descends g v u -> exists w, reach g u w /\ edge g w v.
Proof.
  intros g u v [x [H1 H2]]. revert u H1. induction H2; intros u' H1.
  - exists u'; split; auto. constructor.
  - destruct (IHreach _ H) as [y [Hy1 Hy2]]. exists y; split; auto. econstructor; eauto.
Qed.

Lemma acyclic_edge_asym : forall g u v, acyclic g -> edge g u v -> ~ edge g v u.
Proof. intros g u v Ha H H'. apply (Ha u). exists v; split; auto. apply reach_edge; auto. Qed.
Lemma acyclic_edge_irrefl : forall g u, acyclic g -> ~ edge g u u.
Proof. intros g u Ha H. apply (Ha u). exists u; split; auto. constructor. Qed.
Lemma acyclic_reach_antisym : forall g u v, acyclic g -> reach g u v -> reach g v u -> u = v.
Proof.
  intros g u v Ha H1 H2. destruct (reach_descends _ _ _ H1); auto.
  exfalso. apply (Ha u). eapply descends_reach_trans; eauto.
Qed.
Lemma adjacent_sym : forall g u v, adjacent g u v -> adjacent g v u.
Proof. unfold adjacent; tauto. Qed.

Lemma reach_clos : forall g u v, reach g u v <-> clos (children g) u v.
Proof.
  intros; split; intro H.
  - induction H; [constructor|]. econstructor; eauto. apply in_children; auto.
  - induction H; [constructor|]. econstructor; eauto. apply in_children; auto.
Qed.
Lemma reach_clos_parents : forall g u v, reach g u v <-> clos (parents g) v u.
Proof.
  intros; split; intro H.
  - induction H; [constructor|]. eapply clos_snoc; eauto. apply in_parents; auto.
  - induction H; [constructor|]. eapply reach_snoc; eauto. apply in_parents; auto.
Qed.

Section WF.
  Variable g : graph.
  Hypothesis WF : wf_graph g.

  Lemma wf_nodes : NoDup (nodes g).
  Proof. apply WF. Qed.
  Lemma wf_edges : NoDup (edges g).
  Proof. apply WF. Qed.
  Lemma wf_edge_l : forall u v, edge g u v -> In u (nodes g).
  Proof. intros u v H. apply (proj2 (proj2 WF) u v H). Qed.
  Lemma wf_edge_r : forall u v, edge g u v -> In v (nodes g).
  Proof. intros u v H. apply (proj2 (proj2 WF) u v H). Qed.
  Lemma wf_reach : forall u v, reach g u v -> In u (nodes g) -> In v (nodes g).
  Proof. intros u v H. induction H; auto. intros. apply IHreach. eapply wf_edge_r; eauto. Qed.
  Lemma wf_reach_back : forall u v, reach g u v -> In v (nodes g) -> In u (nodes g).
  Proof. intros u v H. induction H; auto. intros. eapply wf_edge_l; eauto. Qed.

  Lemma reach_list_iff : forall us v, incl us (nodes g) ->
    (In v (reach_list g us) <-> exists u, In u us /\ reach g u v).
  Proof.
    intros us v Hu. unfold reach_list. rewrite closure_iff; auto.
    - split; intros [u [H1 H2]]; exists u; split; auto; apply reach_clos; auto.
    - intros; apply String.eqb_eq.
    - intros x y _ Hy. apply in_children in Hy. eapply wf_edge_r; eauto.
  Qed.
  Lemma ancestors_of_iff : forall zs v, incl zs (nodes g) ->
    (In v (ancestors_of g zs) <-> exists z, In z zs /\ reach g v z).
  Proof.
    intros us v Hu. unfold ancestors_of. rewrite closure_iff; auto.
    - split; intros [u [H1 H2]]; exists u; split; auto; apply reach_clos_parents; auto.
    - intros; apply String.eqb_eq.
    - intros x y _ Hy. apply in_parents in Hy. eapply wf_edge_l; eauto.
  Qed.
  Lemma has_path_iff : forall u v, In u (nodes g) -> (has_path g u v = true <-> reach g u v).
  Proof.
    intros u v Hu. unfold has_path. rewrite mem_In, reach_list_iff.
    - simpl. split; [intros [x [[H|[]] H2]]; subst; auto|eauto].
    - intros x [H|[]]; subst; auto.
  Qed.
  Lemma descendants_neq : forall u v, In u (nodes g) ->
    (In v (descendants g u) <-> reach g u v /\ u <> v).
  Proof.
    intros u v Hu. unfold descendants. rewrite filter_In, reach_list_iff.
    - rewrite negb_true_iff, String.eqb_neq. simpl.
      split; [intros [[x [[H|[]] H2]] H3]; subst; auto|intros [H1 H2]; eauto].
    - intros x [H|[]]; subst; auto.
  Qed.
  Lemma descendants_iff : forall u v, acyclic g -> In u (nodes g) ->
    (In v (descendants g u) <-> descends g v u).
  Proof.
    intros u v Ha Hu. rewrite descendants_neq by auto. split.
    - intros [H1 H2]. destruct (reach_descends _ _ _ H1); congruence.
    - intro H. split; [apply descends_reach; auto|]. intro; subst. apply (Ha v); auto.
  Qed.
  Lemma has_cycle_iff : has_cycle g = false <-> acyclic g.
  Proof.
    unfold has_cycle. split.
    - intros H u [w [H1 H2]].
      assert (existsb (fun e => has_path g (snd e) (fst e)) (edges g) = true); [|congruence].
      apply existsb_exists. exists (u, w). split; auto. apply has_path_iff; auto.
      eapply wf_edge_r; eauto.
    - intro H. apply not_true_is_false. intro H1. apply existsb_exists in H1.
      destruct H1 as [[u v] [H1 H2]]. simpl in H2. apply has_path_iff in H2.
      + apply (H u). exists v; auto.
      + eapply wf_edge_r; eauto.
  Qed.
  Lemma is_dag_iff : is_dag g = true <-> acyclic g.
  Proof. unfold is_dag. rewrite negb_true_iff. apply has_cycle_iff. Qed.
  Lemma acyclic_dec : acyclic g \/ ~ acyclic g.
  Proof. rewrite <- has_cycle_iff. destruct (has_cycle g); auto. right; congruence. Qed.
  Lemma reach_dec : forall u v, reach g u v \/ ~ reach g u v.
  Proof.
    intros. destruct (in_dec string_dec u (nodes g)) as [H|H].
    - rewrite <- has_path_iff by auto. destruct (has_path g u v); [left; auto|right; congruence].
    - destruct (string_dec u v); [subst; left; constructor|]. right. intro Hr.
      destruct Hr; [congruence|]. apply H. eapply wf_edge_l; eauto.
  Qed.
End WF.

(* ---- graph operations ---- *)
Lemma in_add_node : forall g n x, In x (nodes (add_node g n)) <-> In x (nodes g) \/ x = n.
Proof.
  intros. unfold add_node. destruct (mem_spec n (nodes g)); simpl.
  - split; auto. intros [H|H]; subst; auto.
  - rewrite in_app_iff. simpl. intuition congruence.
Qed.
Lemma edges_add_node : forall g n, edges (add_node g n) = edges g.
Proof. intros. unfold add_node. destruct (mem n (nodes g)); auto. Qed.
Lemma wf_add_node : forall g n, wf_graph g -> wf_graph (add_node g n).
Proof.
  intros g n (H1 & H2 & H3). repeat split.
  - unfold add_node. destruct (mem_spec n (nodes g)); simpl; auto. apply NoDup_snoc; auto.
  - rewrite edges_add_node; auto.
  - unfold edge in H. rewrite edges_add_node in H. apply in_add_node. left. apply (H3 _ _ H).
  - unfold edge in H. rewrite edges_add_node in H. apply in_add_node. left. apply (H3 _ _ H).
Qed.
Lemma edge_nx_add_edge : forall g u v a b,
  edge (nx_add_edge g u v) a b <-> edge g a b \/ (a = u /\ b = v).
Proof.
  intros. unfold nx_add_edge.
  set (g' := add_node (add_node g u) v).
  assert (E : edges g' = edges g) by (unfold g'; rewrite !edges_add_node; auto).
  destruct (has_edge_spec g' u v) as [H|H]; unfold edge in *; simpl; rewrite E in *.
  - split; auto. intros [Hx|[Hx Hy]]; subst; auto.
  - rewrite in_app_iff. simpl. split; intros [Hx|Hx]; auto.
    + destruct Hx as [Hx|[]]. inversion Hx; auto.
    + destruct Hx; subst; auto.
Qed.
Lemma nodes_nx_add_edge : forall g u v x,
  In x (nodes (nx_add_edge g u v)) <-> In x (nodes g) \/ x = u \/ x = v.
Proof.
  intros. unfold nx_add_edge.
  destruct (has_edge (add_node (add_node g u) v) u v); simpl; rewrite !in_add_node; tauto.
Qed.
Lemma wf_nx_add_edge : forall g u v, wf_graph g -> wf_graph (nx_add_edge g u v).
Proof.
  intros g u v H.
  assert (H' : wf_graph (add_node (add_node g u) v)) by (apply wf_add_node, wf_add_node; auto).
  unfold nx_add_edge. destruct (has_edge_spec (add_node (add_node g u) v) u v) as [He|He]; auto.
  destruct H' as (H1 & H2 & H3). repeat split; simpl; auto.
  - apply NoDup_snoc; auto.
  - unfold edge in H0. simpl in H0. apply in_app_or in H0. destruct H0 as [H0|[H0|[]]].
    + apply (H3 _ _ H0).
    + inversion H0; subst. rewrite !in_add_node; auto.
  - unfold edge in H0. simpl in H0. apply in_app_or in H0. destruct H0 as [H0|[H0|[]]].
    + apply (H3 _ _ H0).
    + inversion H0; subst. rewrite !in_add_node; auto.
Qed.
Lemma edge_nx_remove_edge : forall g g' u v a b, nx_remove_edge g u v = Ok g' ->
  (edge g' a b <-> edge g a b /\ ~ (a = u /\ b = v)).
Proof.
  intros g g' u v a b H. unfold nx_remove_edge in H.
  destruct (has_edge g u v); [|discriminate]. inversion H; subst. unfold edge; simpl.
  rewrite filter_In, negb_true_iff. split; intros [Hx Hy]; split; auto.
  - intros [E1 E2]; subst. assert (eqb_edge (u, v) (u, v) = true) by (apply eqb_edge_eq; auto). congruence.
  - apply not_true_is_false. intro E. apply eqb_edge_eq in E. inversion E; subst. apply Hy; auto.
Qed.
Lemma nodes_nx_remove_edge : forall g g' u v, nx_remove_edge g u v = Ok g' -> nodes g' = nodes g.
Proof.
  intros g g' u v H. unfold nx_remove_edge in H.
  destruct (has_edge g u v); [|discriminate]. inversion H; subst; auto.
Qed.
Lemma wf_nx_remove_edge : forall g g' u v, wf_graph g -> nx_remove_edge g u v = Ok g' -> wf_graph g'.
Proof.
  intros g g' u v (H1 & H2 & H3) H. pose proof (nodes_nx_remove_edge _ _ _ _ H) as En.
  pose proof (fun a b => edge_nx_remove_edge _ _ _ _ a b H) as Ee.
  repeat split.
  - rewrite En; auto.
  - unfold nx_remove_edge in H. destruct (has_edge g u v); [|discriminate]. inversion H; subst; simpl.
    apply NoDup_filter; auto.
  - rewrite En. apply Ee in H0. apply (H3 _ _ (proj1 H0)).
  - rewrite En. apply Ee in H0. apply (H3 _ _ (proj1 H0)).
Qed.
Lemma edge_nx_remove_node : forall g g' n a b, nx_remove_node g n = Ok g' ->
  (edge g' a b <-> edge g a b /\ a <> n /\ b <> n).
Proof.
  intros g g' n a b H. unfold nx_remove_node in H.
  destruct (mem n (nodes g)); [|discriminate]. inversion H; subst. unfold edge; simpl.
  rewrite filter_In. simpl. rewrite andb_true_iff, !negb_true_iff, !String.eqb_neq.
  intuition congruence.
Qed.
Lemma nodes_nx_remove_node : forall g g' n x, nx_remove_node g n = Ok g' ->
  (In x (nodes g') <-> In x (nodes g) /\ x <> n).
Proof.
  intros g g' n x H. unfold nx_remove_node in H.
  destruct (mem n (nodes g)); [|discriminate]. inversion H; subst. simpl.
  rewrite filter_In, negb_true_iff, String.eqb_neq. intuition congruence.
Qed.
Lemma wf_nx_remove_node : forall g g' n, wf_graph g -> nx_remove_node g n = Ok g' -> wf_graph g'.
Proof.
  intros g g' n (H1 & H2 & H3) H.
  pose proof (fun x => nodes_nx_remove_node _ _ _ x H) as En.
  pose proof (fun a b => edge_nx_remove_node _ _ _ a b H) as Ee.
  repeat split.
  - unfold nx_remove_node in H. destruct (mem n (nodes g)); [|discriminate]. inversion H; subst; simpl.
    apply NoDup_filter; auto.
  - unfold nx_remove_node in H. destruct (mem n (nodes g)); [|discriminate]. inversion H; subst; simpl.
    apply NoDup_filter; auto.
  - apply Ee in H0. apply En. split; [apply (H3 _ _ (proj1 H0))|tauto].
  - apply Ee in H0. apply En. split; [apply (H3 _ _ (proj1 H0))|tauto].
Qed.

Lemma reach_sub : forall g g' u v, (forall a b, edge g a b -> edge g' a b) -> reach g u v -> reach g' u v.
Proof. intros g g' u v H Hr. induction Hr; [constructor|]. econstructor; eauto. Qed.
Lemma descends_sub : forall g g' u v, (forall a b, edge g a b -> edge g' a b) -> descends g u v -> descends g' u v.
Proof. intros g g' u v H [w [H1 H2]]. exists w; split; auto. eapply reach_sub; eauto. Qed.
Lemma acyclic_sub : forall g g', (forall a b, edge g' a b -> edge g a b) -> acyclic g -> acyclic g'.
Proof. intros g g' H Ha u Hd. apply (Ha u). eapply descends_sub; eauto. Qed.

(* reaching in g + (u -> v) *)
Lemma reach_add_edge : forall g u v a b, reach (nx_add_edge g u v) a b ->
  reach g a b \/ (reach g a u /\ reach g v b).
Proof.
  intros g u v a b H. induction H.
  - left; constructor.
  - apply edge_nx_add_edge in H. destruct H as [H|[H1 H2]].
    + destruct IHreach as [Hr|[Hr1 Hr2]].
      * left; econstructor; eauto.
      * right; split; auto. econstructor; eauto.
    + subst. right. split; [constructor|]. destruct IHreach as [Hr|[Hr1 Hr2]]; auto.
Qed.
Lemma acyclic_add_edge : forall g u v, acyclic g -> ~ reach g v u -> acyclic (nx_add_edge g u v).
Proof.
  intros g u v Ha Hn x [w [H1 H2]]. apply edge_nx_add_edge in H1.
  apply reach_add_edge in H2. destruct H1 as [H1|[H1 H3]].
  - destruct H2 as [H2|[H2 H3]].
    + apply (Ha x). exists w; auto.
    + apply Hn. eapply reach_trans; eauto. econstructor; eauto.
  - subst. destruct H2 as [H2|[H2 H3]]; auto.
Qed.

Lemma wf_dag_empty : wf_dag empty_graph.
Proof.
  split.
  - repeat split; simpl; try constructor; try (intros; destruct H).
  - intros u [w [H _]]. destruct H.
Qed.

Lemma bn_add_edge_ok : forall g u v g', wf_dag g -> bn_add_edge g u v = Ok g' ->
  wf_dag g' /\ g' = nx_add_edge g u v.
Proof.
  intros g u v g' [Hw Ha] H. unfold bn_add_edge in H.
  destruct (String.eqb_spec u v); [discriminate|].
  destruct (mem u (nodes g) && mem v (nodes g) && has_path g v u) eqn:E; [discriminate|].
  inversion H; subst. split; auto. split; [apply wf_nx_add_edge; auto|].
  apply acyclic_add_edge; auto. intro Hr.
  destruct (reach_descends _ _ _ Hr) as [Hd|Hd]; [congruence|].
  assert (Hv : In v (nodes g)) by (destruct Hd as [w [Hw1 _]]; eapply wf_edge_l; eauto).
  assert (Hu : In u (nodes g)) by (eapply wf_reach; eauto).
  apply mem_In in Hv as Hv'. apply mem_In in Hu as Hu'.
  rewrite Hv', Hu' in E. simpl in E. apply has_path_iff in Hr; auto. congruence.
Qed.
Lemma bn_add_edge_err : forall g u v, wf_dag g ->
  ((exists e, bn_add_edge g u v = Err e) <-> ~ acyclic (nx_add_edge g u v)) /\
  (forall e, bn_add_edge g u v = Err e -> e = ValueError).
Proof.
  intros g u v Hd. split; [split|].
  - intros [e H]. intro Ha. unfold bn_add_edge in H.
    destruct (String.eqb_spec u v).
    + subst. apply (Ha v). exists v. split; [|constructor]. apply edge_nx_add_edge; auto.
    + destruct (mem u (nodes g) && mem v (nodes g) && has_path g v u) eqn:E; [|discriminate].
      apply andb_true_iff in E. destruct E as [E E3]. apply andb_true_iff in E. destruct E as [E1 E2].
      apply mem_In in E1, E2. apply has_path_iff in E3; auto; [|apply Hd].
      apply (Ha u). exists v. split; [apply edge_nx_add_edge; auto|].
      eapply reach_sub; [|exact E3]. intros; apply edge_nx_add_edge; auto.
  - intro H. destruct (bn_add_edge g u v) eqn:E; eauto.
    apply bn_add_edge_ok in E; auto. destruct E as [E1 E2]. subst. exfalso. apply H, E1.
  - intros e H. unfold bn_add_edge in H.
    destruct (String.eqb_spec u v); [inversion H; auto|].
    destruct (mem u (nodes g) && mem v (nodes g) && has_path g v u); inversion H; auto.
Qed.

Lemma apply_edit_wf : forall g e g', wf_dag g -> apply_edit g e = Ok g' -> wf_dag g'.
Proof.
  intros g e g' [Hw Ha] H. destruct e; simpl in H.
  - inversion H; subst. split; [apply wf_add_node; auto|].
    eapply acyclic_sub; [|exact Ha]. unfold edge; intros. rewrite edges_add_node in H0; auto.
  - apply bn_add_edge_ok in H; [apply H|split; auto].
  - split; [eapply wf_nx_remove_edge; eauto|].
    eapply acyclic_sub; [|exact Ha]. intros. eapply edge_nx_remove_edge in H0; eauto. tauto.
  - split; [eapply wf_nx_remove_node; eauto|].
    eapply acyclic_sub; [|exact Ha]. intros. eapply edge_nx_remove_node in H0; eauto. tauto.
Qed.
Lemma step_edit_wf : forall g e, wf_dag g -> wf_dag (step_edit g e).
Proof.
  intros g e H. unfold step_edit. destruct (apply_edit g e) eqn:E; auto. eapply apply_edit_wf; eauto.
Qed.
Lemma run_edits_wf : forall es g, wf_dag g -> wf_dag (run_edits g es).
Proof. induction es; simpl; auto using step_edit_wf. Qed.

Lemma fold_edges_wf : forall es g, wf_graph g ->
  wf_graph (fold_left (fun g e => nx_add_edge g (fst e) (snd e)) es g).
Proof. induction es; simpl; auto. intros. apply IHes, wf_nx_add_edge; auto. Qed.
Lemma load_edges_wf : forall es, wf_graph (load_edges es).
Proof. intros. apply fold_edges_wf, wf_dag_empty. Qed.
Lemma fold_edges_edge : forall es g a b,
  edge (fold_left (fun g e => nx_add_edge g (fst e) (snd e)) es g) a b <-> edge g a b \/ In (a, b) es.
Proof.
  induction es as [|[u v] es IH]; simpl; intros; [tauto|].
  rewrite IH, edge_nx_add_edge. split; intros.
  - destruct H as [[H|[H1 H2]]|H]; subst; auto.
  - destruct H as [H|[H|H]]; auto. inversion H; subst; auto.
Qed.
Lemma load_edges_edge : forall es a b, edge (load_edges es) a b <-> In (a, b) es.
Proof. intros. unfold load_edges. rewrite fold_edges_edge. unfold edge; simpl; tauto. Qed.
Lemma fold_edges_nodes : forall es g x,
  In x (nodes (fold_left (fun g e => nx_add_edge g (fst e) (snd e)) es g)) <->
  In x (nodes g) \/ exists e, In e es /\ (x = fst e \/ x = snd e).
Proof.
  induction es as [|[u v] es IH]; simpl; intros.
  - split; auto. intros [H|[e [[] _]]]; auto.
  - rewrite IH, nodes_nx_add_edge. split.
    + intros [[H|[H|H]]|[e [H1 H2]]]; subst; eauto 6.
    + intros [H|[e [[H|H] H2]]]; [auto|subst e; simpl in H2; tauto|right; exists e; auto].
Qed.
Lemma load_edges_nodes : forall es x,
  In x (nodes (load_edges es)) <-> exists e, In e es /\ (x = fst e \/ x = snd e).
Proof. intros. unfold load_edges. rewrite fold_edges_nodes. simpl. tauto. Qed.
Lemma new_graph_ok : forall es g, new_graph es = Ok g -> wf_dag g /\ g = load_edges es.
Proof.
  intros es g H. unfold new_graph in H. destruct (has_cycle (load_edges es)) eqn:E; [discriminate|].
  inversion H; subst. split; auto. split; [apply load_edges_wf|].
  apply has_cycle_iff; auto. apply load_edges_wf.
Qed.
Lemma new_graph_err : forall es e, new_graph es = Err e ->
  e = ValueError /\ ~ acyclic (load_edges es).
Proof.
  intros es e H. unfold new_graph in H. destruct (has_cycle (load_edges es)) eqn:E; [|discriminate].
  inversion H; subst. split; auto. intro Ha. apply has_cycle_iff in Ha; [congruence|apply load_edges_wf].
Qed.

(* edges_view has the same members as edges *)
Lemma in_edges_view : forall g u v, wf_graph g -> (In (u, v) (edges_view g) <-> edge g u v).
Proof.
  intros g u v H. unfold edges_view. rewrite in_flat_map. split.
  - intros [x [H1 H2]]. apply in_map_iff in H2. destruct H2 as [y [H2 H3]]. inversion H2; subst.
    apply in_children; auto.
  - intro He. exists u. split; [eapply wf_edge_l; eauto|]. apply in_map, in_children; auto.
Qed.

(* ---- induction along an acyclic graph ---- *)
(* a finite acyclic graph has a ready node in every non-empty set of nodes *)
Lemma acyclic_has_min : forall g l, wf_graph g -> acyclic g -> incl l (nodes g) -> l <> [] ->
  exists x, In x l /\ forall p, edge g p x -> ~ In p l.
Proof.
  intros g l Hw Ha Hincl Hl.
  (* the number of members of l that are ancestors decreases *)
  assert (Hgen : forall n x, In x l ->
    length (filter (fun y => has_path g y x && negb (String.eqb y x)) (nodup string_dec l)) <= n ->
    exists m, In m l /\ forall p, edge g p m -> ~ In p l).
  { induction n as [|n IH]; intros x Hx Hlen.
    - exists x. split; auto. intros p Hp Hpl.
      assert (Hin : In p (filter (fun y => has_path g y x && negb (String.eqb y x)) (nodup string_dec l))).
      { apply filter_In. split; [apply nodup_In; auto|]. apply andb_true_iff. split.
        - apply has_path_iff; auto; apply reach_edge; auto.
        - apply negb_true_iff, String.eqb_neq. intro; subst. eapply acyclic_edge_irrefl; eauto. }
      destruct (filter _ _); [destruct Hin|simpl in Hlen; lia].
    - destruct (List.existsb (fun p => mem p l) (parents g x)) eqn:E.
      + apply existsb_exists in E. destruct E as [p [Hp Hpl]]. apply mem_In in Hpl. apply in_parents in Hp.
        apply (IH p); auto.
        assert (Hin : In p (filter (fun y => has_path g y x && negb (String.eqb y x)) (nodup string_dec l))).
        { apply filter_In. split; [apply nodup_In; auto|]. apply andb_true_iff. split.
          - apply has_path_iff; auto; apply reach_edge; auto.
          - apply negb_true_iff, String.eqb_neq. intro; subst. eapply acyclic_edge_irrefl; eauto. }
        assert (Hsub : incl (p :: filter (fun y => has_path g y p && negb (String.eqb y p)) (nodup string_dec l))
                            (filter (fun y => has_path g y x && negb (String.eqb y x)) (nodup string_dec l))).
        { intros z [Hz|Hz]; [subst; auto|]. apply filter_In in Hz. destruct Hz as [Hz1 Hz2].
          apply filter_In. split; auto. apply andb_true_iff in Hz2. destruct Hz2 as [Hz2 Hz3].
          assert (Hzn : In z (nodes g)).
          { apply Hincl. apply nodup_In in Hz1; auto. }
          apply has_path_iff in Hz2; auto. apply andb_true_iff; split.
          - apply has_path_iff; auto. eapply reach_snoc; eauto.
          - apply negb_true_iff, String.eqb_neq. intro; subst z.
            apply (Ha x). eapply descends_trans; [|exact Hz2]. apply edge_descends; auto. }
        assert (Hnd : NoDup (p :: filter (fun y => has_path g y p && negb (String.eqb y p)) (nodup string_dec l))).
        { constructor; [|apply NoDup_filter, NoDup_nodup].
          intro Hc. apply filter_In in Hc. destruct Hc as [_ Hc]. rewrite String.eqb_refl in Hc.
          rewrite andb_false_r in Hc. discriminate. }
        pose proof (NoDup_incl_length Hnd Hsub). simpl in H. lia.
      + exists x. split; auto. intros p Hp Hpl.
        assert (existsb (fun p => mem p l) (parents g x) = true); [|congruence].
        apply existsb_exists. exists p. split; [apply in_parents; auto|apply mem_In; auto]. }
  destruct l as [|x l']; [congruence|].
  eapply Hgen; [left; reflexivity|apply le_n].
Qed.

(* ---- topological sort ---- *)
Lemma app_mid : forall (A : Type) (em q l1 l2 : list A) x, em ++ q = l1 ++ x :: l2 ->
  (exists l2', em = l1 ++ x :: l2') \/ (exists l1', l1 = em ++ l1' /\ In x q).
Proof.
  induction em as [|c em IHem]; simpl; intros q l1 l2 x Hq.
  - right. exists l1; split; auto. rewrite Hq. apply in_or_app; simpl; auto.
  - destruct l1 as [|d l1]; simpl in Hq; inversion Hq; subst.
    + left; exists em; auto.
    + destruct (IHem _ _ _ _ H1) as [[k H]|[k [H H2]]]; subst; [left|right]; exists k; auto.
Qed.
Section Topo.
  Variables (o : order) (g : graph).
  Hypothesis Ho : valid_order o.
  Hypothesis Hw : wf_graph g.
  Hypothesis Ha : acyclic g.

  Definition preds_before (l : list node) : Prop :=
    forall l1 x l2, l = l1 ++ x :: l2 -> forall p, edge g p x -> In p l1.

  Lemma topo_loop_spec : forall fuel emitted remaining,
    Permutation (emitted ++ remaining) (nodes g) ->
    length remaining <= fuel ->
    preds_before emitted ->
    exists l, topo_loop o g fuel emitted remaining = Some l /\
      Permutation l (nodes g) /\ preds_before l.
  Proof.
    induction fuel as [|fuel IH]; intros emitted remaining Hp Hf He.
    - destruct remaining; [|simpl in Hf; lia]. simpl. exists emitted.
      rewrite app_nil_r in Hp. auto.
    - destruct remaining as [|r0 rem0]; [simpl; exists emitted; rewrite app_nil_r in Hp; auto|].
      remember (r0 :: rem0) as remaining.
      assert (Hne : remaining <> []) by (subst; discriminate).
      set (tst := fun n => forallb (fun p => mem p emitted) (parents g n)).
      assert (Hstep : topo_loop o g (S fuel) emitted remaining =
        match filter tst remaining with
        | [] => None
        | _ => topo_loop o g fuel (emitted ++ o emitted (filter tst remaining)) (filter (fun n => negb (tst n)) remaining)
        end).
      { subst remaining. reflexivity. }
      rewrite Hstep. clear Hstep.
      assert (Hnd : NoDup (emitted ++ remaining)).
      { eapply Permutation_NoDup; [apply Permutation_sym; exact Hp|apply wf_nodes; auto]. }
      assert (Hri : incl remaining (nodes g)).
      { intros z Hz. eapply Permutation_in; [exact Hp|]. apply in_or_app; auto. }
      destruct (acyclic_has_min g remaining Hw Ha Hri Hne) as [m [Hm1 Hm2]].
      assert (Hready : In m (filter tst remaining)).
      { apply filter_In. split; auto. unfold tst. apply forallb_mem. intros p Hpp.
        apply in_parents in Hpp. specialize (Hm2 p Hpp).
        assert (In p (emitted ++ remaining)).
        { eapply Permutation_in; [apply Permutation_sym; exact Hp|]. eapply wf_edge_l; eauto. }
        apply in_app_or in H. tauto. }
      destruct (filter tst remaining) as [|rd rds] eqn:Er; [destruct Hready|].
      assert (Hperm : Permutation (o emitted (rd :: rds) ++ filter (fun n => negb (tst n)) remaining) remaining).
      { eapply perm_trans; [apply Permutation_app_tail, Ho|]. rewrite <- Er.
        clear. induction remaining as [|a l IHl]; simpl; auto.
        destruct (tst a); simpl; auto.
        eapply perm_trans; [apply Permutation_sym, Permutation_middle|]. auto. }
      apply IH.
      + rewrite <- app_assoc. eapply perm_trans; [|exact Hp]. apply Permutation_app_head; auto.
      + apply Permutation_length in Hperm. rewrite app_length in Hperm.
        rewrite (Permutation_length (Ho emitted (rd :: rds))) in Hperm. simpl in Hperm.
        unfold tst in *. lia.
      + intros l1 x l2 E p Hpx.
        (* x is either in emitted or in the ready batch *)
        assert (Hcase : (exists l2', emitted = l1 ++ x :: l2') \/
                        (exists l1', l1 = emitted ++ l1' /\ In x (o emitted (rd :: rds)))).
        { destruct (app_mid _ _ _ _ _ _ E) as [H|[l1' [H1 H2]]]; eauto. }
        destruct Hcase as [[l2' Hc]|[l1' [Hc Hx]]].
        * eapply He; eauto.
        * subst l1. apply in_or_app. left.
          apply (valid_order_in o emitted (rd :: rds) x Ho) in Hx. rewrite <- Er in Hx.
          apply filter_In in Hx. destruct Hx as [_ Hx]. unfold tst in Hx.
          apply forallb_mem in Hx. apply Hx, in_parents; auto.
  Qed.

  Lemma toposort_spec : exists l, toposort o g = Some l /\
      Permutation l (nodes g) /\ preds_before l.
  Proof.
    unfold toposort. apply topo_loop_spec; simpl; auto.
    intros l1 x l2 E. destruct l1; discriminate.
  Qed.

  Lemma preds_before_reach : forall l, NoDup l -> preds_before l ->
    forall l1 x l2, l = l1 ++ x :: l2 -> forall p, descends g x p -> In p l1.
  Proof.
    intros l Hn Hp l1 x l2 E p Hd.
    apply descends_last in Hd. destruct Hd as [w [H1 H2]].
    assert (Hind : forall n l1 x l2, length l1 <= n -> l = l1 ++ x :: l2 ->
      forall w p, edge g w x -> reach g p w -> In p l1).
    { induction n as [|n IH]; intros k1 y k2 Hlen Ek w' p' He Hr.
      - pose proof (Hp _ _ _ Ek _ He) as Hin. destruct k1; [destruct Hin|simpl in Hlen; lia].
      - pose proof (Hp _ _ _ Ek _ He) as Hin.
        destruct (reach_descends _ _ _ Hr) as [Hq|Hq]; [subst; auto|].
        apply descends_last in Hq. destruct Hq as [w2 [Hq1 Hq2]].
        apply in_split in Hin. destruct Hin as [a [b Hab]]. subst k1.
        assert (In p' a).
        { eapply (IH a w' (b ++ y :: k2)); eauto.
          - rewrite app_length in Hlen. simpl in Hlen. lia.
          - rewrite Ek, <- app_assoc. reflexivity. }
        apply in_or_app; auto. }
    eapply Hind; eauto.
  Qed.
  Lemma preds_before_topological : forall l, NoDup l -> preds_before l -> topological g l.
  Proof.
    intros l Hn Hp l1 x l2 y E Hy Hd.
    assert (In y l1) by (eapply preds_before_reach; eauto).
    rewrite E in Hn.
    apply in_split in H. destruct H as [a [b Hab]]. subst l1.
    rewrite <- app_assoc in Hn. simpl in Hn. apply NoDup_remove_2 in Hn.
    apply Hn. apply in_or_app. right. apply in_or_app. right. simpl. auto.
  Qed.
End Topo.

Lemma wf_dag_load : forall es, has_cycle (load_edges es) = false -> wf_dag (load_edges es).
Proof. intros es H. split; [apply load_edges_wf|]. apply has_cycle_iff; auto. apply load_edges_wf. Qed.
