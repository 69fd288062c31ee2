(* Structural copies: nodes, edges and roles. *)
From Coq Require Import String List Bool Arith Permutation Lia.
Import ListNotations.
From Verif Require Import MBase MGraph MMacid Spec SpecM LBase LGraph LDfs LRoles.

Lemma add_nodes_from_snoc : forall ns g, NoDup (nodes g ++ ns) ->
  add_nodes_from g ns = mkG (nodes g ++ ns) (edges g).
Proof.
  unfold add_nodes_from. induction ns as [|n ns IH]; intros g H; simpl.
  - rewrite app_nil_r. destruct g; auto.
  - assert (Hn : mem n (nodes g) = false).
    { apply mem_nIn. intro Hi. apply NoDup_app_inv in H. destruct H as (_ & _ & H). apply (H n Hi). simpl; auto. }
    unfold add_node at 2. rewrite Hn. rewrite IH; simpl; rewrite <- app_assoc; auto.
Qed.
Lemma add_node_present : forall g n, In n (nodes g) -> add_node g n = g.
Proof. intros g n H. unfold add_node. apply mem_In in H. rewrite H. auto. Qed.
Lemma nx_add_edge_new : forall g u v, In u (nodes g) -> In v (nodes g) -> ~ edge g u v ->
  nx_add_edge g u v = mkG (nodes g) (edges g ++ [(u, v)]).
Proof.
  intros g u v Hu Hv Hn. unfold nx_add_edge. rewrite (add_node_present g u) by auto.
  rewrite (add_node_present g v) by auto. apply has_edge_false in Hn. rewrite Hn. auto.
Qed.
Lemma add_edges_from_snoc : forall es g, wf_graph g -> NoDup (edges g ++ es) ->
  (forall u v, In (u, v) es -> In u (nodes g) /\ In v (nodes g)) ->
  acyclic (mkG (nodes g) (edges g ++ es)) ->
  add_edges_from g es = Ok (mkG (nodes g) (edges g ++ es)).
Proof.
  induction es as [|[u v] es IH]; intros g Hw Hd Hn Ha; simpl.
  - rewrite app_nil_r. destruct g; auto.
  - assert (Huv := Hn u v (or_introl eq_refl)). destruct Huv as [Hu Hv].
    assert (Ha0 : acyclic g).
    { eapply acyclic_sub; [|apply Ha]. intros a b H. unfold edge in *; simpl. apply in_or_app; auto. }
    unfold bn_add_edge. destruct (String.eqb_spec u v) as [E|E].
    { subst v. exfalso. apply (acyclic_edge_irrefl _ u Ha). unfold edge; simpl. apply in_or_app; simpl; auto. }
    destruct (has_path g v u) eqn:Ep.
    { exfalso. apply has_path_iff in Ep; auto. apply (Ha u). exists v. split.
      - unfold edge; simpl. apply in_or_app; simpl; auto.
      - eapply reach_sub; [|apply Ep]. intros a b H. unfold edge in *; simpl. apply in_or_app; auto. }
    rewrite andb_false_r. simpl.
    assert (Hne : ~ edge g u v).
    { intro Hx. apply NoDup_app_inv in Hd. destruct Hd as (_ & _ & Hd). apply (Hd (u, v) Hx). simpl; auto. }
    assert (W := wf_nx_add_edge g u v Hw).
    rewrite nx_add_edge_new in * by auto. rewrite IH; simpl; auto.
    + rewrite <- app_assoc. auto.
    + rewrite <- app_assoc. auto.
    + intros a b H. apply Hn. simpl; auto.
    + rewrite <- app_assoc. auto.
Qed.

Lemma NoDup_edges_view : forall g, wf_graph g -> NoDup (edges_view g).
Proof.
  intros g (H1 & H2 & H3). unfold edges_view. clear H3. revert H1.
  generalize (nodes g) as ns. induction ns as [|n ns IH]; intros H; simpl; [constructor|].
  inversion H; subst. apply NoDup_app_intro.
  - apply NoDup_map_inj; [intros; congruence|apply NoDup_children; auto].
  - apply IH; auto.
  - intros [a b] Hx Hy. apply in_map_iff in Hx. destruct Hx as [x [E _]]. inversion E; subst.
    apply in_flat_map in Hy. destruct Hy as [c [Hc Hy]]. apply in_map_iff in Hy. destruct Hy as [z [E2 _]].
    inversion E2; subst. contradiction.
Qed.
(* the graph part of a copy *)
Definition copied (g : graph) : graph := mkG (nodes g) (edges_view g).
Lemma edge_copied : forall g u v, wf_graph g -> (edge (copied g) u v <-> edge g u v).
Proof. intros. unfold edge, copied; simpl. apply in_edges_view; auto. Qed.
Lemma copied_wf : forall g, wf_dag g -> wf_dag (copied g).
Proof.
  intros g [W A]. split.
  - split; [apply W|]. split; [apply NoDup_edges_view; auto|]. intros u v H. apply (proj1 (edge_copied g u v W)) in H. destruct W as (_ & _ & W). apply (W _ _ H).
  - eapply acyclic_sub; [|apply A]. intros a b H. apply (proj1 (edge_copied g a b W)) in H. auto.
Qed.
Lemma copy_graph : forall g, wf_dag g ->
  add_edges_from (add_nodes_from empty_graph (nodes g)) (edges_view g) = Ok (copied g).
Proof.
  intros g [W A]. rewrite add_nodes_from_snoc by apply W. simpl.
  rewrite add_edges_from_snoc; simpl; auto.
  - split; [apply W|]. split; [constructor|]. intros u v [].
  - apply NoDup_edges_view; auto.
  - intros u v H. apply in_edges_view in H; auto. destruct W as (_ & _ & W). apply (W _ _ H).
  - apply (copied_wf g); split; auto.
Qed.

Lemma calls_labels : forall (f : node -> role_call) L, (forall n, call_node (f n) = n) -> (forall n, call_labels (f n) = L) ->
  forall ns m, good_roles m -> incl ns (nodes (mgraph m)) ->
  exists m', calls_or_fail m (map f ns) = Ok m' /\ good_roles m' /\ mgraph m' = mgraph m /\
    forall n, labels m' n = if mem n ns then L else labels m n.
Proof.
  intros f L Hf HL. induction ns as [|x ns IH]; intros m G Hi; simpl.
  - exists m. auto.
  - assert (S := apply_call_spec m (f x) G). rewrite Hf in S.
    assert (Hx : mem x (nodes (mgraph m)) = true) by (apply mem_In; apply Hi; simpl; auto). rewrite Hx in S.
    destruct S as [m1 (E1 & G1 & Eg & L1 & L2)]. rewrite E1.
    destruct (IH m1 G1) as [m' (E & G' & Eg' & L')].
    { rewrite Eg. intros y Hy. apply Hi. simpl; auto. }
    exists m'. split; [auto|]. split; [auto|]. split; [congruence|]. intro n. rewrite L'. unfold mem; simpl. fold (mem n ns).
    destruct (mem n ns); [rewrite orb_true_r; auto|]. rewrite orb_false_r.
    destruct (String.eqb_spec n x).
    + subst. rewrite L1. auto.
    + auto.
Qed.
(* the agent n belongs to *)
Definition owner (m : macid) (n : node) : option agent :=
  match lookup n (decision_agent m) with Some a => Some a | None => lookup n (utility_agent m) end.
Definition kept (m : macid) (ags : list agent) (n : node) : bool :=
  match owner m n with Some a => mem a ags | None => false end.
Lemma copy_roles_ok : forall src ags done new, good_roles src -> good_roles new ->
  (forall a n, listed (agent_decisions src) a n \/ listed (agent_utilities src) a n -> In n (nodes (mgraph new))) ->
  (forall n, labels new n = if kept src done n then labels src n else (None, None)) ->
  (forall a, In a ags -> In a (keys (agent_decisions src)) /\ In a (keys (agent_utilities src))) ->
  exists new', copy_roles src new ags = Ok new' /\ good_roles new' /\ mgraph new' = mgraph new /\
    forall n, labels new' n = if kept src (done ++ ags) n then labels src n else (None, None).
Proof.
  intros src ags. induction ags as [|a ags IH]; intros done new Gs Gn Hp HL Ha; simpl.
  - exists new. rewrite app_nil_r. auto.
  - destruct (Ha a (or_introl eq_refl)) as [H1 H2].
    apply in_keys_lookup in H1. destruct H1 as [ds Eds]. apply in_keys_lookup in H2. destruct H2 as [us Eus].
    rewrite Eds. simpl. assert (Gs' := Gs). destruct Gs' as (Sd & Su & Sx).
    assert (Hds : forall n, In n ds <-> lookup n (decision_agent src) = Some a).
    { intro n. rewrite <- (side_listed _ _ _ _ Sd), listed_lookup by apply Sd. rewrite Eds. split.
      - intro. eauto.
      - intros [l [E H]]. inversion E; subst; auto. }
    assert (Hus : forall n, In n us <-> lookup n (utility_agent src) = Some a).
    { intro n. rewrite <- (side_listed _ _ _ _ Su), listed_lookup by apply Su. rewrite Eus. split.
      - intro. eauto.
      - intros [l [E H]]. inversion E; subst; auto. }
    destruct (calls_labels (fun d => MakeDecision d a) (Some a, None)) with (ns := ds) (m := new)
      as [m1 (E1 & G1 & Eg1 & L1)]; auto.
    { intros n Hn. apply (Hp a). left. apply (side_listed _ _ _ _ Sd). apply Hds; auto. }
    rewrite E1. simpl. rewrite Eus. simpl.
    destruct (calls_labels (fun u => MakeUtility u a) (None, Some a)) with (ns := us) (m := m1)
      as [m2 (E2 & G2 & Eg2 & L2)]; auto.
    { intros n Hn. rewrite Eg1. apply (Hp a). right. apply (side_listed _ _ _ _ Su). apply Hus; auto. }
    rewrite E2. simpl.
    destruct (IH (done ++ [a]) m2) as [new' (E & G & Eg & L)]; auto.
    + rewrite Eg2, Eg1. auto.
    + intro n. rewrite L2, L1, HL. unfold kept, owner.
      destruct (mem_spec n us) as [Hn|Hn].
      { apply Hus in Hn. assert (N : lookup n (decision_agent src) = None).
        { destruct (lookup n (decision_agent src)) eqn:E; auto. exfalso. exact (no_label src n _ _ Gs E Hn). }
        unfold labels. rewrite N, Hn. assert (M : mem a (done ++ [a]) = true) by (apply mem_In; apply in_or_app; simpl; auto).
        rewrite M. auto. }
      destruct (mem_spec n ds) as [Hm|Hm].
      { apply Hds in Hm. assert (N : lookup n (utility_agent src) = None).
        { destruct (lookup n (utility_agent src)) eqn:E; auto. exfalso. exact (no_label src n _ _ Gs Hm E). }
        unfold labels. rewrite N, Hm. assert (M : mem a (done ++ [a]) = true) by (apply mem_In; apply in_or_app; simpl; auto).
        rewrite M. auto. }
      assert (X : forall b, b <> a -> mem b (done ++ [a]) = mem b done).
      { intros b Hb. apply mem_ext. rewrite in_app_iff. simpl. split; [intros [|[|[]]]; auto; congruence|auto]. }
      destruct (lookup n (decision_agent src)) as [b|] eqn:E.
      * rewrite X; auto. intro; subst b. apply Hm. apply Hds; auto.
      * destruct (lookup n (utility_agent src)) as [b|] eqn:E'; auto.
        rewrite X; auto. intro; subst b. apply Hn. apply Hus; auto.
    + intros b Hb. apply Ha. simpl; auto.
    + exists new'. split; [auto|]. split; [auto|]. split; [congruence|]. intro n. rewrite L, <- app_assoc. auto.
Qed.
Lemma copy_roles_err : forall src ags new, good_roles src -> good_roles new ->
  (forall a n, listed (agent_decisions src) a n \/ listed (agent_utilities src) a n -> In n (nodes (mgraph new))) ->
  incl ags (agents src) -> (exists a, In a ags /\ ~ In a (keys (agent_decisions src))) ->
  copy_roles src new ags = Err KeyError.
Proof.
  intros src ags. induction ags as [|a ags IH]; intros new Gs Gn Hp Hi [b [Hb Hnb]]; simpl; [destruct Hb|].
  destruct (lookup a (agent_decisions src)) as [ds|] eqn:Eds; simpl; auto.
  assert (Hus : In a (agents src)) by (apply Hi; simpl; auto). apply in_keys_lookup in Hus. destruct Hus as [us Eus].
  destruct (calls_labels (fun d => MakeDecision d a) (Some a, None)) with (ns := ds) (m := new)
      as [m1 (E1 & G1 & Eg1 & L1)]; auto.
  { intros n Hn. apply (Hp a). left. exists ds. split; auto. apply lookup_In; auto. }
  rewrite E1. simpl. rewrite Eus. simpl.
  destruct (calls_labels (fun u => MakeUtility u a) (None, Some a)) with (ns := us) (m := m1)
      as [m2 (E2 & G2 & Eg2 & L2)]; auto.
  { intros n Hn. rewrite Eg1. apply (Hp a). right. exists us. split; auto. apply lookup_In; auto. }
  rewrite E2. simpl. apply IH; auto.
  - rewrite Eg2, Eg1; auto.
  - intros x Hx. apply Hi. simpl; auto.
  - destruct Hb as [Hb|Hb]; eauto. subst b. exfalso. apply Hnb. apply in_keys_lookup; eauto.
Qed.
Lemma good_empty : good_roles empty_macid.
Proof. apply (good_roles_init empty_graph [] []). repeat constructor. Qed.
Lemma good_empty_cid : good_roles empty_cid.
Proof.
  apply (good_roles_init empty_graph [(zero, [])] [(zero, [])]).
  split; [|split]; simpl; repeat constructor; simpl; tauto.
Qed.
Lemma copy_onto_ok : forall base m, base = empty_macid \/ base = empty_cid ->
  wf_dag (mgraph m) -> good_roles m -> role_nodes_present m ->
  (forall a, In a (keys (agent_utilities m)) -> In a (keys (agent_decisions m))) ->
  exists c, copy_onto base m = Ok c /\ good_roles c /\ mgraph c = copied (mgraph m) /\
    forall n, labels c n = if kept m (agents m) n then labels m n else (None, None).
Proof.
  intros base m Hb W G P C. unfold copy_onto.
  assert (Eb : mgraph base = empty_graph) by (destruct Hb; subst; auto).
  assert (Gb : good_roles (with_graph base (copied (mgraph m)))).
  { destruct Hb; subst; [apply good_empty|apply good_empty_cid]. }
  rewrite Eb, copy_graph by auto. simpl.
  destruct (copy_roles_ok m (agents m) [] (with_graph base (copied (mgraph m)))) as [c (E & Gc & Eg & L)]; auto.
  - intros n. unfold kept. destruct (owner m n); simpl; unfold labels; destruct Hb; subst; reflexivity.
  - exists c. split; auto.
Qed.
Lemma copy_onto_err : forall base m, base = empty_macid \/ base = empty_cid ->
  wf_dag (mgraph m) -> good_roles m -> role_nodes_present m ->
  (exists a, In a (keys (agent_utilities m)) /\ ~ In a (keys (agent_decisions m))) ->
  copy_onto base m = Err KeyError.
Proof.
  intros base m Hb W G P C. unfold copy_onto.
  assert (Eb : mgraph base = empty_graph) by (destruct Hb; subst; auto).
  assert (Gb : good_roles (with_graph base (copied (mgraph m)))).
  { destruct Hb; subst; [apply good_empty|apply good_empty_cid]. }
  rewrite Eb, copy_graph by auto. simpl. apply copy_roles_err; auto. apply incl_refl.
Qed.
