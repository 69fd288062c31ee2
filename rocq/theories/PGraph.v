(* Properties C10, C11: graph edits and the constructor. *)
From Coq Require Import String List Bool Arith.
Import ListNotations.
From Verif Require Import MBase MGraph Spec LBase LGraph.
Local Open Scope string_scope.
Local Open Scope list_scope.

(* C10: a network built by the constructor stays acyclic under every history of edits. *)
Theorem C10_edits_keep_acyclic : forall es g hist, new_graph es = Ok g -> wf_dag (run_edits g hist).
Proof. intros es g hist H. exact (run_edits_wf hist g (proj1 (new_graph_ok es g H))). Qed.
Print Assumptions C10_edits_keep_acyclic.
(* add_edge raises exactly when the edge would close a cycle, always with ValueError; otherwise the
   result has exactly one more edge *)
Theorem C10_add_edge_raises : forall g u v, wf_dag g ->
  (exists e, apply_edit g (EAddEdge u v) = Err e) <-> reach g v u.
Proof.
  intros g u v Hd. simpl. destruct (bn_add_edge_err g u v Hd) as [H1 _]. rewrite H1. split.
  - intro H. destruct (reach_dec g (proj1 Hd) v u) as [H2|H2]; [exact H2|].
    exfalso. apply H. apply acyclic_add_edge; [apply Hd|exact H2].
  - intros H Ha. apply (Ha u). exists v. split; [apply edge_nx_add_edge; auto|].
    eapply reach_sub; [|exact H]. intros a b He. apply edge_nx_add_edge. auto.
Qed.
Print Assumptions C10_add_edge_raises.
Theorem C10_add_edge_ok : forall g u v g', wf_dag g -> apply_edit g (EAddEdge u v) = Ok g' ->
  (forall a b, edge g' a b <-> edge g a b \/ (a = u /\ b = v)) /\
  (forall x, In x (nodes g') <-> In x (nodes g) \/ x = u \/ x = v).
Proof.
  intros g u v g' Hd H. destruct (bn_add_edge_ok g u v g' Hd H) as [_ E]. subst g'.
  split; [exact (edge_nx_add_edge g u v)|exact (nodes_nx_add_edge g u v)].
Qed.
Print Assumptions C10_add_edge_ok.
Theorem C10_remove_edge : forall g u v,
  (forall g', apply_edit g (ERemoveEdge u v) = Ok g' ->
     nodes g' = nodes g /\ forall a b, edge g' a b <-> edge g a b /\ ~ (a = u /\ b = v)) /\
  ((exists e, apply_edit g (ERemoveEdge u v) = Err e) <-> ~ edge g u v).
Proof.
  intros g u v. split.
  - intros g' H. split; [exact (nodes_nx_remove_edge g g' u v H)|].
    intros a b. exact (edge_nx_remove_edge g g' u v a b H).
  - simpl. unfold nx_remove_edge. destruct (has_edge_spec g u v) as [H|H]; split; intros.
    + destruct H0; discriminate.
    + contradiction.
    + assumption.
    + eauto.
Qed.
Print Assumptions C10_remove_edge.
Theorem C10_remove_node : forall g n g', apply_edit g (ERemoveNode n) = Ok g' ->
  (forall x, In x (nodes g') <-> In x (nodes g) /\ x <> n) /\
  (forall a b, edge g' a b <-> edge g a b /\ a <> n /\ b <> n).
Proof.
  intros g n g' H. split; intros; [exact (nodes_nx_remove_node g g' n x H)|exact (edge_nx_remove_node g g' n a b H)].
Qed.
Print Assumptions C10_remove_node.
Example C10_example :
  let h := [EAddEdge "C" "A"; EAddEdge "C" "D"; ERemoveEdge "A" "B"; EAddEdge "C" "A"; ERemoveNode "B"] in
  new_graph [("A","B"); ("B","C")] = Ok (mkG ["A";"B";"C"] [("A","B"); ("B","C")]) /\
  apply_edit (mkG ["A";"B";"C"] [("A","B"); ("B","C")]) (EAddEdge "C" "A") = Err ValueError /\
  run_edits (mkG ["A";"B";"C"] [("A","B"); ("B","C")]) h = mkG ["A";"C";"D"] [("C","D"); ("C","A")].
Proof. repeat split. Qed.

(* C11: for a re-iterable argument *)
Theorem C11_constructor_partial : forall es,
  (forall e, cbn_init (Some (Reusable es)) = Err e -> e = ValueError) /\
  ((exists e, cbn_init (Some (Reusable es)) = Err e) <-> ~ acyclic (mkG [] es)) /\
  (forall g, cbn_init (Some (Reusable es)) = Ok g ->
     wf_dag g /\ (forall a b, edge g a b <-> In (a, b) es) /\
     (forall x, In x (nodes g) <-> exists y, In (x, y) es \/ In (y, x) es)).
Proof.
  intro es. simpl. split; [intros e H; exact (proj1 (new_graph_err es e H))|].
  assert (Heq : acyclic (load_edges es) <-> acyclic (mkG [] es)).
  { split; apply acyclic_sub; intros a b H; apply load_edges_edge; exact H. }
  split.
  - rewrite <- Heq. split.
    + intros [e H]. exact (proj2 (new_graph_err es e H)).
    + intro H. destruct (new_graph es) as [g|e] eqn:E; eauto.
      apply new_graph_ok in E. destruct E as [E1 E2]. subst. exfalso. apply H, E1.
  - intros g H. apply new_graph_ok in H. destruct H as [H1 H2]. subst g.
    split; [exact H1|]. split; [exact (load_edges_edge es)|].
    intro x. rewrite load_edges_nodes. split.
    + intros [[a b] [H2 [H3|H3]]]; simpl in H3; subst; eauto.
    + intros [y [H2|H2]]; eauto.
Qed.
Print Assumptions C11_constructor_partial.
(* a generator is consumed by the type check and the network comes out empty *)
Theorem C11_one_shot_refuted : forall es, cbn_init (Some (OneShot es)) = Ok empty_graph.
Proof. intro es. reflexivity. Qed.
Print Assumptions C11_one_shot_refuted.
Example C11_example : cbn_init (Some (Reusable [("A","B"); ("B","C")])) = Ok (mkG ["A";"B";"C"] [("A","B"); ("B","C")]) /\
  cbn_init (Some (Reusable [("A","B"); ("B","A")])) = Err ValueError /\
  cbn_init (Some (OneShot [("A","B"); ("B","C")])) = Ok (mkG [] []).
Proof. repeat split. Qed.
