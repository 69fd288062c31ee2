(* A boolean test for the hypotheses of the property theorems, used for the concrete examples. *)
From Coq Require Import String List Bool Arith.
Import ListNotations.
From Verif Require Import MBase MGraph MMacid Spec SpecM LBase LGraph LRoles LReach.
Local Open Scope string_scope.
Local Open Scope list_scope.

Fixpoint nodupb (l : list string) : bool :=
  match l with [] => true | x :: l' => negb (mem x l') && nodupb l' end.
Fixpoint nodup_edges (l : list (node * node)) : bool :=
  match l with [] => true | x :: l' => negb (existsb (eqb_edge x) l') && nodup_edges l' end.
Definition graph_ok (g : graph) : bool :=
  nodupb (nodes g) && nodup_edges (edges g) &&
  forallb (fun e => mem (fst e) (nodes g) && mem (snd e) (nodes g)) (edges g) && negb (has_cycle g).
Definition clash_free (g : graph) : bool :=
  forallb (fun n => negb (mem (n ++ "mec")%string (nodes g)) && Nat.ltb (String.length n) 6) (nodes g).
Definition roles_ok (g : graph) (ad au : list (agent * list node)) : bool :=
  nodupb (keys ad) && nodupb (keys au) && nodupb (concat (map snd ad) ++ concat (map snd au)) &&
  forallb (fun n => mem n (nodes g)) (concat (map snd ad) ++ concat (map snd au)) &&
  forallb (fun a => mem a (keys au)) (keys ad) && forallb (fun a => mem a (keys ad)) (keys au).
Definition diagram_of (g : graph) (ad au : list (agent * list node)) : macid :=
  mkM g ad au (owner_dict ad) (owner_dict au).

Lemma nodupb_iff : forall l, nodupb l = true -> NoDup l.
Proof.
  induction l as [|x l IH]; simpl; intros H; constructor; apply andb_true_iff in H; destruct H as [A B]; auto.
  apply mem_nIn. apply negb_true_iff; auto.
Qed.
Lemma nodup_edges_iff : forall l, nodup_edges l = true -> NoDup l.
Proof.
  induction l as [|x l IH]; simpl; intros H; constructor; apply andb_true_iff in H; destruct H as [A B]; auto.
  apply negb_true_iff in A. intro K. assert (existsb (eqb_edge x) l = true); [|congruence].
  apply existsb_exists. exists x. split; auto. apply eqb_edge_eq; auto.
Qed.
Lemma graph_ok_wf : forall g, graph_ok g = true -> wf_dag g.
Proof.
  intros g H. unfold graph_ok in H. rewrite !andb_true_iff in H. destruct H as [[[A B] C] D].
  assert (W : wf_graph g).
  { split; [apply nodupb_iff; auto|]. split; [apply nodup_edges_iff; auto|]. intros u v He.
    rewrite forallb_forall in C. specialize (C (u, v) He). simpl in C. apply andb_true_iff in C.
    rewrite !mem_In in C. auto. }
  split; auto. apply has_cycle_iff; auto. apply negb_true_iff; auto.
Qed.
Lemma clash_free_ok : forall g, clash_free g = true -> no_clash g.
Proof.
  intros g H n Hn. unfold clash_free in H. rewrite forallb_forall in H. specialize (H n Hn).
  apply andb_true_iff in H. destruct H as [A B]. split.
  - apply mem_nIn. apply negb_true_iff; auto.
  - intros [s [H1 H2]]. apply Nat.ltb_lt in B. subst n. simpl in B. rewrite H1 in B. apply (Nat.lt_irrefl _ B).
Qed.
Lemma check_ok : forall g ad au, graph_ok g && roles_ok g ad au = true ->
  valid (diagram_of g ad au) /\ utilities_complete (diagram_of g ad au) /\ decisions_complete (diagram_of g ad au).
Proof.
  intros g ad au H. apply andb_true_iff in H. destruct H as [G H]. apply graph_ok_wf in G.
  unfold roles_ok in H. rewrite !andb_true_iff in H. destruct H as [[[[[A B] C] D] E] F].
  apply nodupb_iff in A, B, C. apply forallb_mem in D. apply forallb_mem in E. apply forallb_mem in F.
  split; [|split].
  - split; [exact G|]. split.
    + apply good_consistent. apply good_roles_init. split; auto.
    + intros a n K. simpl in *. apply D. rewrite in_app_iff. rewrite <- !listed_concat.
      destruct K; [left|right]; eauto.
  - intros a d [l [K1 K2]]. simpl in *. apply E. unfold keys. apply in_map_iff. exists (a, l); auto.
  - intros a Ha. apply F; auto.
Qed.
