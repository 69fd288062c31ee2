(* Properties C12-C19: role bookkeeping, copies, orders, mechanism graph, strategic relevance. *)
From Coq Require Import String List Bool Arith Permutation.
Import ListNotations.
From Verif Require Import MBase MGraph MMacid Spec SpecM LBase LGraph LDfs LRoles LHeap LCopy LMech LReach.
Local Open Scope string_scope.
Local Open Scope list_scope.

Ltac nodup := repeat constructor; simpl; intuition discriminate.

(* ---- C12 ---- *)
Theorem C12_consistent : forall es ad au m cs, macid_init es ad au = Ok m -> clean_lists ad au ->
  consistent (run_calls m cs) /\ mgraph (run_calls m cs) = mgraph m.
Proof.
  intros es ad au m cs H C. unfold macid_init in H. destruct (new_graph es) as [g|e]; simpl in H; inversion H; subst.
  destruct (run_calls_good cs _ (good_roles_init g ad au C)) as [A B]. split; [apply good_consistent; exact A|exact B].
Qed.
Print Assumptions C12_consistent.
(* one call on any consistent diagram *)
Theorem C12_call : forall m c, consistent m ->
  (In (call_node c) (nodes (mgraph m)) ->
     exists m', apply_call m c = (m', None) /\ consistent m' /\ mgraph m' = mgraph m /\
       has_role m' (call_node c) (call_role c) /\
       forall x r, x <> call_node c -> (has_role m' x r <-> has_role m x r)) /\
  (~ In (call_node c) (nodes (mgraph m)) -> apply_call m c = (m, Some KeyError)).
Proof.
  intros m c G. apply good_consistent in G. assert (S := apply_call_spec m c G).
  destruct (mem (call_node c) (nodes (mgraph m))) eqn:E; [apply mem_In in E|apply mem_nIn in E]; (split; [|]); try tauto; intros _.
  destruct S as [m' [H1 (H2 & H3 & H4 & H5)]]. exists m'.
  split; [auto|]. split; [apply good_consistent; auto|]. split; [auto|]. split.
  - apply has_role_labels; auto. rewrite H4. destruct c; reflexivity.
  - intros x r N. rewrite !has_role_labels by auto. rewrite H5 by auto. tauto.
Qed.
Print Assumptions C12_call.
Lemma valid_init : forall es ad au m, macid_init es ad au = Ok m -> clean_lists ad au ->
  (forall a n, listed ad a n \/ listed au a n -> In n (nodes (mgraph m))) -> valid m.
Proof.
  intros es ad au m H C P. destruct (C12_consistent es ad au m [] H C) as [G _].
  unfold macid_init in H. destruct (new_graph es) as [g|e] eqn:E; simpl in H; inversion H; subst.
  split; [apply (new_graph_ok es g E)|]. split; [exact G|exact P].
Qed.
Definition ex12 : macid :=
  mkM (mkG ["X";"D";"U";"V";"E"] [("X","D"); ("X","U"); ("D","U"); ("D","V"); ("E","V")])
      [("a",["D"]); ("b",["E"])] [("a",["U"]); ("b",["V"])] [("D","a"); ("E","b")] [("U","a"); ("V","b")].
Example C12_example :
  clean_lists [("a",["D"]); ("b",["E"])] [("a",["U"]); ("b",["V"])] /\
  let m := run_calls ex12 [MakeDecision "X" "b"; MakeUtility "D" "b"; MakeChance "E"; MakeChance "Q"] in
  agent_decisions m = [("a",[]); ("b",["X"])] /\ agent_utilities m = [("a",["U"]); ("b",["V";"D"])] /\
  decision_agent m = [("X","b")] /\ utility_agent m = [("U","a"); ("V","b"); ("D","b")].
Proof.
  split; [unfold clean_lists; simpl; split; [nodup|split; nodup]|]. vm_compute. repeat split.
Qed.
(* without the precondition on the constructor's lists the bookkeeping is wrong from the start:
   a node named twice has two roles, a node listed for two agents has two owners in one view
   and one in the other *)
Theorem C12_unchecked_lists_refuted :
  (exists m, macid_init [("D","U")] [("a",["D"])] [("a",["D"; "U"])] = Ok m /\
     has_role m "D" (RDecision "a") /\ has_role m "D" (RUtility "a")) /\
  (exists m, macid_init [("D","U")] [("a",["D"]); ("b",["D"])] [("a",["U"]); ("b",[])] = Ok m /\
     has_role m "D" (RDecision "a") /\ ~ has_label m "D" (RDecision "a")).
Proof.
  split; eexists; (split; [reflexivity|]); simpl; unfold listed; simpl.
  - split; eexists; (split; [left; reflexivity|simpl; auto]).
  - split; [eexists; split; [left; reflexivity|simpl; auto]|]. intuition discriminate.
Qed.
Print Assumptions C12_unchecked_lists_refuted.

(* ---- C13: with role lists as shared objects ---- *)
(* a diagram owning its lists behaves like the value model, and a diagram that shares no list
   with it is not affected, through any history of calls on the first *)
Definition h_run (hd : heap * diagram) (cs : list role_call) : heap * diagram :=
  fold_left (fun hd c => fst (h_apply_call (fst hd) (snd hd) c)) cs hd.
Theorem C13_separate_lists_partial : forall cs h d e, own_lists h d -> own_lists h e ->
  (forall p, In p (locs e) -> ~ In p (locs d)) ->
  view (fst (h_run (h, d) cs)) (snd (h_run (h, d) cs)) = run_calls (view h d) cs /\
  view (fst (h_run (h, d) cs)) e = view h e.
Proof.
  induction cs as [|c cs IH]; intros h d e Hd He Hs; [split; reflexivity|].
  unfold h_run, run_calls. simpl. destruct (h_apply_call h d c) as [[h' d'] x] eqn:E.
  destruct (h_apply_call_spec h d c h' d' x Hd E) as (A & B & F). rewrite A. simpl.
  destruct (frame_view h h' d d' e F He Hs) as (V & O & S).
  destruct (IH h' d' e B O S) as [I1 I2]. unfold h_run, run_calls in *. split; [exact I1|rewrite I2; exact V].
Qed.
Print Assumptions C13_separate_lists_partial.
(* two diagrams built from the same role lists (heap: two list objects, the caller's) *)
Definition ex13_g : graph := mkG ["D";"U"] [("D","U")].
Definition ex13_h : heap := [["D"]; ["U"]].
Definition ex13_d : diagram := diagram_init ex13_h ex13_g [("a",0)] [("a",1)].
Theorem C13_shared_lists_refuted : exists h1 d1 h2 d2,
  h_apply_call ex13_h ex13_d (MakeChance "D") = (h1, d1, None) /\
  (* the caller's list and the other diagram's decisions have changed *)
  hget ex13_h 0 = ["D"] /\ hget h1 0 = [] /\
  has_role (view ex13_h ex13_d) "D" (RDecision "a") /\ ~ has_role (view h1 ex13_d) "D" (RDecision "a") /\
  (* the other diagram's two views now disagree *)
  has_label (view h1 ex13_d) "D" (RDecision "a") /\
  (* and the same call on the other diagram raises ValueError *)
  h_apply_call h1 ex13_d (MakeChance "D") = (h2, d2, Some ValueError).
Proof.
  eexists. eexists. eexists. eexists.
  split; [reflexivity|]. split; [reflexivity|]. split; [reflexivity|].
  split; [simpl; unfold listed; simpl; eexists; split; [left; reflexivity|simpl; auto]|].
  split; [simpl; unfold listed; simpl; intros [l [[H|[]] K]]; inversion H; subst; destruct K|].
  split; [simpl; auto|reflexivity].
Qed.
Print Assumptions C13_shared_lists_refuted.
Example C13_example :
  let h := [["D"]; ["U"]; ["D"]; ["U"]] in
  let d := diagram_init h ex13_g [("a",0)] [("a",1)] in
  let e := diagram_init h ex13_g [("a",2)] [("a",3)] in
  own_lists h d /\ own_lists h e /\ (forall p, In p (locs e) -> ~ In p (locs d)) /\
  let r := h_run (h, d) [MakeChance "D"; MakeUtility "D" "b"] in
  agent_decisions (view (fst r) (snd r)) = [("a",[])] /\ agent_utilities (view (fst r) (snd r)) = [("a",["U"]); ("b",["D"])] /\
  agent_decisions (view (fst r) e) = [("a",["D"])].
Proof.
  cbv zeta. split; [|split; [|split; [|vm_compute; auto]]].
  - split; simpl; [nodup|]. intros p [<-|[<-|[]]]; auto with arith.
  - split; simpl; [nodup|]. intros p [<-|[<-|[]]]; auto with arith.
  - simpl. intuition subst; discriminate.
Qed.

(* ---- C14 ---- *)
(* the copy keeps the graph; a node keeps its role unless its owner has no entry in the utility
   dictionary, in which case it becomes a chance node *)
Theorem C14_copy : forall m, valid m -> decisions_complete m ->
  exists c, copy_without_cpds m = Ok c /\ consistent c /\
    nodes (mgraph c) = nodes (mgraph m) /\ (forall u v, edge (mgraph c) u v <-> edge (mgraph m) u v) /\
    forall n r, has_role c n r <->
      (has_role m n r /\ match r with RDecision a => In a (keys (agent_utilities m)) | _ => True end) \/
      (r = RChance /\ exists a, has_role m n (RDecision a) /\ ~ In a (keys (agent_utilities m))).
Proof.
  intros m (W & G & P) D. apply good_consistent in G.
  destruct (copy_onto_ok empty_macid m (or_introl eq_refl) W G P D) as [c (E & Gc & Eg & L)].
  exists c. split; [exact E|]. split; [apply good_consistent; auto|].
  rewrite Eg. split; [reflexivity|]. split; [intros; apply edge_copied; apply W|].
  intros n r. rewrite (has_role_labels c n r Gc), L.
  assert (HR : forall q, has_role m n q <-> labels m n = role_labels q) by (intro; apply has_role_labels; auto).
  assert (KU : forall a, lookup n (utility_agent m) = Some a -> mem a (agents m) = true).
  { intros a Ha. apply mem_In. apply good_listed_utility in Ha; auto. destruct Ha as [l [Hl _]].
    unfold agents, keys. apply in_map_iff. exists (a, l); auto. }
  unfold kept, owner. unfold labels in *.
  destruct (lookup n (decision_agent m)) as [a|] eqn:Ea.
  - destruct (lookup n (utility_agent m)) as [b|] eqn:Eb; [exfalso; exact (no_label m n a b G Ea Eb)|].
    destruct (mem a (agents m)) eqn:Em; [apply mem_In in Em|apply mem_nIn in Em].
    + split.
      * intro H. left. split; [apply HR; auto|]. destruct r; simpl in *; auto. inversion H; subst; auto.
      * intros [[H _]|[H [b [H1 H2]]]]; [apply HR; auto|]. exfalso. apply HR in H1. simpl in H1. inversion H1; subst. auto.
    + split.
      * intro H. right. destruct r; try discriminate. split; auto. exists a. split; auto. apply HR. reflexivity.
      * intros [[H H1]|[-> _]]; auto. apply HR in H. destruct r; try discriminate. simpl in H. inversion H; subst. contradiction.
  - destruct (lookup n (utility_agent m)) as [b|] eqn:Eb.
    + rewrite (KU _ eq_refl). split.
      * intro H. left. split; [apply HR; auto|]. destruct r; try discriminate; auto.
      * intros [[H _]|[H [x [H1 H2]]]]; [apply HR; auto|]. apply HR in H1. discriminate.
    + split.
      * intro H. left. split; [apply HR; auto|]. destruct r; try discriminate; auto.
      * intros [[H _]|[H [x [H1 H2]]]]; [apply HR; auto|]. apply HR in H1. discriminate.
Qed.
Print Assumptions C14_copy.
(* hence the copy is exact for a diagram whose agents are in both dictionaries *)
Theorem C14_exact_copy_partial : forall m, valid m -> decisions_complete m -> utilities_complete m ->
  exists c, copy_without_cpds m = Ok c /\ nodes (mgraph c) = nodes (mgraph m) /\
    (forall u v, edge (mgraph c) u v <-> edge (mgraph m) u v) /\ forall n r, has_role c n r <-> has_role m n r.
Proof.
  intros m V D U. destruct (C14_copy m V D) as [c (E & _ & N & Ed & R)]. exists c.
  split; [exact E|]. split; [exact N|]. split; [exact Ed|]. intros n r. rewrite R. split.
  - intros [[H _]|[_ [a [H1 H2]]]]; auto. exfalso. apply H2. exact (U a n H1).
  - intro H. left. split; auto. destruct r as [|a|a]; auto. exact (U a n H).
Qed.
Print Assumptions C14_exact_copy_partial.
Theorem C14_copy_raises : forall m, valid m -> ~ decisions_complete m -> copy_without_cpds m = Err KeyError.
Proof.
  intros m (W & G & P) D. apply good_consistent in G. apply copy_onto_err; auto.
  destruct (existsb (fun a => negb (mem a (keys (agent_decisions m)))) (keys (agent_utilities m))) eqn:E.
  - apply existsb_exists in E. destruct E as [a [H1 H2]]. apply negb_true_iff in H2. apply mem_nIn in H2. eauto.
  - exfalso. apply D. intros a Ha. destruct (mem a (keys (agent_decisions m))) eqn:Em; [apply mem_In; auto|].
    assert (existsb (fun a => negb (mem a (keys (agent_decisions m)))) (keys (agent_utilities m)) = true); [|congruence].
    apply existsb_exists. exists a. rewrite Em. auto.
Qed.
Print Assumptions C14_copy_raises.
(* CID.copy_without_cpds: the only agent is always in both dictionaries *)
Theorem C14_cid_copy : forall m, valid m -> keys (agent_decisions m) = [zero] -> keys (agent_utilities m) = [zero] ->
  exists c, cid_copy_without_cpds m = Ok c /\ consistent c /\ nodes (mgraph c) = nodes (mgraph m) /\
    (forall u v, edge (mgraph c) u v <-> edge (mgraph m) u v) /\ forall n r, has_role c n r <-> has_role m n r.
Proof.
  intros m (W & G & P) D U. apply good_consistent in G.
  destruct (copy_onto_ok empty_cid m (or_intror eq_refl) W G P) as [c (E & Gc & Eg & L)].
  { intros a. rewrite D, U. auto. }
  exists c. split; [exact E|]. split; [apply good_consistent; auto|]. rewrite Eg.
  split; [reflexivity|]. split; [intros; apply edge_copied; apply W|].
  intros n r. rewrite !has_role_labels by auto. rewrite L.
  assert (K : kept m (agents m) n = true \/ labels m n = (None, None)).
  { unfold kept, owner, labels, agents. rewrite U.
    destruct (lookup n (decision_agent m)) as [a|] eqn:Ea.
    - left. apply mem_In. rewrite <- D. apply good_listed_decision in Ea; auto. destruct Ea as [l [Hl _]].
      apply in_map_iff. exists (a, l); auto.
    - destruct (lookup n (utility_agent m)) as [a|] eqn:Eb; auto.
      left. apply mem_In. rewrite <- U. apply good_listed_utility in Eb; auto. destruct Eb as [l [Hl _]].
      apply in_map_iff. exists (a, l); auto. }
  destruct K as [->| ->]; [tauto|]. destruct (kept m (agents m) n); tauto.
Qed.
Print Assumptions C14_cid_copy.
Definition ex14_only_decisions : macid := mkM (mkG ["D";"U"] [("D","U")]) [("a",["D"])] [("b",["U"])] [("D","a")] [("U","b")].
Theorem C14_refuted :
  (* an agent with decisions only (and one with utilities only): KeyError *)
  (exists m, macid_init [("D","U")] [("a",["D"])] [("b",["U"])] = Ok m /\ copy_without_cpds m = Err KeyError) /\
  (* an agent with decisions only: the copy loses the decision *)
  (exists m c, macid_init [("D","U"); ("E","U")] [("a",["D"]); ("b",["E"])] [("b",["U"])] = Ok m /\
     copy_without_cpds m = Ok c /\ has_role m "D" (RDecision "a") /\ has_role c "D" RChance) /\
  (* an agent with an empty decision list: the copy is right but cannot be copied again *)
  (exists m c, macid_init [("X","U")] [("a",[])] [("a",["U"])] = Ok m /\
     copy_without_cpds m = Ok c /\ copy_without_cpds c = Err KeyError).
Proof.
  split; [|split].
  - eexists. split; reflexivity.
  - eexists. eexists. split; [reflexivity|]. split; [reflexivity|]. simpl. unfold listed; simpl. split.
    + eexists. split; [left; reflexivity|simpl; auto].
    + split; intros a [l [[H|[]] K]]; inversion H; subst; simpl in K; intuition discriminate.
  - eexists. eexists. split; [reflexivity|]. split; reflexivity.
Qed.
Print Assumptions C14_refuted.
Lemma ex12_init : macid_init [("X","D"); ("X","U"); ("D","U"); ("D","V"); ("E","V")] [("a",["D"]); ("b",["E"])] [("a",["U"]); ("b",["V"])] = Ok ex12.
Proof. reflexivity. Qed.
Lemma ex12_valid : valid ex12.
Proof.
  eapply valid_init; [apply ex12_init| |].
  - unfold clean_lists; simpl; split; [nodup|split; nodup].
  - intros a n. unfold listed. simpl. intros [[l [[H|[H|[]]] K]]|[l [[H|[H|[]]] K]]]; inversion H; subst;
      simpl in K; destruct K as [<-|[]]; auto 8.
Qed.
Lemma ex12_complete : decisions_complete ex12 /\ utilities_complete ex12.
Proof.
  split; [intros a; simpl; auto|]. intros a d [l [[H|[H|[]]] K]]; inversion H; subst; simpl; auto.
Qed.
Example C14_example : valid ex12 /\ decisions_complete ex12 /\ utilities_complete ex12 /\
  match copy_without_cpds ex12 with
  | Ok c => agent_decisions c = [("a",["D"]); ("b",["E"])] /\ nodes (mgraph c) = ["X";"D";"U";"V";"E"]
  | Err _ => False end.
Proof.
  split; [apply ex12_valid|]. split; [apply ex12_complete|]. split; [apply ex12_complete|].
  vm_compute. split; reflexivity.
Qed.

(* ---- C15 ---- *)
Lemma topological_filter : forall g f l, topological g l -> topological g (filter f l).
Proof.
  intros g f l. induction l as [|a l IH]; intros T; [intros l1 x l2 y E; destruct l1; discriminate|].
  assert (T' : topological g l).
  { intros l1 x l2 y E Hy. subst l. apply (T (a :: l1) x l2 y); auto. }
  simpl. destruct (f a); [|apply IH; auto]. intros l1 x l2 y E Hy.
  destruct l1 as [|b l1]; simpl in E; inversion E; subst.
  - apply filter_In in Hy. apply (T [] x l y); auto. apply Hy.
  - apply (IH T' l1 x l2 y); auto.
Qed.
Lemma valid_order_exists : forall o m, wf_dag (mgraph m) -> valid_order o ->
  exists l, toposort o (mgraph m) = Some l /\ Permutation l (nodes (mgraph m)) /\ topological (mgraph m) l.
Proof.
  intros o m [W A] O. destruct (toposort_spec o (mgraph m) O W A) as [l (H1 & H2 & H3)].
  exists l. split; [auto|]. split; [auto|]. apply preds_before_topological; auto.
  apply (Permutation_NoDup (Permutation_sym H2)). apply W.
Qed.
Theorem C15_valid_order : forall o m ns, wf_dag (mgraph m) -> valid_order o ->
  (incl ns (nodes (mgraph m)) ->
     exists l, get_valid_order o m (Some ns) = Ok l /\ NoDup l /\ (forall x, In x l <-> In x ns) /\
       topological (mgraph m) l) /\
  ((exists x, In x ns /\ ~ In x (nodes (mgraph m))) -> get_valid_order o m (Some ns) = Err KeyError).
Proof.
  intros o m ns W O. unfold get_valid_order.
  rewrite (proj2 (is_dag_iff (mgraph m) (proj1 W)) (proj2 W)). simpl. split.
  - intro I. assert (E : forallb (fun n => mem n (nodes (mgraph m))) ns = true).
    { apply forallb_forall. intros x Hx. apply mem_In. apply I; auto. }
    rewrite E. simpl. destruct (valid_order_exists o m W O) as [l (H1 & H2 & H3)]. rewrite H1.
    eexists. split; [reflexivity|]. split; [|split].
    + apply NoDup_filter. apply (Permutation_NoDup (Permutation_sym H2)). apply W.
    + intro x. rewrite filter_In, mem_In. split; [tauto|]. intro Hx. split; auto.
      apply (Permutation_in _ (Permutation_sym H2)). apply I; auto.
    + apply topological_filter; auto.
  - intros [x [H1 H2]]. destruct (forallb (fun n => mem n (nodes (mgraph m))) ns) eqn:E; auto.
    rewrite forallb_forall in E. apply E in H1. apply mem_In in H1. contradiction.
Qed.
Print Assumptions C15_valid_order.
(* the default argument: all decisions *)
Theorem C15_default : forall o m, valid m -> valid_order o ->
  exists l, get_valid_order o m None = Ok l /\ NoDup l /\ topological (mgraph m) l /\
    forall x, In x l <-> exists a, has_role m x (RDecision a).
Proof.
  intros o m (W & G & P) O. apply good_consistent in G. unfold get_valid_order.
  rewrite (proj2 (is_dag_iff (mgraph m) (proj1 W)) (proj2 W)). simpl.
  destruct (valid_order_exists o m W O) as [l (H1 & H2 & H3)]. rewrite H1.
  eexists. split; [reflexivity|]. split; [|split].
  - apply NoDup_filter. apply (Permutation_NoDup (Permutation_sym H2)). apply W.
  - apply topological_filter; auto.
  - intro x. rewrite filter_In, mem_In. unfold decisions. rewrite in_keys_lookup. split.
    + intros [_ [a Ha]]. exists a. apply good_listed_decision; auto.
    + intros [a Ha]. split.
      * apply (Permutation_in _ (Permutation_sym H2)). apply (P a x). auto.
      * exists a. apply good_listed_decision; auto.
Qed.
Print Assumptions C15_default.
Lemma id_order_valid : valid_order id_order.
Proof. intros k l. apply Permutation_refl. Qed.
Lemma rev_order_valid : valid_order rev_order.
Proof. intros k l. apply Permutation_sym, Permutation_rev. Qed.
Example C15_example : wf_dag (mgraph ex12) /\ valid_order rev_order /\
  get_valid_order id_order ex12 None = Ok ["E";"D"] /\
  get_valid_order id_order ex12 (Some ["V"; "D"; "V"]) = Ok ["D";"V"] /\
  get_valid_order id_order ex12 (Some ["V"; "Q"]) = Err KeyError.
Proof. split; [apply ex12_valid|]. split; [apply rev_order_valid|]. repeat split. Qed.

(* ---- C16 ---- *)
(* h is g with one new parentless node per node, whose only child is that node *)
Definition one_fresh_parent_each (g h : graph) (f : node -> node) : Prop :=
  (forall n, In n (nodes g) -> ~ In (f n) (nodes g)) /\
  (forall n n', In n (nodes g) -> In n' (nodes g) -> f n = f n' -> n = n') /\
  (forall x, In x (nodes h) <-> In x (nodes g) \/ exists n, In n (nodes g) /\ x = f n) /\
  (forall u v, edge h u v <-> edge g u v \/ (In v (nodes g) /\ u = f v)).
Theorem C16_mechanism_graph_partial : forall m, valid m -> no_clash (mgraph m) ->
  exists mm, mechanism_graph m = Ok mm /\ wf_dag (mgraph mm) /\
    one_fresh_parent_each (mgraph m) (mgraph mm) (fun n => (n ++ "mec")%string) /\
    agent_decisions mm = agent_decisions m /\ agent_utilities mm = agent_utilities m /\
    forall n r, has_role mm n r <-> has_role m n r.
Proof.
  intros m (W & G & P) C. destruct (mechanism_graph_ok m W C) as [h (E & Hw & He & Hn)].
  eexists. split; [exact E|]. simpl. split; [exact Hw|]. split; [|split; [auto|split; [auto|]]].
  - split; [intros n Hi; exact (fresh_mec (mgraph m) n C Hi)|].
    split; [intros n n' _ _ Hm; exact (mec_inj n n' Hm)|]. split; [exact Hn|exact He].
  - intros n r. destruct r; simpl; tauto.
Qed.
Print Assumptions C16_mechanism_graph_partial.
(* the guard compares node[:-3] with "mec" instead of node[-3:]: a clash is not noticed, and the
   result has no fresh parent for A; and a harmless name is refused *)
Theorem C16_guard_refuted :
  (exists m mm, macid_init [("Amec","B"); ("A","B")] [("a",["A"])] [("a",["B"])] = Ok m /\
     mechanism_graph m = Ok mm /\ In "Amec" (nodes (mgraph m)) /\
     ~ exists f, one_fresh_parent_each (mgraph m) (mgraph mm) f) /\
  (exists m, macid_init [("mecaaa","B")] [("a",["mecaaa"])] [("a",["B"])] = Ok m /\
     (forall n, In n (nodes (mgraph m)) -> ~ In (n ++ "mec")%string (nodes (mgraph m))) /\
     mechanism_graph m = Err ValueError).
Proof.
  split.
  - eexists. eexists. split; [vm_compute; reflexivity|]. split; [vm_compute; reflexivity|].
    split; [simpl; auto|]. intros [f (F & I & N & E)].
    assert (H : edge (mkG ["Amec";"B";"A";"Amecmec";"Bmec"] [("Amec","B"); ("A","B"); ("Amecmec","Amec"); ("Bmec","B"); ("Amec","A")]) (f "A") "A").
    { apply E. right. simpl. auto. }
    unfold edge in H. simpl in H.
    repeat (destruct H as [H|H]; [inversion H; clear H|]); try contradiction.
    apply (F "A"); simpl; auto.
  - eexists. split; [vm_compute; reflexivity|]. split; [|vm_compute; reflexivity].
    simpl. intros n [<-|[<-|[]]]; simpl; intuition discriminate.
Qed.
Print Assumptions C16_guard_refuted.
Lemma short_no_mec : forall n, String.length n < 6 -> ~ exists s, String.length s = 3 /\ n = ("mec" ++ s)%string.
Proof.
  intros n H [s [H1 H2]]. subst n. simpl in H. rewrite H1 in H. apply (Nat.lt_irrefl _ H).
Qed.
Lemma ex12_clash : no_clash (mgraph ex12).
Proof.
  intros n Hn. split; [|apply short_no_mec];
    simpl in Hn; destruct Hn as [<-|[<-|[<-|[<-|[<-|[]]]]]]; simpl; auto 8 with arith; intuition discriminate.
Qed.
Example C16_example : valid ex12 /\ no_clash (mgraph ex12) /\
  match mechanism_graph ex12 with
  | Ok mm => nodes (mgraph mm) = ["X";"D";"U";"V";"E";"Xmec";"Dmec";"Umec";"Vmec";"Emec"] /\ edge (mgraph mm) "Vmec" "V"
  | Err _ => False end.
Proof. split; [apply ex12_valid|]. split; [apply ex12_clash|]. vm_compute. auto 20. Qed.

(* ---- C17 ---- *)
Lemma valid_usable : forall m, valid m -> no_clash (mgraph m) -> usable m.
Proof. intros m (W & G & P) C. apply good_consistent in G. unfold usable. auto. Qed.
Lemma strategic_of : forall m d, valid m -> utilities_complete m -> (exists a, has_role m d (RDecision a)) -> strategic m d.
Proof.
  intros m d (W & G & P) U [a H]. apply good_consistent in G. exists a. split; [|exact (U a d H)].
  apply good_listed_decision; auto.
Qed.
Theorem C17_r_reachable : forall m ds vs, valid m -> no_clash (mgraph m) -> utilities_complete m ->
  (forall d, In d ds -> exists a, has_role m d (RDecision a)) -> incl vs (nodes (mgraph m)) ->
  exists b, is_r_reachable m ds vs = Ok b /\
    (b = true <-> exists d v, In d ds /\ In v vs /\ r_relevant m d v).
Proof.
  intros m ds vs V C U D I. apply is_r_reachable_spec; auto; [apply valid_usable; auto|].
  intros d Hd. exact (strategic_of m d V U (D d Hd)).
Qed.
Print Assumptions C17_r_reachable.
(* the definition does not depend on which new node is added *)
Theorem C17_any_new_node : forall m d v, valid m -> no_clash (mgraph m) -> In v (nodes (mgraph m)) ->
  (r_relevant m d v <->
   exists a u, listed (agent_decisions m) a d /\ listed (agent_utilities m) a u /\ descends (mgraph m) u d /\
     forall w Z, ~ In w (nodes (mgraph m)) -> (forall x, In x Z <-> x = d \/ edge (mgraph m) x d) ->
       dconn (extend (mgraph m) w v) Z w u).
Proof.
  intros m d v V C Hv. assert (V' := V). destruct V' as (W & G & P). split.
  - intro R. assert (Hd : In d (nodes (mgraph m))).
    { destruct R as [a [u [w (H1 & _)]]]. apply (P a d). auto. }
    apply r_relevant_char in R; auto. destruct R as [a [u (H1 & H2 & H3 & H4)]].
    exists a, u. split; [auto|]. split; [auto|]. split; [auto|]. intros w Z Hw HZ.
    apply (pendant_dconn (extend (mgraph m) w v) (mgraph m) w v Z u).
    + apply pendant_extend; auto. apply W.
    + apply W.
    + intros x Hx. apply HZ in Hx. destruct Hx as [->|Hx]; auto. apply W in Hx. apply Hx.
    + apply (P a u). auto.
    + assert (S : forall x, In x Z <-> In x (family (mgraph m) d)) by (intro x; rewrite HZ, in_family; tauto).
      destruct H4 as [N [q (Q1 & Q2 & Q3)]]. split; [rewrite S; auto|]. exists q. split; [auto|]. split.
      * intros x y z T. destruct (Q2 x y z T) as [T1 T2]. split.
        -- intro K. destruct (T1 K) as [e [E1 E2]]. exists e. rewrite S. auto.
        -- intro K. rewrite S. auto.
      * destruct q as [|x [|y q]]; auto. destruct Q3 as [Q3 Q4]. split.
        -- intro K. destruct (Q3 K) as [e [E1 E2]]. exists e. rewrite S. auto.
        -- intro K. rewrite S. auto.
  - intros [a [u (H1 & H2 & H3 & H4)]]. exists a, u, (mec v).
    assert (F := fresh_mec (mgraph m) v C Hv).
    split; [auto|]. split; [auto|]. split; [auto|]. split; [auto|].
    exists (family (mgraph m) d). split; [intro; apply in_family|]. apply H4; auto. intro; apply in_family.
Qed.
Print Assumptions C17_any_new_node.
Theorem C17_s_reachable : forall m ds d2, valid m -> no_clash (mgraph m) -> utilities_complete m ->
  (forall d, In d ds -> exists a, has_role m d (RDecision a)) ->
  ((exists a, has_role m d2 (RDecision a)) -> exists b, is_s_reachable m ds d2 = Ok b /\
     (b = true <-> exists d1, In d1 ds /\ r_relevant m d1 d2)) /\
  (~ (exists a, has_role m d2 (RDecision a)) -> is_s_reachable m ds d2 = Err AssertionError).
Proof.
  intros m ds d2 V C U D. assert (V' := V). destruct V' as (W & G & P). apply good_consistent in G.
  assert (M : In d2 (decisions m) <-> exists a, has_role m d2 (RDecision a)).
  { unfold decisions. rewrite in_keys_lookup. split; intros [a Ha]; exists a; apply good_listed_decision; auto. }
  unfold is_s_reachable. split; intro H.
  - rewrite (proj2 (mem_In _ _) (proj2 M H)).
    destruct (C17_r_reachable m ds [d2] V C U D) as [b [E R]].
    + intros x [<-|[]]. destruct H as [a H]. apply (P a d2). auto.
    + exists b. split; [exact E|]. rewrite R. split.
      * intros [d [v (H1 & [<-|[]] & H3)]]. eauto.
      * intros [d [H1 H2]]. exists d, d2. simpl. auto.
  - destruct (mem d2 (decisions m)) eqn:E; auto. apply mem_In in E. apply M in E. contradiction.
Qed.
Print Assumptions C17_s_reachable.
(* without an entry for the owner in the utility dictionary the test raises *)
Theorem C17_no_utilities_refuted : exists m, macid_init [("D","U"); ("E","U")] [("a",["D"]); ("b",["E"])] [("b",["U"])] = Ok m /\
  valid m /\ no_clash (mgraph m) /\ is_r_reachable m ["D"] ["E"] = Err KeyError.
Proof.
  exists (mkM (mkG ["D";"U";"E"] [("D","U"); ("E","U")]) [("a",["D"]); ("b",["E"])] [("b",["U"])] [("D","a"); ("E","b")] [("U","b")]).
  split; [vm_compute; reflexivity|]. split; [|split; [|vm_compute; reflexivity]].
  - apply (valid_init [("D","U"); ("E","U")] [("a",["D"]); ("b",["E"])] [("b",["U"])]); [vm_compute; reflexivity| |].
    + unfold clean_lists; simpl; split; [nodup|split; nodup].
    + intros a n. unfold listed. simpl. intros [[l [[H|[H|[]]] K]]|[l [[H|[]] K]]]; inversion H; subst;
      simpl in K; destruct K as [<-|[]]; auto 8.
  - intros n Hn. split; [|apply short_no_mec];
    simpl in Hn; destruct Hn as [<-|[<-|[<-|[]]]]; simpl; auto 8 with arith; intuition discriminate.
Qed.
Print Assumptions C17_no_utilities_refuted.
Example C17_example : valid ex12 /\ no_clash (mgraph ex12) /\ utilities_complete ex12 /\
  is_r_reachable ex12 ["E"] ["D"] = Ok true /\ is_r_reachable ex12 ["D"] ["E"] = Ok false /\
  is_s_reachable ex12 ["D"; "E"] "D" = Ok true /\ is_s_reachable ex12 ["D"] "X" = Err AssertionError /\
  is_r_reachable ex12 ["D"] ["X"; "U"] = Ok true.
Proof.
  split; [apply ex12_valid|]. split; [apply ex12_clash|]. split; [apply ex12_complete|]. vm_compute. auto 10.
Qed.

(* ---- C18 ---- *)
Theorem C18_relevance_graph : forall m ds, valid m -> no_clash (mgraph m) -> utilities_complete m -> NoDup ds ->
  (forall d, In d ds -> exists a, has_role m d (RDecision a)) ->
  exists g, relevance_graph m ds = Ok g /\ nodes g = ds /\
    forall x y, edge g x y <-> In x ds /\ In y ds /\ x <> y /\ r_relevant m x y.
Proof.
  intros m ds V C U N D.
  destruct (relevance_graph_spec m ds (valid_usable m V C) N) as [g (E & _ & E1 & E2)].
  - intros d Hd. exact (strategic_of m d V U (D d Hd)).
  - exists g. auto.
Qed.
Print Assumptions C18_relevance_graph.
Lemma all_recall_spec : forall m ags, valid m -> no_clash (mgraph m) -> utilities_complete m ->
  incl ags (keys (agent_decisions m)) ->
  exists b, all_recall m ags = Ok b /\
    (b = true <-> forall a ds, In a ags -> In (a, ds) (agent_decisions m) -> ~ recall_cycle m ds).
Proof.
  intros m ags V C U. assert (V' := V). destruct V' as (W & G & P). assert (G' := G).
  apply good_consistent in G. destruct G' as (N1 & _ & _ & _ & ND & _).
  induction ags as [|a ags IH]; intro I; simpl.
  - exists true. split; auto. split; [intros _ x ds []|auto].
  - assert (Ha : In a (keys (agent_decisions m))) by (apply I; left; auto).
    apply in_keys_lookup in Ha. destruct Ha as [ds Ed]. unfold dict_get. rewrite Ed. simpl.
    assert (Hin := lookup_In _ _ _ _ Ed).
    destruct (relevance_graph_spec m ds (valid_usable m V C)) as [g (E & Wg & E1 & E2)].
    + apply (ND a). auto.
    + intros d Hd. apply strategic_of; auto. exists a. exists ds. auto.
    + rewrite E. simpl. assert (RO := recall_one m ds g E Wg E2). destruct (is_dag g) eqn:Eg.
      * destruct IH as [b [E3 E4]]; [intros x Hx; apply I; right; auto|]. exists b. split; auto.
        rewrite E4. split; intros H x l.
        -- intros [<-|Hx] Hl; [|apply (H x l); auto]. assert (lookup a (agent_decisions m) = Some l) by (apply In_lookup; auto).
           replace l with ds by congruence. intro Hc. apply RO in Hc. discriminate.
        -- intros Hx Hl. apply (H x l); simpl; auto.
      * exists false. split; auto. split; [discriminate|]. intro H. exfalso.
        apply (H a ds (or_introl eq_refl) Hin). apply RO. auto.
Qed.
Theorem C18_sufficient_recall_partial : forall m, valid m -> no_clash (mgraph m) -> utilities_complete m -> decisions_complete m ->
  (forall a ds, In (a, ds) (agent_decisions m) -> In a (keys (agent_utilities m)) ->
     exists b, sufficient_recall m (Some a) = Ok b /\ (b = true <-> ~ recall_cycle m ds)) /\
  (forall a, ~ In a (keys (agent_utilities m)) -> sufficient_recall m (Some a) = Err ValueError) /\
  exists b, sufficient_recall m None = Ok b /\
    (b = true <-> forall a ds, In (a, ds) (agent_decisions m) -> ~ recall_cycle m ds).
Proof.
  intros m V C U D. split; [|split].
  - intros a ds Hin Ha. unfold sufficient_recall. unfold agents. rewrite (proj2 (mem_In _ _) Ha).
    destruct (all_recall_spec m [a] V C U) as [b [E1 E2]].
    + intros x [<-|[]]. apply in_map_iff. exists (a, ds). auto.
    + exists b. split; auto. rewrite E2. split.
      * intro H. apply (H a ds); simpl; auto.
      * intros H x l [<-|[]] Hl. destruct V as (_ & (N & _) & _).
        assert (L1 := In_lookup _ _ _ _ N Hl). assert (L2 := In_lookup _ _ _ _ N Hin). congruence.
  - intros a Ha. unfold sufficient_recall, agents. apply mem_nIn in Ha. rewrite Ha. reflexivity.
  - destruct (all_recall_spec m (agents m) V C U D) as [b [E1 E2]]. exists b. split; [exact E1|].
    rewrite E2. split; intros H a ds.
    + intros Hl [d [p Hc]]. apply (H a ds); auto; [|exists d, p; auto].
      inversion Hc; subst; [destruct p; discriminate|]. destruct H2 as (_ & Hd & _). apply (U a d). exists ds. auto.
    + intros _ Hl. apply (H a ds Hl).
Qed.
Print Assumptions C18_sufficient_recall_partial.
(* an agent with utilities only *)
Theorem C18_utility_only_agent_refuted : exists m,
  macid_init [("D","U"); ("D","V")] [("a",["D"])] [("a",["U"]); ("b",["V"])] = Ok m /\
  sufficient_recall m None = Err KeyError /\ sufficient_recall m (Some "b") = Err KeyError /\
  sufficient_recall m (Some "a") = Ok true.
Proof. eexists. split; [vm_compute; reflexivity|]. vm_compute. auto. Qed.
Print Assumptions C18_utility_only_agent_refuted.
(* one agent forgets: two decisions each relevant to the other *)
Definition ex18 : macid :=
  mkM (mkG ["D";"U";"E"] [("D","U"); ("E","U")]) [("a",["D";"E"])] [("a",["U"])] [("D","a"); ("E","a")] [("U","a")].
Lemma ex18_valid : valid ex18 /\ no_clash (mgraph ex18) /\ utilities_complete ex18 /\ decisions_complete ex18.
Proof.
  split; [|split; [|split]].
  - apply (valid_init [("D","U"); ("E","U")] [("a",["D";"E"])] [("a",["U"])]); [vm_compute; reflexivity| |].
    + unfold clean_lists; simpl; split; [nodup|split; nodup].
    + intros a n. unfold listed. simpl. intros [[l [[H|[]] K]]|[l [[H|[]] K]]]; inversion H; subst;
      simpl in K; intuition subst; auto.
  - intros n Hn. split; [|apply short_no_mec];
    simpl in Hn; destruct Hn as [<-|[<-|[<-|[]]]]; simpl; auto 8 with arith; intuition discriminate.
  - intros a d [l [[H|[]] K]]; inversion H; subst; simpl; auto.
  - intros a; simpl; auto.
Qed.
Example C18_example : valid ex18 /\ no_clash (mgraph ex18) /\ utilities_complete ex18 /\ decisions_complete ex18 /\
  sufficient_recall ex18 (Some "a") = Ok false /\ sufficient_recall ex12 None = Ok true /\
  sufficient_recall ex12 (Some "c") = Err ValueError /\
  (match relevance_graph ex18 ["D";"E"] with Ok g => edges g = [("D","E"); ("E","D")] | Err _ => False end) /\
  (match relevance_graph ex12 ["D";"E"] with Ok g => edges g = [("E","D")] | Err _ => False end).
Proof. destruct ex18_valid as (A & B & C & D). repeat (split; [assumption|]). vm_compute. auto 10. Qed.

(* ---- C19 ---- *)
(* impute_optimal_policy (cid.py 44) takes reversed(get_valid_order()): here l = rest ++ d :: done,
   and the decisions of rest are still to be processed when d is *)
Theorem C19_solving_order : forall m o a ds l, valid m -> no_clash (mgraph m) -> utilities_complete m -> valid_order o ->
  agent_decisions m = [(a, ds)] -> sufficient_recall m None = Ok true -> decisions_complete m ->
  get_valid_order o m None = Ok l ->
  forall rest d done, l = rest ++ d :: done -> forall d', In d' rest -> is_s_reachable m [d] d' = Ok false.
Proof.
  intros m o a ds l V C U O E R D G rest d done El d' Hd'.
  destruct (C15_default o m V O) as [l' (G' & N & T & I)]. rewrite G in G'. inversion G'; subst l'. clear G'.
  assert (V' := V). destruct V' as (W & Gr & P). apply good_consistent in Gr.
  assert (Own : forall x, In x l -> lookup x (decision_agent m) = Some a).
  { intros x Hx. apply I in Hx. destruct Hx as [b Hb]. apply good_listed_decision; auto.
    destruct Hb as [k [K1 K2]]. rewrite E in K1. destruct K1 as [K1|[]]. inversion K1; subst. exists k. rewrite E. simpl. auto. }
  assert (Hd : In d l) by (rewrite El; apply in_or_app; right; left; auto).
  assert (Hd1 : In d' l) by (rewrite El; apply in_or_app; auto).
  assert (Ne : d' <> d).
  { intro; subst d'. rewrite El in N. apply NoDup_app_inv in N. destruct N as (_ & _ & N). apply (N d Hd'). left; auto. }
  assert (ND : ~ descends (mgraph m) d' d).
  { apply in_split in Hd'. destruct Hd' as [r1 [r2 Er]]. apply (T r1 d' (r2 ++ d :: done) d).
    - rewrite El, Er, <- app_assoc. reflexivity.
    - apply in_or_app. right; left; auto. }
  destruct (C17_s_reachable m [d] d' V C U) as [S _].
  { intros x [<-|[]]. apply I. auto. }
  destruct S as [b [Eb Sb]]; [apply I; auto|]. destruct b; auto. exfalso.
  destruct (proj1 Sb eq_refl) as [x [[<-|[]] Rx]]. clear Sb.
  assert (Us := valid_usable m V C).
  assert (Ry := relevance_sym m d' d a Us (Own _ Hd1) (Own _ Hd) Ne ND Rx).
  destruct (C18_sufficient_recall_partial m V C U D) as (_ & _ & [b [Sr Rb]]). rewrite R in Sr. inversion Sr; subst b.
  apply (proj1 Rb eq_refl a ds); [rewrite E; left; auto|].
  assert (In d ds /\ In d' ds) as [I1 I2].
  { assert (L : forall x, In x l -> In x ds); [|auto]. intros x Hx. apply Own in Hx.
    apply good_listed_decision in Hx; auto. destruct Hx as [k [K1 K2]]. rewrite E in K1. destruct K1 as [K1|[]].
    inversion K1; subst; auto. }
  exists d, [d']. simpl. constructor; [auto|]. constructor; [auto|]. constructor.
Qed.
Print Assumptions C19_solving_order.
(* a two-stage diagram: the second decision observes the first *)
Definition ex19 : macid :=
  mkM (mkG ["A";"B";"U"] [("A","B"); ("A","U"); ("B","U")]) [(zero,["A";"B"])] [(zero,["U"])] [("A",zero); ("B",zero)] [("U",zero)].
Example C19_example : valid ex19 /\ no_clash (mgraph ex19) /\ utilities_complete ex19 /\ decisions_complete ex19 /\
  sufficient_recall ex19 None = Ok true /\ get_valid_order rev_order ex19 None = Ok ["A";"B"] /\
  is_s_reachable ex19 ["B"] "A" = Ok false /\ is_s_reachable ex19 ["A"] "B" = Ok true.
Proof.
  split; [|split; [|split; [|split]]].
  - apply (valid_init [("A","B"); ("A","U"); ("B","U")] [(zero,["A";"B"])] [(zero,["U"])]); [vm_compute; reflexivity| |].
    + unfold clean_lists; simpl; split; [nodup|split; nodup].
    + intros a n. unfold listed. simpl. intros [[l [[H|[]] K]]|[l [[H|[]] K]]]; inversion H; subst;
      simpl in K; intuition subst; auto.
  - intros n Hn. split; [|apply short_no_mec];
    simpl in Hn; destruct Hn as [<-|[<-|[<-|[]]]]; simpl; auto 8 with arith; intuition discriminate.
  - intros a d [l [[H|[]] K]]; inversion H; subst; simpl; auto.
  - intros a; simpl; auto.
  - vm_compute. auto.
Qed.
