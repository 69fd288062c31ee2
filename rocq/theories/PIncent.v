(* Properties C22-C28: requisite observations, the requisite graph and the incentive tests. *)
From Coq Require Import String List Bool Arith Permutation.
Import ListNotations.
From Verif Require Import MBase MGraph MPaths MMacid MIncent Spec SpecM SpecI
  LBase LGraph LActive LRoles LCopy LReach LCheck LTrim LIncent PMacid.
Local Open Scope string_scope.
Local Open Scope list_scope.

Ltac cid := apply cid_askable; [apply check_ok; vm_compute; reflexivity|apply clash_free_ok; vm_compute; reflexivity].

(* ---- C22 ---- *)
Theorem C22_requisite : forall m d x, valid m -> utilities_complete m -> is_decision m d -> edge (mgraph m) x d ->
  exists b, requisite m d x = Ok b /\ (b = true <-> requisite_in m (mgraph m) d x).
Proof. exact requisite_spec. Qed.
Print Assumptions C22_requisite.
Theorem C22_errors : forall m d x, valid m ->
  (~ In d (nodes (mgraph m)) -> requisite m d x = Err NetworkXError) /\
  (In d (nodes (mgraph m)) -> ~ edge (mgraph m) x d -> requisite m d x = Err KeyError) /\
  (edge (mgraph m) x d -> ~ is_decision m d -> requisite m d x = Err KeyError) /\
  (edge (mgraph m) x d -> is_decision m d -> utilities_complete m -> is_ok (requisite m d x) = true).
Proof.
  intros m d x V. assert (W : wf_graph (mgraph m)) by apply V.
  unfold requisite at 1 2 3, get_parents. split; [|split; [|split]].
  - intro H. apply mem_nIn in H. rewrite H. reflexivity.
  - intros H Ne. rewrite (proj2 (mem_In _ _) H). cbn [bind]. rewrite mem_parents.
    destruct (has_edge (mgraph m) x d) eqn:E; [apply has_edge_iff in E; contradiction|]. reflexivity.
  - intros E Nd. assert (H : In d (nodes (mgraph m))) by (eapply wf_edge_r; [exact W|exact E]).
    rewrite (proj2 (mem_In _ _) H). cbn [bind].
    rewrite mem_parents, (proj2 (has_edge_iff _ _ _) E). cbn [negb]. unfold dict_get.
    destruct (lookup d (decision_agent m)) as [a|] eqn:El; [|reflexivity]. exfalso. apply Nd. apply in_decisions; auto.
    apply in_keys_lookup. eauto.
  - intros E D U. destruct (requisite_spec m d x V U D E) as [b [-> _]]. reflexivity.
Qed.
Print Assumptions C22_errors.
(* X and Y are seen by D; only Y matters, X is screened off by Y *)
Definition ex22 : macid :=
  cid_of (mkG ["X";"Y";"D";"U"] [("X","Y"); ("X","D"); ("Y","D"); ("Y","U"); ("D","U")]) ["D"] ["U"].
Lemma ex22_askable : askable IsCID ex22.
Proof. cid. Qed.
Lemma ex22_recalls : recalls ex22.
Proof. apply (cid_recalls IsCID); [apply ex22_askable|vm_compute; reflexivity]. Qed.
Example C22_example : valid ex22 /\ utilities_complete ex22 /\ is_decision ex22 "D" /\
  edge (mgraph ex22) "X" "D" /\ edge (mgraph ex22) "Y" "D" /\
  requisite ex22 "D" "X" = Ok false /\ requisite ex22 "D" "Y" = Ok true /\ requisite_list ex22 "D" = Ok ["Y"].
Proof.
  destruct ex22_askable as (V & Pr & S & C). split; [exact V|]. split; [exact (proj1 (proper_complete _ _ V Pr))|].
  split; [exists zero; exists ["D"]; simpl; auto|]. split; [apply has_edge_iff; reflexivity|].
  split; [apply has_edge_iff; reflexivity|]. vm_compute. auto.
Qed.

(* ---- C23 ---- *)
(* any number of agents: the result is the diagram with information links dropped one after the
   other, each of them not requisite at that point; all other edges, the nodes and the roles stay *)
Theorem C23_requisite_graph : forall k o m, valid m -> proper k m -> valid_order o ->
  exists r, requisite_graph k o m = Ok r /\ valid r /\ proper k r /\ same_roles m r /\ nodes (mgraph r) = nodes (mgraph m) /\
    (exists h, same_edges (mgraph r) h /\ reduces m (mgraph m) h) /\
    (forall x y, ~ is_decision m y -> edge (mgraph m) x y -> edge (mgraph r) x y) /\
    (single_agent m -> irreducible m (mgraph r)).
Proof. exact requisite_graph_spec. Qed.
Print Assumptions C23_requisite_graph.
(* there is only one minimal reduction, so the answer does not depend on how ties are broken in
   the topological order *)
Theorem C23_unique : forall m g h1 h2, wf_dag g -> minimal_reduction m g h1 -> minimal_reduction m g h2 -> h1 = h2.
Proof. exact reduction_unique. Qed.
Print Assumptions C23_unique.
Theorem C23_order_independent : forall k o o' m r r', valid m -> proper k m -> single_agent m -> valid_order o -> valid_order o' ->
  requisite_graph k o m = Ok r -> requisite_graph k o' m = Ok r' -> same_edges (mgraph r) (mgraph r').
Proof.
  intros k o o' m r r' V Pr S O O' E E'.
  destruct (reduction_ok k o m V Pr S O) as (q & Q & _ & _ & _ & h & H1 & H2). rewrite E in Q. inversion Q; subst q.
  destruct (reduction_ok k o' m V Pr S O') as (q & Q' & _ & _ & _ & h' & H1' & H2'). rewrite E' in Q'. inversion Q'; subst q.
  assert (h = h') by (eapply reduction_unique; [apply V|exact H1|exact H1']). subst h'.
  eapply same_edges_trans; [exact H2|apply same_edges_sym; auto].
Qed.
Print Assumptions C23_order_independent.
Theorem C23_idempotent : forall k o o' m r, valid m -> proper k m -> single_agent m -> valid_order o -> valid_order o' ->
  requisite_graph k o m = Ok r -> exists r', requisite_graph k o' r = Ok r' /\ same_edges (mgraph r') (mgraph r).
Proof.
  intros k o o' m r V Pr S O O' E.
  destruct (requisite_graph_spec k o m V Pr O) as (q & Q & Vr & Prr & SR & _ & _ & _ & I). rewrite E in Q. inversion Q; subst q.
  destruct (requisite_graph_spec k o' r Vr Prr O') as (r' & E' & _ & _ & _ & _ & (h & H1 & H2) & _).
  exists r'. split; auto.
  assert (Ir : irreducible r (mgraph r)).
  { intros d x [a D] Ex. eapply requisite_in_roles; [exact SR|]. apply (I S); auto. exists a. apply (SR d (RDecision a)). exact D. }
  destruct H2 as [g|g g' h D _]; [exact H1|]. exfalso. exact (irreducible_no_drop _ _ _ Ir D).
Qed.
Print Assumptions C23_idempotent.
Example C23_example : askable IsCID ex22 /\ valid_order id_order /\
  match requisite_graph IsCID id_order ex22 with
  | Ok r => edges (mgraph r) = [("X","Y"); ("Y","D"); ("Y","U"); ("D","U")] | Err _ => False end.
Proof. split; [apply ex22_askable|]. split; [apply id_order_valid|]. vm_compute. reflexivity. Qed.
(* with several agents one run is not enough: X -> D2 is requisite only through Y -> D1, which is
   dropped afterwards *)
Definition ex23 : macid :=
  diagram_of (mkG ["Y";"D1";"U1";"X";"D2";"U2"]
                  [("Y","D1"); ("Y","U2"); ("D1","U1"); ("D1","X"); ("X","D2"); ("D2","U2")])
    [("1",["D1"]); ("2",["D2"])] [("1",["U1"]); ("2",["U2"])].
Theorem C23_several_agents_refuted : valid ex23 /\ proper IsMACID ex23 /\
  exists r r', requisite_graph IsMACID id_order ex23 = Ok r /\ requisite_graph IsMACID id_order r = Ok r' /\
    edge (mgraph r) "X" "D2" /\ ~ edge (mgraph r') "X" "D2".
Proof.
  split; [apply check_ok; vm_compute; reflexivity|]. split.
  { split.
    - simpl. intros a [<-|[<-|[]]]; [exists "D1", ["D1"]|exists "D2", ["D2"]]; simpl; auto.
    - simpl. intros a d (l & [H|[H|[]]] & _); inversion H; subst; [exists "U1", ["U1"]|exists "U2", ["U2"]]; simpl; auto. }
  eexists. eexists. split; [vm_compute; reflexivity|]. split; [vm_compute; reflexivity|].
  rewrite <- !has_edge_iff. vm_compute. split; [reflexivity|discriminate].
Qed.
Print Assumptions C23_several_agents_refuted.
(* an agent with a decision whose utility list is empty: its entry is lost in the copy *)
Theorem C23_no_utility_refuted : exists m r,
  macid_init [("X","D")] [("a",["D"])] [("a",[])] = Ok m /\
  requisite m "D" "X" = Ok false /\ requisite_graph IsMACID id_order m = Err KeyError /\
  cid_init [("X","D")] ["D"] [] = Ok r /\ is_ok (requisite_graph IsCID id_order r) = true.
Proof. eexists. eexists. repeat split; vm_compute; reflexivity. Qed.
Print Assumptions C23_no_utility_refuted.

(* ---- C24 ---- *)
(* one decision: the criterion on the diagram as given *)
Theorem C24_voi : forall k o m d x, askable k m -> recalls m -> valid_order o ->
  (forall e, is_decision m e <-> e = d) -> In x (nodes (mgraph m)) ->
  exists b, admits_voi k o m d x = Ok b /\
    (b = true <-> x <> d /\ ~ descends (mgraph m) x d /\ requisite_in m (mgraph m) d x).
Proof. exact admits_voi_single. Qed.
Print Assumptions C24_voi.
(* the criterion does not depend on whether the link is there already *)
Theorem C24_link_irrelevant : forall m g g' d x, wf_dag g -> In x (nodes g) -> In d (nodes g) -> x <> d -> ~ descends g x d ->
  with_link g x d g' -> (requisite_in m g' d x <-> requisite_in m g d x).
Proof. exact criterion_with_link. Qed.
Print Assumptions C24_link_irrelevant.
(* any number of decisions: the link X -> D survives in the minimal reduction of the diagram
   with that link *)
Theorem C24_voi_reduction : forall k o m d x, askable k m -> recalls m -> valid_order o ->
  In x (nodes (mgraph m)) -> In d (nodes (mgraph m)) ->
  exists b, admits_voi k o m d x = Ok b /\
    (b = true <-> x <> d /\ ~ descends (mgraph m) x d /\
       exists g' h, with_link (mgraph m) x d g' /\ (exists h', minimal_reduction m g' h' /\ same_edges h h') /\ edge h x d).
Proof.
  intros k o m d x A Rc O Hx Hd. destruct (admits_voi_spec k o m d x A Rc O Hx Hd) as (b & E & B & _). exists b. auto.
Qed.
Print Assumptions C24_voi_reduction.
Definition ex24 : macid :=
  cid_of (mkG ["X";"Y";"D";"U";"W"] [("X","Y"); ("Y","D"); ("X","U"); ("D","U"); ("D","W")]) ["D"] ["U"].
Lemma ex24_askable : askable IsCID ex24.
Proof. cid. Qed.
Lemma ex24_recalls : recalls ex24.
Proof. apply (cid_recalls IsCID); [apply ex24_askable|vm_compute; reflexivity]. Qed.
Example C24_example : askable IsCID ex24 /\ recalls ex24 /\ (forall e, is_decision ex24 e <-> e = "D") /\
  admits_voi IsCID id_order ex24 "D" "X" = Ok true /\ admits_voi IsCID id_order ex24 "D" "Y" = Ok true /\
  admits_voi IsCID id_order ex24 "D" "W" = Ok false /\ admits_voi IsCID id_order ex22 "D" "X" = Ok false.
Proof.
  split; [apply ex24_askable|]. split; [apply ex24_recalls|]. split.
  { intro e. split; [intros (a & l & [H|[]] & K); inversion H; subst; destruct K as [<-|[]]; auto|].
    intros ->. exists zero, ["D"]. simpl; auto. }
  vm_compute. auto.
Qed.
(* a node that is no decision: every non-descendant has "value of information" *)
Theorem C24_not_a_decision_refuted :
  admits_voi IsCID id_order ex24 "U" "W" = Ok true /\ ~ is_decision ex24 "U".
Proof.
  split; [vm_compute; reflexivity|]. intros (a & l & [H|[]] & K). inversion H; subst. destruct K as [K|[]]. discriminate.
Qed.
Print Assumptions C24_not_a_decision_refuted.

(* ---- C25 ---- *)
Theorem C25_voc : forall k o m x, askable k m -> recalls m -> valid_order o -> In x (nodes (mgraph m)) ->
  exists r b, requisite_graph k o m = Ok r /\ is_reduction m (mgraph m) (mgraph r) /\
    admits_voc k o m x = Ok b /\ (b = true <-> has_voc m (mgraph r) x).
Proof.
  intros k o m x A Rc O Hx. destruct (admits_voc_spec k o m x A Rc O Hx) as (r & b & E & B).
  destruct (ask k o m A Rc O) as (_ & _ & r' & R1 & _ & _ & R4). rewrite E in R1. inversion R1; subst r'. exists r, b. auto.
Qed.
Print Assumptions C25_voc.
Theorem C25_dir_voc : forall k o m x, askable k m -> recalls m -> valid_order o -> In x (nodes (mgraph m)) ->
  exists r b, requisite_graph k o m = Ok r /\ is_reduction m (mgraph m) (mgraph r) /\
    admits_dir_voc k o m x = Ok b /\ (b = true <-> has_dir_voc m (mgraph r) x) /\
    (b = true -> admits_voc k o m x = Ok true).
Proof.
  intros k o m x A Rc O Hx. destruct (dir_spec k o m x A Rc O Hx) as (r & b & E & B1 & B2).
  destruct (ask k o m A Rc O) as (_ & _ & r' & R1 & _ & _ & R4). rewrite E in R1. inversion R1; subst r'.
  destruct (admits_voc_spec k o m x A Rc O Hx) as (r' & c & E' & C1 & C2). rewrite E in E'. inversion E'; subst r'.
  exists r, b. split; [auto|]. split; [auto|]. split; [auto|]. split; [auto|].
  intro K. rewrite C1. f_equal. apply C2. apply B2 in K. destruct K as (u & p & H1 & H2 & H3). split.
  - apply H3. destruct H2 as [_ [H2 _]]. destruct p; inversion H2; subst; simpl; auto.
  - exists u. split; auto. eapply directed_path_reach; eauto.
Qed.
Print Assumptions C25_dir_voc.
Theorem C25_indir_voc : forall k o s m d x, askable k m -> recalls m -> valid_order o -> valid_order s ->
  In x (nodes (mgraph m)) -> In d (nodes (mgraph m)) ->
  exists r b, requisite_graph k o m = Ok r /\ is_reduction m (mgraph m) (mgraph r) /\
    admits_indir_voc k o s m d x = Ok b /\ (b = true <-> has_indir_voc m (mgraph r) d x) /\
    (b = true -> admits_voc k o m x = Ok true).
Proof.
  intros k o s m d x A Rc O Os Hx Hd. destruct (indir_spec k o s m d x A Rc O Os Hx Hd) as (r & b & E & B1 & B2).
  destruct (ask k o m A Rc O) as (_ & _ & r' & R1 & _ & _ & R4). rewrite E in R1. inversion R1; subst r'.
  destruct (admits_voc_spec k o m x A Rc O Hx) as (r' & c & E' & C1 & C2). rewrite E in E'. inversion E'; subst r'.
  exists r, b. split; [auto|]. split; [auto|]. split; [auto|]. split; [auto|].
  intro K. rewrite C1. f_equal. apply C2. apply B2 in K. destruct K as (H1 & u & H2 & (p & H3 & _) & _). split; auto.
  exists u. split; auto. eapply directed_path_reach; eauto.
Qed.
Print Assumptions C25_indir_voc.
(* X is seen by D and shares the cause W with U: indirect only; Z has a direct path *)
Definition ex25 : macid :=
  cid_of (mkG ["W";"X";"D";"U";"Z"] [("W","X"); ("W","U"); ("X","D"); ("D","U"); ("Z","U")]) ["D"] ["U"].
Example C25_example : askable IsCID ex25 /\ recalls ex25 /\
  admits_voc_list IsCID id_order ex25 = Ok ["W";"X";"U";"Z"] /\
  admits_dir_voc_list IsCID id_order ex25 = Ok ["W";"U";"Z"] /\
  admits_indir_voc_list IsCID id_order id_order ex25 "D" = Ok ["X"].
Proof.
  assert (A : askable IsCID ex25) by cid. split; [exact A|].
  split; [apply (cid_recalls IsCID); [exact A|vm_compute; reflexivity]|]. vm_compute. auto.
Qed.

(* ---- C26 ---- *)
Theorem C26_ri : forall k o m d x, askable k m -> recalls m -> valid_order o ->
  In x (nodes (mgraph m)) -> In d (nodes (mgraph m)) ->
  exists r b, requisite_graph k o m = Ok r /\ is_reduction m (mgraph m) (mgraph r) /\
    admits_ri k o m d x = Ok b /\ (b = true <-> x <> d /\ reach (mgraph r) x d) /\
    (b = true -> is_decision m d -> exists y, edge (mgraph r) y d /\ requisite_in m (mgraph r) d y /\ reach (mgraph r) x y).
Proof.
  intros k o m d x A Rc O Hx Hd. destruct (ri_spec k o m d x A Rc O Hx Hd) as (r & b & E & B1 & B2).
  destruct (ask k o m A Rc O) as (_ & _ & r' & R1 & R2 & _ & R4). rewrite E in R1. inversion R1; subst r'.
  exists r, b. split; [auto|]. split; [auto|]. split; [auto|]. split; [auto|].
  intros K D. apply B2 in K. destruct K as [Hn K].
  assert (L : exists y, edge (mgraph r) y d /\ reach (mgraph r) x y).
  { clear - Hn K. induction K as [x|x y d Exy Hr IH]; [congruence|].
    destruct (string_dec y d) as [->|Hyd]; [exists x; split; auto; constructor|].
    destruct (IH Hyd) as (z & Z1 & Z2). exists z. split; auto. econstructor; eauto. }
  destruct L as (y & Y1 & Y2). exists y. split; auto. split; auto.
  destruct R4 as (_ & h & [_ I] & S). eapply requisite_in_ext; [apply same_edges_sym; exact S|apply R2|].
  apply I; auto. apply S; auto.
Qed.
Print Assumptions C26_ri.
Example C26_example : askable IsCID ex22 /\ recalls ex22 /\
  admits_ri_list IsCID id_order ex22 "D" = Ok ["X"; "Y"] /\
  admits_ri IsCID id_order ex22 "D" "D" = Ok false /\ admits_ri IsCID id_order ex22 "D" "U" = Ok false.
Proof. split; [apply ex22_askable|]. split; [apply ex22_recalls|]. vm_compute. auto. Qed.

(* ---- C27 ---- *)
Theorem C27_ici : forall k m d x, valid m -> proper k m -> single_agent m ->
  In x (nodes (mgraph m)) -> In d (nodes (mgraph m)) ->
  exists b, admits_ici m d x = Ok b /\ (b = true <-> has_ici m d x).
Proof. exact ici_spec. Qed.
Print Assumptions C27_ici.
Example C27_example : askable IsCID ex24 /\ admits_ici_list ex24 "D" = Ok ["D"; "U"].
Proof. split; [apply ex24_askable|]. vm_compute. reflexivity. Qed.

(* ---- C28 ---- *)
Theorem C28_several_agents : forall k o s m d x, 1 < length (agents m) ->
  admits_voi k o m d x = Err ValueError /\ admits_voc k o m x = Err ValueError /\
  admits_indir_voc k o s m d x = Err ValueError /\ admits_dir_voc k o m x = Err ValueError /\
  admits_ri k o m d x = Err ValueError /\ admits_ici m d x = Err ValueError.
Proof.
  intros k o s m d x H.
  assert (E : several_agents m = true) by (apply Nat.ltb_lt; exact H).
  unfold admits_voi, admits_voc, admits_indir_voc, admits_dir_voc, admits_ri, admits_ici. rewrite E. auto 10.
Qed.
Print Assumptions C28_several_agents.
Theorem C28_absent_node : forall k o s m d x, length (agents m) <= 1 ->
  (~ In x (nodes (mgraph m)) ->
     admits_voi k o m d x = Err KeyError /\ admits_voc k o m x = Err KeyError /\
     admits_indir_voc k o s m d x = Err KeyError /\ admits_dir_voc k o m x = Err KeyError /\
     admits_ri k o m d x = Err KeyError /\ admits_ici m d x = Err KeyError) /\
  (~ In d (nodes (mgraph m)) ->
     admits_voi k o m d x = Err KeyError /\ admits_indir_voc k o s m d x = Err KeyError /\
     admits_ri k o m d x = Err KeyError /\ admits_ici m d x = Err KeyError).
Proof.
  intros k o s m d x H.
  assert (E : several_agents m = false) by (apply Nat.ltb_ge; exact H).
  unfold admits_voi, admits_voc, admits_indir_voc, admits_dir_voc, admits_ri, admits_ici. rewrite E.
  split; intro N; apply mem_nIn in N; rewrite N; simpl; auto 10.
  destruct (mem x (nodes (mgraph m))); simpl; auto 10.
Qed.
Print Assumptions C28_absent_node.
Theorem C28_insufficient_recall : forall k o s m d x, askable k m -> ~ recalls m -> valid_order o ->
  In x (nodes (mgraph m)) -> In d (nodes (mgraph m)) ->
  admits_voi k o m d x = Err ValueError /\ admits_voc k o m x = Err ValueError /\
  admits_indir_voc k o s m d x = Err ValueError /\ admits_dir_voc k o m x = Err ValueError /\
  admits_ri k o m d x = Err ValueError /\ is_ok (admits_ici m d x) = true.
Proof.
  intros k o s m d x A N O Hx Hd. destruct (no_recall k m A N) as [E1 E2]. destruct A as (V & Pr & S & C).
  destruct (reduction_ok k o m V Pr S O) as (r & R1 & _).
  destruct (ici_spec k m d x V Pr S Hx Hd) as [b [E3 _]].
  unfold admits_voi, admits_indir_voc, admits_dir_voc, admits_ri. rewrite E3.
  assert (Ev : admits_voc k o m x = Err ValueError).
  { unfold admits_voc. rewrite E2, (proj2 (mem_In _ _) Hx), E1. reflexivity. }
  rewrite Ev, R1, E2, (proj2 (mem_In _ _) Hx), (proj2 (mem_In _ _) Hd), E1. simpl. auto 10.
Qed.
Print Assumptions C28_insufficient_recall.
Theorem C28_lists : forall k o s m d, askable k m -> recalls m -> valid_order o -> valid_order s -> In d (nodes (mgraph m)) ->
  (exists l, admits_voi_list k o s m d = Ok l /\ NoDup l /\
     forall x, In x l <-> In x (nodes (mgraph m)) /\ admits_voi k o m d x = Ok true) /\
  (exists l, admits_voc_list k o m = Ok l /\ NoDup l /\
     forall x, In x l <-> In x (nodes (mgraph m)) /\ admits_voc k o m x = Ok true) /\
  (exists l, admits_indir_voc_list k o s m d = Ok l /\ NoDup l /\
     forall x, In x l <-> In x (nodes (mgraph m)) /\ admits_indir_voc k o s m d x = Ok true) /\
  (exists l, admits_dir_voc_list k o m = Ok l /\ NoDup l /\
     forall x, In x l <-> In x (nodes (mgraph m)) /\ admits_dir_voc k o m x = Ok true) /\
  (exists l, admits_ri_list k o m d = Ok l /\ NoDup l /\
     forall x, In x l <-> In x (nodes (mgraph m)) /\ admits_ri k o m d x = Ok true) /\
  (exists l, admits_ici_list m d = Ok l /\ NoDup l /\
     forall x, In x l <-> In x (nodes (mgraph m)) /\ admits_ici m d x = Ok true).
Proof.
  intros k o s m d A Rc O Os Hd. assert (A' := A). destruct A' as (V & Pr & S & C).
  assert (N : NoDup (nodes (mgraph m))) by apply V.
  split; [|split; [|split; [|split; [|split]]]]; try (apply filter_r_exact; auto; intros x Hx).
  - unfold admits_voi_list, nx_descendants. rewrite (proj2 (mem_In _ _) Hd). cbn [bind].
    set (l0 := set_diff (set_diff (nodes (mgraph m)) (descendants (mgraph m) d)) [d]).
    assert (Pm : Permutation l0 (s [d] l0)) by (apply Permutation_sym, Os).
    destruct (filter_r_exact (admits_voi k o m d) (s [d] l0)) as (l & L1 & L2 & L3).
    + intros x Hx. apply (Permutation_in _ (Permutation_sym Pm)) in Hx. unfold l0 in Hx. rewrite !in_set_diff in Hx.
      destruct (admits_voi_spec k o m d x A Rc O) as (b & E & _); [tauto|auto|eauto].
    + apply (Permutation_NoDup Pm). apply NoDup_set_diff.
    + exists l. split; [exact L1|]. split; [exact L2|]. intro x. rewrite L3. split; intros [H1 H2]; (split; [|auto]).
      * apply (Permutation_in _ (Permutation_sym Pm)) in H1. unfold l0 in H1. rewrite !in_set_diff in H1. tauto.
      * apply (Permutation_in _ Pm). unfold l0. rewrite !in_set_diff.
        destruct (admits_voi_spec k o m d x A Rc O H1 Hd) as (b & E & B & _). rewrite E in H2. inversion H2; subst b.
        destruct (proj1 B eq_refl) as (B1 & B2 & _). split; [split; auto|].
        -- rewrite descendants_iff by (auto; apply V). auto.
        -- simpl. intros [|[]]. congruence.
  - destruct (admits_voc_spec k o m x A Rc O Hx) as (r & b & _ & E & _). eauto.
  - destruct (indir_spec k o s m d x A Rc O Os Hx Hd) as (r & b & _ & E & _). eauto.
  - destruct (dir_spec k o m x A Rc O Hx) as (r & b & _ & E & _). eauto.
  - destruct (ri_spec k o m d x A Rc O Hx Hd) as (r & b & _ & E & _). eauto.
  - destruct (ici_spec k m d x V Pr S Hx Hd) as (b & E & _). eauto.
Qed.
Print Assumptions C28_lists.
(* two decisions that each rely on the other *)
Definition ex28 : macid :=
  cid_of (mkG ["D";"E";"U"] [("D","U"); ("E","U")]) ["D";"E"] ["U"].
Example C28_example : askable IsCID ex28 /\ ~ recalls ex28 /\ admits_voi IsCID id_order ex28 "D" "E" = Err ValueError /\
  1 < length (agents ex23) /\ askable IsCID ex24 /\ recalls ex24 /\
  admits_voi_list IsCID id_order rev_order ex24 "D" = Ok ["Y"; "X"].
Proof.
  assert (A : askable IsCID ex28) by cid. split; [exact A|]. split.
  { intro K. destruct (recall_ok IsCID ex28 A) as [b [E1 E2]]. apply E2 in K. subst b. vm_compute in E1. discriminate. }
  split; [vm_compute; reflexivity|]. split; [apply Nat.ltb_lt; vm_compute; reflexivity|].
  split; [apply ex24_askable|]. split; [apply ex24_recalls|]. vm_compute. reflexivity.
Qed.
(* an absent decision is reported by another exception in the list versions and in requisite *)
Theorem C28_absent_decision_refuted :
  requisite ex24 "Q" "X" = Err NetworkXError /\ admits_voi_list IsCID id_order id_order ex24 "Q" = Err NetworkXError.
Proof. vm_compute. auto. Qed.
Print Assumptions C28_absent_decision_refuted.
(* a node named like a mechanism: with two decisions the recall test raises an unrelated error *)
Theorem C28_node_name_refuted : exists m, cid_init [("D1","mecABC"); ("mecABC","D2"); ("D2","U"); ("D1","D2")] ["D1";"D2"] ["U"] = Ok m /\
  admits_voc IsCID id_order m "mecABC" = Err ValueError.
Proof. eexists. split; [vm_compute; reflexivity|]. vm_compute. reflexivity. Qed.
Print Assumptions C28_node_name_refuted.
