(* Strategic reachability, relevance graphs, recall. *)
From Coq Require Import String List Bool Arith Permutation Lia.
Import ListNotations.
From Verif Require Import MBase MGraph MMacid Spec SpecM LBase LGraph LDfs LPaths LActive LRoles LCopy LMech.
Local Open Scope list_scope.

Lemma any_r_spec : forall (A : Type) (f : A -> result bool) (P : A -> Prop) l,
  (forall x, In x l -> exists b, f x = Ok b /\ (b = true <-> P x)) ->
  exists b, any_r f l = Ok b /\ (b = true <-> exists x, In x l /\ P x).
Proof.
  intros A f P. induction l as [|x l IH]; intro H; simpl.
  - exists false. split; auto. split; [discriminate|intros [x [[] _]]].
  - destruct (H x (or_introl eq_refl)) as [b [E1 E2]]. rewrite E1. simpl. destruct b.
    + exists true. split; auto. split; auto. intros _. exists x. split; auto. apply E2; auto.
    + destruct IH as [b [E3 E4]]; [intros y Hy; apply H; simpl; auto|].
      exists b. split; auto. rewrite E4. split.
      * intros [y [H1 H2]]. eauto.
      * intros [y [[->|H1] H2]]; [apply E2 in H2; discriminate|eauto].
Qed.
Lemma any_r_err : forall (A : Type) (f : A -> result bool) l e, l <> [] -> (forall x, In x l -> f x = Err e) -> any_r f l = Err e.
Proof. intros A f [|x l] e H1 H2; [congruence|]. simpl. rewrite H2 by (simpl; auto). auto. Qed.

(* d and its parents *)
Definition family (g : graph) (d : node) : list node := d :: parents g d.
Lemma in_family : forall g d x, In x (family g d) <-> x = d \/ edge g x d.
Proof. intros. unfold family. simpl. rewrite in_parents. split; intros [H|H]; auto. Qed.
Lemma family_nodes : forall g d, wf_graph g -> In d (nodes g) -> incl (family g d) (nodes g).
Proof.
  intros g d (_ & _ & W) H x Hx. apply in_family in Hx. destruct Hx as [->|Hx]; auto. apply (W _ _ Hx).
Qed.
Lemma fresh_mec : forall g v, no_clash g -> In v (nodes g) -> ~ In (mec v) (nodes g).
Proof. intros g v C H. apply C; auto. Qed.

(* the diagrams the reachability questions are asked about *)
Definition usable (m : macid) : Prop :=
  wf_dag (mgraph m) /\ good_roles m /\ role_nodes_present m /\ no_clash (mgraph m).

Lemma r_relevant_char : forall m d v, wf_dag (mgraph m) -> no_clash (mgraph m) -> In d (nodes (mgraph m)) ->
  In v (nodes (mgraph m)) ->
  (r_relevant m d v <-> exists a u, listed (agent_decisions m) a d /\ listed (agent_utilities m) a u /\
     descends (mgraph m) u d /\ pend_conn (mgraph m) (family (mgraph m) d) v u).
Proof.
  intros m d v W C Hd Hv. assert (I := family_nodes _ _ (proj1 W) Hd). split.
  - intros (a & u & w & H1 & H2 & H3 & H4 & Z & H5 & H6). exists a, u.
    split; [auto|]. split; [auto|]. split; [auto|].
    assert (Hu : In u (nodes (mgraph m))) by (eapply wf_reach; [apply W|apply descends_reach; eauto|auto]).
    assert (P := pendant_extend _ w v (proj1 W) Hv H4).
    apply (pendant_dconn _ _ _ _ _ _ P); auto; try apply W.
    eapply dconn_ext; [|apply H6]; intro x; rewrite H5, in_family; tauto.
  - intros (a & u & H1 & H2 & H3 & H4). exists a, u, (mec v). split; [auto|]. split; [auto|]. split; [auto|]. split.
    + apply fresh_mec; auto.
    + exists (family (mgraph m) d). split; [intro; apply in_family|].
      assert (Hu : In u (nodes (mgraph m))) by (eapply wf_reach; [apply W|apply descends_reach; eauto|auto]).
      apply (pendant_dconn _ _ _ _ _ _ (pendant_extend _ (mec v) v (proj1 W) Hv (fresh_mec _ _ C Hv))); auto. apply W.
Qed.
Lemma good_listed_decision : forall m a d, good_roles m -> (listed (agent_decisions m) a d <-> lookup d (decision_agent m) = Some a).
Proof. intros m a d G. apply side_listed. apply G. Qed.
Lemma good_listed_utility : forall m a d, good_roles m -> (listed (agent_utilities m) a d <-> lookup d (utility_agent m) = Some a).
Proof. intros m a d G. apply side_listed. apply G. Qed.
Lemma good_utilities_of : forall m a us u, good_roles m -> lookup a (agent_utilities m) = Some us ->
  (In u us <-> listed (agent_utilities m) a u).
Proof.
  intros m a us u G E. rewrite listed_lookup by apply G. rewrite E. split; [eauto|].
  intros [l [E' H]]. congruence.
Qed.

Lemma r_reachable1_spec : forall m h d v a, usable m -> is_mech_graph (mgraph m) h ->
  lookup d (decision_agent m) = Some a -> In a (keys (agent_utilities m)) -> In v (nodes (mgraph m)) ->
  exists b, r_reachable1 m h d v = Ok b /\ (b = true <-> r_relevant m d v).
Proof.
  intros m h d v a (W & G & P & C) H Hd Ha Hv.
  assert (Ld : listed (agent_decisions m) a d) by (apply good_listed_decision; auto).
  assert (Hdn : In d (nodes (mgraph m))) by (eapply P; eauto).
  unfold r_reachable1, get_parents, nx_descendants, dict_get. apply mem_In in Hdn as Hm. rewrite Hm. simpl.
  rewrite Hd. simpl. apply in_keys_lookup in Ha. destruct Ha as [us Eus]. rewrite Eus. simpl.
  assert (Pd := pendant_mech _ _ v (proj1 W) C H Hv).
  assert (I := family_nodes _ _ (proj1 W) Hdn).
  assert (Ih : incl (family (mgraph m) d) (nodes h)) by (intros x Hx; apply H; left; auto).
  assert (Hmv : In (mec v) (nodes h)) by (apply H; right; eauto).
  destruct (any_r_spec node (fun u => is_dconnected h (mec v) u (d :: parents (mgraph m) d))
     (fun u => dconn h (family (mgraph m) d) (mec v) u) (set_inter us (descendants (mgraph m) d))) as [b [E1 E2]].
  - intros u Hu. destruct (is_dconnected_spec h (mec v) u (family (mgraph m) d)) as [b [E1 E2]]; auto; [apply H|].
    exists b. auto.
  - exists b. split; auto. rewrite E2, r_relevant_char by auto. split.
    + intros [u [Hu1 Hu2]]. apply in_set_inter in Hu1. destruct Hu1 as [Hu1 Hu3].
      assert (Hu4 : descends (mgraph m) u d) by (apply descendants_iff in Hu3; auto; try apply W).
      assert (Hun : In u (nodes (mgraph m))) by (eapply wf_reach; [apply W|apply descends_reach; eauto|auto]).
      exists a, u. split; [auto|]. split; [apply (good_utilities_of _ _ us); auto|]. split; auto.
      apply (pendant_dconn _ _ _ _ _ _ Pd); auto. apply W.
    + intros (a' & u & H1 & H2 & H3 & H4).
      assert (Hun : In u (nodes (mgraph m))) by (eapply wf_reach; [apply W|apply descends_reach; eauto|auto]).
      assert (a' = a) by (apply good_listed_decision in H1; auto; congruence). subst a'.
      exists u. split.
      * apply in_set_inter. split; [apply (good_utilities_of _ _ _ _ G Eus); auto|]. apply descendants_iff; auto; apply W.
      * apply (pendant_dconn _ _ _ _ _ _ Pd); auto. apply W.
Qed.

Lemma is_r_reachable_spec : forall m ds vs, usable m ->
  (forall d, In d ds -> exists a, lookup d (decision_agent m) = Some a /\ In a (keys (agent_utilities m))) ->
  incl vs (nodes (mgraph m)) ->
  exists b, is_r_reachable m ds vs = Ok b /\
    (b = true <-> exists d v, In d ds /\ In v vs /\ r_relevant m d v).
Proof.
  intros m ds vs U Hd Hv. assert (U' := U). destruct U' as (W & G & P & C).
  destruct (mechanism_graph_ok m W C) as [h [Eh Hh]]. unfold is_r_reachable. rewrite Eh. cbn [bind mgraph].
  destruct (any_r_spec node (fun d => any_r (fun v => r_reachable1 m h d v) vs)
     (fun d => exists v, In v vs /\ r_relevant m d v) ds) as [b [E1 E2]].
  - intros d Hdi. destruct (Hd d Hdi) as [a [Ea Hk]].
    apply any_r_spec. intros v Hvi. eapply r_reachable1_spec; eauto.
  - exists b. split; auto. rewrite E2. split.
    + intros [d [H1 [v [H2 H3]]]]. eauto.
    + intros [d [v [H1 [H2 H3]]]]. eauto.
Qed.

(* --- the relevance graph ------------------------------------------------------------------ *)
Lemma in_permutations2_aux : forall l b x y, NoDup (b ++ l) ->
  (In (x, y) (permutations2_aux b l) <-> In x l /\ In y (b ++ l) /\ x <> y).
Proof.
  induction l as [|z l IH]; intros b x y H; simpl; [tauto|].
  rewrite in_app_iff, IH by (rewrite <- app_assoc; auto). rewrite in_map_iff.
  rewrite <- app_assoc. simpl. split.
  - intros [[w [E Hw]]|(H1 & H2 & H3)]; [|tauto]. inversion E; subst. split; auto.
    assert (NoDup (x :: b ++ l)) by (eapply Permutation_NoDup; [|apply H]; symmetry; apply Permutation_middle).
    inversion H0; subst. split; [|intro; subst; auto].
    apply in_app_or in Hw. apply in_or_app. simpl. tauto.
  - intros ([->|H1] & H2 & H3); [|tauto].
    left. exists y. split; auto. apply in_app_or in H2. apply in_or_app. simpl in H2. destruct H2 as [|[|]]; auto. congruence.
Qed.
Lemma in_permutations2 : forall l x y, NoDup l -> (In (x, y) (permutations2 l) <-> In x l /\ In y l /\ x <> y).
Proof. intros. apply (in_permutations2_aux l []); auto. Qed.

Lemma relevance_edges_spec : forall m ps g, usable m -> wf_graph g ->
  (forall x y, In (x, y) ps -> In x (nodes g) /\ In y (nodes g) /\ In y (decisions m) /\
     exists a, lookup x (decision_agent m) = Some a /\ In a (keys (agent_utilities m))) ->
  exists h, relevance_edges m g ps = Ok h /\ wf_graph h /\ nodes h = nodes g /\
    forall x y, edge h x y <-> edge g x y \/ (In (x, y) ps /\ r_relevant m x y).
Proof.
  intros m ps. induction ps as [|[x y] ps IH]; intros g U W H; simpl.
  - exists g. split; auto. split; auto. split; auto. intros. tauto.
  - destruct (H x y (or_introl eq_refl)) as (Hx & Hy & Hyd & Ha).
    unfold is_s_reachable. apply mem_In in Hyd as Hm. rewrite Hm.
    assert (Hyn : In y (nodes (mgraph m))).
    { destruct U as (_ & G & P & _). apply in_keys_lookup in Hyd. destruct Hyd as [b Eb].
      apply (P b). left. apply good_listed_decision; auto. }
    destruct (is_r_reachable_spec m [x] [y] U) as [b [E1 E2]].
    { intros d [<-|[]]; auto. }
    { intros d [<-|[]]; auto. }
    rewrite E1. cbn [bind].
    set (g1 := if b then nx_add_edge g x y else g).
    assert (N1 : nodes g1 = nodes g).
    { unfold g1. destruct b; auto. unfold nx_add_edge. rewrite (add_node_present g x) by auto.
      rewrite (add_node_present g y) by auto. destruct (has_edge g x y); auto. }
    assert (W1 : wf_graph g1) by (unfold g1; destruct b; auto; apply wf_nx_add_edge; auto).
    assert (R1 : forall u v, edge g1 u v <-> edge g u v \/ (u = x /\ v = y /\ r_relevant m x y)).
    { intros u v. unfold g1. destruct b.
      - rewrite edge_nx_add_edge. assert (R : r_relevant m x y).
        { destruct (proj1 E2 eq_refl) as (d & v' & [<-|[]] & [<-|[]] & R). auto. }
        tauto.
      - split; auto. intros [|(-> & -> & R)]; auto. exfalso.
        assert (false = true); [|discriminate]. apply E2. exists x, y. simpl; auto. }
    destruct (IH g1 U W1) as [h (F1 & F2 & F3 & F4)].
    { rewrite N1. intros u v Huv. apply H. simpl; auto. }
    exists h. split; auto. split; auto. split; [congruence|]. intros u v. rewrite F4, R1. split.
    + intros [[|(-> & -> & ?)]|[]]; auto.
    + intros [|[[E|] ?]]; auto. inversion E; subst. auto.
Qed.
Lemma wf_add_nodes : forall ns g, wf_graph g -> wf_graph (add_nodes_from g ns).
Proof. unfold add_nodes_from. induction ns as [|n ns IH]; intros g H; simpl; auto. apply IH. apply wf_add_node; auto. Qed.
Lemma wf_empty : wf_graph empty_graph.
Proof. apply wf_dag_empty. Qed.
Definition strategic (m : macid) (x : node) : Prop :=
  exists a, lookup x (decision_agent m) = Some a /\ In a (keys (agent_utilities m)).
Lemma relevance_graph_spec : forall m ds, usable m -> NoDup ds -> (forall d, In d ds -> strategic m d) ->
  exists g, relevance_graph m ds = Ok g /\ wf_graph g /\ nodes g = ds /\
    forall x y, edge g x y <-> In x ds /\ In y ds /\ x <> y /\ r_relevant m x y.
Proof.
  intros m ds U N H. unfold relevance_graph.
  assert (EG : add_nodes_from empty_graph ds = mkG ds []) by (apply add_nodes_from_snoc; auto). rewrite EG.
  destruct (relevance_edges_spec m (permutations2 ds) (mkG ds []) U) as [h (F1 & F2 & F3 & F4)].
  - rewrite <- EG. apply wf_add_nodes. apply wf_empty.
  - intros x y Hxy. apply in_permutations2 in Hxy; auto. destruct Hxy as (H1 & H2 & H3). simpl.
    split; [auto|]. split; [auto|]. split; [|apply H; auto].
    destruct (H y H2) as [a [Ea _]]. apply in_keys_lookup. eauto.
  - exists h. split; auto. split; auto. split; auto. intros x y. rewrite F4, in_permutations2 by auto. unfold edge; simpl. tauto.
Qed.
(* cycles *)
Lemma reach_chain : forall g u v, reach g u v -> u <> v -> exists p, chain (edge g) (u :: p ++ [v]).
Proof.
  intros g u v R. induction R as [u|u w v E R IH]; intro H; [congruence|].
  destruct (string_dec w v) as [->|Hn].
  - exists []. simpl. constructor; auto. constructor.
  - destruct (IH Hn) as [p Hp]. exists (w :: p). simpl. constructor; auto.
Qed.
Lemma cycle_iff : forall g, (exists u, descends g u u) <-> exists u p, chain (edge g) (u :: p ++ [u]).
Proof.
  intro g. split.
  - intros [u [w [E R]]]. exists u. destruct (string_dec w u) as [->|Hn].
    + exists []. simpl. constructor; auto. constructor.
    + destruct (reach_chain _ _ _ R Hn) as [p Hp]. exists (w :: p). simpl. constructor; auto.
  - intros [u [p H]]. exists u. destruct p as [|w p]; simpl in H; inversion H; subst.
    + exists u. split; auto. constructor.
    + exists w. split; auto. apply (chain_edge_reach_hd g (p ++ [u]) w); auto. right. apply in_or_app; simpl; auto.
Qed.
Lemma chain_iff : forall (R S : node -> node -> Prop) p, (forall a b, R a b <-> S a b) -> (chain R p <-> chain S p).
Proof. intros R S p H. split; apply chain_impl; apply H. Qed.
Lemma is_dag_false : forall g, wf_graph g -> (is_dag g = false <-> exists u, descends g u u).
Proof.
  intros g W. split.
  - intro H. unfold is_dag in H. apply negb_false_iff in H. unfold has_cycle in H. apply existsb_exists in H.
    destruct H as [[u v] [H1 H2]]. simpl in H2. exists u. exists v. split; auto.
    apply has_path_iff in H2; auto. destruct W as [_ [_ W]]. apply (W _ _ H1).
  - intros [u Hu]. apply not_true_is_false. intro H. apply is_dag_iff in H; auto. apply (H u); auto.
Qed.
Lemma recall_one : forall m ds g, relevance_graph m ds = Ok g -> wf_graph g ->
  (forall x y, edge g x y <-> In x ds /\ In y ds /\ x <> y /\ r_relevant m x y) ->
  (is_dag g = false <-> recall_cycle m ds).
Proof.
  intros m ds g E W H. rewrite is_dag_false, cycle_iff by auto. unfold recall_cycle.
  split; intros [u [p Hp]]; exists u, p; revert Hp; apply chain_impl; intros a b X.
  - apply H in X. tauto.
  - apply H. tauto.
Qed.

(* --- reverse topological order (C19) ------------------------------------------------------- *)
Lemma last_rev : forall (v c : node) r u, hd_error (rev (v :: c :: r)) = Some u -> last r c = u.
Proof.
  intros v c r u H. destruct (list_snoc _ r) as [->|[r' [x ->]]].
  - simpl in H. inversion H; auto.
  - rewrite last_last. replace (rev (v :: c :: r' ++ [x])) with (x :: rev (v :: c :: r')) in H.
    + simpl in H. inversion H; auto.
    + change (v :: c :: r' ++ [x]) with ((v :: c :: r') ++ [x]). rewrite rev_unit. auto.
Qed.
(* a path that leaves v as a non-collider follows edges down to its end or to an ancestor of Z *)
Lemma pend_descends : forall g Z v u, acyclic g -> pend_conn g Z v u ->
  reach g v u \/ exists z, In z Z /\ reach g v z.
Proof.
  intros g Z v u A (Hu & q & (Hc & Hn & Hf) & Ha & Hh).
  destruct (from_to_cons_inv _ _ _ Hf) as [r ->]. destruct r as [|c r].
  - destruct Hf as [_ Hf]. simpl in Hf. inversion Hf; subst. left. constructor.
  - inversion Hc as [|? ? ? Hvc Hc']; subst. destruct Hvc as [Hvc|Hcv].
    + destruct (forward_run g Z r v c Hc Hvc Ha) as [F|F].
      * left. econstructor; [apply Hvc|]. destruct Hf as [_ Hf].
        rewrite <- (last_rev v c r u Hf). auto.
      * right. destruct F as [d [F1 F2]]. exists d. split; auto. econstructor; eauto.
    + right. destruct Hh as [H1 _]. destruct (H1 Hcv) as [d [R D]]. eauto.
Qed.
(* a directed path that avoids Z is active given Z *)
Lemma directed_pend : forall g Z v u, acyclic g -> reach g v u -> (forall x, reach g v x -> ~ In x Z) -> pend_conn g Z v u.
Proof.
  intros g Z v u A R H. split; [auto|].
  assert (X : exists q, chain (edge g) (v :: q) /\ hd_error (rev (v :: q)) = Some u).
  { destruct (string_dec v u) as [->|Hn].
    - exists []. split; auto. constructor.
    - destruct (reach_chain _ _ _ R Hn) as [p Hp]. exists (p ++ [u]). split; auto.
      change (v :: p ++ [u]) with ((v :: p) ++ [u]). rewrite rev_unit. auto. }
  destruct X as [q [Hq Hu]]. exists (v :: q).
  assert (N := chain_edge_NoDup g _ A Hq).
  split; [split; [|split; [auto|split; auto]]|].
  - eapply chain_impl; [|apply Hq]. intros a b E. left; auto.
  - assert (Hr := chain_edge_reach_hd g q v Hq). split.
    + intros a b c T. destruct T as [l [r T]]. rewrite T in Hq.
      assert (Eab := chain_mid _ l a b (c :: r) Hq).
      assert (Ebc : edge g b c).
      { replace (l ++ a :: b :: c :: r) with ((l ++ [a]) ++ b :: c :: r) in Hq by (rewrite <- app_assoc; auto).
        eapply chain_mid; eauto. }
      split.
      * intros [_ X]. exfalso. eapply acyclic_edge_asym; [apply A|apply X|apply Ebc].
      * intros _. apply H. apply Hr. rewrite T. apply in_or_app; simpl; auto.
    + destruct q as [|c q]; auto. inversion Hq; subst. split.
      * intro X. exfalso. eapply acyclic_edge_asym; [apply A|apply X|auto].
      * intros _. apply H. constructor.
Qed.
Lemma relevance_sym : forall m d1 d2 a, usable m -> lookup d1 (decision_agent m) = Some a ->
  lookup d2 (decision_agent m) = Some a -> d1 <> d2 -> ~ descends (mgraph m) d1 d2 ->
  r_relevant m d2 d1 -> r_relevant m d1 d2.
Proof.
  intros m d1 d2 a (W & G & P & C) L1 L2 Hne Hnd R. assert (A := proj2 W).
  assert (N1 : In d1 (nodes (mgraph m))) by (apply (P a); left; apply good_listed_decision; auto).
  assert (N2 : In d2 (nodes (mgraph m))) by (apply (P a); left; apply good_listed_decision; auto).
  apply r_relevant_char in R; auto. destruct R as (a' & u & H1 & H2 & H3 & H4).
  assert (a' = a) by (apply good_listed_decision in H1; auto; congruence). subst a'.
  assert (Ru : reach (mgraph m) d1 u).
  { destruct (pend_descends _ _ _ _ A H4) as [R|[z [Hz R]]]; auto.
    apply in_family in Hz. eapply reach_trans; [|apply descends_reach; apply H3].
    destruct Hz as [->|Hz]; auto. eapply reach_snoc; eauto. }
  apply r_relevant_char; auto. exists a, u. split; [apply good_listed_decision; auto|]. split; [auto|].
  split.
  - destruct (reach_descends _ _ _ Ru) as [E|]; auto. exfalso. subst u. auto.
  - apply directed_pend; auto; [apply descends_reach; auto|]. intros x Rx Hx.
    assert (Rd : reach (mgraph m) d2 d1).
    { apply in_family in Hx. destruct Hx as [->|Hx]; auto. eapply reach_snoc; eauto. }
    destruct (reach_descends _ _ _ Rd); auto.
Qed.
