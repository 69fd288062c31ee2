(* Lemmas about the requisite graph and the incentive tests. *)
From Coq Require Import String List Bool Arith Lia Permutation.
Import ListNotations.
From Verif Require Import MBase MGraph MPaths MMacid MIncent Spec SpecM SpecI
  LBase LGraph LDfs LPaths LActive LMotif LRoles LCopy LReach LMoral LTrim PMacid.

(* ---- keys of the role dictionaries ---- *)
Lemma keys_dset_in : forall A k (v : A) d, In k (keys d) -> keys (dset k v d) = keys d.
Proof. intros. rewrite keys_dset. apply mem_In in H. rewrite H. auto. Qed.
Lemma keys_append : forall a x d, keys (dict_list_append a x d) = if mem a (keys d) then keys d else keys d ++ [a].
Proof. intros. unfold dict_list_append. destruct (lookup a d); apply keys_dset. Qed.
Lemma keys_remove : forall a x d d', dict_list_remove a x d = Ok d' -> keys d' = keys d.
Proof.
  intros a x d d' H. unfold dict_list_remove in H. destruct (lookup a d) eqn:E; [|discriminate].
  destruct (mem x l); inversion H; subst. apply keys_dset_in. apply lookup_In in E. apply in_map_iff. exists (a, l). auto.
Qed.
Lemma make_chance_keys : forall m n m', make_chance m n = (m', None) ->
  keys (agent_decisions m') = keys (agent_decisions m) /\ keys (agent_utilities m') = keys (agent_utilities m).
Proof.
  intros m n m' H. unfold make_chance in H. destruct (negb (mem n (nodes (mgraph m)))); [discriminate|].
  destruct (mem n (decisions m)).
  - destruct (lookup n (decision_agent m)) as [a|]; [|discriminate]. simpl in H.
    destruct (dict_list_remove a n (agent_decisions m)) eqn:E; inversion H; subst; simpl. split; auto. eapply keys_remove; eauto.
  - destruct (mem n (utilities m)).
    + destruct (lookup n (utility_agent m)) as [a|]; [|discriminate]. simpl in H.
      destruct (dict_list_remove a n (agent_utilities m)) eqn:E; inversion H; subst; simpl. split; auto. eapply keys_remove; eauto.
    + inversion H; auto.
Qed.
Definition add_key (a : agent) (l : list agent) : list agent := if mem a l then l else l ++ [a].
Lemma decision_keys : forall a ds m m', calls_or_fail m (map (fun d => MakeDecision d a) ds) = Ok m' ->
  keys (agent_decisions m') = (if ds then keys (agent_decisions m) else add_key a (keys (agent_decisions m))) /\
  keys (agent_utilities m') = keys (agent_utilities m).
Proof.
  intros a ds. induction ds as [|d ds IH]; intros m m' H; simpl in H; [inversion H; auto|].
  unfold make_decision in H. destruct (make_chance m d) as [m1 [e|]] eqn:E; [discriminate|].
  apply make_chance_keys in E. destruct E as [E1 E2]. apply IH in H. simpl in H. destruct H as [H1 H2].
  rewrite H1, H2, keys_append, E1, E2. split; auto. unfold add_key.
  destruct (mem a (keys (agent_decisions m))) eqn:Em; destruct ds; auto.
  - rewrite Em; auto.
  - destruct (mem a (keys (agent_decisions m) ++ [a])) eqn:K; auto. apply mem_nIn in K. exfalso. apply K, in_or_app; simpl; auto.
Qed.
Lemma utility_keys : forall a us m m', calls_or_fail m (map (fun d => MakeUtility d a) us) = Ok m' ->
  keys (agent_utilities m') = (if us then keys (agent_utilities m) else add_key a (keys (agent_utilities m))) /\
  keys (agent_decisions m') = keys (agent_decisions m).
Proof.
  intros a ds. induction ds as [|d ds IH]; intros m m' H; simpl in H; [inversion H; auto|].
  unfold make_utility in H. destruct (make_chance m d) as [m1 [e|]] eqn:E; [discriminate|].
  apply make_chance_keys in E. destruct E as [E1 E2]. apply IH in H. simpl in H. destruct H as [H1 H2].
  rewrite H1, H2, keys_append, E1, E2. split; auto. unfold add_key.
  destruct (mem a (keys (agent_utilities m))) eqn:Em; destruct ds; auto.
  - rewrite Em; auto.
  - destruct (mem a (keys (agent_utilities m) ++ [a])) eqn:K; auto. apply mem_nIn in K. exfalso. apply K, in_or_app; simpl; auto.
Qed.
Lemma in_add_key : forall a b l, In b (add_key a l) <-> In b l \/ b = a.
Proof.
  intros. unfold add_key. destruct (mem_spec a l) as [H|H].
  - split; auto. intros [K| ->]; auto.
  - rewrite in_app_iff. simpl. intuition.
Qed.
Lemma copy_roles_keys : forall src ags new new', copy_roles src new ags = Ok new' ->
  (forall a, In a (keys (agent_utilities new')) -> In a (keys (agent_utilities new)) \/
     (exists us u, lookup a (agent_utilities src) = Some us /\ In u us)) /\
  (incl ags (keys (agent_decisions new)) -> incl ags (keys (agent_utilities new)) ->
     keys (agent_decisions new') = keys (agent_decisions new) /\ keys (agent_utilities new') = keys (agent_utilities new)).
Proof.
  intros src ags. induction ags as [|a ags IH]; intros new new' H; simpl in H; [inversion H; subst; auto|].
  destruct (lookup a (agent_decisions src)) as [ds|] eqn:Ed; [|discriminate]. simpl in H.
  destruct (calls_or_fail new (map (fun d => MakeDecision d a) ds)) as [n1|] eqn:E1; [|discriminate]. simpl in H.
  destruct (lookup a (agent_utilities src)) as [us|] eqn:Eu; [|discriminate]. simpl in H.
  destruct (calls_or_fail n1 (map (fun u => MakeUtility u a) us)) as [n2|] eqn:E2; [|discriminate]. simpl in H.
  apply decision_keys in E1. destruct E1 as [D1 D2]. apply utility_keys in E2. destruct E2 as [U1 U2].
  destruct (IH n2 new' H) as [I1 I2]. split.
  - intros b Hb. destruct (I1 b Hb) as [K|K]; auto. rewrite U1, D2 in K. destruct us as [|u us]; auto.
    apply in_add_key in K. destruct K as [K| ->]; auto. right. exists (u :: us), u. simpl; auto.
  - intros Hd Hu.
    assert (Xd : keys (agent_decisions n2) = keys (agent_decisions new)).
    { rewrite U2, D1. destruct ds; auto. unfold add_key. rewrite (proj2 (mem_In _ _) (Hd a (or_introl eq_refl))). auto. }
    assert (Xu : keys (agent_utilities n2) = keys (agent_utilities new)).
    { rewrite U1, D2. destruct us; auto. unfold add_key. rewrite (proj2 (mem_In _ _) (Hu a (or_introl eq_refl))). auto. }
    rewrite Xd, Xu in I2. apply I2; intros b Hb; [apply Hd|apply Hu]; simpl; auto.
Qed.

(* ---- copies ---- *)
Lemma proper_complete : forall k m, valid m -> proper k m -> utilities_complete m /\ decisions_complete m.
Proof.
  intros k m V H. destruct k; simpl in H; destruct H as [H1 H2]; split.
  - intros a d Hd. destruct (H2 a d Hd) as [u [l [K1 K2]]]. apply in_map_iff. exists (a, l). auto.
  - intros a Ha. destruct (H1 a Ha) as [d [l [K1 K2]]]. apply in_map_iff. exists (a, l). auto.
  - intros a d [l [K1 K2]]. rewrite H2, <- H1. apply in_map_iff. exists (a, l). auto.
  - intros a. rewrite H1, H2. auto.
Qed.
Lemma copy_spec : forall k m, valid m -> proper k m ->
  exists c, copy k m = Ok c /\ valid c /\ proper k c /\ mgraph c = copied (mgraph m) /\ same_roles m c.
Proof.
  intros k m V Pr. destruct (proper_complete k m V Pr) as [CU CD]. assert (V' := V). destruct V' as (W & G & P).
  apply good_consistent in G.
  assert (Ex : exists base, (base = empty_macid \/ base = empty_cid) /\ copy k m = copy_onto base m /\
            (k = IsMACID -> base = empty_macid) /\ (k = IsCID -> base = empty_cid)).
  { destruct k; [exists empty_macid|exists empty_cid]; repeat split; auto; discriminate. }
  destruct Ex as (base & Hb & Ec & Ek1 & Ek2).
  destruct (copy_onto_ok base m Hb W G P CD) as [c (E & Gc & Eg & L)].
  assert (SR : same_roles m c).
  { intros n r. rewrite !has_role_labels by auto. rewrite L.
    assert (K : kept m (agents m) n = true \/ labels m n = (None, None)).
    { unfold kept, owner, labels, agents.
      destruct (lookup n (decision_agent m)) as [a|] eqn:Ea.
      - left. apply mem_In. apply (CU a n). apply good_listed_decision; auto.
      - destruct (lookup n (utility_agent m)) as [a|] eqn:Eb; auto.
        left. apply mem_In. apply good_listed_utility in Eb; auto. destruct Eb as [l [Hl _]].
        apply in_map_iff. exists (a, l); auto. }
    destruct K as [->| ->]; [tauto|]. destruct (kept m (agents m) n); tauto. }
  exists c. split; [congruence|]. split; [split; [rewrite Eg; apply copied_wf; auto|split; [apply good_consistent; auto|]]|].
  { intros a n H. rewrite Eg. simpl. apply (P a n).
    destruct H as [H|H]; [left; apply (SR n (RDecision a))|right; apply (SR n (RUtility a))]; auto. }
  split; [|auto].
  unfold copy_onto in E. destruct (add_edges_from (add_nodes_from (mgraph base) (nodes (mgraph m))) (edges_view (mgraph m))) as [h|] eqn:Eh; [|discriminate].
  simpl in E. apply copy_roles_keys in E. destruct E as [K1 K2]. simpl in K1, K2.
  destruct k; simpl in Pr |- *; destruct Pr as [Q1 Q2].
  - rewrite (Ek1 eq_refl) in *. simpl in K1. split.
    + intros a Ha. destruct (K1 a Ha) as [[]|(us & u & X1 & X2)].
      destruct (Q1 a) as [d Hd]; [apply lookup_In in X1; apply in_map_iff; exists (a, us); auto|].
      exists d. apply (SR d (RDecision a)); auto.
    + intros a d Hd. apply (SR d (RDecision a)) in Hd. destruct (Q2 a d Hd) as [u Hu]. exists u. apply (SR u (RUtility a)); auto.
  - rewrite (Ek2 eq_refl) in *. simpl in K2. unfold agents in K2. rewrite Q2 in K2. apply K2; apply incl_refl.
Qed.

(* ---- requisite ---- *)
Lemma requisite_spec : forall m d x, valid m -> utilities_complete m -> is_decision m d -> edge (mgraph m) x d ->
  exists b, requisite m d x = Ok b /\ (b = true <-> requisite_in m (mgraph m) d x).
Proof.
  intros m d x V CU Hd Ex. assert (V' := V). destruct V' as (W & G & P). apply good_consistent in G.
  assert (Hn : In d (nodes (mgraph m))) by (destruct Hd as [a Ha]; apply (P a d); auto).
  assert (Hx : In x (nodes (mgraph m))) by (eapply wf_edge_l; [apply W|eauto]).
  destruct Hd as [a Ha]. assert (La := proj1 (good_listed_decision m a d G) Ha).
  destruct (lookup a (agent_utilities m)) as [us|] eqn:Eu;
    [|exfalso; apply lookup_None_keys in Eu; apply Eu, (CU a d Ha)].
  unfold requisite, get_parents, nx_descendants, dict_get. rewrite (proj2 (mem_In _ _) Hn). cbn [bind].
  rewrite (proj2 (mem_In x (parents (mgraph m) d))) by (apply in_parents; auto). cbn [negb].
  rewrite La. cbn [bind]. rewrite Eu. cbn [bind].
  change (filter (fun i => negb (String.eqb i x)) (d :: parents (mgraph m) d)) with (cond (mgraph m) d x).
  destruct (any_r_spec node (fun u => is_dconnected (mgraph m) x u (cond (mgraph m) d x))
     (fun u => dconn (mgraph m) (cond (mgraph m) d x) x u) (set_inter us (descendants (mgraph m) d))) as [b [E1 E2]].
  { intros u Hu. apply is_dconnected_spec; auto. apply cond_nodes; auto. }
  exists b. split; [exact E1|]. rewrite E2, requisite_cond. split.
  - intros (u & H1 & H2). apply in_set_inter in H1. destruct H1 as [H1 H3].
    exists a, u. split; [exact Ha|]. split; [exists us; split; [apply lookup_In; auto|auto]|]. split; [|auto].
    apply descendants_iff in H3; auto; [apply W|apply W].
  - intros (a' & u & H1 & H2 & H3 & H4). exists u. split; auto. apply in_set_inter.
    apply (proj1 (good_listed_decision m a' d G)) in H1. rewrite La in H1. inversion H1; subst a'.
    destruct H2 as [us' [K1 K2]].
    assert (lookup a (agent_utilities m) = Some us') by (apply In_lookup; auto; apply G).
    split; [congruence|]. apply descendants_iff; auto; apply W.
Qed.
Lemma requisite_in_roles : forall m m' g d x, same_roles m m' -> requisite_in m g d x -> requisite_in m' g d x.
Proof.
  intros m m' g d x S (a & u & H1 & H2 & H3). exists a, u. split; [apply S; auto|]. split; [apply S; auto|auto].
Qed.
Lemma filter_r_spec : forall (A : Type) (f : A -> result bool) (P : A -> Prop) l,
  (forall x, In x l -> exists b, f x = Ok b /\ (b = true <-> P x)) ->
  exists r, filter_r f l = Ok r /\ (forall x, In x r <-> In x l /\ P x) /\ (NoDup l -> NoDup r).
Proof.
  intros A f P l. induction l as [|x l IH]; intro H; simpl.
  - exists []. split; auto. split; [|auto]. intro; simpl; tauto.
  - destruct (H x (or_introl eq_refl)) as [b [E1 E2]]. rewrite E1. simpl.
    destruct IH as [r (E3 & E4 & E5)]; [intros y Hy; apply H; simpl; auto|]. rewrite E3. simpl.
    eexists. split; [reflexivity|]. split.
    + intro y. destruct b; simpl; rewrite E4.
      * split; [intros [<-|[K1 K2]]; [split; auto; apply E2; auto|auto]|intros [[<-|K1] K2]; auto].
      * split; [intros [K1 K2]; auto|intros [[<-|K1] K2]; auto]. apply E2 in K2. discriminate.
    + intro N. inversion N; subst. destruct b; auto. constructor; auto. rewrite E4. tauto.
Qed.

(* ---- trimming ---- *)
Lemma role_unique_d : forall m n a b, valid m -> has_role m n (RDecision a) -> has_role m n (RDecision b) -> a = b.
Proof.
  intros m n a b (_ & G & _) Ha Hb. apply good_consistent in G.
  apply (proj1 (good_listed_decision m a n G)) in Ha. apply (proj1 (good_listed_decision m b n G)) in Hb. congruence.
Qed.
Lemma role_disjoint : forall m n a b, valid m -> has_role m n (RDecision a) -> has_role m n (RUtility b) -> False.
Proof.
  intros m n a b (_ & G & _) Ha Hb. destruct G as (_ & _ & _ & _ & _ & G). destruct (G n) as [r [Hr _]].
  apply Hr in Ha. apply Hr in Hb. congruence.
Qed.
Lemma is_decision_in : forall m d, valid m -> is_decision m d -> In d (nodes (mgraph m)).
Proof. intros m d (_ & _ & P) [a Ha]. apply (P a d). left. exact Ha. Qed.

Lemma drop_keeps_requisite : forall m g d y e x, valid m -> wf_dag g -> is_decision m d -> edge g y d ->
  ~ requisite_in m g d y ->
  (forall a b, has_role m e (RDecision a) -> has_role m d (RDecision b) -> a = b) ->
  e = d \/ ~ reach g e d -> edge g x e -> (x, e) <> (y, d) ->
  requisite_in m g e x -> requisite_in m (without g y d) e x.
Proof.
  intros m g d y e x V W Hd Ey Ny Ow Hed Ex Hne Hr.
  apply requisite_cond in Hr. destruct Hr as (a & u & R1 & R2 & R3 & R4).
  destruct Hd as [b Hb]. assert (a = b) by (eapply Ow; eauto). subst b.
  assert (He : In e (nodes g)) by (eapply wf_edge_r; [apply W|exact Ex]).
  assert (Hdn : In d (nodes g)) by (eapply wf_edge_r; [apply W|exact Ey]).
  assert (Hud : u <> d) by (intro K; rewrite K in R2; exact (role_disjoint m d a a V Hb R2)).
  apply requisite_cond. exists a, u. split; [auto|]. split; [auto|].
  destruct (reach_dec g (proj1 W) d u) as [Hu|Hu].
  - assert (Du : descends g u d).
    { destruct Hu as [v|v w u' E Hr]; [congruence|]. exists w. auto. }
    assert (Nc : ~ dconn g (cond g d y) y u).
    { intro K. apply Ny. apply requisite_cond. exists a, u. auto. }
    assert (Hed' : ~ reach g e d \/ e = d) by tauto.
    split; [eapply desc_avoid; eauto|].
    destruct (string_dec e d) as [->|Hn].
    + eapply trim_same; eauto. congruence.
    + eapply trim_other; eauto. destruct Hed; [contradiction|auto].
  - destruct (trim_unrelated g d y u e x W Hu He Ex R3 R4) as [T1 T2]. auto.
Qed.

Lemma remove_links_spec : forall m d, valid m -> is_decision m d -> forall xs g, wf_dag g -> NoDup xs ->
  (forall x, In x xs -> edge g x d /\ ~ requisite_in m g d x) ->
  exists h, remove_links g xs d = Ok h /\ reduces m g h /\
    (forall a b, edge h a b <-> edge g a b /\ ~ (b = d /\ In a xs)) /\
    (forall e x, (forall a b, has_role m e (RDecision a) -> has_role m d (RDecision b) -> a = b) ->
       e = d \/ ~ reach g e d -> edge h x e -> requisite_in m g e x -> requisite_in m h e x).
Proof.
  intros m d V Hd xs. induction xs as [|x xs IH]; intros g W N H.
  - exists g. simpl. split; [auto|]. split; [constructor|]. split; [intros; tauto|auto].
  - inversion N as [|? ? Nx N']; subst.
    destruct (H x (or_introl eq_refl)) as [Ex Nr].
    assert (Hdn : In d (nodes g)) by (eapply wf_edge_r; [apply W|exact Ex]).
    destruct (IH (without g x d) (wf_without g x d W) N') as (h & E1 & E2 & E3 & E4).
    { intros z Hz. destruct (H z (or_intror Hz)) as [Ez Nz].
      assert ((z, d) <> (x, d)) by (intro K; inversion K; subst; auto).
      split; [apply edge_without; auto|]. apply drop_keeps_nonrequisite; auto. }
    exists h. split; [|split; [|split]].
    + simpl. unfold nx_remove_edge. rewrite (proj2 (has_edge_iff g x d) Ex). simpl. exact E1.
    + econstructor; [|exact E2]. exists d, x. auto.
    + intros a b. rewrite E3, edge_without. simpl. split.
      * intros ((K1 & K2) & K3). split; auto. intros (-> & [->|K4]); [apply K2; auto|apply K3; auto].
      * intros (K1 & K2). split; [split; auto|]; [intro K; inversion K; subst; apply K2; auto|intros [K3 K4]; apply K2; auto].
    + intros e z Ow Hed Ez Rz. apply E4; auto.
      * destruct Hed as [K|K]; auto. right. intro K'. apply K. eapply reach_sub; [|exact K']. apply without_sub.
      * assert (Ez' := proj1 (proj1 (E3 z e) Ez)). apply edge_without in Ez'. destruct Ez' as [Ez1 Ez2].
        eapply drop_keeps_requisite; eauto.
Qed.

Lemma valid_with_graph : forall m g, valid m -> wf_dag g -> (forall n, In n (nodes (mgraph m)) -> In n (nodes g)) -> valid (with_graph m g).
Proof.
  intros m g (W & G & P) Wg Hn. split; [exact Wg|]. split; [exact G|]. intros a n H. apply Hn. apply (P a n). exact H.
Qed.
Lemma proper_with_graph : forall k m g, proper k m -> proper k (with_graph m g).
Proof. intros [|] m g H; exact H. Qed.

Lemma reduces_roles : forall m m' g h, same_roles m m' -> reduces m g h -> reduces m' g h.
Proof.
  intros m m' g h S H. induction H as [g|g g' h (d & x & D & E & N & ->) Hr IH]; [constructor|].
  econstructor; [|exact IH]. exists d, x. split; [destruct D as [a Ha]; exists a; apply (S d (RDecision a)); auto|].
  split; [auto|]. split; [|auto]. intro K. apply N. eapply requisite_in_roles; [|exact K]. intros n r. symmetry. apply S.
Qed.

(* the loop; m only provides the parents of the decisions, rg is trimmed *)
Lemma trim_loop_spec : forall m ds rg, valid m -> valid rg -> utilities_complete rg -> same_roles m rg -> nodes (mgraph rg) = nodes (mgraph m) ->
  (forall d, In d ds -> is_decision m d) -> NoDup ds ->
  (forall d x, In d ds -> (edge (mgraph rg) x d <-> edge (mgraph m) x d)) ->
  exists h, trim_loop m rg ds = Ok (with_graph rg h) /\ reduces m (mgraph rg) h /\
    (forall x y, ~ In y ds -> edge (mgraph rg) x y -> edge h x y) /\
    (single_agent m ->
     (forall e x, is_decision m e -> ~ In e ds -> edge (mgraph rg) x e -> requisite_in m (mgraph rg) e x) ->
     (forall e d, is_decision m e -> ~ In e ds -> In d ds -> ~ reach (mgraph rg) e d) ->
     (forall l1 d l2, ds = l1 ++ d :: l2 -> forall d', In d' l2 -> ~ reach (mgraph rg) d d') ->
     irreducible m h).
Proof.
  intros m ds. induction ds as [|d ds IH]; intros rg V Vr CU SR Nn Hds ND Hpar.
  - exists (mgraph rg). split; [simpl; destruct rg; reflexivity|]. split; [constructor|]. split; [auto|].
    intros SA H1 H2 H3 e x He Ex. apply H1; auto.
  - inversion ND as [|? ? Nd ND']; subst.
    assert (Dd : is_decision m d) by (apply Hds; simpl; auto).
    assert (Dr : is_decision rg d) by (destruct Dd as [a Ha]; exists a; apply (SR d (RDecision a)); auto).
    assert (Hn : In d (nodes (mgraph rg))) by (apply is_decision_in; auto).
    assert (SR' : same_roles rg m) by (intros n r; symmetry; apply SR).
    assert (Wr : wf_dag (mgraph rg)) by apply Vr.
    destruct (filter_r_spec node (requisite rg d) (requisite_in m (mgraph rg) d) (parents (mgraph rg) d)) as (req & Q1 & Q2 & Q3).
    { intros x Hx. apply in_parents in Hx. destruct (requisite_spec rg d x Vr CU Dr Hx) as [b [B1 B2]].
      exists b. split; auto. rewrite B2. split; apply requisite_in_roles; auto. }
    destruct (remove_links_spec m d V Dd (set_diff (parents (mgraph m) d) req) (mgraph rg) Wr (NoDup_set_diff _ _)) as (g & R1 & R2 & R3 & R4).
    { intros x Hx. apply in_set_diff in Hx. destruct Hx as [X1 X2]. apply in_parents in X1.
      assert (X3 : edge (mgraph rg) x d) by (apply Hpar; simpl; auto). split; auto.
      intro K. apply X2. apply Q2. split; auto. apply in_parents; auto. }
    destruct (reduces_wf m (mgraph rg) g Wr R2) as (Wg & Ng & Sg).
    assert (Vg : valid (with_graph rg g)) by (apply valid_with_graph; auto; intros n K; rewrite Ng; auto).
    destruct (IH (with_graph rg g) V Vg) as (h & I1 & I2 & I3 & I4).
    { exact CU. } { intros n r. rewrite (SR n r). destruct r; tauto. }
    { simpl. congruence. } { intros e He. apply Hds; simpl; auto. } { auto. }
    { intros e x He. simpl. rewrite R3, <- (Hpar e x) by (simpl; auto). split; [tauto|]. intro K. split; auto.
      intros [-> _]. auto. }
    exists h. split; [|split; [|split]].
    + simpl. unfold get_parents, requisite_list, get_parents.
      assert (Hm : In d (nodes (mgraph m))) by (apply is_decision_in; auto).
      rewrite (proj2 (mem_In _ _) Hm), (proj2 (mem_In _ _) Hn). simpl. rewrite Q1. simpl. rewrite R1. simpl. exact I1.
    + eapply reduces_trans; [exact R2|exact I2].
    + intros x y Hy E. apply I3; [simpl in Hy; tauto|]. simpl. apply R3. split; auto. intros [-> _]. apply Hy. simpl; auto.
    + intros SA K1 K2 K3. apply I4; simpl; auto.
      * intros e x He Hne Ex. apply R4.
        -- destruct SA as [a A]. intros b c Hb Hc. rewrite (A e b), (A d c); auto.
        -- destruct (string_dec e d) as [|Hed]; auto. right. apply K2; auto; [|simpl; auto].
           simpl. intros [|]; [congruence|auto].
        -- auto.
        -- destruct (string_dec e d) as [->|Hed].
           ++ apply R3 in Ex. destruct Ex as [Ex Nx].
              destruct (requisite_spec rg d x Vr CU Dr Ex) as [b [B1 B2]].
              destruct (in_dec string_dec x req) as [Hi|Hi]; [apply Q2 in Hi; tauto|].
              exfalso. apply Nx. split; auto. apply in_set_diff. split; auto. apply in_parents. apply Hpar; simpl; auto.
           ++ apply K1; auto. simpl. intros [|]; [congruence|auto].
      * intros e d' He Hne Hd' Hr. assert (Hr' : reach (mgraph rg) e d') by (eapply reach_sub; [apply Sg|exact Hr]).
        destruct (string_dec e d) as [->|Hed].
        -- eapply (K3 [] d ds); simpl; eauto.
        -- eapply (K2 e d'); simpl; eauto. intros [|]; [congruence|auto].
      * intros l1 d' l2 E d'' Hi Hr. apply (K3 (d :: l1) d' l2) with d''; [simpl; congruence|auto|].
        eapply reach_sub; [apply Sg|exact Hr].
Qed.

(* ---- graphs with the same edges ---- *)
Lemma same_edges_sym : forall g h, same_edges g h -> same_edges h g.
Proof. intros g h H a b. symmetry. apply H. Qed.
Lemma same_edges_trans : forall g h k, same_edges g h -> same_edges h k -> same_edges g k.
Proof. intros g h k H1 H2 a b. rewrite (H1 a b). apply H2. Qed.
Lemma requisite_in_ext : forall m g h d x, same_edges g h -> acyclic h -> requisite_in m g d x -> requisite_in m h d x.
Proof.
  intros m g h d x S A (a & u & H1 & H2 & H3 & Z & HZ & H4). exists a, u. split; [auto|]. split; [auto|].
  split; [eapply descends_sub; [|exact H3]; intros; apply S; auto|].
  exists Z. split; [intro z; rewrite HZ, (S z d); tauto|].
  eapply dconn_more; [exact A| |exact H4]. intros; apply S; auto.
Qed.
Lemma without_ext : forall g h x d, same_edges g h -> same_edges (without g x d) (without h x d).
Proof. intros g h x d S a b. rewrite !edge_without, (S a b). tauto. Qed.
Lemma acyclic_ext : forall g h, same_edges g h -> acyclic g -> acyclic h.
Proof. intros g h S A. eapply acyclic_sub; [|exact A]. intros; apply S; auto. Qed.
Lemma reduces_ext : forall m g h, reduces m g h -> forall g', same_edges g g' -> acyclic g -> 
  exists h', reduces m g' h' /\ same_edges h h'.
Proof.
  intros m g h H. induction H as [g|g g1 h (d & x & D & E & N & ->) Hr IH]; intros g' S A.
  - exists g'. split; [constructor|auto].
  - destruct (IH (without g' x d) (without_ext g g' x d S)) as [h' [H1 H2]].
    { eapply acyclic_sub; [|exact A]. apply without_sub. }
    exists h'. split; auto. econstructor; [|exact H1]. exists d, x. split; [auto|]. split; [apply S; auto|]. split; [|auto].
    intro K. apply N. eapply requisite_in_ext; [apply same_edges_sym; eauto|auto|exact K].
Qed.
Lemma irreducible_ext : forall m g h, same_edges g h -> acyclic g -> irreducible m g -> irreducible m h.
Proof.
  intros m g h S A H d x D E. eapply requisite_in_ext; [exact S|eapply acyclic_ext; eauto|]. apply H; auto. apply S; auto.
Qed.

(* ---- requisite_graph ---- *)
Lemma topological_rev : forall g ds, topological g ds -> NoDup ds ->
  forall l1 d l2, rev ds = l1 ++ d :: l2 -> forall d', In d' l2 -> ~ reach g d d'.
Proof.
  intros g ds T N l1 d l2 E d' Hd' Hr.
  assert (E' : ds = rev l2 ++ d :: rev l1).
  { rewrite <- (rev_involutive ds), E, rev_app_distr. simpl. rewrite <- app_assoc. reflexivity. }
  apply in_rev in Hd'. apply in_split in Hd'. destruct Hd' as (q1 & q2 & Eq).
  assert (Hne : d <> d').
  { intro; subst d'. rewrite E' in N. apply NoDup_remove_2 in N. apply N, in_or_app. left. rewrite Eq. apply in_or_app; simpl; auto. }
  apply (T q1 d' (q2 ++ d :: rev l1) d).
  - rewrite E', Eq, <- app_assoc. reflexivity.
  - apply in_or_app; simpl; auto.
  - destruct Hr as [v|v w d' E0 Hr]; [congruence|]. exists w. auto.
Qed.
Lemma requisite_graph_spec : forall k o m, valid m -> proper k m -> valid_order o ->
  exists r, requisite_graph k o m = Ok r /\ valid r /\ proper k r /\ same_roles m r /\ nodes (mgraph r) = nodes (mgraph m) /\
    (exists h, same_edges (mgraph r) h /\ reduces m (mgraph m) h) /\
    (forall x y, ~ is_decision m y -> edge (mgraph m) x y -> edge (mgraph r) x y) /\
    (single_agent m -> irreducible m (mgraph r)).
Proof.
  intros k o m V Pr O.
  destruct (copy_spec k m V Pr) as (c & C1 & C2 & C3 & C4 & C5).
  destruct (C15_default o m V O) as (ds & G & N & T & I).
  assert (CU : utilities_complete c) by (apply (proper_complete k); auto).
  assert (Ec : forall a b, edge (mgraph c) a b <-> edge (mgraph m) a b).
  { intros. rewrite C4. apply edge_copied. apply V. }
  destruct (trim_loop_spec m (rev ds) c V C2 CU C5) as (h & L1 & L2 & L3 & L4).
  { rewrite C4. reflexivity. }
  { intros d Hd. apply in_rev in Hd. apply I in Hd. exact Hd. }
  { apply NoDup_rev. auto. }
  { intros d x Hd. apply Ec. }
  destruct (reduces_wf m (mgraph c) h) as (Wh & Nh & Sh); [apply C2|auto|].
  exists (with_graph c h). split; [unfold requisite_graph; rewrite C1; simpl; rewrite G; simpl; exact L1|].
  split; [apply valid_with_graph; auto; intros n Hn; rewrite Nh; auto|].
  split; [apply proper_with_graph; auto|].
  split; [intros n r; rewrite (C5 n r); destruct r; tauto|].
  split; [simpl; rewrite Nh, C4; reflexivity|].
  split; [|split].
  - simpl. destruct (reduces_ext m (mgraph c) h L2 (mgraph m)) as [h' [H1 H2]]; [intros a b; apply Ec|apply C2|]. exists h'; auto.
  - intros x y Hy E. apply L3; [|apply Ec; auto]. intro K. apply Hy. apply in_rev in K. apply I in K. exact K.
  - intro SA. apply L4; auto.
    + intros e x He Hne. exfalso. apply Hne. apply -> in_rev. apply I. exact He.
    + intros e d He Hne. exfalso. apply Hne. apply -> in_rev. apply I. exact He.
    + intros l1 d l2 E d' Hd' Hr. apply (topological_rev (mgraph m) ds T N l1 d l2 E d' Hd').
      eapply reach_sub; [|exact Hr]. intros. apply Ec; auto.
Qed.

(* ---- adding the link x -> d ---- *)
Lemma criterion_with_link : forall m g g' d x, wf_dag g -> In x (nodes g) -> In d (nodes g) -> x <> d -> ~ descends g x d ->
  with_link g x d g' -> (requisite_in m g' d x <-> requisite_in m g d x).
Proof.
  intros m g g' d x W Hx Hd Hxd Hnd (W' & N' & E').
  assert (Sub : forall a b, edge g a b -> edge g' a b) by (intros; apply E'; auto).
  assert (NR : ~ reach g d x).
  { intro K. destruct (reach_descends _ _ _ K) as [|K']; auto. }
  assert (RA : forall a b, reach g' a b -> reach g a b \/ (reach g a x /\ reach g d b)).
  { intros a b H. induction H as [a|a c b E Hr IH]; [left; constructor|].
    apply E' in E. destruct E as [E|[-> ->]].
    - destruct IH as [IH|[I1 I2]]; [left; econstructor; eauto|right; split; auto; econstructor; eauto].
    - right. split; [constructor|]. destruct IH as [IH|[_ IH]]; auto. }
  assert (RD : forall b, descends g' b d <-> descends g b d).
  { intro b. split; intros (c & E & Hr); exists c.
    - apply E' in E. destruct E as [E|[E _]]; [|congruence]. split; auto.
      destruct (RA c b Hr) as [|[K _]]; auto. exfalso. apply NR. econstructor; eauto.
    - split; auto. eapply reach_sub; eauto. }
  assert (ZZ : forall z, In z (cond g' d x) <-> In z (cond g d x)).
  { intro z. rewrite !in_cond, E'. intuition. }
  rewrite !requisite_cond. split; intros (a & u & H1 & H2 & H3 & H4); exists a, u; (split; [auto|]); (split; [auto|]);
    (split; [apply RD; auto|]).
  - apply RD in H3. assert (Hu : In u (nodes g)) by (eapply wf_reach; [apply W|apply descends_reach; exact H3|auto]).
    apply moral_cond in H4; auto; [|apply N'; auto|apply E'; auto|apply RD; auto].
    apply moral_dconn; auto; [apply cond_nodes; auto|].
    assert (AA : forall v, below g' u v -> anc g (x :: u :: cond g d x) v).
    { intros v Hv. destruct (RA v u Hv) as [K|[K _]]; [exists u|exists x]; simpl; auto. }
    assert (Gen : forall v t, mconn g' (below g' u) (cond g' d x) v t -> mconn g (anc g (x :: u :: cond g d x)) (cond g d x) v t).
    { intros v t H. induction H as [v Hv|v w t Hv Hs Hc IH]; [constructor; rewrite <- ZZ; auto|].
      destruct (string_dec v w) as [->|Hvw]; [exact IH|].
      eapply mconn_step; [rewrite <- ZZ; auto| |exact IH].
      assert (Hw := mconn_l _ _ _ _ _ Hc).
      destruct Hs as (B1 & B2 & B). split; [auto|]. split; [auto|].
      assert (Dz : In d (cond g' d x)) by (apply in_cond; auto).
      destruct B as [B|[B|(c & B3 & B4 & B5)]].
      - apply E' in B. destruct B as [B|[_ ->]]; [auto|contradiction].
      - apply E' in B. destruct B as [B|[_ ->]]; [auto|contradiction].
      - right; right. exists c. split; [auto|]. 
        assert (Key : forall p q, edge g' p c -> edge g' q c -> ~ In q (cond g' d x) -> ~ In p (cond g' d x) -> p <> q -> edge g p c).
        { intros p q Ep Eq Hq Hp Hpq. apply E' in Ep. destruct Ep as [Ep|[-> ->]]; auto. exfalso. apply Hq.
          apply in_cond. split; auto. }
        split; [apply (Key v w)|apply (Key w v)]; auto. }
    apply Gen. exact H4.
  - eapply dconn_more; [apply W'|exact Sub|]. eapply dconn_ext; [|exact H4]. intro z. symmetry. apply ZZ.
Qed.

(* ---- paths and reachability ---- *)
Lemma path_reach : forall g p s t, chain (edge g) p -> from_to p s t -> reach g s t.
Proof.
  intros g p s t H. revert s. induction H as [x|x y l E Hc IH]; intros s F.
  - destruct F as [F1 F2]. simpl in *. inversion F1; inversion F2; subst. constructor.
  - destruct (from_to_inv _ _ _ F) as [q [E1 E2]]. simpl in E2. inversion E2; subst x.
    econstructor; [exact E|]. apply IH.
    destruct q as [|z q]; [discriminate|]. simpl in E1. inversion E1. split; [reflexivity|]. rewrite H1, rev_app_distr. reflexivity.
Qed.
Lemma reach_path : forall g s t, reach g s t -> exists p, directed_path g s t p.
Proof.
  intros g s t H. induction H as [s|s x t E Hr [p [H1 H2]]].
  - exists [s]. split; [constructor|apply from_to_one].
  - exists (s :: p). destruct (from_to_cons_inv _ _ _ H2) as [q ->]. split; [constructor; auto|].
    destruct (from_to_inv _ _ _ H2) as [q' [E1 _]]. split; [reflexivity|]. rewrite E1. simpl. rewrite rev_app_distr. reflexivity.
Qed.
Lemma directed_path_reach : forall g s t p, directed_path g s t p -> reach g s t.
Proof. intros g s t p [H1 H2]. eapply path_reach; eauto. Qed.

(* ---- the preconditions of the incentive tests ---- *)
Lemma in_decisions : forall m x, valid m -> (In x (decisions m) <-> is_decision m x).
Proof.
  intros m x (_ & G & _). apply good_consistent in G. unfold decisions, is_decision. rewrite in_keys_lookup.
  split; intros [a H]; exists a; apply (good_listed_decision m a x G); exact H.
Qed.
Lemma in_utilities : forall m x, valid m -> (In x (utilities m) <-> is_utility m x).
Proof.
  intros m x (_ & G & _). apply good_consistent in G. unfold utilities, is_utility. rewrite in_keys_lookup.
  split; intros [a H]; exists a; apply (good_listed_utility m a x G); exact H.
Qed.
Lemma is_utility_in : forall m u, valid m -> is_utility m u -> In u (nodes (mgraph m)).
Proof. intros m u (_ & _ & P) [a Ha]. apply (P a u). right. exact Ha. Qed.
Lemma one_agent : forall k m, valid m -> proper k m -> single_agent m -> several_agents m = false.
Proof.
  intros k m V Pr [a A]. unfold several_agents, agents. apply Nat.ltb_ge. destruct k; simpl in Pr; destruct Pr as [P1 P2].
  - assert (N : NoDup (keys (agent_utilities m))) by apply V.
    assert (H : forall b, In b (keys (agent_utilities m)) -> b = a).
    { intros b Hb. destruct (P1 b Hb) as [d Hd]. apply (A d b). left. exact Hd. }
    destruct (keys (agent_utilities m)) as [|b [|c l]]; simpl; auto.
    exfalso. inversion N; subst. apply H2. left. rewrite (H b), (H c); simpl; auto.
  - rewrite P2. simpl. lia.
Qed.
Lemma single_agent_roles : forall m m', same_roles m m' -> single_agent m -> single_agent m'.
Proof. intros m m' S [a A]. exists a. intros n b H. apply (A n b). rewrite (S n (RDecision b)), (S n (RUtility b)). exact H. Qed.
Lemma recall_ok : forall k m, askable k m -> exists b, sufficient_recall m None = Ok b /\ (b = true <-> recalls m).
Proof.
  intros k m (V & Pr & S & C). destruct (proper_complete k m V Pr) as [U D].
  exact (proj2 (proj2 (C18_sufficient_recall_partial m V C U D))).
Qed.
Lemma is_reduction_roles : forall m m' g h, same_roles m m' -> is_reduction m g h -> is_reduction m' g h.
Proof.
  intros m m' g h S (N & h' & [R I] & E). split; auto. exists h'. split; auto. split; [eapply reduces_roles; eauto|].
  intros d x [a D] Ex. eapply requisite_in_roles; [exact S|]. apply I; auto. exists a. apply (S d (RDecision a)). exact D.
Qed.
Lemma reduction_ok : forall k o m, valid m -> proper k m -> single_agent m -> valid_order o ->
  exists r, requisite_graph k o m = Ok r /\ valid r /\ nodes (mgraph r) = nodes (mgraph m) /\ is_reduction m (mgraph m) (mgraph r).
Proof.
  intros k o m V Pr S O. destruct (requisite_graph_spec k o m V Pr O) as (r & E & Vr & Prr & SR & N & (h & H1 & H2) & _ & I).
  exists r. split; [auto|]. split; [auto|]. split; [auto|]. split; [auto|]. exists h. split; auto. split; auto.
  eapply irreducible_ext; [exact H1|apply Vr|]. auto.
Qed.

(* only links into d are dropped when d is the only decision *)
Lemma reduces_single : forall m g h d x, valid m -> wf_dag g -> (forall e, is_decision m e -> e = d) -> is_decision m d ->
  reduces m g h -> edge g x d -> (requisite_in m g d x -> edge h x d) /\ (~ requisite_in m g d x -> ~ requisite_in m h d x \/ ~ edge h x d).
Proof.
  intros m g h d x V W D Dd H. revert W. induction H as [g|g g' h (e & y & De & Ey & Ny & ->) Hr IH]; intros W Ex; [tauto|].
  assert (e = d) by auto. subst e. assert (Hdn : In d (nodes g)) by (eapply wf_edge_r; [apply W|exact Ex]).
  destruct (string_dec x y) as [->|Hxy].
  - split; [intro; contradiction|]. intros _. right. intro K.
    destruct (reduces_wf m _ h (wf_without g y d W) Hr) as (_ & _ & Sb). apply Sb in K. apply edge_without in K. tauto.
  - assert (Hne : (x, d) <> (y, d)) by congruence.
    destruct (IH (wf_without g y d W)) as [I1 I2]; [apply edge_without; auto|].
    split; intro K.
    + apply I1. eapply drop_keeps_requisite; eauto. intros a b Ha Hb. eapply role_unique_d; eauto.
    + apply I2. apply drop_keeps_nonrequisite; auto.
Qed.

(* ---- value of information ---- *)
Lemma add_link_ok : forall g x d, wf_dag g -> In x (nodes g) -> In d (nodes g) -> x <> d -> ~ descends g x d ->
  exists g', bn_add_edge g x d = Ok g' /\ with_link g x d g'.
Proof.
  intros g x d W Hx Hd Hxd Hn. unfold bn_add_edge. rewrite (proj2 (String.eqb_neq x d) Hxd).
  assert (E : has_path g d x = false).
  { destruct (has_path g d x) eqn:E; auto. apply has_path_iff in E; auto; [|apply W].
    destruct (reach_descends _ _ _ E); [congruence|contradiction]. }
  rewrite E, andb_false_r. exists (nx_add_edge g x d). split; auto.
  assert (E' : bn_add_edge g x d = Ok (nx_add_edge g x d)).
  { unfold bn_add_edge. rewrite (proj2 (String.eqb_neq x d) Hxd), E, andb_false_r. reflexivity. }
  split; [apply (bn_add_edge_ok g x d _ W E')|]. split; [|apply edge_nx_add_edge].
  intro n. rewrite nodes_nx_add_edge. split; auto. intros [|[->| ->]]; auto.
Qed.
Lemma admits_voi_spec : forall k o m d x, askable k m -> recalls m -> valid_order o ->
  In x (nodes (mgraph m)) -> In d (nodes (mgraph m)) ->
  exists b, admits_voi k o m d x = Ok b /\
    (b = true <-> x <> d /\ ~ descends (mgraph m) x d /\
       exists g' h, with_link (mgraph m) x d g' /\ (exists h', minimal_reduction m g' h' /\ same_edges h h') /\ edge h x d) /\
    (x <> d -> ~ descends (mgraph m) x d -> exists g' r, with_link (mgraph m) x d g' /\
       (exists h', minimal_reduction m g' h' /\ same_edges (mgraph r) h') /\ (b = true <-> edge (mgraph r) x d)).
Proof.
  intros k o m d x A Rc O Hx Hd. assert (A' := A). destruct A' as (V & Pr & S & C).
  destruct (recall_ok k m A) as [rb [E1 E2]]. apply E2 in Rc. subst rb.
  unfold admits_voi, nx_descendants, get_parents. rewrite (one_agent k m V Pr S), (proj2 (mem_In _ _) Hx), (proj2 (mem_In _ _) Hd), E1. simpl.
  assert (Ds : mem x (descendants (mgraph m) d) = true <-> descends (mgraph m) x d).
  { rewrite mem_In. apply descendants_iff; auto; apply V. }
  destruct (mem x (descendants (mgraph m) d)) eqn:Em; simpl.
  { exists false. split; auto. assert (K0 : descends (mgraph m) x d) by tauto.
    split; [|intros; contradiction]. split; [discriminate|]. intros (_ & K & _). contradiction. }
  destruct (String.eqb_spec x d) as [->|Hxd].
  { exists false. split; auto. split; [|intros; congruence]. split; [discriminate|]. intros (K & _). congruence. }
  assert (Nd : ~ descends (mgraph m) x d) by (rewrite <- Ds; discriminate).
  destruct (copy_spec k m V Pr) as (c & C1 & Vc & Pc & Gc & SR). rewrite C1. simpl.
  assert (Ec : forall a b, edge (mgraph c) a b <-> edge (mgraph m) a b) by (intros; rewrite Gc; apply edge_copied; apply V).
  assert (Nc : nodes (mgraph c) = nodes (mgraph m)) by (rewrite Gc; reflexivity).
  assert (Ndc : ~ descends (mgraph c) x d).
  { intro K. apply Nd. eapply descends_sub; [|exact K]. intros; apply Ec; auto. }
  destruct (add_link_ok (mgraph c) x d) as [g2 [G1 (Wg & Ng & Eg)]]; auto; [apply Vc|rewrite Nc; auto|rewrite Nc; auto|].
  rewrite G1. simpl.
  assert (V2 : valid (with_graph c g2)) by (apply valid_with_graph; auto; intros n Hn; apply Ng; auto).
  assert (SR2 : same_roles (with_graph c g2) m) by (intros n r; rewrite (SR n r); destruct r; tauto).
  destruct (reduction_ok k o (with_graph c g2) V2 (proper_with_graph k c g2 Pc)) as (r & R1 & R2 & R3 & R4); auto.
  { eapply single_agent_roles; [|exact S]. intros n q. symmetry. apply SR2. }
  rewrite R1. simpl. rewrite R3. simpl. rewrite (proj2 (mem_In d (nodes g2))) by (apply Ng; rewrite Nc; auto). simpl.
  apply (is_reduction_roles _ m _ _ SR2) in R4. simpl in R4. destruct R4 as (_ & h' & H1 & H2).
  assert (WL : with_link (mgraph m) x d g2).
  { split; auto. split; [intro n; rewrite Ng, Nc; tauto|]. intros a b. rewrite Eg, Ec. tauto. }
  rewrite mem_parents.
  assert (Eb : has_edge (mgraph r) x d = true <-> edge (mgraph r) x d) by apply has_edge_iff.
  eexists. split; [reflexivity|]. split; [|intros _ _; exists g2, r; eauto].
  rewrite Eb. split.
  - intro K. split; [auto|]. split; [auto|]. exists g2, (mgraph r). eauto.
  - intros (_ & _ & g3 & h3 & L3 & (h3' & M3 & S3) & K3).
    destruct L3 as (W3 & N3 & E3).
    assert (Sg : same_edges g2 g3) by (intros a b; rewrite E3, (proj2 (proj2 WL)); tauto).
    destruct H1 as [H1 I1]. destruct (reduces_ext m g2 h' H1 g3 Sg) as [h4 [Q1 Q2]]; [apply Wg|].
    assert (h4 = h3').
    { apply (reduction_unique m g3); auto. split; auto. eapply irreducible_ext; [exact Q2| |exact I1].
      apply (reduces_wf m g2 h' Wg H1). }
    subst h4. apply H2, Q2, S3. exact K3.
Qed.
Lemma admits_voi_single : forall k o m d x, askable k m -> recalls m -> valid_order o ->
  (forall e, is_decision m e <-> e = d) -> In x (nodes (mgraph m)) ->
  exists b, admits_voi k o m d x = Ok b /\ (b = true <-> x <> d /\ ~ descends (mgraph m) x d /\ requisite_in m (mgraph m) d x).
Proof.
  intros k o m d x A Rc O D Hx. assert (A' := A). destruct A' as (V & Pr & S & C).
  assert (Dd : is_decision m d) by (apply D; auto). assert (Hd : In d (nodes (mgraph m))) by (apply is_decision_in; auto).
  destruct (admits_voi_spec k o m d x A Rc O Hx Hd) as (b & E & B & _). exists b. split; auto. rewrite B.
  split; intros (H1 & H2 & H3); (split; [auto|]); (split; [auto|]).
  - destruct H3 as (g' & h & L & (h' & [M I] & Sm) & K). assert (L' := L). destruct L' as (W' & N' & E').
    apply (criterion_with_link m (mgraph m) g' d x); auto; [apply V|].
    destruct (reduces_single m g' h' d x V W') as [_ Q]; auto; [intros e; apply D|apply E'; auto|].
    assert (Dec : requisite_in m g' d x \/ ~ requisite_in m g' d x).
    { destruct (requisite_spec (with_graph m g') d x) as [q [Q1 Q2]].
      - apply valid_with_graph; auto. intros n Hn. apply N'. auto.
      - exact (proj1 (proper_complete k m V Pr)).
      - exact Dd.
      - apply E'; auto.
      - assert (Eq : requisite_in (with_graph m g') g' d x <-> requisite_in m g' d x).
        { split; apply requisite_in_roles; intros n r; destruct r; tauto. }
        simpl in Q2. rewrite Eq in Q2. destruct q; [left; tauto|right; intro K0; apply Q2 in K0; discriminate]. }
    destruct Dec as [Y|Y]; auto.
    exfalso. assert (K' : edge h' x d) by (apply Sm; auto). destruct (Q Y) as [Y'|Y']; [apply Y'; apply I; auto|contradiction].
  - destruct (admits_voi_spec k o m d x A Rc O Hx Hd) as (b0 & _ & _ & T). destruct (T H1 H2) as (g' & r & L & (h' & [M I] & Sm) & _).
    assert (L' := L). destruct L' as (W' & N' & E').
    exists g', (mgraph r). split; auto. split; [exists h'; split; [split|]; auto|].
    apply Sm. apply (reduces_single m g' h' d x V W'); auto; [intros e; apply D|apply E'; auto|].
    apply (criterion_with_link m (mgraph m) g' d x); auto. apply V.
Qed.

(* ---- value of control, response incentives, control incentives ---- *)
Lemma ask : forall k o m, askable k m -> recalls m -> valid_order o ->
  sufficient_recall m None = Ok true /\ several_agents m = false /\
  exists r, requisite_graph k o m = Ok r /\ valid r /\ nodes (mgraph r) = nodes (mgraph m) /\ is_reduction m (mgraph m) (mgraph r).
Proof.
  intros k o m A Rc O. assert (A' := A). destruct A' as (V & Pr & S & C). destruct (recall_ok k m A) as [b [E1 E2]].
  apply E2 in Rc. subst b. split; auto. split; [eapply one_agent; eauto|]. apply reduction_ok; auto.
Qed.
Lemma descends_or : forall g u v, wf_dag g -> In u (nodes g) -> (v = u \/ In v (descendants g u) <-> reach g u v).
Proof.
  intros g u v W Hu. rewrite descendants_iff by (auto; apply W). split.
  - intros [->|H]; [constructor|apply descends_reach; auto].
  - intro H. destruct (reach_descends _ _ _ H); auto.
Qed.
Lemma admits_voc_spec : forall k o m x, askable k m -> recalls m -> valid_order o -> In x (nodes (mgraph m)) ->
  exists r b, requisite_graph k o m = Ok r /\ admits_voc k o m x = Ok b /\ (b = true <-> has_voc m (mgraph r) x).
Proof.
  intros k o m x A Rc O Hx. destruct (ask k o m A Rc O) as (E1 & E2 & r & R1 & R2 & R3 & R4).
  assert (V : valid m) by apply A. exists r.
  unfold admits_voc. rewrite E2, (proj2 (mem_In _ _) Hx), E1. simpl.
  destruct (mem_spec x (decisions m)) as [H|H]; rewrite (in_decisions m x V) in H.
  { exists false. split; auto. split; auto. split; [discriminate|]. intros [K _]. contradiction. }
  rewrite R1. simpl.
  destruct (any_r_spec node (fun u => if String.eqb x u then Ok true else ds <- nx_descendants (mgraph r) x;; Ok (mem u ds))
    (fun u => reach (mgraph r) x u) (utilities m)) as [b [B1 B2]].
  { intros u Hu. assert (Hxr : In x (nodes (mgraph r))) by (rewrite R3; auto). assert (Re := descends_or (mgraph r) x u (proj1 R2) Hxr).
    destruct (String.eqb_spec x u) as [->|Hn]; [exists true; split; auto; split; auto; intros _; constructor|].
    unfold nx_descendants. rewrite (proj2 (mem_In _ _) Hxr). simpl. eexists. split; [reflexivity|]. rewrite mem_In. rewrite <- Re. intuition congruence. }
  exists b. split; auto. split; auto. rewrite B2. unfold has_voc. split.
  - intros (u & U1 & U2). split; auto. exists u. split; auto. apply in_utilities; auto.
  - intros [_ (u & U1 & U2)]. exists u. split; auto. apply in_utilities; auto.
Qed.
Lemma cond_same : forall g d x, filter (fun i => negb (String.eqb i x)) (d :: parents g d) = cond g d x.
Proof. reflexivity. Qed.
Lemma indir_spec : forall k o s m d x, askable k m -> recalls m -> valid_order o -> valid_order s ->
  In x (nodes (mgraph m)) -> In d (nodes (mgraph m)) ->
  exists r b, requisite_graph k o m = Ok r /\ admits_indir_voc k o s m d x = Ok b /\ (b = true <-> has_indir_voc m (mgraph r) d x).
Proof.
  intros k o s m d x A Rc O Os Hx Hd. destruct (ask k o m A Rc O) as (E1 & E2 & r & R1 & R2 & R3 & R4).
  assert (V : valid m) by apply A. exists r.
  destruct (admits_voc_spec k o m x A Rc O Hx) as (r' & v & V1 & V2 & V3). rewrite R1 in V1. inversion V1; subst r'.
  assert (Hxr : In x (nodes (mgraph r))) by (rewrite R3; auto).
  unfold admits_indir_voc, get_parents, nx_descendants. rewrite E2, (proj2 (mem_In _ _) Hx), (proj2 (mem_In _ _) Hd), E1. cbn [negb bind].
  rewrite R1. cbn [bind]. rewrite V2. cbn [bind]. rewrite cond_same.
  assert (Sub : has_indir_voc m (mgraph r) d x -> has_voc m (mgraph r) x).
  { intros (H1 & u & H2 & (p & H3 & _) & _). split; auto. exists u. split; auto. eapply directed_path_reach; eauto. }
  destruct v; simpl.
  2:{ exists false. split; auto. split; auto. split; [discriminate|]. intro K. apply Sub in K. apply V3. exact K. }
  rewrite (proj2 (mem_In _ _) Hxr). cbn [bind].
  assert (Nx : ~ is_decision m x) by (apply V3; auto).
  match goal with |- context [any_r ?f _] => set (F := f) end.
  destruct (any_r_spec node F (fun u => (exists p, directed_path (mgraph r) x u p /\ In d p) /\
      exists q, backdoor_path (mgraph r) (cond (mgraph m) d x) x u q) (utilities m)) as [b [B1 B2]].
  { intros u Hu. assert (Hur : In u (nodes (mgraph r))) by (rewrite R3; apply is_utility_in; auto; apply in_utilities; auto).
    unfold F.
    assert (Re : String.eqb u x = true \/ mem u (descendants (mgraph r) x) = true <-> reach (mgraph r) x u).
    { rewrite String.eqb_eq, mem_In. apply descends_or; auto. apply R2. }
    destruct (negb (String.eqb u x) && negb (mem u (descendants (mgraph r) x))) eqn:Eu.
    { exists false. split; auto. split; [discriminate|]. intros [(p & P1 & _) _]. apply directed_path_reach in P1. apply Re in P1.
      rewrite andb_true_iff, !negb_true_iff in Eu. destruct Eu. destruct P1; congruence. }
    destruct (is_active_backdoor_trail_spec s (mgraph r) (cond (mgraph m) d x) Os) with (s := x) (t := u) as [c [C1 C2]]; auto; [apply R2| |].
    { rewrite R3. apply cond_nodes; auto. apply V. }
    rewrite C1. cbn [bind]. destruct c; cbn [negb].
    2:{ exists false. split; auto. split; [discriminate|]. intros [_ K]. apply C2 in K. discriminate. }
    destruct (find_all_dir_paths_spec (mgraph r) x u) as (ps & P1 & _ & P2); auto; [apply R2|].
    rewrite P1. cbn [bind]. eexists. split; [reflexivity|]. rewrite existsb_exists. split.
    - intros (p & Q1 & Q2). split; [exists p; split; [apply P2; auto|apply mem_In; auto]|]. apply C2; auto.
    - intros [(p & Q1 & Q2) _]. exists p. split; [apply P2; auto|apply mem_In; auto]. }
  exists b. split; auto. split; [exact B1|]. rewrite B2. unfold has_indir_voc. split.
  - intros (u & U1 & U2 & q & U3). split; auto. exists u. split; [apply in_utilities; auto|]. split; auto.
    exists (cond (mgraph m) d x), q. split; auto. intro z. apply in_cond.
  - intros (_ & u & U1 & U2 & Z & q & U3 & U4). exists u. split; [apply in_utilities; auto|]. split; auto.
    exists q. destruct U4 as (Q1 & Q2 & Q3). split; auto. split; auto. eapply active_ext; [|exact Q2].
    intro z. rewrite U3, in_cond. tauto.
Qed.
Lemma dir_spec : forall k o m x, askable k m -> recalls m -> valid_order o -> In x (nodes (mgraph m)) ->
  exists r b, requisite_graph k o m = Ok r /\ admits_dir_voc k o m x = Ok b /\ (b = true <-> has_dir_voc m (mgraph r) x).
Proof.
  intros k o m x A Rc O Hx. destruct (ask k o m A Rc O) as (E1 & E2 & r & R1 & R2 & R3 & R4).
  assert (V : valid m) by apply A. exists r.
  destruct (admits_voc_spec k o m x A Rc O Hx) as (r' & v & V1 & V2 & V3). rewrite R1 in V1. inversion V1; subst r'.
  assert (Hxr : In x (nodes (mgraph r))) by (rewrite R3; auto).
  unfold admits_dir_voc, nx_descendants. rewrite E2, (proj2 (mem_In _ _) Hx). cbn [negb bind].
  rewrite R1. cbn [bind]. rewrite V2. cbn [bind].
  assert (Sub : has_dir_voc m (mgraph r) x -> has_voc m (mgraph r) x).
  { intros (u & p & H1 & H2 & H3). split.
    - apply H3. destruct H2 as [_ H2]. destruct (from_to_cons_inv _ _ _ H2) as [q ->]. simpl; auto.
    - exists u. split; auto. eapply directed_path_reach; eauto. }
  destruct v; simpl.
  2:{ exists false. split; auto. split; auto. split; [discriminate|]. intro K. apply Sub in K. apply V3. exact K. }
  rewrite (proj2 (mem_In _ _) Hxr). cbn [bind].
  match goal with |- context [any_r ?f _] => set (F := f) end.
  destruct (any_r_spec node F (fun u => exists p, directed_path (mgraph r) x u p /\ forall n, In n p -> ~ is_decision m n) (utilities m)) as [b [B1 B2]].
  { intros u Hu. assert (Hur : In u (nodes (mgraph r))) by (rewrite R3; apply is_utility_in; auto; apply in_utilities; auto).
    unfold F.
    assert (Re : String.eqb u x = true \/ mem u (descendants (mgraph r) x) = true <-> reach (mgraph r) x u).
    { rewrite String.eqb_eq, mem_In. apply descends_or; auto. apply R2. }
    destruct (negb (String.eqb u x) && negb (mem u (descendants (mgraph r) x))) eqn:Eu.
    { exists false. split; auto. split; [discriminate|]. intros (p & P1 & _). apply directed_path_reach in P1. apply Re in P1.
      rewrite andb_true_iff, !negb_true_iff in Eu. destruct Eu. destruct P1; congruence. }
    destruct (find_all_dir_paths_spec (mgraph r) x u) as (ps & P1 & _ & P2); auto; [apply R2|].
    rewrite P1. cbn [bind]. eexists. split; [reflexivity|]. rewrite existsb_exists. split.
    - intros (p & Q1 & Q2). exists p. split; [apply P2; auto|]. intros n Hn Dn. apply in_decisions in Dn; auto.
      destruct (set_inter p (decisions m)) as [|z l] eqn:Es; [|discriminate].
      assert (K : In n (set_inter p (decisions m))) by (apply in_set_inter; auto). rewrite Es in K. exact K.
    - intros (p & Q1 & Q2). exists p. split; [apply P2; auto|]. destruct (set_inter p (decisions m)) as [|z l] eqn:Es; auto.
      assert (K : In z (set_inter p (decisions m))) by (rewrite Es; simpl; auto). apply in_set_inter in K.
      exfalso. apply (Q2 z); [tauto|]. apply in_decisions; tauto. }
  exists b. split; auto. split; [exact B1|]. rewrite B2. unfold has_dir_voc. split.
  - intros (u & U1 & p & U2). exists u, p. split; auto. apply in_utilities; auto.
  - intros (u & p & U1 & U2). exists u. split; [apply in_utilities; auto|]. eauto.
Qed.
Lemma ri_spec : forall k o m d x, askable k m -> recalls m -> valid_order o ->
  In x (nodes (mgraph m)) -> In d (nodes (mgraph m)) ->
  exists r b, requisite_graph k o m = Ok r /\ admits_ri k o m d x = Ok b /\ (b = true <-> x <> d /\ reach (mgraph r) x d).
Proof.
  intros k o m d x A Rc O Hx Hd. destruct (ask k o m A Rc O) as (E1 & E2 & r & R1 & R2 & R3 & R4).
  exists r. unfold admits_ri. rewrite E2, (proj2 (mem_In _ _) Hx), (proj2 (mem_In _ _) Hd), E1. cbn [negb bind].
  destruct (String.eqb_spec x d) as [->|Hn]; [exists false; split; auto; split; auto; split; [discriminate|tauto]|].
  rewrite R1. cbn [bind].
  destruct (find_all_dir_paths_spec (mgraph r) x d) as (ps & P1 & _ & P2); [apply R2|rewrite R3; auto|rewrite R3; auto|].
  rewrite P1. cbn [bind]. destruct ps as [|p ps]; [exists false|exists true]; split; auto; split; auto.
  - split; [discriminate|]. intros [_ K]. apply reach_path in K. destruct K as [p K]. apply P2 in K. destruct K.
  - split; auto. intros _. split; auto. eapply directed_path_reach. apply P2. simpl; eauto.
Qed.
Lemma paths_to_all_spec : forall g d us, wf_dag g -> In d (nodes g) -> incl us (nodes g) ->
  exists ps, paths_to_all g d us = Ok ps /\ forall p, In p ps <-> exists u, In u us /\ directed_path g d u p.
Proof.
  intros g d us W Hd. induction us as [|u us IH]; intro I; simpl.
  - exists []. split; auto. intro p. split; [intros []|intros (u & [] & _)].
  - destruct (find_all_dir_paths_spec g d u W Hd) as (ps & P1 & _ & P2); [apply I; simpl; auto|].
    rewrite P1. cbn [bind]. destruct IH as (qs & Q1 & Q2); [intros z Hz; apply I; simpl; auto|]. rewrite Q1. cbn [bind].
    eexists. split; [reflexivity|]. intro p. rewrite in_app_iff, P2, Q2. split.
    + intros [H|(v & H1 & H2)]; eauto.
    + intros (v & [<-|H1] & H2); eauto.
Qed.
Lemma ici_spec : forall k m d x, valid m -> proper k m -> single_agent m ->
  In x (nodes (mgraph m)) -> In d (nodes (mgraph m)) ->
  exists b, admits_ici m d x = Ok b /\ (b = true <-> has_ici m d x).
Proof.
  intros k m d x V Pr S Hx Hd. unfold admits_ici. rewrite (one_agent k m V Pr S), (proj2 (mem_In _ _) Hx), (proj2 (mem_In _ _) Hd). cbn [negb].
  destruct (paths_to_all_spec (mgraph m) d (utilities m)) as (ps & P1 & P2); auto; [apply V| |].
  { intros u Hu. apply is_utility_in; auto. apply in_utilities; auto. }
  rewrite P1. cbn [bind]. eexists. split; [reflexivity|]. rewrite existsb_exists. split.
  - intros (p & H1 & H2). apply P2 in H1. destruct H1 as (u & U1 & U2). exists u, p. split; [apply in_utilities; auto|].
    split; auto. apply mem_In; auto.
  - intros (u & p & U1 & U2 & U3). exists p. split; [apply P2; exists u; split; auto; apply in_utilities; auto|apply mem_In; auto].
Qed.
(* without sufficient recall *)
Lemma no_recall : forall k m, askable k m -> ~ recalls m -> sufficient_recall m None = Ok false /\ several_agents m = false.
Proof.
  intros k m A N. assert (A' := A). destruct A' as (V & Pr & S & C). destruct (recall_ok k m A) as [b [E1 E2]].
  split; [|eapply one_agent; eauto]. destruct b; auto. exfalso. apply N, E2. auto.
Qed.

(* ---- list versions ---- *)
Lemma filter_r_exact : forall (f : node -> result bool) l, (forall x, In x l -> exists b, f x = Ok b) -> NoDup l ->
  exists r, filter_r f l = Ok r /\ NoDup r /\ forall x, In x r <-> In x l /\ f x = Ok true.
Proof.
  intros f l H N. destruct (filter_r_spec node f (fun x => f x = Ok true) l) as (r & E1 & E2 & E3).
  { intros x Hx. destruct (H x Hx) as [b E]. exists b. split; auto. rewrite E. split; [intros ->; auto|congruence]. }
  exists r. auto.
Qed.
(* ---- concrete single-agent diagrams ---- *)
Definition cid_of (g : graph) (ds us : list node) : macid := mkM g [(zero, ds)] [(zero, us)] (owner_dict [(zero, ds)]) (owner_dict [(zero, us)]).
Lemma cid_askable : forall g ds us, valid (cid_of g ds us) -> no_clash g -> askable IsCID (cid_of g ds us).
Proof.
  intros g ds us V C. split; [auto|]. split; [split; reflexivity|]. split; [|exact C].
  exists zero. intros n b [[l [[H|[]] _]]|[l [[H|[]] _]]]; inversion H; auto.
Qed.
Lemma cid_recalls : forall k m, askable k m -> sufficient_recall m None = Ok true -> recalls m.
Proof. intros k m A E. destruct (recall_ok k m A) as [b [E1 E2]]. apply E2. congruence. Qed.
