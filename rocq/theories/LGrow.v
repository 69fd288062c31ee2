(* The growth of the game tree. *)
From Coq Require Import String List Bool Arith QArith Qcanon Lia Permutation.
Import ListNotations.
From Verif Require Import MBase MGraph MMacid MCpd MNet MProb MQuery MGame Spec SpecM SpecC SpecN SpecQ SpecPol SpecGame LBase LGraph LRoles LQc LCpd LNet LCheck LSum LBayes LQuery LFactor LBuilt LTotal PQuery LGame.
Local Open Scope nat_scope.

(* ---- dictionaries and positions ---- *)
Lemma find_in : forall A B (dec : forall a b : A, {a = b} + {a <> b}) k (l : list (A * B)) x, find dec k l = Some x -> In (k, x) l.
Proof. intros A B dec k l x H. unfold find in H. destruct (List.find _ l) as [[k' y]|] eqn:E; [|discriminate]. injection H as ->. apply find_some in E. destruct E as [E1 E2]. cbn in E2. destruct (dec k k'); [subst; auto|discriminate]. Qed.
Lemma find_none_in : forall A B (dec : forall a b : A, {a = b} + {a <> b}) k (l : list (A * B)) x, find dec k l = None -> ~ In (k, x) l.
Proof. intros A B dec k l x H K. unfold find in H. destruct (List.find _ l) as [[k' y]|] eqn:E; [discriminate|]. apply (find_none _ _ E) in K. cbn in K. destruct (dec k k); [discriminate|congruence]. Qed.
Lemma in_find : forall A B (dec : forall a b : A, {a = b} + {a <> b}) k (l : list (A * B)) x, NoDup (map fst l) -> In (k, x) l -> find dec k l = Some x.
Proof.
  intros A B dec k l x N H. destruct (find dec k l) as [y|] eqn:E; [|exfalso; apply (find_none_in _ _ _ _ _ x E H)]. apply find_in in E. f_equal. clear - N H E. induction l as [|[a b] l IH]; [destruct H|]. cbn in N. apply NoDup_cons_iff in N. destruct N as [N1 N2].
  destruct H as [H|H], E as [E|E]; auto; try congruence; exfalso; apply N1; [injection H as -> ->|injection E as -> ->]; apply in_map_iff; eexists; split; eauto; auto.
Qed.
Lemma find_cons : forall A B (dec : forall a b : A, {a = b} + {a <> b}) k k' (x : B) l, find dec k ((k', x) :: l) = if dec k k' then Some x else find dec k l.
Proof. intros. unfold find. cbn. destruct (dec k k'); auto. Qed.
Lemma find_app_none : forall A B (dec : forall a b : A, {a = b} + {a <> b}) k (l l' : list (A * B)), ~ In k (map fst l) -> find dec k (l ++ l') = find dec k l'.
Proof. intros A B dec k l l' H. induction l as [|[a b] l IH]; auto. cbn [app]. rewrite find_cons. destruct (dec k a) as [->|]; [exfalso; apply H; left; auto|apply IH; intro K; apply H; right; auto]. Qed.
Lemma find_app_in : forall A B (dec : forall a b : A, {a = b} + {a <> b}) k x (l l' : list (A * B)), NoDup (map fst l) -> In (k, x) l -> find dec k (l ++ l') = Some x.
Proof.
  intros A B dec k x l l' N H. induction l as [|[a b] l IH]; [destruct H|]. cbn [app]. rewrite find_cons. cbn in N. apply NoDup_cons_iff in N. destruct N as [N1 N2]. destruct (dec k a) as [->|Ne].
  - destruct H as [H|H]; [congruence|]. exfalso. apply N1. apply in_map_iff. exists (a, x). auto.
  - destruct H as [H|H]; [congruence|]. auto.
Qed.
Lemma dset_fresh : forall (A : Type) k (x : A) l, ~ In k (keys l) -> dset k x l = l ++ [(k, x)].
Proof. intros A k x l H. induction l as [|[k' y] l IH]; auto. cbn. destruct (String.eqb_spec k k') as [->|]; [exfalso; apply H; left; auto|]. f_equal. apply IH. intro K. apply H. right; auto. Qed.

Lemma history_keys : forall n vs p, length p <= length vs -> keys (history n vs p) = firstn (length p) vs.
Proof. intros n vs. induction vs as [|v vs IH]; intros [|i p] H; cbn in *; auto; try lia. f_equal. apply IH. lia. Qed.
Lemma position_length : forall n vs p, position n vs p -> length p <= length vs.
Proof. intros n vs. induction vs as [|v vs IH]; intros [|i p] H; cbn in *; try lia. destruct H as [_ H]. apply IH in H. lia. Qed.
Lemma history_snoc : forall n vs p i v, at_variable vs p v -> history n vs (p ++ [i]) = history n vs p ++ [(v, nth i (dom_of (doms n) v) (Q2Qc 0))].
Proof. unfold at_variable. intros n vs. induction vs as [|w vs IH]; intros [|j p] i v H; cbn in *; try discriminate; [injection H as ->; destruct vs; auto|]. rewrite (IH p i v H). auto. Qed.
Lemma position_snoc : forall n vs p i v, at_variable vs p v -> (position n vs (p ++ [i]) <-> position n vs p /\ i < length (dom_of (doms n) v)).
Proof. unfold at_variable. intros n vs. induction vs as [|w vs IH]; intros [|j p] i v H; cbn in *; try discriminate; [injection H as ->; tauto|]. rewrite (IH p i v H). tauto. Qed.
Lemma at_variable_in : forall vs p v, at_variable vs p v -> In v vs /\ length p < length vs.
Proof. intros vs p v H. split; [eapply nth_error_In; eauto|]. apply nth_error_Some. unfold at_variable in H. congruence. Qed.
Lemma fresh_variable : forall n vs p v, NoDup vs -> at_variable vs p v -> ~ In v (keys (history n vs p)).
Proof.
  intros n vs p v N H. rewrite history_keys by (apply at_variable_in in H; lia). unfold at_variable in H. revert p H. induction vs as [|w vs IH]; intros [|i p] H; cbn in *; auto; try discriminate.
  apply NoDup_cons_iff in N. destruct N as [N1 N2]. intros [->|K]; [apply N1; eapply nth_error_In; eauto|]. apply (IH N2 p); auto.
Qed.
Lemma history_nodup : forall n vs p, NoDup vs -> NoDup (keys (history n vs p)).
Proof. intros n vs p N. revert p. induction vs as [|v vs IH]; intros [|i p]; cbn; try constructor; apply NoDup_cons_iff in N; [|apply IH; tauto]. destruct N as [N _]. intro K. apply N. clear - K. revert p K. induction vs as [|w vs IH]; intros [|i p]; cbn; try tauto. intros [->|K]; eauto. Qed.
(* the same history, the same position *)
Lemma lookup_in_hist : forall (A : Type) k (x : A) l, NoDup (keys l) -> (lookup k l = Some x <-> In (k, x) l).
Proof. intros A k x l N. split; [apply lookup_In|]. apply In_lookup; auto. Qed.

(* the positions of one depth *)
Lemma indices_spec : forall n vs idx, In idx (indices (map (fun v => length (dom_of (doms n) v)) vs)) <-> exists p, idx = 0 :: p /\ length p = length vs /\ position n vs p.
Proof.
  intros n vs idx. unfold indices. rewrite in_product. assert (G : forall p, Forall2 (fun x l => In x l) p (map (seq 0) (map (fun v => length (dom_of (doms n) v)) vs)) <-> length p = length vs /\ position n vs p).
  { induction vs as [|v vs IH]; intros [|i p]; cbn; split; intro H; try (inversion H; fail); auto; try (destruct H; try lia; fail).
    - inversion H; subst. apply in_seq in H3. apply IH in H5. destruct H5. repeat split; auto; lia.
    - destruct H as (H1 & H2 & H3). constructor; [apply in_seq; lia|apply IH; split; auto]. }
  split.
  - intro H. inversion H as [|i0 l0 p ls K1 K2]; subst. destruct K1 as [<-|[]]. apply G in K2. eauto.
  - intros (p & -> & H). constructor; [left; auto|apply G; auto].
Qed.
Lemma indices_nodup : forall cs, NoDup (indices cs).
Proof. intro cs. apply NoDup_product. intros l [<-|H]; [repeat constructor; intros []|]. apply in_map_iff in H. destruct H as (c & <- & _). apply seq_NoDup. Qed.
Lemma position_firstn : forall n vs p k, length p <= k -> (position n (firstn k vs) p <-> position n vs p).
Proof. intros n vs. induction vs as [|v vs IH]; intros [|i p] [|k] H; cbn in *; try tauto; try lia. rewrite IH by lia. tauto. Qed.

(* ---- the loops ---- *)
Lemma loop_inv : forall (A : Type) (f : net -> tree -> A -> net * result tree) (I : list A -> net -> tree -> Prop) l,
  (forall done x rest n t n' t', l = done ++ x :: rest -> I done n t -> f n t x = (n', Ok t') -> I (done ++ [x]) n' t') ->
  forall n t n' t', I [] n t -> loop_tree f n t l = (n', Ok t') -> I l n' t'.
Proof.
  intros A f I l St. assert (G : forall rest done n t n' t', l = done ++ rest -> I done n t -> loop_tree f n t rest = (n', Ok t') -> I l n' t').
  { induction rest as [|x rest IH]; intros done n t n' t' E Hi H; cbn in H.
    - injection H as <- <-. rewrite app_nil_r in E. subst. auto.
    - destruct (f n t x) as [n1 [t1|e]] eqn:F; [|discriminate]. apply (IH (done ++ [x]) n1 t1 n' t'); auto; [rewrite <- app_assoc; auto|]. eapply St; eauto. }
  intros n t n' t' Hi H. apply (G l [] n t n' t'); auto.
Qed.
Lemma loop_total : forall (A : Type) (f : net -> tree -> A -> net * result tree) (I : list A -> net -> tree -> Prop) l,
  (forall done x rest n t, l = done ++ x :: rest -> I done n t -> exists n' t', f n t x = (n', Ok t') /\ I (done ++ [x]) n' t') ->
  forall n t, I [] n t -> exists n' t', loop_tree f n t l = (n', Ok t') /\ I l n' t'.
Proof.
  intros A f I l St. assert (G : forall rest done n t, l = done ++ rest -> I done n t -> exists n' t', loop_tree f n t rest = (n', Ok t') /\ I l n' t').
  { induction rest as [|x rest IH]; intros done n t E Hi; cbn [loop_tree].
    - rewrite app_nil_r in E. subst. eauto.
    - destruct (St done x rest n t E Hi) as (n1 & t1 & F & I1). rewrite F. apply (IH (done ++ [x])); auto. rewrite <- app_assoc; auto. }
  intros n t Hi. apply (G l []); auto.
Qed.
Lemma walk_ok : forall g rest here cur, walk g here rest = Ok cur -> cur = here ++ rest.
Proof. intros g rest. induction rest as [|i rest IH]; intros here cur H; cbn [walk] in H; [injection H as <-; rewrite app_nil_r; auto|]. destruct (i <? children_of g here); [|discriminate]. apply IH in H. rewrite <- app_assoc in H. auto. Qed.
Lemma get_cur_node_ok : forall g idx cur, get_cur_node g idx = Ok cur -> cur = idx.
Proof. intros g [|r rest] cur H; [discriminate|]. apply walk_ok in H. auto. Qed.
Lemma put_nth_length : forall (A : Type) k (x : A) l, length (put_nth k x l) = length l.
Proof. intros A k x l. revert k. induction l as [|y l IH]; intros [|k]; cbn; auto. Qed.
Lemma put_nth_same : forall (A : Type) k (x y : A) l, nth_error l k = Some y -> nth_error (put_nth k x l) k = Some x.
Proof. intros A k x y l. revert k. induction l as [|z l IH]; intros [|k] H; cbn in *; auto; discriminate. Qed.
Lemma put_nth_other : forall (A : Type) k j (x : A) l, j <> k -> nth_error (put_nth k x l) j = nth_error l j.
Proof. intros A k j x l. revert k j. induction l as [|z l IH]; intros [|k] [|j] H; cbn in *; auto; congruence. Qed.
Lemma put_labels_ok : forall acts i i', put_labels acts i = Ok i' -> length acts <= length (is_actions i) /\ i' = mkIset (is_player i) (is_label i) (map Some acts ++ skipn (length acts) (is_actions i)) (is_probs i) /\ length (is_actions i') = length (is_actions i).
Proof.
  intros acts i i' H. unfold put_labels in H. destruct (Nat.leb_spec (length acts) (length (is_actions i))) as [Le|]; [|discriminate]. injection H as <-. split; auto. split; auto. cbn. rewrite app_length, map_length, skipn_length. lia.
Qed.
Lemma child_states_keys : forall t idx d acts, map fst (child_states t idx d acts) = map (fun i => idx ++ [i]) (seq 0 (length acts)).
Proof. intros t idx d acts. unfold child_states. rewrite map_map. cbn [fst]. generalize 0. induction acts as [|x acts IH]; intro k; cbn; auto. f_equal. apply IH. Qed.
Lemma child_states_in : forall t idx d acts i, i < length acts -> In (idx ++ [i], dset d (nth i acts (Q2Qc 0)) (state_of t idx)) (child_states t idx d acts).
Proof.
  intros t idx d acts i H. unfold child_states. apply in_map_iff. exists (i, nth i acts (Q2Qc 0)). split; auto. assert (G : forall l k j, j < length l -> In (k + j, nth j l (Q2Qc 0)) (combine (seq k (length l)) l)).
  { induction l as [|x l IH]; intros k j K; cbn in K; [lia|]. destruct j as [|j]; cbn; [left; f_equal; lia|]. right. replace (k + S j) with (S k + j) by lia. apply IH. lia. }
  apply (G acts 0 i H).
Qed.
Lemma idx_map_nodup : forall (idx : list nat) l, NoDup l -> NoDup (map (fun i => idx ++ [i]) l).
Proof. intros idx l N. induction N as [|x l H N IH]; cbn; constructor; auto. intro K. apply in_map_iff in K. destruct K as (y & E & K). apply app_inj_tail in E. destruct E as [_ ->]. auto. Qed.
(* the states after a move: those of the children are new, the others as before *)
Lemma state_after : forall t idx k isets keys d acts idx', state_of (move_to t idx k isets keys (child_states t idx d acts)) idx' =
  match find idx_dec idx' (child_states t idx d acts) with Some s => s | None => state_of t idx' end.
Proof.
  intros. unfold state_of at 1. unfold move_to. cbn [t_states]. destruct (find idx_dec idx' (child_states t idx d acts)) as [s|] eqn:E.
  - apply find_in in E. rewrite (find_app_in _ _ _ _ s); auto. rewrite child_states_keys. apply idx_map_nodup. apply seq_NoDup.
  - rewrite find_app_none; auto. intro K. apply in_map_iff in K. destruct K as ([i s] & <- & K). eapply find_none_in; eauto.
Qed.
Lemma state_child : forall t idx k isets keys d acts i, i < length acts -> state_of (move_to t idx k isets keys (child_states t idx d acts)) (idx ++ [i]) = dset d (nth i acts (Q2Qc 0)) (state_of t idx).
Proof. intros. rewrite state_after. erewrite (in_find _ _ idx_dec); [reflexivity| |apply child_states_in; auto]. rewrite child_states_keys. apply idx_map_nodup. apply seq_NoDup. Qed.
Lemma state_else : forall t idx k isets keys d acts idx', (forall i, idx' <> idx ++ [i]) -> state_of (move_to t idx k isets keys (child_states t idx d acts)) idx' = state_of t idx'.
Proof.
  intros t idx k isets keys d acts idx' H. rewrite state_after. destruct (find idx_dec idx' (child_states t idx d acts)) as [s|] eqn:E; auto. exfalso. apply find_in in E. apply (in_map fst) in E. rewrite child_states_keys in E. apply in_map_iff in E. destruct E as (i & E & _). apply (H i). auto.
Qed.

(* ---- the network after queries ---- *)
Definition later (n0 n : net) : Prop := smaller n0 n /\ (connected n0 -> n = n0).
Lemma later_refl : forall n, wf_dag (ngraph n) -> later n n.
Proof. intros n W. split; [apply smaller_refl; auto|auto]. Qed.
Lemma query_asked : forall o m n qs c n' f, macid_query o m n qs c [] = (n', Ok f) -> wf_dag (ngraph n) -> qs <> [] /\ incl qs (nodes (ngraph n)).
Proof.
  intros o m n qs c n' f H W. apply macid_query_inv in H. destruct H as (_ & _ & _ & H). unfold query in H. destruct (check_context (doms n) c); [|discriminate]. unfold query_connected in H.
  destruct (map_r (component (ngraph n)) qs) as [cs|e] eqn:Ec; [|discriminate]. destruct (components_spec _ _ _ W Ec) as [Iq Cq]. split; auto. intros ->. cbn in Ec. injection Ec as <-. cbn [concat] in H.
  destruct (loop_net remove_node n (filter (fun v => negb (mem v [])) (nodes (ngraph n)))) as [n3 [e3|]] eqn:El; [discriminate|].
  apply remove_nodes_edges in El. destruct El as [_ El]. assert (nodes (ngraph n3) = []) as E.
  { destruct (nodes (ngraph n3)) as [|v l]; auto. exfalso. assert (K : In v (v :: l)) by (left; auto). rewrite El in K. apply filter_In in K. destruct K as [K1 K2]. apply negb_true_iff in K2. apply mem_nIn in K2. apply K2. apply filter_In. auto. }
  unfold is_connected in H. rewrite E in H. discriminate.
Qed.
Lemma later_query : forall n0 o m n qs c n' f, later n0 n -> macid_query o m n qs c [] = (n', Ok f) -> later n0 n'.
Proof.
  intros n0 o m n qs c n' f [S C] H. assert (W : wf_dag (ngraph n)) by apply S. destruct (query_asked _ _ _ _ _ _ _ H W) as [Ne Iq]. split.
  - apply macid_query_inv in H. destruct H as (_ & _ & _ & H). apply query_smaller in H; auto. eapply smaller_trans; eauto. apply H.
  - intro Co. specialize (C Co). subst n. destruct (C37_methods_partial o m n0 qs c [] W) as (F & _). destruct (F _ _ H) as [_ (_ & _ & _ & _ & F5)]. apply F5.
    intros v Hv. destruct qs as [|q qs]; [congruence|]. exists q. split; [left; auto|]. apply Co; auto. apply Iq. left; auto.
Qed.
Lemma later_utility : forall n0 o m n c a n' u, later n0 n -> expected_utility o m n c [] a = (n', Ok u) -> later n0 n'.
Proof.
  intros n0 o m n c a n' u L H. unfold expected_utility in H. destruct (dict_get a (agent_utilities m)) as [us|]; [|discriminate]. unfold macid_expected_value in H. destruct (macid_query o m n us c []) as [n1 [f|e]] eqn:E; cbn in H.
  - injection H as <- _. eapply later_query; eauto.
  - discriminate.
Qed.
