(* Lemmas about the networks a program can come by, and about the success of copies, interventions and queries. *)
From Coq Require Import String List Bool Arith QArith Qcanon Lia Permutation Setoid.
Import ListNotations.
From Verif Require Import MBase MGraph MMacid MCpd MNet MProb MQuery Spec SpecM SpecC SpecN SpecQ LBase LGraph LCopy LQc LCpd LNet LSum LBayes LQuery LDo LInter LFactor LEdit.
Local Open Scope Qc_scope.

Definition pythonic (n : net) : Prop := forall v r, lookup v (rels n) = Some r -> python_rel r.
Lemma pythonic_step : forall n o n', sound n -> pythonic n -> (forall v r, o = OAdd v r -> admissible v r) -> step n o = (n', None) -> pythonic n'.
Proof.
  intros n o n' S P H E v r Hr. destruct (step_sound n o n' S) as (_ & _ & R); auto.
  { destruct o as [u s|u]; simpl; auto. apply (H u s eq_refl). }
  rewrite R in Hr. destruct o as [u s|u]; cbn [effect] in Hr; destruct (String.eqb u v); eauto; try discriminate. injection Hr as <-. apply (H u s eq_refl).
Qed.
Lemma intervene_sound : forall iv n n', sound n -> pythonic n -> intervene n iv = (n', None) -> sound n' /\ pythonic n'.
Proof.
  induction iv as [|[v x] iv IH]; intros n n' S P H; cbn [intervene loop_net] in H; [injection H as <-; auto|].
  destruct (intervene_one n (v, x)) as [m [e|]] eqn:E; [discriminate|]. destruct (intervene_one_sound n v x m S E) as (S1 & _ & _ & _ & _ & _ & d & _ & R).
  apply (IH m n'); auto. intros u r Hu. rewrite R in Hu. destruct (String.eqb u v); [|eapply P; eauto]. injection Hu as <-. apply point_dist_dict.
Qed.
(* removing nodes that have tables *)
Lemma remove_node_inv : forall n v n', NoDup (map tvar (cpds n)) -> NoDup (keys (rels n)) -> cpd_of n v <> None -> remove_node n v = (n', None) ->
  NoDup (map tvar (cpds n')) /\ NoDup (keys (rels n')) /\ (forall u, lookup u (rels n') = if String.eqb u v then None else lookup u (rels n)) /\
  (forall u, cpd_of n' u = if String.eqb u v then None else cpd_of n u).
Proof.
  intros n v n' I N Hv H. unfold remove_node in H. destruct (cpd_of n v) as [t|] eqn:Ev; [|congruence].
  destruct (del_item n v) as [n0 [e|]] eqn:E; [discriminate|]. unfold del_item in E. destruct (mem v (keys (rels n))); [|discriminate]. injection E as <-.
  cbn [ngraph] in H. destruct (nx_remove_node (ngraph n) v) as [g|e] eqn:Eg; [|discriminate]. injection H as <-. cbn [on_graph cpds rels].
  assert (Hm : mem v (nodes (ngraph n)) = true). { unfold nx_remove_node in Eg. destruct (mem v (nodes (ngraph n))); [auto|discriminate]. }
  rewrite Hm. split; [apply map_remove_tab; auto|]. split; [apply NoDup_keys_ddel; auto|]. split; [intro u; apply lookup_ddel|].
  intro u. unfold cpd_of. cbn [on_graph cpds]. apply (find_remove_tab u v (cpds n) I).
Qed.
Lemma remove_nodes_inv : forall vs n n', NoDup (map tvar (cpds n)) -> NoDup (keys (rels n)) -> NoDup vs -> (forall v, In v vs -> cpd_of n v <> None) -> loop_net remove_node n vs = (n', None) ->
  NoDup (map tvar (cpds n')) /\ NoDup (keys (rels n')) /\ (forall u, In u vs -> lookup u (rels n') = None /\ cpd_of n' u = None) /\
  (forall u, ~ In u vs -> lookup u (rels n') = lookup u (rels n) /\ cpd_of n' u = cpd_of n u).
Proof.
  induction vs as [|v vs IH]; intros n n' I N Nv Hv H; cbn [loop_net] in H.
  - injection H as <-. split; auto. split; auto. split; auto. intros u [].
  - destruct (remove_node n v) as [m [e|]] eqn:E; [discriminate|]. inversion Nv as [|? ? N1 N2]; subst.
    destruct (remove_node_inv n v m I N) as (I1 & K1 & R1 & C1); auto; [apply Hv; left; auto|].
    destruct (IH m n' I1 K1 N2) as (I2 & K2 & A & B); auto.
    { intros u Hu. rewrite C1. destruct (String.eqb_spec u v) as [->|]; [contradiction|]. apply Hv; right; auto. }
    split; auto. split; auto. split.
    + intros u [<-|Hu]; auto. rewrite (proj1 (B v N1)), (proj2 (B v N1)), R1, C1, String.eqb_refl. auto.
    + intros u Hu. destruct (B u) as [X1 X2]; [intro; apply Hu; right; auto|]. rewrite X1, X2, R1, C1. destruct (String.eqb_spec u v) as [->|]; [exfalso; apply Hu; left; auto|auto].
Qed.
Lemma sub_parents : forall g g' v, (forall u, edge g' u v <-> edge g u v) -> wf_graph g -> wf_graph g' -> Permutation (parents g v) (parents g' v).
Proof. intros g g' v H W W'. apply NoDup_Permutation; try (apply nodup_parents; auto). intro u. rewrite !in_parents, H. tauto. Qed.
Lemma nx_remove_parents : forall g g' u v, nx_remove_node g u = Ok g' -> v <> u -> ~ edge g u v -> parents g' v = parents g v.
Proof.
  intros g g' u v H Hv He. unfold nx_remove_node in H. destruct (mem u (nodes g)); [|discriminate]. injection H as <-. unfold parents. cbn [edges]. unfold edge in He. f_equal.
  induction (edges g) as [|[a b] l IH]; auto. cbn [filter fst snd]. destruct (String.eqb_spec u a) as [<-|Na]; cbn [negb andb].
  - destruct (String.eqb_spec b v) as [->|]; [exfalso; apply He; left; auto|]. apply IH. intro; apply He; right; auto.
  - destruct (String.eqb_spec u b) as [<-|Nb]; cbn [negb filter snd].
    + destruct (String.eqb_spec u v); [congruence|]. apply IH. intro; apply He; right; auto.
    + destruct (String.eqb b v); [f_equal|]; apply IH; intro; apply He; right; auto.
Qed.
Lemma remove_node_graph : forall n v n', remove_node n v = (n', None) -> nx_remove_node (ngraph n) v = Ok (ngraph n').
Proof.
  intros n v n' H. unfold remove_node in H. set (r := if match cpd_of n v with Some _ => true | None => false end then del_item n v else (n, None)) in H. destruct r as [n0 [e|]] eqn:E; [discriminate|].
  assert (G : ngraph n0 = ngraph n). { subst r. destruct (cpd_of n v); [|injection E as <-; auto]. unfold del_item in E. destruct (mem v (keys (rels n))); [|discriminate]. injection E as <-. auto. }
  rewrite G in H. destruct (nx_remove_node (ngraph n) v) as [g|e]; [|discriminate]. injection H as <-. auto.
Qed.
Lemma remove_nodes_parents : forall vs n n' w, wf_dag (ngraph n) -> loop_net remove_node n vs = (n', None) -> ~ In w vs -> (forall u, In u vs -> ~ edge (ngraph n) u w) -> parents (ngraph n') w = parents (ngraph n) w.
Proof.
  induction vs as [|v vs IH]; intros n n' w W H Hw He; cbn [loop_net] in H; [injection H as <-; auto|].
  destruct (remove_node n v) as [m [e|]] eqn:E; [discriminate|]. destruct (remove_node_spec n v m W E) as (W1 & _ & E1 & _). rewrite (IH m n'); auto.
  - eapply nx_remove_parents; [apply (remove_node_graph n v m E)| |]; [intro; apply Hw; left; auto|apply He; left; auto].
  - intro; apply Hw; right; auto.
  - intros u Hu K. apply E1 in K. apply (He u); [right; auto|tauto].
Qed.
Lemma query_sound : forall o n qs c n' f, sound n -> complete_net n -> (forall v r, lookup v (rels n) = Some r -> cpd_of n v <> None) -> (forall v t, cpd_of n v = Some t -> forall p, In p (tev t) -> edge (ngraph n) p v) ->
  query_connected o n qs c = (n', Ok f) -> sound n' /\ forall v r, lookup v (rels n') = Some r -> lookup v (rels n) = Some r.
Proof.
  intros o n qs c n' f S C Rt Ev H. assert (W := s_dag n S). unfold query_connected in H. destruct (map_r (component (ngraph n)) qs) as [cs|e] eqn:Ec; [|discriminate].
  destruct (components_spec _ _ _ W Ec) as [Iq Cq].
  set (far := filter (fun v => negb (mem v (concat cs))) (nodes (ngraph n))) in *.
  destruct (loop_net remove_node n far) as [n3 [e|]] eqn:El; [discriminate|].
  destruct (is_connected (ngraph n3)) as [[|]|e]; [|discriminate|discriminate]. injection H as <- _.
  assert (Kf : forall v, In v far <-> In v (nodes (ngraph n)) /\ ~ In v (concat cs)) by (intro v; unfold far; rewrite filter_In, negb_true_iff, mem_nIn; tauto).
  assert (Nf : NoDup far) by (apply NoDup_filter; apply W).
  destruct (remove_nodes_spec _ _ _ W El) as (W3 & N3 & E3 & D3 & C3).
  destruct (remove_nodes_inv far n n3) as (I1 & K1 & A & B); auto; [apply S|apply S|intros v Hv; apply C; apply Kf in Hv; tauto|].
  assert (Lk : forall u v, edge (ngraph n) u v -> (In u far <-> In v far)).
  { intros u v E. rewrite !Kf, !Cq. assert (Z : In u (nodes (ngraph n)) /\ In v (nodes (ngraph n))) by (apply W; auto). destruct Z as [Z1 Z2].
    split; intros [_ X]; (split; [auto|]); intros (_ & q & Hq & L); apply X; (split; [auto|]); exists q; (split; [auto|]); eapply linked_edge; eauto. }
  assert (Rl : forall v r, lookup v (rels n3) = Some r -> ~ In v far /\ lookup v (rels n) = Some r).
  { intros v r Hr. destruct (in_dec String.string_dec v far) as [K|K]; [destruct (A v K); congruence|]. split; auto. destruct (B v K). congruence. }
  assert (Ct : forall v t, cpd_of n3 v = Some t -> ~ In v far /\ cpd_of n v = Some t).
  { intros v t Ht. destruct (in_dec String.string_dec v far) as [K|K]; [destruct (A v K); congruence|]. split; auto. destruct (B v K). congruence. }
  assert (Nk : forall v, In v (nodes (ngraph n3)) <-> In v (nodes (ngraph n)) /\ ~ In v far) by (intro v; rewrite N3, filter_In, negb_true_iff, mem_nIn; tauto).
  destruct S as [_ I St Ks]. split; [|intros v r Hr; apply Rl in Hr; tauto]. constructor; auto.
  - constructor; auto.
    + intros u t Ht. apply Ct in Ht. rewrite D3. apply (inv_dom n I). tauto.
    + intros u t Ht. apply Ct in Ht. destruct Ht as [X1 X2]. destruct (inv_rel n I u t X2) as [Y1 Y2]. rewrite Nk. split; auto.
      apply lookup_In_keys in Y1. destruct Y1 as [r Hr]. apply lookup_In_keys. exists r. destruct (B u X1). congruence.
    + intros u r Hr. apply Rl in Hr. apply (inv_proper n I). tauto.
    + intros u t Ht. apply Ct in Ht. destruct Ht as [X1 X2]. assert (Sc := inv_scope n I u t X2). apply in_scope_iff in Sc. destruct Sc as [Y1 Y2]. apply in_scope_iff.
      assert (Tv : tvar t = u) by (apply (find_tab_in u (cpds n) t X2)). rewrite Tv in *. rewrite Nk. split; auto. intros p Hp. apply Nk. split; auto. rewrite (Lk p u); auto. eapply Ev; eauto.
  - intros v r Hr. apply Rl in Hr. destruct Hr as [X1 X2]. assert (Sv := St v r X2). unfold settled in *. rewrite D3, (proj2 (B v X1)).
    assert (Hv : In v (nodes (ngraph n))). { specialize (Rt v r X2). destruct (cpd_of n v) as [t|] eqn:E; [|congruence]. apply (inv_rel n I v t E). }
    rewrite (table_of_parents (ngraph n) (ngraph n3)); auto; [rewrite Nk; tauto|]. eapply remove_nodes_parents; eauto. intros u Hu K. apply X1. apply (Lk u v K). auto.
Qed.
Lemma dist_portable : forall n, sound n -> pythonic n -> distribution n -> portable n /\ (forall v r, lookup v (rels n) = Some r -> cpd_of n v <> None) /\
  (forall v t, cpd_of n v = Some t -> forall p, In p (tev t) -> edge (ngraph n) p v).
Proof.
  intros n S Py (W & Sg & Ex & Ft). assert (Ht := fun v t => has_table_iff n v t (s_inv n S)).
  assert (C : complete_net n). { intros v Hv. destruct (Ft v Hv) as (t & H & _). apply Ht in H. congruence. }
  assert (E : forall v t, cpd_of n v = Some t -> forall p, In p (tev t) -> edge (ngraph n) p v).
  { intros v t Hc p Hp. destruct (Ft v) as (t' & H & _ & X & _); [apply (inv_rel n (s_inv n S) v t Hc)|]. apply Ht in H. assert (t' = t) by congruence. subst. apply X; auto. }
  assert (Tb : forall v t, lookup v (rels n) = Some (RTab t) -> cpd_of n v = Some t). { intros v t Hr. apply (s_settled n S v _ Hr). }
  assert (Rt : forall v r, lookup v (rels n) = Some r -> cpd_of n v <> None).
  { intros v r Hr. destruct (in_dec String.string_dec v (nodes (ngraph n))) as [K|K]; [apply C; auto|]. exfalso.
    assert (Sv := s_settled n S v r Hr). unfold settled in Sv. destruct (table_of (ngraph n) (doms n) v r) as [t|e] eqn:Et.
    - apply K. apply (inv_rel n (s_inv n S) v t Sv).
    - unfold table_of, table_from, init_table, possible_values, parent_values, get_parents in Et. rewrite (proj2 (mem_nIn _ _) K) in Et. destruct r; cbn [bind] in Et; try discriminate; injection Et as <-; contradiction. }
  split; [|auto]. constructor; auto.
  - intros v t Hr p Hp. eapply E; eauto.
  - intros v t Hr. apply (Ex v t). apply Ht. auto.
Qed.
Lemma built_sound : forall n, built n -> sound n /\ pythonic n.
Proof.
  intros n B. induction B as [g W|n o n' B [S P] H E|n n' B [S P] E|n iv n' B [S P] E|o roles n qs c iv n' f B [S P] Hd E|n u v n' B [S P] F E|n u v n' B [S P] F E].
  - split; [|intros v r Hr; discriminate]. constructor; auto; [apply bare_inv|intros v r Hr; discriminate|constructor].
  - split; [|eapply pythonic_step; eauto]. eapply step_sound; eauto. destruct o as [v r|v]; simpl; auto. apply (H v r eq_refl).
  - destruct (copy_sound n n' S E) as (S' & _ & R). split; auto. intros v r Hr. rewrite R in Hr. eapply P; eauto.
  - eapply intervene_sound; eauto.
  - destruct (dist_portable n S P Hd) as (Po & Rt & Ev). unfold query in E. destruct (check_context (doms n) c); [|discriminate].
    destruct iv; [|injection E as <- _; auto]. destruct (query_sound o n qs c n' f S (p_complete n Po) Rt Ev E) as [S' R]. split; auto. intros v r Hr. apply R in Hr. eapply P; eauto.
  - destruct (add_edge_sound n u v n' S F E) as (S' & R & _). split; auto. intros w r Hr. rewrite R in Hr. eapply P; eauto.
  - destruct (remove_edge_sound n u v n' S F E) as (S' & R & _). split; auto. intros w r Hr. rewrite R in Hr. eapply P; eauto.
Qed.
Lemma built_portable : forall n, built n -> distribution n -> portable n.
Proof. intros n B Hd. destruct (built_sound n B) as [S P]. apply (dist_portable n S P Hd). Qed.

(* ---- queries ---- *)
Lemma in_domains_dom : forall n c v x, in_domains n c -> In (v, x) c -> In x (dom_of (doms n) v).
Proof. intros n c v x H Hi. destruct (H v x Hi) as (d & L & Hx). unfold has_domain in L. unfold dom_of. rewrite L. auto. Qed.
Lemma self_tracks : forall n, portable n -> tracks n n [].
Proof.
  intros n [S C Py Ev Nd]. constructor; auto; [intros; simpl; tauto|intros v []].
Qed.
Lemma intervene_tracks : forall n n1 iv n2, portable n -> tracks n n1 [] -> intervene n1 iv = (n2, None) -> NoDup (keys iv) -> in_domains n iv -> tables_sorted n iv -> tracks n n2 iv.
Proof.
  intros n n1 iv n2 Po T H N Di Ts. apply (tracks_intervene n iv [] n1 n2); auto.
  - intros v x Hx. eapply in_domains_dom; eauto.
  - intros v x u t Hx Hr He. apply (Ts v u t); auto. apply (in_map fst) in Hx. auto.
Qed.
Lemma intervene_nodes : forall iv n n', sound n -> intervene n iv = (n', None) -> nodes (ngraph n') = nodes (ngraph n) /\ incl (keys iv) (nodes (ngraph n)).
Proof.
  induction iv as [|[v x] iv IH]; intros n n' S H; cbn [intervene loop_net] in H; [injection H as <-; split; [auto|intros ? []]|].
  destruct (intervene_one n (v, x)) as [m [e|]] eqn:E; [discriminate|]. destruct (intervene_one_sound n v x m S E) as (S1 & N1 & _ & _ & _ & Hv & _).
  destruct (IH m n' S1 H) as [N2 I2]. split; [congruence|]. intros u [<-|Hu]; [exact Hv|]. rewrite <- N1. apply I2; auto.
Qed.
Lemma query_split : forall o roles n qs c iv n' f, query o roles n qs c iv = (n', Ok f) -> built n -> distribution n ->
  NoDup (keys iv) -> in_domains n iv -> tables_sorted n iv ->
  check_context (doms n) c = Ok tt /\ incl (keys iv) (nodes (ngraph n)) /\
  exists n2 n3, realises n n2 iv /\ query_connected o n2 qs c = (n3, Ok f).
Proof.
  intros o roles n qs c iv n' f H B Hd N Di Ts. unfold query in H. destruct (check_context (doms n) c) as [[]|e]; [|discriminate]. split; auto.
  assert (Po := built_portable n B Hd). destruct iv as [|vx iv].
  - split; [intros ? []|]. exists n, n'. split; auto. apply realises_self. apply Hd.
  - injection H as <- H. destruct roles as [[]|e]; [|discriminate]. cbn [bind] in H. destruct (copy_net n) as [n1|e] eqn:Ec; [|discriminate]. cbn [bind] in H.
    destruct (intervene n1 (vx :: iv)) as [n2 [e|]] eqn:Ei; [discriminate|]. assert (T := tracks_copy n n1 Po Ec). assert (T2 := intervene_tracks n n1 _ n2 Po T Ei N Di Ts).
    split; [destruct (intervene_nodes _ _ _ (k_sound _ _ _ T) Ei) as [_ X]; rewrite (k_nodes _ _ _ T) in X; exact X|].
    destruct (query_connected o n2 qs c) as [n3 r] eqn:Eq. cbn [snd] in H. exists n2, n3. split; [apply realises_tracks; auto|]. rewrite Eq, H. auto.
Qed.
Lemma linked_joined : forall g h xs, (forall u v, edge h u v <-> edge g u v /\ ~ In v xs) -> forall u v, linked h u v <-> joined g xs u v.
Proof.
  intros g h xs E u v. split; intro H; induction H as [u|u v w K R IH]; try constructor.
  - eapply joined_step; [|exact IH]. apply edge_undirected in K. rewrite !E in K. exact K.
  - eapply reach_step; [|exact IH]. apply edge_undirected. rewrite !E. auto.
Qed.
Lemma query_exact : forall o roles n qs c iv n' f, valid_order o -> built n -> distribution n -> NoDup (keys c) -> incl (keys c) (nodes (ngraph n)) ->
  NoDup (keys iv) -> in_domains n iv -> tables_sorted n iv -> query o roles n qs c iv = (n', Ok f) ->
  Permutation (fvars f) (to_set qs) /\ incl qs (nodes (ngraph n)) /\ incl (keys iv) (nodes (ngraph n)) /\ (forall q, In q qs -> ~ In q (keys c)) /\
  NoDup (map fst (fentries f)) /\ (forall xs, In xs (map fst (fentries f)) <-> Forall2 (fun v x => In x (dom_of (doms n) v)) (fvars f) xs) /\
  exists c1 c2, Permutation c (c1 ++ c2) /\ (forall v q, In v (keys c2) -> In q qs -> ~ joined (ngraph n) (keys iv) q v) /\ do_prob n iv c = do_prob n iv c1 * do_prob n iv c2 /\ qsum (map snd (fentries f)) = do_prob n iv c1 / do_prob n iv c1 /\
    forall xs p, In (xs, p) (fentries f) -> p = do_prob n iv (combine (fvars f) xs ++ c1) / do_prob n iv c1 /\ (do_prob n iv c1 <> 0 -> do_prob n iv (combine (fvars f) xs ++ c) = p * do_prob n iv c).
Proof.
  intros o roles n qs c iv n' f O B Hd Nc Ic Ni Di Ts H. destruct (query_split o roles n qs c iv n' f H B Hd Ni Di Ts) as (Cc & Ii & n2 & n3 & R & Q).
  destruct (query_connected_exact n n2 iv Hd Ni Ii Di R o qs c n3 f O Nc Ic Q) as (Pf & Iq & Ef & Dq & X).
  assert (Iv : forall v, In v (fvars f) -> In v (nodes (ngraph n))) by (intros v Hv; apply Iq; apply in_to_set; eapply Permutation_in; eauto).
  split; auto. split; auto. split; auto. split; auto. split; [|split].
  3:{ destruct X as (c1 & c2 & X1 & X2 & X3). exists c1, c2. split; auto. split; auto. intros v q Hv Hq J. apply (X2 v q Hv Hq). apply (linked_joined (ngraph n) _ (keys iv)); auto. apply R. }
  - rewrite Ef. apply NoDup_product. intros l Hl. apply in_map_iff in Hl. destruct Hl as (v & <- & Hv). eapply Permutation_NoDup; [apply (r_dom n n2 iv R); auto|]. apply dom_nodup; auto.
  - intro xs. rewrite Ef, in_product. clear - R Iv. revert xs. induction (fvars f) as [|v l IH]; intro xs; cbn [map]; split; intro H; inversion H; subst; constructor; auto.
    + eapply Permutation_in; [apply Permutation_sym, (r_dom n n2 iv R); apply Iv; left; auto|auto].
    + apply IH; auto. intros; apply Iv; right; auto.
    + eapply Permutation_in; [apply (r_dom n n2 iv R); apply Iv; left; auto|auto].
    + apply IH; auto. intros; apply Iv; right; auto.
Qed.

(* ---- expectations ---- *)
Lemma one_value : forall (D2 : node -> list outcome) vs b i v, NoDup vs -> nth_error vs i = Some v -> (forall v, In v vs -> NoDup (D2 v) /\ In (b v) (D2 v)) ->
  qsum (map (fun xs => nth i xs 0 * (if agrees (combine vs xs) b then 1 else 0)) (product (map D2 vs))) = b v.
Proof.
  intros D2 vs. induction vs as [|w vs IH]; intros b i v N E H; [destruct i; discriminate|]. inversion N as [|? ? N1 N2]; subst. cbn [map product].
  rewrite qsum_flat. destruct (H w) as [H1 H2]; [left; auto|]. rewrite (qsum_single _ Qc_eq_dec _ _ (b w)); auto.
  - rewrite map_map. destruct i as [|i]; cbn [nth_error] in E.
    + injection E as <-. rewrite (qsum_ext _ _ (fun xs => b w * (if agrees (combine vs xs) b then 1 else 0))).
      * rewrite qsum_scale, one_combination; auto; [ring|]. intros u Hu. apply H. right; auto.
      * intros xs _. cbn [combine agrees forallb fst snd nth]. fold (agrees (combine vs xs) b). replace (oeqb (b w) (b w)) with true by (symmetry; apply oeqb_iff; auto). auto.
    + rewrite <- (IH b i v N2 E) by (intros u Hu; apply H; right; auto). apply qsum_ext. intros xs _. cbn [combine agrees forallb fst snd nth]. fold (agrees (combine vs xs) b).
      replace (oeqb (b w) (b w)) with true by (symmetry; apply oeqb_iff; auto). auto.
  - intros y Hy Ne. rewrite map_map. etransitivity; [|apply (qsum_zero _ (product (map D2 vs)))]. apply qsum_ext. intros xs _. cbn [combine agrees forallb fst snd].
    destruct (oeqb_spec (b w) y); [congruence|]. cbn [andb]. ring.
Qed.
Lemma P_moment : forall g D K vs c i v, NoDup vs -> incl vs (nodes g) -> nth_error vs i = Some v -> (forall v, In v vs -> NoDup (D v)) ->
  qsum (map (fun xs => nth i xs 0 * P g D K (combine vs xs ++ c)) (product (map D vs))) = qsum (map (fun x => x * P g D K ((v, x) :: c)) (D v)).
Proof.
  intros g D K vs c i v N I E H. assert (Hv : In v vs) by (eapply nth_error_In; eauto).
  transitivity (total D (nodes g) (fun b => b v * ((if agrees c b then 1 else 0) * weight K (nodes g) b)) (fun _ => 0)).
  - unfold P. rewrite (qsum_ext _ _ (fun xs => total D (nodes g) (fun b => nth i xs 0 * ((if agrees (combine vs xs ++ c) b then 1 else 0) * weight K (nodes g) b)) (fun _ => 0))) by (intros; rewrite total_scale; auto).
    rewrite <- total_qsum. apply total_ext_in. intros b Hb _. rewrite (qsum_ext _ _ (fun xs => (if agrees c b then 1 else 0) * weight K (nodes g) b * (nth i xs 0 * (if agrees (combine vs xs) b then 1 else 0)))).
    + rewrite qsum_scale, (one_value D vs b i v); auto. ring.
    + intros xs _. rewrite agrees_app. destruct (agrees (combine vs xs) b), (agrees c b); cbn [andb]; ring.
  - unfold P. rewrite (qsum_ext _ (fun x => x * _) (fun x => total D (nodes g) (fun b => x * ((if agrees ((v, x) :: c) b then 1 else 0) * weight K (nodes g) b)) (fun _ => 0))) by (intros; rewrite total_scale; auto).
    rewrite <- total_qsum. apply total_ext_in. intros b Hb _. rewrite (qsum_single _ Qc_eq_dec _ _ (b v)); auto.
    + cbn [agrees forallb fst snd]. replace (oeqb (b v) (b v)) with true by (symmetry; apply oeqb_iff; auto). auto.
    + intros y Hy Ne. cbn [agrees forallb fst snd]. destruct (oeqb_spec (b v) y); [congruence|]. cbn [andb]. ring.
Qed.
Lemma in_product_doms : forall (ds : domains) vs xs, In xs (product (map (dom_of ds) vs)) <-> Forall2 (fun v x => In x (dom_of ds v)) vs xs.
Proof.
  intros ds vs xs. rewrite in_product. revert xs. induction vs as [|v vs IH]; intro xs; cbn [map]; split; intro H; inversion H; subst; constructor; auto; apply IH; auto.
Qed.
Lemma expected_exact : forall n iv c f l, distribution n -> NoDup (keys iv) -> incl (keys iv) (nodes (ngraph n)) -> NoDup (fvars f) -> incl (fvars f) (nodes (ngraph n)) ->
  NoDup (map fst (fentries f)) -> (forall xs, In xs (map fst (fentries f)) <-> Forall2 (fun v x => In x (dom_of (doms n) v)) (fvars f) xs) ->
  (exists c1 c2, do_prob n iv c = do_prob n iv c1 * do_prob n iv c2 /\ qsum (map snd (fentries f)) = do_prob n iv c1 / do_prob n iv c1 /\
    forall xs p, In (xs, p) (fentries f) -> do_prob n iv c1 <> 0 -> do_prob n iv (combine (fvars f) xs ++ c) = p * do_prob n iv c) ->
  do_prob n iv c <> 0 -> expectations f = Ok l -> length l = length (fvars f) /\ forall i v, nth_error (fvars f) i = Some v -> nth_error l i = Some (expectation n iv c v).
Proof.
  intros n iv c f l Hd Ni Ii Nf If Ne Ef (c1 & c2 & E1 & E2 & E3) Hc H. unfold expectations in H. rewrite E2 in H.
  assert (Z : do_prob n iv c1 <> 0) by (intro K; apply Hc; rewrite E1, K; ring). rewrite (Qcmult_inv_r _ Z : do_prob n iv c1 / do_prob n iv c1 = 1) in H. destruct (oeqb_spec 1 0) as [K|_]; [discriminate|]. injection H as <-. split; [rewrite map_length, seq_length; auto|].
  intros i v Hv. assert (Z2 : do_prob n iv c2 <> 0) by (intro K; apply Hc; rewrite E1, K; ring).
  assert (Li : (i < length (fvars f))%nat) by (apply nth_error_Some; congruence).
  rewrite (map_nth_error _ i (seq 0 (length (fvars f))) (d := i)) by (rewrite (nth_error_nth' _ 0%nat) by (rewrite seq_length; auto); rewrite seq_nth by auto; auto). f_equal.
  assert (Pm : Permutation (map fst (fentries f)) (product (map (ndom n) (fvars f)))).
  { assert (M : map (ndom n) (fvars f) = map (dom_of (doms n)) (fvars f)) by (apply map_ext_in; intros u Hu; apply ndom_in; auto). rewrite M. apply NoDup_Permutation; auto.
    - apply NoDup_product. intros d Hd'. apply in_map_iff in Hd'. destruct Hd' as (u & <- & Hu). apply dom_nodup; auto.
    - intro xs. rewrite Ef, in_product_doms. tauto. }
  assert (M := P_moment (cut (ngraph n) (keys iv)) (ndom n) (do_kernel n iv) (fvars f) c i v Nf If Hv (fun u _ => ndom_nodup n u Hd)).
  rewrite <- (qsum_perm _ _ (Permutation_map _ Pm)), map_map in M.
  transitivity (/ do_prob n iv c * qsum (map (fun x => x * P (cut (ngraph n) (keys iv)) (ndom n) (do_kernel n iv) ((v, x) :: c)) (ndom n v))).
  - rewrite <- M, <- qsum_scale. apply qsum_ext. intros [xs p] Hx. cbv beta; cbn [fst snd]. match goal with |- _ = _ * (_ * ?X) => assert (Q : X = p * do_prob n iv c) by (rewrite <- (E3 xs p Hx Z); symmetry; apply (do_prob_P n iv (combine (fvars f) xs ++ c)); auto) end. rewrite Q. unfold Qcdiv. change (/ 1) with 1. field. auto.
  - unfold expectation. fold qsum. change (fold_right Qcplus 0) with qsum. rewrite ndom_in by (apply If; eapply nth_error_In; eauto). rewrite <- qsum_scale. apply qsum_ext. intros x _. rewrite <- do_prob_P by auto. field. auto.
Qed.
