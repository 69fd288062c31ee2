(* Lemmas about the result of a query: independent components, removal of nodes, sums over the query. *)
From Coq Require Import String List Bool Arith QArith Qcanon Lia Permutation Setoid.
Import ListNotations.
From Verif Require Import MBase MGraph MMacid MCpd MNet MProb MQuery Spec SpecM SpecC SpecN SpecQ LBase LGraph LCopy LQc LCpd LNet LSum LBayes LQuery LDo LInter.
Local Open Scope Qc_scope.

(* ---- values of variables ---- *)
Lemma agrees_perm : forall c c' a, Permutation c c' -> agrees c a = agrees c' a.
Proof.
  intros c c' a Pm. apply eq_true_iff_eq. rewrite !agrees_iff. split; intros H v x Hx; apply H; [eapply Permutation_in; [apply Permutation_sym; eauto|auto]|eapply Permutation_in; eauto].
Qed.
Lemma keys_app : forall (A : Type) (c d : list (node * A)), keys (c ++ d) = keys c ++ keys d.
Proof. intros. unfold keys. apply map_app. Qed.
Lemma keys_combine : forall (A : Type) (vs : list node) (xs : list A), length xs = length vs -> keys (combine vs xs) = vs.
Proof. intros A vs. induction vs as [|v vs IH]; intros [|x xs] H; try discriminate; auto. cbn [combine]. unfold keys in *. cbn [map fst]. f_equal. apply IH. simpl in H. lia. Qed.

(* ---- unrelated sets of variables ---- *)
Section Apart.
  Variables (g : graph) (D : node -> list outcome) (K : node -> asg -> Qc).
  Hypothesis W : wf_dag g.
  Hypothesis C : cond g D K.
  Lemma P_barren : forall A c, incl A (nodes g) -> NoDup A -> closed g A -> incl (keys c) A ->
    P g D K c = total D A (fun b => (if agrees c b then 1 else 0) * weight K A b) (fun _ => 0).
  Proof.
    intros A c I N Cl Ic. unfold P. rewrite (total_ext D (nodes g) _ (fun b => weight K (nodes g) b * (if agrees c b then 1 else 0))) by (intro; ring).
    rewrite (barren g D W K A); auto; [apply total_ext; intro; ring|]. eapply on_mono; [|apply agrees_on]. intros v Hv. apply Ic; auto.
  Qed.
  Lemma P_perm : forall c c', Permutation c c' -> P g D K c = P g D K c'.
  Proof. intros c c' Pm. unfold P. apply total_ext. intro b. rewrite (agrees_perm c c' b Pm). auto. Qed.
  Lemma apart : forall A y z, closed g A -> (forall u v, edge g u v -> In u A -> In v A) -> incl A (nodes g) -> NoDup A ->
    incl (keys y) A -> incl (keys z) (nodes g) -> (forall v, In v (keys z) -> ~ In v A) -> P g D K (y ++ z) = P g D K y * P g D K z.
  Proof.
    intros A y z Cl Op I N Iy Iz Dz. set (B := filter (fun v => negb (mem v A)) (nodes g)).
    assert (PB : Permutation (nodes g) (A ++ B)).
    { apply NoDup_Permutation; [apply W| |].
      - apply NoDup_app'; auto; [apply NoDup_filter; apply W|]. intros x H1 H2. apply filter_In in H2. destruct H2 as [_ H2]. apply negb_true_iff in H2. apply mem_nIn in H2. auto.
      - intro v. rewrite in_app_iff. unfold B. rewrite filter_In, negb_true_iff, mem_nIn. split; [|intros [X|[X _]]; auto]. intro X. destruct (in_dec String.string_dec v A); auto. }
    assert (IB : incl B (nodes g)) by (intros v Hv; apply filter_In in Hv; tauto).
    assert (ClB : closed g B).
    { intros u v He Hv. unfold B in *. rewrite filter_In, negb_true_iff, mem_nIn in *. destruct Hv as [_ Hv]. split; [apply (proj2 (proj2 (proj1 W)) u v He)|]. intro Hu. apply Hv. eapply Op; eauto. }
    assert (NB : NoDup B) by (apply NoDup_filter; apply W).
    rewrite (P_barren A y), (P_barren B z); auto.
    2:{ intros v Hv. unfold B. rewrite filter_In, negb_true_iff, mem_nIn. auto. }
    transitivity (total D (A ++ B) (fun b => ((if agrees y b then 1 else 0) * weight K A b) * ((if agrees z b then 1 else 0) * weight K B b)) (fun _ => 0)).
    - unfold P. rewrite (total_perm D (nodes g) (A ++ B)); auto.
      + apply total_ext. intro b. rewrite (weight_perm K _ _ b PB), weight_app, agrees_app. destruct (agrees y b), (agrees z b); cbn [andb]; ring.
      + intros a b E. rewrite (weight_ext g D K (nodes g) C (incl_refl _) a b E). f_equal. apply (on_ext _ _ (agrees_on (y ++ z)) a b E).
    - rewrite total_split; auto.
      + intros a b E. assert (E' : forall v, In v A -> a v = b v). { intros v Hv. apply E. intro K1. apply filter_In in K1. destruct K1 as [_ K1]. apply negb_true_iff in K1. apply mem_nIn in K1. auto. }
        f_equal; [apply (agrees_on y); intros v Hv; apply E', Iy; auto|]. apply (weight_on g D K A (fun v => In v A)); auto. intros v u Hv [->|Hu]; auto. eapply Cl; eauto.
      + intros a b E. f_equal; [apply (agrees_on z); intros v Hv; apply E, Dz; auto|]. apply (weight_on g D K B (fun v => ~ In v A)); auto.
        intros v u Hv [->|Hu]; [unfold B in Hv; rewrite filter_In, negb_true_iff, mem_nIn in Hv; tauto|]. apply (ClB u v Hu) in Hv. unfold B in Hv. rewrite filter_In, negb_true_iff, mem_nIn in Hv. tauto.
  Qed.
End Apart.

(* ---- sums over all values of the query ---- *)
Lemma qsum_flat : forall (A B : Type) (f : A -> list B) (h : B -> Qc) l, qsum (map h (flat_map f l)) = qsum (map (fun x => qsum (map h (f x))) l).
Proof. intros A B f h l. induction l as [|x l IH]; auto. cbn [flat_map map]. rewrite map_app, qsum_app, IH. reflexivity. Qed.
Lemma one_combination : forall (D2 : node -> list outcome) vs b, NoDup vs -> (forall v, In v vs -> NoDup (D2 v) /\ In (b v) (D2 v)) ->
  qsum (map (fun xs => if agrees (combine vs xs) b then 1 else 0) (product (map D2 vs))) = 1.
Proof.
  intros D2 vs b. induction vs as [|v vs IH]; intros N H; [cbn; unfold qsum; cbn; ring|]. inversion N as [|? ? N1 N2]; subst. cbn [map product].
  rewrite qsum_flat. destruct (H v) as [H1 H2]; [left; auto|]. rewrite (qsum_single _ Qc_eq_dec _ _ (b v)); auto.
  - rewrite map_map. rewrite (qsum_ext _ _ (fun xs => if agrees (combine vs xs) b then 1 else 0)); [apply IH; auto; intros; apply H; right; auto|].
    intros xs _. cbn [combine agrees forallb fst snd]. fold (agrees (combine vs xs) b). replace (oeqb (b v) (b v)) with true by (symmetry; apply oeqb_iff; auto). auto.
  - intros y Hy Ne. rewrite map_map. etransitivity; [|apply (qsum_zero _ (product (map D2 vs)))]. apply qsum_ext. intros xs _. cbn [combine agrees forallb fst snd].
    destruct (oeqb_spec (b v) y); [congruence|]. auto.
Qed.
Lemma P_sum : forall g D K (D2 : node -> list outcome) vs c, NoDup vs -> incl vs (nodes g) -> (forall v, In v vs -> NoDup (D2 v) /\ incl (D v) (D2 v)) ->
  qsum (map (fun xs => P g D K (combine vs xs ++ c)) (product (map D2 vs))) = P g D K c.
Proof.
  intros g D K D2 vs c N I H. unfold P. rewrite <- total_qsum. apply total_ext_in. intros b Hb _.
  rewrite (qsum_ext _ _ (fun xs => (if agrees c b then 1 else 0) * weight K (nodes g) b * (if agrees (combine vs xs) b then 1 else 0))).
  - rewrite qsum_scale, one_combination; auto; [ring|]. intros v Hv. destruct (H v Hv) as [H1 H2]. split; [exact H1|]. apply H2, Hb, I; auto.
  - intros xs _. rewrite agrees_app. destruct (agrees (combine vs xs) b), (agrees c b); cbn [andb]; ring.
Qed.

(* ---- removal of nodes ---- *)
Lemma find_remove_other : forall u v l, u <> v -> find_tab u (remove_tab v l) = find_tab u l.
Proof.
  intros u v l Ne. unfold find_tab. induction l as [|t l IH]; auto. cbn [remove_tab]. destruct (String.eqb_spec (tvar t) v) as [E|E]; cbn [find].
  - destruct (String.eqb_spec (tvar t) u); [congruence|auto]. - rewrite IH. auto.
Qed.
Lemma nx_remove_nodes : forall g g' v, nx_remove_node g v = Ok g' -> nodes g' = filter (fun u => negb (String.eqb u v)) (nodes g).
Proof. intros g g' v H. unfold nx_remove_node in H. destruct (mem v (nodes g)); [|discriminate]. injection H as <-. cbn [nodes]. apply filter_ext. intro u. rewrite String.eqb_sym. auto. Qed.

Lemma remove_node_spec : forall n v n', wf_dag (ngraph n) -> remove_node n v = (n', None) ->
  wf_dag (ngraph n') /\ nodes (ngraph n') = filter (fun u => negb (String.eqb u v)) (nodes (ngraph n)) /\
  (forall a b, edge (ngraph n') a b <-> edge (ngraph n) a b /\ a <> v /\ b <> v) /\ doms n' = doms n /\
  (forall u, u <> v -> cpd_of n' u = cpd_of n u /\ lookup u (rels n') = lookup u (rels n)) /\ In v (nodes (ngraph n)).
Proof.
  intros n v n' W H. unfold remove_node in H.
  set (r := if match cpd_of n v with Some _ => true | None => false end then del_item n v else (n, None)) in H. destruct r as [n0 [e|]] eqn:E; [discriminate|].
  assert (X : ngraph n0 = ngraph n /\ doms n0 = doms n /\ forall u, u <> v -> cpd_of n0 u = cpd_of n u /\ lookup u (rels n0) = lookup u (rels n)).
  { subst r. destruct (cpd_of n v); [|injection E as <-; auto]. unfold del_item in E. destruct (mem v (keys (rels n))); [|discriminate]. injection E as <-. cbn [ngraph doms rels]. split; auto. split; auto.
    intros u Hu. split; [|rewrite lookup_ddel; destruct (String.eqb_spec u v); congruence]. unfold cpd_of. cbn [cpds]. destruct (mem v (nodes (ngraph n))); auto. apply (find_remove_other u v (cpds n) Hu). }
  destruct X as (G & Dm & X). rewrite G in H. destruct (nx_remove_node (ngraph n) v) as [g|e] eqn:R; [|discriminate]. injection H as <-. cbn [on_graph ngraph doms rels].
  assert (En := nx_remove_nodes _ _ _ R). assert (Ee := fun a b => edge_nx_remove_node _ _ _ a b R).
  split; [|split; [auto|split; [|split; [auto|split; [auto|]]]]].
  - split; [eapply wf_nx_remove_node; eauto; apply W|]. eapply acyclic_sub; [|apply W]. intros a b K. apply Ee in K. tauto.
  - intros a b. rewrite Ee. tauto.
  - unfold nx_remove_node in R. destruct (mem_spec v (nodes (ngraph n))); [auto|discriminate].
Qed.
Lemma filter_filter : forall (A : Type) (p q : A -> bool) l, filter p (filter q l) = filter (fun x => q x && p x) l.
Proof. intros A p q l. induction l as [|x l IH]; auto. cbn [filter]. destruct (q x); cbn [filter andb]; rewrite IH; auto. Qed.
Lemma remove_nodes_spec : forall vs n n', wf_dag (ngraph n) -> loop_net remove_node n vs = (n', None) ->
  wf_dag (ngraph n') /\ nodes (ngraph n') = filter (fun u => negb (mem u vs)) (nodes (ngraph n)) /\
  (forall a b, edge (ngraph n') a b <-> edge (ngraph n) a b /\ ~ In a vs /\ ~ In b vs) /\ doms n' = doms n /\
  (forall u, ~ In u vs -> cpd_of n' u = cpd_of n u /\ lookup u (rels n') = lookup u (rels n)).
Proof.
  induction vs as [|v vs IH]; intros n n' W H; cbn [loop_net] in H.
  - injection H as <-. split; auto. split; [symmetry; apply filter_true'; auto|]. split; [|auto]. intros; simpl; tauto.
  - destruct (remove_node n v) as [n0 [e|]] eqn:E; [discriminate|]. destruct (remove_node_spec n v n0 W E) as (W0 & N0 & E0 & D0 & C0 & _).
    destruct (IH n0 n' W0 H) as (W1 & N1 & E1 & D1 & C1). split; auto. split; [|split; [|split; [congruence|]]].
    + rewrite N1, N0, filter_filter. apply filter_ext. intro u. cbn [mem existsb]. unfold mem. cbn [existsb]. rewrite negb_orb. auto.
    + intros a b. rewrite E1, E0. simpl. intuition.
    + intros u Hu. destruct (C1 u) as [X1 X2]; [intro; apply Hu; right; auto|]. destruct (C0 u) as [Y1 Y2]; [intro; apply Hu; left; auto|]. split; congruence.
Qed.

Lemma filter_partition : forall (A : Type) (p : A -> bool) l, Permutation l (filter p l ++ filter (fun x => negb (p x)) l).
Proof.
  intros A p l. induction l as [|x l IH]; auto. cbn [filter]. destruct (p x); cbn [negb].
  - cbn [app]. apply perm_skip. auto. - apply Permutation_cons_app; auto.
Qed.
(* ---- connected components ---- *)
Lemma edge_undirected : forall g a b, edge (undirected g) a b <-> edge g a b \/ edge g b a.
Proof.
  intros g a b. unfold edge, undirected. cbn [edges]. rewrite in_app_iff, in_map_iff. split.
  - intros [X|([x y] & E & X)]; auto. cbn [fst snd] in E. injection E as <- <-. auto.
  - intros [X|X]; auto. right. exists (b, a). auto.
Qed.
Lemma wf_undirected : forall g, wf_dag g -> wf_graph (undirected g).
Proof.
  intros g [(N & Ne & E) A]. split; [|split]; auto.
  - cbn [undirected edges]. apply NoDup_app'; [exact Ne| |].
    + apply FinFun.Injective_map_NoDup; auto. intros [a b] [x y] K. cbn in K. congruence.
    + intros [a b] H1 H2. apply in_map_iff in H2. destruct H2 as ([x y] & K & H2). cbn in K. injection K as -> ->. apply (A a). exists b. split; auto. eapply reach_edge; eauto.
  - intros a b K. apply edge_undirected in K. cbn [undirected nodes]. destruct K as [K|K]; apply E in K; tauto.
Qed.
Definition linked (g : graph) (u v : node) : Prop := reach (undirected g) u v.
Lemma component_spec : forall g v l, wf_dag g -> component g v = Ok l ->
  In v (nodes g) /\ NoDup l /\ (forall w, In w l <-> In w (nodes g) /\ linked g v w).
Proof.
  intros g v l W H. unfold component in H. destruct (mem_spec v (nodes g)) as [Hv|]; [|discriminate]. injection H as <-.
  split; auto. split; [apply NoDup_filter; apply W|]. intro w. rewrite filter_In. unfold linked. rewrite (has_path_iff _ (wf_undirected g W)) by auto. tauto.
Qed.
Lemma components_spec : forall g qs cs, wf_dag g -> map_r (component g) qs = Ok cs ->
  incl qs (nodes g) /\ forall w, In w (concat cs) <-> In w (nodes g) /\ exists q, In q qs /\ linked g q w.
Proof.
  intros g qs cs W H. split.
  - intros q Hq. destruct (map_r_ok_all _ _ _ _ _ H q Hq) as (l & E & _). exact (proj1 (component_spec g q l W E)).
  - intro w. rewrite in_concat. split.
    + intros (l & Hl & Hw). destruct (map_r_ok_in _ _ _ _ _ H l Hl) as (q & Hq & E). apply (proj2 (proj2 (component_spec g q l W E))) in Hw. destruct Hw as [X Y]. split; auto. exists q; auto.
    + intros (Hw & q & Hq & L). destruct (map_r_ok_all _ _ _ _ _ H q Hq) as (l & E & Hl). exists l. split; auto. apply (proj2 (proj2 (component_spec g q l W E))). auto.
Qed.
Lemma linked_edge : forall g u v w, wf_dag g -> linked g u v -> edge g v w \/ edge g w v -> linked g u w.
Proof. intros g u v w W L E. eapply reach_snoc; eauto. apply edge_undirected; auto. Qed.

(* ---- the factor ---- *)
(* n2 has the distribution of n under an intervention *)
Record realises (n n2 : net) (iv : list (node * outcome)) : Prop := {
  r_dag : wf_dag (ngraph n2);
  r_nodes : nodes (ngraph n2) = nodes (ngraph n);
  r_edges : forall u v, edge (ngraph n2) u v <-> edge (ngraph n) u v /\ ~ In v (keys iv);
  r_dom : forall v, In v (nodes (ngraph n)) -> Permutation (dom_of (doms n) v) (dom_of (doms n2) v);
  r_kernel : forall v a, In v (nodes (ngraph n)) -> (forall u, u = v \/ edge (ngraph n) u v /\ ~ In v (keys iv) -> In (a u) (dom_of (doms n) u)) -> kernel n2 v a = do_kernel n iv v a }.
Lemma realises_self : forall n, wf_dag (ngraph n) -> realises n n [].
Proof. intros n W. constructor; auto; intros; simpl; tauto. Qed.
Lemma realises_tracks : forall n n2 iv, tracks n n2 iv -> realises n n2 iv.
Proof. intros n n2 iv [S C N E R Pt Dm Sm K]. constructor; auto. apply S. Qed.
Section Factor.
  Variables (n n2 : net) (iv : list (node * outcome)).
  Hypothesis Hd : distribution n.
  Hypothesis Ni : NoDup (keys iv).
  Hypothesis Ii : incl (keys iv) (nodes (ngraph n)).
  Hypothesis Di : in_domains n iv.
  Hypothesis R : realises n n2 iv.
  Let W : wf_dag (ngraph n) := proj1 Hd.
  Lemma cut_cond : cond (cut (ngraph n) (keys iv)) (ndom n) (do_kernel n iv).
  Proof. apply do_kernel_cond; auto. intros v x L. eapply lookup_in_domains; eauto. Qed.
  Lemma cut_closed : forall A, (forall u v, edge (ngraph n2) u v -> In v A -> In u A) -> closed (cut (ngraph n) (keys iv)) A.
  Proof. intros A H u v E. apply H. apply (r_edges n n2 iv R). apply edge_cut in E. auto. Qed.
  (* the family of a node that is not intervened on may contain nodes outside A, those of the others do not *)
  Lemma prob_kept : forall n3 c, wf_dag (ngraph n3) -> incl (nodes (ngraph n3)) (nodes (ngraph n)) -> doms n3 = doms n2 ->
    (forall u, In u (nodes (ngraph n3)) -> cpd_of n3 u = cpd_of n2 u) ->
    (forall u v, edge (ngraph n2) u v -> In v (nodes (ngraph n3)) -> In u (nodes (ngraph n3))) ->
    incl (keys c) (nodes (ngraph n3)) -> prob n3 c = do_prob n iv c.
  Proof.
    intros n3 c W3 I3 D3 C3 Cl Ic. set (A := nodes (ngraph n3)) in *.
    rewrite do_prob_P by auto. rewrite (P_barren _ (ndom n) (do_kernel n iv) (cut_dag _ _ W) cut_cond A); auto; [|apply W3|apply cut_closed; auto].
    unfold prob. rewrite D3. fold A. rewrite (total_dom_perm (states (doms n2)) (ndom n)).
    2:{ intros v Hv. rewrite states_dom, ndom_in by auto. apply Permutation_sym, (r_dom n n2 iv R). auto. }
    apply total_ext_in. intros b Hb Hz. unfold joint. fold A.
    assert (E : qprod (map (fun v => kernel n3 v b) A) = weight (do_kernel n iv) A b); [|rewrite E; destruct (agrees c b); ring].
    unfold weight. apply qprod_ext. intros v Hv. unfold kernel. rewrite C3, D3 by auto. change (kernel n2 v b = do_kernel n iv v b).
    apply (r_kernel n n2 iv R); auto. intros u [->|[Hu Hk]]; [rewrite <- ndom_in by auto; auto|].
    assert (Hu' : In u A). { apply (Cl u v); auto. apply (r_edges n n2 iv R). auto. } rewrite <- ndom_in by auto. auto.
  Qed.
  Lemma query_connected_exact : forall o qs c n' f, valid_order o -> NoDup (keys c) -> incl (keys c) (nodes (ngraph n)) ->
    query_connected o n2 qs c = (n', Ok f) ->
    Permutation (fvars f) (to_set qs) /\ incl qs (nodes (ngraph n)) /\ map fst (fentries f) = product (map (dom_of (doms n2)) (fvars f)) /\
    (forall q, In q qs -> ~ In q (keys c)) /\
    exists c1 c2, Permutation c (c1 ++ c2) /\ (forall v q, In v (keys c2) -> In q qs -> ~ linked (ngraph n2) q v) /\ do_prob n iv c = do_prob n iv c1 * do_prob n iv c2 /\ qsum (map snd (fentries f)) = do_prob n iv c1 / do_prob n iv c1 /\
      forall xs p, In (xs, p) (fentries f) -> p = do_prob n iv (combine (fvars f) xs ++ c1) / do_prob n iv c1 /\ (do_prob n iv c1 <> 0 -> do_prob n iv (combine (fvars f) xs ++ c) = p * do_prob n iv c).
  Proof.
    intros o qs c n' f O Nc Ic H. unfold query_connected in H. destruct (map_r (component (ngraph n2)) qs) as [cs|e] eqn:Ec; [|discriminate].
    assert (W2 := r_dag n n2 iv R). assert (Nn := r_nodes n n2 iv R). destruct (components_spec _ _ _ W2 Ec) as [Iq Cq]. rewrite Nn in *.
    set (far := filter (fun v => negb (mem v (concat cs))) (nodes (ngraph n))) in *.
    set (c1 := filter (fun vx => mem (fst vx) (concat cs)) c) in *. set (c2 := filter (fun vx => negb (mem (fst vx) (concat cs))) c).
    destruct (loop_net remove_node n2 far) as [n3 [e|]] eqn:El; [discriminate|].
    destruct (is_connected (ngraph n3)) as [[|]|e]; [|discriminate|discriminate]. injection H as <- H.
    unfold bp_query in H. destruct (check_model n3) as [un|e] eqn:Ek; [|discriminate]. cbn [bind] in H. destruct (existsb (fun q => mem q (keys c1)) qs) eqn:Eq; [discriminate|]. injection H as <-.
    destruct (remove_nodes_spec _ _ _ W2 El) as (W3 & N3 & E3 & D3 & C3).
    assert (Kf : forall v, In v far <-> In v (nodes (ngraph n)) /\ ~ In v (concat cs)) by (intro v; unfold far; rewrite filter_In, negb_true_iff, mem_nIn; tauto).
    assert (K3 : forall v, In v (nodes (ngraph n3)) <-> In v (concat cs)).
    { intro v. rewrite N3, filter_In, negb_true_iff, mem_nIn, Kf, Nn. split; [|intro K; split; [apply Cq in K; tauto|tauto]]. intros [H1 H2]. destruct (in_dec String.string_dec v (concat cs)) as [K|K]; auto. exfalso. tauto. }
    assert (Lk : forall u v, edge (ngraph n2) u v -> (In u (concat cs) <-> In v (concat cs))).
    { intros u v E. rewrite !Cq. assert (In u (nodes (ngraph n)) /\ In v (nodes (ngraph n))) by (rewrite <- Nn; apply W2; auto).
      split; intros (_ & q & Hq & L); (split; [tauto|]); exists q; (split; [auto|]); eapply linked_edge; eauto. }
    assert (K1 : forall v, In v (keys c1) <-> In v (keys c) /\ In v (concat cs)).
    { intro v. unfold c1, keys. rewrite !in_map_iff. split.
      - intros ([w x] & <- & X). apply filter_In in X. destruct X as [X1 X2]. apply mem_In in X2. split; auto. exists (w, x). auto.
      - intros (([w x] & <- & X1) & X2). exists (w, x). split; auto. apply filter_In. split; auto. apply mem_In; auto. }
    assert (K2 : forall v, In v (keys c2) -> In v (keys c) /\ ~ In v (concat cs)).
    { intros v Hv. unfold c2, keys in Hv. apply in_map_iff in Hv. destruct Hv as ([w x] & <- & X). apply filter_In in X. destruct X as [X1 X2]. apply negb_true_iff, mem_nIn in X2. split; auto. apply (in_map fst) in X1. auto. }
    assert (Pc : Permutation c (c1 ++ c2)).
    { apply filter_partition. }
    assert (Qc' : incl qs (concat cs)).
    { intros q Hq. apply Cq. split; [apply Iq; auto|]. exists q. split; auto. constructor. }
    assert (Nq : forall q, In q qs -> ~ In q (keys c)).
    { intros q Hq Kq. assert (X : existsb (fun q => mem q (keys c1)) qs = true); [|congruence]. apply existsb_exists. exists q. split; auto. apply mem_In. apply K1. auto. }
    set (V := o qs (to_set qs)) in *. assert (PV : Permutation V (to_set qs)) by apply O.
    assert (NV : NoDup V) by (eapply Permutation_NoDup; [apply Permutation_sym; eauto|apply NoDup_to_set]).
    assert (IV : forall v, In v V <-> In v qs). { intro v. rewrite <- (in_to_set v qs). split; intro X; [exact (Permutation_in v PV X)|exact (Permutation_in v (Permutation_sym PV) X)]. }
    unfold normalised. cbn [tabulate fvars fentries]. split; auto. split; auto. split; [rewrite !map_map, D3; cbn [fst]; apply map_id|]. split; auto.
    assert (A3 : forall y, incl (keys y) (concat cs) -> prob n3 y = do_prob n iv y).
    { intros y Hy. apply prob_kept; auto.
      - intros v Hv. apply K3, Cq in Hv. tauto.
      - intros v Hv. apply C3. rewrite Kf. apply K3 in Hv. tauto.
      - intros u0 v E Hv. apply K3. apply K3 in Hv. apply (Lk u0 v E). auto.
      - intros v Hv. apply K3. auto. }
    assert (Ap : forall y, incl (keys y) (concat cs) -> do_prob n iv (y ++ c2) = do_prob n iv y * do_prob n iv c2).
    { intros y Hy. rewrite (do_prob_P n iv (y ++ c2)), (do_prob_P n iv y), (do_prob_P n iv c2) by auto.
      apply (apart _ _ _ (cut_dag _ _ W) cut_cond (nodes (ngraph n3))); auto.
      - apply cut_closed. intros u0 v E Hv. apply K3. apply K3 in Hv. apply (Lk u0 v E). auto.
      - intros u0 v E Hv. apply K3. apply K3 in Hv. apply (Lk u0 v); auto. apply (r_edges n n2 iv R). apply edge_cut in E. auto.
      - intros v Hv. apply K3, Cq in Hv. cbn [cut nodes]. tauto.
      - apply W3.
      - intros v Hv. apply K3. auto.
      - intros v Hv. cbn [cut nodes]. apply K2 in Hv. apply Ic; tauto.
      - intros v Hv. rewrite K3. apply K2 in Hv. tauto. }
    assert (Pm : forall y y', Permutation y y' -> do_prob n iv y = do_prob n iv y').
    { intros y y' Py. rewrite (do_prob_P n iv y), (do_prob_P n iv y') by auto. apply P_perm; auto. }
    assert (I1 : incl (keys c1) (concat cs)) by (intros v Hv; apply K1 in Hv; tauto).
    assert (Kx : forall xs, In xs (product (map (states (doms n3)) V)) -> incl (keys (combine V xs ++ c1)) (concat cs)).
    { intros xs Hx. apply in_product in Hx. apply Forall2_len in Hx. rewrite map_length in Hx. rewrite keys_app, keys_combine by auto. apply incl_app; auto. intros v Hv. apply Qc'. apply IV; auto. }
    exists c1, c2. split; auto. split.
    { intros v q Hv Hq L. apply K2 in Hv. destruct Hv as [Hv Hn]. apply Hn. apply Cq. split; [apply Ic; auto|]. exists q; auto. }
    assert (Sm : qsum (map (fun xs => prob n3 (combine V xs ++ c1)) (product (map (states (doms n3)) V))) = do_prob n iv c1).
    { rewrite (qsum_ext _ _ (fun xs => P (cut (ngraph n) (keys iv)) (ndom n) (do_kernel n iv) (combine V xs ++ c1))).
      + rewrite P_sum; auto; [symmetry; apply do_prob_P; auto| |].
        * intros v Hv. cbn [cut nodes]. apply Iq, IV. auto.
        * intros v Hv. rewrite D3, states_dom. assert (X : In v (nodes (ngraph n))) by (apply Iq, IV; auto). assert (Y := r_dom n n2 iv R v X). split.
          -- eapply Permutation_NoDup; [exact Y|]. apply dom_nodup; auto.
          -- rewrite ndom_in by auto. intros x Hx. eapply Permutation_in; eauto.
      + intros xs Hx. rewrite A3 by auto. apply do_prob_P; auto. }
    assert (Ec2 : do_prob n iv c = do_prob n iv c1 * do_prob n iv c2) by (rewrite (Pm c (c1 ++ c2)) by auto; auto). split; auto. rewrite !map_map. cbn [snd]. rewrite Sm. split.
    - rewrite (qsum_ext _ _ (fun xs => / do_prob n iv c1 * prob n3 (combine V xs ++ c1))) by (intros; unfold Qcdiv; ring). rewrite qsum_scale, Sm. unfold Qcdiv. ring.
    - intros xs p Hx. apply in_map_iff in Hx. destruct Hx as (xs' & E & Hx). cbn [fst snd] in E. injection E as -> <-. assert (X := Kx xs Hx). rewrite A3 by auto. split; auto.
      intro Nz. rewrite Ec2. transitivity (do_prob n iv (combine V xs ++ c1) * do_prob n iv c2); [|field; auto]. rewrite <- Ap by auto. apply Pm. rewrite <- app_assoc. apply Permutation_app_head. auto.
  Qed.
End Factor.
