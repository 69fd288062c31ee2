(* Lemmas about interventions as truncated products, and about the check for missing policies. *)
From Coq Require Import String List Bool Arith QArith Qcanon Lia Permutation Setoid.
Import ListNotations.
From Verif Require Import MBase MGraph MMacid MCpd MNet MProb MQuery Spec SpecM SpecC SpecN SpecQ LBase LGraph LDfs LPaths LActive LMoral LMech LQc LCpd LNet LSum LBayes LSep LQuery.
Local Open Scope Qc_scope.

(* the graph without the edges into the given nodes *)
Definition cut (g : graph) (xs : list node) : graph := mkG (nodes g) (filter (fun e => negb (mem (snd e) xs)) (edges g)).
Lemma edge_cut : forall g xs u v, edge (cut g xs) u v <-> edge g u v /\ ~ In v xs.
Proof. intros. unfold edge, cut. cbn [edges]. rewrite filter_In, negb_true_iff, mem_nIn. cbn [snd]. tauto. Qed.
Lemma reach_sub : forall (g h : graph) u v, (forall a b, edge g a b -> edge h a b) -> reach g u v -> reach h u v.
Proof. intros g h u v H R. induction R; [constructor|econstructor; eauto]. Qed.
Lemma cut_dag : forall g xs, wf_dag g -> wf_dag (cut g xs).
Proof.
  intros g xs [(N & NE & I) A]. split.
  - split; [exact N|]. split; [apply NoDup_filter; exact NE|]. intros u v E. apply edge_cut in E. apply (I u v); tauto.
  - eapply acyclic_sub; [|exact A]. intros u v E. apply edge_cut in E. tauto.
Qed.
Lemma cut_no_clash : forall g xs, no_clash g -> no_clash (cut g xs).
Proof. intros g xs H. exact H. Qed.

(* the domains of the nodes *)
Definition ndom (n : net) (v : node) : list outcome := if mem v (nodes (ngraph n)) then dom_of (doms n) v else [].
Lemma ndom_in : forall n v, In v (nodes (ngraph n)) -> ndom n v = dom_of (doms n) v.
Proof. intros n v H. unfold ndom. apply mem_In in H. rewrite H. auto. Qed.
Lemma ndom_nodup : forall n v, distribution n -> NoDup (ndom n v).
Proof. intros n v H. unfold ndom. destruct (mem v (nodes (ngraph n))) eqn:E; [|constructor]. apply dom_nodup; auto. apply mem_In; auto. Qed.

(* the conditional probabilities under an intervention *)
Definition do_kernel (n : net) (iv : list (node * outcome)) (v : node) (a : asg) : Qc :=
  match lookup v iv with Some x => if oeqb (a v) x then 1 else 0 | None => kernel n v a end.
Lemma do_kernel_cond : forall n iv, distribution n -> (forall v x, lookup v iv = Some x -> In x (dom_of (doms n) v)) ->
  cond (cut (ngraph n) (keys iv)) (ndom n) (do_kernel n iv).
Proof.
  intros n iv Hd Hi. assert (C := kernel_cond n Hd). assert (W : wf_dag (ngraph n)) by apply Hd. constructor.
  - intros v Hv a b H. unfold do_kernel. destruct (lookup v iv) as [x|] eqn:E.
    + rewrite (H v) by (left; auto). auto.
    + apply (k_local _ _ _ C v Hv). intros u [->|Hu]; apply H; [left; auto|]. right. apply edge_cut. split; auto. apply lookup_None_keys; auto.
  - intros v a Hv H. change (In v (nodes (ngraph n))) in Hv. rewrite ndom_in by auto. unfold do_kernel. destruct (lookup v iv) as [x|] eqn:E.
    + rewrite (qsum_single _ Qc_eq_dec _ _ x); auto.
      * rewrite upd_same. replace (oeqb x x) with true by (symmetry; apply oeqb_iff; auto). auto.
      * apply dom_nodup; auto.
      * intros y Hy Ne. rewrite upd_same. destruct (oeqb_spec y x); [contradiction|auto].
    + apply (k_normal _ _ _ C v a Hv). intros p Hp. rewrite <- ndom_in by apply (proj2 (proj2 (proj1 W)) p v Hp). apply H. apply edge_cut. split; auto. apply lookup_None_keys; auto.
  - intros v a Hv. unfold do_kernel. destruct (lookup v iv); [|apply (k_nonneg _ _ _ C v a Hv)]. destruct (oeqb _ _); [apply Qclt_le_weak, Qc_0_lt_1|apply Qcle_refl].
Qed.
Lemma agrees_lookup : forall iv a, NoDup (keys iv) -> (agrees iv a = true <-> forall v x, lookup v iv = Some x -> a v = x).
Proof.
  intros iv a N. rewrite agrees_iff. split; intros H v x E; apply H.
  - apply lookup_In; auto. - apply In_lookup; auto.
Qed.
Lemma do_joint_weight : forall n iv a, NoDup (keys iv) -> incl (keys iv) (nodes (ngraph n)) ->
  do_joint n iv a = weight (do_kernel n iv) (nodes (ngraph n)) a.
Proof.
  intros n iv a N I. unfold do_joint, weight. destruct (agrees iv a) eqn:E.
  - apply qprod_ext. intros v Hv. unfold do_kernel. destruct (lookup v iv) as [x|] eqn:L.
    + destruct (in_dec String.string_dec v (keys iv)) as [_|K]; [|exfalso; apply lookup_None_keys in K; congruence].
      rewrite (proj1 (agrees_lookup iv a N) E v x L). replace (oeqb x x) with true by (symmetry; apply oeqb_iff; auto). auto.
    + destruct (in_dec String.string_dec v (keys iv)) as [K|_]; auto. apply lookup_None_keys in L. contradiction.
  - symmetry. assert (X : exists v x, lookup v iv = Some x /\ a v <> x).
    { clear - E N. unfold agrees in E. revert N E. induction iv as [|[u y] iv IH]; intros N E; [discriminate|]. cbn [forallb fst snd] in E. inversion N as [|? ? N1 N2]; subst.
      destruct (oeqb_spec (a u) y) as [Ey|Ny].
      - destruct (IH N2 E) as (v & x & H1 & H2). exists v, x. split; auto. simpl. destruct (String.eqb_spec v u) as [->|]; auto.
        exfalso. apply N1. apply lookup_In in H1. apply (in_map fst) in H1. auto.
      - exists u, y. simpl. rewrite String.eqb_refl. auto. }
    destruct X as (v & x & H1 & H2). apply (qprod_zero _ (fun v => do_kernel n iv v a) (nodes (ngraph n)) v).
    + apply I. apply lookup_In in H1. apply (in_map fst) in H1. auto.
    + unfold do_kernel. rewrite H1. destruct (oeqb_spec (a v) x); [contradiction|auto].
Qed.
Lemma do_prob_P : forall n iv c, NoDup (keys iv) -> incl (keys iv) (nodes (ngraph n)) ->
  do_prob n iv c = P (cut (ngraph n) (keys iv)) (ndom n) (do_kernel n iv) c.
Proof.
  intros n iv c N I. unfold do_prob, P. rewrite (total_dom_perm _ (ndom n)) by (intros v Hv; rewrite ndom_in; auto).
  apply total_ext. intro b. rewrite do_joint_weight by auto. cbn [cut nodes]. destruct (agrees c b); ring.
Qed.

(* ---- intervened variables in the context or the query ---- *)
Definition clash (iv c : list (node * outcome)) : bool :=
  existsb (fun vx => match lookup (fst vx) iv with Some x => negb (oeqb x (snd vx)) | None => false end) c.
Definition rest (iv c : list (node * outcome)) : list (node * outcome) := filter (fun vx => negb (mem (fst vx) (keys iv))) c.
Lemma clash_app : forall iv c d, clash iv (c ++ d) = clash iv c || clash iv d.
Proof. intros. apply existsb_app. Qed.
Lemma rest_app : forall iv c d, rest iv (c ++ d) = rest iv c ++ rest iv d.
Proof. intros. apply filter_app. Qed.
Lemma in_rest : forall iv c v x, In (v, x) (rest iv c) <-> In (v, x) c /\ ~ In v (keys iv).
Proof. intros. unfold rest. rewrite filter_In, negb_true_iff, mem_nIn. reflexivity. Qed.
Lemma keys_rest : forall iv (c : list (node * outcome)) v, In v (keys (rest iv c)) <-> In v (keys c) /\ ~ In v (keys iv).
Proof.
  intros iv c v. unfold keys at 1. rewrite in_map_iff. split.
  - intros ([u x] & <- & H). apply in_rest in H. destruct H as [H1 H2]. split; [apply (in_map fst) in H1; auto|auto].
  - intros [H1 H2]. apply in_map_iff in H1. destruct H1 as ([u x] & <- & H1). exists (u, x). split; auto. apply in_rest; auto.
Qed.
Lemma rest_nodup : forall iv (c : list (node * outcome)), NoDup (keys c) -> NoDup (keys (rest iv c)).
Proof.
  intros iv c. induction c as [|[v x] c IH]; intro N; [constructor|]. inversion N as [|? ? N1 N2]; subst. cbn [rest filter fst]. fold (rest iv c).
  destruct (negb (mem v (keys iv))); auto. simpl. constructor; auto. intro K. apply keys_rest in K. tauto.
Qed.
Lemma clash_agrees : forall iv c a, NoDup (keys iv) -> agrees iv a = true -> agrees c a = if clash iv c then false else agrees (rest iv c ++ iv) a.
Proof.
  intros iv c a N H. rewrite agrees_app, H, andb_true_r. rewrite agrees_lookup in H by auto. induction c as [|[v x] c IH]; [reflexivity|].
  cbn [agrees forallb fst snd clash existsb rest filter]. fold (agrees c a) (clash iv c) (rest iv c). rewrite IH. clear IH. destruct (lookup v iv) as [y|] eqn:L.
  - assert (K : mem v (keys iv) = true) by (apply mem_In, lookup_In_keys; eauto). rewrite K. cbn [negb]. rewrite (H v y L).
    destruct (oeqb_spec y x); cbn [negb orb andb]; auto.
  - assert (K : mem v (keys iv) = false) by (apply mem_nIn, lookup_None_keys; auto). rewrite K. cbn [negb orb]. destruct (clash iv c); [apply andb_false_r|]. reflexivity.
Qed.
Lemma do_prob_reduce : forall n iv c, NoDup (keys iv) -> do_prob n iv c = if clash iv c then 0 else do_prob n iv (rest iv c ++ iv).
Proof.
  intros n iv c N. unfold do_prob. destruct (clash iv c) eqn:E.
  - etransitivity; [|apply (total_zero (dom_of (doms n)) (nodes (ngraph n)) (fun _ => 0))]. apply total_ext. intro b. unfold do_joint. destruct (agrees iv b) eqn:A; [|destruct (agrees c b); auto].
    rewrite (clash_agrees iv c b N A), E. auto.
  - apply total_ext. intro b. unfold do_joint. destruct (agrees iv b) eqn:A; [|destruct (agrees c b), (agrees (rest iv c ++ iv) b); auto].
    rewrite (clash_agrees iv c b N A), E. auto.
Qed.

(* ---- networks that differ in some tables ---- *)
Lemma same_dom_of : forall n n', same_domains n n' -> forall v, dom_of (doms n') v = dom_of (doms n) v.
Proof.
  intros n n' S v. unfold dom_of. destruct (lookup v (doms n)) as [d|] eqn:E.
  - apply S in E. unfold has_domain in E. rewrite E. auto.
  - destruct (lookup v (doms n')) as [d|] eqn:E'; auto. apply S in E'. unfold has_domain in E'. congruence.
Qed.
Lemma entry_doms : forall ds ds' t a, (forall v, dom_of ds v = dom_of ds' v) -> entry ds t a = entry ds' t a.
Proof.
  intros ds ds' t a H. unfold entry. rewrite !states_dom, H. f_equal. f_equal. unfold column_no. generalize 0%nat as i. induction (tev t) as [|p l IH]; intro i; cbn [fold_left]; auto.
  rewrite IH. rewrite !states_dom, H. auto.
Qed.
Lemma kernel_differ : forall X n n' v a, single_tables n -> single_tables n' -> differ_in X n n' -> ~ X v -> kernel n v a = kernel n' v a.
Proof.
  intros X n n' v a S S' (G & Dm & T) Hv. assert (E : cpd_of n v = cpd_of n' v).
  { destruct (cpd_of n v) as [t|] eqn:E.
    - apply single_cpd in E; auto. apply T in E; auto. apply single_cpd in E; auto.
    - destruct (cpd_of n' v) as [t|] eqn:E'; auto. apply single_cpd in E'; auto. apply T in E'; auto. apply single_cpd in E'; auto. congruence. }
  unfold kernel. rewrite E. destruct (cpd_of n' v); auto. apply entry_doms. intro u. symmetry. apply same_dom_of; auto.
Qed.

(* ---- the check for missing policies ---- *)
Lemma map_r_ok_all : forall (A B : Type) (f : A -> result B) l ys, map_r f l = Ok ys -> forall x, In x l -> exists y, f x = Ok y /\ In y ys.
Proof.
  intros A B f l. induction l as [|z l IH]; intros ys H x Hx; [destruct Hx|]. cbn [map_r] in H. destruct (f z) as [y|] eqn:E; [|discriminate]. cbn [bind] in H.
  destruct (map_r f l) as [ys'|] eqn:E'; [|discriminate]. cbn [bind] in H. injection H as <-. destruct Hx as [<-|Hx].
  - exists y. split; auto. left; auto. - destruct (IH ys' eq_refl x Hx) as (y' & H1 & H2). exists y'. split; auto. right; auto.
Qed.
Lemma map_r_ok_in : forall (A B : Type) (f : A -> result B) l ys, map_r f l = Ok ys -> forall y, In y ys -> exists x, In x l /\ f x = Ok y.
Proof.
  intros A B f l. induction l as [|z l IH]; intros ys H y Hy; cbn [map_r] in H; [injection H as <-; destruct Hy|]. destruct (f z) as [y'|] eqn:E; [|discriminate]. cbn [bind] in H.
  destruct (map_r f l) as [ys'|] eqn:E'; [|discriminate]. cbn [bind] in H. injection H as <-. destruct Hy as [<-|Hy].
  - exists z. split; auto. left; auto. - destruct (IH ys' eq_refl y Hy) as (x & H1 & H2). exists x. split; auto. right; auto.
Qed.
Lemma edges_into_spec : forall g iv es, wf_graph g -> edges_into g iv = Ok es ->
  incl (keys iv) (nodes g) /\ forall u v, In (u, v) es <-> In v (keys iv) /\ edge g u v.
Proof.
  intros g iv es W H. unfold edges_into in H. destruct (map_r _ iv) as [ess|] eqn:E; [|discriminate]. cbn [bind] in H. injection H as <-.
  assert (F : forall v x y, (ps <- get_parents g (fst (v, x : outcome)) ;; Ok (map (fun p : node => (p, fst (v, x))) ps)) = Ok y -> In v (nodes g) /\ y = map (fun p => (p, v)) (parents g v)).
  { intros v x y Hy. cbn [fst] in Hy. unfold get_parents in Hy. destruct (mem v (nodes g)) eqn:M; [|discriminate]. cbn [bind] in Hy. injection Hy as <-. split; auto. apply mem_In; auto. }
  assert (I : incl (keys iv) (nodes g)).
  { intros v Hv. apply in_map_iff in Hv. destruct Hv as ([w x] & Ew & Hv). cbn [fst] in Ew. subst w. destruct (map_r_ok_all _ _ _ _ _ E (v, x) Hv) as (y & Hy & _). apply (F v x y Hy). }
  split; auto. intros u v. rewrite in_concat. split.
  - intros (l & Hl & Hi). destruct (map_r_ok_in _ _ _ _ _ E l Hl) as ([w x] & Hv & Ev). destruct (F w x l Ev) as [_ ->].
    apply in_map_iff in Hi. destruct Hi as (p & Ep & Hp). injection Ep as <- <-. split; [apply (in_map fst) in Hv; auto|apply in_parents; auto].
  - intros [Hv He]. apply in_map_iff in Hv. destruct Hv as ([w x] & Ew & Hv). cbn [fst] in Ew. subst w. destruct (map_r_ok_all _ _ _ _ _ E (v, x) Hv) as (y & Hy & Hin). exists y. split; auto.
    destruct (F v x y Hy) as [_ ->]. apply in_map_iff. exists u. split; auto. apply in_parents; auto.
Qed.
Lemma cut_edges_spec : forall es h h', wf_dag h -> cut_edges h es = Ok h' -> wf_dag h' /\ nodes h' = nodes h /\ forall u v, edge h' u v <-> edge h u v /\ ~ In (u, v) es.
Proof.
  induction es as [|[a b] es IH]; intros h h' W H; cbn [cut_edges] in H.
  - injection H as <-. split; auto. split; auto. intros u v. simpl. tauto.
  - destruct (nx_remove_edge h a b) as [h1|] eqn:E; [|discriminate]. cbn [bind] in H.
    assert (W1 : wf_dag h1). { split; [eapply wf_nx_remove_edge; eauto; apply W|]. eapply acyclic_sub; [|apply W]. intros u v K. eapply edge_nx_remove_edge in K; eauto. tauto. }
    destruct (IH h1 h' W1 H) as (H1 & H2 & H3). split; auto. split; [rewrite H2; eapply nodes_nx_remove_edge; eauto|].
    intros u v. rewrite H3, (edge_nx_remove_edge _ _ _ _ u v E). simpl. split.
    + intros [[K1 K2] K3]. split; auto. intros [K|K]; [injection K as <- <-; apply K2; auto|auto].
    + intros [K1 K2]. split; [split; auto|]; intro K; apply K2; auto. destruct K as [-> ->]. left; auto.
Qed.
Lemma check_policies_spec : forall m n qs c iv, wf_dag (ngraph n) -> no_clash (ngraph n) -> check_policies m n qs c iv = Ok tt ->
  incl (keys iv) (nodes (ngraph n)) /\
  exists h, is_mech_graph (cut (ngraph n) (keys iv)) h /\
    forall d q, In d (decisions m) -> In q qs -> is_dconnected h (mec d) q (keys c ++ keys iv) = Ok false \/ (In d (nodes (ngraph n)) /\ has_policy n d = true).
Proof.
  intros m n qs c iv W C H. unfold check_policies in H. destruct (mechanism_graph_ok (with_graph m (ngraph n)) W C) as (h & E & (H1 & H2 & H3)). rewrite E in H. cbn [bind mgraph] in H.
  destruct (edges_into (ngraph n) iv) as [es|] eqn:Ee; [|discriminate]. cbn [bind] in H. destruct (edges_into_spec _ _ _ (proj1 W) Ee) as [I Es]. split; auto.
  destruct (cut_edges h es) as [h'|] eqn:Eh; [|discriminate]. cbn [bind] in H. destruct (cut_edges_spec _ _ _ H1 Eh) as (K1 & K2 & K3). exists h'. split.
  - split; auto. split.
    + intros u v. rewrite K3, H2, edge_cut, Es. cbn [with_graph mgraph cut nodes]. split.
      * intros [[K|K] K4]; [left; split; auto|right; auto].
      * intros [[K K4]|[K4 ->]]; [split; [auto|tauto]|]. split; [auto|]. intros [_ K]. apply (proj1 (C v K4)). apply (proj2 (proj2 (proj1 W)) _ _ K).
    + intro x. rewrite K2, H3. reflexivity.
  - intros d q Hd Hq. destruct (map_r _ (list_prod (decisions m) qs)) as [us|] eqn:Em; [|discriminate].
    destruct (map_r_ok_all _ _ _ _ _ Em (d, q)) as (y & Hy & _); [apply in_prod; auto|]. unfold check_decision in Hy. cbn [fst snd] in Hy.
    destruct (is_dconnected h' (mec d) q (keys c ++ keys iv)) as [b|]; [|discriminate]. cbn [bind] in Hy. destruct b; auto. cbn [andb] in Hy.
    destruct (mem d (nodes (ngraph n))) eqn:M, (has_policy n d) eqn:Hp; try discriminate. right. split; auto. apply mem_In; auto.
Qed.
Lemma lookup_in_domains : forall n iv v x, in_domains n iv -> lookup v iv = Some x -> In x (dom_of (doms n) v).
Proof. intros n iv v x H L. apply lookup_In in L. destruct (H v x L) as (d & H1 & H2). unfold dom_of. unfold has_domain in H1. rewrite H1. auto. Qed.
Theorem unset_irrelevant : forall m n n' qs c iv x, distribution n -> distribution n' -> no_clash (ngraph n) -> check_policies m n qs c iv = Ok tt ->
  differ_in (fun d => In d (decisions m) /\ has_policy n d = false) n n' ->
  NoDup (keys c) -> NoDup (keys iv) -> NoDup (keys x) -> incl (keys c) (nodes (ngraph n)) -> incl (keys x) qs -> incl qs (nodes (ngraph n)) ->
  (forall v, In v (keys x) -> ~ In v (keys c)) -> in_domains n c -> in_domains n iv -> in_domains n x ->
  do_prob n iv (x ++ c) * do_prob n' iv c = do_prob n' iv (x ++ c) * do_prob n iv c.
Proof.
  intros m n n' qs c iv x Hd Hd' NC Hc Df Nc Ni Nx Ic Ix Iq Dj Dc Di Dx.
  assert (W : wf_dag (ngraph n)) by apply Hd. assert (G : ngraph n' = ngraph n) by apply Df. assert (Sd : same_domains n n') by apply Df.
  destruct (check_policies_spec _ _ _ _ _ W NC Hc) as (Ii & h & M & Sep).
  rewrite (do_prob_reduce n iv (x ++ c)), (do_prob_reduce n iv c), (do_prob_reduce n' iv (x ++ c)), (do_prob_reduce n' iv c) by auto. rewrite clash_app. destruct (clash iv x); [cbn [orb]; ring|]. destruct (clash iv c); [cbn [orb]; ring|]. cbn [orb].
  rewrite rest_app, <- app_assoc. set (x' := rest iv x). set (c' := rest iv c ++ iv).
  rewrite !(do_prob_P n iv) by auto. rewrite !(do_prob_P n' iv) by (rewrite ?G; auto). rewrite G.
  assert (ED : forall v, ndom n' v = ndom n v) by (intro v; unfold ndom; rewrite G, (same_dom_of n n' Sd); auto).
  assert (EP : forall g K l, P g (ndom n') K l = P g (ndom n) K l).
  { intros g K l. apply total_dom_perm. intros v _. rewrite ED. auto. }
  rewrite !EP.
  assert (CK := do_kernel_cond n iv Hd (fun v y => lookup_in_domains n iv v y Di)).
  assert (CK' : cond (cut (ngraph n) (keys iv)) (ndom n) (do_kernel n' iv)).
  { assert (Di' : in_domains n' iv). { intros v y H. destruct (Di v y H) as (d & H1 & H2). exists d. split; auto. apply Sd; auto. }
    destruct (do_kernel_cond n' iv Hd' (fun v y => lookup_in_domains n' iv v y Di')) as [k1 k2 k3]. rewrite G in *. constructor; auto.
    intros v a Hv H. rewrite <- ED. apply k2; auto. intros p Hp. rewrite ED. auto. }
  set (S := filter (fun d => mem d (decisions m) && negb (has_policy n d) && negb (mem d (keys iv))) (nodes (ngraph n))).
  assert (Zin : incl (keys c ++ keys iv) (nodes (ngraph n))) by (apply incl_app; auto).
  apply (mech_sep (cut (ngraph n) (keys iv)) h (ndom n) (do_kernel n iv) (do_kernel n' iv) S (keys x') (keys c ++ keys iv) x' c'); auto.
  - apply cut_dag; auto.
  - intro v. apply ndom_nodup; auto.
  - intros v Hv. apply filter_In in Hv. apply Hv.
  - intros v Hv. apply keys_rest in Hv. apply Iq, Ix. tauto.
  - intros v Hv K. apply keys_rest in Hv. apply in_app_or in K. destruct K as [K|K]; [apply (Dj v); tauto|tauto].
  - intros v a Hv Hs. unfold do_kernel. destruct (lookup v iv) as [y|] eqn:L; auto. apply (kernel_differ _ n n' v a) in Df; [auto|apply Hd|apply Hd'|].
    intros [K1 K2]. apply Hs. apply filter_In. split; auto. apply mem_In in K1. rewrite K1, K2. apply lookup_None_keys in L. apply mem_nIn in L. rewrite L. auto.
  - intros s q Hs Hq K. apply filter_In in Hs. destruct Hs as [Hs1 Hs]. apply andb_true_iff in Hs. destruct Hs as [Hs Hs3]. apply andb_true_iff in Hs. destruct Hs as [Hs2 Hs4]. apply negb_true_iff in Hs4. apply mem_In in Hs2.
    apply keys_rest in Hq. destruct (Sep s q Hs2 (Ix q (proj1 Hq))) as [F|[_ F]]; [|congruence].
    destruct (is_dconnected_spec h (mec s) q (keys c ++ keys iv)) as (b & E1 & E2).
    + apply M. + intros z Hz. apply M. left. apply (Zin z Hz). + apply M. right. eauto.
    + rewrite F in E1. injection E1 as <-. apply E2 in K. discriminate.
  - unfold keys. rewrite map_app. fold (keys x') (keys c'). apply NoDup_app'.
    + apply rest_nodup; auto.
    + unfold c', keys. rewrite map_app. apply NoDup_app'; auto; [apply rest_nodup; auto|]. intros v H1 H2. apply keys_rest in H1. tauto.
    + intros v H1 H2. apply keys_rest in H1. unfold c', keys in H2. rewrite map_app, in_app_iff in H2. destruct H2 as [H2|H2]; [apply keys_rest in H2; apply (Dj v); tauto|tauto].
  - tauto.
  - intro v. assert (R := keys_rest iv c v). unfold c', keys in *. rewrite map_app, !in_app_iff, R. destruct (in_dec String.string_dec v (map fst iv)); tauto.
  - assert (R : forall l v y, in_domains n l -> incl (keys l) (nodes (ngraph n)) -> In (v, y) l -> In y (ndom n v)).
    { intros l v y Hl Il Hi. rewrite ndom_in; [|apply Il; apply (in_map fst) in Hi; auto]. destruct (Hl v y Hi) as (d & H1 & H2). unfold dom_of. unfold has_domain in H1. rewrite H1. auto. }
    intros v y Hi. apply in_app_or in Hi. destruct Hi as [Hi|Hi]; [apply in_rest in Hi; apply (R x v y); auto; [intros z Hz; apply Iq, Ix; auto|tauto]|].
    apply in_app_or in Hi. destruct Hi as [Hi|Hi]; [apply in_rest in Hi; apply (R c v y); auto; tauto|apply (R iv v y); auto].
Qed.
