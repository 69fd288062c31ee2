(* Lemmas: solving the decisions one after the other. *)
From Coq Require Import String List Bool Arith QArith Qcanon Lia Permutation.
Import ListNotations.
From Verif Require Import MBase MGraph MMacid MCpd MNet MProb MQuery MPolicy Spec SpecM SpecC SpecN SpecQ SpecPol LBase LGraph LQc LCpd LNet LSum LBayes LSep LQuery LDo LInter LFactor LEffects LRoles LReach LTrim LActive LMech LPolicy LValue LQcArith LSearch LLike LOptimal LOptDec LBest.
Local Open Scope Qc_scope.

Lemma mech_exists : forall g, wf_dag g -> no_clash g -> exists h, is_mech_graph g h.
Proof. intros g W C. destruct (mechanism_graph_ok (mkM g [] [] [] []) W C) as (h & _ & H). exists h. exact H. Qed.
(* tables whose mechanism variables are d-separated from the queried variables do not matter *)
Lemma do_sep : forall n n' S c iv x h, distribution n -> distribution n' -> no_clash (ngraph n) -> is_mech_graph (ngraph n) h ->
  differ_in (fun d => In d S \/ In d (keys iv)) n n' -> incl S (nodes (ngraph n)) ->
  (forall s q, In s S -> In q (keys x) -> ~ dconn h (keys c ++ keys iv) (mec s) q) ->
  NoDup (keys c) -> NoDup (keys iv) -> NoDup (keys x) -> incl (keys c) (nodes (ngraph n)) -> incl (keys iv) (nodes (ngraph n)) -> incl (keys x) (nodes (ngraph n)) ->
  (forall v, In v (keys x) -> ~ In v (keys c)) -> in_domains n c -> in_domains n iv -> in_domains n x ->
  do_prob n iv (x ++ c) * do_prob n' iv c = do_prob n' iv (x ++ c) * do_prob n iv c.
Proof.
  intros n n' S c iv x h0 Hd Hd' NC M0 Df IS Sep Nc Ni Nx Ic Ii Ix Dj Dc Di Dx.
  assert (W : wf_dag (ngraph n)) by apply Hd. assert (G : ngraph n' = ngraph n) by apply Df. assert (Sd : same_domains n n') by apply Df.
  destruct (mech_exists (cut (ngraph n) (keys iv)) (cut_dag _ _ W) (cut_no_clash _ _ NC)) as [h M].
  rewrite (do_prob_reduce n iv (x ++ c)), (do_prob_reduce n iv c), (do_prob_reduce n' iv (x ++ c)), (do_prob_reduce n' iv c) by auto. rewrite clash_app. destruct (clash iv x); [cbn [orb]; ring|]. destruct (clash iv c); [cbn [orb]; ring|]. cbn [orb].
  rewrite rest_app, <- app_assoc. set (x' := rest iv x). set (c' := rest iv c ++ iv).
  rewrite !(do_prob_P n iv) by auto. rewrite !(do_prob_P n' iv) by (rewrite ?G; auto). rewrite G.
  assert (ED : forall v, ndom n' v = ndom n v) by (intro v; unfold ndom; rewrite G, (same_dom_of n n' Sd); auto).
  assert (EP : forall g K l, P g (ndom n') K l = P g (ndom n) K l).
  { intros g K l. apply total_dom_perm. intros v _. rewrite ED. auto. }
  rewrite !EP.
  assert (CK := do_kernel_cond n iv Hd (fun v y => lookup_in_domains n iv v y Di)).
  assert (CK' : LBayes.cond (cut (ngraph n) (keys iv)) (ndom n) (do_kernel n' iv)).
  { assert (Di' : in_domains n' iv). { intros v y H. destruct (Di v y H) as (d & H1 & H2). exists d. split; auto. apply Sd; auto. }
    destruct (do_kernel_cond n' iv Hd' (fun v y => lookup_in_domains n' iv v y Di')) as [k1 k2 k3]. rewrite G in *. constructor; auto.
    intros v a Hv H. rewrite <- ED. apply k2; auto. intros p Hp. rewrite ED. auto. }
  assert (Zin : incl (keys c ++ keys iv) (nodes (ngraph n))) by (apply incl_app; auto).
  apply (mech_sep (cut (ngraph n) (keys iv)) h (ndom n) (do_kernel n iv) (do_kernel n' iv) S (keys x') (keys c ++ keys iv) x' c'); auto.
  - apply cut_dag; auto.
  - intro v. apply ndom_nodup; auto.
  - intros v Hv. apply keys_rest in Hv. apply Ix. tauto.
  - intros v Hv K. apply keys_rest in Hv. apply in_app_or in K. destruct K as [K|K]; [apply (Dj v); tauto|tauto].
  - intros v a Hv Hs. unfold do_kernel. destruct (lookup v iv) as [y|] eqn:L; auto. apply (kernel_differ _ n n' v a) in Df; [auto|apply Hd|apply Hd'|].
    intros [K|K]; [auto|]. apply lookup_None_keys in L. auto.
  - intros s q Hs Hq K. apply keys_rest in Hq. apply (Sep s q Hs (proj1 Hq)). apply dconn_more with h; auto; [apply M0|].
    intros u v E. apply M in E. apply M0. destruct E as [E|E]; [left; apply edge_cut in E; tauto|right; exact E].
  - unfold keys. rewrite map_app. fold (keys x') (keys c'). apply NoDup_app'.
    + apply rest_nodup; auto.
    + unfold c', keys. rewrite map_app. apply NoDup_app'; auto; [apply rest_nodup; auto|]. intros v H1 H2. apply keys_rest in H1. tauto.
    + intros v H1 H2. apply keys_rest in H1. unfold c', keys in H2. rewrite map_app, in_app_iff in H2. destruct H2 as [H2|H2]; [apply keys_rest in H2; apply (Dj v); tauto|tauto].
  - tauto.
  - intro v. assert (R := keys_rest iv c v). unfold c', keys in *. rewrite map_app, !in_app_iff, R. destruct (in_dec String.string_dec v (map fst iv)); tauto.
  - assert (R : forall l v y, in_domains n l -> incl (keys l) (nodes (ngraph n)) -> In (v, y) l -> In y (ndom n v)).
    { intros l v y Hl Il Hi. rewrite ndom_in; [|apply Il; apply (in_map fst) in Hi; auto]. destruct (Hl v y Hi) as (d & H1 & H2). unfold dom_of. unfold has_domain in H1. rewrite H1. auto. }
    intros v y Hi. apply in_app_or in Hi. destruct Hi as [Hi|Hi]; [apply in_rest in Hi; apply (R x v y); auto; tauto|].
    apply in_app_or in Hi. destruct Hi as [Hi|Hi]; [apply in_rest in Hi; apply (R c v y); auto; tauto|apply (R iv v y); auto].
Qed.

(* the payoff of an action does not depend on the tables of decisions that are not relevant *)
Lemma pay_irrelevant : forall n n' S ud d pv x h, distribution n -> distribution n' -> no_clash (ngraph n) -> is_mech_graph (ngraph n) h ->
  differ_in (fun v => v = d \/ In v S) n n' -> incl S (nodes (ngraph n)) -> In d (nodes (ngraph n)) -> In x (dom_of (doms n) d) -> context_of (doms n) (parents (ngraph n) d) pv ->
  (forall s u, In s S -> In u ud -> ~ dconn h (family (ngraph n) d) (mec s) u) -> (forall u, In u ud -> descends (ngraph n) u d) ->
  do_prob n [] pv <> 0 -> do_prob n' [] pv <> 0 -> pay n' ud d pv x = pay n ud d pv x.
Proof.
  intros n n' S ud d pv x h Hd Hd' NC M Df IS Hn Hx [Cp Cx] Sep De P1 P2. assert (W : wf_dag (ngraph n)) by apply Hd. assert (G : ngraph n' = ngraph n) by apply Df. assert (Sd : same_domains n n') by apply Df. assert (Ed := same_dom_of n n' Sd).
  assert (Ek : keys pv = parents (ngraph n) d) by exact Cp.
  assert (Q1 : do_prob n [(d, x)] pv <> 0). { rewrite do_prob_parents; auto. intros v K. rewrite Ek in K. apply edge_parents; auto. }
  assert (Q2 : do_prob n' [(d, x)] pv <> 0). { rewrite do_prob_parents; rewrite ?G, ?Ed; auto. intros v K. rewrite Ek in K. apply edge_parents; auto. }
  unfold pay. apply qsum_ext. intros u Hu. unfold expectation. rewrite Ed. apply qsum_ext. intros y Hy. f_equal.
  assert (Du := De u Hu). assert (Hun : In u (nodes (ngraph n))) by (eapply wf_reach; [apply W|apply descends_reach; eauto|auto]).
  assert (Nd : u <> d). { intros ->. apply (proj2 W d). auto. }
  assert (E := do_sep n n' S pv [(d, x)] [(u, y)] h Hd Hd' NC M). cbn [app keys map fst] in E.
  assert (X : do_prob n [(d, x)] ((u, y) :: pv) * do_prob n' [(d, x)] pv = do_prob n' [(d, x)] ((u, y) :: pv) * do_prob n [(d, x)] pv).
  { apply E; auto; clear E.
    - destruct Df as (D1 & D2 & D3). split; auto. split; auto. intros v t K. apply D3. intros [->|I]; apply K; [right; left; auto|left; auto].
    - intros s q Hs [<-|[]] K. apply (Sep s u Hs Hu). eapply dconn_ext; [|exact K]. intro z. rewrite in_app_iff, in_family. rewrite Ek. rewrite edge_parents. simpl. split; [intros [K'|[K'|[]]]; auto|intros [K'|K']; auto].
    - rewrite Ek. apply nodup_parents. apply W.
    - constructor; [intros []|constructor].
    - constructor; [intros []|constructor].
    - rewrite Ek. intros v K. apply edge_parents in K. apply W in K. tauto.
    - intros v [<-|[]]. auto.
    - intros v [<-|[]]. auto.
    - intros v [<-|[]] K. rewrite Ek in K. apply edge_parents in K. apply (proj2 W d). apply (descends_trans (ngraph n) d u d); auto.
      + exists d. split; [auto|constructor].
      + apply descends_reach; auto.
    - intros v z [K|[]]. injection K as <- <-. destruct (dist_lookup n d Hd Hn) as [Ld _]. exists (dom_of (doms n) d). split; auto.
    - intros v z [K|[]]. injection K as <- <-. destruct (dist_lookup n u Hd Hun) as [Lu _]. exists (dom_of (doms n) u). split; auto. }
  unfold Qcdiv. apply (f_equal (fun z => z * / do_prob n [(d, x)] pv * / do_prob n' [(d, x)] pv)) in X.
  transitivity (do_prob n' [(d, x)] ((u, y) :: pv) * do_prob n [(d, x)] pv * / do_prob n [(d, x)] pv * / do_prob n' [(d, x)] pv); [field; auto|]. rewrite <- X. field; auto.
Qed.

(* variables that do not descend from d do not matter for the choice at d *)
Lemma pay_more : forall n us ud d pv x, distribution n -> NoDup us -> NoDup ud -> incl us (nodes (ngraph n)) -> In d (nodes (ngraph n)) -> ~ In d us -> context_of (doms n) (parents (ngraph n) d) pv -> In x (dom_of (doms n) d) ->
  (forall u, In u ud <-> In u us /\ descends (ngraph n) u d) ->
  pay n us d pv x = pay n ud d pv x + qsum (map (expectation n [] pv) (filter (fun u => negb (mem u ud)) us)).
Proof.
  intros n us ud d pv x Hd Nu Nd Iu Hn Hdu [Cp Cx] Hx Du. assert (W : wf_dag (ngraph n)) by apply Hd. assert (Ek : keys pv = parents (ngraph n) d) by exact Cp.
  unfold pay. change (fold_right Qcplus 0) with qsum.
  rewrite (qsum_perm _ (map (expectation n [(d, x)] pv) (ud ++ filter (fun u => negb (mem u ud)) us))).
  2:{ apply Permutation_map. apply Permutation_trans with (filter (fun u => mem u ud) us ++ filter (fun u => negb (mem u ud)) us); [apply filter_partition|]. apply Permutation_app_tail. apply NoDup_Permutation; auto; [apply NoDup_filter; auto|].
      intro u. rewrite filter_In, mem_In, Du. tauto. }
  rewrite map_app, qsum_app. f_equal. apply qsum_ext. intros u Hu. apply filter_In in Hu. destruct Hu as [Hu Hm]. apply negb_true_iff, mem_nIn in Hm.
  assert (Nr : ~ reach (ngraph n) d u). { intro R. destruct (reach_descends _ _ _ R) as [->|D]; [auto|]. apply Hm, Du. split; auto. }
  assert (Np : forall v, In v (keys pv) -> edge (ngraph n) v d) by (intros v K; rewrite Ek in K; apply edge_parents; auto).
  destruct (dist_lookup n d Hd Hn) as [Ld _].
  assert (X : forall c, (forall v, In v (keys c) -> v = u \/ edge (ngraph n) v d) -> do_prob n [(d, x)] c = do_prob n [] c).
  { intros c Hc. apply do_prob_unaffected; auto.
    - constructor; [intros []|constructor].
    - intros v [<-|[]]. auto.
    - intros v y [K|[]]. injection K as <- <-. exists (dom_of (doms n) d). split; auto.
    - intros v K. apply Hc in K. destruct K as [->|K]; [auto|]. apply W in K. tauto.
    - intros v w [<-|[]] K R. apply Hc in K. destruct K as [->|K]; [auto|]. apply (proj2 W w). exists d. auto. }
  unfold expectation. apply qsum_ext. intros y _. f_equal. rewrite !X; auto. cbn [keys map fst]. intros v [<-|K]; auto.
Qed.
(* the network n with the table t for d *)
Definition put (n : net) (d : node) (t : tab) : net := mkNet (ngraph n) (rels n) (t :: filter (fun s => negb (String.eqb (tvar s) d)) (cpds n)) (doms n).
Lemma put_table : forall n d t v s, tvar t = d -> (has_table (put n d t) v s <-> (v = d /\ s = t) \/ (v <> d /\ has_table n v s)).
Proof.
  intros n d t v s E. unfold has_table, put. cbn [cpds In]. rewrite filter_In, negb_true_iff, String.eqb_neq. split.
  - intros [[<-|[K1 K2]] K3]; [left; split; auto; congruence|right]. subst v. split; auto.
  - intros [[-> ->]|[K [K1 K2]]]; [auto|]. split; auto. right. split; auto. congruence.
Qed.
Lemma put_dist : forall n d t, distribution n -> In d (nodes (ngraph n)) -> table_ok n d t -> distribution (put n d t).
Proof.
  intros n d t (W & S & E & F) Hn T. assert (Ev := ok_var _ _ _ T). split; [exact W|]. split; [|split].
  - intros v s s' H H'. apply (put_table n d t v s Ev) in H. apply (put_table n d t v s' Ev) in H'. destruct H as [[-> ->]|[K H]], H' as [[K' ->]|[K' H']]; auto; try contradiction. apply (S v); auto.
  - intros v s H. apply (put_table n d t v s Ev) in H. destruct H as [[-> ->]|[K H]]; [apply T|apply (E v s H)].
  - intros v Hv. change (In v (nodes (ngraph n))) in Hv. destruct (String.string_dec v d) as [->|N].
    + exists t. split; [apply put_table; auto|]. split; [|split; apply T]. unfold has_domain. cbn [put doms]. rewrite <- (ok_dom _ _ _ T). apply dist_lookup; auto. split; auto.
    + destruct (F v Hv) as (s & K1 & K2). exists s. split; [apply put_table; auto|exact K2].
Qed.
Lemma put_differ : forall n d t, tvar t = d -> differ_in (eq d) n (put n d t).
Proof. intros n d t E. split; [reflexivity|]. split; [intros v x; reflexivity|]. intros v s K. rewrite put_table by auto. split; [intro; right; auto|intros [[-> _]|[_ H]]; [contradiction|auto]]. Qed.
Lemma differ_trans : forall (X Y Z : node -> Prop) n n1 n2, differ_in X n n1 -> differ_in Y n1 n2 -> (forall v, X v \/ Y v -> Z v) -> differ_in Z n n2.
Proof.
  intros X Y Z n n1 n2 (G & D & T) (G' & D' & T') H. split; [congruence|]. split; [intros v d; rewrite (D v d); apply D'|]. intros v t N. rewrite (T v t); [apply T'|]; intro K; apply N, H; auto.
Qed.
Lemma differ_sym : forall X n n', differ_in X n n' -> differ_in X n' n.
Proof. intros X n n' (G & D & T). split; [auto|]. split; [intros v d; symmetry; apply D|]. intros v t N. symmetry. apply T; auto. Qed.
Lemma differ_twin : forall X n n', distribution n -> distribution n' -> differ_in X n n' -> twin X n n'.
Proof.
  intros X n n' Hd Hd' Df. constructor; [apply Df|apply same_dom_of; apply Df|]. intros v a _ N _. symmetry. apply (kernel_differ X); auto; [apply Hd|apply Hd'].
Qed.
Lemma table_frame : forall n n' d t, ngraph n' = ngraph n -> (forall v, dom_of (doms n') v = dom_of (doms n) v) -> table_ok n d t -> table_ok n' d t.
Proof.
  intros n n' d t G D [K1 K2 K3 K4 K5]. constructor; auto; [rewrite D; auto|rewrite G; auto|]. rewrite K5. apply map_ext. intro. rewrite D. auto.
Qed.
Lemma plays_obeys : forall n n' d h t, distribution n -> distribution n' -> ngraph n' = ngraph n -> same_domains n n' -> In d (nodes (ngraph n)) -> plays n d h t -> has_table n' d t -> obeys n' d h.
Proof.
  intros n n' d h t Hd Hd' G Sd Hn Pl Ht a Wa. assert (Ed := same_dom_of n n' Sd). apply single_cpd in Ht; [|apply Hd']. unfold kernel. rewrite Ht.
  destruct (dist_lookup n d Hd Hn) as [Ld _]. apply (plays_iff n d (dom_of (doms n) d) h t) in Pl; auto; [|apply dist_ready; auto|].
  2:{ intros p Hp. apply edge_parents in Hp. apply dom_nodup; auto. apply Hd in Hp. tauto. }
  assert (Tv : tvar t = d) by (subst t; reflexivity). assert (Te : tev t = parents (ngraph n) d) by (subst t; reflexivity).
  rewrite G. rewrite <- (rule_acts n d t h a Hd Hn); auto; [|intros v Hv; rewrite <- Ed; apply Wa; rewrite G; auto]. apply entry_doms_in; intros; apply Ed.
Qed.
(* the value of a behaviour is the expected utility of a network that behaves so *)
Definition follow_net (n : net) (ds : list node) (b : behaviour) : net :=
  fold_right (fun d n' => put n' d (col_tab n d (fun pv x => b d (fun v => if String.string_dec v d then x else match lookup v pv with Some y => y | None => 0 end)) KStoch)) n ds.
Lemma follow_net_ok : forall n ds b, distribution n -> incl ds (nodes (ngraph n)) -> policy n ds b ->
  distribution (follow_net n ds b) /\ differ_in (fun v => In v ds) n (follow_net n ds b) /\ forall d a, In d ds -> within n a -> kernel (follow_net n ds b) d a = b d a.
Proof.
  intros n ds b Hd I Po. assert (W : wf_dag (ngraph n)) by apply Hd. revert I Po. induction ds as [|d ds IH]; intros I Po.
  - split; [exact Hd|]. split; [split; [reflexivity|split; [intros v x; reflexivity|intros; reflexivity]]|]. intros d a [].
  - destruct IH as (I1 & I2 & I3); [intros v K; apply I; right; auto|intros v K; apply Po; right; auto|]. cbn [follow_net fold_right]. fold (follow_net n ds b). set (n1 := follow_net n ds b) in *.
    set (c := fun pv x => b d (fun v => if String.string_dec v d then x else match lookup v pv with Some y => y | None => 0 end)). set (t := col_tab n d c KStoch).
    assert (Hn : In d (nodes (ngraph n))) by (apply I; left; auto). destruct (Po d (or_introl eq_refl)) as (P1 & P2 & P3).
    assert (Np : ~ edge (ngraph n) d d) by (apply no_self_edge; apply W).
    assert (To : table_ok n d t).
    { apply col_ok; auto. intros pv [Cp Cx]. assert (Ek : keys pv = parents (ngraph n) d) by exact Cp. split; [intros x Hx; apply P2|]. set (a := fun v => match lookup v pv with Some y => y | None => 0 end).
      rewrite <- (P3 a). 2:{ intros p Hp. unfold a. apply edge_parents in Hp. rewrite <- Ek in Hp. apply in_keys_lookup in Hp. destruct Hp as [y Ly]. rewrite Ly. apply lookup_In in Ly. destruct (Cx p y Ly) as (l & L1 & L2). unfold dom_of. rewrite L1. auto. }
      change (fold_right Qcplus 0) with qsum. apply qsum_ext. intros x _. apply P1; [rewrite upd_same; destruct (String.string_dec d d); congruence|]. intros p Hp. destruct (String.string_dec p d) as [->|N]; [contradiction|]. rewrite upd_other by auto. reflexivity. }
    assert (G1 : ngraph n1 = ngraph n) by apply I2. assert (Ed1 := same_dom_of n n1 (proj1 (proj2 I2))).
    assert (Dp : distribution (put n1 d t)) by (apply put_dist; [auto|rewrite G1; auto|apply (table_frame n n1); auto]).
    split; [exact Dp|]. assert (Pd := put_differ n1 d t eq_refl). split.
    + apply (differ_trans _ _ _ _ _ _ I2 Pd). intros v [K|<-]; [right; auto|left; auto].
    + intros e a He Wa. destruct (String.string_dec e d) as [->|N].
      * change (kernel (put n1 d t) d a = b d a). unfold kernel. assert (Ct : cpd_of (put n1 d t) d = Some t) by (apply single_cpd; [apply Dp|apply put_table; auto]). rewrite Ct.
        transitivity (entry (doms n) t a); [apply entry_doms_in; intros; apply Ed1|]. unfold t. rewrite col_entry by auto. unfold c. apply P1; [destruct (String.string_dec d d); congruence|].
        intros p Hp. destruct (String.string_dec p d) as [->|Nd]; [contradiction|]. apply edge_parents in Hp. assert (L : lookup p (ctx a (parents (ngraph n) d)) = Some (a p)); [|rewrite L; auto].
        apply In_lookup; [fold (keys (ctx a (parents (ngraph n) d))); rewrite keys_ctx; apply nodup_parents; apply W|]. apply (in_map (fun p => (p, a p))). auto.
      * destruct He as [<-|He]; [congruence|]. rewrite <- (I3 e a He Wa). symmetry. apply (kernel_differ (eq d) n1 (put n1 d t)); auto; [apply I1|apply Dp].
Qed.
Lemma follow_value : forall n n' ds b us, distribution n -> distribution n' -> differ_in (fun v => In v ds) n n' -> (forall d a, In d ds -> In d (nodes (ngraph n)) -> within n a -> kernel n' d a = b d a) -> incl us (nodes (ngraph n)) -> eu n' us = value n ds b us.
Proof.
  intros n n' ds b us Hd Hd' Df Hk Iu. assert (G : ngraph n' = ngraph n) by apply Df. assert (Ed := same_dom_of n n' (proj1 (proj2 Df))).
  unfold eu. rewrite expectations_sum; [|auto|rewrite G; auto]. rewrite value_weight. rewrite G.
  rewrite (total_dom_perm (dom_of (doms n')) (dom_of (doms n))) by (intros v _; rewrite Ed; apply Permutation_refl). apply total_ext_in. intros a Wa _.
  f_equal. unfold weight. apply qprod_ext. intros v Hv. unfold follow. destruct (in_dec String.string_dec v ds) as [K|K]; [apply Hk; auto; intros w Hw; apply Wa; auto|].
  symmetry. apply (kernel_differ (fun v => In v ds)); auto; [apply Hd|apply Hd'].
Qed.
