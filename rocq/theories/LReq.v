(* Dropping information links that are not requisite does not lower the expected utility that can be reached. *)
From Coq Require Import String List Bool Arith QArith Qcanon Lia Permutation.
Import ListNotations.
From Verif Require Import SpecI LIncent LTrim.
From Verif Require Import MBase MGraph MMacid MCpd MNet MProb MQuery MPolicy Spec SpecM SpecC SpecN SpecQ SpecPol SpecVoi LBase LGraph LDfs LPaths LQc LCpd LNet LSum LBayes LSep LQuery LDo LInter LEdit LBuilt LTotal LRoles LReach LPolicy LValue LQcArith LSearch LLike LOptimal LOptDec LBest LSolve LIndep PMacid PPolicy POptDec PSolve LVoi.
Local Open Scope string_scope.
Local Open Scope list_scope.
Local Open Scope Qc_scope.

Definition regraph (n : net) (g : graph) : net := mkNet g (rels n) (cpds n) (doms n).
(* n with the graph g, in which d has fewer parents and behaves as b *)
Definition slim (n : net) (g : graph) (d : node) (b : behaviour) : net :=
  put (regraph n g) d (col_tab (regraph n g) d (fun pv x => b d (fun v => if String.string_dec v d then x else match lookup v pv with Some y => y | None => 0 end)) KStoch).
Record slimmer (n n' : net) (g : graph) (ds : list node) : Prop := {
  sl_graph : ngraph n' = g;
  sl_dist : distribution n';
  sl_doms : doms n' = doms n;
  sl_tables : forall v t, ~ In v ds -> (has_table n v t <-> has_table n' v t) }.
Lemma slim_ok : forall n g d b, distribution n -> wf_dag g -> nodes g = nodes (ngraph n) -> (forall p v, v <> d -> (edge g p v <-> edge (ngraph n) p v)) -> In d (nodes g) ->
  rule_seeing n d (fun p => edge g p d) b -> slimmer n (slim n g d b) g [d] /\ forall a, within n a -> kernel (slim n g d b) d a = b d a.
Proof.
  intros n g d b Hd W N E Hn (P1 & P2 & P3). set (c := fun (pv : list (node * outcome)) x => b d (fun v => if String.string_dec v d then x else match lookup v pv with Some y => y | None => 0 end)). set (t := col_tab (regraph n g) d c KStoch).
  assert (Np : ~ edge g d d) by (apply no_self_edge; apply W). assert (Hp : forall p, In p (parents g d) -> In p (nodes (ngraph n))) by (intros p K; apply in_parents in K; apply W in K; rewrite <- N; tauto).
  assert (R : ready (doms n) (parents g d)). { intros p K. apply Hp in K. destruct (dist_lookup n p Hd K) as [X _]. congruence. }
  assert (Hn' : In d (nodes (ngraph n))) by (rewrite <- N; auto).
  assert (To : table_ok (regraph n g) d t).
  { constructor; auto.
    - unfold exact_table, t, col_tab. cbn [tvar tdom tev tcards tcols regraph ngraph doms]. split; [apply nodup_parents; apply W|]. split; [apply dom_nodup; auto|]. split; [apply map_length|]. split; [rewrite map_length, contexts_len; symmetry; apply prod_cards|].
      intros col Hc. apply in_map_iff in Hc. destruct Hc as (pv & <- & Kp). apply in_contexts' in Kp; auto. destruct Kp as [Cp Cx]. assert (Ek : keys pv = parents g d) by exact Cp. split; [apply map_length|]. split; [intros x Hx; apply in_map_iff in Hx; destruct Hx as (y & <- & _); apply P2|].
      set (a := fun v => match lookup v pv with Some y => y | None => 0 end).
      rewrite <- (P3 a). 2:{ intros p Kp. unfold a. apply in_parents in Kp. rewrite <- Ek in Kp. apply in_keys_lookup in Kp. destruct Kp as [y Ly]. rewrite Ly. apply lookup_In in Ly. destruct (Cx p y Ly) as (l & L1 & L2). unfold dom_of. rewrite L1. auto. }
      change (fold_right Qcplus 0) with qsum. apply qsum_ext. intros x _. apply P1; [rewrite upd_same; destruct (String.string_dec d d); congruence|]. intros p Kp. destruct (String.string_dec p d) as [->|Nd]; [contradiction|]. rewrite upd_other by auto. reflexivity.
    - intro p. cbn [t col_tab tev]. apply in_parents. }
  assert (Ev := ok_var _ _ _ To). assert (Pt := put_table (regraph n g) d t). destruct Hd as (W0 & S & Ex & F). assert (Hd : distribution n) by (split; [|split; [|split]]; auto).
  assert (Dp : distribution (slim n g d b)).
  { split; [exact W|]. split; [|split].
    - intros v s s' H H'. apply (Pt v s Ev) in H. apply (Pt v s' Ev) in H'. destruct H as [[-> ->]|[K H]], H' as [[K' ->]|[K' H']]; auto; try contradiction. apply (S v); auto.
    - intros v s H. apply (Pt v s Ev) in H. destruct H as [[-> ->]|[K H]]; [apply To|apply (Ex v s H)].
    - intros v Hv. change (In v (nodes g)) in Hv. destruct (String.string_dec v d) as [->|Nv].
      + exists t. split; [apply Pt; auto|]. split; [unfold has_domain; change (lookup d (doms n) = Some (tdom t)); destruct (dist_lookup n d Hd Hn') as [L _]; exact L|]. split; [apply To|apply To].
      + rewrite N in Hv. destruct (F v Hv) as (s & F1 & F2 & F3 & F4). exists s. split; [apply Pt; auto|]. split; [exact F2|]. split; [intro p; rewrite F3; symmetry; apply (E p v Nv)|exact F4]. }
  split; [constructor; auto|].
  - intros v s K. change (has_table (slim n g d b) v s) with (has_table (put (regraph n g) d t) v s). rewrite (Pt v s Ev). split; [intro H; right; split; auto; intros ->; apply K; left; auto|intros [[-> _]|[_ H]]; auto; exfalso; apply K; left; auto].
  - intros a Wa. unfold kernel. assert (Ct : cpd_of (slim n g d b) d = Some t) by (apply single_cpd; [apply Dp|apply Pt; auto]). rewrite Ct. change (doms (slim n g d b)) with (doms n).
    assert (Ha : forall p, In p (parents g d) -> In (a p) (dom_of (doms n) p)) by (intros p K; apply Wa; auto). assert (C := ctx_context (doms n) a (parents g d) R Ha).
    assert (En : entry (doms n) t a = c (ctx a (parents g d)) (a d)).
    { unfold entry, t, col_tab. cbn [tvar tdom tev tcols regraph ngraph doms]. rewrite name_pos, states_dom, column_context. change (map (fun p => (p, a p)) (parents g d)) with (ctx a (parents g d)). destruct (context_at (doms n) (parents g d) _ C) as [I1 I2].
      assert (E2 : nth_error (map (fun pv : list (node * outcome) => map (c pv) (dom_of (doms n) d)) (contexts (doms n) (parents g d))) (context_index (doms n) (ctx a (parents g d))) = Some (map (c (ctx a (parents g d))) (dom_of (doms n) d))) by exact (map_nth_error _ _ _ I2). rewrite (nth_error_nth _ _ [] E2). rewrite (nth_error_nth _ _ 0 (map_nth_error (c (ctx a (parents g d))) _ _ (pos_nth _ _ (Wa d Hn')))). reflexivity. }
    rewrite En. unfold c. apply P1; [destruct (String.string_dec d d); congruence|]. intros p Kp. destruct (String.string_dec p d) as [->|Nd]; [contradiction|]. apply in_parents in Kp.
    assert (L : lookup p (ctx a (parents g d)) = Some (a p)); [|rewrite L; auto]. apply In_lookup; [fold (keys (ctx a (parents g d))); rewrite keys_ctx; apply nodup_parents; apply W|]. apply (in_map (fun p => (p, a p))). auto.
Qed.
Lemma slimmer_trans : forall n n1 n2 g1 g2 ds, slimmer n n1 g1 ds -> slimmer n1 n2 g2 ds -> slimmer n n2 g2 ds.
Proof. intros n n1 n2 g1 g2 ds [A1 A2 A3 A4] [B1 B2 B3 B4]. constructor; auto; [congruence|]. intros v t K. rewrite A4 by auto. auto. Qed.
Lemma slimmer_kernel : forall n n' g ds v a, distribution n -> slimmer n n' g ds -> ~ In v ds -> kernel n' v a = kernel n v a.
Proof.
  intros n n' g ds v a Hd [A1 A2 A3 A4] K. unfold kernel. rewrite A3. assert (X : cpd_of n' v = cpd_of n v); [|rewrite X; auto]. assert (S : single_tables n) by apply Hd. assert (S' : single_tables n') by apply A2.
  destruct (cpd_of n v) as [t|] eqn:C; [apply single_cpd; auto; apply A4; auto; apply single_cpd; auto|]. destruct (cpd_of n' v) as [t|] eqn:C'; auto. apply single_cpd, (proj2 (A4 v t K)), single_cpd in C'; auto. congruence.
Qed.
Lemma eu_value : forall n us, distribution n -> incl us (nodes (ngraph n)) -> eu n us = value n [] (kernel n) us.
Proof. intros n us Hd I. apply follow_value; auto. - split; [auto|]. split; [intros v l; tauto|]. intros; tauto. Qed.
Lemma value_own : forall n d us, value n [d] (kernel n) us = value n [] (kernel n) us.
Proof. intros n d us. rewrite !value_weight. apply total_ext. intro a. f_equal. unfold weight. apply qprod_ext. intros v _. unfold follow. destruct (in_dec String.string_dec v [d]); auto. Qed.
Lemma own_policy : forall n ds, distribution n -> incl ds (nodes (ngraph n)) -> policy n ds (kernel n).
Proof.
  intros n ds Hd I d K. destruct (kernel_cond n Hd) as [k1 k2 k3]. specialize (I d K). split; [|split; auto].
  intros a a' E1 E2. apply k1; auto. intros u [->|Ku]; auto.
Qed.
(* one link *)
Lemma drop_link : forall n d x us ud, distribution n -> edge (ngraph n) x d -> NoDup us -> incl us (nodes (ngraph n)) -> ~ In d us -> NoDup ud -> (forall u, In u ud <-> In u us /\ descends (ngraph n) u d) ->
  (forall u Z, In u ud -> (forall z, In z Z <-> (z = d \/ edge (ngraph n) z d) /\ z <> x) -> ~ dconn (ngraph n) Z x u) ->
  exists n', slimmer n n' (without (ngraph n) x d) [d] /\ eu n us <= eu n' us.
Proof.
  intros n d x us ud Hd E Nu Iu Du Nud Iud Sep. assert (W : wf_dag (ngraph n)) by apply Hd. assert (Hn : In d (nodes (ngraph n))) by (apply W in E; tauto). destruct (ignore_best n d x us ud Hd E Nu Iu Du Nud Iud Sep) as (b & Rb & Bb).
  set (g := without (ngraph n) x d). assert (Wg : wf_dag g) by (apply wf_without; auto). assert (Es : forall p, edge g p d <-> edge (ngraph n) p d /\ p <> x) by (intro p; unfold g; rewrite edge_without; split; intros [K1 K2]; (split; [auto|congruence])).
  assert (Rg : rule_seeing n d (fun p => edge g p d) b). { destruct Rb as (A1 & A2 & A3). split; [intros a a' Ka K; apply A1; auto; intros p Kp; apply K, Es; auto|]. split; auto. intros a K. apply A3. intros p Kp. apply K, Es; auto. }
  destruct (slim_ok n g d b Hd Wg eq_refl) as [Sl Kd]; auto. { intros p v N. unfold g. rewrite edge_without. split; [tauto|]. intro K. split; [auto|congruence]. }
  exists (slim n g d b). split; auto. rewrite (eu_value n us) by auto. rewrite <- (value_own n d us). eapply Qcle_trans; [apply Bb, own_policy; auto; intros e [<-|[]]; auto|]. rewrite eu_value by (auto; apply Sl).
  match goal with |- ?A <= ?B => assert (EAB : A = B); [|rewrite EAB; apply Qcle_refl] end. rewrite !value_weight. change (dom_of (doms (slim n g d b))) with (dom_of (doms n)). change (nodes (ngraph (slim n g d b))) with (nodes (ngraph n)). apply total_ext_in. intros a Wa _. f_equal. unfold weight. apply qprod_ext. intros v Hv. unfold follow. destruct (in_dec String.string_dec v []) as [[]|_].
  destruct (in_dec String.string_dec v [d]) as [[<-|[]]|K]; [symmetry; apply Kd; exact Wa|]. symmetry. eapply slimmer_kernel; eauto.
Qed.
(* a reduction of the diagram of one agent *)
Lemma reduce_links : forall m a ds us g h, agent_decisions m = [(a, ds)] -> agent_utilities m = [(a, us)] -> consistent m -> incl ds (nodes g) -> incl us (nodes g) -> reduces m g h ->
  forall n, ngraph n = g -> distribution n -> exists n', slimmer n n' h ds /\ eu n us <= eu n' us.
Proof.
  intros m a ds us g h Ea Eu C Id Iu R. destruct (solo m a ds us C Ea Eu) as (Nds & Nus & Ru & Rd & Dm & _). revert Id Iu. induction R as [g|g g' h (d & x & [a' Hd'] & E & Nr & ->) R IH]; intros Id Iu n Eg Hd.
  - exists n. split; [constructor; auto; tauto|apply Qcle_refl].
  - assert (Kd : In d ds /\ a' = a). { cbn [has_role] in Hd'. destruct Hd' as (l & K & Kl). rewrite Ea in K. destruct K as [K|[]]. injection K as <- <-. auto. } destruct Kd as [Kd ->]. subst g. assert (W : wf_dag (ngraph n)) by apply Hd.
    assert (Ndu : ~ In d us) by (intro K; apply Ru in K; destruct (proj2 (proj2 (proj2 (proj2 (proj2 C)))) d) as (r & R1 & _); apply R1 in K; apply R1 in Hd'; congruence).
    destruct (drop_link n d x us (filter (fun u => mem u (descendants (ngraph n) d)) us)) as (n1 & S1 & L1); auto.
    + apply NoDup_filter; auto.
    + intro u. rewrite filter_In, mem_In, (descendants_iff _ (proj1 W) d u (proj2 W) (Id d Kd)). tauto.
    + intros u Z K Hz Dc. apply filter_In in K. destruct K as [K1 K2]. apply mem_In in K2. rewrite (descendants_iff _ (proj1 W) d u (proj2 W) (Id d Kd)) in K2. apply Nr. exists a, u. split; [auto|]. split; [apply Ru; auto|]. split; [auto|]. exists Z. auto.
    + assert (S1' : slimmer n n1 (without (ngraph n) x d) ds). { destruct S1 as [A1 A2 A3 A4]. constructor; auto. intros v t K. apply A4. intros [<-|[]]. auto. }
      destruct (IH Id Iu n1 (sl_graph _ _ _ _ S1) (sl_dist _ _ _ _ S1)) as (n2 & S2 & L2). exists n2. split; [eapply slimmer_trans; eauto|eapply Qcle_trans; eauto].
Qed.
Lemma reduced_value : forall n n' h ds us, distribution n -> distribution n' -> ngraph n' = h -> nodes h = nodes (ngraph n) -> (forall u v, edge h u v -> edge (ngraph n) u v) -> (forall v, dom_of (doms n') v = dom_of (doms n) v) ->
  (forall v a, ~ In v ds -> kernel n' v a = kernel n v a) -> incl ds (nodes (ngraph n)) -> incl us (nodes (ngraph n)) ->
  policy n ds (kernel n') /\ value n ds (kernel n') us = eu n' us.
Proof.
  intros n n' h ds us Hd Hd' G N E D K Id Iu. split.
  - intros d Kd. assert (Hn : In d (nodes (ngraph n'))) by (rewrite G, N; auto). destruct (own_policy n' [d] Hd') with (d := d) as (P1 & P2 & P3); [intros e [<-|[]]; auto|left; auto|]. split; [|split; auto].
    + intros a a' E1 E2. apply P1; auto. intros p Kp. apply E2, E. rewrite <- G. auto.
    + intros a Ka. rewrite <- (D d). apply P3. intros p Kp. rewrite D. apply Ka, E. rewrite <- G. auto.
  - rewrite (eu_value n' us Hd') by (rewrite G, N; auto). rewrite !value_weight, G, N. symmetry. rewrite (total_dom_perm (dom_of (doms n')) (dom_of (doms n))) by (intros v _; rewrite D; apply Permutation_refl). apply total_ext. intro a. f_equal. unfold weight. apply qprod_ext. intros v Hv.
    unfold follow. transitivity (kernel n' v a); [match goal with |- (if ?c then _ else _) = _ => destruct c; auto end|]. destruct (in_dec String.string_dec v ds); auto.
Qed.
(* every policy is matched by one that sees only what is left of its observations *)
Lemma reduced_policy : forall m a ds us n h b, agent_decisions m = [(a, ds)] -> agent_utilities m = [(a, us)] -> consistent m -> distribution n -> incl ds (nodes (ngraph n)) -> incl us (nodes (ngraph n)) -> reduces m (ngraph n) h -> policy n ds b ->
  exists n', distribution n' /\ ngraph n' = h /\ (forall v, dom_of (doms n') v = dom_of (doms n) v) /\ (forall v a, ~ In v ds -> kernel n' v a = kernel n v a) /\ policy n ds (kernel n') /\ value n ds b us <= value n ds (kernel n') us /\ value n ds (kernel n') us = eu n' us.
Proof.
  intros m a ds us n h b Ea Eu C Hd Id Iu R Po. destruct (follow_net_ok n ds b Hd Id Po) as (F1 & F2 & F3). set (nb := follow_net n ds b) in *. assert (G : ngraph nb = ngraph n) by apply F2. assert (D := same_dom_of n nb (proj1 (proj2 F2))).
  assert (Ev : eu nb us = value n ds b us) by (apply follow_value; auto). destruct (reduce_links m a ds us (ngraph n) h Ea Eu C Id Iu R nb G F1) as (n' & S & L). exists n'. assert (Hd' := sl_dist _ _ _ _ S).
  destruct (reduces_wf m _ _ (proj1 Hd) R) as (Wh & Nh & Sb).
  assert (D' : forall v, dom_of (doms n') v = dom_of (doms n) v) by (intro v; rewrite (sl_doms _ _ _ _ S); apply D).
  assert (K' : forall v a, ~ In v ds -> kernel n' v a = kernel n v a). { intros v x K. rewrite (slimmer_kernel nb n' h ds v x F1 S K). symmetry. apply (kernel_differ (fun v => In v ds)); auto; [apply Hd|apply F1]. }
  destruct (reduced_value n n' h ds us Hd Hd' (sl_graph _ _ _ _ S) Nh Sb D' K' Id Iu) as [P1 P2]. split; auto. split; [apply S|]. split; auto. split; auto. split; auto. split; auto. rewrite P2, <- Ev. exact L.
Qed.
(* a variable that no utility descends from *)
Lemma barren_kernel : forall g D K K' us x, wf_dag g -> (forall v, In v (nodes g) -> NoDup (D v)) -> cond g D K -> cond g D K' -> (forall v a, v <> x -> K v a = K' v a) -> In x (nodes g) -> incl us (nodes g) -> (forall u, In u us -> ~ reach g x u) ->
  total D (nodes g) (fun a => weight K (nodes g) a * qsum (map a us)) (fun _ => 0) = total D (nodes g) (fun a => weight K' (nodes g) a * qsum (map a us)) (fun _ => 0).
Proof.
  intros g D K K' us x W DN C C' E Hx Iu Nr. set (A := filter (fun v => negb (mem v (x :: descendants g x))) (nodes g)).
  assert (IA : incl A (nodes g)) by (intros v Kv; apply filter_In in Kv; tauto). assert (NA : NoDup A) by (apply NoDup_filter; apply W).
  assert (HA : forall v, In v A <-> In v (nodes g) /\ ~ (In x (nodes g) /\ reach g x v) /\ v <> x). {
    intro v. unfold A. rewrite filter_In, negb_true_iff. split.
    - intros [K1 K2]. split; auto. assert (K3 : ~ In v (x :: descendants g x)) by (intro K4; apply mem_In in K4; congruence). split; [|intros ->; apply K3; left; auto]. intros [K4 K5]. apply K3. apply (descends_or g x v W K4) in K5. destruct K5 as [->|K5]; [left|right]; auto.
    - intros (K1 & K2 & K3). split; auto. destruct (mem v (x :: descendants g x)) eqn:M; auto. apply mem_In in M. destruct M as [->|M]; [congruence|]. exfalso. apply K2. split; auto. apply (descends_or g x v W Hx); auto. }
  assert (Cl : closed g A). { intros u v Ed Kv. apply HA in Kv. destruct Kv as (K1 & K2 & K3). assert (Hu : In u (nodes g)) by (apply W in Ed; tauto). apply HA. split; auto. split.
    - intros [K4 K5]. apply K2. split; auto. eapply reach_trans; [exact K5|]. econstructor; [exact Ed|constructor].
    - intros ->. apply K2. split; auto. econstructor; [exact Ed|constructor]. }
  assert (Ia : incl us A). { intros u Ku. apply HA. split; auto. split; [intros [_ K1]; apply (Nr u Ku K1)|]. intros ->. apply (Nr x Ku). constructor. }
  assert (On : on (fun v => In v A) (fun a => qsum (map a us))). { intros a a' Ha. apply qsum_ext. intros u Ku. apply Ha, Ia; auto. }
  rewrite (barren g D W K A (fun a => qsum (map a us))), (barren g D W K' A (fun a => qsum (map a us))) by auto. apply total_ext. intro a. f_equal. unfold weight. apply qprod_ext. intros v Kv. apply E. apply HA in Kv. tauto.
Qed.
Lemma reduces_other : forall m g h, reduces m g h -> forall u v, ~ is_decision m v -> (edge h u v <-> edge g u v).
Proof.
  intros m g h R. induction R as [g|g g' h (d & x & Hd & _ & _ & ->) R IH]; intros u v N; [tauto|]. rewrite IH by auto. rewrite edge_without. split; [tauto|]. intro E. split; auto. intro K. injection K as _ ->. contradiction.
Qed.
