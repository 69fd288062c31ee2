(* Lemmas about the search for optimal policies. *)
From Coq Require Import String List Bool Arith QArith Qcanon Lia Permutation Setoid.
Import ListNotations.
From Verif Require Import MBase MGraph MMacid MCpd MNet MProb MQuery MPolicy Spec SpecM SpecC SpecN SpecQ SpecPol LBase LGraph LCopy LQc LCpd LNet LSum LBayes LSep LQuery LDo LInter LFactor LEdit LBuilt LTotal LCheckN LEffects LPolicy LValue LQcArith PQuery.
Local Open Scope Qc_scope.

(* ---- giving a variable another table for the same domain ---- *)
Lemma dist_lookup : forall n v, distribution n -> In v (nodes (ngraph n)) -> lookup v (doms n) = Some (dom_of (doms n) v) /\ dom_of (doms n) v <> [].
Proof.
  intros n v Hd Hv. split; [|apply (dist_inhabited n Hd v Hv)]. destruct Hd as (W & S & E & F). destruct (F v Hv) as (t & _ & H & _). unfold has_domain in H. unfold dom_of. rewrite H. auto.
Qed.
Lemma set_rel_scope : forall n v t n', set_rel n v (RTab t) = (n', None) -> In (tvar t) (nodes (ngraph n)).
Proof.
  intros n v t n' H. unfold set_rel in H. rewrite set_item_S in H. cbv zeta in H. unfold to_tabular, table_from in H. destruct (in_scope (ngraph (begin n v (RTab t))) t) eqn:Sc; [|discriminate].
  apply in_scope_iff in Sc. rewrite begin_graph in Sc. tauto.
Qed.
Lemma set_same : forall n v t, built n -> distribution n -> In v (nodes (ngraph n)) -> table_ok n v t ->
  exists n', set_rel n v (RTab t) = (n', None) /\ built n' /\ distribution n' /\ ngraph n' = ngraph n /\ (forall u, lookup u (doms n') = lookup u (doms n)) /\
    (forall u, cpd_of n' u = if String.eqb u v then Some t else cpd_of n u) /\ (forall u, lookup u (rels n') = if String.eqb u v then Some (RTab t) else lookup u (rels n)).
Proof.
  intros n v t B Hd Hv T. destruct (built_sound n B) as [S Py]. assert (I := s_inv n S). destruct (dist_lookup n v Hd Hv) as [Lv Ne]. assert (W : wf_dag (ngraph n)) by apply Hd.
  set (n1 := begin n v (RTab t)). assert (Pr : proper v (RTab t)) by (apply (ok_var n v t T)). assert (I1 : inv n1) by (apply begin_inv; auto).
  assert (G1 : ngraph n1 = ngraph n) by apply begin_graph.
  assert (E : set_rel n v (RTab t) = (place n1 v t, None)).
  { unfold set_rel. rewrite set_item_S. cbv zeta. fold n1. unfold to_tabular, table_from. replace (in_scope (ngraph n1) t) with true.
    - cbn [negb]. replace (same_domain (lookup v (doms n1)) (tdom t)) with true; auto. symmetry. apply same_domain_iff. unfold n1. rewrite begin_doms. rewrite <- (ok_dom n v t T). auto.
    - symmetry. apply in_scope_iff. rewrite G1, (ok_var n v t T). split; auto. intros u Hu. apply (ok_ev n v t T) in Hu. apply (proj1 W) in Hu. tauto. }
  assert (Gr : ngraph (place n1 v t) = ngraph n) by (cbn [place ngraph]; auto).
  assert (Do : forall u, lookup u (doms (place n1 v t)) = lookup u (doms n)).
  { intro u. rewrite place_dom. unfold n1. rewrite begin_doms. destruct (String.eqb_spec u v) as [->|]; auto. rewrite Lv, (ok_dom n v t T). auto. }
  assert (Cp : forall u, cpd_of (place n1 v t) u = if String.eqb u v then Some t else cpd_of n u).
  { intro u. rewrite place_cpd by apply (ok_var n v t T). destruct (String.eqb u v) eqn:Eu; auto. unfold n1. rewrite begin_cpd by auto. rewrite Eu. auto. }
  assert (B' : built (place n1 v t)). { apply (built_step n (OAdd v (RTab t))); auto. intros v' r' X. injection X as <- <-. split; [apply (ok_var n v t T)|exact Logic.I]. }
  exists (place n1 v t). split; auto. split; auto. split.
  - assert (I' := s_inv _ (proj1 (built_sound _ B'))). assert (S' : single_tables (place n1 v t)) by (apply nodup_tables; apply I').
    assert (Dm : forall u, dom_of (doms (place n1 v t)) u = dom_of (doms n) u) by (intro u; unfold dom_of; rewrite Do; auto).
    split; [rewrite Gr; auto|]. split; auto. split.
    + intros u s Hs. apply single_cpd in Hs; auto. rewrite Cp in Hs. destruct (String.eqb u v); [injection Hs as <-; apply (ok_exact n v t T)|]. destruct Hd as (_ & Sg & Ex & _). apply (Ex u). apply single_cpd; auto.
    + intros u Hu. rewrite Gr in Hu. destruct (String.eqb_spec u v) as [->|Nu].
      * exists t. split; [apply single_cpd; auto; rewrite Cp, String.eqb_refl; auto|]. split; [unfold has_domain; rewrite Do, Lv, (ok_dom n v t T); auto|]. rewrite Gr. split; [apply (ok_ev n v t T)|].
        rewrite (ok_cards n v t T). apply map_ext. intro p. rewrite Dm. auto.
      * destruct Hd as (_ & Sg & _ & F). destruct (F u Hu) as (s & H1 & H2 & H3 & H4). exists s. split; [apply single_cpd; auto; rewrite Cp; destruct (String.eqb_spec u v); [congruence|]; apply single_cpd; auto|].
        split; [unfold has_domain in *; rewrite Do; auto|]. rewrite Gr. split; auto. rewrite H4. apply map_ext. intro p. rewrite Dm. auto.
  - split; auto. split; auto. split; auto. intro u. cbn [place rels]. unfold n1. apply begin_rels.
Qed.
Lemma variant_set : forall n ds n' v t, variant n ds n' -> In v ds -> In v (nodes (ngraph n')) -> table_ok n' v t ->
  exists n1, set_rel n' v (RTab t) = (n1, None) /\ variant n ds n1 /\ ngraph n1 = ngraph n' /\ forall u, cpd_of n1 u = if String.eqb u v then Some t else cpd_of n' u.
Proof.
  intros n ds n' v t V Hv Hn T. destruct (set_same n' v t (v_built _ _ _ V) (v_dist _ _ _ V) Hn T) as (n1 & E & B & Hd & G & D & C & _). exists n1. split; auto. split; [|auto].
  destruct V as [V1 V2 V3 V4 V5 V6 V7]. constructor; auto; try (rewrite G; auto).
  - intro u. rewrite D. auto.
  - intros u Hu Nu. rewrite C. destruct (String.eqb_spec u v) as [->|]; [contradiction|]. auto.
Qed.
(* a query without an intervention *)
Lemma query_variant : forall o n ds n' qs c n2 f, variant n ds n' -> query_connected o n' qs c = (n2, Ok f) -> built n2 -> variant n ds n2 /\ incl qs (nodes (ngraph n2)) /\ (forall v, In v (nodes (ngraph n')) -> near n' qs v -> In v (nodes (ngraph n2))) /\
  (forall v, In v (nodes (ngraph n2)) -> cpd_of n2 v = cpd_of n' v).
Proof.
  intros o n ds n' qs c n2 f V H B2. assert (Hd := v_dist _ _ _ V). assert (W : wf_dag (ngraph n')) by apply Hd. unfold query_connected in H. destruct (map_r (component (ngraph n')) qs) as [cs|e] eqn:Ec; [|discriminate].
  destruct (components_spec _ _ _ W Ec) as [Iq Cq]. set (far := filter (fun v => negb (mem v (concat cs))) (nodes (ngraph n'))) in *.
  destruct (loop_net remove_node n' far) as [n3 [e|]] eqn:El; [discriminate|].
  destruct (is_connected (ngraph n3)) as [[|]|e]; [|discriminate|discriminate]. injection H as <- _.
  assert (Kf : forall v, In v far <-> In v (nodes (ngraph n')) /\ ~ In v (concat cs)) by (intro v; unfold far; rewrite filter_In, negb_true_iff, mem_nIn; tauto).
  assert (Nf : NoDup far) by (apply NoDup_filter; apply W).
  destruct (remove_nodes_spec _ _ _ W El) as (W3 & N3 & E3 & D3 & C3).
  assert (Lk : forall u v, edge (ngraph n') u v -> (In u far <-> In v far)).
  { intros u v E. rewrite !Kf, !Cq. assert (Z : In u (nodes (ngraph n')) /\ In v (nodes (ngraph n'))) by (apply W; auto). destruct Z as [Z1 Z2].
    split; intros [_ X]; (split; [auto|]); intros (_ & q & Hq & L); apply X; (split; [auto|]); exists q; (split; [auto|]); eapply linked_edge; eauto. }
  assert (Nk : forall v, In v (nodes (ngraph n3)) <-> In v (nodes (ngraph n')) /\ ~ In v far) by (intro v; rewrite N3, filter_In, negb_true_iff, mem_nIn; tauto).
  assert (Ck : forall v, In v (nodes (ngraph n3)) -> cpd_of n3 v = cpd_of n' v) by (intros v Hv; apply C3; apply Nk in Hv; tauto).
  assert (Lj : forall u v, linked (ngraph n') u v <-> joined (ngraph n') [] u v) by (apply linked_joined; simpl; tauto).
  split; [|split; [|split; [|auto]]].
  - assert (S3 := proj1 (built_sound _ B2)). assert (Sg : single_tables n3) by (apply nodup_tables; apply S3). assert (Kt := kept_table n' n3 far Hd Nf El Lk).
    destruct V as [V1 V2 V3 V4 V5 V6 V7]. constructor; auto.
    + split; auto. split; auto. split.
      * intros v t Ht. apply single_cpd in Ht; auto. assert (Hv : In v (nodes (ngraph n3))) by apply (inv_rel n3 (s_inv _ S3) v t Ht). destruct (Kt v Hv) as (t' & Ct & T). rewrite Ct in Ht. injection Ht as <-. apply (ok_exact _ _ _ T).
      * intros v Hv. destruct (Kt v Hv) as (t & Ct & T). exists t. split; [apply single_cpd; auto|]. split; [|split; [apply (ok_ev _ _ _ T)|apply (ok_cards _ _ _ T)]].
        unfold has_domain. assert (X := ok_dom _ _ _ T). assert (Y := inv_dom n3 (s_inv _ S3) v t Ct). auto.
    + intros v Hv. apply V3. apply Nk in Hv. tauto.
    + intros u v E. rewrite !Nk. assert (Ev := V4 u v E). split; intros [X1 X2]; split; try (apply Ev; auto; fail).
      * rewrite <- (Lk u v); auto. apply V5. split; auto.
      * rewrite (Lk u v); auto. apply V5. split; auto. apply Ev; auto.
    + intros u v. rewrite E3, V5, Nk. split; [tauto|]. intros (X1 & X2 & X3). split; auto. split; auto. intro K. apply X3. apply (Lk u v); auto. apply V5; auto.
    + intro v. rewrite D3. auto.
    + intros v Hv Nv. rewrite (Ck v Hv). apply V7; auto. apply Nk in Hv. tauto.
  - intros q Hq. apply Nk. split; auto. intro K. apply Kf in K. apply (proj2 K). apply Cq. split; auto. exists q. split; auto. constructor.
  - intros v Hv (q & Hq & J). apply Nk. split; auto. intro K. apply Kf in K. apply (proj2 K). apply Cq. split; auto. exists q. split; auto. apply Lj; auto.
Qed.

(* ---- deterministic rules as tables ---- *)
Lemma det_entry : forall n d dom h a, lookup d (doms n) = Some dom -> ready (doms n) (parents (ngraph n) d) -> (forall p, In p (parents (ngraph n) d) -> In (a p) (dom_of (doms n) p)) -> In (a d) dom ->
  entry (doms n) (det_tab n d dom h) a = if Qc_eq_dec (a d) (h (ctx a (parents (ngraph n) d))) then 1 else 0.
Proof.
  intros n d dom h a L R Hp Hd. assert (C := ctx_context (doms n) a (parents (ngraph n) d) R Hp). unfold entry, det_tab. cbn [tvar tdom tev tcols].
  rewrite name_pos, states_dom, column_context. change (map (fun p => (p, a p)) (parents (ngraph n) d)) with (ctx a (parents (ngraph n) d)).
  destruct (context_at (doms n) (parents (ngraph n) d) _ C) as [I1 I2].
  assert (E : nth_error (map (fun pv => point dom (h pv)) (contexts (doms n) (parents (ngraph n) d))) (context_index (doms n) (ctx a (parents (ngraph n) d))) = Some (point dom (h (ctx a (parents (ngraph n) d))))) by exact (map_nth_error _ _ _ I2).
  rewrite (nth_error_nth _ _ [] E). unfold dom_of. rewrite L. unfold point. assert (P := pos_nth _ _ Hd).
  rewrite (nth_error_nth _ _ 0 (map_nth_error (fun y => if oeqb y (h (ctx a (parents (ngraph n) d))) then 1 else 0) _ _ P)).
  destruct (oeqb_spec (a d) (h (ctx a (parents (ngraph n) d)))); destruct (Qc_eq_dec (a d) (h (ctx a (parents (ngraph n) d)))); congruence.
Qed.
Lemma det_exact : forall n d dom h, NoDup dom -> NoDup (parents (ngraph n) d) -> ready (doms n) (parents (ngraph n) d) ->
  (forall pv, context_of (doms n) (parents (ngraph n) d) pv -> In (h pv) dom) -> exact_table (det_tab n d dom h).
Proof.
  intros n d dom h N Np R H. unfold exact_table, det_tab. cbn [tvar tdom tev tcards tcols]. split; auto. split; auto. split; [apply map_length|]. split.
  - rewrite map_length, contexts_len. symmetry. apply prod_cards.
  - intros col Hc. apply in_map_iff in Hc. destruct Hc as (pv & <- & Hp). apply in_contexts' in Hp; auto. split; [apply map_length|]. split.
    + intros x Hx. apply (point_column dom (h pv) N (H pv Hp)). auto.
    + apply point_sum; auto.
Qed.
Lemma det_ok : forall n ds n' d dom h, distribution n -> variant n ds n' -> In d (nodes (ngraph n')) -> lookup d (doms n) = Some dom ->
  (forall pv, context_of (doms n) (parents (ngraph n) d) pv -> In (h pv) dom) -> table_ok n' d (det_tab n d dom h).
Proof.
  intros n ds n' d dom h Hd V Hn L H. assert (W : wf_dag (ngraph n)) by apply Hd. assert (R : ready (doms n) (parents (ngraph n) d)).
  { intros p Hp. apply in_parents in Hp. apply (proj1 W) in Hp. destruct (dist_lookup n p Hd (proj1 Hp)) as [X _]. congruence. }
  assert (Hd0 : In d (nodes (ngraph n))) by (apply (v_nodes _ _ _ V); auto).
  assert (N : NoDup dom). { assert (X := dom_nodup n d Hd Hd0). unfold dom_of in X. rewrite L in X. auto. }
  constructor; auto.
  - apply det_exact; auto. apply nodup_parents, W.
  - rewrite (variant_dom _ _ _ d V). unfold dom_of. rewrite L. auto.
  - intro p. cbn [det_tab tev]. rewrite in_parents, (v_edges _ _ _ V). split; [|tauto]. intro E. split; auto. apply (v_closed _ _ _ V p d E). auto.
  - cbn [det_tab tev tcards]. apply map_ext. intro p. rewrite (variant_dom _ _ _ p V). auto.
Qed.
(* a table that plays a choice function of d *)
Definition rule (n : net) (d : node) (t : tab) : Prop := exists h, choice_function n d h /\ plays n d h t.
Lemma dist_ready : forall n d, distribution n -> ready (doms n) (parents (ngraph n) d).
Proof. intros n d Hd p Hp. apply in_parents in Hp. apply (proj1 (proj1 Hd)) in Hp. destruct (dist_lookup n p Hd (proj1 Hp)) as [X _]. congruence. Qed.
Lemma dist_parents_nodup : forall n d p, distribution n -> In p (parents (ngraph n) d) -> NoDup (dom_of (doms n) p).
Proof. intros n d p Hd Hp. apply in_parents in Hp. apply (proj1 (proj1 Hd)) in Hp. apply dom_nodup; tauto. Qed.
Lemma rule_det : forall n d t, distribution n -> In d (nodes (ngraph n)) -> (rule n d t <-> exists h, choice_function n d h /\ t = det_tab n d (dom_of (doms n) d) h).
Proof.
  intros n d t Hd Hn. destruct (dist_lookup n d Hd Hn) as [L _]. assert (X : forall h, plays n d h t <-> t = det_tab n d (dom_of (doms n) d) h).
  { intro h. apply plays_iff; auto; [apply dist_ready; auto|]. intros p Hp. apply (dist_parents_nodup n d p Hd Hp). }
  unfold rule. split; intros (h & H1 & H2); exists h; (split; [auto|]); apply X; auto.
Qed.
Lemma rule_ok : forall n ds n' d t, distribution n -> variant n ds n' -> In d (nodes (ngraph n')) -> rule n d t -> table_ok n' d t.
Proof.
  intros n ds n' d t Hd V Hn H. apply rule_det in H; auto; [|apply (v_nodes _ _ _ V); auto]. destruct H as (h & H1 & ->). destruct (dist_lookup n d Hd (v_nodes _ _ _ V d Hn)) as [L _]. eapply det_ok; eauto.
Qed.
Lemma rule_var : forall n d t, rule n d t -> tvar t = d.
Proof. intros n d t (h & _ & (V & _)). auto. Qed.

(* ---- imputing a policy ---- *)
Lemma add_policy_cons : forall n t p, add_policy n (t :: p) = match set_rel n (tvar t) (RTab t) with (n', None) => add_policy n' p | (n', Some e) => (n', Some e) end.
Proof. reflexivity. Qed.
Lemma add_policy_variant : forall n ds0 ds p n' n1, distribution n -> variant n ds0 n' -> incl ds ds0 -> NoDup ds -> Forall2 (rule n) ds p -> add_policy n' p = (n1, None) ->
  variant n ds0 n1 /\ ngraph n1 = ngraph n' /\ incl ds (nodes (ngraph n')) /\ (forall t, In t p -> cpd_of n1 (tvar t) = Some t) /\ (forall u, ~ In u ds -> cpd_of n1 u = cpd_of n' u).
Proof.
  intros n ds0 ds p n' n1 Hd V I N F. revert n' n1 V I N. induction F as [|d t ds p R F IH]; intros n' n1 V I N H.
  - injection H as <-. split; auto. split; auto. split; [intros ? []|]. split; [intros ? []|auto].
  - rewrite add_policy_cons in H. assert (Tv := rule_var _ _ _ R). destruct (set_rel n' (tvar t) (RTab t)) as [n2 [e|]] eqn:E; [discriminate|]. assert (Sc := set_rel_scope _ _ _ _ E). rewrite Tv in *.
    destruct (variant_set n ds0 n' d t V (I d (or_introl eq_refl)) Sc (rule_ok _ _ _ _ _ Hd V Sc R)) as (n3 & E3 & V3 & G3 & C3). rewrite E in E3. injection E3 as <-.
    inversion N as [|? ? N1 N2]; subst. destruct (IH n2 n1 V3) as (V1 & G1 & I1 & C1 & U1); auto; [intros u Hu; apply I; right; auto|].
    split; auto. split; [congruence|]. split; [intros u [<-|Hu]; auto; rewrite <- G3; auto|]. split.
    + intros s [<-|Hs]; auto. rewrite U1 by auto. rewrite C3, String.eqb_refl. auto.
    + intros u Hu. rewrite U1 by (intro; apply Hu; right; auto). rewrite C3. destruct (String.eqb_spec u (tvar t)) as [->|]; auto. exfalso. apply Hu. left; auto.
Qed.
Lemma add_policy_total : forall n ds0 ds p n', distribution n -> variant n ds0 n' -> incl ds ds0 -> Forall2 (rule n) ds p -> incl ds (nodes (ngraph n')) -> exists n1, add_policy n' p = (n1, None).
Proof.
  intros n ds0 ds p n' Hd V I F. revert n' V I. induction F as [|d t ds p R F IH]; intros n' V I In'; [exists n'; reflexivity|].
  rewrite add_policy_cons. rewrite (rule_var _ _ _ R). assert (Sc : In d (nodes (ngraph n'))) by (apply In'; left; auto).
  destruct (variant_set n ds0 n' d t V (I d (or_introl eq_refl)) Sc (rule_ok _ _ _ _ _ Hd V Sc R)) as (n3 & E3 & V3 & G3 & C3). rewrite E3. apply IH; auto; [intros u Hu; apply I; right; auto|].
  rewrite G3. intros u Hu. apply In'. right; auto.
Qed.

(* ---- choices and tables ---- *)
Lemma pure_policy : forall n ds H, distribution n -> incl ds (nodes (ngraph n)) -> choice n ds H -> policy n ds (pure H).
Proof.
  intros n ds H Hd I C d Hi. destruct (C d Hi) as [C1 C2]. split; [|split].
  - intros a a' E1 E2. unfold pure. rewrite E1, (C1 a a' E2). auto.
  - intro a. unfold pure. destruct (Qc_eq_dec (a d) (H d a)); apply qleb_iff; vm_compute; reflexivity.
  - intros a Ha. assert (E : forall x, H d (upd a d x) = H d a).
    { intro x. apply C1. intros p Hp. unfold upd. destruct (String.eqb_spec p d) as [->|]; auto. exfalso. apply (no_self_edge (ngraph n) d (proj2 (proj1 Hd)) Hp). }
    change (fold_right Qcplus 0) with qsum. rewrite (qsum_single _ Qc_eq_dec _ _ (H d a)).
    + unfold pure. rewrite E. unfold upd. rewrite String.eqb_refl. destruct (Qc_eq_dec (H d a) (H d a)); congruence.
    + apply dom_nodup; auto.
    + apply C2; auto.
    + intros y _ Ny. unfold pure. rewrite E. unfold upd. rewrite String.eqb_refl. destruct (Qc_eq_dec y (H d a)); congruence.
Qed.
Lemma ctx_lookup : forall a ps p, In p ps -> lookup p (ctx a ps) = Some (a p).
Proof.
  intros a ps. induction ps as [|q ps IH]; intros p Hp; [destruct Hp|]. cbn [ctx map lookup]. destruct (String.eqb_spec p q) as [->|Nq]; auto. destruct Hp as [->|Hp]; [congruence|]. apply IH; auto.
Qed.
Lemma rule_acts : forall n d t h a, distribution n -> In d (nodes (ngraph n)) -> within n a -> t = det_tab n d (dom_of (doms n) d) h -> entry (doms n) t a = if Qc_eq_dec (a d) (h (ctx a (parents (ngraph n) d))) then 1 else 0.
Proof.
  intros n d t h a Hd Hn Wa ->. destruct (dist_lookup n d Hd Hn) as [L _]. apply det_entry; auto; [apply dist_ready; auto|]. intros p Hp. apply Wa. apply in_parents in Hp. apply (proj1 (proj1 Hd)) in Hp. tauto.
Qed.
Lemma rules_choice : forall n ds p, distribution n -> NoDup ds -> incl ds (nodes (ngraph n)) -> Forall2 (rule n) ds p -> exists H, choice n ds H /\ acts n ds p (pure H).
Proof.
  intros n ds p Hd N I F. induction F as [|d t ds p R F IH].
  - exists (fun _ _ => 0). split; [intros d []|]. split; [reflexivity|intros t a []].
  - inversion N as [|? ? N1 N2]; subst. destruct IH as (H & C & A1 & A2); auto; [intros u Hu; apply I; right; auto|]. assert (Hn : In d (nodes (ngraph n))) by (apply I; left; auto).
    apply rule_det in R; auto. destruct R as (h & Hh & Et). exists (fun u a => if String.eqb u d then h (ctx a (parents (ngraph n) d)) else H u a). split.
    + intros u [<-|Hu].
      * rewrite String.eqb_refl. split.
        -- intros a a' E. f_equal. unfold ctx. apply map_ext_in. intros p' Hp'. rewrite E; auto. apply in_parents; auto.
        -- intros a Ha. apply Hh. apply ctx_context; [apply dist_ready; auto|]. intros p' Hp'. apply Ha, in_parents; auto.
      * destruct (String.eqb_spec u d) as [->|]; [contradiction|]. apply C; auto.
    + split; [cbn [map]; rewrite A1; subst t; reflexivity|]. intros s a [<-|Hs] Wa.
      * assert (Tv : tvar t = d) by (subst t; reflexivity). rewrite Tv. unfold pure. rewrite String.eqb_refl. apply (rule_acts n d t h a); auto.
      * rewrite (A2 s a Hs Wa). unfold pure. destruct (String.eqb_spec (tvar s) d) as [E|]; auto. exfalso. apply N1. rewrite <- E, <- A1. apply in_map; auto.
Qed.
Lemma choice_rules : forall n ds H, distribution n -> incl ds (nodes (ngraph n)) -> choice n ds H -> exists p, Forall2 (rule n) ds p /\ acts n ds p (pure H).
Proof.
  intros n ds H Hd. induction ds as [|d ds IH]; intros I C.
  - exists []. split; [constructor|]. split; [reflexivity|intros t a []].
  - destruct IH as (p & F & A1 & A2); [intros u Hu; apply I; right; auto|intros u Hu; apply C; right; auto|]. assert (Hn : In d (nodes (ngraph n))) by (apply I; left; auto).
    destruct (C d (or_introl eq_refl)) as [C1 C2]. set (h := fun pv : list (node * outcome) => H d (fun v => match lookup v pv with Some x => x | None => 0 end)).
    exists (det_tab n d (dom_of (doms n) d) h :: p). split.
    + constructor; auto. apply rule_det; auto. exists h. split; auto. intros pv Hp. unfold h. apply C2. intros q Hq.
      destruct (context_is_ctx (doms n) (parents (ngraph n) d) pv) as (a & -> & Ha); auto; [apply nodup_parents, Hd|]. apply in_parents in Hq. rewrite ctx_lookup by auto. auto.
    + split; [cbn [map]; rewrite A1; reflexivity|]. intros s a [<-|Hs] Wa; auto. cbn [det_tab tvar]. fold (det_tab n d (dom_of (doms n) d) h). rewrite (rule_acts n d _ h a); auto. unfold pure.
      assert (E : h (ctx a (parents (ngraph n) d)) = H d a). { unfold h. apply C1. intros q Hq. rewrite ctx_lookup by (apply in_parents; auto). auto. }
      rewrite E. auto.
Qed.
(* what the tables p do *)
Definition played (n : net) (p : list tab) : behaviour := fun d a => match find_tab d p with Some t => entry (doms n) t a | None => 0 end.
Lemma acts_played : forall n ds p b, NoDup ds -> acts n ds p b -> forall d a, In d ds -> within n a -> played n p d a = b d a.
Proof.
  intros n ds p b N [A1 A2] d a Hd Wa. unfold played. rewrite <- A1 in Hd. apply in_map_iff in Hd. destruct Hd as (t & Ev & Ht). rewrite <- A1 in N. rewrite (in_find_tab d p t N Ht Ev). rewrite (A2 t a Ht Wa), Ev. auto.
Qed.
Lemma acts_value : forall n ds p b us, NoDup ds -> acts n ds p b -> value n ds (played n p) us = value n ds b us.
Proof. intros n ds p b us N A. apply value_ext. intros d a Hd Wa. eapply acts_played; eauto. Qed.

(* ---- one round of the search ---- *)
Lemma query_nil : forall o roles n qs, query o roles n qs [] [] = query_connected o n qs [].
Proof. reflexivity. Qed.
Lemma utility_round : forall o m a us n ds p n' n1 n2 eu, valid_order o -> distribution n -> variant n ds n' -> NoDup ds -> incl ds (nodes (ngraph n)) -> Forall2 (rule n) ds p ->
  lookup a (agent_utilities m) = Some us -> NoDup us -> add_policy n' p = (n1, None) -> expected_utility o m n1 [] [] a = (n2, Ok eu) ->
  variant n ds n2 /\ eu = value n ds (played n p) us /\ (forall v, In v (nodes (ngraph n')) -> near n' us v -> In v (nodes (ngraph n2))).
Proof.
  intros o m a us n ds p n' n1 n2 eu O Hd V N I F L Nu Ha He. destruct (add_policy_variant n ds ds p n' n1 Hd V (incl_refl _) N F Ha) as (V1 & G1 & I1 & C1 & U1).
  destruct (rules_choice n ds p Hd N I F) as (H & Ch & Ac).
  assert (Z : do_prob n1 [] [] <> 0). { rewrite do_prob_nil; [discriminate|apply (v_dist _ _ _ V1)|constructor|intros ? []|intros ? ? []]. }
  assert (Eu := C41_expected_utility o m n1 [] [] a us n2 eu O (v_built _ _ _ V1) (v_dist _ _ _ V1) (NoDup_nil _) (NoDup_nil _) (fun v x (K : In (v, x) []) => match K with end) (fun v u t (K : In v (keys [])) _ _ => match K with end) Z L Nu He).
  unfold expected_utility, dict_get in He. rewrite L in He. unfold macid_expected_value in He. destruct (macid_query o m n1 us [] []) as [n3 [f|e]] eqn:Q; [|discriminate]. cbn [bind] in He.
  destruct (expectations f) as [l|e]; [|discriminate]. cbn [bind] in He. injection He as <- _. destruct (macid_query_inv _ _ _ _ _ _ _ _ Q) as (_ & _ & _ & Q'). 
  assert (B3 : built n3) by (eapply built_query; [apply (v_built _ _ _ V1)|apply (v_dist _ _ _ V1)|exact Q']). rewrite query_nil in Q'.
  destruct (query_variant _ _ _ _ _ _ _ _ V1 Q' B3) as (V3 & Iu & Ne & Ck). split; auto. split.
  - rewrite Eu. change (fold_right Qcplus 0) with qsum. rewrite (acts_value n ds p (pure H) us N Ac). apply variant_value; auto.
    + apply pure_policy; auto.
    + intros u Hu. apply Iu in Hu. destruct (query_connected_far _ _ _ _ _ _ (proj1 (v_dist _ _ _ V1)) Q') as (_ & X & _). apply X; auto.
    + intros d b Hdd Hn Wb. unfold kernel. destruct Ac as [A1 A2]. rewrite <- A1 in Hdd. apply in_map_iff in Hdd. destruct Hdd as (t & <- & Ht). rewrite (C1 t Ht), (entry_doms (doms n1) (doms n)); auto.
      intro w. apply (variant_dom _ _ _ w V1).
  - intros v Hv Nr. apply Ne; [rewrite G1; auto|]. destruct Nr as (q & Hq & J). exists q. rewrite G1. auto.
Qed.

(* ---- the search as a scan of the values ---- *)
Fixpoint scan (V : list tab -> Qc) (tol : Qc) (best : option Qc) (acc l : list (list tab)) : list (list tab) :=
  match l with
  | [] => acc
  | p :: l' =>
    match best with
    | Some b => if isclose tol (V p) b then scan V tol best (acc ++ [p]) l' else if negb (qleb (V p) b) then scan V tol (Some (V p)) [p] l' else scan V tol best acc l'
    | None => scan V tol (Some (V p)) [p] l'
    end
  end.
Lemma search_scan : forall o m a us tol n ds l n' best acc r, valid_order o -> distribution n -> variant n ds n' -> NoDup ds -> incl ds (nodes (ngraph n)) ->
  (forall p, In p l -> Forall2 (rule n) ds p) -> NoDup us -> lookup a (agent_utilities m) = Some us ->
  search o m a tol n' best acc l = Ok r -> r = scan (fun p => value n ds (played n p) us) tol best acc l /\ (l <> [] -> 0 <= tol).
Proof.
  intros o m a us tol n ds l. induction l as [|p l IH]; intros n' best acc r O Hd V N I F Nu L H; cbn [search scan] in *; [injection H as <-; split; auto; congruence|].
  destruct (add_policy n' p) as [n1 [e|]] eqn:Ea; [discriminate|]. destruct (expected_utility o m n1 [] [] a) as [n2 [eu|e]] eqn:Ee; [|discriminate]. cbn [bind] in H.
  destruct (qleb 0 tol) eqn:Et; [|discriminate]. cbn [negb] in H. apply qleb_iff in Et.
  destruct (utility_round o m a us n ds p n' n1 n2 eu O Hd V N I (F p (or_introl eq_refl)) L Nu Ea Ee) as (V2 & -> & _).
  assert (IH' : forall best acc r, search o m a tol n2 best acc l = Ok r -> r = scan (fun p => value n ds (played n p) us) tol best acc l).
  { intros best' acc' r' X. apply (IH n2 best' acc' r' O Hd V2 N I); auto. intros q Hq. apply F. right; auto. }
  split; [|auto]. destruct best as [b|]; [|auto]. destruct (isclose tol (value n ds (played n p) us) b); [auto|]. destruct (negb (qleb (value n ds (played n p) us) b)); auto.
Qed.

(* ---- closeness ---- *)
Lemma qabs_cases : forall x, 0 <= x /\ qabs x = x \/ x < 0 /\ qabs x = - x.
Proof. intro x. unfold qabs. destruct (qleb 0 x) eqn:E; [left|right]; split; auto; [apply qleb_iff; auto|apply qleb_false; auto]. Qed.
Lemma isclose_iff : forall tol a b, isclose tol a b = true <-> a = b \/ qabs (a - b) <= tol * qabs a \/ qabs (a - b) <= tol * qabs b.
Proof. intros. unfold isclose. rewrite !orb_true_iff, oeqb_iff, !qleb_iff. tauto. Qed.
Lemma isclose_false : forall tol a b, isclose tol a b = false <-> a <> b /\ tol * qabs a < qabs (a - b) /\ tol * qabs b < qabs (a - b).
Proof.
  intros. unfold isclose. rewrite !orb_false_iff, !qleb_false. assert (X : oeqb a b = false <-> a <> b). { destruct (oeqb_spec a b); split; congruence. } tauto.
Qed.
Lemma close_refl : forall tol a, isclose tol a a = true.
Proof. intros. apply isclose_iff. auto. Qed.
Lemma close_zero : forall a b, isclose 0 a b = true <-> a = b.
Proof.
  intros a b. rewrite isclose_iff. split; [|auto]. intros [H|[H|H]]; auto; destruct (qabs_cases (a - b)) as [[X Y]|[X Y]]; rewrite Y in H; clear Y.
  - qclra.
  - qclra.
  - qclra.
  - qclra.
Qed.
Lemma close_step : forall tol v b e, 0 <= tol -> b < e -> isclose tol e b = false -> v <= b \/ isclose tol v b = true -> v <= e \/ isclose tol v e = true.
Proof.
  intros tol v b e Ht Hb Hn H. destruct (Qclt_le_dec e v) as [Lt|Le]; auto. right. apply isclose_false in Hn. destruct Hn as (_ & N1 & N2). destruct H as [H|H]; [exfalso; qclra|].
  apply isclose_iff in H. apply isclose_iff. right. left.
  destruct (qabs_cases (v - e)) as [[A1 A2]|[A1 A2]]; [|exfalso; qclra]. destruct (qabs_cases (v - b)) as [[B1 B2]|[B1 B2]]; [|exfalso; qclra]. destruct (qabs_cases (e - b)) as [[C1 C2]|[C1 C2]]; [|exfalso; qclra].
  rewrite A2. rewrite B2 in H. rewrite C2 in N1, N2. destruct H as [H|[H|H]]; [exfalso; qclra|qclra|exfalso; qclra].
Qed.
Lemma close_between : forall tol v b e, 0 <= tol -> tol <= 1 -> b < e -> e <= v -> isclose tol v b = true -> isclose tol e b = true.
Proof.
  intros tol v b e Ht H1 Hb He H. apply isclose_iff in H. apply isclose_iff. right.
  destruct (qabs_cases (v - b)) as [[B1 B2]|[B1 B2]]; [|exfalso; qclra]. destruct (qabs_cases (e - b)) as [[C1 C2]|[C1 C2]]; [|exfalso; qclra].
  rewrite C2. rewrite B2 in H. destruct H as [H|[H|H]]; [exfalso; qclra| |right; qclra].
  destruct (qabs_cases v) as [[D1 D2]|[D1 D2]]; rewrite D2 in H; destruct (qabs_cases b) as [[E1 E2]|[E1 E2]]; rewrite E2; destruct (qabs_cases e) as [[F1 F2]|[F1 F2]]; rewrite F2; clear A2 B2 C2 D2 E2 F2 || clear B2 C2 D2 E2 F2.
  - left. qcnra.
  - exfalso. qclra.
  - left. qcnra.
  - exfalso. qcnra.
  - exfalso. qclra.
  - exfalso. qclra.
  - exfalso. qclra.
  - right. qcnra.
Qed.
(* ---- what the scan returns ---- *)
Lemma scan_spec : forall V tol l best acc done, 0 <= tol -> NoDup (done ++ l) ->
  (best = None -> done = [] /\ acc = []) ->
  (forall b, best = Some b -> (exists p, In p acc /\ V p = b) /\ (forall p, In p acc -> isclose tol (V p) b = true) /\ (forall p, In p done -> V p <= b \/ isclose tol (V p) b = true) /\
     (tol <= 1 -> forall p, In p done -> (forall q, In q (done ++ l) -> V q <= V p) -> In p acc)) ->
  incl acc done -> NoDup acc ->
  let r := scan V tol best acc l in
  NoDup r /\ incl r (done ++ l) /\ (done ++ l <> [] -> exists p0, In p0 r /\ (forall p, In p r -> isclose tol (V p) (V p0) = true) /\ (forall p, In p (done ++ l) -> V p <= V p0 \/ isclose tol (V p) (V p0) = true) /\
     (tol <= 1 -> forall p, In p (done ++ l) -> (forall q, In q (done ++ l) -> V q <= V p) -> In p r)).
Proof.
  intros V tol l. induction l as [|p l IH]; intros best acc done Ht N Hn Hb Ia Na; cbn [scan].
  - rewrite app_nil_r in *. split; auto. split; auto. intro Ne. destruct best as [b|]; [|destruct (Hn eq_refl); congruence]. destruct (Hb b eq_refl) as ((p0 & H1 & H2) & H3 & H4 & H5). exists p0. rewrite H2. auto.
  - assert (Ea : done ++ p :: l = (done ++ [p]) ++ l) by (rewrite <- app_assoc; reflexivity). assert (Np : ~ In p done) by (intro K; apply NoDup_remove_2 in N; apply N, in_or_app; auto).
    assert (Ip : In p (done ++ p :: l)) by (apply in_or_app; right; left; auto). rewrite Ea in *.
    assert (One : best = None \/ (exists b, best = Some b /\ isclose tol (V p) b = false /\ b < V p) ->
      let r := scan V tol (Some (V p)) [p] l in
      NoDup r /\ incl r ((done ++ [p]) ++ l) /\ ((done ++ [p]) ++ l <> [] -> exists p0, In p0 r /\ (forall p1, In p1 r -> isclose tol (V p1) (V p0) = true) /\ (forall p1, In p1 ((done ++ [p]) ++ l) -> V p1 <= V p0 \/ isclose tol (V p1) (V p0) = true) /\
       (tol <= 1 -> forall p1, In p1 ((done ++ [p]) ++ l) -> (forall q, In q ((done ++ [p]) ++ l) -> V q <= V p1) -> In p1 r))).
    { intro Case. apply IH; auto; [discriminate| |intros x [<-|[]]; apply in_or_app; right; left; auto|repeat constructor; auto].
      intros b Eb. injection Eb as <-. split; [exists p; split; [left; auto|auto]|]. split; [intros q [<-|[]]; apply close_refl|]. split.
      - intros q Hq. apply in_app_or in Hq. destruct Hq as [Hq|[<-|[]]]; [|left; apply Qcle_refl]. destruct Case as [->|(b & -> & C1 & C2)]; [destruct (Hn eq_refl) as [-> _]; destruct Hq|].
        destruct (Hb b eq_refl) as (_ & _ & H4 & _). apply (close_step tol (V q) b (V p)); auto.
      - intros T1 q Hq Mx. apply in_app_or in Hq. destruct Hq as [Hq|[<-|[]]]; [|left; auto]. exfalso. destruct Case as [->|(b & -> & C1 & C2)]; [destruct (Hn eq_refl) as [-> _]; destruct Hq|].
        destruct (Hb b eq_refl) as (_ & _ & H4 & _). assert (Mp := Mx p Ip). destruct (H4 q Hq) as [K|K]; [qclra|]. rewrite (close_between tol (V q) b (V p)) in C1; auto. discriminate. }
    destruct best as [b|]; [|apply One; auto]. destruct (Hb b eq_refl) as ((p0 & H1 & H2) & H3 & H4 & H5).
    destruct (isclose tol (V p) b) eqn:Ec; [|destruct (negb (qleb (V p) b)) eqn:El].
    + apply IH; auto; [discriminate| | |].
      * intros b' Eb. injection Eb as <-. split; [exists p0; split; [apply in_or_app; auto|auto]|]. split; [intros q Hq; apply in_app_or in Hq; destruct Hq as [Hq|[<-|[]]]; auto|]. split.
        -- intros q Hq. apply in_app_or in Hq. destruct Hq as [Hq|[<-|[]]]; auto.
        -- intros T1 q Hq Mx. apply in_or_app. apply in_app_or in Hq. destruct Hq as [Hq|[<-|[]]]; [left; auto|right; left; auto].
      * intros q Hq. apply in_or_app. apply in_app_or in Hq. destruct Hq as [Hq|Hq]; auto.
      * apply NoDup_snoc; auto.
    + apply One. right. exists b. split; auto. split; auto. apply negb_true_iff, qleb_false in El. auto.
    + apply IH; auto; [discriminate| |intros q Hq; apply in_or_app; auto]. apply negb_false_iff, qleb_iff in El.
      intros b' Eb. injection Eb as <-. split; [eauto|]. split; auto. split.
      * intros q Hq. apply in_app_or in Hq. destruct Hq as [Hq|[<-|[]]]; auto.
      * intros T1 q Hq Mx. apply in_app_or in Hq. destruct Hq as [Hq|[<-|[]]]; auto. exfalso. assert (M0 := Mx p0 (in_or_app _ _ _ (or_introl (in_or_app _ _ _ (or_introl (Ia p0 H1)))))).
        assert (V p = b) by (rewrite H2 in M0; apply Qcle_antisym; auto). rewrite H, close_refl in Ec. discriminate.
Qed.
Lemma scan_all : forall V tol l, 0 <= tol -> NoDup l -> let r := scan V tol None [] l in
  NoDup r /\ incl r l /\ (l <> [] -> exists p0, In p0 r /\ (forall p, In p r -> isclose tol (V p) (V p0) = true) /\ (forall p, In p l -> V p <= V p0 \/ isclose tol (V p) (V p0) = true) /\
     (tol <= 1 -> forall p, In p l -> (forall q, In q l -> V q <= V p) -> In p r)).
Proof. intros V tol l Ht N. apply (scan_spec V tol l None [] []); auto; [discriminate|apply incl_refl|constructor]. Qed.
