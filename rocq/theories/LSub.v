(* Lemmas about subgames: what create_subgame returns. *)
From Coq Require Import String List Bool Arith QArith Qcanon Lia Permutation Sorted.
Import ListNotations.
From Verif Require Import MBase MGraph MMacid MRel MIncent MCpd MNet MProb MQuery MPolicy MSub Spec SpecM SpecC SpecN SpecQ SpecPol SpecI SpecSub.
From Verif Require Import LBase LGraph LRoles LReach LQc LCpd LNet LSum LBayes LSep LQuery LInter LBuilt LTotal LCheckN LQcArith LSearch LPolicy LLike LOptimal LBest LMargin LShift PGraph PMacid PNet LIncent.
Local Open Scope Qc_scope.

(* ---- the role dictionaries ---- *)
Lemma concat_dset : forall a v (acc : list (agent * list node)),
  Permutation (concat (map snd (dset a (match lookup a acc with Some l => l | None => [] end ++ [v]) acc))) (concat (map snd acc) ++ [v]).
Proof.
  intros a v acc. induction acc as [|[b l] acc IH]; cbn; [auto|]. destruct (String.eqb_spec a b) as [->|E]; cbn.
  - rewrite <- !app_assoc. apply Permutation_app_head. cbn. apply Permutation_cons_append.
  - rewrite <- app_assoc. apply Permutation_app_head. exact IH.
Qed.
Lemma group_spec : forall owner vs acc r, NoDup (keys acc) -> group owner acc vs = Ok r ->
  NoDup (keys r) /\ Permutation (concat (map snd r)) (concat (map snd acc) ++ vs) /\ (forall v, In v vs -> exists a, lookup v owner = Some a) /\
  (forall a v, listed r a v <-> listed acc a v \/ In v vs /\ lookup v owner = Some a).
Proof.
  intros owner vs. induction vs as [|v vs IH]; intros acc r N H; cbn [group] in H.
  - injection H as <-. split; auto. rewrite app_nil_r. split; auto. split; [intros v []|]. intros a v. cbn. tauto.
  - unfold dict_get in H. destruct (lookup v owner) as [a|] eqn:Lv; [|discriminate]. cbn [bind] in H.
    apply IH in H; [|apply NoDup_keys_dset; auto]. destruct H as (H1 & H2 & H3 & H4). split; auto. split; [|split].
    + rewrite H2. rewrite (concat_dset a v acc). rewrite <- app_assoc. auto.
    + intros x [<-|Hx]; eauto.
    + intros b x. rewrite H4. rewrite !listed_lookup by (auto; apply NoDup_keys_dset; auto). setoid_rewrite lookup_dset. destruct (String.eqb_spec b a) as [->|E]; cbn [In].
      * split.
        -- intros [(l & E & K)|[K1 K2]]; [|tauto]. injection E as <-. apply in_app_iff in K. destruct K as [K|[<-|[]]]; [|tauto]. destruct (lookup a acc) as [l|]; [left; eauto|destruct K].
        -- intros [(l & E & K)|[[<-|K1] K2]]; [| |tauto].
           ++ left. rewrite E. eexists. split; [reflexivity|]. apply in_app_iff; auto.
           ++ left. eexists. split; [reflexivity|]. apply in_app_iff. right. left. auto.
      * split; [tauto|]. intros [K|[[<-|K1] K2]]; try tauto. congruence.
Qed.

(* ---- the tables ---- *)
Definition margin_rel (t : tab) : rel := RDist (map (fun xp => (fst xp, Some (snd xp))) (combine (tdom t) (marginal t))).
Definition outer_rel (nc : net) (v : node) : rel := match cpd_of nc v with Some t => margin_rel t | None => RDist [] end.
Definition inner_rel (nc : net) (v : node) : rel := match cpd_of nc v with Some t => RTab t | None => RDist [] end.
Lemma loop_run : forall (f : net -> node -> outcome_of) (r : node -> rel) l n n', (forall n v n1, f n v = (n1, None) -> set_rel n v (r v) = (n1, None)) ->
  loop_net f n l = (n', None) -> run n (adds (map (fun v => (v, r v)) l)) = (n', None).
Proof.
  intros f r l. induction l as [|v l IH]; intros n n' F H; cbn [loop_net] in H; [exact H|]. destruct (f n v) as [n1 [e|]] eqn:E; [discriminate|]. apply F in E.
  cbn [map adds run step fst snd]. rewrite E. apply IH; auto.
Qed.
Lemma marginalised_step : forall nc n v n1, marginalised nc n v = (n1, None) -> set_rel n v (outer_rel nc v) = (n1, None).
Proof.
  intros nc n v n1 H. unfold marginalised, get_cpds in H. unfold outer_rel, margin_rel. destruct (mem v (nodes (ngraph nc))); [|discriminate].
  destruct (cpd_of nc v) as [t|]; [|discriminate]. destruct (tkind t); try exact H. discriminate.
Qed.
Lemma copied_step : forall nc n v n1, MSub.copied nc n v = (n1, None) -> set_rel n v (inner_rel nc v) = (n1, None).
Proof.
  intros nc n v n1 H. unfold MSub.copied, get_cpds in H. unfold inner_rel. destruct (mem v (nodes (ngraph nc))); [|discriminate].
  destruct (cpd_of nc v) as [t|]; [exact H|discriminate].
Qed.
Lemma margin_keys : forall t, map fst (map (fun xp : outcome * Qc => (fst xp, Some (snd xp))) (combine (tdom t) (marginal t))) = tdom t.
Proof.
  intro t. rewrite map_map. cbn [fst]. assert (L := marginal_length t). revert L. generalize (marginal t) (tdom t). intros l d. revert l. induction d as [|x d IH]; intros [|y l] L; cbn in *; try discriminate; auto. f_equal. apply IH. lia.
Qed.
Lemma margin_gives : forall t x, In x (tdom t) -> NoDup (tdom t) -> gives (map (fun xp : outcome * Qc => (fst xp, Some (snd xp))) (combine (tdom t) (marginal t))) x (nth (pos x (tdom t)) (marginal t) 0).
Proof.
  intros t x Hx N. unfold gives. apply in_map_iff. exists (x, nth (pos x (tdom t)) (marginal t) 0). split; auto. assert (L := marginal_length t). revert L N Hx. generalize (marginal t) (tdom t). intros l d. revert l.
  induction d as [|y d IH]; intros [|q l] L N Hx; cbn [length] in *; try discriminate; [destruct Hx|]. inversion N; subst. cbn [pos combine]. destruct (Qc_eq_dec x y) as [->|E]; cbn [nth]; [left; auto|]. right. destruct Hx as [->|Hx]; [congruence|]. apply IH; auto.
Qed.

Section Tables.
  Variables (nc n2 : net) (g : graph) (outs ins : list node).
  Hypothesis Bc : built nc.
  Hypothesis Hc : distribution nc.
  Hypothesis Wg : wf_dag g.
  Hypothesis Nd : NoDup (outs ++ ins).
  Hypothesis Me : forall v, In v (nodes g) <-> In v outs \/ In v ins.
  Hypothesis Inc : incl (nodes g) (nodes (ngraph nc)).
  Hypothesis Ed : forall u v, edge g u v <-> edge (ngraph nc) u v /\ In v ins.
  Hypothesis Eo : forall u v, In v outs -> ~ edge g u v.
  Hypothesis Ei : forall u v, In v ins -> edge (ngraph nc) u v -> edge g u v.
  Hypothesis Rn : run (bare g) (adds (map (fun v => (v, outer_rel nc v)) outs ++ map (fun v => (v, inner_rel nc v)) ins)) = (n2, None).

  Let l := map (fun v => (v, outer_rel nc v)) outs ++ map (fun v => (v, inner_rel nc v)) ins.
  Lemma tables_admissible : forall v r, In (OAdd v r) (adds l) -> admissible v r.
  Proof.
    intros v r H. apply in_map_iff in H. destruct H as ([u s] & E & H). cbn in E. injection E as -> ->. unfold l in H. apply in_app_iff in H.
    assert (T : In v (nodes g) -> exists t, cpd_of nc v = Some t /\ table_ok nc v t) by (intro K; apply dist_table; auto).
    destruct H as [H|H]; apply in_map_iff in H; destruct H as (u & E & H); injection E as -> <-; destruct (T (proj2 (Me v) ltac:(tauto))) as (t & Ct & Ok1); unfold outer_rel, inner_rel; rewrite Ct.
    - split; [exact I|]. unfold margin_rel, python_rel, is_dict. rewrite margin_keys. apply (ok_exact _ _ _ Ok1).
    - split; [|exact I]. apply (ok_var _ _ _ Ok1).
  Qed.
  Lemma tables_built : built n2 /\ sound n2 /\ ngraph n2 = g.
  Proof.
    assert (B : built n2) by (eapply built_run; [apply built_new, Wg|exact tables_admissible|exact Rn]). split; auto. split; [apply built_sound; auto|].
    apply (run_sound g (adds l)); auto. intros v r H. apply (tables_admissible v r H).
  Qed.
  Lemma tables_rel : forall v, (In v outs -> lookup v (rels n2) = Some (outer_rel nc v)) /\ (In v ins -> lookup v (rels n2) = Some (inner_rel nc v)).
  Proof.
    intro v. destruct (C35_tables_current g (adds l) n2 Wg (fun v r H => proj1 (tables_admissible v r H)) Rn) as (_ & R & _). rewrite R.
    assert (K : forall r, In (v, r) l -> last_given (adds l) v = Some r).
    { intros r H. apply (adds_last l v r None); auto. unfold l. rewrite map_app, !map_map. cbn [fst]. rewrite !map_id. auto. }
    split; intro H; apply K; unfold l; apply in_app_iff; [left|right]; apply in_map_iff; eauto.
  Qed.
  Lemma inner_table : forall v, In v ins -> exists t, cpd_of nc v = Some t /\ table_ok nc v t /\ cpd_of n2 v = Some t /\ lookup v (doms n2) = Some (tdom t).
  Proof.
    intros v H. destruct tables_built as (B & S & G). destruct (dist_table nc v Hc) as (t & Ct & Ok1); [apply Inc, Me; auto|]. exists t. split; auto. split; auto.
    assert (R := proj2 (tables_rel v) H). unfold inner_rel in R. rewrite Ct in R. assert (Sv := s_settled n2 S v _ R). cbn in Sv. split; auto. apply (inv_dom n2 (s_inv n2 S)); auto.
  Qed.
  Lemma outer_table : forall v, In v outs -> exists t t', cpd_of nc v = Some t /\ table_ok nc v t /\ cpd_of n2 v = Some t' /\ lookup v (doms n2) = Some (tdom t') /\
    exact_table t' /\ tvar t' = v /\ tev t' = [] /\ tcards t' = [] /\ increasing (tdom t') /\ Permutation (tdom t') (tdom t) /\
    forall a, In (a v) (tdom t) -> entry (doms n2) t' a = nth (pos (a v) (tdom t)) (marginal t) 0.
  Proof.
    intros v H. destruct tables_built as (B & S & G). destruct (dist_table nc v Hc) as (t & Ct & Ok1); [apply Inc, Me; auto|]. exists t.
    assert (R := proj1 (tables_rel v) H). unfold outer_rel in R. rewrite Ct in R. unfold margin_rel in R. set (d := map _ _) in R.
    assert (Pn : parents (ngraph n2) v = []). { destruct (parents (ngraph n2) v) as [|p ps] eqn:Ep; auto. exfalso. apply (Eo p v H). rewrite <- G. apply in_parents. rewrite Ep. left; auto. }
    assert (Hv : In v (nodes (ngraph n2))) by (rewrite G; apply Me; auto).
    destruct (sound_node n2 v _ S Hv R) as (t' & C' & T' & L'). { intros p K. apply in_parents in K. rewrite Pn in K. destruct K. }
    assert (Rd : LCpd.ready (doms n2) (parents (ngraph n2) v)) by (rewrite Pn; intros p []).
    cbn [table_of table_from] in T'. destruct (init_tabulates _ _ _ _ _ _ _ Hv Rd t' T') as (Tb & _ & Tc). assert (Tb' := Tb). destruct Tb' as (T1 & T2 & T3 & T4 & _ & T6 & T7 & _).
    rewrite Pn in T2, T7, Tc. cbn in Tc. injection Tc as Tc.
    destruct (T6 eq_refl) as [Si Ci]. assert (Nt : NoDup (tdom t)) by apply (ok_exact _ _ _ Ok1).
    assert (Dd : is_dict d) by (unfold is_dict, d; rewrite margin_keys; auto).
    assert (Mi : forall x, In x (tdom t') <-> In x (tdom t)).
    { intro x. rewrite Ci, Pn. split.
      - intros (pv & w & _ & C & K). cbn in C. injection C as <-. cbn [dist_of] in K. unfold d in K. rewrite margin_keys in K. auto.
      - intro K. exists [], (VDist d). split; [split; [auto|intros ? ? []]|]. split; auto. cbn [dist_of]. unfold d. rewrite margin_keys. auto. }
    assert (Pe : Permutation (tdom t') (tdom t)) by (apply NoDup_Permutation; auto).
    assert (Ce : forall x, In x (tdom t) -> complete (tdom t') d x = nth (pos x (tdom t)) (marginal t) 0) by (intros x Hx; apply complete_given; auto; apply margin_gives; auto).
    assert (Nc : tcols t <> []).
    { destruct (ok_exact _ _ _ Ok1) as (_ & _ & _ & E4 & _). intro K. rewrite K in E4. cbn [length] in E4. rewrite (ok_cards _ _ _ Ok1) in E4. rewrite <- contexts_cards in E4. symmetry in E4. revert E4. apply count_pos.
      intros p Hp. apply (dist_lookup nc p Hc). apply (ok_ev _ _ _ Ok1) in Hp. apply Hc in Hp. tauto. }
    exists t'. split; auto. split; auto. split; auto. split; auto. split; [|split; [auto|split; [auto|split; [auto|split; [auto|split; [auto|]]]]]].
    - split; [rewrite T2; constructor|]. split; auto. split; [rewrite <- Tc, T2; auto|]. split; [rewrite T7, <- Tc; auto|].
      intros col Hcol. destruct (init_column _ _ _ _ _ _ _ _ _ Hv Rd T' Hcol) as (C1 & C2 & pv & w & Cx & Cl & Ec). split; auto. split; auto. change (qsum col = 1). cbn in Cl. injection Cl as <-. cbn [dist_of] in Ec. rewrite Ec.
      rewrite (qsum_perm _ (map (complete (tdom t') d) (tdom t))) by (apply Permutation_map; auto).
      rewrite (map_ext_in _ (fun x => nth (pos x (tdom t)) (marginal t) 0)) by auto. rewrite sum_by_position by (auto; apply marginal_length). apply marginal_sum; auto. apply (ok_exact _ _ _ Ok1).
    - intros a Ha. destruct (tabulates_entry _ _ _ _ _ _ a Tb (const_keyword _ Dd) L' Rd) as (w & C & ->); [rewrite Pn; intros p []|]. cbn in C. injection C as <-. cbn [dist_of].
      rewrite <- Ce by auto. apply Mi in Ha. rewrite (nth_indep _ 0 (complete (tdom t') d 0)) by (rewrite map_length; apply pos_lt; auto). rewrite map_nth. f_equal. apply nth_error_nth, pos_nth; auto.
  Qed.
  Lemma tables_dom : forall v, In v (nodes g) -> (In v ins -> dom_of (doms n2) v = dom_of (doms nc) v) /\ Permutation (dom_of (doms n2) v) (dom_of (doms nc) v).
  Proof.
    intros v Hv. destruct (proj1 (Me v) Hv) as [H|H].
    - destruct (outer_table v H) as (t & t' & C & Ok1 & C' & L' & _ & _ & _ & _ & _ & P & _). split.
      + intro K. exfalso. apply NoDup_app_inv in Nd. destruct Nd as (_ & _ & X). apply (X v); auto.
      + unfold dom_of at 1. rewrite L', (ok_dom _ _ _ Ok1). auto.
    - destruct (inner_table v H) as (t & C & Ok1 & C' & L'). unfold dom_of at 1 3. rewrite L', (ok_dom _ _ _ Ok1). auto.
  Qed.
  Lemma tables_distribution : distribution n2.
  Proof.
    destruct tables_built as (B & S & G). assert (Ht := fun v t => has_table_iff n2 v t (s_inv n2 S)). split; [rewrite G; auto|]. split; [|split].
    - intros v t t' H1 H2. apply Ht in H1. apply Ht in H2. congruence.
    - intros v t H. apply Ht in H. assert (Hv : In v (nodes g)) by (rewrite <- G; apply (inv_rel n2 (s_inv n2 S) v t H)). destruct (proj1 (Me v) Hv) as [K|K].
      + destruct (outer_table v K) as (t0 & t' & _ & _ & C' & _ & E & _). congruence.
      + destruct (inner_table v K) as (t0 & _ & Ok1 & C' & _). rewrite H in C'. injection C' as ->. apply (ok_exact _ _ _ Ok1).
    - intros v Hv. rewrite G in Hv. destruct (proj1 (Me v) Hv) as [K|K].
      + destruct (outer_table v K) as (t0 & t & _ & _ & C' & L' & _ & _ & E1 & E2 & _). exists t. split; [apply Ht; auto|]. split; auto. rewrite E1, E2. split; auto.
        intro p. rewrite G. split; [intros []|intro X; exact (Eo p v K X)].
      + destruct (inner_table v K) as (t & _ & Ok1 & C' & L'). exists t. split; [apply Ht; auto|]. split; auto. split.
        * intro p. rewrite (ok_ev _ _ _ Ok1), G. split; [apply Ei; auto|intro X; apply Ed in X; tauto].
        * rewrite (ok_cards _ _ _ Ok1). apply map_ext_in. intros p Hp. symmetry. apply Permutation_length. apply tables_dom.
          apply (ok_ev _ _ _ Ok1) in Hp. apply (Ei p v K) in Hp. apply Wg in Hp. tauto.
  Qed.
  Lemma tables_inner : forall v a b, In v ins -> (forall u, u = v \/ edge (ngraph nc) u v -> same_place (dom_of (doms nc) u) (a u) (dom_of (doms n2) u) (b u)) -> kernel n2 v b = kernel nc v a.
  Proof.
    intros v a b H Si. destruct (inner_table v H) as (t & C & Ok1 & C' & L'). rewrite (dist_kernel _ _ _ _ C), (dist_kernel _ _ _ _ C'). apply entry_place. intros u Hu.
    assert (Hu' : u = v \/ edge (ngraph nc) u v) by (destruct Hu as [->|Hu]; [left; apply (ok_var _ _ _ Ok1)|right; apply (ok_ev _ _ _ Ok1); auto]).
    assert (K : In u (nodes g)) by (destruct Hu' as [->|E]; [apply Me; auto|apply (Ei u v H) in E; apply Wg in E; tauto]). assert (P := proj2 (tables_dom u K)).
    split; [symmetry; apply Permutation_length; auto|]. assert (N : NoDup (dom_of (doms nc) u)) by (apply dom_nodup; auto). apply place_pos; auto. eapply Permutation_NoDup; [apply Permutation_sym; exact P|auto].
  Qed.
  Lemma tables_outer : forall v a, In v outs -> In (a v) (dom_of (doms nc) v) -> kernel n2 v a = averaged nc v a /\ increasing (dom_of (doms n2) v).
  Proof.
    intros v a H Ha. destruct (outer_table v H) as (t & t' & C & Ok1 & C' & L' & _ & _ & _ & _ & I & P & E). assert (Ha' := Ha). rewrite (ok_dom _ _ _ Ok1) in Ha'. split; [|unfold dom_of; rewrite L'; auto].
    rewrite (dist_kernel _ _ _ _ C'), E by auto. assert (Nv : ~ In v (tev t)). { intro K. apply (ok_ev _ _ _ Ok1) in K. apply (acyclic_edge_irrefl (ngraph nc) v); [apply Hc|auto]. }
    rewrite (marginal_total nc v t a) by auto. assert (Pp : Permutation (tev t) (parents (ngraph nc) v)).
    { apply NoDup_Permutation; [apply (ok_exact _ _ _ Ok1)|apply nodup_parents; apply Hc|]. intro x. rewrite (ok_ev _ _ _ Ok1). symmetry. apply in_parents. }
    assert (Ec : contexts_count (doms nc) (tev t) = contexts_count (doms nc) (parents (ngraph nc) v)).
    { clear - Pp. unfold contexts_count. induction Pp; cbn [fold_right]; auto; [apply Nat.mul_shuffle3|congruence]. }
    unfold averaged. rewrite Ec. f_equal.
    rewrite (total_perm _ (tev t) (parents (ngraph nc) v)); [|auto|]. 
    - apply total_ext. intro b. symmetry. apply dist_kernel; auto.
    - intros x y Hxy. apply entry_on. auto.
  Qed.
End Tables.

(* ---- decisions without a rule ---- *)
Lemma missing_like : forall m ds n d n', built n -> distribution n -> unset_uniform n -> impute_missing m ds n d = (n', None) -> like n n' /\ unset_uniform n'.
Proof.
  intros m ds n d n' B Hd U E. unfold impute_missing in E. assert (Id : like n n) by (apply like_self; auto).
  destruct (is_s_reachable (with_graph m (ngraph n)) ds d) as [[|]|e]; try discriminate; [injection E as <-; auto|]. unfold get_cpds in E. destruct (mem d (nodes (ngraph n))); [|discriminate].
  destruct (cpd_of n d) as [t|] eqn:T; [|injection E as <-; auto]. destruct (tkind t) eqn:K; try (injection E as <-; auto; fail).
  destruct (random_like n d n' B Hd U E) as (L & U' & _); eauto.
Qed.
Lemma missing_loop : forall m ds l n n', built n -> distribution n -> unset_uniform n -> loop_net (impute_missing m ds) n l = (n', None) -> like n n' /\ unset_uniform n'.
Proof.
  intros m ds l. induction l as [|d l IH]; intros n n' B Hd U E; cbn [loop_net] in E; [injection E as <-; split; auto; apply like_self; auto|].
  destruct (impute_missing m ds n d) as [n1 [e|]] eqn:E1; [discriminate|]. destruct (missing_like m ds n d n1 B Hd U E1) as [L1 U1].
  destruct (IH n1 n' (l_built _ _ L1) (l_dist _ _ L1) U1 E) as [L2 U2]. split; auto. eapply like_trans; eauto.
Qed.
Lemma like_local : forall n n' v a, like n n' -> distribution n -> In v (nodes (ngraph n)) -> In (a v) (dom_of (doms n) v) -> (forall u, edge (ngraph n) u v -> In (a u) (dom_of (doms n) u)) ->
  kernel n' v a = kernel n v a.
Proof.
  intros n n' v a L Hd Hv Ha Hp.
  destruct (extend_within n a (fun u => u = v \/ edge (ngraph n) u v)) as (a' & W & E); auto.
  { intro u. destruct (String.string_dec u v) as [|E]; [auto|]. destruct (in_dec String.string_dec u (parents (ngraph n) v)) as [K|K]; [left; right; apply in_parents; auto|]. right. intros [K'|K']; auto. apply K. apply in_parents; auto. }
  { intros u [->|K] _; auto. }
  rewrite <- (k_local _ _ _ (kernel_cond n Hd) v Hv a' a) by (intros u [->|K]; apply E; auto).
  rewrite <- (k_local _ _ _ (kernel_cond n' (l_dist _ _ L)) v) with (a := a'); [apply (l_kernel _ _ L); auto|rewrite (l_nodes _ _ L); auto|].
  intros u [->|K]; apply E; auto. right. apply L; auto.
Qed.
Lemma like_averaged : forall n n' v a, like n n' -> distribution n -> In v (nodes (ngraph n)) -> In (a v) (dom_of (doms n) v) -> averaged n' v a = averaged n v a.
Proof.
  intros n n' v a L Hd Hv Ha. unfold averaged.
  assert (Pp : Permutation (parents (ngraph n') v) (parents (ngraph n) v)).
  { apply NoDup_Permutation; [apply nodup_parents; apply (l_dist _ _ L)|apply nodup_parents; apply Hd|]. intro x. rewrite !in_parents. apply L. }
  assert (Dp : forall p, In p (parents (ngraph n) v) -> dom_of (doms n') p = dom_of (doms n) p) by (intros p Hp; apply L; apply in_parents in Hp; apply Hd in Hp; tauto).
  assert (Nv : ~ In v (parents (ngraph n) v)) by (intro K; apply in_parents in K; apply (acyclic_edge_irrefl (ngraph n) v); [apply Hd|auto]).
  f_equal.
  - rewrite (total_perm _ _ _ _ _ Pp). 2:{ intros x y E. apply (k_local _ _ _ (kernel_cond n' (l_dist _ _ L)) v); auto. rewrite (l_nodes _ _ L); auto. }
    rewrite (total_dom_perm _ (dom_of (doms n))) by (intros p Hp; rewrite Dp; auto).
    apply total_ext_in. intros b Hb Eb. apply like_local; auto; [rewrite Eb; auto|]. intros u Hu. apply Hb. apply in_parents; auto.
  - f_equal. transitivity (contexts_count (doms n') (parents (ngraph n) v)).
    + clear - Pp. unfold contexts_count. induction Pp; cbn [fold_right]; auto; [apply Nat.mul_shuffle3|congruence].
    + unfold contexts_count. clear - Dp. induction (parents (ngraph n) v) as [|p l IH]; auto. cbn [fold_right]. rewrite Dp by (left; auto). rewrite IH; auto. intros q Hq. apply Dp. right; auto.
Qed.

Lemma create_subgame_spec : forall o m n ds sm sn, valid_order o -> valid m -> mgraph m = ngraph n -> no_clash (mgraph m) -> utilities_complete m -> NoDup ds -> (forall d, In d ds -> is_decision m d) ->
  built n -> distribution n -> unset_uniform n -> create_subgame o m n ds = Ok (sm, sn) -> subgame m n ds sm sn.
Proof.
  intros o m n ds sm sn Vo V G Nc Uc Nds Hds B Hd Uu H. unfold create_subgame in H. rewrite (with_graph_eq m (ngraph n) G) in H. rewrite <- G in H at 1.
  assert (V' := V). destruct V' as (W & Cm & Pm). assert (Vp : forall k l, Permutation l (o k l)) by (intros; apply Permutation_sym; apply Vo).
  destruct (filter_r_spec node (fun v => is_r_reachable m ds [v]) (fun v => exists d, In d ds /\ r_relevant m d v) (nodes (mgraph m))) as (rn & Er & Mr & Nr).
  { intros v Hv. destruct (C17_r_reachable m ds [v] V Nc Uc Hds) as (b & Eb & Rb); [intros x [<-|[]]; auto|]. exists b. split; auto. rewrite Rb. split.
    - intros (d & w & H1 & [<-|[]] & H2). eauto.
    - intros (d & H1 & H2). exists d, v. split; auto. split; [left; auto|auto]. }
  specialize (Nr (proj1 (proj1 W))).
  rewrite Er in H. cbn [bind] in H. set (kp := set_union rn ds) in *.
  assert (Rk : forall v, In v (nodes (mgraph m)) -> (In v kp <-> kept m ds v)). { intros v Hv. unfold kp, kept. rewrite in_set_union, Mr. tauto. }
  destruct (group (decision_agent m) [] ds) as [ad|e] eqn:Ga; [|discriminate]. cbn [bind] in H.
  destruct (group (utility_agent m) [] (o ["utils"%string] (set_inter rn (utilities m)))) as [au|e] eqn:Gu; [|discriminate]. cbn [bind] in H.
  set (us := o ["utils"%string] (set_inter rn (utilities m))) in *.
  assert (Pu : Permutation (set_inter rn (utilities m)) us) by (apply Vp).
  destruct (group_spec _ _ _ _ (NoDup_nil _ : NoDup (keys [])) Ga) as (Ka & Pa & La & Ra). destruct (group_spec _ _ _ _ (NoDup_nil _ : NoDup (keys [])) Gu) as (Ku & Pu' & Lu & Ru). cbn [map concat app] in Pa, Pu'.
  assert (Mu : forall u, In u us <-> (exists d, In d ds /\ r_relevant m d u) /\ is_utility m u).
  { intro u. rewrite <- in_utilities by auto. split; intro K.
    - apply (Permutation_in u (Permutation_sym Pu)), in_set_inter in K. destruct K as [K1 K2]. apply Mr in K1. tauto.
    - apply (Permutation_in u Pu), in_set_inter. split; [|tauto]. apply Mr. split; [|tauto]. apply is_utility_in; auto. apply in_utilities; tauto. }
  unfold macid_init in H. destruct (new_graph _) as [g|e] eqn:Eg; [|discriminate]. cbn [bind] in H. cbn [mgraph] in H.
  destruct (C11_constructor_partial (filter (fun e => mem (snd e) kp) (edges_view (ngraph n)))) as (_ & _ & X). specialize (X g). cbn in X. specialize (X Eg). destruct X as (Wg & Eg1 & Eg2).
  assert (Edg : forall u v, edge g u v <-> edge (ngraph n) u v /\ kept m ds v).
  { intros u v. rewrite Eg1. rewrite filter_In. cbn [snd]. rewrite mem_In, in_edges_view by apply Hd. split; intros [K1 K2]; (split; [auto|]); apply Rk; auto; rewrite G; apply Hd in K1; tauto. }
  assert (Nog : forall v, In v (nodes g) <-> exists u, edge g u v \/ edge g v u).
  { intro v. rewrite Eg2. split; intros (u & K); exists u; rewrite !Eg1 in *; tauto. }
  assert (Ing : incl (nodes g) (nodes (ngraph n))). { intros v Hv. apply Nog in Hv. destruct Hv as (u & [K|K]); apply Edg in K; destruct K as [K _]; apply Hd in K; tauto. }
  destruct (macid_copy m n) as [[mc nc0]|e] eqn:Ec; [|discriminate]. cbn [bind] in H. unfold macid_copy in Ec. destruct (copy_without_cpds _) as [mc'|e]; [|discriminate]. cbn [bind] in Ec.
  destruct (copy_net n) as [nc'|e] eqn:En; [|discriminate]. cbn [bind] in Ec. injection Ec as -> ->.
  assert (L0 := like_copy n nc0 B Hd En). assert (U0 := copy_unset n nc0 B Hd En Uu).
  destruct (loop_net (impute_missing mc ds) nc0 (decisions mc)) as [nc [e|]] eqn:Em; [discriminate|]. cbn [ok_net bind] in H.
  destruct (missing_loop _ _ _ _ _ (l_built _ _ L0) (l_dist _ _ L0) U0 Em) as [L1 _]. assert (L := like_trans _ _ _ L0 L1). clear L0 L1 U0 Em.
  set (outer := set_diff (nodes g) kp) in *.
  set (outs := o ["outer"%string] outer) in *. set (ins := o ["inner"%string] (set_diff (nodes g) outer)) in *.
  destruct (loop_net (marginalised nc) (bare g) outs) as [n1 [e|]] eqn:E1; [discriminate|]. cbn [ok_net bind] in H.
  destruct (loop_net (MSub.copied nc) n1 ins) as [n2 [e|]] eqn:E2; [discriminate|]. cbn [ok_net bind] in H. injection H as <- <-.
  apply (loop_run _ (outer_rel nc)) in E1; [|apply marginalised_step]. apply (loop_run _ (inner_rel nc)) in E2; [|apply copied_step].
  assert (Rn : run (bare g) (adds (map (fun v => (v, outer_rel nc v)) outs ++ map (fun v => (v, inner_rel nc v)) ins)) = (n2, None)).
  { unfold adds. rewrite map_app. rewrite run_app. unfold adds in E1, E2. rewrite E1. exact E2. }
  assert (Mo : forall v, In v outs <-> In v (nodes g) /\ ~ kept m ds v).
  { intro v. assert (Po : Permutation outer outs) by apply Vp. split; intro K.
    - apply (Permutation_in v (Permutation_sym Po)), in_set_diff in K. destruct K as [K1 K2]. split; auto. rewrite Rk in K2; auto. rewrite G. auto.
    - apply (Permutation_in v Po), in_set_diff. split; [tauto|]. rewrite Rk; [tauto|]. rewrite G. apply Ing. tauto. }
  assert (Mi : forall v, In v ins <-> In v (nodes g) /\ kept m ds v).
  { intro v. assert (Po : Permutation (set_diff (nodes g) outer) ins) by apply Vp. split; intro K.
    - apply (Permutation_in v (Permutation_sym Po)), in_set_diff in K. destruct K as [K1 K2]. split; auto. unfold outer in K2. rewrite in_set_diff in K2. apply Rk; [rewrite G; auto|]. destruct (in_dec String.string_dec v kp); tauto.
    - apply (Permutation_in v Po), in_set_diff. split; [tauto|]. unfold outer. rewrite in_set_diff. rewrite Rk; [tauto|]. rewrite G. apply Ing. tauto. }
  assert (Ngr : NoDup (nodes g)) by apply Wg.
  assert (Nd : NoDup (outs ++ ins)).
  { apply NoDup_app'; [apply (Permutation_NoDup (Vp _ _)), NoDup_filter, NoDup_to_set|apply (Permutation_NoDup (Vp _ _)), NoDup_filter, NoDup_to_set|]. intros v K1 K2. apply Mo in K1. apply Mi in K2. tauto. }
  assert (Dk : forall v, In v (nodes g) -> {In v ins} + {In v outs}).
  { intros v Hv. destruct (in_dec String.string_dec v ins) as [|K]; [left; auto|]. right. apply Mo. split; auto. intro K'. apply K. apply Mi; auto. }
  assert (Me : forall v, In v (nodes g) <-> In v outs \/ In v ins).
  { intro v. split; [intro Hv; destruct (Dk v Hv); auto|]. rewrite Mo, Mi. tauto. }
  assert (Inc : incl (nodes g) (nodes (ngraph nc))) by (rewrite (l_nodes _ _ L); auto).
  assert (Edc : forall u v, edge g u v <-> edge (ngraph nc) u v /\ In v ins).
  { intros u v. rewrite (l_edges _ _ L). split; intro K.
    - split; [apply Edg; auto|]. apply Mi. split; [apply Nog; eauto|]. apply Edg in K. tauto.
    - apply Edg. rewrite Mi in K. tauto. }
  assert (Eo : forall u v, In v outs -> ~ edge g u v) by (intros u v K K'; apply Mo in K; apply Edg in K'; tauto).
  assert (Ei : forall u v, In v ins -> edge (ngraph nc) u v -> edge g u v) by (intros u v K K'; apply Edc; auto).
  destruct (tables_built nc n2 g outs ins (l_dist _ _ L) Wg Me Inc Rn) as (B2 & S2 & G2).
  assert (D2 := tables_distribution nc n2 g outs ins (l_dist _ _ L) Wg Nd Me Inc Edc Eo Ei Rn).
  assert (Gr : good_roles (mkM g ad au (owner_dict ad) (owner_dict au))).
  { apply good_roles_init. split; auto. split; auto. rewrite Pa, Pu'. apply NoDup_app'; auto.
    - apply (Permutation_NoDup Pu). apply NoDup_filter, NoDup_to_set.
    - intros x K1 K2. apply Mu in K2. destruct K2 as [_ [b K2]]. destruct (Hds x K1) as [a K3]. exact (role_disjoint m x a b V K3 K2). }
  assert (Gm := Cm). apply good_consistent in Gm.
  constructor; auto.
  - apply good_consistent; auto.
  - intros d a. cbn [has_role agent_decisions]. rewrite Ra, good_listed_decision by auto. split; [|tauto]. intros [(l & [] & _)|K]; auto.
  - intros u a. cbn [has_role agent_utilities]. rewrite Ru, Mu. rewrite (good_listed_utility m a u Gm). split.
    + intros [(l & [] & _)|K]; tauto.
    + intros [K1 K2]. right. split; auto. split; auto. exists a. apply good_listed_utility; auto.
  - intros u v. rewrite G2. auto.
  - intro v. rewrite G2. auto.
  - intros v Hv K. rewrite G2 in Hv. rewrite <- (l_dom _ _ L) by auto. apply (tables_dom nc n2 g outs ins (l_dist _ _ L) Wg Nd Me Inc Eo Rn v Hv). apply Mi; auto.
  - intros v Hv K. rewrite G2 in Hv. rewrite <- (l_dom _ _ L) by auto. split; [apply (tables_dom nc n2 g outs ins (l_dist _ _ L) Wg Nd Me Inc Eo Rn v Hv)|].
    destruct (dist_lookup nc v (l_dist _ _ L) (Inc v Hv)) as [_ Ne]. destruct (dom_of (doms nc) v) as [|x l] eqn:Ev; [congruence|].
    apply (tables_outer nc n2 g outs ins (l_dist _ _ L) Wg Nd Me Inc Eo Rn v (fun _ => x)); [apply Mo; auto|]. rewrite Ev. left; auto.
  - intros v a b Hv K Si. rewrite G2 in Hv. assert (Hp : forall u, u = v \/ edge (ngraph n) u v -> In (a u) (dom_of (doms n) u)) by (intros u Hu; destruct (Si u Hu) as (i & X & _); eapply nth_error_In; eauto).
    rewrite <- (like_local n nc v a) by auto. apply (tables_inner nc n2 g outs ins (l_dist _ _ L) Wg Nd Me Inc Eo Ei Rn); [apply Mi; auto|].
    intros u Hu. assert (Hu' : u = v \/ edge (ngraph n) u v) by (destruct Hu as [->|Hu]; [left; auto|right; apply (l_edges _ _ L); auto]). rewrite (l_dom _ _ L); [apply Si; auto|]. destruct Hu' as [->|Hu']; [auto|apply Hd in Hu'; tauto].
  - intros v a Hv K Ha. rewrite G2 in Hv. rewrite <- (like_averaged n nc v a) by auto. apply (tables_outer nc n2 g outs ins (l_dist _ _ L) Wg Nd Me Inc Eo Rn); [apply Mo; auto|]. rewrite (l_dom _ _ L) by auto. auto.
Qed.
