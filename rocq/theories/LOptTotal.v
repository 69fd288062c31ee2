(* Lemmas: when impute_optimal_decision gets all its answers. *)
From Coq Require Import String List Bool Arith QArith Qcanon Lia Permutation.
Import ListNotations.
From Verif Require Import MBase MGraph MMacid MCpd MNet MProb MQuery MPolicy Spec SpecM SpecC SpecN SpecQ SpecPol LBase LGraph LActive LMech LQc LCpd LNet LSum LBayes LSep LQuery LDo LInter LFactor LEdit LBuilt LTotal LEffects PMacid PQuery LRoles LReach LPolicy LValue LQcArith LSearch LLike LOptimal LOptDec.
Local Open Scope Qc_scope.

Lemma check_domains_ok : forall n c, (forall v x, In (v, x) c -> In v (nodes (ngraph n)) /\ exists t, cpd_of n v = Some t /\ tkind t <> KTab /\ In x (tdom t)) -> check_domains n c = Ok tt.
Proof.
  intros n c. induction c as [|[v x] c IH]; intros H; auto. cbn [check_domains]. destruct (H v x (or_introl eq_refl)) as (Hv & t & Ct & Kt & Hx). unfold get_cpds. rewrite (proj2 (mem_In _ _) Hv). cbn [bind]. rewrite Ct.
  assert (O : omem x (tdom t) = true) by (apply omem_In; auto). rewrite O. rewrite IH by (intros; apply H; right; auto). destruct (tkind t); congruence.
Qed.
Lemma check_policies_given : forall m n qs c, wf_dag (ngraph n) -> no_clash (ngraph n) -> incl (keys c) (nodes (ngraph n)) -> incl qs (nodes (ngraph n)) ->
  (forall d, In d (decisions m) -> In d (nodes (ngraph n)) /\ (has_policy n d = true \/ forall q, In q qs -> ~ pend_conn (ngraph n) (keys c) d q)) ->
  check_policies m n qs c [] = Ok tt.
Proof.
  intros m n qs c W C Ic Iq H. unfold check_policies. destruct (mechanism_graph_ok (with_graph m (ngraph n)) W C) as (h & E & Mh). rewrite E. cbn [bind edges_into map_r concat mgraph cut_edges]. cbn [bind].
  change (mgraph (with_graph m (ngraph n))) with (ngraph n) in Mh.
  assert (M : exists l, map_r (check_decision h n (keys c ++ keys (@nil (node * outcome)))) (list_prod (decisions m) qs) = Ok l).
  { change (keys (@nil (node * outcome))) with (@nil string). rewrite app_nil_r. assert (X : forall d q, In (d, q) (list_prod (decisions m) qs) -> In d (decisions m) /\ In q qs) by (intros d q K; apply in_prod_iff in K; tauto). induction (list_prod (decisions m) qs) as [|[d q] l IH]; [exists []; reflexivity|]. cbn [map_r].
    destruct IH as [l' El]; [intros; apply X; right; auto|]. destruct (X d q (or_introl eq_refl)) as [Kd Kq]. destruct (H d Kd) as [Hd Hp]. unfold check_decision at 1. cbn [fst snd].
    assert (Ih : incl (keys c) (nodes h)) by (intros x Hx; apply Mh; left; auto).
    destruct (is_dconnected_spec h (mec d) q (keys c)) as (b & Eb & Sb); [apply Mh|auto|apply Mh; right; eauto|]. rewrite Eb. cbn [bind].
    rewrite (proj2 (mem_In _ _) Hd). destruct Hp as [Hp|Hp].
    - rewrite Hp, andb_false_r. cbn [bind]. rewrite El. cbn [bind]. eauto.
    - assert (b = false) as ->. { destruct b; auto. exfalso. apply (Hp q Kq). apply (pendant_dconn h (ngraph n) (mec d) d (keys c) q); auto; [apply pendant_mech; auto; apply W|apply W|]. apply Sb. auto. }
      cbn [andb bind]. rewrite El. cbn [bind]. eauto. }
  destruct M as [l ->]. reflexivity.
Qed.

(* what the questions about one context need *)
Definition askable (m : macid) (n : net) (us : list node) (d : node) (pv : list (node * outcome)) : Prop :=
  NoDup (keys pv) /\ ~ In d (keys pv) /\
  (forall v x, In (v, x) pv -> In v (nodes (ngraph n)) /\ exists t, cpd_of n v = Some t /\ tkind t <> KTab /\ In x (tdom t) /\ lookup v (doms n) = Some (tdom t)) /\
  (forall e, In e (decisions m) -> In e (nodes (ngraph n)) /\ (has_policy n e = true \/ forall q, In q us -> ~ pend_conn (ngraph n) (keys pv ++ [d]) e q)) /\
  (forall u, In u us -> ~ In u (keys pv) /\ u <> d) /\
  (forall x, In x (dom_of (doms n) d) -> do_prob n [] (pv ++ [(d, x)]) <> 0).
Lemma actions_total : forall o m n us d pv dom, valid_order o -> built n -> distribution n -> no_clash (ngraph n) -> (forall u v, In u (nodes (ngraph n)) -> In v (nodes (ngraph n)) -> joined (ngraph n) [] u v) ->
  us <> [] -> incl us (nodes (ngraph n)) -> askable m n us d pv -> (exists t, cpd_of n d = Some t /\ tkind t <> KTab /\ lookup d (doms n) = Some (tdom t)) -> In d (nodes (ngraph n)) ->
  incl dom (dom_of (doms n) d) -> exists vs, action_values o m us d pv n dom = (n, Ok vs) /\ length vs = length dom.
Proof.
  intros o m n us d pv dom O B Hd NC J Nu Iu (Np & Nd & Dp & Pd & Du & Z) (td & Ctd & Ktd & Ltd) Hn Id. assert (W : wf_dag (ngraph n)) by apply Hd. induction dom as [|x dom IH]; cbn [action_values]; [eauto|].
  destruct IH as (vs & E & Lv); [intros y Hy; apply Id; right; auto|]. rewrite (dset_last _ d x pv Nd). set (c := pv ++ [(d, x)]). assert (Kk : keys c = keys pv ++ [d]) by (unfold keys, c; rewrite map_app; auto).
  assert (Hx : In x (dom_of (doms n) d)) by (apply Id; left; auto). assert (Hx' : In x (tdom td)) by (unfold dom_of in Hx; rewrite Ltd in Hx; auto).
  assert (Dc : forall v y, In (v, y) c -> In v (nodes (ngraph n)) /\ exists t, cpd_of n v = Some t /\ tkind t <> KTab /\ In y (tdom t) /\ lookup v (doms n) = Some (tdom t)).
  { intros v y K. apply in_app_or in K. destruct K as [K|[K|[]]]; auto. injection K as <- <-. split; auto. exists td. auto. }
  assert (Ic : incl (keys c) (nodes (ngraph n))). { intros v K. apply in_map_iff in K. destruct K as ([v' y] & <- & K). apply (Dc v' y K). }
  assert (C1 : check_domains n c = Ok tt). { apply check_domains_ok. intros v y K. destruct (Dc v y K) as (K1 & t & K2 & K3 & K4 & _). split; auto. exists t. auto. }
  assert (C2 : check_policies m n us c [] = Ok tt) by (apply check_policies_given; auto; rewrite Kk; auto).
  assert (Ni : in_domains n c). { intros v y K. destruct (Dc v y K) as (_ & t & _ & _ & K4 & K5). exists (tdom t). auto. }
  assert (Nc : NoDup (keys c)). { rewrite Kk. apply NoDup_app'; auto; [repeat constructor; intros []|]. intros y Hy [<-|[]]. auto. }
  destruct (proj1 (C41_defined o (copy_roles_only m n) n us c [] O B Hd (NoDup_nil _) ltac:(intros ? []) ltac:(intros ? ? []) ltac:(intros ? ? ? []) Nc Ni Ic
     Nu Iu (fun q q' Hq Hq' => J q q' (Iu q Hq) (Iu q' Hq')) ltac:(intros q Hq K; rewrite Kk in K; apply in_app_or in K; destruct (Du q Hq); destruct K as [K|[K|[]]]; auto) (or_introl eq_refl)) (Z x Hx)) as (n2 & lv & Ev).
  assert (X : macid_expected_value o m n us c [] = (n2, Ok lv)). { rewrite <- Ev. unfold macid_expected_value, macid_query. rewrite C1. cbn [bind]. rewrite C2. reflexivity. }
  assert (n2 = n) as ->. { destruct (C37_methods_partial o m n us c [] W) as (_ & _ & Fr & _). apply (Fr n2 _ X). intros v Hv. destruct us as [|u us']; [congruence|]. exists u. split; [left; auto|]. apply J; auto. apply Iu. left; auto. }
  match goal with |- context [macid_expected_value ?a ?b ?c0 ?d0 ?e ?f] => replace (macid_expected_value a b c0 d0 e f) with (n, @Ok (list Qc) lv) by (symmetry; exact X) end. rewrite E. exists ((x, qsum lv) :: vs). split; [reflexivity|cbn [length]; congruence].
Qed.
Lemma answers_total : forall o m n us d pvs, valid_order o -> built n -> distribution n -> no_clash (ngraph n) -> (forall u v, In u (nodes (ngraph n)) -> In v (nodes (ngraph n)) -> joined (ngraph n) [] u v) ->
  us <> [] -> incl us (nodes (ngraph n)) -> (forall pv, In pv pvs -> askable m n us d pv) -> (exists t, cpd_of n d = Some t /\ tkind t <> KTab /\ lookup d (doms n) = Some (tdom t)) -> In d (nodes (ngraph n)) ->
  exists l, opt_answers o m us d (dom_of (doms n) d) n pvs = Ok l.
Proof.
  intros o m n us d pvs O B Hd NC J Nu Iu A T Hn. induction pvs as [|pv pvs IH]; cbn [opt_answers]; [eauto|]. destruct IH as [l El]; [intros; apply A; right; auto|].
  destruct (actions_total o m n us d pv (dom_of (doms n) d) O B Hd NC J Nu Iu (A pv (or_introl eq_refl)) T Hn (incl_refl _)) as (vs & E & Lv).
  unfold opt_action. rewrite E. destruct (dist_lookup n d Hd Hn) as [_ Ne]. destruct vs as [|xv vs]; [destruct (dom_of (doms n) d); [congruence|discriminate]|]. cbn [bind]. rewrite El. cbn [bind]. eauto.
Qed.
