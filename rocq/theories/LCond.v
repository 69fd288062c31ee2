(* Lemmas about conditional expectations as predictions. *)
From Coq Require Import String List Bool Arith QArith Qcanon Lia Permutation.
Import ListNotations.
From Verif Require Import MBase MGraph MMacid MCpd MNet MProb MQuery MPolicy MCond Spec SpecM SpecC SpecN SpecQ SpecPol SpecCond LBase LGraph LRoles LCopy LQc LCpd LNet LSum LBayes LSep LQuery LDo LInter LFactor LEdit LBuilt LTotal LCheckN LEffects PMacid PQuery LPolicy LValue LQcArith LSearch LLike LOptimal LOptDec LBest.
Local Open Scope Qc_scope.

(* ---- the conditional expectation minimises the mean squared error ---- *)
Definition pv_dec : forall x y : list (node * outcome), {x = y} + {x <> y}.
Proof. apply list_eq_dec. intros [a b] [c d]. destruct (String.string_dec a c), (Qc_eq_dec b d); try (left; congruence); right; congruence. Defined.
Lemma prob_total : forall n c, do_prob n [] c = total (dom_of (doms n)) (nodes (ngraph n)) (fun b => (if agrees c b then 1 else 0) * joint n b) (fun _ => 0).
Proof.
  intros n c. unfold do_prob. apply total_ext. intro b. unfold do_joint. cbn [agrees forallb keys map]. destruct (agrees c b); [|ring]. rewrite Qcmult_1_l. unfold joint. apply qprod_ext. intros v Hv. destruct (in_dec String.string_dec v []) as [[]|]; auto.
Qed.
Lemma moment : forall n c u, distribution n -> In u (nodes (ngraph n)) ->
  total (dom_of (doms n)) (nodes (ngraph n)) (fun b => (if agrees c b then 1 else 0) * (joint n b * b u)) (fun _ => 0) = expectation n [] c u * do_prob n [] c.
Proof.
  intros n c u Hd Hu. unfold expectation. change (fold_right Qcplus 0) with qsum. rewrite (Qcmult_comm _ (do_prob n [] c)), <- qsum_scale.
  rewrite (qsum_ext _ _ (fun x => total (dom_of (doms n)) (nodes (ngraph n)) (fun b => x * ((if agrees ((u, x) :: c) b then 1 else 0) * joint n b)) (fun _ => 0))).
  2:{ intros x _. rewrite total_scale, <- prob_total. destruct (Qc_eq_dec (do_prob n [] c) 0) as [Z|Z]; [|field; auto]. rewrite Z, Qcmult_0_l.
      assert (M := do_prob_more n [] c (u, x) Hd (NoDup_nil _) ltac:(intros ? []) ltac:(intros ? ? [])). assert (M' : do_prob n [] ((u, x) :: c) <= 0) by (rewrite <- Z; exact M).
      assert (P : 0 <= do_prob n [] ((u, x) :: c)). { rewrite do_prob_P by (constructor || intros ? []). apply P_nonneg. apply do_kernel_cond; auto. intros ? ? K; discriminate. }
      rewrite (Qcle_antisym _ _ M' P). ring. }
  rewrite <- total_qsum. apply total_ext_in. intros b Hb _. rewrite (qsum_single _ Qc_eq_dec _ _ (b u)).
  - change (agrees ((u, b u) :: c) b) with (oeqb (b u) (b u) && agrees c b). replace (oeqb (b u) (b u)) with true by (symmetry; apply oeqb_iff; auto). cbn [andb]. destruct (agrees c b); ring.
  - apply dom_nodup; auto.
  - apply Hb; auto.
  - intros y Hy Ne. change (agrees ((u, y) :: c) b) with (oeqb (b u) y && agrees c b). destruct (oeqb_spec (b u) y); [congruence|]. cbn [andb]. ring.
Qed.
Lemma seen_agrees : forall (a : asg) ps, agrees (map (fun p => (p, a p)) ps) a = true.
Proof. intros a ps. apply agrees_iff. intros v x H. apply in_map_iff in H. destruct H as (p & E & _). injection E as <- <-. auto. Qed.
Lemma agrees_seen : forall (a : asg) pv, agrees pv a = true -> map (fun p => (p, a p)) (map fst pv) = pv.
Proof.
  intros a pv H. rewrite agrees_iff in H. rewrite map_map. rewrite <- (map_id pv) at 2. apply map_ext_in. intros [v x] K. cbn [fst]. rewrite (H v x K). auto.
Qed.
Lemma orthogonal : forall n d y (g k : list (node * outcome) -> Qc), distribution n -> In d (nodes (ngraph n)) -> In y (nodes (ngraph n)) ->
  (forall pv, context_of (doms n) (parents (ngraph n) d) pv -> do_prob n [] pv <> 0 -> g pv = expectation n [] pv y) ->
  total (dom_of (doms n)) (nodes (ngraph n)) (fun a => (a y - g (observed n d a)) * k (observed n d a) * joint n a) (fun _ => 0) = 0.
Proof.
  intros n d y g k Hd Hn Hy H. set (ps := parents (ngraph n) d). assert (R : ready (doms n) ps) by (apply dist_ready; auto).
  assert (Np : forall p, In p ps -> In p (nodes (ngraph n))) by (intros p K; apply edge_parents in K; eapply wf_edge_l; [apply Hd|eauto]).
  rewrite (total_ext_in _ _ _ (fun a => qsum (map (fun pv => k pv * ((if agrees pv a then 1 else 0) * (joint n a * a y)) + - (k pv * g pv) * ((if agrees pv a then 1 else 0) * joint n a)) (contexts (doms n) ps)))).
  - rewrite total_qsum. rewrite (qsum_ext _ _ (fun _ => 0)); [apply qsum_zero|]. intros pv Hp. apply in_contexts' in Hp; auto. rewrite total_plus, !total_scale, moment, <- prob_total by auto.
    destruct (Qc_eq_dec (do_prob n [] pv) 0) as [Z|Z]; [rewrite Z; ring|]. rewrite (H pv Hp Z). ring.
  - intros a Ha _. rewrite (qsum_single _ pv_dec _ _ (observed n d a)).
    + assert (SA : agrees (observed n d a) a = true) by apply seen_agrees. rewrite SA. ring.
    + apply nodup_contexts. intros p K. apply dom_nodup; auto.
    + apply in_contexts'; auto. split; [unfold observed; rewrite map_map; apply map_id|]. intros p x K. apply in_map_iff in K. destruct K as (q & E & K). injection E as <- <-.
      destruct (dist_lookup n q Hd (Np q K)) as [L _]. exists (dom_of (doms n) q). split; auto.
    + intros pv Hp Ne. apply in_contexts' in Hp; auto. destruct (agrees pv a) eqn:E; [|ring]. exfalso. apply Ne. apply agrees_seen in E. rewrite (proj1 Hp) in E. symmetry. exact E.
Qed.
Lemma least_squares : forall n d y (g h : list (node * outcome) -> Qc), distribution n -> In d (nodes (ngraph n)) -> In y (nodes (ngraph n)) ->
  (forall pv, context_of (doms n) (parents (ngraph n) d) pv -> do_prob n [] pv <> 0 -> g pv = expectation n [] pv y) ->
  mean_squared_error n d y g <= mean_squared_error n d y h.
Proof.
  intros n d y g h Hd Hn Hy H. assert (Or := orthogonal n d y g (fun pv => (1 + 1) * (g pv - h pv)) Hd Hn Hy H). unfold mean_squared_error. change (fold_right Qcmult 1) with qprod.
  match goal with |- ?a <= ?b => match type of Or with ?t = _ => replace a with (a + t) by (rewrite Or; ring) end end. rewrite <- total_plus. apply total_le. intros a Ha _. fold (joint n a).
  set (e := observed n d a). assert (J : 0 <= joint n a). { apply qprod_nonneg. intros q Hq. apply in_map_iff in Hq. destruct Hq as (v & <- & Hv). apply (k_nonneg _ _ _ (kernel_cond n Hd) v a Hv). }
  assert (S : 0 <= (g e - h e) * (g e - h e)) by (generalize (g e - h e); intro z; qcnra).
  assert (K : 0 * joint n a <= (g e - h e) * (g e - h e) * joint n a) by (apply Qcmult_le_compat_r; auto). 
  replace ((a y - h e) * (a y - h e) * joint n a) with ((a y - g e) * (a y - g e) * joint n a + (a y - g e) * ((1 + 1) * (g e - h e)) * joint n a + (g e - h e) * (g e - h e) * joint n a) by ring. rewrite Qcmult_0_l in K. 
  generalize dependent ((a y - g e) * (a y - g e) * joint n a + (a y - g e) * ((1 + 1) * (g e - h e)) * joint n a). intros z. generalize dependent ((g e - h e) * (g e - h e) * joint n a). intros w Hw. qclra.
Qed.

(* ---- the answers ---- *)
Lemma known_expectation : forall n pv y x, distribution n -> incl (keys pv) (nodes (ngraph n)) -> lookup y pv = Some x -> do_prob n [] pv <> 0 -> expectation n [] pv y = x.
Proof.
  intros n pv y x Hd Ip L Nz. assert (Hy : In y (nodes (ngraph n))) by (apply Ip; apply lookup_In in L; apply (in_map fst) in L; exact L).
  assert (M := moment n pv y Hd Hy). rewrite (total_ext_in _ _ _ (fun b => x * ((if agrees pv b then 1 else 0) * joint n b))) in M.
  - rewrite total_scale, <- prob_total in M. replace (expectation n [] pv y) with (expectation n [] pv y * do_prob n [] pv / do_prob n [] pv) by (field; auto). rewrite <- M. field; auto.
  - intros b _ _. destruct (agrees pv b) eqn:E; [|ring]. rewrite agrees_iff in E. rewrite (E y x (lookup_In _ _ _ _ L)). ring.
Qed.
Lemma cond_exp_ok : forall o m n n' y pv n2 x, valid_order o -> distribution n -> variant n [] n' -> NoDup (keys pv) -> incl (keys pv) (nodes (ngraph n)) ->
  cond_exp o m y n' pv = (n2, Ok x) -> variant n [] n2 /\ In y (nodes (ngraph n)) /\ (do_prob n [] pv <> 0 -> x = expectation n [] pv y).
Proof.
  intros o m n n' y pv n2 x O Hd V Np Ip H. unfold cond_exp in H. destruct (lookup y pv) as [z|] eqn:L.
  { injection H as <- <-. split; auto. split; [apply Ip; apply lookup_In in L; apply (in_map fst) in L; exact L|]. intro Nz. symmetry. apply known_expectation; auto. }
  destruct (macid_expected_value o m n' [y] pv []) as [n3 [l|e]] eqn:Q; [|discriminate]. cbn [bind] in H. destruct l as [|w l]; [discriminate|]. injection H as <- <-.
  assert (Hd' := v_dist _ _ _ V). assert (B' := v_built _ _ _ V). unfold macid_expected_value in Q.
  destruct (macid_query o m n' [y] pv []) as [n4 [f|e]] eqn:Qm; [|discriminate]. cbn [bind] in Q. destruct (expectations f) as [l'|e] eqn:Ef; [|discriminate]. injection Q as <- El.
  destruct (macid_query_inv _ _ _ _ _ _ _ _ Qm) as (Ic & _ & Dc & Q'). assert (B3 : built n4) by (eapply built_query; eauto).
  assert (Qc' : query_connected o n' [y] pv = (n4, Ok f)). { unfold query in Q'. destruct (check_context (doms n') pv); [exact Q'|discriminate]. }
  destruct (query_variant o n [] n' [y] pv n4 f V Qc' B3) as (V3 & Iu3 & _ & _). split; auto.
  assert (Hy3 : In y (nodes (ngraph n4))) by (apply Iu3; left; auto). split; [apply (v_nodes _ _ _ V3); auto|]. intro Nz.
  assert (Hy' : In y (nodes (ngraph n'))).
  { unfold query_connected in Qc'. cbn [map_r] in Qc'. unfold component in Qc'. destruct (mem y (nodes (ngraph n'))) eqn:My; [apply mem_In; auto|discriminate]. }
  rewrite <- (variant_prob n n' pv Hd V Ic) in Nz. assert (Di : in_domains n' []) by (intros ? ? []). assert (Ts : tables_sorted n' []) by (intros ? ? ? []).
  assert (X : expected_value o (copy_roles_only m n') n' [y] pv [] = (n4, Ok l')) by (unfold expected_value; rewrite Q'; cbn [bind]; rewrite Ef; auto).
  assert (Y := C41_single o _ n' y pv [] n4 l' O B' Hd' Np Ic (NoDup_nil _) Di Ts Nz X). rewrite Y in El. injection El as <- _. apply variant_expectation; auto.
Qed.
Lemma cond_answers_fst : forall o m y pvs n, map fst (cond_answers o m y n pvs) = pvs.
Proof. intros o m y pvs. induction pvs as [|pv pvs IH]; intro n; auto. cbn [cond_answers]. destruct (cond_exp o m y n pv) as [n1 r]. cbn [map fst]. rewrite IH. auto. Qed.
Lemma cond_answers_ok : forall o m n y pvs n', valid_order o -> distribution n -> variant n [] n' -> (forall pv, In pv pvs -> NoDup (keys pv) /\ incl (keys pv) (nodes (ngraph n))) ->
  (forall pv r, In (pv, r) (cond_answers o m y n' pvs) -> exists x, r = Ok x) ->
  forall pv x, In (pv, Ok x) (cond_answers o m y n' pvs) -> In y (nodes (ngraph n)) /\ (do_prob n [] pv <> 0 -> x = expectation n [] pv y).
Proof.
  intros o m n y pvs. induction pvs as [|pv pvs IH]; intros n' O Hd V K Hr q x Hq; [destruct Hq|]. cbn [cond_answers] in *. destruct (cond_exp o m y n' pv) as [n1 r] eqn:E.
  destruct (Hr pv r (or_introl eq_refl)) as [z ->]. destruct (K pv (or_introl eq_refl)) as [K1 K2]. destruct (cond_exp_ok o m n n' y pv n1 z O Hd V K1 K2 E) as (V1 & Hy & X).
  destruct Hq as [Hq|Hq]; [injection Hq as <- <-; auto|]. apply (IH n1 O Hd V1); auto; [intros; apply K; right; auto|]. intros; eapply Hr; right; eauto.
Qed.
Lemma cond_answers_known : forall o m y pvs n pv r x, In (pv, r) (cond_answers o m y n pvs) -> lookup y pv = Some x -> r = Ok x.
Proof.
  intros o m y pvs. induction pvs as [|q qs IH]; intros n pv r x K Lk; [destruct K|]. cbn [cond_answers] in K. destruct (cond_exp o m y n q) as [n2 r'] eqn:E. destruct K as [K|K]; [|eapply IH; eauto].
  injection K as -> ->. unfold cond_exp in E. rewrite Lk in E. congruence.
Qed.
(* ---- none of them is the exception used for waiting ---- *)
Definition calm {A} (r : result A) : Prop := r <> Err ParentsNotReady.
Lemma calm_ok : forall A (x : A), calm (Ok x). Proof. intros A x H; discriminate. Qed.
Lemma calm_bind : forall A B (r : result A) (f : A -> result B), calm r -> (forall x, calm (f x)) -> calm (bind r f).
Proof. intros A B [x|e] f H K; cbn [bind]; [apply K|]. intros E. injection E as ->. apply H; auto. Qed.
Lemma calm_map : forall A B (f : A -> result B) l, (forall x, calm (f x)) -> calm (map_r f l).
Proof. intros A B f l H E. apply map_r_err in E. destruct E as (x & _ & E). apply (H x E). Qed.
Ltac calm := repeat first [apply calm_ok | apply calm_bind; [|intro] | apply calm_map; intro | progress (intros; cbv zeta) |
  match goal with |- calm (if ?b then _ else _) => destruct b | |- calm (match ?r with _ => _ end) => destruct r eqn:? | |- calm (Err _) => discriminate end ].
Lemma calm_check_domains : forall n c, calm (check_domains n c).
Proof. intros n c. induction c as [|[v x] c IH]; cbn [check_domains]; [apply calm_ok|]. unfold get_cpds. calm; auto. Qed.
Lemma calm_add_edge : forall g u v, calm (bn_add_edge g u v). Proof. intros. unfold bn_add_edge. calm. Qed.
Lemma calm_mechanisms : forall ns g, calm (add_mechanisms g ns).
Proof. induction ns as [|x ns IH]; intro g; cbn [add_mechanisms]; [apply calm_ok|]. destruct (String.eqb _ _); [discriminate|]. apply calm_bind; [apply calm_add_edge|auto]. Qed.
Lemma calm_check_policies : forall m n qs c, calm (check_policies m n qs c []).
Proof.
  intros. unfold check_policies. apply calm_bind; [unfold mechanism_graph, new_graph; calm; apply calm_mechanisms|]. intro mg. apply calm_bind; [apply calm_ok|]. intro es. apply calm_bind.
  - generalize (mgraph mg). induction es as [|[u v] es IH]; intro g; cbn [cut_edges]; [apply calm_ok|]. apply calm_bind; [unfold nx_remove_edge; calm|auto].
  - intro h. apply calm_bind; [|intro; apply calm_ok]. apply calm_map. intros [d q]. unfold check_decision, is_dconnected, active_trail_nodes. calm.
Qed.
Lemma calm_remove : forall l n n' e, loop_net remove_node n l = (n', Some e) -> e <> ParentsNotReady.
Proof.
  induction l as [|v l IH]; intros n n' e H; cbn [loop_net] in H; [discriminate|]. unfold remove_node at 1 in H.
  match type of H with context [if ?b then _ else _] => destruct b end.
  - unfold del_item in H. destruct (mem v (keys (rels n))); [|injection H as _ <-; discriminate]. unfold nx_remove_node in H. match type of H with context [mem v ?l] => destruct (mem v l) end; [eapply IH; eauto|injection H as _ <-; discriminate].
  - unfold nx_remove_node in H. destruct (mem v (nodes (ngraph n))); [eapply IH; eauto|injection H as _ <-; discriminate].
Qed.
Lemma calm_bp : forall o n qs c, calm (bp_query o n qs c).
Proof.
  intros. unfold bp_query. apply calm_bind; [|intro; calm]. unfold check_model. calm; unfold check_node, check_cards; calm.
Qed.
Lemma calm_query : forall o m n qs c n' r, macid_query o m n qs c [] = (n', r) -> calm r.
Proof.
  intros o m n qs c n' r H. unfold macid_query in H. destruct (_ <- check_domains n c ;; check_policies m n qs c []) as [[]|e] eqn:E.
  2:{ injection H as _ <-. intros K. injection K as ->. revert E. apply calm_bind; [apply calm_check_domains|intro; apply calm_check_policies]. }
  unfold query in H. destruct (check_context (doms n) c) as [[]|e] eqn:E2.
  2:{ injection H as _ <-. clear E. revert E2. revert e. induction c as [|[v x] c IH]; intros e E2; cbn [check_context] in E2; [discriminate|]. destruct (lookup v (doms n)); [|injection E2 as <-; discriminate].
      destruct (omem x l); [apply IH; auto|injection E2 as <-; discriminate]. }
  unfold query_connected in H. destruct (map_r (component (ngraph n)) qs) as [cs|e] eqn:Ec.
  2:{ injection H as _ <-. intros K. injection K as ->. revert Ec. apply calm_map. intro. unfold component. calm. }
  destruct (loop_net _ _ _) as [n3 [e|]] eqn:El; [injection H as _ <-; intros K; injection K as ->; eapply calm_remove; eauto|].
  destruct (is_connected (ngraph n3)) as [[|]|e] eqn:Ei; injection H as _ <-; [apply calm_bp|discriminate|]. unfold is_connected in Ei. destruct (nodes (ngraph n3)); [injection Ei as <-|]; discriminate.
Qed.
Lemma calm_answers : forall o m y pvs n pv r, In (pv, r) (cond_answers o m y n pvs) -> calm r.
Proof.
  intros o m y pvs. induction pvs as [|q pvs IH]; intros n pv r H; [destruct H|]. cbn [cond_answers] in H. destruct (cond_exp o m y n q) as [n1 r1] eqn:E. destruct H as [H|H]; [|eapply IH; eauto].
  injection H as <- <-. unfold cond_exp in E. destruct (lookup y q); [injection E as _ <-; apply calm_ok|]. unfold macid_expected_value in E. destruct (macid_query o m n [y] q []) as [n2 r2] eqn:Q. injection E as _ <-.
  apply calm_bind; [apply calm_bind|]; [eapply calm_query; eauto|unfold expectations; calm|intro; calm].
Qed.
Lemma cached_in : forall l pv r, cached l pv = r -> r = Err KeyError \/ exists pv', In (pv', r) l.
Proof.
  induction l as [|[q s] l IH]; intros pv r H; cbn [cached] in H; [auto|]. destruct (same_kwargs q pv); [right; exists q; subst; left; auto|]. destruct (IH _ _ H) as [|(p & K)]; auto. right. exists p. right; auto.
Qed.
Lemma cond_fn_admissible : forall o m y pvs n d, admissible d (RFun (cond_fn (cond_answers o m y n pvs))).
Proof.
  intros o m y pvs n d. split; [|split].
  - intros pv E. cbn [body cond_fn] in E. revert E. apply calm_bind; [|intro; apply calm_ok]. intro E. destruct (cached_in _ _ _ E) as [K|(q & K)]; [discriminate|]. apply calm_answers in K. apply K; auto.
  - intros pv pv' N P. cbn [body cond_fn]. assert (X : cached (cond_answers o m y n pvs) pv = cached (cond_answers o m y n pvs) pv'); [|rewrite X; auto].
    generalize (cond_answers o m y n pvs). induction l as [|[q r] l IH]; cbn [cached]; auto. rewrite IH.
    assert (S : same_kwargs q pv = same_kwargs q pv'); [|rewrite S; auto]. unfold same_kwargs. rewrite (Permutation_length P). f_equal. clear - N P. induction q as [|[k x] q IH]; cbn [forallb]; auto. rewrite IH. cbn [fst]. rewrite (lookup_perm _ k pv pv' N P). auto.
  - intros pv dd E. cbn [body cond_fn] in E. destruct (cached _ pv); discriminate.
Qed.
Lemma same_context : forall pv pv', NoDup (map fst pv') -> map fst pv = map fst pv' -> same_kwargs pv pv' = true -> pv = pv'.
Proof.
  intros pv pv' N E S. unfold same_kwargs in S. apply andb_true_iff in S. destruct S as [_ S]. rewrite forallb_forall in S.
  assert (G : forall l l', map fst l = map fst l' -> incl l pv -> incl l' pv' -> l = l').
  { induction l as [|[k x] l IH]; intros [|[k' x'] l'] El I I'; try discriminate; auto. cbn [map fst] in El. injection El as -> El.
    assert (X := S (k', x) (I _ (or_introl eq_refl))). cbn [fst snd] in X. rewrite (In_lookup _ k' x' pv' N (I' _ (or_introl eq_refl))) in X. apply oeqb_iff in X. subst x'. f_equal. apply IH; auto; intros z Hz; [apply I|apply I']; right; auto. }
  apply G; auto; intros z Hz; auto.
Qed.
Lemma cached_at : forall l ps pv, (forall q r, In (q, r) l -> map fst q = ps) -> map fst pv = ps -> NoDup ps -> NoDup (map fst l) -> forall r, In (pv, r) l -> cached l pv = r.
Proof.
  induction l as [|[q s] l IH]; intros ps pv K E N Nl r H; [destruct H|]. cbn [cached]. cbn [map fst] in Nl. inversion Nl as [|? ? N1 N2]; subst. destruct H as [H|H].
  - injection H as -> ->. replace (same_kwargs pv pv) with true; auto. symmetry. unfold same_kwargs. rewrite Nat.eqb_refl. apply forallb_forall. intros [k x] Hk. cbn [fst snd]. rewrite (In_lookup _ k x pv N Hk). apply oeqb_iff. auto.
  - destruct (same_kwargs q pv) eqn:S; [|eapply IH; eauto; intros; eapply K; right; eauto]. exfalso. apply same_context in S; auto; [|eapply K; left; eauto]. subst q. apply N1. apply in_map_iff. exists (pv, r). auto.
Qed.
(* ---- the imputation ---- *)
Lemma imputes : forall o m n d y n', valid_order o -> built n -> distribution n -> impute_conditional_expectation_decision o m n d y = (n', None) ->
  exists t (g : list (node * outcome) -> Qc), In d (nodes (ngraph n)) /\ In y (nodes (ngraph n)) /\ built n' /\ ngraph n' = ngraph n /\
    (forall v, ~ reach (ngraph n) d v -> cpd_of n' v = cpd_of n v /\ lookup v (doms n') = lookup v (doms n)) /\
    has_table n' d t /\ plays n' d g t /\ choice_function n' d g /\
    (forall pv, context_of (doms n) (parents (ngraph n) d) pv -> do_prob n [] pv <> 0 -> g pv = expectation n [] pv y) /\
    (forall pv x, context_of (doms n) (parents (ngraph n) d) pv -> lookup y pv = Some x -> g pv = x).
Proof.
  intros o m n d y n' O B Hd H. assert (W : wf_dag (ngraph n)) by apply Hd. unfold impute_conditional_expectation_decision in H.
  destruct (macid_copy m n) as [[m1 n1]|e] eqn:Ec; [|discriminate]. assert (C1 : copy_net n = Ok n1).
  { unfold macid_copy in Ec. destruct (copy_without_cpds _); cbn [bind] in Ec; [|discriminate]. destruct (copy_net n); cbn [bind] in Ec; [|discriminate]. injection Ec as _ ->. auto. }
  assert (L := like_copy n n1 B Hd C1). set (pvs := match parent_values (ngraph n) (doms n) d with Ok l => l | Err _ => [] end) in H. set (l := cond_answers o m1 y n1 pvs) in H.
  assert (Ad : admissible d (RFun (cond_fn l))) by apply cond_fn_admissible.
  assert (B' : built n') by (eapply (built_step n (OAdd d (RFun (cond_fn l)))); eauto; intros v r E; injection E as <- <-; auto).
  assert (In0 := s_inv n (proj1 (built_sound n B))). unfold set_rel in H. destruct (set_item_keeps _ _ _ _ _ W In0 (proj1 Ad) H) as (I' & G & _ & Sd & _ & _).
  assert (Fr := set_item_frame (S (length (nodes (ngraph n)))) n d (RFun (cond_fn l)) W In0 (proj1 Ad)). cbv zeta in Fr. rewrite H in Fr. cbn [fst] in Fr. destruct Fr as [_ Fr].
  unfold settled in Sd. rewrite G in Sd. set (ps := parents (ngraph n) d) in *.
  assert (Hn : In d (nodes (ngraph n))).
  { destruct (in_dec String.string_dec d (nodes (ngraph n))) as [|K]; auto. exfalso. unfold table_of, table_from, init_table, get_parents in Sd. rewrite (proj2 (mem_nIn _ _) K) in Sd. exact Sd. }
  assert (Np : forall p, In p ps -> In p (nodes (ngraph n))) by (intros p K; apply edge_parents in K; eapply wf_edge_l; [apply Hd|eauto]).
  assert (Dp : forall p, In p ps -> lookup p (doms n') = lookup p (doms n)).
  { intros p K. apply Fr. intro R. apply edge_parents in K. apply (proj2 W p). exists d. split; auto. }
  assert (Lp : forall p, In p ps -> lookup p (doms n) = Some (dom_of (doms n) p)) by (intros p K; apply (dist_lookup n p Hd (Np p K))).
  assert (Rd : ready (doms n) ps) by (apply dist_ready; auto).
  assert (Rd' : ready (doms n') ps) by (intros p K; rewrite (Dp p K); apply Rd; auto).
  destruct (table_of (ngraph n) (doms n') d (RFun (cond_fn l))) as [t|e] eqn:T.
  2:{ exfalso. assert (E : e = ParentsNotReady) by (destruct e; auto; destruct Sd). subst e. revert T. apply ready_not_pnr; auto; [apply Ad|]. intros p K. apply edge_parents in K. apply Rd'. auto. }
  assert (T' := T). unfold table_of, table_from in T'. destruct (init_tabulates (ngraph n) (doms n') d (cond_fn l) [] KStoch (ideal (doms n')) Hn Rd' t T') as (Tb & Tk & Tc).
  destruct Tb as (Tv & Te & _ & _ & _ & _ & Tl & Tx).
  assert (Cx : forall pv, context_of (doms n) ps pv <-> context_of (doms n') ps pv).
  { intro pv. unfold context_of. split; intros [K1 K2]; (split; [auto|]); intros p x K; assert (Kp : In p ps) by (rewrite <- K1; apply (in_map fst) in K; exact K); destruct (K2 p x K) as (D & D1 & D2); exists D; (split; [|auto]); [rewrite (Dp p Kp)|rewrite <- (Dp p Kp)]; auto. }
  assert (Ep : pvs = contexts (doms n) ps) by (unfold pvs; rewrite contexts_ok; auto).
  set (g := fun pv => match cached l pv with Ok x => x | Err _ => 0 end).
  assert (Cg : forall pv, context_of (doms n) ps pv -> cached l pv = Ok (g pv)).
  { intros pv K. apply Cx in K. destruct (Tx pv K) as (col & w & _ & Cw & _). unfold call in Cw. destruct (binds _ _); [|discriminate]. cbn [body cond_fn] in Cw. unfold g. destruct (cached l pv); [auto|discriminate]. }
  assert (Nps : NoDup ps) by (apply nodup_parents; apply Hd).
  assert (Kl : forall q r, In (q, r) l -> context_of (doms n) ps q).
  { intros q r K. apply (in_map fst) in K. unfold l in K. rewrite cond_answers_fst, Ep in K. apply in_contexts' in K; auto. }
  assert (Nl : NoDup (map fst l)). { unfold l. rewrite cond_answers_fst, Ep. apply nodup_contexts. intros p K. apply dom_nodup; auto. }
  assert (At : forall q r, In (q, r) l -> r = Ok (g q)).
  { intros q r K. rewrite <- (Cg q (Kl q r K)). symmetry. apply (cached_at l ps q); auto; [intros q' r' K'; apply (proj1 (Kl q' r' K'))|apply (proj1 (Kl q r K))]. }
  assert (Inl : forall pv, context_of (doms n) ps pv -> In (pv, Ok (g pv)) l).
  { intros pv K. assert (K' : In pv (map fst l)) by (unfold l; rewrite cond_answers_fst, Ep; apply in_contexts'; auto). apply in_map_iff in K'. destruct K' as ([q r] & <- & K'). cbn [fst]. rewrite <- (At q r K'). auto. }
  assert (Hd1 := l_dist _ _ L). assert (B1 := l_built _ _ L).
  assert (Ans : forall pv, context_of (doms n) ps pv -> In y (nodes (ngraph n1)) /\ (do_prob n1 [] pv <> 0 -> g pv = expectation n1 [] pv y)).
  { intros pv K. apply (cond_answers_ok o m1 n1 y pvs n1 O Hd1 (variant_self n1 [] B1 Hd1)).
    - intros q Kq. rewrite Ep in Kq. apply in_contexts' in Kq; auto. assert (Eq : keys q = ps) by apply (proj1 Kq). rewrite Eq. split; auto. intros p Kp. rewrite (l_nodes _ _ L). auto.
    - intros q r Kq. exists (g q). apply (At q r Kq).
    - apply Inl; auto. }
  assert (Hy : In y (nodes (ngraph n))).
  { destruct (some_within n Hd) as [a Wa]. rewrite <- (l_nodes _ _ L). apply (Ans (map (fun p => (p, a p)) ps)). split; [rewrite map_map; apply map_id|].
    intros p x K. apply in_map_iff in K. destruct K as (q & E & K). injection E as <- <-. exists (dom_of (doms n) q). split; auto. }
  exists t, g. split; auto. split; auto. split; auto. split; auto. split; [exact Fr|]. split; [apply has_table_iff; auto|]. split; [|split; [|split]].
  - unfold plays. rewrite G. fold ps. split; auto. split; [apply (inv_dom _ I'); auto|]. split; auto. split; [unfold ideal in Tc; injection Tc as Tc; symmetry; exact Tc|]. split; auto. split; auto.
    intros pv K. destruct (Tx pv K) as (col & w & Nc & Cw & Iw & Cl & _). exists col. split; auto. apply Cx in K.
    assert (Ew : w = VOut (g pv)). { unfold call in Cw. destruct (binds _ _); [|discriminate]. cbn [body cond_fn] in Cw. rewrite (Cg pv K) in Cw. cbn [bind] in Cw. congruence. }
    subst w. assert (Di : is_dict (dist_of (VOut (g pv)))) by (repeat constructor; intros []). assert (Col := column_unique _ _ _ Di (Cl Di)). cbn [dist_of] in Col. rewrite complete_point in Col. subst col. unfold point.
    split; [apply map_length|]. intros i x Ei. rewrite nth_error_map, Ei. cbn [option_map]. f_equal. destruct (oeqb_spec x (g pv)), (Qc_eq_dec x (g pv)); congruence.
  - unfold choice_function. rewrite G. fold ps. intros pv K. destruct (Tx pv K) as (col & w & _ & Cw & Iw & _). apply Cx in K. unfold dom_of. rewrite (inv_dom _ I' d t Sd). apply Iw.
    unfold call in Cw. destruct (binds _ _); [|discriminate]. cbn [body cond_fn] in Cw. rewrite (Cg pv K) in Cw. cbn [bind] in Cw. injection Cw as <-. left. auto.
  - intros pv K Nz. destruct (Ans pv K) as [_ X]. rewrite <- (like_expectation n n1 [] pv y L Hy). apply X. rewrite (like_prob n n1 [] pv L). auto.
  - intros pv x K Lk. assert (K' := cond_answers_known o m1 y pvs n1 pv _ x (Inl pv K) Lk). congruence.
Qed.

(* ---- the error the decision makes in the new diagram ---- *)
Definition off (g : graph) (d : node) : list node := filter (fun v => negb (has_path g d v)) (nodes g).
Lemma in_off : forall g d v, wf_dag g -> In d (nodes g) -> (In v (off g d) <-> In v (nodes g) /\ ~ reach g d v).
Proof. intros g d v W Hd. unfold off. rewrite filter_In, negb_true_iff, <- not_true_iff_false, has_path_iff by (auto; apply W). tauto. Qed.
Lemma off_closed : forall g d, wf_dag g -> In d (nodes g) -> closed g (off g d).
Proof. intros g d W Hd u v E Hv. apply in_off in Hv; auto. apply in_off; auto. split; [eapply wf_edge_l; [apply W|eauto]|]. intro R. apply (proj2 Hv). eapply reach_trans; [exact R|]. econstructor; [exact E|constructor]. Qed.
Lemma same_kernel : forall n n' v a, distribution n -> In v (nodes (ngraph n)) -> cpd_of n' v = cpd_of n v -> (forall u, u = v \/ edge (ngraph n) u v -> lookup u (doms n') = lookup u (doms n)) -> kernel n' v a = kernel n v a.
Proof.
  intros n n' v a Hd Hv Ec Ed. unfold kernel. rewrite Ec. destruct (dist_table n v Hd Hv) as (t & Ct & T). rewrite Ct. unfold entry.
  assert (Ds : forall u, u = v \/ edge (ngraph n) u v -> states (doms n') u = states (doms n) u) by (intros u Hu; unfold states; rewrite (Ed u Hu); auto).
  rewrite (ok_var _ _ _ T), (Ds v (or_introl eq_refl)). f_equal. f_equal. unfold column_no.
  assert (Q : forall u, In u (tev t) -> states (doms n') u = states (doms n) u) by (intros u Hu; apply Ds; right; apply (ok_ev _ _ _ T); auto).
  revert Q. generalize 0%nat. generalize (tev t). induction l as [|u l IH]; intros i Q; cbn [fold_left]; auto. rewrite (Q u (or_introl eq_refl)). apply IH. intros w Hw. apply Q; right; auto.
Qed.
Lemma error_realised : forall n n' d y g t, distribution n -> distribution n' -> In d (nodes (ngraph n)) -> In y (nodes (ngraph n)) -> ~ reach (ngraph n) d y -> ngraph n' = ngraph n ->
  (forall v, ~ reach (ngraph n) d v -> cpd_of n' v = cpd_of n v /\ lookup v (doms n') = lookup v (doms n)) -> has_table n' d t -> plays n' d g t -> choice_function n' d g ->
  realised_error n' d y = mean_squared_error n d y g.
Proof.
  intros n n' d y g t Hd Hd' Hn Hy Ry G Fr Ht Pl Cf. assert (W : wf_dag (ngraph n)) by apply Hd. set (A := off (ngraph n) d). set (ps := parents (ngraph n) d).
  assert (HA : forall v, In v A <-> In v (nodes (ngraph n)) /\ ~ reach (ngraph n) d v) by (intro v; apply in_off; auto).
  assert (NA : NoDup A) by (apply NoDup_filter; apply W). assert (IA : incl A (nodes (ngraph n))) by (intros v Hv; apply HA; auto).
  assert (dA : ~ In d A) by (intro K; apply HA in K; apply (proj2 K); constructor).
  assert (Pa : forall p, edge (ngraph n) p d -> In p A). { intros p E. apply HA. split; [eapply wf_edge_l; [apply W|eauto]|]. intro R. apply (proj2 W p). exists d. split; auto. }
  assert (Cl : closed (ngraph n) A) by (apply off_closed; auto).
  assert (Kc := kernel_cond n Hd). assert (Kc' := kernel_cond n' Hd'). rewrite G in Kc'.
  assert (Ke : forall v a, In v A -> kernel n' v a = kernel n v a).
  { intros v a Hv. assert (Hv' := proj1 (HA v) Hv). apply same_kernel; auto; [apply Fr; tauto|]. intros u [->|E]; [apply Fr; tauto|]. apply Fr. apply HA. eapply Cl; eauto. }
  assert (De : forall v, In v A -> dom_of (doms n') v = dom_of (doms n) v) by (intros v Hv; unfold dom_of; rewrite (proj2 (Fr v (proj2 (proj1 (HA v) Hv)))); auto).
  unfold realised_error, mean_squared_error. rewrite G. change (fold_right Qcmult 1) with qprod.
  rewrite (total_ext _ _ _ (fun b => weight (kernel n') (nodes (ngraph n)) b * ((b y - b d) * (b y - b d)))) by (intro b; unfold weight; ring).
  rewrite (barren (ngraph n) (dom_of (doms n')) W (kernel n') (A ++ [d]) (fun b => (b y - b d) * (b y - b d))); auto.
  - rewrite (total_ext (dom_of (doms n)) _ _ (fun b => weight (kernel n) (nodes (ngraph n)) b * ((b y - g (observed n d b)) * (b y - g (observed n d b))))) by (intro b; unfold weight; ring).
    rewrite (barren (ngraph n) (dom_of (doms n)) W (kernel n) A (fun b => (b y - g (observed n d b)) * (b y - g (observed n d b)))); auto.
    + rewrite total_app. rewrite (total_dom_perm (dom_of (doms n')) (dom_of (doms n))) by (intros v Hv; rewrite (De v Hv); apply Permutation_refl). apply total_ext_in. intros b Hb _. cbn [total]. change (fold_right Qcplus 0) with qsum.
      assert (Yd : y <> d) by (intros ->; apply Ry; constructor).
      assert (Ob : forall x, ctx (upd b d x) ps = observed n d b). { intro x. unfold ctx, observed. fold ps. apply map_ext_in. intros p Hp. rewrite upd_other; auto. intros ->. apply in_parents in Hp. apply dA. auto. }
      assert (Cb : context_of (doms n') (parents (ngraph n') d) (observed n d b)).
      { rewrite G. fold ps. split; [unfold observed; rewrite map_map; apply map_id|]. intros p x K. apply in_map_iff in K. destruct K as (q & E & K). injection E as <- <-. apply in_parents in K. assert (Kq := Pa q K).
        assert (Nq : In q (nodes (ngraph n'))) by (rewrite G; apply HA; auto). exists (dom_of (doms n') q). split; [apply (dist_lookup n' q Hd' Nq)|]. rewrite (De q Kq). auto. }
      rewrite (qsum_ext _ _ (fun x => if Qc_eq_dec x (g (observed n d b)) then weight (kernel n) A b * ((b y - g (observed n d b)) * (b y - g (observed n d b))) else 0)).
      * rewrite (qsum_single _ Qc_eq_dec _ _ (g (observed n d b))); [destruct (Qc_eq_dec _ _); congruence|apply dom_nodup; auto; rewrite G; auto|apply Cf; auto|]. intros x _ Ne. destruct (Qc_eq_dec x (g (observed n d b))); congruence.
      * intros x Hx. rewrite upd_same. rewrite (upd_other b d x y Yd). rewrite weight_app. unfold weight at 2. cbn [map qprod fold_right].
        assert (E1 : weight (kernel n') A (upd b d x) = weight (kernel n) A b).
        { unfold weight. apply qprod_ext. intros v Hv. rewrite (Ke v _ Hv). apply (k_local _ _ _ Kc v); [apply IA; auto|]. intros u [->|E]; apply upd_other; intros ->; [auto|]. apply dA. eapply Cl; eauto. }
        rewrite E1. assert (Ed : kernel n' d (upd b d x) = if Qc_eq_dec x (g (observed n d b)) then 1 else 0).
        { assert (Hn' : In d (nodes (ngraph n'))) by (rewrite G; auto). destruct (dist_lookup n' d Hd' Hn') as [Ld _]. assert (Rd : ready (doms n') (parents (ngraph n') d)) by (apply dist_ready; auto).
          apply (plays_iff n' d (dom_of (doms n') d) g t Rd) in Pl; [|intros p Hp; apply dom_nodup; auto; apply in_parents in Hp; eapply wf_edge_l; [apply Hd'|eauto]|exact Ld]. unfold kernel. rewrite (proj1 (single_cpd n' d t ltac:(apply Hd')) Ht), Pl, det_entry; auto.
          - rewrite upd_same. rewrite G. fold ps. rewrite Ob. auto.
          - intros p Hp. rewrite G in Hp. apply in_parents in Hp. rewrite upd_other by (intros ->; apply dA; auto). rewrite (De p (Pa p Hp)). apply Hb. auto.
          - rewrite upd_same. auto. }
        rewrite Ed. destruct (Qc_eq_dec x (g (observed n d b))) as [->|]; ring.
    + intros a b E. assert (Eo : observed n d a = observed n d b). { unfold observed. apply map_ext_in. intros p Hp. f_equal. apply E. apply Pa. apply in_parents. auto. } rewrite Eo, (E y); auto. apply HA; auto.
  - intros v Hv. apply in_app_or in Hv. destruct Hv as [Hv|[<-|[]]]; auto.
  - apply NoDup_app'; auto; [constructor; [intros []|constructor]|]. intros v K [<-|[]]. auto.
  - intros u v E Hv. apply in_or_app. left. apply in_app_or in Hv. destruct Hv as [Hv|[<-|[]]]; [eapply Cl; eauto|auto].
  - intros a b E. rewrite (E y), (E d); auto; apply in_or_app; [right; left|left; apply HA]; auto.
Qed.
