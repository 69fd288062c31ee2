(* Lemmas about the optimal decision rule in every context. *)
From Coq Require Import String List Bool Arith QArith Qcanon Lia Permutation Setoid.
Import ListNotations.
From Verif Require Import MBase MGraph MMacid MCpd MNet MProb MQuery MPolicy Spec SpecM SpecC SpecN SpecQ SpecPol LBase LGraph LRoles LCopy LQc LCpd LNet LSum LBayes LSep LQuery LDo LInter LFactor LEdit LBuilt LTotal LCheckN LEffects PMacid PQuery LPolicy LValue LQcArith LSearch LLike LOptimal.
Local Open Scope Qc_scope.

(* ---- probabilities in a part of a network, and in a network like it ---- *)
Lemma variant_prob : forall n n' c, distribution n -> variant n [] n' -> incl (keys c) (nodes (ngraph n')) -> do_prob n' [] c = do_prob n [] c.
Proof.
  intros n n' c Hd V Ic. assert (Hd' := v_dist _ _ _ V).
  rewrite (do_prob_barren n [] c (nodes (ngraph n')) Hd); [|constructor|intros ? []|intros ? ? []|apply (v_nodes _ _ _ V)|apply Hd'|intros u v E _ Hv; apply (v_closed _ _ _ V u v E); auto|auto].
  rewrite (do_prob_barren n' [] c (nodes (ngraph n')) Hd'); [|constructor|intros ? []|intros ? ? []|apply incl_refl|apply Hd'|intros u v E _ Hv; apply (proj1 Hd') in E; tauto|auto].
  rewrite (total_dom_perm (ndom n') (ndom n)).
  2:{ intros v Hv. rewrite (ndom_in n' v Hv), (ndom_in n v (v_nodes _ _ _ V v Hv)), (variant_dom _ _ _ v V). auto. }
  apply total_ext. intro b. f_equal. unfold weight. apply qprod_ext. intros v Hv. unfold do_kernel. cbn [lookup]. unfold kernel. rewrite (v_tables _ _ _ V v Hv (fun K => K)).
  destruct (cpd_of n v) as [t|]; auto. apply entry_doms. intro w. apply (variant_dom _ _ _ w V).
Qed.
Lemma like_prob : forall n n' iv c, like n n' -> do_prob n' iv c = do_prob n iv c.
Proof.
  intros n n' iv c L. unfold do_prob. rewrite (l_nodes _ _ L). rewrite (total_dom_perm (dom_of (doms n')) (dom_of (doms n))) by (intros v Hv; rewrite (l_dom _ _ L v Hv); auto).
  apply total_ext_in. intros a Ha _. destruct (agrees c a); auto. unfold do_joint. destruct (agrees iv a); auto. rewrite (l_nodes _ _ L). f_equal. apply map_ext_in. intros v Hv. destruct (in_dec String.string_dec v (keys iv)); auto.
  apply (l_kernel _ _ L v a Hv). exact Ha.
Qed.
Lemma qprod_one : forall (f : node -> Qc) d l, NoDup l -> In d l -> qprod (map f l) = f d * qprod (map (fun v => if in_dec String.string_dec v [d] then 1 else f v) l).
Proof.
  intros f d l N. induction N as [|x l Nx N IH]; intros Hd; [destruct Hd|]. cbn [map]. unfold qprod in *. cbn [fold_right]. destruct (in_dec String.string_dec x [d]) as [[->|[]]|K].
  - rewrite Qcmult_1_l. f_equal. f_equal. apply map_ext_in. intros v Hv. destruct (in_dec String.string_dec v [x]) as [[->|[]]|]; auto. contradiction.
  - destruct Hd as [->|Hd]; [exfalso; apply K; left; auto|]. rewrite (IH Hd). ring.
Qed.
(* a variable that has the value x with probability k whatever its parents are *)
Lemma random_prob : forall n n1 d k x c, In d (nodes (ngraph n)) -> NoDup (nodes (ngraph n)) -> ngraph n1 = ngraph n -> (forall v, dom_of (doms n1) v = dom_of (doms n) v) ->
  (forall v a, In v (nodes (ngraph n)) -> v <> d -> within n a -> kernel n1 v a = kernel n v a) -> (forall a, within n a -> a d = x -> kernel n1 d a = k) ->
  do_prob n1 [] (c ++ [(d, x)]) = k * do_prob n [(d, x)] c.
Proof.
  intros n n1 d k x c Hd Nn G Dm Ko Kd. unfold do_prob. rewrite G, <- total_scale. rewrite (total_dom_perm (dom_of (doms n1)) (dom_of (doms n))) by (intros v Hv; rewrite Dm; auto).
  apply total_ext_in. intros a Ha _. rewrite agrees_app. destruct (agrees c a); cbn [andb]; [|ring]. unfold do_joint. destruct (agrees [(d, x)] a) eqn:E; [|ring]. cbn [agrees forallb keys map fst]. rewrite G.
  assert (Wa : within n a) by exact Ha. apply agrees_iff with (v := d) (x := x) in E; [|left; auto]. change (fold_right Qcmult 1) with qprod.
  transitivity (qprod (map (fun v => kernel n1 v a) (nodes (ngraph n)))). { apply qprod_ext. intros v _. destruct (in_dec String.string_dec v []) as [[]|]; auto. }
  rewrite (qprod_one _ d _ Nn Hd), (Kd a Wa E). f_equal. apply qprod_ext. intros v Hv. repeat match goal with |- context [in_dec ?e v ?l] => destruct (in_dec e v l) as [?K|?K] end; auto; try contradiction. apply Ko; auto. intros ->. apply K. left; auto.
Qed.
Lemma random_expectation : forall n n1 d k x c u, In d (nodes (ngraph n)) -> NoDup (nodes (ngraph n)) -> ngraph n1 = ngraph n -> (forall v, dom_of (doms n1) v = dom_of (doms n) v) ->
  (forall v a, In v (nodes (ngraph n)) -> v <> d -> within n a -> kernel n1 v a = kernel n v a) -> (forall a, within n a -> a d = x -> kernel n1 d a = k) ->
  k <> 0 -> do_prob n [(d, x)] c <> 0 -> expectation n1 [] (c ++ [(d, x)]) u = expectation n [(d, x)] c u.
Proof.
  intros n n1 d k x c u Hd Nn G Dm Ko Kd Nk Nz. unfold expectation. rewrite Dm. f_equal. apply map_ext. intro y. f_equal. change ((u, y) :: c ++ [(d, x)]) with (((u, y) :: c) ++ [(d, x)]).
  rewrite !(random_prob n n1 d k x); auto. field. auto.
Qed.
Lemma variant_expectation : forall n n' c u, distribution n -> variant n [] n' -> incl (keys c) (nodes (ngraph n')) -> In u (nodes (ngraph n')) -> expectation n' [] c u = expectation n [] c u.
Proof.
  intros n n' c u Hd V Ic Iu. unfold expectation. rewrite (variant_dom _ _ _ u V). f_equal. apply map_ext. intro y. f_equal. rewrite !(variant_prob n n'); auto. intros v [<-|Hv]; auto.
Qed.
Lemma like_expectation : forall n n' iv c u, like n n' -> In u (nodes (ngraph n)) -> expectation n' iv c u = expectation n iv c u.
Proof. intros n n' iv c u L Hu. unfold expectation. rewrite (l_dom _ _ L u Hu). f_equal. apply map_ext. intro y. rewrite !(like_prob n n'); auto. Qed.

(* ---- one query ---- *)
Lemma no_query : forall o n c, wf_dag (ngraph n) -> forall n2 f, query_connected o n [] c <> (n2, Ok f).
Proof.
  intros o n c W n2 f H. unfold query_connected in H. cbn [map_r concat] in H. destruct (loop_net remove_node n (filter (fun v => negb (mem v [])) (nodes (ngraph n)))) as [n3 [e|]] eqn:El; [discriminate|].
  destruct (remove_nodes_spec _ _ _ W El) as (_ & N3 & _). assert (Z : nodes (ngraph n3) = []).
  { destruct (nodes (ngraph n3)) as [|x l] eqn:E; auto. exfalso. assert (X : In x (x :: l)) by (left; auto). rewrite N3 in X. apply filter_In in X. destruct X as [X1 X2]. apply negb_true_iff, mem_nIn in X2. apply X2. apply filter_In. auto. }
  unfold is_connected in H. rewrite Z in H. discriminate.
Qed.
Lemma reach_joined : forall g u v, reach g u v -> joined g [] u v.
Proof. intros g u v H. induction H as [|u w v E H IH]; [constructor|]. eapply joined_step; [|exact IH]. left. split; auto. Qed.
Lemma joined_back : forall g u v, joined g [] u v -> joined g [] v u.
Proof.
  assert (T : forall g u v w, joined g [] u v -> joined g [] v w -> joined g [] u w) by (intros g u v w H; induction H; intros; [auto|eapply joined_step; eauto]).
  intros g u v H. induction H as [|u v w E H IH]; [constructor|]. eapply T; [exact IH|]. eapply joined_step; [|constructor]. tauto.
Qed.
Lemma variant_reach : forall n ds n' u v, variant n ds n' -> reach (ngraph n) u v -> In u (nodes (ngraph n')) -> reach (ngraph n') u v.
Proof.
  intros n ds n' u v V H. induction H as [|u w v E H IH]; intros Hu; [constructor|]. eapply reach_step; [apply (v_edges _ _ _ V); split; [exact E|auto]|]. apply IH. apply (v_closed _ _ _ V u w E). auto.
Qed.
(* asking for the expected utilities given a decision and what it observes *)
Lemma context_query : forall o m n us d c n' n2 l, valid_order o -> distribution n -> variant n [] n' -> NoDup us -> NoDup (keys c) ->
  (forall u, In u us -> reach (ngraph n) d u) -> (forall v, In v (keys c) -> v = d \/ edge (ngraph n) v d) ->
  macid_expected_value o m n' us c [] = (n2, Ok l) ->
  us <> [] /\ variant n [] n2 /\ do_prob n [] c <> 0 /\ qsum l = qsum (map (expectation n [] c) us).
Proof.
  intros o m n us d c n' n2 l O Hd V Nu Nc Ru Kc H. assert (Hd' := v_dist _ _ _ V). assert (B' := v_built _ _ _ V). unfold macid_expected_value in H.
  destruct (macid_query o m n' us c []) as [n3 [f|e]] eqn:Q; [|discriminate]. cbn [bind] in H. destruct (expectations f) as [l'|e] eqn:Ef; [|discriminate]. injection H as <- <-.
  destruct (macid_query_inv _ _ _ _ _ _ _ _ Q) as (Ic & _ & Dc & Q'). assert (B3 : built n3) by (eapply built_query; eauto).
  assert (Qc' : query_connected o n' us c = (n3, Ok f)). { unfold query in Q'. destruct (check_context (doms n') c); [exact Q'|discriminate]. }
  assert (Nus : us <> []) by (intros ->; apply (no_query o n' c (proj1 Hd') n3 f); auto).
  destruct (query_variant o n [] n' us c n3 f V Qc' B3) as (V3 & Iu3 & _ & _).
  assert (Di : in_domains n' []) by (intros ? ? []). assert (Ts : tables_sorted n' []) by (intros ? ? ? []).
  destruct (query_exact o (copy_roles_only m n') n' us c [] n3 f O B' Hd' Nc Ic (NoDup_nil _) Di Ts Q') as (_ & Iu & _ & _ & _ & _ & c1 & c2 & Pc & Far & E1 & E2 & _).
  assert (c2 = []) as ->.
  { destruct c2 as [|[v x] c2]; auto. exfalso. destruct us as [|u us]; [congruence|]. assert (Kv : In v (keys c)). { apply in_map_iff. exists (v, x). split; auto. apply (Permutation_in _ (Permutation_sym Pc)). apply in_or_app. right. left. auto. }
    apply (Far v u); [left; auto|left; auto|]. apply joined_back. assert (R := Ru u (or_introl eq_refl)). apply reach_joined. apply (variant_reach n [] n' v u V); [|apply Ic; auto]. destruct (Kc v Kv) as [->|E]; auto. eapply reach_step; eauto. }
  rewrite app_nil_r in Pc. assert (Z : do_prob n' [] c <> 0).
  { unfold expectations in Ef. cbv zeta in Ef. rewrite E2 in Ef. match type of Ef with context [oeqb ?a 0] => destruct (oeqb_spec a 0) as [K|K]; [discriminate|] end. rewrite (do_prob_perm n' [] c c1 Pc). intro Z. apply K. assert (G : forall a : Qc, a = 0 -> a / a = 0) by (intros a ->; auto). exact (G _ Z). }
  destruct (C41_expectations_partial o (copy_roles_only m n') n' us c [] n3 l' O B' Hd' Nc Ic (NoDup_nil _) Di Ts Z) as (vs & Nv & Iv & ->). { assert (X := f_equal (fun z : net * result factor => let '(n', r) := z in (n', f <- r ;; expectations f)) Q'). cbn [bind] in X. rewrite Ef in X. exact X. }
  split; auto. split; auto. split; [rewrite <- (variant_prob n n' c Hd V Ic); auto|].
  transitivity (qsum (map (expectation n' [] c) us)); [apply qsum_perm, Permutation_map, NoDup_Permutation; auto|]. apply qsum_ext. intros u Hu. apply variant_expectation; auto.
Qed.

(* ---- the loop over the actions, and over the contexts ---- *)
Lemma dset_last : forall (A : Type) k (v : A) d, ~ In k (keys d) -> dset k v d = d ++ [(k, v)].
Proof.
  intros A k v d. induction d as [|[k' v'] d IH]; intro H; auto. cbn [dset]. destruct (String.eqb_spec k k') as [->|]; [exfalso; apply H; left; auto|]. rewrite IH; auto. intro K. apply H. right; auto.
Qed.
Definition worth (n : net) (us : list node) (d : node) (pv : list (node * outcome)) (x : outcome) : Qc := qsum (map (expectation n [] (pv ++ [(d, x)])) us).
Lemma actions_worth : forall o m n us d pv dom n' n2 vs, valid_order o -> distribution n -> variant n [] n' -> NoDup us -> NoDup (keys pv) -> ~ In d (keys pv) ->
  (forall u, In u us -> reach (ngraph n) d u) -> (forall v, In v (keys pv) -> edge (ngraph n) v d) ->
  action_values o m us d pv n' dom = (n2, Ok vs) -> variant n [] n2 /\ vs = map (fun x => (x, worth n us d pv x)) dom /\ (dom <> [] -> us <> []) /\ forall x, In x dom -> do_prob n [] (pv ++ [(d, x)]) <> 0.
Proof.
  intros o m n us d pv dom. induction dom as [|x dom IH]; intros n' n2 vs O Hd V Nu Np Nd Ru Kp H; cbn [action_values] in H.
  - injection H as <- <-. split; [exact V|]. split; [reflexivity|]. split; [congruence|]. intros ? [].
  - destruct (macid_expected_value o m n' us (dset d x pv) []) as [n1 [l|e]] eqn:E; [|discriminate]. destruct (action_values o m us d pv n1 dom) as [n3 [vs'|e]] eqn:E'; [|discriminate]. cbn [bind] in H. injection H as <- <-.
    rewrite (dset_last _ d x pv Nd) in E. assert (Kk : keys (pv ++ [(d, x)]) = keys pv ++ [d]) by (unfold keys; rewrite map_app; auto).
    destruct (context_query o m n us d (pv ++ [(d, x)]) n' n1 l O Hd V Nu) as (Ne & V1 & Z & Q); auto.
    + rewrite Kk. apply NoDup_app'; auto; [repeat constructor; intros []|]. intros y Hy [<-|[]]. auto.
    + intros v Hv. rewrite Kk in Hv. apply in_app_or in Hv. destruct Hv as [Hv|[<-|[]]]; auto.
    + destruct (IH n1 n3 vs' O Hd V1 Nu Np Nd Ru Kp E') as (V3 & -> & _ & Z'). split; auto. split; [cbn [map]; rewrite Q; auto|]. split; auto. intros y [<-|Hy]; auto.
Qed.
Lemma arg_max_spec : forall (V : outcome -> Qc) l x, let y := arg_max (x, V x) (map (fun z => (z, V z)) l) in In y (x :: l) /\ forall z, In z (x :: l) -> V z <= V y.
Proof.
  intros V l. induction l as [|w l IH]; intros x; cbn [map arg_max fst snd].
  - split; [left; auto|]. intros z [<-|[]]. apply Qcle_refl.
  - destruct (qleb (V w) (V x)) eqn:E; cbn [negb].
    + apply qleb_iff in E. destruct (IH x) as [I M]. split; [destruct I as [I|I]; [left|right; right]; auto|]. intros z [<-|[<-|Hz]]; [apply M; left; auto| |apply M; right; auto]. apply Qcle_trans with (V x); auto. apply M. left; auto.
    + apply qleb_false in E. destruct (IH w) as [I M]. split; [right; exact I|]. intros z [<-|[<-|Hz]]; [|apply M; left; auto|apply M; right; auto]. apply Qcle_trans with (V w); [apply Qclt_le_weak; auto|]. apply M. left; auto.
Qed.
Definition best (n : net) (us : list node) (d : node) (dom : list outcome) (pv : list (node * outcome)) : outcome :=
  match dom with [] => 0 | x :: dom' => arg_max (x, worth n us d pv x) (map (fun z => (z, worth n us d pv z)) dom') end.
Lemma best_spec : forall n us d dom pv, dom <> [] -> In (best n us d dom pv) dom /\ forall x, In x dom -> worth n us d pv x <= worth n us d pv (best n us d dom pv).
Proof. intros n us d [|x dom] pv H; [congruence|]. unfold best. apply (arg_max_spec (worth n us d pv) dom x). Qed.
Lemma answers_best : forall o m n us d dom pvs n' l, valid_order o -> distribution n -> variant n [] n' -> NoDup us -> (forall u, In u us -> reach (ngraph n) d u) -> dom <> [] ->
  (forall pv, In pv pvs -> NoDup (keys pv) /\ ~ In d (keys pv) /\ forall v, In v (keys pv) -> edge (ngraph n) v d) ->
  opt_answers o m us d dom n' pvs = Ok l -> l = map (fun pv => (pv, best n us d dom pv)) pvs /\ (pvs <> [] -> us <> []) /\ forall pv x, In pv pvs -> In x dom -> do_prob n [] (pv ++ [(d, x)]) <> 0.
Proof.
  intros o m n us d dom pvs. induction pvs as [|pv pvs IH]; intros n' l O Hd V Nu Ru Ne Hp H; cbn [opt_answers] in H.
  - injection H as <-. split; [reflexivity|]. split; [congruence|]. intros ? ? [].
  - unfold opt_action in H. destruct (action_values o m us d pv n' dom) as [n1 [vs|e]] eqn:E; [|discriminate]. cbn [bind] in H. destruct (Hp pv (or_introl eq_refl)) as (P1 & P2 & P3).
    destruct (actions_worth o m n us d pv dom n' n1 vs O Hd V Nu P1 P2 Ru P3 E) as (V1 & -> & Nus & Z). destruct dom as [|x dom]; [congruence|]. cbn [map bind] in H.
    destruct (opt_answers o m us d (x :: dom) n1 pvs) as [l'|e] eqn:E'; [|discriminate]. cbn [bind] in H. injection H as <-.
    destruct (IH n1 l' O Hd V1 Nu Ru Ne (fun pv' K => Hp pv' (or_intror K)) E') as (-> & _ & Z'). split; [reflexivity|]. split; [intros _; apply Nus; congruence|]. intros pv' y [<-|K] Hy; auto.
Qed.
Lemma answer_found : forall (h : list (node * outcome) -> outcome) pvs pv, In pv pvs -> answer_of (map (fun p => (p, h p)) pvs) pv = Ok (VOut (h pv)).
Proof.
  intros h pvs pv. induction pvs as [|p pvs IH]; intros H; [destruct H|]. cbn [map answer_of]. match goal with |- context [if ?c then _ else _] => destruct c as [->|K]; auto end. destruct H as [->|H]; [congruence|auto].
Qed.
