(* Property C42: total effects. *)
From Coq Require Import String List Bool Arith QArith Qcanon Lia Permutation.
Import ListNotations.
From Verif Require Import MBase MGraph MMacid MCpd MNet MProb MQuery MEffects Spec SpecM SpecC SpecN SpecQ LBase LGraph LQc LCpd LNet LCheck LSum LBayes LSep LQuery LDo LInter LFactor LBuilt LTotal LCheckN LEffects PQuery.
Local Open Scope string_scope.
Local Open Scope list_scope.
Local Open Scope Qc_scope.

Lemma expected_keeps : forall o m n qs c vx iv n' r, macid_expected_value o m n qs c (vx :: iv) = (n', r) -> n' = n.
Proof.
  intros o m n qs c vx iv n' r H. unfold macid_expected_value in H. destruct (macid_query o m n qs c (vx :: iv)) as [n1 r1] eqn:E. injection H as <- _.
  unfold macid_query in E. destruct (_ <- check_domains n c ;; check_policies m n qs c (vx :: iv)); [|congruence]. unfold query in E. destruct (check_context (doms n) c); congruence.
Qed.
Lemma effect_keeps : forall o m n a x v n' r, effect_term o m n a x v = (n', r) -> n' = n.
Proof.
  intros o m n a x v n' r H. unfold effect_term in H. destruct (macid_expected_value o m n [x] [] [(a, v)]) as [n1 r1] eqn:E. injection H as <- _. eapply expected_keeps; eauto.
Qed.
Lemma total_effect_inv : forall o m n a x a0 a1 n' r, total_effect o m n a x a0 a1 = (n', Ok r) ->
  exists e1 e0, n' = n /\ effect_term o m n a x a1 = (n, Ok e1) /\ effect_term o m n a x a0 = (n, Ok e0) /\ r = e1 - e0.
Proof.
  intros o m n a x a0 a1 n' r H. unfold total_effect in H. destruct (effect_term o m n a x a1) as [n1 [e1|e]] eqn:E1; [|discriminate]. assert (n1 = n) as -> by (eapply effect_keeps; eauto).
  destruct (effect_term o m n a x a0) as [n0 [e0|e]] eqn:E0; [|discriminate]. assert (n0 = n) as -> by (eapply effect_keeps; eauto). injection H as <- <-. exists e1, e0. auto.
Qed.
Lemma effect_value : forall o m n a x v e, valid_order o -> built n -> distribution n -> In a (nodes (ngraph n)) -> in_domains n [(a, v)] -> tables_sorted n [(a, v)] ->
  effect_term o m n a x v = (n, Ok e) -> e = expectation n [(a, v)] [] x /\ In x (nodes (ngraph n)).
Proof.
  intros o m n a x v e O B Hd Ha Di Ts H. unfold effect_term, macid_expected_value in H. destruct (macid_query o m n [x] [] [(a, v)]) as [n1 [f|e1]] eqn:E; [|discriminate]. cbn [bind] in H.
  destruct (expectations f) as [l|e1] eqn:Ef; [|discriminate]. cbn [bind] in H. destruct (macid_query_inv _ _ _ _ _ _ _ _ E) as (_ & _ & _ & Q).
  assert (Nv : NoDup (keys [(a, v)])) by (repeat constructor; auto). assert (Iv : incl (keys [(a, v)]) (nodes (ngraph n))) by (intros u [<-|[]]; auto).
  assert (X : l = [expectation n [(a, v)] [] x]).
  { apply (C41_single o (copy_roles_only m n) n x [] [(a, v)] n1); auto; [constructor|intros u Hu; destruct Hu|rewrite do_prob_nil; auto; discriminate|].
    refine (eq_trans (f_equal (fun z : net * result factor => let '(n', r) := z in (n', f <- r ;; expectations f)) Q) _). cbn [bind]. rewrite Ef. auto. }
  subst l. injection H as _ <-. split; auto.
  destruct (query_exact o (copy_roles_only m n) n [x] [] [(a, v)] n1 f O B Hd) as (_ & Iq & _); auto; [constructor|intros u Hu; destruct Hu|]. apply Iq. left; auto.
Qed.
(* total_effect is the difference of the expectations under the two interventions, and the network is left alone *)
Theorem C42_total_effect_partial : forall o m n a x a0 a1 n' r, valid_order o -> built n -> distribution n -> In a (nodes (ngraph n)) ->
  in_domains n [(a, a0); (a, a1)] -> tables_sorted n [(a, a1)] -> total_effect o m n a x a0 a1 = (n', Ok r) ->
  n' = n /\ r = expectation n [(a, a1)] [] x - expectation n [(a, a0)] [] x.
Proof.
  intros o m n a x a0 a1 n' r O B Hd Ha Di Ts H. destruct (total_effect_inv _ _ _ _ _ _ _ _ _ H) as (e1 & e0 & -> & E1 & E0 & ->).
  assert (D1 : in_domains n [(a, a1)]) by (intros v y [X|[]]; injection X as <- <-; apply Di; right; left; auto).
  assert (D0 : in_domains n [(a, a0)]) by (intros v y [X|[]]; injection X as <- <-; apply Di; left; auto).
  split; auto. f_equal; [|f_equal]; eapply effect_value; eauto.
Qed.
Print Assumptions C42_total_effect_partial.
(* it vanishes when there is no directed path from a to x *)
Theorem C42_zero_partial : forall o m n a x a0 a1 n' r, valid_order o -> built n -> distribution n -> In a (nodes (ngraph n)) ->
  in_domains n [(a, a0); (a, a1)] -> tables_sorted n [(a, a1)] -> ~ reach (ngraph n) a x -> total_effect o m n a x a0 a1 = (n', Ok r) -> r = 0.
Proof.
  intros o m n a x a0 a1 n' r O B Hd Ha Di Ts Nr H. destruct (C42_total_effect_partial o m n a x a0 a1 n' r O B Hd Ha Di Ts H) as [_ ->].
  assert (D1 : in_domains n [(a, a1)]) by (intros v y [X|[]]; injection X as <- <-; apply Di; right; left; auto).
  assert (D0 : in_domains n [(a, a0)]) by (intros v y [X|[]]; injection X as <- <-; apply Di; left; auto).
  destruct (total_effect_inv _ _ _ _ _ _ _ _ _ H) as (e1 & e0 & _ & E1 & _ & _). destruct (effect_value o m n a x a1 e1 O B Hd Ha D1 Ts E1) as [_ Hx].
  assert (Same : forall v, in_domains n [(a, v)] -> expectation n [(a, v)] [] x = expectation n [] [] x).
  { intros v Dv. assert (Nv : NoDup (keys [(a, v)])) by (repeat constructor; auto). assert (Iv : incl (keys [(a, v)]) (nodes (ngraph n))) by (intros u [<-|[]]; auto).
    unfold expectation. rewrite (do_prob_nil n [(a, v)]), (do_prob_nil n []); auto; [|constructor|intros u Hu; destruct Hu|intros u y Hu; destruct Hu].
    f_equal. apply map_ext. intro y. assert (E : do_prob n [(a, v)] [(x, y)] = do_prob n [] [(x, y)]). { apply do_prob_unaffected; auto. - intros u [<-|[]]; auto. - intros u w [<-|[]] [<-|[]]. auto. } do 2 f_equal. exact E. }
  rewrite !Same; auto. ring.
Qed.
Print Assumptions C42_zero_partial.
Lemma do_prob_self : forall n a v y, distribution n -> In a (nodes (ngraph n)) -> in_domains n [(a, v)] -> do_prob n [(a, v)] [(a, y)] = if oeqb v y then 1 else 0.
Proof.
  intros n a v y Hd Ha Dv. assert (Nv : NoDup (keys [(a, v)])) by (repeat constructor; auto). assert (Iv : incl (keys [(a, v)]) (nodes (ngraph n))) by (intros u [<-|[]]; auto).
  assert (E : do_prob n [(a, v)] [(a, v)] = 1). { rewrite <- (do_prob_nil n [(a, v)]); auto. rewrite (do_prob_reduce n [(a, v)] []) by auto. reflexivity. }
  destruct (oeqb_spec v y) as [<-|Hn]; auto. rewrite do_prob_reduce by auto. unfold clash. cbn [existsb fst snd lookup]. rewrite String.eqb_refl. destruct (oeqb_spec v y); [contradiction|]. reflexivity.
Qed.
(* the effect on the intervened variable itself *)
Theorem C42_self_partial : forall o m n a a0 a1 n' r, valid_order o -> built n -> distribution n -> In a (nodes (ngraph n)) ->
  in_domains n [(a, a0); (a, a1)] -> tables_sorted n [(a, a1)] -> total_effect o m n a a a0 a1 = (n', Ok r) -> r = a1 - a0.
Proof.
  intros o m n a a0 a1 n' r O B Hd Ha Di Ts H. destruct (C42_total_effect_partial o m n a a a0 a1 n' r O B Hd Ha Di Ts H) as [_ ->].
  assert (D1 : in_domains n [(a, a1)]) by (intros v y [X|[]]; injection X as <- <-; apply Di; right; left; auto).
  assert (D0 : in_domains n [(a, a0)]) by (intros v y [X|[]]; injection X as <- <-; apply Di; left; auto).
  assert (Same : forall v, in_domains n [(a, v)] -> expectation n [(a, v)] [] a = v); [|rewrite !Same; auto].
  intros v Dv. assert (Nv : NoDup (keys [(a, v)])) by (repeat constructor; auto). assert (Iv : incl (keys [(a, v)]) (nodes (ngraph n))) by (intros u [<-|[]]; auto).
  unfold expectation. rewrite do_prob_nil by auto. change (qsum (map (fun x => x * (do_prob n [(a, v)] [(a, x)] / 1)) (dom_of (doms n) a)) = v).
  rewrite (qsum_single _ Qc_eq_dec _ _ v).
  - rewrite do_prob_self by auto. replace (oeqb v v) with true by (symmetry; apply oeqb_iff; auto). field. discriminate.
  - apply dom_nodup; auto.
  - eapply in_domains_dom; eauto. left; auto.
  - intros y Hy Ne. rewrite do_prob_self by auto. destruct (oeqb_spec v y); [congruence|]. field. discriminate.
Qed.
Print Assumptions C42_self_partial.
Theorem C42_antisymmetric : forall o m n a x a0 a1 n' r, total_effect o m n a x a0 a1 = (n', Ok r) -> total_effect o m n a x a1 a0 = (n', Ok (- r)).
Proof.
  intros o m n a x a0 a1 n' r H. destruct (total_effect_inv _ _ _ _ _ _ _ _ _ H) as (e1 & e0 & -> & E1 & E0 & ->). unfold total_effect. rewrite E0, E1. cbn [bind]. do 2 f_equal. ring.
Qed.
Print Assumptions C42_antisymmetric.
Theorem C42_introduced : forall o m n a d y a0 a1 n' r t, total_effect o m n a y a0 a1 = (n', Ok t) -> t <> 0 ->
  introduced_total_effect o m n a d y a0 a1 true = (n', Ok r) -> introduced_total_effect o m n a d y a1 a0 true = (n', Ok r).
Proof.
  intros o m n a d y a0 a1 n' r t Ht Nz H. unfold introduced_total_effect in *. destruct (total_effect o m n a d a0 a1) as [n1 [td|e]] eqn:Ed; [|discriminate].
  assert (n1 = n) as -> by (destruct (total_effect_inv _ _ _ _ _ _ _ _ _ Ed) as (? & ? & -> & _); auto). rewrite (C42_antisymmetric _ _ _ _ _ _ _ _ _ Ed).
  rewrite Ht in H. rewrite (C42_antisymmetric _ _ _ _ _ _ _ _ _ Ht). cbn [bind] in *. rewrite !andb_true_r in *. injection H as H. f_equal. rewrite <- H.
  destruct (qleb 0 t) eqn:L, (qleb 0 (- t)) eqn:L'; cbn [negb].
  - exfalso. apply qleb_iff in L, L'. apply Nz. apply Qcle_antisym; auto. apply Qcopp_le_compat in L'. rewrite Qcopp_involutive in L'. exact L'.
  - f_equal; ring.
  - f_equal; ring.
  - exfalso. apply qleb_false in L, L'. apply Qclt_minus_iff in L. apply (Qclt_not_le _ _ L'). rewrite Qcplus_0_l in L. apply Qclt_le_weak; auto.
Qed.
Print Assumptions C42_introduced.

(* ---- examples ---- *)
Definition ex_plain : macid := diagram_of (ngraph ex_chain) [] [].
Lemma chain_in : in_domains ex_chain [("B", 0); ("B", 1)].
Proof.
  intros v y H. assert (X : match lookup "B" (doms ex_chain) with Some d => olist_eqb d [0; 1] | None => false end = true) by (vm_compute; reflexivity).
  destruct (lookup "B" (doms ex_chain)) as [d|] eqn:E; [|discriminate]. apply olist_eqb_iff in X. subst d.
  destruct H as [H|[H|[]]]; injection H as <- <-; exists [0; 1]; (split; [exact E|]); [left|right; left]; reflexivity.
Qed.
Lemma chain_sorted : forall y, tables_sorted ex_chain [("B", y)].
Proof.
  intros y v u t [<-|[]] _ _. cbn [fst]. assert (X : dom_of (doms ex_chain) "B" = [0; 1]) by (apply olist_eqb_iff; vm_compute; reflexivity). rewrite X. repeat constructor; vm_compute; reflexivity.
Qed.
Ltac effect_is e r := 
  let X := fresh in assert (X : match snd e with Ok y => oeqb y r | _ => false end = true) by (vm_compute; reflexivity);
  let n' := fresh in let y := fresh in let E := fresh in destruct e as [n' [y|?]] eqn:E; [|discriminate X]; apply oeqb_iff in X; subst y; exists n'; reflexivity.
(* B has an effect on C, none on A, and all of it on itself; with the effect on B as reference, the effect introduced at C *)
Example C42_example : built ex_chain /\ distribution ex_chain /\ In "B" (nodes (ngraph ex_chain)) /\ in_domains ex_chain [("B", 0); ("B", 1)] /\ tables_sorted ex_chain [("B", 1)] /\
  ~ reach (ngraph ex_chain) "B" "A" /\ (exists n', total_effect (fun _ l => l) ex_plain ex_chain "B" "A" 0 1 = (n', Ok 0)) /\
  (exists r, r <> 0 /\ exists n', total_effect (fun _ l => l) ex_plain ex_chain "B" "C" 0 1 = (n', Ok r)) /\
  (exists n', total_effect (fun _ l => l) ex_plain ex_chain "B" "B" 0 1 = (n', Ok 1)).
Proof.
  split; [exact (proj1 ex_chain_built)|]. split; [exact (proj2 ex_chain_built)|]. split; [vm_compute; auto|]. split; [exact chain_in|]. split; [apply chain_sorted|]. split; [|split; [|split]].
  - intro R. assert (X : has_path (ngraph ex_chain) "B" "A" = false) by (vm_compute; reflexivity).
    assert (Y : has_path (ngraph ex_chain) "B" "A" = true); [|congruence]. apply has_path_iff; auto; [exact (proj1 (proj1 (proj2 ex_chain_built)))|vm_compute; auto].
  - effect_is (total_effect (fun _ l => l) ex_plain ex_chain "B" "A" 0 1) (0 : Qc).
  - assert (X : match snd (total_effect (fun _ l => l) ex_plain ex_chain "B" "C" 0 1) with Ok y => negb (oeqb y 0) | _ => false end = true) by (vm_compute; reflexivity).
    destruct (total_effect (fun _ l => l) ex_plain ex_chain "B" "C" 0 1) as [n' [y|e]]; [|discriminate X]. exists y. split; [|exists n'; reflexivity]. intros ->. discriminate X.
  - effect_is (total_effect (fun _ l => l) ex_plain ex_chain "B" "B" 0 1) (1 : Qc).
Qed.
(* the adapted introduced effect is not symmetric when there is no effect on the reference variable *)
Example C42_introduced_needs : exists r n1 n2, r <> 0 /\ introduced_total_effect (fun _ l => l) ex_plain ex_chain "B" "C" "A" 0 1 true = (n1, Ok r) /\
  introduced_total_effect (fun _ l => l) ex_plain ex_chain "B" "C" "A" 1 0 true = (n2, Ok (- r)).
Proof.
  assert (X : match snd (introduced_total_effect (fun _ l => l) ex_plain ex_chain "B" "C" "A" 0 1 true), snd (introduced_total_effect (fun _ l => l) ex_plain ex_chain "B" "C" "A" 1 0 true) with
    Ok y, Ok z => negb (oeqb y 0) && oeqb z (- y) | _, _ => false end = true) by (vm_compute; reflexivity).
  destruct (introduced_total_effect (fun _ l => l) ex_plain ex_chain "B" "C" "A" 0 1 true) as [n1 [y|e]]; [|discriminate X].
  destruct (introduced_total_effect (fun _ l => l) ex_plain ex_chain "B" "C" "A" 1 0 true) as [n2 [z|e]]; [|discriminate X].
  apply andb_true_iff in X. destruct X as [X1 X2]. apply oeqb_iff in X2. subst z. exists y, n1, n2. split; [|split; reflexivity]. intros ->. discriminate X1.
Qed.
