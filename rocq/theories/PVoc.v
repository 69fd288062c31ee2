(* Property C62: the quantitative value of control. *)
From Coq Require Import String List Bool Arith QArith Qcanon Lia Permutation.
Import ListNotations.
From Verif Require Import MIncent SpecI LIncent LTrim LEffects.
From Verif Require PIncent.
From Verif Require Import PQuery PVoi LCheckN LCheck PCpd.
From Verif Require Import MBase MGraph MMacid MCpd MNet MProb MQuery MPolicy MVoi Spec SpecM SpecC SpecN SpecQ SpecPol SpecVoi LBase LGraph LDfs LPaths LQc LCpd LNet LSum LBayes LSep LQuery LDo LInter LEdit LBuilt LTotal LRoles LReach LTrim LActive LMech LPolicy LValue LQcArith LSearch LLike LOptimal LOptDec LBest LSolve LIndep PMacid PPolicy POptDec PSolve LVoi LVoc LReq.
Local Open Scope string_scope.
Local Open Scope list_scope.
Local Open Scope Qc_scope.

Lemma make_decision_graph : forall m k x mx, make_decision m x zero = (mx, None) -> In x (nodes k) -> make_decision (with_graph m k) x zero = (with_graph mx k, None).
Proof.
  intros m k x mx H Hx. unfold make_decision, make_chance in *. cbn [with_graph mgraph]. apply mem_In in Hx. rewrite Hx. destruct (mem x (nodes (mgraph m))); [|discriminate]. cbn [negb] in *.
  change (decisions (with_graph m k)) with (decisions m). change (utilities (with_graph m k)) with (utilities m). cbn [with_graph agent_decisions agent_utilities decision_agent utility_agent] in *. destruct (mem x (decisions m)).
  - destruct (lookup x (decision_agent m)) as [a|]; [|discriminate]. destruct (dict_list_remove a x (agent_decisions m)) as [ad|]; [|discriminate]. injection H as <-. reflexivity.
  - destruct (mem x (utilities m)); [|injection H as <-; reflexivity]. destruct (lookup x (utility_agent m)) as [a|]; [|discriminate]. destruct (dict_list_remove a x (agent_utilities m)) as [ad|]; [|discriminate]. injection H as <-. reflexivity.
Qed.

Lemma voc_core : forall o choose m n ds us x mx mn q, valid_order o -> valid m -> mgraph m = ngraph n -> no_clash (ngraph n) ->
  agent_decisions m = [(zero, ds)] -> agent_utilities m = [(zero, us)] -> built n -> distribution n -> ~ In x us ->
  sufficient_recall m None = Ok true -> make_decision m x zero = (mx, None) ->
  quantitative_voc o choose m n x = (mn, Ok q) ->
  exists v w n1 n2 ds', best_value n ds us v /\ q = w - v /\ optimal_utility o choose (with_graph mx (ngraph n1)) n1 = (n2, Ok w) /\
    valid (with_graph mx (ngraph n1)) /\ no_clash (ngraph n1) /\ agent_decisions mx = [(zero, ds')] /\ agent_utilities mx = [(zero, us)] /\ built n1 /\ distribution n1 /\
    (sufficient_recall mx None = Ok true -> sufficient_recall (with_graph mx (ngraph n1)) None = Ok true) /\ (unset_uniform n -> unset_uniform n1) /\
    (forall b, policy n1 ds' b <-> policy n (x :: ds) b) /\ forall b, policy n (x :: ds) b -> value n1 ds' b us = value n (x :: ds) b us.
Proof.
  intros o choose m n ds us x mx mn q O V Eg NC Ea Eu B Hd Nx Sr Em H. unfold quantitative_voc in H. destruct (mem x (nodes (ngraph n))) eqn:Mx; [|discriminate]. cbn [negb] in H. apply mem_In in Mx.
  destruct (optimal_utility o choose m n) as [n1 [ev1|e]] eqn:E1; [|discriminate]. destruct (solved o choose m n ds us n1 ev1 O V Eg NC Ea Eu B Hd Sr E1) as (Best1 & n1a & Hd1a & Df & V1 & Iu1 & Kn).
  assert (G1a : ngraph n1a = ngraph n) by apply Df. assert (P : piece (ngraph n) (ngraph n1)) by (rewrite <- G1a; eapply variant_piece; eauto).
  destruct (make_decision (with_graph m (ngraph n1)) x zero) as [m1 [e|]] eqn:E2; [discriminate|]. destruct (made_decision m x ds us mx (proj1 (proj2 V)) Ea Eu Nx Em) as (_ & Gx & Cx & Eux & ds' & Eax & Ids').
  destruct (made_decision (with_graph m (ngraph n1)) x ds us m1 (proj1 (proj2 V)) Ea Eu Nx E2) as (Hx1 & _). cbn [with_graph mgraph] in Hx1. rewrite (make_decision_graph m (ngraph n1) x mx Em Hx1) in E2. injection E2 as <-.
  destruct (optimal_utility o choose (with_graph mx (ngraph n1)) n1) as [n2 [ev2|e]] eqn:E3; [|discriminate]. cbn [bind] in H. injection H as _ <-.
  set (m1 := with_graph mx (ngraph n1)) in *. assert (C1 : consistent m1) by exact Cx. assert (Ea1 : agent_decisions m1 = [(zero, ds')]) by exact Eax. assert (Eu1 : agent_utilities m1 = [(zero, us)]) by exact Eux.
  destruct (solo m1 zero ds' us C1 Ea1 Eu1) as (Nds1 & Nus & Iu & Id1 & Dm1 & UC1 & DC1). assert (B1 := v_built _ _ _ V1). assert (Hd1 := v_dist _ _ _ V1). destruct (solo m zero ds us (proj1 (proj2 V)) Ea Eu) as (Nds & _ & Iu0 & Id0 & _).
  assert (Hn1 : forall d, In d ds' -> In d (nodes (ngraph n1))).
  { intros d K. apply Dm1 in K. unfold optimal_utility in E3. destruct (impute_optimal_policy o choose (with_graph m1 (ngraph n1)) n1) as [n2a [e|]] eqn:E4; [discriminate|]. unfold impute_optimal_policy, impute_random_policy in E4.
    change (decisions (with_graph m1 (ngraph n1))) with (decisions m1) in E4. destruct (loop_net impute_random_decision n1 (decisions m1)) as [n2b [e|]] eqn:E5; [discriminate|]. apply (random_nodes (decisions m1) n1 n2b); auto. }
  assert (R1 : role_nodes_present m1). { intros a v [K|K]; [rewrite Ea1 in K|rewrite Eu1 in K]; destruct K as (l & [K|[]] & Kl); injection K as <- <-; cbn [with_graph mgraph]; [apply Hn1|apply Iu1]; auto. }
  assert (Vm1 : valid m1) by (split; [apply Hd1|split; auto]).
  assert (Ids : forall d, In d ds -> In d (nodes (ngraph n))) by (intros d K; rewrite <- Eg; apply (proj2 (proj2 V) zero d); left; apply Id0; auto).
  assert (Vx : valid mx). { split; [rewrite Gx; apply V|]. split; auto. intros a v [K|K]; [rewrite Eax in K|rewrite Eux in K]; destruct K as (l & [K|[]] & Kl); injection K as <- <-; rewrite Gx, Eg; [apply Ids' in Kl; destruct Kl as [->|Kl]; auto|]. rewrite <- Eg. apply (proj2 (proj2 V) zero v). right. apply Iu0. auto. }
  assert (Sr1 : sufficient_recall mx None = Ok true -> sufficient_recall m1 None = Ok true). { intro Srx. apply piece_recall; auto; [apply Hd1|rewrite Gx, Eg; auto|rewrite Gx, Eg; auto]. }
  assert (Mem : forall d, In d ds' <-> In d (x :: ds)) by (intro d; rewrite Ids'; cbn [In]; split; intros [K|K]; auto).
  assert (Dm : forall v, dom_of (doms n1) v = dom_of (doms n) v). { intro v. rewrite (variant_dom _ _ _ v V1). apply same_dom_of, Df. }
  assert (Ed : forall p d, In d ds' -> (edge (ngraph n1) p d <-> edge (ngraph n) p d)) by (intros p d K; symmetry; apply (piece_edge _ _ P); auto).
  assert (Po : forall b, policy n1 ds' b <-> policy n (x :: ds) b). { intro b. split; apply policy_same; auto; [intro d; symmetry; auto|]. intros p d K. symmetry. apply Ed, Mem; auto. }
  assert (Poa : forall b, policy n (x :: ds) b -> policy n1a ds' b). { intros b K. eapply policy_same; [| | |exact K]; [intro d; symmetry; auto|intros p d _; rewrite G1a; tauto|intro v; symmetry; apply same_dom_of, Df]. }
  assert (Dfx : differ_in (fun v => In v (x :: ds)) n n1a). { destruct Df as (D1 & D2 & D3). split; auto. split; auto. intros v t K. apply D3. intro K'. apply K. right; auto. }
  assert (Va : forall b, policy n (x :: ds) b -> value n1 ds' b us = value n (x :: ds) b us). { intros b K. rewrite (variant_value n1a n1 ds' b us Hd1a (Poa b K) V1 Iu1). apply value_frame; auto. }
  exists ev1, ev2, n1, n2, ds'. split; auto. split; auto. split; auto. split; auto. split; [apply (piece_clash _ _ P NC)|]. split; auto. split; auto. split; auto. split; auto. split; auto. split; auto.
  intros Un d t a Ht Kt Wa. assert (Ct := Ht). apply single_cpd in Ct; [|apply Hd1]. assert (Hn : In d (nodes (ngraph n1))) by (apply (inv_rel n1 (s_inv n1 (proj1 (built_sound n1 B1))) d t Ct)).
  assert (Ta : has_table n1a d t). { apply single_cpd; [apply Hd1a|]. rewrite <- Ct. symmetry. apply (v_tables _ _ _ V1); auto. } destruct (in_dec string_dec d ds) as [K|K]; [rewrite (Kn d t K Ta) in Kt; discriminate|]. apply Df in Ta; auto.
  destruct (some_within n Hd) as [a0 W0]. set (a' := fun v => if in_dec string_dec v (nodes (ngraph n1)) then a v else a0 v). assert (Wn : within n a'). { intros v Hv. unfold a'. destruct (in_dec string_dec v (nodes (ngraph n1))); auto. rewrite <- Dm. auto. }
  rewrite Dm, <- (Un d t a' Ta Kt Wn). rewrite <- (entry_doms_in (doms n1) (doms n)) by (intros; apply Dm). destruct (kernel_cond n1 Hd1) as [k1 _ _]. assert (Kn' : forall c, kernel n1 d c = entry (doms n1) t c) by (intro c; unfold kernel; rewrite Ct; auto). rewrite <- !Kn'. apply k1; auto.
  intros v Hv. unfold a'. destruct (in_dec string_dec v (nodes (ngraph n1))) as [K1|K1]; auto. exfalso. apply K1. destruct Hv as [->|Hv]; auto. apply (proj1 (proj1 Hd1)) in Hv. tauto.
Qed.
(* ---- C62 ---- *)
(* one agent, a variable x that is no utility, and sufficient recall before and after x becomes a decision: if quantitative_voc returns, its
   result is the greatest expected utility over all rules for x and the decisions, less the greatest over all rules for the decisions *)
Theorem C62_voc : forall o choose m n ds us x mx mn q, valid_order o -> valid m -> mgraph m = ngraph n -> no_clash (ngraph n) ->
  agent_decisions m = [(zero, ds)] -> agent_utilities m = [(zero, us)] -> built n -> distribution n -> ~ In x us ->
  sufficient_recall m None = Ok true -> make_decision m x zero = (mx, None) -> sufficient_recall mx None = Ok true ->
  quantitative_voc o choose m n x = (mn, Ok q) ->
  exists v w, best_value n ds us v /\ best_value n (x :: ds) us w /\ q = w - v.
Proof.
  intros o choose m n ds us x mx mn q O V Eg NC Ea Eu B Hd Nx Sr Em Srx H. destruct (voc_core o choose m n ds us x mx mn q O V Eg NC Ea Eu B Hd Nx Sr Em H) as (v & w & n1 & n2 & ds' & Bv & Eq & E & V1 & NC1 & Ea1 & Eu1 & B1 & Hd1 & Sr1 & _ & Po & Va).
  destruct (solved o choose (with_graph mx (ngraph n1)) n1 ds' us n2 w O V1 eq_refl NC1 Ea1 Eu1 B1 Hd1 (Sr1 Srx) E) as (((b & Pb & Eb) & Mb) & _).
  exists v, w. split; auto. split; auto. split.
  - exists b. apply Po in Pb. split; auto. rewrite <- Va; auto.
  - intros c K. rewrite <- Va by auto. apply Mb, Po; auto.
Qed.
Print Assumptions C62_voc.
(* x is not observed, or observed by some decisions only, and so the recall may be lost when x becomes a decision: then all the rules are tried, and compared up to a tolerance *)
Theorem C62_search_partial : forall o choose m n ds us x mx mn q, valid_order o -> (forall ps p, choose ps = Some p -> In p ps) -> valid m -> mgraph m = ngraph n -> no_clash (ngraph n) ->
  agent_decisions m = [(zero, ds)] -> agent_utilities m = [(zero, us)] -> built n -> distribution n -> unset_uniform n -> ~ In x us ->
  sufficient_recall m None = Ok true -> make_decision m x zero = (mx, None) ->
  quantitative_voc o choose m n x = (mn, Ok q) ->
  exists v w, best_value n ds us v /\ nearly_best default_tol n (x :: ds) us w /\ q = w - v.
Proof.
  intros o choose m n ds us x mx mn q O Cs V Eg NC Ea Eu B Hd Un Nx Sr Em H. destruct (voc_core o choose m n ds us x mx mn q O V Eg NC Ea Eu B Hd Nx Sr Em H) as (v & w & n1 & n2 & ds' & Bv & Eq & E & V1 & NC1 & Ea1 & Eu1 & B1 & Hd1 & _ & Un1 & Po & Va).
  exists v, w. split; auto. split; auto. set (m1 := with_graph mx (ngraph n1)) in *. destruct (solo m1 zero ds' us (proj1 (proj2 V1)) Ea1 Eu1) as (Nds & Nus & Iu & Id & Dm & UC & DC). assert (NCm : no_clash (mgraph m1)) by exact NC1.
  destruct (C18_sufficient_recall_partial m1 V1 NCm UC DC) as (_ & _ & rb & Eb & _). destruct rb.
  - destruct (solved o choose m1 n1 ds' us n2 w O V1 eq_refl NC1 Ea1 Eu1 B1 Hd1 Eb E) as (((b & Pb & Ew) & Mb) & _). split; [exists b; apply Po in Pb; split; auto; rewrite <- Va; auto|]. exists w. split; [left; auto|]. intros c K. left. rewrite <- Va by auto. apply Mb, Po; auto.
  - unfold optimal_utility in E. rewrite (with_graph_eq m1 (ngraph n1) eq_refl) in E. destruct (impute_optimal_policy o choose m1 n1) as [n3 [e|]] eqn:E3; [discriminate|].
    destruct (C57_search_optimal_partial o choose m1 n1 zero ds' us n3 O Cs V1 eq_refl Ea1 Eu1 B1 Hd1 (Un1 Un) Eb E3) as (B3 & Hd3 & _ & h & u & Ch & _ & Ev & Cl & Mx).
    assert (Lu : lookup zero (agent_utilities m1) = Some us) by (change (agent_utilities m1) with (agent_utilities mx); rewrite Eu1; reflexivity). destruct (eu_query o m1 zero us n3 n2 w O B3 Hd3 Lu Nus E) as (Ew & _). change (fold_right Qcplus 0 (map (expectation n3 [] []) us)) with (eu n3 us) in Ev. rewrite <- Ew in Ev.
    assert (Pp : policy n1 ds' (pure h)). { apply pure_policy; auto. intros d K. change (In d (nodes (mgraph m1))). apply (proj2 (proj2 V1) zero d). left. apply Id. auto. }
    split; [exists (pure h); assert (Pp' := proj1 (Po _) Pp); split; auto; rewrite <- Va; auto|]. exists u. rewrite Ev. split; auto. intros b K. rewrite <- (Va b K). apply Mx, Po; auto.
Qed.
Print Assumptions C62_search_partial.

(* hence it is never negative: x can be left to its own distribution *)
Lemma best_more : forall n ds us x v w, distribution n -> In x (nodes (ngraph n)) -> best_value n ds us v -> best_value n (x :: ds) us w -> v <= w.
Proof.
  intros n ds us x v w Hd Hx [(b & Pb & <-) _] [_ M]. set (b' := fun e a => if in_dec string_dec e ds then b e a else kernel n e a).
  assert (Ev : value n (x :: ds) b' us = value n ds b us).
  { rewrite !value_weight. apply total_ext. intro a. f_equal. unfold weight. apply qprod_ext. intros v _. unfold follow, b'. destruct (in_dec string_dec v ds) as [K|K]; destruct (in_dec String.string_dec v (x :: ds)) as [K'|K']; destruct (in_dec String.string_dec v ds); auto; try contradiction. exfalso. apply K'. right; auto. }
  rewrite <- Ev. apply M. intros d K. unfold b'. destruct (in_dec string_dec d ds) as [Kd|Kd]; [apply Pb; auto|]. destruct K as [<-|K]; [|contradiction]. apply (own_policy n [x]); auto; [intros e [<-|[]]; auto|left; auto].
Qed.
Theorem C62_nonneg : forall o choose m n ds us x mx mn q, valid_order o -> valid m -> mgraph m = ngraph n -> no_clash (ngraph n) ->
  agent_decisions m = [(zero, ds)] -> agent_utilities m = [(zero, us)] -> built n -> distribution n -> ~ In x us ->
  sufficient_recall m None = Ok true -> make_decision m x zero = (mx, None) -> sufficient_recall mx None = Ok true ->
  quantitative_voc o choose m n x = (mn, Ok q) -> 0 <= q.
Proof.
  intros o choose m n ds us x mx mn q O V Eg NC Ea Eu B Hd Nx Sr Em Srx H. destruct (C62_voc o choose m n ds us x mx mn q O V Eg NC Ea Eu B Hd Nx Sr Em Srx H) as (v & w & B1 & B2 & ->).
  destruct (made_decision m x ds us mx (proj1 (proj2 V)) Ea Eu Nx Em) as (Hx & _). rewrite Eg in Hx. apply (Qcle_minus_iff v w). apply (best_more n ds us x); auto.
Qed.
Print Assumptions C62_nonneg.

(* no utility descends from x in the reduced graph: controlling x gains nothing *)
Lemma match_policy : forall m ag n ds us x h b, consistent m -> agent_decisions m = [(ag, ds)] -> agent_utilities m = [(ag, us)] -> distribution n -> incl ds (nodes (ngraph n)) -> incl us (nodes (ngraph n)) -> In x (nodes (ngraph n)) ->
  reduces m (ngraph n) h -> (forall u, In u us -> ~ reach h x u) -> ~ In x ds -> policy n (x :: ds) b -> exists b', policy n ds b' /\ value n (x :: ds) b us <= value n ds b' us.
Proof.
  intros m ag n ds us x h b C Ea Eu Hd Ids Iu Hx R Nr Nx Pb. destruct (solo m ag ds us C Ea Eu) as (_ & _ & _ & Idr & _).
  assert (Px : policy n [x] b) by (intros d [<-|[]]; apply Pb; left; auto). assert (Ix : incl [x] (nodes (ngraph n))) by (intros d [<-|[]]; auto). destruct (follow_net_ok n [x] b Hd Ix Px) as (F1 & F2 & F3). set (nx := follow_net n [x] b) in *.
  assert (G : ngraph nx = ngraph n) by apply F2. assert (D := same_dom_of n nx (proj1 (proj2 F2))). assert (Kx : forall u a, u <> x -> kernel nx u a = kernel n u a) by (intros u a K; symmetry; apply (kernel_differ (fun v => In v [x])); auto; [apply Hd|apply F1|intros [K'|[]]; auto]).
  assert (Pd : policy nx ds b). { apply (policy_same n nx ds ds b); [tauto|intros; rewrite G; tauto|intro u; symmetry; apply D|]. intros d K. apply Pb. right; auto. }
  rewrite <- G in Ids, Iu, R. destruct (reduced_policy m ag ds us nx h b Ea Eu C F1 Ids Iu R Pd) as (n' & Hd' & G' & D' & K' & P' & L' & E'). rewrite G in Ids, Iu, R. destruct (reduces_wf m _ _ (proj1 Hd) R) as (Wh & Nh & Sb).
  assert (Nxd : ~ is_decision m x). { intros [a K]. cbn [has_role] in K. destruct K as (l & K & Kl). rewrite Ea in K. destruct K as [K|[]]. injection K as _ <-. auto. }
  assert (Pn : policy n ds (kernel n')) by (apply (policy_same nx n ds ds (kernel n')); [tauto|intros; rewrite G; tauto|intro u; apply D|auto]).
  assert (E1 : value n (x :: ds) b us = value nx ds b us).
  { rewrite !value_weight, G. change (dom_of (doms nx)) with (dom_of (doms n)). apply total_ext_in. intros a Wa _. f_equal. unfold weight. apply qprod_ext. intros u Hu. unfold follow.
    destruct (in_dec String.string_dec u (x :: ds)) as [K|K]; destruct (in_dec String.string_dec u ds) as [K1|K1]; auto; [|exfalso; apply K; right; auto|symmetry; apply Kx; intros ->; apply K; left; auto]. destruct K as [<-|K]; [|contradiction]. symmetry. apply F3; [left; auto|]. exact Wa. }
  assert (Dn : forall u, dom_of (doms n') u = dom_of (doms n) u) by (intro u; rewrite D'; apply D). assert (Ck := kernel_cond n' Hd'). rewrite G' in Ck. destruct (kernel_cond n Hd) as [k1 k2 k3].
  set (K2 := fun u a => if string_dec u x then kernel n x a else kernel n' u a).
  assert (C1 : LBayes.cond h (dom_of (doms n)) (kernel n')). { destruct Ck as [c1 c2 c3]. constructor; auto. intros u a Hu Ha. rewrite <- (Dn u). apply c2; auto. intros p Kp. rewrite Dn. auto. }
  assert (C2 : LBayes.cond h (dom_of (doms n)) K2).
  { destruct C1 as [c1 c2 c3]. assert (Ex : forall p, edge h p x <-> edge (ngraph n) p x) by (intro p; apply (reduces_other m); auto). constructor; intro u; unfold K2; destruct (string_dec u x) as [->|N]; auto.
    - intro Hu. intros a a' Ha. apply k1; auto. intros p Kp. apply Ha. destruct Kp as [->|Kp]; [left; auto|right; apply Ex; auto].
    - intros a Hu Ha. apply k2; auto. intros p Kp. apply Ha, Ex; auto. }
  assert (E2 : value n ds (kernel n') us = eu n' us).
  { rewrite (eu_value n' us Hd') by (rewrite G', Nh; auto). rewrite !value_weight, G'. rewrite <- Nh.
    transitivity (total (dom_of (doms n)) (nodes h) (fun a => weight K2 (nodes h) a * qsum (map a us)) (fun _ => 0)).
    - apply total_ext. intro a. f_equal. unfold weight. apply qprod_ext. intros u Hu. unfold follow, K2. destruct (in_dec String.string_dec u ds) as [K|K]; destruct (string_dec u x) as [->|N]; auto; [contradiction|]. rewrite (K' u a K). symmetry. apply Kx; auto.
    - rewrite (barren_kernel h (dom_of (doms n)) K2 (kernel n') us x); auto; [|intros u Hu; apply dom_nodup; auto; rewrite <- Nh; auto|intros u a N; unfold K2; destruct (string_dec u x); [contradiction|auto]|rewrite Nh; auto|rewrite Nh; auto].
      rewrite (total_dom_perm (dom_of (doms n)) (dom_of (doms n'))) by (intros u _; rewrite Dn; auto). apply total_ext. intro a. f_equal. }
  exists (kernel n'). split; auto. rewrite E1. eapply Qcle_trans; [exact L'|]. rewrite E', <- E2. apply Qcle_refl.
Qed.
Lemma best_same : forall m n ds us x h v w, consistent m -> agent_decisions m = [(zero, ds)] -> agent_utilities m = [(zero, us)] -> distribution n -> incl ds (nodes (ngraph n)) -> incl us (nodes (ngraph n)) -> In x (nodes (ngraph n)) ->
  reduces m (ngraph n) h -> (forall u, In u us -> ~ reach h x u) -> ~ In x ds -> best_value n ds us v -> best_value n (x :: ds) us w -> w <= v.
Proof.
  intros m n ds us x h v w C Ea Eu Hd Ids Iu Hx R Nr Nx [_ M] [(b & Pb & <-) _]. destruct (match_policy m zero n ds us x h b C Ea Eu Hd Ids Iu Hx R Nr Nx Pb) as (b' & P' & L). eapply Qcle_trans; [exact L|]. auto.
Qed.
(* the graphical test is sound: where admits_voc answers False, control is worth nothing *)
Theorem C62_admits : forall o choose m n ds us x mx mn q, valid_order o -> askable IsCID m -> mgraph m = ngraph n ->
  agent_decisions m = [(zero, ds)] -> agent_utilities m = [(zero, us)] -> built n -> distribution n -> ~ In x us ->
  sufficient_recall m None = Ok true -> make_decision m x zero = (mx, None) -> sufficient_recall mx None = Ok true ->
  quantitative_voc o choose m n x = (mn, Ok q) -> admits_voc IsCID o m x = Ok false -> q = 0.
Proof.
  intros o choose m n ds us x mx mn q O A Eg Ea Eu B Hd Nx Sr Em Srx H Av. destruct A as (V & Pr & Sa & NC). assert (A : askable IsCID m) by (split; [|split; [|split]]; auto). assert (NCn : no_clash (ngraph n)) by (rewrite <- Eg; auto).
  destruct (C62_voc o choose m n ds us x mx mn q O V Eg NCn Ea Eu B Hd Nx Sr Em Srx H) as (v & w & B1 & B2 & ->). destruct (made_decision m x ds us mx (proj1 (proj2 V)) Ea Eu Nx Em) as (Hx & _).
  assert (Rc : recalls m). { destruct (recall_ok IsCID m A) as (rb & R1 & R2). apply R2. congruence. }
  destruct (PIncent.C25_voc IsCID o m x A Rc O Hx) as (r & c & Er & (Nr & h & [Rd _] & Sm) & Ec & Hc). rewrite Av in Ec. injection Ec as <-.
  destruct (solo m zero ds us (proj1 (proj2 V)) Ea Eu) as (Nds & Nus & Iu & Id & _).
  assert (Ids : incl ds (nodes (ngraph n))) by (intros d K; rewrite <- Eg; apply (proj2 (proj2 V) zero d); left; apply Id; auto). assert (Ius : incl us (nodes (ngraph n))) by (intros u K; rewrite <- Eg; apply (proj2 (proj2 V) zero u); right; apply Iu; auto).
  assert (L1 : v <= w) by (apply (best_more n ds us x); auto; rewrite <- Eg; auto). assert (L2 : w <= v); [|assert (Evw : v = w) by (apply Qcle_antisym; auto); rewrite Evw; apply Qcplus_opp_r].
  destruct (in_dec string_dec x ds) as [K|K].
  - destruct B2 as [(b & Pb & <-) _]. destruct B1 as [_ M]. assert (Mem : forall d, In d ds <-> In d (x :: ds)) by (intro d; split; [intro; right; auto|intros [<-|K1]; auto]).
    replace (value n (x :: ds) b us) with (value n ds b us); [apply M; intros d Kd; apply Pb, Mem; auto|]. rewrite !value_weight. apply total_ext. intro a. f_equal. unfold weight. apply qprod_ext. intros u _. unfold follow.
    destruct (in_dec String.string_dec u ds) as [K1|K1]; destruct (in_dec String.string_dec u (x :: ds)) as [K2|K2]; auto; exfalso; [apply K2, Mem; auto|apply K1, Mem; auto].
  - rewrite Eg in Rd, Hx. apply (best_same m n ds us x h); auto; [apply V|]. intros u Ku Re. assert (false = true); [|discriminate]. apply Hc. split; [intros [a (l & K1 & K2)]; rewrite Ea in K1; destruct K1 as [K1|[]]; injection K1 as _ <-; auto|]. exists u. split; [exists zero; apply Iu; auto|].
    clear - Re Sm. induction Re; [constructor|]. econstructor; [apply Sm; eassumption|auto].
Qed.
Print Assumptions C62_admits.

(* ---- C66 ---- *)
(* one agent: whatever the agent does, it can do at least as well with rules that look only at the observations that requisite_graph keeps *)
Theorem C66_requisite : forall k o m n a ds us r, valid_order o -> valid m -> SpecI.proper k m -> mgraph m = ngraph n ->
  agent_decisions m = [(a, ds)] -> agent_utilities m = [(a, us)] -> distribution n -> requisite_graph k o m = Ok r ->
  forall b, policy n ds b -> exists b', policy n ds b' /\ value n ds b us <= value n ds b' us /\
    forall d c c', In d ds -> c d = c' d -> (forall p, edge (mgraph r) p d -> c p = c' p) -> b' d c = b' d c'.
Proof.
  intros k o m n a ds us r O V Pr Eg Ea Eu Hd Er b Pb. destruct (PIncent.C23_requisite_graph k o m V Pr O) as (r' & Er' & _ & _ & _ & _ & (h & Sm & Rd) & _). rewrite Er in Er'. injection Er' as <-. rewrite Eg in Rd.
  destruct (solo m a ds us (proj1 (proj2 V)) Ea Eu) as (Nds & Nus & Iu & Id & _). assert (Ids : incl ds (nodes (ngraph n))) by (intros d K; rewrite <- Eg; apply (proj2 (proj2 V) a d); left; apply Id; auto). assert (Ius : incl us (nodes (ngraph n))) by (intros u K; rewrite <- Eg; apply (proj2 (proj2 V) a u); right; apply Iu; auto).
  destruct (reduced_policy m a ds us n h b Ea Eu (proj1 (proj2 V)) Hd Ids Ius Rd Pb) as (n' & Hd' & G' & _ & _ & P' & L' & _). destruct (reduces_wf m _ _ (proj1 Hd) Rd) as (_ & Nh & _). exists (kernel n'). split; auto. split; auto.
  intros d c c' K E1 E2. destruct (kernel_cond n' Hd') as [k1 _ _]. apply k1; [rewrite G', Nh; auto|]. intros u [->|Ku]; auto. apply E2, Sm. rewrite <- G'. auto.
Qed.
Print Assumptions C66_requisite.

(* ---- C67 ---- *)
(* the test for response incentives is sound: where it answers False, the agent can do at least as well with rules under which d does not respond
   to x, that is, forcing a value on x does not change the distribution of d *)
Theorem C67_ri : forall k o m n a ds us d x, valid_order o -> askable k m -> recalls m -> mgraph m = ngraph n ->
  agent_decisions m = [(a, ds)] -> agent_utilities m = [(a, us)] -> distribution n -> In d ds -> In x (nodes (ngraph n)) -> x <> d ->
  admits_ri k o m d x = Ok false ->
  forall b, policy n ds b -> exists n', distribution n' /\ differ_in (fun v => In v ds) n n' /\
    value n ds b us <= fold_right Qcplus 0 (map (expectation n' [] []) us) /\
    forall y z, In y (dom_of (doms n) x) -> do_prob n' [(x, y)] [(d, z)] = do_prob n' [] [(d, z)].
Proof.
  intros k o m n a ds us d x O A Rc Eg Ea Eu Hd Kd Hx Nxd Ri b Pb. assert (V : valid m) by apply A. destruct (solo m a ds us (proj1 (proj2 V)) Ea Eu) as (Nds & Nus & Iu & Id & _).
  assert (Ids : incl ds (nodes (ngraph n))) by (intros e K; rewrite <- Eg; apply (proj2 (proj2 V) a e); left; apply Id; auto). assert (Ius : incl us (nodes (ngraph n))) by (intros u K; rewrite <- Eg; apply (proj2 (proj2 V) a u); right; apply Iu; auto).
  assert (Hx' : In x (nodes (mgraph m))) by (rewrite Eg; auto). assert (Hd'' : In d (nodes (mgraph m))) by (rewrite Eg; auto).
  destruct (PIncent.C26_ri k o m d x A Rc O Hx' Hd'') as (r & c & Er & (Nr & h & [Rd _] & Sm) & Ec & Hc & _). rewrite Ri in Ec. injection Ec as <-. rewrite Eg in Rd.
  destruct (reduced_policy m a ds us n h b Ea Eu (proj1 (proj2 V)) Hd Ids Ius Rd Pb) as (nr & Hdr & Gr & Dr & Kr & Pr & Lr & Er'). destruct (reduces_wf m _ _ (proj1 Hd) Rd) as (Wh & Nh & _).
  destruct (follow_net_ok n ds (kernel nr) Hd Ids Pr) as (F1 & F2 & F3). set (n' := follow_net n ds (kernel nr)) in *. exists n'. split; auto. split; auto. split; [change (value n ds b us <= eu n' us); rewrite (follow_value n n' ds (kernel nr) us); auto|].
  assert (G' : ngraph n' = ngraph n) by apply F2. assert (D' := same_dom_of n n' (proj1 (proj2 F2))).
  assert (Ke : forall v e, In v (nodes (ngraph n)) -> within n e -> kernel n' v e = kernel nr v e). { intros v e Hv We. destruct (in_dec string_dec v ds) as [K|K]; [apply F3; auto|]. rewrite (Kr v e K). symmetry. apply (kernel_differ (fun v => In v ds)); auto; [apply Hd|apply F1]. }
  assert (Pe : forall iv cx, do_prob n' iv cx = do_prob nr iv cx).
  { intros iv cx. unfold do_prob. rewrite G', Gr, Nh. rewrite (total_dom_perm (dom_of (doms n')) (dom_of (doms n))) by (intros u _; rewrite D'; auto). rewrite (total_dom_perm (dom_of (doms nr)) (dom_of (doms n))) by (intros u _; rewrite Dr; auto).
    apply total_ext_in. intros e We _. destruct (agrees cx e); auto. unfold do_joint. rewrite G', Gr, Nh. destruct (agrees iv e); auto. change (fold_right Qcmult 1) with qprod. apply qprod_ext. intros v Hv. destruct (in_dec String.string_dec v (keys iv)); auto. }
  intros y z Hy. rewrite !Pe. destruct (dist_lookup n x Hd Hx) as [Lx _]. apply do_prob_unaffected; auto.
  - repeat constructor. intros [].
  - intros v [<-|[]]. rewrite Gr, Nh. auto.
  - intros v w [K|[]]. injection K as <- <-. assert (Hxr : In x (nodes (ngraph nr))) by (rewrite Gr, Nh; auto). destruct (dist_lookup nr x Hdr Hxr) as [Lr' _]. exists (dom_of (doms nr) x). split; [exact Lr'|]. rewrite Dr. auto.
  - intros v [<-|[]]. rewrite Gr, Nh. auto.
  - intros u v [<-|[]] [<-|[]] Re. rewrite Gr in Re. assert (false = true); [|discriminate]. apply Hc. split; auto. clear - Re Sm. cbn in Re. induction Re; [constructor|]. econstructor; [apply Sm; eassumption|auto].
Qed.
Print Assumptions C67_ri.

(* X is observed and matters to D and to V; Z is observed but does not matter: X is worth 1/2 to control, Z nothing *)
Definition ex_ctrl_graph : graph := mkG ["X"; "Z"; "D"; "U"; "V"] [("X", "D"); ("Z", "D"); ("X", "U"); ("D", "U"); ("X", "V")].
Definition ex_ctrl : macid := diagram_of ex_ctrl_graph [("0", ["D"])] [("0", ["U"; "V"])].
Definition ex_ctrl_net : net := made ex_ctrl_graph [("X", RDist coin); ("Z", RDist coin); ("D", RDom [0; 1]); ("U", same_u); ("V", tab_of "V" [0; 1] ["X"] [2%nat] [[1; 0]; [0; 1]])].
Lemma ex_ctrl_built : built ex_ctrl_net /\ distribution ex_ctrl_net.
Proof.
  split; [apply made_built|apply dist_check_ok]; [vm_compute; reflexivity| |vm_compute; reflexivity|vm_compute; reflexivity].
  rels_ok; [split; [exact I|exact coin_dict]|split; [exact I|exact coin_dict]|split; exact I|apply tab_admissible|apply tab_admissible].
Qed.
Definition voc_of (m : macid) (n : net) (choose : list (list tab) -> option (list tab)) (x : node) : result Qc := snd (quantitative_voc (fun _ l => l) choose m n x).
Definition controlled (m : macid) (x : node) : macid := fst (make_decision m x zero).
Definition big : Qc := Q2Qc (10000000000 # 1).
Definition ex_rich_net : net := made ex_blind_graph [("X", RDist [(0, Some 1); (1, Some 0)]); ("Y", RDist coin); ("D", RDom [0; 1]); ("U", tab_of "U" [big + 1; big] ["X"; "D"] [2%nat; 2%nat] [[1; 0]; [1; 0]; [0; 1]; [0; 1]])].
Definition last_of (l : list (list tab)) : option (list tab) := first_of (rev l).
Lemma voc_of_ok : forall m n choose x v, is_val (voc_of m n choose x) v = true -> exists mn, quantitative_voc (fun _ l => l) choose m n x = (mn, Ok v).
Proof. intros m n choose x v H. unfold voc_of in H. destruct (quantitative_voc (fun _ l => l) choose m n x) as [mn r]. cbn [snd] in H. apply is_val_ok in H. exists mn. congruence. Qed.
Example C62_example : SpecI.askable IsCID ex_ctrl /\ mgraph ex_ctrl = ngraph ex_ctrl_net /\ agent_decisions ex_ctrl = [(zero, ["D"])] /\ agent_utilities ex_ctrl = [(zero, ["U"; "V"])] /\ built ex_ctrl_net /\ distribution ex_ctrl_net /\
  sufficient_recall ex_ctrl None = Ok true /\
  (exists mx mn, make_decision ex_ctrl "X" zero = (mx, None) /\ sufficient_recall mx None = Ok true /\ quantitative_voc (fun _ l => l) first_of ex_ctrl ex_ctrl_net "X" = (mn, Ok (q 1 2)) /\ admits_voc IsCID (fun _ l => l) ex_ctrl "X" = Ok true) /\
  (exists mx mn, make_decision ex_ctrl "Z" zero = (mx, None) /\ sufficient_recall mx None = Ok true /\ quantitative_voc (fun _ l => l) first_of ex_ctrl ex_ctrl_net "Z" = (mn, Ok 0) /\ admits_voc IsCID (fun _ l => l) ex_ctrl "Z" = Ok false).
Proof.
  destruct ex_ctrl_built as [B Hd]. split; [PIncent.cid|]. split; [vm_compute; reflexivity|]. split; [reflexivity|]. split; [reflexivity|]. split; [exact B|]. split; [exact Hd|]. split; [vm_compute; reflexivity|].
  destruct (voc_of_ok ex_ctrl ex_ctrl_net first_of "X" (q 1 2)) as [mn1 E1]; [vm_compute; reflexivity|]. destruct (voc_of_ok ex_ctrl ex_ctrl_net first_of "Z" 0) as [mn2 E2]; [vm_compute; reflexivity|].
  split; [exists (controlled ex_ctrl "X"), mn1|exists (controlled ex_ctrl "Z"), mn2]; (split; [vm_compute; reflexivity|]); (split; [vm_compute; reflexivity|]); (split; [assumption|vm_compute; reflexivity]).
Qed.
(* when x and a decision are both unobserved, the recall is lost and policies are compared up to a tolerance: the value of control can be negative *)
Theorem C62_negative_refuted : exists o choose m n ds us x mx mn q, valid_order o /\ (forall ps p, choose ps = Some p -> In p ps) /\ SpecI.askable IsCID m /\ mgraph m = ngraph n /\
  agent_decisions m = [(zero, ds)] /\ agent_utilities m = [(zero, us)] /\ built n /\ distribution n /\ unset_uniform n /\ ~ In x us /\ sufficient_recall m None = Ok true /\ make_decision m x zero = (mx, None) /\
  quantitative_voc o choose m n x = (mn, Ok q) /\ q < 0.
Proof.
  destruct (voc_of_ok ex_blind ex_rich_net last_of "X" (- (1))) as [mn E]; [vm_compute; reflexivity|].
  assert (B : built ex_rich_net /\ distribution ex_rich_net).
  { split; [apply made_built|apply dist_check_ok]; [vm_compute; reflexivity| |vm_compute; reflexivity|vm_compute; reflexivity].
    rels_ok; [split; [exact I|apply nodupo_ok; vm_compute; reflexivity]|split; [exact I|exact coin_dict]|split; exact I|apply tab_admissible]. }
  destruct B as [B Hd]. exists (fun _ l => l), last_of, ex_blind, ex_rich_net, ["D"], ["U"], "X", (controlled ex_blind "X"), mn, (- (1)).
  split; [exact LBase.id_order_valid|]. split. { intros ps p K. unfold last_of, first_of in K. destruct (rev ps) as [|p0 l] eqn:Er; [discriminate|]. injection K as <-. apply in_rev. rewrite Er. left; auto. }
  split; [PIncent.cid|]. split; [vm_compute; reflexivity|]. split; [reflexivity|]. split; [reflexivity|]. split; [exact B|]. split; [exact Hd|]. split.
  { apply unset_rels; auto. intros v t K. apply lookup_In in K. vm_compute in K. repeat (destruct K as [K|K]; [inversion K; subst; discriminate|]). destruct K. }
  split; [intros [K|[]]; discriminate|]. split; [vm_compute; reflexivity|]. split; [vm_compute; reflexivity|]. split; [exact E|vm_compute; reflexivity].
Qed.
Print Assumptions C62_negative_refuted.
(* seeing Z does not help, and D need not respond to it *)
Example C66_example : valid ex_ctrl /\ SpecI.proper IsCID ex_ctrl /\ policy ex_ctrl_net ["D"] (kernel ex_ctrl_net) /\
  exists r, requisite_graph IsCID (fun _ l => l) ex_ctrl = Ok r /\ ~ edge (mgraph r) "Z" "D" /\ edge (mgraph r) "X" "D".
Proof.
  destruct ex_ctrl_built as [B Hd]. assert (A : SpecI.askable IsCID ex_ctrl) by PIncent.cid. split; [apply A|]. split; [apply A|]. split; [apply own_policy; auto; intros d [<-|[]]; vm_compute; tauto|].
  destruct (requisite_graph IsCID (fun _ l => l) ex_ctrl) as [r|e] eqn:E; [|exfalso; revert E; vm_compute; discriminate]. exists r. split; auto.
  assert (K : match requisite_graph IsCID (fun _ l => l) ex_ctrl with Ok r => negb (has_edge (mgraph r) "Z" "D") && has_edge (mgraph r) "X" "D" | Err _ => false end = true) by (vm_compute; reflexivity).
  rewrite E in K. apply andb_prop in K. destruct K as [K1 K2]. split; [intro K; apply has_edge_iff in K; rewrite K in K1; discriminate|apply has_edge_iff; auto].
Qed.
Example C67_example : SpecI.askable IsCID ex_ctrl /\ recalls ex_ctrl /\ admits_ri IsCID (fun _ l => l) ex_ctrl "D" "Z" = Ok false /\ admits_ri IsCID (fun _ l => l) ex_ctrl "D" "X" = Ok true.
Proof. split; [PIncent.cid|]. split; [apply (cid_recalls IsCID); [PIncent.cid|vm_compute; reflexivity]|]. split; vm_compute; reflexivity. Qed.
