(* Property C61: CID.solve returns an optimal rule for every decision. *)
From Coq Require Import String List Bool Arith QArith Qcanon Lia Permutation.
Import ListNotations.
From Verif Require Import MIncent SpecI LIncent LCopy LPaths.
From Verif Require PIncent.
From Verif Require Import MBase MGraph MMacid MCpd MNet MProb MQuery MEffects MPolicy MVoi Spec SpecM SpecC SpecN SpecQ SpecPol SpecVoi LBase LGraph LDfs LQc LCpd LNet LSum LBayes LSep LQuery LDo LInter LFactor LEdit LBuilt LTotal LCheckN LCheck LEffects PMacid PQuery PCpd LRoles LReach LTrim LActive LMech LPolicy LValue LQcArith LSearch LLike LOptimal LOptDec LOptTotal LBest LSolve LIndep PPolicy POptDec PSolve LVoi.
Local Open Scope string_scope.
Local Open Scope list_scope.
Local Open Scope Qc_scope.

(* ---- relevance depends on the roles and the edges only ---- *)
Lemma relevant_same : forall m m' d v, valid m -> valid m' -> same_roles m m' -> nodes (mgraph m') = nodes (mgraph m) -> (forall a b, edge (mgraph m') a b <-> edge (mgraph m) a b) -> In v (nodes (mgraph m)) ->
  r_relevant m d v -> r_relevant m' d v.
Proof.
  intros m m' d v V V' S N E Hv (a & u & w & H1 & H2 & H3 & H4 & Z & H5 & H6).
  exists a, u, w. split; [apply (S d (RDecision a)); auto|]. split; [apply (S u (RUtility a)); auto|]. split.
  { destruct H3 as (c & K1 & K2). exists c. split; [apply E; auto|]. eapply reach_sub; [|exact K2]. intros; apply E; auto. }
  split; [rewrite N; auto|]. exists Z. split; [intro x; rewrite H5, E; tauto|]. eapply dconn_more; [| |exact H6].
  - apply extend_acyclic; [apply V'|rewrite N; auto|rewrite N; auto].
  - intros x y K. unfold edge, extend in *. cbn [edges] in *. destruct K as [K|K]; [left; auto|right]. apply E. auto.
Qed.
Lemma recalls_same : forall m m' a ds ds', valid m -> valid m' -> same_roles m m' -> nodes (mgraph m') = nodes (mgraph m) -> (forall a b, edge (mgraph m') a b <-> edge (mgraph m) a b) ->
  agent_decisions m = [(a, ds)] -> agent_decisions m' = [(a, ds')] -> recalls m -> recalls m'.
Proof.
  intros m m' a ds ds' V V' S N E Ea Ea' R b l Hl. rewrite Ea' in Hl. destruct Hl as [Hl|[]]. injection Hl as <- <-.
  intros (d & p & C). apply (R a ds); [rewrite Ea; left; auto|]. exists d, p. eapply LPaths.chain_impl; [|exact C]. cbv beta. intros x y (K1 & K2 & K3 & K4).
  assert (T : forall z, In z ds' -> In z ds). { intros z Hz. assert (X : has_role m' z (RDecision a)) by (cbn; exists ds'; split; auto; rewrite Ea'; left; auto). apply (S z (RDecision a)) in X. destruct X as (l & Hl & Hz'). rewrite Ea in Hl. destruct Hl as [Hl|[]]. injection Hl as <-. auto. }
  split; auto. split; auto. split; auto. eapply relevant_same; [exact V'|exact V| | | | |exact K4].
  - intros z r. symmetry. apply S.
  - auto.
  - intros; symmetry; apply E.
  - apply (proj2 (proj2 V') a y). left. exists ds'. rewrite Ea'. split; [left; auto|auto].
Qed.
Lemma cid_copy : forall m m1 ds us, valid m -> no_clash (mgraph m) -> agent_decisions m = [(zero, ds)] -> agent_utilities m = [(zero, us)] -> cid_copy_without_cpds m = Ok m1 ->
  valid m1 /\ mgraph m1 = copied (mgraph m) /\ sufficient_recall m1 None = sufficient_recall m None /\
  exists ds1 us1, agent_decisions m1 = [(zero, ds1)] /\ Permutation ds ds1 /\ agent_utilities m1 = [(zero, us1)] /\ Permutation us us1.
Proof.
  intros m m1 ds us V NC Ea Eu E. assert (Pr : SpecI.proper MIncent.IsCID m) by (split; [rewrite Ea|rewrite Eu]; reflexivity).
  destruct (copy_spec _ m V Pr) as (c & E' & Vc & Pr' & Gc & SR). change (MIncent.copy MIncent.IsCID m) with (cid_copy_without_cpds m) in E'. rewrite E in E'. injection E' as <-.
  assert (Cc : consistent m1) by apply Vc. split; auto. split; auto. destruct Pr' as [K1 K2].
  assert (X : forall (al : list (agent * list node)), keys al = [zero] -> exists l, al = [(zero, l)]). { intros [|[k l] [|p al]] K; try discriminate. injection K as <-. eauto. }
  destruct (X _ K1) as [ds1 D1], (X _ K2) as [us1 U1]. destruct (solo m1 zero ds1 us1 Cc D1 U1) as (N1 & N2 & I2 & I1 & _). destruct (solo m zero ds us (proj1 (proj2 V)) Ea Eu) as (M1 & M2 & J2 & J1 & _). split.
  - assert (One : forall m ds us, agent_decisions m = [(zero, ds)] -> agent_utilities m = [(zero, us)] -> single_agent m). { intros m0 ds0 us0 A1 A2. exists zero. intros n b [(l & Hl & _)|(l & Hl & _)]; [rewrite A1 in Hl|rewrite A2 in Hl]; destruct Hl as [Hl|[]]; congruence. }
    assert (NC1 : no_clash (mgraph m1)) by (rewrite Gc; exact NC). assert (A : SpecI.askable IsCID m) by (split; auto; split; auto; split; eauto). assert (A1 : SpecI.askable IsCID m1) by (split; auto; split; [split; auto|]; split; eauto).
    destruct (recall_ok _ _ A) as (b & Eb & Hb), (recall_ok _ _ A1) as (b1 & Eb1 & Hb1). rewrite Eb, Eb1. f_equal.
    assert (Ne : nodes (mgraph m1) = nodes (mgraph m)) by (rewrite Gc; reflexivity). assert (Ee : forall u v, edge (mgraph m1) u v <-> edge (mgraph m) u v) by (intros; rewrite Gc; apply edge_copied; apply V).
    assert (Hi : recalls m <-> recalls m1). { split; intro K; [eapply (recalls_same m m1 zero ds ds1)|eapply (recalls_same m1 m zero ds1 ds)]; eauto. - intros z r; symmetry; apply SR. - intros; symmetry; apply Ee. }
    destruct b, b1; auto; exfalso; [assert (false = true); [|discriminate]|assert (false = true); [|discriminate]]; [apply Hb1, Hi, Hb|apply Hb, Hi, Hb1]; auto.
  - exists ds1, us1. split; auto. split; [apply NoDup_Permutation; auto; intro u; rewrite I1, J1; apply (SR u (RDecision zero))|]. split; auto. apply NoDup_Permutation; auto. intro u. rewrite I2, J2. apply (SR u (RUtility zero)).
Qed.
Lemma policy_perm : forall n ds ds' b, Permutation ds ds' -> policy n ds b -> policy n ds' b.
Proof. intros n ds ds' b P H d K. apply H. eapply Permutation_in; [apply Permutation_sym; eauto|auto]. Qed.
Lemma choice_perm : forall n ds ds' H, Permutation ds ds' -> choice n ds H -> choice n ds' H.
Proof. intros n ds ds' H P C d K. apply C. eapply Permutation_in; [apply Permutation_sym; eauto|auto]. Qed.
Lemma value_dperm : forall n ds ds' b us, Permutation ds ds' -> value n ds b us = value n ds' b us.
Proof.
  intros n ds ds' b us P. unfold value. apply total_ext. intro a. f_equal. change (fold_right Qcmult 1) with qprod. apply qprod_ext. intros v _. unfold follow.
  destruct (in_dec String.string_dec v ds) as [K|K], (in_dec String.string_dec v ds') as [K'|K']; auto; exfalso; [apply K'; eapply Permutation_in; eauto|apply K; eapply Permutation_in; [apply Permutation_sym|]; eauto].
Qed.
(* what solve does: it solves a copy and lists the rules of its decisions *)
Lemma solve_runs : forall o choose m n ds us l, valid m -> mgraph m = ngraph n -> no_clash (ngraph n) -> agent_decisions m = [(zero, ds)] -> agent_utilities m = [(zero, us)] -> built n -> distribution n ->
  solve o choose m n = Ok l ->
  exists m1 n1 n2 ds1 us1, valid m1 /\ mgraph m1 = ngraph n1 /\ no_clash (ngraph n1) /\ sufficient_recall m1 None = sufficient_recall m None /\ agent_decisions m1 = [(zero, ds1)] /\ Permutation ds ds1 /\
    agent_utilities m1 = [(zero, us1)] /\ Permutation us us1 /\ like n n1 /\ copy_net n = Ok n1 /\ impute_optimal_policy o choose m1 n1 = (n2, None) /\ l = map (fun d => (d, cpd_of n2 d)) (decisions m1) /\ incl (decisions m1) (nodes (ngraph n2)) /\ Permutation ds (decisions m1).
Proof.
  intros o choose m n ds us l V Eg NC Ea Eu B Hd H. unfold solve in H. rewrite (with_graph_eq m (ngraph n) Eg) in H. destruct (cid_copy_without_cpds m) as [m1|e] eqn:Em; cbn [bind] in H; [|discriminate].
  destruct (copy_net n) as [n1|e] eqn:En; cbn [bind] in H; [|discriminate]. destruct (impute_optimal_policy o choose m1 n1) as [n2 [e|]] eqn:Ei; [discriminate|].
  destruct (cid_copy m m1 ds us V ltac:(rewrite Eg; auto) Ea Eu Em) as (V1 & G1 & R1 & ds1 & us1 & Ea1 & Pd & Eu1 & Pu).
  destruct (copy_sound n n1 (proj1 (built_sound n B)) En) as (_ & Gn & Sr). exists m1, n1, n2, ds1, us1. split; auto. split; [congruence|]. split; [rewrite Gn; exact NC|]. split; auto. split; auto. split; auto. split; auto. split; auto.
  split; [apply like_copy; auto|]. split; auto. split; auto.
  destruct (solo m1 zero ds1 us1 (proj1 (proj2 V1)) Ea1 Eu1) as (Nd1 & _ & _ & Id1 & Dm & _).
  assert (X : l = map (fun d => (d, cpd_of n2 d)) (decisions m1) /\ incl (decisions m1) (nodes (ngraph n2))).
  { revert l H. generalize (decisions m1). intro xs. induction xs as [|x xs IH]; intros l H; [injection H as <-; split; auto; intros ? []|]. cbn [map_r] in H. unfold get_cpds at 1 in H. destruct (mem_spec x (nodes (ngraph n2))) as [K|K]; [|discriminate]. cbn [bind] in H.
    match type of H with bind ?q _ = _ => destruct q as [r|] eqn:Er; [|discriminate] end. cbn [bind] in H. injection H as <-. destruct (IH r eq_refl) as [-> I]. split; auto. intros y [<-|Hy]; auto. }
  destruct X as [X1 X2]. split; auto. split; auto. eapply Permutation_trans; [exact Pd|]. apply NoDup_Permutation; auto.
  - apply (proj1 (proj2 (proj2 (proj1 (proj2 V1))))).
  - intro d. symmetry. apply Dm.
Qed.
Lemma rules_listed : forall n n1 n2 ds ds1 l H, like n n1 -> distribution n2 -> differ_in (fun v => In v ds1) n1 n2 -> incl l (nodes (ngraph n2)) -> Permutation ds l -> Permutation ds ds1 ->
  (forall d b, In d ds1 -> within n1 b -> kernel n2 d b = pure H d b) ->
  forall d r, In (d, r) (map (fun d => (d, cpd_of n2 d)) l) -> exists t, r = Some t /\ tvar t = d /\ forall a, within n a -> entry (doms n) t a = pure H d a.
Proof.
  intros n n1 n2 ds ds1 l H0 L Hd2 Df Id Pm Pd Ke.
  intros d r K. apply in_map_iff in K. destruct K as (d' & K & Kd). injection K as -> <-. destruct (dist_table n2 d Hd2 (Id d Kd)) as (t & Et & Tk). assert (Tv := ok_var _ _ _ Tk). assert (Te := ok_ev _ _ _ Tk). exists t. split; auto. split; auto.
  intros a Wa. assert (Kd1 : In d ds1) by (eapply Permutation_in; [eapply Permutation_trans; [apply Permutation_sym; exact Pm|exact Pd]|auto]). assert (Wa1 : within n1 a) by (apply (like_within n n1 a L); auto). rewrite <- (Ke d a Kd1 Wa1).
  destruct Df as (D1 & D2 & _). assert (Dm : forall v, In v (nodes (ngraph n)) -> dom_of (doms n) v = dom_of (doms n2) v) by (intros v K; rewrite (same_dom_of n1 n2 D2); symmetry; apply (l_dom _ _ L); auto).
  assert (Nn : nodes (ngraph n2) = nodes (ngraph n)) by (rewrite D1; apply (l_nodes _ _ L)).
  unfold kernel. rewrite Et. apply entry_doms_in; [apply Dm; rewrite Tv, <- Nn; auto|]. intros v Hv. apply Dm. rewrite <- Nn. apply Te in Hv. apply (proj1 Hd2) in Hv. tauto.
Qed.
(* every decision gets one rule, a function of what it observes, and no policy has a higher expected utility *)
Theorem C61_solve : forall o choose m n ds us l, valid_order o -> valid m -> mgraph m = ngraph n -> no_clash (ngraph n) ->
  agent_decisions m = [(zero, ds)] -> agent_utilities m = [(zero, us)] -> built n -> distribution n -> sufficient_recall m None = Ok true ->
  solve o choose m n = Ok l ->
  Permutation (map fst l) ds /\
  exists H, choice n ds H /\ (forall d r, In (d, r) l -> exists t, r = Some t /\ tvar t = d /\ forall a, within n a -> entry (doms n) t a = pure H d a) /\
    forall b, policy n ds b -> value n ds b us <= value n ds (pure H) us.
Proof.
  intros o choose m n ds us l O V Eg NC Ea Eu B Hd Sr H. destruct (solve_runs o choose m n ds us l V Eg NC Ea Eu B Hd H) as (m1 & n1 & n2 & ds1 & us1 & V1 & G1 & NC1 & R1 & Ea1 & Pd & Eu1 & Pu & L & _ & Ei & -> & Id & Pm).
  destruct (C57_recall_optimal o choose m1 n1 zero ds1 us1 n2 O V1 G1 NC1 Ea1 Eu1 (l_built _ _ L) (l_dist _ _ L) ltac:(rewrite R1; auto) Ei) as (B2 & Hd2 & Df & H0 & Ch & Ke & Ev & Mx).
  assert (W : wf_dag (ngraph n)) by apply Hd. destruct (solo m zero ds us (proj1 (proj2 V)) Ea Eu) as (_ & _ & _ & Jd & _).
  assert (In_ : incl ds (nodes (ngraph n))) by (intros d K; rewrite <- Eg; apply (proj2 (proj2 V) zero d); left; apply Jd; auto).
  split; [rewrite map_map; cbn [fst]; rewrite map_id; apply Permutation_sym; auto|]. exists H0. split; [|split].
  - apply (like_choice n n1 ds H0 L W In_). apply (choice_perm n1 ds1); auto. apply Permutation_sym; auto.
  - eapply rules_listed; eauto.
  - intros b Po. rewrite (value_dperm n ds ds1 b us Pd), (value_dperm n ds ds1 (pure H0) us Pd), (value_perm n ds1 b us us1 Pu), (value_perm n ds1 (pure H0) us us1 Pu), <- (like_value n n1 ds1 b us1 L), <- (like_value n n1 ds1 (pure H0) us1 L).
    apply Mx. apply (policy_perm n1 ds ds1); auto. apply (like_policy n n1 ds b L W In_). auto.
Qed.
Print Assumptions C61_solve.
(* without sufficient recall, the value is close to one that no policy exceeds by more than the tolerance *)
Theorem C61_search_partial : forall o choose m n ds us l, valid_order o -> (forall ps p, choose ps = Some p -> In p ps) -> valid m -> mgraph m = ngraph n -> no_clash (ngraph n) ->
  agent_decisions m = [(zero, ds)] -> agent_utilities m = [(zero, us)] -> built n -> distribution n -> unset_uniform n -> sufficient_recall m None = Ok false ->
  solve o choose m n = Ok l ->
  Permutation (map fst l) ds /\
  exists H v, choice n ds H /\ (forall d r, In (d, r) l -> exists t, r = Some t /\ tvar t = d /\ forall a, within n a -> entry (doms n) t a = pure H d a) /\
    close default_tol (value n ds (pure H) us) v /\
    forall b, policy n ds b -> value n ds b us <= v \/ exists w, value n ds b us <= w /\ close default_tol w v.
Proof.
  intros o choose m n ds us l O Cs V Eg NC Ea Eu B Hd U Sr H. destruct (solve_runs o choose m n ds us l V Eg NC Ea Eu B Hd H) as (m1 & n1 & n2 & ds1 & us1 & V1 & G1 & NC1 & R1 & Ea1 & Pd & Eu1 & Pu & L & Cp & Ei & -> & Id & Pm).
  destruct (C57_search_optimal_partial o choose m1 n1 zero ds1 us1 n2 O Cs V1 G1 Ea1 Eu1 (l_built _ _ L) (l_dist _ _ L) (copy_unset n n1 B Hd Cp U) ltac:(rewrite R1; auto) Ei) as (B2 & Hd2 & Df & H0 & v & Ch & Ke & Ev & Cl & Mx).
  assert (W : wf_dag (ngraph n)) by apply Hd. destruct (solo m zero ds us (proj1 (proj2 V)) Ea Eu) as (_ & _ & _ & Jd & _).
  assert (In_ : incl ds (nodes (ngraph n))) by (intros d K; rewrite <- Eg; apply (proj2 (proj2 V) zero d); left; apply Jd; auto).
  assert (Vl : forall b, value n ds b us = value n1 ds1 b us1) by (intro b; rewrite (value_dperm n ds ds1 b us Pd), (value_perm n ds1 b us us1 Pu), <- (like_value n n1 ds1 b us1 L); auto).
  split; [rewrite map_map; cbn [fst]; rewrite map_id; apply Permutation_sym; auto|]. exists H0, v. split; [|split; [|split]].
  - apply (like_choice n n1 ds H0 L W In_). apply (choice_perm n1 ds1); auto. apply Permutation_sym; auto.
  - eapply rules_listed; eauto.
  - rewrite Vl. auto.
  - intros b Po. rewrite Vl. apply Mx. apply (policy_perm n1 ds ds1); auto. apply (like_policy n n1 ds b L W In_). auto.
Qed.
Print Assumptions C61_search_partial.

Definition solved (r : result (list (node * option tab))) : list node := match r with Ok l => map fst l | Err _ => [] end.
Example C61_example : valid ex_two /\ mgraph ex_two = ngraph ex_two_net /\ no_clash (ngraph ex_two_net) /\ agent_decisions ex_two = [(zero, ["D"; "E"])] /\ agent_utilities ex_two = [(zero, ["U"])] /\
  built ex_two_net /\ distribution ex_two_net /\ sufficient_recall ex_two None = Ok true /\ solved (solve (fun _ l => l) (fun l => hd_error l) ex_two ex_two_net) = ["D"; "E"].
Proof.
  destruct C57_example as (H1 & H2 & H3 & H4 & H5 & H6 & H7 & H8 & _). split; [exact H1|]. split; [exact H2|]. split; [exact H3|]. split; [exact H4|]. split; [exact H5|]. split; [exact H6|]. split; [exact H7|]. split; [exact H8|]. vm_compute. reflexivity.
Qed.
