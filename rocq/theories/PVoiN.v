(* Property C72: the value of information in diagrams with several decisions. *)
From Coq Require Import String List Bool Arith QArith Qcanon Lia Permutation.
Import ListNotations.
From Verif Require Import MIncent SpecI LIncent LCopy.
From Verif Require PIncent.
From Verif Require Import MBase MGraph MMacid MCpd MNet MProb MQuery MEffects MPolicy MVoi Spec SpecM SpecC SpecN SpecQ SpecPol SpecVoi SpecVoiN LBase LGraph LDfs LQc LCpd LNet LSum LBayes LSep LQuery LDo LInter LFactor LEdit LBuilt LTotal LCheckN LCheck LEffects PMacid PQuery PCpd LRoles LReach LTrim LActive LMech LPolicy LValue LQcArith LSearch LLike LOptimal LOptDec LOptTotal LBest LSolve LIndep PPolicy POptDec PSolve LVoi LVoc LReq LVoiN PVoi.
Local Open Scope string_scope.
Local Open Scope list_scope.
Local Open Scope Qc_scope.

Lemma value_list : forall n ds ds' b us, (forall d, In d ds <-> In d ds') -> value n ds b us = value n ds' b us.
Proof.
  intros n ds ds' b us I. unfold value. apply total_ext. intro a. f_equal. change (fold_right Qcmult 1) with qprod. apply qprod_ext. intros v _. unfold follow.
  destruct (in_dec String.string_dec v ds) as [K|K], (in_dec String.string_dec v ds') as [K'|K']; auto; exfalso; [apply K', I|apply K, I]; auto.
Qed.
Lemma rules_list : forall n ds ds' sees b, (forall d, In d ds <-> In d ds') -> rules_seeing n ds sees b -> rules_seeing n ds' sees b.
Proof. intros n ds ds' sees b I R e K. apply R, I. auto. Qed.
Lemma rules_more : forall n ds (sees sees' : node -> node -> Prop) b, (forall e p, sees e p -> sees' e p) -> rules_seeing n ds sees b -> rules_seeing n ds sees' b.
Proof. intros n ds sees sees' b I R e K. apply (seeing_more n e (sees e)); auto. Qed.

Lemma voi_many : forall o choose m n ds us d x g1 g2 q, valid_order o -> valid m -> mgraph m = ngraph n -> no_clash (ngraph n) ->
  agent_decisions m = [(zero, ds)] -> agent_utilities m = [(zero, us)] -> In d ds -> built n -> distribution n -> plain_decision n d ->
  with_link (ngraph n) x d g1 -> recalls (with_graph m g1) -> without_link (ngraph n) x d g2 -> recalls (with_graph m g2) ->
  quantitative_voi o choose m n d x = Ok q ->
  exists v w, best_rules n ds us (sees_with (ngraph n) x d) v /\ best_rules n ds us (sees_without (ngraph n) x d) w /\ q = v - w /\
    exists n1, distribution n1 /\ with_link (ngraph n) x d (ngraph n1) /\ x <> d /\ ~ descends (ngraph n) x d /\ (forall b, value n1 ds b us = value n ds b us) /\
      (forall p, In p (nodes (ngraph n)) -> dom_of (doms n1) p = dom_of (doms n) p) /\ (forall b, policy n1 ds b <-> rules_seeing n ds (sees_with (ngraph n) x d) b).
Proof.
  intros o choose m n ds us d x g1 g2 q O V Eg NC Ea Eu Kd B Hd Pl Wl1 Rc1 Wl2 Rc2 H. unfold quantitative_voi in H. destruct (mem x (nodes (ngraph n))) eqn:Mx; [|discriminate]. cbn [negb] in H. apply mem_In in Mx.
  destruct (nx_descendants (ngraph n) d) as [desc|e] eqn:Ed; cbn [bind] in H; [|discriminate]. destruct (String.eqb x d || mem x desc) eqn:Ex; [discriminate|]. apply orb_false_iff in Ex. destruct Ex as [Ex Exd]. apply String.eqb_neq in Ex.
  rewrite (with_graph_eq m (ngraph n) Eg) in H. destruct (cid_copy_without_cpds m) as [m1|e] eqn:Em; cbn [bind] in H; [|discriminate]. destruct (solo_copies m m1 ds us V Ea Eu Em) as (C1 & SR & ds1 & us1 & Ea1 & Eu1 & Pd & Pu).
  destruct (copy_net n) as [n0|e] eqn:En; cbn [bind] in H; [|discriminate]. assert (L := like_copy n n0 B Hd En). assert (B0 := l_built _ _ L). assert (Hd0 := l_dist _ _ L). assert (Cm : consistent m) by apply V.
  destruct (solo m zero ds us Cm Ea Eu) as (_ & Nus & Iu & Idd & _). destruct (solo m1 zero ds1 us1 C1 Ea1 Eu1) as (_ & Nus1 & _ & _ & Dm1 & _).
  assert (W : wf_dag (ngraph n)) by apply Hd. assert (Ids : incl ds (nodes (ngraph n))) by (intros e K; rewrite <- Eg; apply (proj2 (proj2 V) zero e); left; apply Idd; auto). assert (Hn := Ids d Kd). assert (Ius : incl us (nodes (ngraph n))) by (intros u K; rewrite <- Eg; apply (proj2 (proj2 V) zero u); right; apply Iu; auto).
  assert (Mds : forall e, In e ds <-> In e ds1) by (intro e; split; apply Permutation_in; [|apply Permutation_sym]; auto). assert (Kd1 : In d ds1) by (apply Mds; auto). assert (Ids1 : incl ds1 (nodes (ngraph n))) by (intros e K; apply Ids, Mds; auto).
  assert (Iu1 : incl us1 (nodes (ngraph n))) by (intros u K; apply Ius; eapply Permutation_in; [apply Permutation_sym; exact Pu|auto]).
  assert (Pl0 : plain_decision n0 d). { destruct Pl as (r & Lr & Kr). exists r. split; auto. destruct (copy_sound n n0 (proj1 (built_sound n B)) En) as (_ & _ & R). rewrite R. exact Lr. }
  assert (N0 := l_nodes _ _ L). assert (Hn0 : In d (nodes (ngraph n0))) by (rewrite N0; auto). assert (Hx0 : In x (nodes (ngraph n0))) by (rewrite N0; auto).
  destruct (add_edge n0 x d) as [n1 [e|]] eqn:E1; cbn [done bind] in H; [discriminate|]. destruct (add_partly n0 x d n1 B0 Hd0 Hn0 Hx0 Pl0 E1) as (Pt1 & R1 & P1). assert (N1 : nodes (ngraph n1) = nodes (ngraph n)) by (rewrite (r_nodes _ _ _ R1); auto). assert (W1 := pa_wf _ _ Pt1).
  assert (Ed1' : forall p e, edge (ngraph n1) p e <-> sees_with (ngraph n) x d e p).
  { intros p e. unfold sees_with. destruct (String.string_dec e d) as [->|Ne]; [rewrite P1, (l_edges _ _ L); tauto|]. rewrite (r_edges _ _ _ R1 p e Ne), (l_edges _ _ L). tauto. }
  destruct (optimal_utility o choose m1 n1) as [n2 r1] eqn:E2. destruct r1 as [ev1|e]; cbn [bind] in H; [|discriminate].
  unfold optimal_utility in E2. destruct (impute_optimal_policy o choose (with_graph m1 (ngraph n1)) n1) as [n2a [e|]] eqn:E2a; [discriminate|].
  assert (Wg1 : wf_dag g1) by apply Wl1. assert (NCg1 : no_clash g1) by (apply (no_clash_incl (ngraph n)); auto; intros v K; apply Wl1; auto).
  assert (Pc1 : piece g1 (ngraph n1)) by (apply piece_of_same; auto; [intro v; rewrite N1; symmetry; apply Wl1|intros u v; rewrite Ed1'; symmetry; apply Wl1]).
  assert (Sr1 : sufficient_recall (with_graph m1 (ngraph n1)) None = Ok true) by (apply (recall_passes m m1 g1 (ngraph n1) ds ds1 us us1); auto; rewrite N1; auto).
  destruct (stage_many o choose m1 zero ds1 us1 n1 n2a (eq d) O C1 Ea1 Eu1 Pt1) as (n1r & B1r & Hd1r & R1r & G1r & B2a & Hd2a & Df2 & _ & Best1); auto.
  { intros v <-. auto. } { apply (no_clash_incl (ngraph n)); auto. rewrite N1. apply incl_refl. } { rewrite N1; auto. }
  assert (Lu1 : lookup zero (agent_utilities m1) = Some us1) by (rewrite Eu1; reflexivity).
  destruct (eu_query o m1 zero us1 n2a n2 ev1 O B2a Hd2a Lu1 Nus1 E2) as (Eq1 & V2 & Iu2 & Nr2). assert (R2a := differ_redos n1r n2a ds1 Hd1r Hd2a Df2).
  (* values in all the networks *)
  assert (Val1 : forall b, value n1r ds1 b us1 = value n ds b us). { intro b. rewrite (redos_value n1 n1r ds1 b us1 R1r), (redos_value n0 n1 ds1 b us1) by (apply (redo_redos _ _ d); auto). rewrite (like_value n n0 ds1 b us1 L), (value_list n ds1 ds) by (intro; symmetry; apply Mds). symmetry. apply value_perm. exact Pu. }
  assert (Ed1 : forall p e, edge (ngraph n1r) p e <-> sees_with (ngraph n) x d e p) by (intros p e; rewrite G1r; auto).
  assert (Dm1r : forall p, In p (nodes (ngraph n)) -> dom_of (doms n1r) p = dom_of (doms n) p) by (intros p K; rewrite (redos_dom _ _ _ p R1r), (redo_dom _ _ _ p R1); apply L; auto).
  assert (Ein : forall p e, sees_with (ngraph n) x d e p -> In p (nodes (ngraph n))) by (intros p e [K|[K _]]; [apply W in K; tauto|subst; auto]).
  assert (Po1 : forall b, policy n1r ds1 b <-> rules_seeing n ds (sees_with (ngraph n) x d) b).
  { intro b. rewrite (policies_seeing n n1r ds1 (sees_with (ngraph n) x d) b); auto; [|intros e p _ K; apply Dm1r; eapply Ein; eauto]. split; apply rules_list; [intro; symmetry|]; auto. }
  assert (Bw : best_rules n ds us (sees_with (ngraph n) x d) ev1).
  { subst ev1. destruct Best1 as [(b & Pb & Eb) M]. split; [|intros c K; rewrite <- Val1; apply M, Po1; auto]. exists b. split; [apply Po1; auto|]. rewrite <- Val1. auto. }
  (* without the observation *)
  assert (B2 := v_built _ _ _ V2). assert (Hd2 := v_dist _ _ _ V2). unfold remove_all_decision_rules in H.
  destruct (loop_net (fun n d => match lookup d (doms n) with Some dom => set_rel n d (RDom dom) | None => (n, Some KeyError) end) n2 (decisions m1)) as [n3 [e|]] eqn:E3; cbn [done bind] in H; [discriminate|].
  destruct (unset_many (decisions m1) n2 n3 B2 Hd2 E3) as (B3 & Hd3 & R3' & G3 & I2 & Pl3). assert (R3 : redos n2 n3 ds1) by (apply (redos_more _ _ (decisions m1)); auto; intros v K; apply Dm1; auto).
  assert (Id2 : incl ds1 (nodes (ngraph n2))) by (intros e K; apply I2, Dm1; auto). assert (Hn3 : In d (nodes (ngraph n3))) by (rewrite G3; auto). assert (Pl3d : plain_decision n3 d) by (apply Pl3; left; apply Dm1; auto).
  destruct (remove_edge n3 x d) as [n4 [e|]] eqn:E4; cbn [done bind] in H; [discriminate|]. destruct (remove_partly n3 x d n4 B3 Hd3 Hn3 Pl3d E4) as (Pt4 & R4 & P4). assert (W4 := pa_wf _ _ Pt4).
  destruct (optimal_utility o choose m1 n4) as [n5 r2] eqn:E5. destruct r2 as [ev2|e]; cbn [bind] in H; [|discriminate]. injection H as <-.
  unfold optimal_utility in E5. destruct (impute_optimal_policy o choose (with_graph m1 (ngraph n4)) n4) as [n5a [e|]] eqn:E5a; [discriminate|]. assert (N4 : nodes (ngraph n4) = nodes (ngraph n2)) by (rewrite (r_nodes _ _ _ R4), G3; auto).
  assert (G2a : ngraph n2a = ngraph n1) by (destruct Df2 as [G2a _]; congruence).
  assert (Ed4' : forall p e, edge (ngraph n4) p e <-> edge (ngraph n2) p e /\ ~ (p = x /\ e = d)).
  { intros p e. destruct (String.string_dec e d) as [->|Ne]; [rewrite P4, G3; split; intros [K1 K2]; (split; [auto|tauto])|]. rewrite (r_edges _ _ _ R4 p e Ne), G3. split; [intro K; split; [auto|tauto]|tauto]. }
  assert (Ed2 : forall p e, edge (ngraph n2) p e <-> sees_with (ngraph n) x d e p /\ In p (nodes (ngraph n2))) by (intros p e; rewrite (v_edges _ _ _ V2), G2a, Ed1'; tauto).
  assert (Cl2 : forall p e, sees_with (ngraph n) x d e p -> (In p (nodes (ngraph n2)) <-> In e (nodes (ngraph n2)))) by (intros p e K; apply (v_closed _ _ _ V2); rewrite G2a; apply Ed1'; auto).
  assert (Wg2 : wf_dag g2) by apply Wl2. assert (NCg2 : no_clash g2) by (apply (no_clash_incl (ngraph n)); auto; intros v K; apply Wl2; auto).
  assert (In4 : incl (nodes (ngraph n4)) (nodes (ngraph n))) by (intros v K; rewrite N4 in K; apply (v_nodes _ _ _ V2) in K; rewrite G2a, N1 in K; auto).
  assert (Pc2 : piece g2 (ngraph n4)).
  { constructor; [intros v K; apply Wl2; auto| |].
    - intros u v K. apply Wl2 in K. destruct K as [K _]. rewrite N4. apply Cl2. left; auto.
    - intros u v. rewrite Ed4', Ed2, N4. rewrite (proj2 (proj2 Wl2) u v). unfold sees_with. tauto. }
  assert (Sr2 : sufficient_recall (with_graph m1 (ngraph n4)) None = Ok true) by (apply (recall_passes m m1 g2 (ngraph n4) ds ds1 us us1); auto; rewrite N4; auto).
  destruct (stage_many o choose m1 zero ds1 us1 n4 n5a (eq d) O C1 Ea1 Eu1 Pt4) as (n4r & B4r & Hd4r & R4r & G4r & B5a & Hd5a & Df5 & _ & Best2); auto.
  { intros v <-. auto. } { apply (no_clash_incl (ngraph n)); auto. } { rewrite N4; auto. }
  destruct (eu_query o m1 zero us1 n5a n5 ev2 O B5a Hd5a Lu1 Nus1 E5) as (Eq2 & _ & _ & _).
  assert (Ed4 : forall e p, In e ds1 -> (edge (ngraph n4r) p e <-> sees_without (ngraph n) x d e p)).
  { intros e p K. rewrite G4r, Ed4', Ed2. unfold sees_without. split; [unfold sees_with; tauto|]. intros [K1 K2]. assert (K3 : sees_with (ngraph n) x d e p) by (left; auto). split; auto. split; auto. apply (Cl2 p e K3). auto. }
  assert (Dm2a : forall p, In p (nodes (ngraph n)) -> dom_of (doms n2a) p = dom_of (doms n) p) by (intros p K; rewrite (redos_dom _ _ _ p R2a); apply Dm1r; auto).
  assert (Dm4 : forall p, In p (nodes (ngraph n)) -> dom_of (doms n4r) p = dom_of (doms n) p) by (intros p K; rewrite (redos_dom _ _ _ p R4r), (redo_dom _ _ _ p R4), (redos_dom _ _ _ p R3), (variant_dom _ _ _ p V2); auto).
  assert (Sub : forall e p, sees_without (ngraph n) x d e p -> sees_with (ngraph n) x d e p) by (intros e p [K _]; left; auto).
  assert (Po4 : forall b, policy n4r ds1 b <-> rules_seeing n ds (sees_without (ngraph n) x d) b).
  { intro b. rewrite (policies_seeing n n4r ds1 (sees_without (ngraph n) x d) b); auto; [|intros e p _ K; apply Dm4; eapply Ein; eauto]. split; apply rules_list; [intro; symmetry|]; auto. }
  assert (Val4 : forall b, policy n4r ds1 b -> value n4r ds1 b us1 = value n ds b us).
  { intros b K. rewrite (redos_value n4 n4r ds1 b us1 R4r), (redos_value n3 n4 ds1 b us1) by (apply (redo_redos _ _ d); auto). rewrite (redos_value n2 n3 ds1 b us1 R3). rewrite (LVoc.variant_value n2a n2 ds1 b us1 Hd2a); auto; [rewrite (redos_value n1r n2a ds1 b us1 R2a); auto|].
    apply (policies_seeing n n2a ds1 (sees_with (ngraph n) x d)); [intros e p _; rewrite G2a; auto|intros e p _ K'; apply Dm2a; eapply Ein; eauto|intros e Ke; apply Dm2a; auto|]. apply (rules_more n ds1 (sees_without (ngraph n) x d)); auto. apply (rules_list n ds); auto. apply Po4; auto. }
  exists ev1, ev2. split; [exact Bw|]. split; [|split; [reflexivity|]].
  2:{ exists n1r. split; [auto|]. split; [|split; [auto|split; [|split; [|split; auto]]]].
    - split; [apply Hd1r|]. split; [intro v; rewrite G1r, N1; tauto|]. intros p c. rewrite Ed1. reflexivity.
    - intro K. unfold nx_descendants in Ed. destruct (mem d (nodes (ngraph n))); [|discriminate]. injection Ed as <-. apply (descendants_iff _ (proj1 W) d x (proj2 W) Hn) in K. apply mem_In in K. congruence.
    - intro b. rewrite <- Val1. rewrite (value_list n1r ds ds1) by auto. apply value_perm. exact Pu.
    - intro b. rewrite <- Po1. split; apply policy_same; auto; intros; try tauto. symmetry; auto. }
  subst ev2. destruct Best2 as [(b & Pb & Eb) M]. split.
  - exists b. split; [apply Po4; auto|]. rewrite <- Val4; auto.
  - intros c K. apply Po4 in K. rewrite <- Val4 by auto. apply M; auto.
Qed.

(* ---- C72 ---- *)
(* one agent with any number of decisions, and sufficient recall whether or not d sees x: the number returned is the difference of two maxima
   over all policies for all the decisions, random or not: those in which d also observes x, and those in which it does not *)
Theorem C72_voi : forall o choose m n ds us d x g1 g2 q, valid_order o -> valid m -> mgraph m = ngraph n -> no_clash (ngraph n) ->
  agent_decisions m = [(zero, ds)] -> agent_utilities m = [(zero, us)] -> In d ds -> built n -> distribution n -> plain_decision n d ->
  with_link (ngraph n) x d g1 -> recalls (with_graph m g1) -> without_link (ngraph n) x d g2 -> recalls (with_graph m g2) ->
  quantitative_voi o choose m n d x = Ok q ->
  exists v w, best_rules n ds us (sees_with (ngraph n) x d) v /\ best_rules n ds us (sees_without (ngraph n) x d) w /\ q = v - w.
Proof.
  intros o choose m n ds us d x g1 g2 q O V Eg NC Ea Eu Kd B Hd Pl W1 R1 W2 R2 H. destruct (voi_many o choose m n ds us d x g1 g2 q O V Eg NC Ea Eu Kd B Hd Pl W1 R1 W2 R2 H) as (v & w & K1 & K2 & K3 & _). eauto.
Qed.
Print Assumptions C72_voi.
(* hence it is never negative *)
Theorem C72_nonneg : forall o choose m n ds us d x g1 g2 q, valid_order o -> valid m -> mgraph m = ngraph n -> no_clash (ngraph n) ->
  agent_decisions m = [(zero, ds)] -> agent_utilities m = [(zero, us)] -> In d ds -> built n -> distribution n -> plain_decision n d ->
  with_link (ngraph n) x d g1 -> recalls (with_graph m g1) -> without_link (ngraph n) x d g2 -> recalls (with_graph m g2) ->
  quantitative_voi o choose m n d x = Ok q -> 0 <= q.
Proof.
  intros o choose m n ds us d x g1 g2 q O V Eg NC Ea Eu Kd B Hd Pl W1 R1 W2 R2 H. destruct (C72_voi o choose m n ds us d x g1 g2 q O V Eg NC Ea Eu Kd B Hd Pl W1 R1 W2 R2 H) as (v & w & [_ U] & [(b & Rb & <-) _] & ->).
  apply (Qcle_minus_iff (value n ds b us) v). apply U. apply (rules_more n ds (sees_without (ngraph n) x d)); auto. intros e p [K _]. left; auto.
Qed.
Print Assumptions C72_nonneg.
(* the link x -> d is dropped in some reduction of the diagram that has it: nothing is gained by seeing x *)
Theorem C72_zero : forall o choose m n ds us d x g1 g2 h q, valid_order o -> valid m -> mgraph m = ngraph n -> no_clash (ngraph n) ->
  agent_decisions m = [(zero, ds)] -> agent_utilities m = [(zero, us)] -> In d ds -> built n -> distribution n -> plain_decision n d ->
  with_link (ngraph n) x d g1 -> recalls (with_graph m g1) -> without_link (ngraph n) x d g2 -> recalls (with_graph m g2) ->
  quantitative_voi o choose m n d x = Ok q -> reduces m g1 h -> ~ edge h x d -> q = 0.
Proof.
  intros o choose m n ds us d x g1 g2 h q O V Eg NC Ea Eu Kd B Hd Pl W1 R1 W2 R2 H Rd Nh.
  destruct (voi_many o choose m n ds us d x g1 g2 q O V Eg NC Ea Eu Kd B Hd Pl W1 R1 W2 R2 H) as (v & w & [(b1 & Rb1 & Eb1) U1] & [(b2 & Rb2 & Eb2) U2] & -> & n1 & Hd1 & Lk & Nx & Nd & Val & Dm & Po).
  assert (Cm : consistent m) by apply V. destruct (solo m zero ds us Cm Ea Eu) as (_ & Nus & Iu & Idd & Dj). assert (W : wf_dag (ngraph n)) by apply Hd. assert (Wg : wf_dag g1) by apply W1.
  assert (Ids : incl ds (nodes (ngraph n))) by (intros e K; rewrite <- Eg; apply (proj2 (proj2 V) zero e); left; apply Idd; auto). assert (Ius : incl us (nodes (ngraph n))) by (intros u K; rewrite <- Eg; apply (proj2 (proj2 V) zero u); right; apply Iu; auto).
  assert (Ee : forall u v, edge g1 u v <-> edge (ngraph n1) u v) by (intros u z; rewrite (proj2 (proj2 W1) u z), (proj2 (proj2 Lk) u z); tauto).
  destruct (reduces_ext m g1 h Rd (ngraph n1) Ee (proj2 Wg)) as (h1 & Rd1 & Se). assert (Nh1 : ~ edge h1 x d) by (intro K; apply Nh, Se; auto).
  assert (Ids1 : incl ds (nodes (ngraph n1))) by (intros e K; apply Lk, Ids; auto). assert (Ius1 : incl us (nodes (ngraph n1))) by (intros e K; apply Lk, Ius; auto).
  destruct (reduced_policy m zero ds us n1 h1 b1 Ea Eu Cm Hd1 Ids1 Ius1 Rd1 (proj2 (Po b1) Rb1)) as (n' & Hd' & G' & D' & _ & P' & L' & _). destruct (reduces_wf m _ _ (proj1 Hd1) Rd1) as (_ & Nn & Sb).
  assert (Rb' : rules_seeing n ds (sees_without (ngraph n) x d) (kernel n')).
  { intros e K. assert (Hh : forall p, edge (ngraph n') p e -> sees_without (ngraph n) x d e p). { intros p Kp. rewrite G' in Kp. split; [|intros [-> ->]; contradiction]. assert (K1 := Sb p e Kp). apply Lk in K1. destruct K1 as [K1|[-> ->]]; [auto|contradiction]. }
    destruct (own_policy n' [e] Hd') with (d := e) as (A1 & A2 & A3); [intros z [<-|[]]; rewrite G', Nn; auto|left; auto|]. split; [|split; auto].
    - intros a a' E1 E2. apply A1; auto.
    - intros a Ka. rewrite <- (Dm e (Ids e K)), <- D'. apply A3. intros p Kp. rewrite D'. assert (Sp := Hh p Kp). rewrite Dm by (destruct Sp as [Sp _]; apply W in Sp; tauto). auto. }
  assert (v <= w). { rewrite <- Eb1, <- (Val b1). eapply Qcle_trans; [exact L'|]. rewrite Val. apply U2; auto. }
  assert (w <= v). { rewrite <- Eb2. apply U1. apply (rules_more n ds (sees_without (ngraph n) x d)); auto. intros e p [K _]. left; auto. }
  assert (Evw : v = w) by (apply Qcle_antisym; auto). rewrite Evw. apply Qcplus_opp_r.
Qed.
Print Assumptions C72_zero.
(* in particular when admits_voi says no *)
Theorem C72_admits : forall o choose m n ds us d x g1 g2 q, valid_order o -> SpecI.askable IsCID m -> recalls m -> mgraph m = ngraph n ->
  agent_decisions m = [(zero, ds)] -> agent_utilities m = [(zero, us)] -> In d ds -> built n -> distribution n -> plain_decision n d ->
  with_link (ngraph n) x d g1 -> recalls (with_graph m g1) -> without_link (ngraph n) x d g2 -> recalls (with_graph m g2) ->
  quantitative_voi o choose m n d x = Ok q -> admits_voi IsCID o m d x = Ok false -> q = 0.
Proof.
  intros o choose m n ds us d x g1 g2 q O A Rc Eg Ea Eu Kd B Hd Pl W1 R1 W2 R2 H Av. assert (A0 := A). destruct A0 as (V & Pr & Sa & NC). assert (NCn : no_clash (ngraph n)) by (rewrite <- Eg; auto).
  destruct (voi_many o choose m n ds us d x g1 g2 q O V Eg NCn Ea Eu Kd B Hd Pl W1 R1 W2 R2 H) as (_ & _ & _ & _ & _ & n1 & _ & _ & Nx & Nd & _). destruct (solo m zero ds us (proj1 (proj2 V)) Ea Eu) as (_ & _ & _ & Idd & _).
  assert (Hx : In x (nodes (mgraph m))). { rewrite Eg. unfold quantitative_voi in H. destruct (mem x (nodes (ngraph n))) eqn:Mx; [apply mem_In; auto|discriminate]. }
  assert (Hn : In d (nodes (mgraph m))) by (apply (proj2 (proj2 V) zero d); left; apply Idd; auto).
  destruct (admits_voi_spec IsCID o m d x A Rc O Hx Hn) as (b & Eb & _ & K). rewrite Av in Eb. injection Eb as <-. destruct K as (g' & r & Wl & (h' & [Rd _] & Se) & Kb); auto; [rewrite Eg; auto|].
  assert (Sg : same_edges g' g1). { intros u v. rewrite (proj2 (proj2 Wl) u v), (proj2 (proj2 W1) u v), Eg. tauto. } destruct (reduces_ext m g' h' Rd g1 Sg (proj2 (proj1 Wl))) as (h & Rh & Sh).
  apply (C72_zero o choose m n ds us d x g1 g2 h q O V Eg NCn Ea Eu Kd B Hd Pl W1 R1 W2 R2 H Rh). intro Kh. apply Sh, Se, Kb in Kh. discriminate.
Qed.
Print Assumptions C72_admits.
(* whatever the recall with the new link, and whatever a solver does: when admits_voi says no, all rules that use x can be matched by rules that do not *)
Theorem C72_sound : forall o m n ds us d x, valid_order o -> SpecI.askable IsCID m -> mgraph m = ngraph n ->
  agent_decisions m = [(zero, ds)] -> agent_utilities m = [(zero, us)] -> In d ds -> distribution n -> x <> d -> ~ descends (ngraph n) x d ->
  admits_voi IsCID o m d x = Ok false ->
  forall b, rules_seeing n ds (sees_with (ngraph n) x d) b -> exists b', rules_seeing n ds (sees_without (ngraph n) x d) b' /\ value n ds b us <= value n ds b' us.
Proof.
  intros o m n ds us d x O A Eg Ea Eu Kd Hd Nx Nd Av b Rb. assert (A0 := A). destruct A0 as (V & Pr & Sa & NC). assert (Cm : consistent m) by apply V. destruct (solo m zero ds us Cm Ea Eu) as (_ & Nus & Iu & Idd & Dj). assert (W : wf_dag (ngraph n)) by apply Hd.
  assert (Ids : incl ds (nodes (ngraph n))) by (intros e K; rewrite <- Eg; apply (proj2 (proj2 V) zero e); left; apply Idd; auto). assert (Ius : incl us (nodes (ngraph n))) by (intros u K; rewrite <- Eg; apply (proj2 (proj2 V) zero u); right; apply Iu; auto). assert (Hn := Ids d Kd).
  assert (Hx : In x (nodes (ngraph n))). { rewrite <- Eg. unfold admits_voi in Av. destruct (several_agents m); [discriminate|]. destruct (mem x (nodes (mgraph m))) eqn:Mx; [apply mem_In; auto|discriminate]. }
  assert (Rc : recalls m). { unfold admits_voi in Av. destruct (several_agents m); [discriminate|]. destruct (mem x (nodes (mgraph m))); [|discriminate]. destruct (mem d (nodes (mgraph m))); [|discriminate]. cbn [negb] in Av. destruct (sufficient_recall m None) as [[]|] eqn:Sr; try discriminate. apply (cid_recalls IsCID); auto. }
  assert (Nd' : ~ descends (mgraph m) x d) by (rewrite Eg; auto). destruct (admits_voi_spec IsCID o m d x A Rc O) as (c & Eb & _ & K); [rewrite Eg; auto|rewrite Eg; auto|]. rewrite Av in Eb. injection Eb as <-. destruct (K Nx Nd') as (g' & r & Wl & (h' & [Rd _] & Se) & Kb). clear K.
  destruct (add_link_ok (ngraph n) x d W Hx Hn Nx Nd) as (g & Ag & Lk). destruct (bn_add_edge_ok _ _ _ _ W Ag) as [Wg Eqg]. assert (Ng : nodes g = nodes (ngraph n)) by (rewrite Eqg; apply LRel.nodes_nx_add_edge_present; auto).
  assert (Sg : same_edges g' g). { intros u v. rewrite (proj2 (proj2 Wl) u v), (proj2 (proj2 Lk) u v), Eg. tauto. } destruct (reduces_ext m g' h' Rd g Sg (proj2 (proj1 Wl))) as (h & Rh & Sh). assert (Nh : ~ edge h x d) by (intro K; apply Sh, Se, Kb in K; discriminate).
  assert (Rg : rule_seeing n d (fun p => edge g p d) b). { destruct (Rb d Kd) as (A1 & A2 & A3). assert (Es : forall p, edge g p d <-> sees_with (ngraph n) x d d p) by (intro p; rewrite (proj2 (proj2 Lk) p d); reflexivity). split; [intros a a' E K; apply A1; auto; intros p Kp; apply K, Es; auto|]. split; auto. intros a K. apply A3. intros p Kp. apply K, Es; auto. }
  destruct (slim_ok n g d b Hd Wg Ng) as [Sl _]; auto; [intros p v Nv; rewrite (proj2 (proj2 Lk) p v); tauto|rewrite Ng; auto|]. set (n1 := slim n g d b) in *. assert (G1 := sl_graph _ _ _ _ Sl). assert (Hd1 := sl_dist _ _ _ _ Sl). assert (D1 : forall v, dom_of (doms n1) v = dom_of (doms n) v) by (intro v; rewrite (sl_doms _ _ _ _ Sl); auto).
  assert (Val : forall c, value n1 ds c us = value n ds c us).
  { intro c. unfold value. rewrite G1, Ng. rewrite (total_dom_perm (dom_of (doms n1)) (dom_of (doms n))) by (intros v _; rewrite D1; apply Permutation_refl). apply total_ext. intro a. f_equal. change (fold_right Qcmult 1) with qprod. apply qprod_ext. intros v _. unfold follow. destruct (in_dec String.string_dec v ds) as [K|K]; auto.
    apply (slimmer_kernel n n1 g [d]); auto. intros [<-|[]]. auto. }
  assert (Po : policy n1 ds b). { apply (policies_seeing n n1 ds (sees_with (ngraph n) x d)); auto. intros e p _. rewrite G1, (proj2 (proj2 Lk) p e). reflexivity. }
  destruct (reduced_policy m zero ds us n1 h b Ea Eu Cm Hd1) as (n' & Hd' & G' & D' & _ & P' & L' & _); auto; try (rewrite G1, ?Ng; auto). destruct (reduces_wf m _ _ Wg Rh) as (_ & Nn & Sb).
  exists (kernel n'). split; [|rewrite <- (Val b), <- (Val (kernel n')); exact L'].
  intros e K. assert (Hh : forall p, edge (ngraph n') p e -> sees_without (ngraph n) x d e p). { intros p Kp. rewrite G' in Kp. split; [|intros [-> ->]; contradiction]. assert (K1 := Sb p e Kp). apply Lk in K1. destruct K1 as [K1|[-> ->]]; [auto|contradiction]. }
  destruct (own_policy n' [e] Hd') with (d := e) as (A1 & A2 & A3); [intros z [<-|[]]; rewrite G', Nn, Ng; auto|left; auto|]. split; [|split; auto].
  - intros a a' E1 E2. apply A1; auto.
  - intros a Ka. rewrite <- (D1 e), <- D'. apply A3. intros p Kp. rewrite D', D1. auto.
Qed.
Print Assumptions C72_sound.
(* two decisions: E is taken after D and sees it; E should guess the coin X, and gains less by agreeing with D *)
Definition ex_guess_graph : graph := mkG ["X"; "Y"; "D"; "E"; "U"; "V"] [("D", "E"); ("X", "U"); ("E", "U"); ("D", "V"); ("E", "V")].
Definition ex_guess : macid := diagram_of ex_guess_graph [("0", ["D"; "E"])] [("0", ["U"; "V"])].
Definition ex_guess_net : net := made ex_guess_graph [("X", RDist coin); ("Y", RDist coin); ("D", RDom [0; 1]); ("E", RDom [0; 1]);
  ("U", tab_of "U" [0; q 2 1] ["X"; "E"] [2; 2]%nat [[0;1]; [1;0]; [1;0]; [0;1]]); ("V", tab_of "V" [0; 1] ["D"; "E"] [2; 2]%nat [[0;1]; [1;0]; [1;0]; [0;1]])].
Lemma ex_guess_built : built ex_guess_net /\ distribution ex_guess_net.
Proof.
  split; [apply made_built|apply dist_check_ok]; [vm_compute; reflexivity| |vm_compute; reflexivity|vm_compute; reflexivity].
  rels_ok; [split; [exact I|exact coin_dict]|split; [exact I|exact coin_dict]|split; exact I|split; exact I|apply tab_admissible|apply tab_admissible].
Qed.
Example C72_example : SpecI.askable IsCID ex_guess /\ recalls ex_guess /\ mgraph ex_guess = ngraph ex_guess_net /\ agent_decisions ex_guess = [(zero, ["D"; "E"])] /\ agent_utilities ex_guess = [(zero, ["U"; "V"])] /\
  built ex_guess_net /\ distribution ex_guess_net /\ plain_decision ex_guess_net "E" /\
  (exists g1 g2, with_link (ngraph ex_guess_net) "X" "E" g1 /\ recalls (with_graph ex_guess g1) /\ without_link (ngraph ex_guess_net) "X" "E" g2 /\ recalls (with_graph ex_guess g2)) /\
  quantitative_voi (fun _ l => l) first_of ex_guess ex_guess_net "E" "X" = Ok (q 1 2) /\ admits_voi IsCID (fun _ l => l) ex_guess "E" "X" = Ok true /\
  (exists g1 g2, with_link (ngraph ex_guess_net) "Y" "D" g1 /\ recalls (with_graph ex_guess g1) /\ without_link (ngraph ex_guess_net) "Y" "D" g2 /\ recalls (with_graph ex_guess g2)) /\
  quantitative_voi (fun _ l => l) first_of ex_guess ex_guess_net "D" "Y" = Ok 0 /\ admits_voi IsCID (fun _ l => l) ex_guess "D" "Y" = Ok false.
Proof.
  destruct ex_guess_built as [B Hd]. assert (A : SpecI.askable IsCID ex_guess) by PIncent.cid.
  assert (Rc : recalls ex_guess) by (apply (cid_recalls IsCID); [exact A|vm_compute; reflexivity]).
  assert (G : ngraph ex_guess_net = ex_guess_graph) by (vm_compute; reflexivity).
  assert (Wg : wf_dag ex_guess_graph) by (apply graph_ok_wf; vm_compute; reflexivity).
  assert (Lk : forall x d, In x (nodes ex_guess_graph) -> In d (nodes ex_guess_graph) -> graph_ok (nx_add_edge ex_guess_graph x d) = true -> with_link (ngraph ex_guess_net) x d (nx_add_edge ex_guess_graph x d)).
  { intros x d Hx Hn Ok. rewrite G. split; [apply graph_ok_wf; exact Ok|]. split; [|apply edge_nx_add_edge]. intro v. rewrite nodes_nx_add_edge. split; auto. intros [|[->| ->]]; auto. }
  assert (Wl : forall x d, without_link (ngraph ex_guess_net) x d (without ex_guess_graph x d)).
  { intros x d. rewrite G. split; [apply wf_without; exact Wg|]. split; [intro v; reflexivity|]. intros a b. rewrite edge_without. split; intros [K1 K2]; (split; [exact K1|]); [intros [-> ->]; apply K2; auto|intro K; injection K as -> ->; apply K2; auto]. }
  assert (Wr : forall g, (forall v, In v (nodes ex_guess_graph) -> In v (nodes g)) -> graph_ok g = true -> clash_free g = true -> sufficient_recall (with_graph ex_guess g) None = Ok true -> recalls (with_graph ex_guess g)).
  { intros g I0 Ok Cf Sr. apply (cid_recalls IsCID); [|exact Sr]. destruct A as (V & Pr & Sa & NC). split; [apply valid_with_graph; auto; apply graph_ok_wf; exact Ok|]. split; [apply proper_with_graph; exact Pr|]. split; [exact Sa|]. apply clash_free_ok; exact Cf. }
  split; [exact A|]. split; [exact Rc|]. split; [vm_compute; reflexivity|]. split; [reflexivity|]. split; [reflexivity|]. split; [exact B|]. split; [exact Hd|]. split; [exists (RDom [0; 1]); split; [vm_compute; reflexivity|exact I]|].
  split; [|split; [apply is_val_ok; vm_compute; reflexivity|split; [vm_compute; reflexivity|split; [|split; [apply is_val_ok; vm_compute; reflexivity|vm_compute; reflexivity]]]]].
  - exists (nx_add_edge ex_guess_graph "X" "E"), (without ex_guess_graph "X" "E"). split; [apply Lk; [left; auto|do 3 right; left; auto|vm_compute; reflexivity]|]. split; [apply Wr; [intros v K; apply nodes_nx_add_edge; auto|vm_compute; reflexivity|vm_compute; reflexivity|vm_compute; reflexivity]|].
    split; [apply Wl|apply Wr; [auto|vm_compute; reflexivity|vm_compute; reflexivity|vm_compute; reflexivity]].
  - exists (nx_add_edge ex_guess_graph "Y" "D"), (without ex_guess_graph "Y" "D"). split; [apply Lk; [right; left; auto|right; right; left; auto|vm_compute; reflexivity]|]. split; [apply Wr; [intros v K; apply nodes_nx_add_edge; auto|vm_compute; reflexivity|vm_compute; reflexivity|vm_compute; reflexivity]|].
    split; [apply Wl|apply Wr; [auto|vm_compute; reflexivity|vm_compute; reflexivity|vm_compute; reflexivity]].
Qed.
(* giving an earlier decision an observation that a later one does not make may destroy sufficient recall: the diagram then has to be solved by trying all rules *)
Theorem C72_recall_refuted : exists m d x g1, SpecI.askable IsCID m /\ recalls m /\ is_decision m d /\ with_link (mgraph m) x d g1 /\ ~ recalls (with_graph m g1).
Proof.
  assert (A : SpecI.askable IsCID ex_guess) by PIncent.cid. assert (Wg : wf_dag (nx_add_edge ex_guess_graph "X" "D")) by (apply graph_ok_wf; vm_compute; reflexivity).
  exists ex_guess, "D", "X", (nx_add_edge ex_guess_graph "X" "D"). split; [exact A|]. split; [apply (cid_recalls IsCID); [exact A|vm_compute; reflexivity]|]. split; [exists zero, ["D"; "E"]; split; left; reflexivity|]. split.
  - split; [exact Wg|]. split; [|apply edge_nx_add_edge]. intro v. rewrite nodes_nx_add_edge. split; [intros [K|[->| ->]]; [exact K|left; reflexivity|right; right; left; reflexivity]|auto].
  - intro Rc. assert (A1 : SpecI.askable IsCID (with_graph ex_guess (nx_add_edge ex_guess_graph "X" "D"))).
    { destruct A as (V & Pr & Sa & NC). split; [apply valid_with_graph; auto; intros v K; apply nodes_nx_add_edge; left; exact K|]. split; [apply proper_with_graph; exact Pr|]. split; [exact Sa|]. apply clash_free_ok; vm_compute; reflexivity. }
    destruct (recall_ok IsCID _ A1) as (rb & E1 & E2). apply E2 in Rc. subst rb. vm_compute in E1. discriminate.
Qed.
Print Assumptions C72_recall_refuted.
