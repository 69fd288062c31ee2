(* Properties C47 and C48: the quantitative value of information, and of control. *)
From Coq Require Import String List Bool Arith QArith Qcanon Lia Permutation.
Import ListNotations.
From Verif Require Import MIncent SpecI LIncent LCopy.
From Verif Require PIncent.
From Verif Require Import MBase MGraph MMacid MCpd MNet MProb MQuery MEffects MPolicy MVoi Spec SpecM SpecC SpecN SpecQ SpecPol SpecVoi LBase LGraph LDfs LQc LCpd LNet LSum LBayes LSep LQuery LDo LInter LFactor LEdit LBuilt LTotal LCheckN LCheck LEffects PMacid PQuery PCpd LRoles LReach LTrim LActive LMech LPolicy LValue LQcArith LSearch LLike LOptimal LOptDec LOptTotal LBest LSolve LIndep PPolicy POptDec PSolve LVoi.
Local Open Scope string_scope.
Local Open Scope list_scope.
Local Open Scope Qc_scope.

Lemma voi_core : forall o choose m n d us x q, valid_order o -> valid m -> mgraph m = ngraph n -> no_clash (ngraph n) ->
  agent_decisions m = [(zero, [d])] -> agent_utilities m = [(zero, us)] -> built n -> distribution n -> plain_decision n d ->
  quantitative_voi o choose m n d x = Ok q ->
  exists v w, best_seeing n d us (fun p => edge (ngraph n) p d \/ p = x) v /\ best_seeing n d us (fun p => edge (ngraph n) p d /\ p <> x) w /\ q = v - w /\
    exists n1, distribution n1 /\ with_link (ngraph n) x d (ngraph n1) /\ x <> d /\ ~ descends (ngraph n) x d /\ (forall b, value n1 [d] b us = value n [d] b us) /\
      (forall p, In p (nodes (ngraph n)) -> dom_of (doms n1) p = dom_of (doms n) p) /\ (forall b, policy n1 [d] b <-> rule_seeing n d (fun p => edge (ngraph n) p d \/ p = x) b).
Proof.
  intros o choose m n d us x q O V Eg NC Ea Eu B Hd Pl H. unfold quantitative_voi in H. destruct (mem x (nodes (ngraph n))) eqn:Mx; [|discriminate]. cbn [negb] in H. apply mem_In in Mx.
  destruct (nx_descendants (ngraph n) d) as [desc|e] eqn:Ed; cbn [bind] in H; [|discriminate]. destruct (String.eqb x d || mem x desc) eqn:Ex; [discriminate|]. apply orb_false_iff in Ex. destruct Ex as [Ex Exd]. apply String.eqb_neq in Ex.
  rewrite (with_graph_eq m (ngraph n) Eg) in H. destruct (cid_copy_without_cpds m) as [m1|e] eqn:Em; cbn [bind] in H; [|discriminate]. destruct (solo_copy m m1 d us V Ea Eu Em) as (C1 & Ea1 & us1 & Eu1 & Pu).
  destruct (copy_net n) as [n0|e] eqn:En; cbn [bind] in H; [|discriminate]. assert (L := like_copy n n0 B Hd En). assert (B0 := l_built _ _ L). assert (Hd0 := l_dist _ _ L).
  destruct (solo m zero [d] us (proj1 (proj2 V)) Ea Eu) as (_ & Nus & Iu & Idd & _). destruct (solo m1 zero [d] us1 C1 Ea1 Eu1) as (_ & Nus1 & _).
  assert (W : wf_dag (ngraph n)) by apply Hd. assert (Hn : In d (nodes (ngraph n))) by (rewrite <- Eg; apply (proj2 (proj2 V) zero d); left; apply Idd; left; auto). assert (Ius : incl us (nodes (ngraph n))) by (intros u K; rewrite <- Eg; apply (proj2 (proj2 V) zero u); right; apply Iu; auto).
  assert (Pl0 : plain_decision n0 d). { destruct Pl as (r & Lr & Kr). exists r. split; auto. destruct (copy_sound n n0 (proj1 (built_sound n B)) En) as (_ & _ & R). rewrite R. exact Lr. }
  assert (N0 := l_nodes _ _ L). assert (Hn0 : In d (nodes (ngraph n0))) by (rewrite N0; auto). assert (Hx0 : In x (nodes (ngraph n0))) by (rewrite N0; auto).
  destruct (add_edge n0 x d) as [n1 [e|]] eqn:E1; cbn [done bind] in H; [discriminate|]. destruct (add_redo n0 x d n1 B0 Hd0 Hn0 Hx0 Pl0 E1) as (B1 & R1 & P1). assert (N1 : nodes (ngraph n1) = nodes (ngraph n)) by (rewrite (r_nodes _ _ _ R1); auto).
  destruct (optimal_utility o choose m1 n1) as [n2 r1] eqn:E2. destruct r1 as [ev1|e]; cbn [bind] in H; [|discriminate].
  unfold optimal_utility in E2. destruct (impute_optimal_policy o choose (with_graph m1 (ngraph n1)) n1) as [n2a [e|]] eqn:E2a; [discriminate|].
  assert (Iu1 : incl us1 (nodes (ngraph n))) by (intros u K; apply Ius; eapply Permutation_in; [apply Permutation_sym; exact Pu|auto]).
  destruct (stage o choose m1 zero d us1 n0 n1 n2a O C1 Ea1 Eu1 Hd0 B1 R1) as (n1r & B1r & Hd1r & R1r & G1r & B2a & Hd2a & Df2 & (u0 & Hu0 & Du0) & (H1 & Ch1 & Ev1) & Mx1); auto.
  { apply (no_clash_incl (ngraph n)); auto. rewrite N1. apply incl_refl. } { rewrite N1; auto. } { rewrite N1; auto. }
  assert (Lu1 : lookup zero (agent_utilities m1) = Some us1) by (rewrite Eu1; reflexivity).
  destruct (eu_query o m1 zero us1 n2a n2 ev1 O B2a Hd2a Lu1 Nus1 E2) as (Eq1 & V2 & Iu2 & Nr2). assert (R2a := differ_redo n1r n2a d Hd1r Hd2a Df2).
  (* values in all the networks *)
  assert (Val1 : forall b, value n1r [d] b us1 = value n [d] b us). { intro b. rewrite (redo_value n1 n1r d b us1 R1r), (redo_value n0 n1 d b us1 R1), (like_value n n0 [d] b us1 L). symmetry. apply value_perm. exact Pu. }
  assert (Ed1 : forall p, edge (ngraph n1r) p d <-> edge (ngraph n) p d \/ p = x) by (intro p; rewrite G1r, P1, (l_edges _ _ L); tauto).
  assert (Dm1 : forall p, In p (nodes (ngraph n)) -> dom_of (doms n1r) p = dom_of (doms n) p) by (intros p K; rewrite (redo_dom _ _ _ p R1r), (redo_dom _ _ _ p R1); apply L; auto).
  assert (Ein : forall p, edge (ngraph n) p d \/ p = x -> In p (nodes (ngraph n))) by (intros p [K|K]; [apply W in K; tauto|subst; auto]).
  assert (Po1 : forall b, policy n1r [d] b <-> rule_seeing n d (fun p => edge (ngraph n) p d \/ p = x) b) by (intro b; apply policy_seeing; [auto|intros p K; apply Dm1, Ein; auto|apply Dm1; auto]).
  assert (Best1 : best_seeing n d us (fun p => edge (ngraph n) p d \/ p = x) ev1).
  { subst ev1. split; [|intros b K; rewrite <- Val1; apply Mx1, Po1; auto]. exists (pure H1). split; [apply Po1, pure_policy; auto; intros e [<-|[]]; rewrite G1r, N1; auto|]. rewrite <- Val1, Ev1. auto. }
  (* without the observation *)
  assert (Hn2 : In d (nodes (ngraph n2))). { apply Nr2; [rewrite (r_nodes _ _ _ R2a), G1r, N1; auto|]. exists u0. split; auto. apply joined_back, reach_joined. assert (G2a : ngraph n2a = ngraph n1) by (destruct Df2 as [G2a _]; congruence). rewrite G2a. apply descends_reach; auto. }
  assert (B2 := v_built _ _ _ V2). assert (Hd2 := v_dist _ _ _ V2). destruct (unset_redo n2 d B2 Hd2 Hn2) as (n3 & E3 & B3 & Hd3 & R3 & G3 & Pl3).
  unfold remove_all_decision_rules in H. rewrite (single_dec m1 zero d us1 C1 Ea1 Eu1) in H. cbn [loop_net] in H. destruct (dist_lookup n2 d Hd2 Hn2) as [L2 _]. rewrite L2, E3 in H. cbn [done bind] in H.
  assert (Hn3 : In d (nodes (ngraph n3))) by (rewrite G3; auto). destruct (remove_edge n3 x d) as [n4 [e|]] eqn:E4; cbn [done bind] in H; [discriminate|]. destruct (remove_redo n3 x d n4 B3 Hd3 Hn3 Pl3 E4) as (B4 & R4 & P4).
  destruct (optimal_utility o choose m1 n4) as [n5 r2] eqn:E5. destruct r2 as [ev2|e]; cbn [bind] in H; [|discriminate]. injection H as <-.
  unfold optimal_utility in E5. destruct (impute_optimal_policy o choose (with_graph m1 (ngraph n4)) n4) as [n5a [e|]] eqn:E5a; [discriminate|]. assert (N4 : nodes (ngraph n4) = nodes (ngraph n2)) by (rewrite (r_nodes _ _ _ R4), G3; auto).
  destruct (stage o choose m1 zero d us1 n3 n4 n5a O C1 Ea1 Eu1 Hd3 B4 R4) as (n4r & B4r & Hd4r & R4r & G4r & B5a & Hd5a & Df5 & _ & (H2 & Ch2 & Ev2) & Mx2); auto.
  { apply (no_clash_incl (ngraph n)); auto. rewrite N4. intros v K. apply (v_nodes _ _ _ V2) in K. rewrite (r_nodes _ _ _ R2a), G1r, N1 in K. auto. } { rewrite N4; auto. } { rewrite N4; auto. }
  destruct (eu_query o m1 zero us1 n5a n5 ev2 O B5a Hd5a Lu1 Nus1 E5) as (Eq2 & _ & _ & _).
  assert (Ed2a : forall p, edge (ngraph n2a) p d <-> edge (ngraph n) p d \/ p = x) by (intro p; assert (G2a : ngraph n2a = ngraph n1r) by apply Df2; rewrite G2a; apply Ed1).
  assert (Ed4 : forall p, edge (ngraph n4r) p d <-> edge (ngraph n) p d /\ p <> x).
  { intro p. rewrite G4r, P4, G3, (v_edges _ _ _ V2), Ed2a. split; [intros [[[K|K] _] N]; [auto|congruence]|]. intros [K N]. split; auto. split; auto. apply (v_closed _ _ _ V2 p d); auto. apply Ed2a. auto. }
  assert (Dm2a : forall p, In p (nodes (ngraph n)) -> dom_of (doms n2a) p = dom_of (doms n) p) by (intros p K; rewrite (redo_dom _ _ _ p R2a); apply Dm1; auto).
  assert (Dm4 : forall p, In p (nodes (ngraph n)) -> dom_of (doms n4r) p = dom_of (doms n) p) by (intros p K; rewrite (redo_dom _ _ _ p R4r), (redo_dom _ _ _ p R4), (redo_dom _ _ _ p R3), (variant_dom _ _ _ p V2); auto).
  assert (Po4 : forall b, policy n4r [d] b <-> rule_seeing n d (fun p => edge (ngraph n) p d /\ p <> x) b) by (intro b; apply policy_seeing; [auto|intros p [K _]; apply Dm4, Ein; auto|apply Dm4; auto]).
  assert (Val4 : forall b, policy n4r [d] b -> value n4r [d] b us1 = value n [d] b us).
  { intros b K. rewrite (redo_value n4 n4r d b us1 R4r), (redo_value n3 n4 d b us1 R4), (redo_value n2 n3 d b us1 R3). rewrite (variant_nil_value n2a n2 d b us1 Hd2a); auto; [rewrite (redo_value n1r n2a d b us1 R2a); auto|].
    apply (policy_seeing n n2a d (fun p => edge (ngraph n) p d \/ p = x)); [auto|intros p K'; apply Dm2a, Ein; auto|apply Dm2a; auto|]. apply (seeing_more n d (fun p => edge (ngraph n) p d /\ p <> x)); [tauto|apply Po4; auto]. }
  exists ev1, ev2. split; [exact Best1|]. split; [|split; [reflexivity|]].
  2:{ exists n1r. split; [auto|]. split; [|split; [auto|split; [|split; [|split; auto]]]].
    - split; [apply Hd1r|]. split; [intro v; rewrite G1r, N1; tauto|]. intros p c. destruct (String.eqb_spec c d) as [->|N]; [rewrite Ed1; tauto|]. rewrite G1r. rewrite (r_edges _ _ _ R1 p c N), (l_edges _ _ L). tauto.
    - intro K. unfold nx_descendants in Ed. destruct (mem d (nodes (ngraph n))); [|discriminate]. injection Ed as <-. apply (descendants_iff _ (proj1 W) d x (proj2 W) Hn) in K. apply mem_In in K. congruence.
    - intro b. rewrite <- Val1. apply value_perm. exact Pu. }
  subst ev2. split.
  - assert (Pp : policy n4r [d] (pure H2)) by (apply pure_policy; auto; intros e [<-|[]]; rewrite G4r, N4; auto). exists (pure H2). split; [apply Po4; auto|]. rewrite <- Val4, Ev2; auto.
  - intros b K. apply Po4 in K. rewrite <- Val4 by auto. apply Mx2; auto.
Qed.

(* ---- C47 ---- *)
(* the number returned is the difference of two maxima over all policies, random or not: that of a decision maker who also
   observes x, and that of one who does not; both are expectations in the given diagram *)
Theorem C47_voi : forall o choose m n d us x q, valid_order o -> valid m -> mgraph m = ngraph n -> no_clash (ngraph n) ->
  agent_decisions m = [(zero, [d])] -> agent_utilities m = [(zero, us)] -> built n -> distribution n -> plain_decision n d ->
  quantitative_voi o choose m n d x = Ok q ->
  exists v w, best_seeing n d us (fun p => edge (ngraph n) p d \/ p = x) v /\ best_seeing n d us (fun p => edge (ngraph n) p d /\ p <> x) w /\ q = v - w.
Proof. intros o choose m n d us x q O V Eg NC Ea Eu B Hd Pl H. destruct (voi_core o choose m n d us x q O V Eg NC Ea Eu B Hd Pl H) as (v & w & K1 & K2 & K3 & _). eauto. Qed.
Print Assumptions C47_voi.
(* hence it is never negative: one can ignore what one sees *)
Theorem C47_nonneg : forall o choose m n d us x q, valid_order o -> valid m -> mgraph m = ngraph n -> no_clash (ngraph n) ->
  agent_decisions m = [(zero, [d])] -> agent_utilities m = [(zero, us)] -> built n -> distribution n -> plain_decision n d ->
  quantitative_voi o choose m n d x = Ok q -> 0 <= q.
Proof.
  intros o choose m n d us x q O V Eg NC Ea Eu B Hd Pl H. destruct (C47_voi o choose m n d us x q O V Eg NC Ea Eu B Hd Pl H) as (v & w & [_ U] & [(b & Rb & <-) _] & ->).
  assert (K : value n [d] b us <= v) by (apply U; apply (seeing_more n d (fun p => edge (ngraph n) p d /\ p <> x)); auto; tauto). apply (Qcle_minus_iff (value n [d] b us) v). exact K.
Qed.
Print Assumptions C47_nonneg.
(* and it is zero when the d-separation criterion (C24) finds no value of information *)
Theorem C47_zero : forall o choose m n d us x q, valid_order o -> valid m -> mgraph m = ngraph n -> no_clash (ngraph n) ->
  agent_decisions m = [(zero, [d])] -> agent_utilities m = [(zero, us)] -> built n -> distribution n -> plain_decision n d ->
  quantitative_voi o choose m n d x = Ok q -> ~ requisite_in m (ngraph n) d x -> q = 0.
Proof.
  intros o choose m n d us x q O V Eg NC Ea Eu B Hd Pl H Rq. destruct (voi_core o choose m n d us x q O V Eg NC Ea Eu B Hd Pl H) as (v & w & [(b1 & Rb1 & Eb1) U1] & [(b2 & Rb2 & Eb2) U2] & -> & n1 & Hd1 & Lk & Nx & Nd & Val & Dm & Po).
  destruct (solo m zero [d] us (proj1 (proj2 V)) Ea Eu) as (_ & Nus & Iu & Idd & Dj). assert (W : wf_dag (ngraph n)) by apply Hd. assert (Hn : In d (nodes (ngraph n))) by (rewrite <- Eg; apply (proj2 (proj2 V) zero d); left; apply Idd; left; auto). assert (Ius : incl us (nodes (ngraph n))) by (intros u K; rewrite <- Eg; apply (proj2 (proj2 V) zero u); right; apply Iu; auto).
  assert (Hx : In x (nodes (ngraph n))). { unfold quantitative_voi in H. destruct (mem x (nodes (ngraph n))) eqn:Mx; [apply mem_In; auto|discriminate]. }
  assert (Rq1 : ~ requisite_in m (ngraph n1) d x) by (intro K; apply Rq; apply (PIncent.C24_link_irrelevant m (ngraph n) (ngraph n1) d x); auto).
  assert (W1 : wf_dag (ngraph n1)) by apply Lk. assert (Hn1 : In d (nodes (ngraph n1))) by (apply Lk; auto).
  assert (Ix : incl us (nodes (ngraph n1))) by (intros u K; apply Lk; auto).
  assert (Ndu : ~ In d us) by (intro K; apply Iu in K; assert (K' : has_role m d (RDecision zero)) by (apply Idd; left; auto); destruct (proj2 (proj2 (proj2 (proj2 (proj2 (proj1 (proj2 V)))))) d) as (r & R1 & _); apply R1 in K; apply R1 in K'; congruence).
  destruct (ignore_best n1 d x us (filter (fun u => mem u (descendants (ngraph n1) d)) us)) as (b & Rb & Bb); auto.
  - apply Lk. auto.
  - apply NoDup_filter; auto.
  - intro u. rewrite filter_In, mem_In, (descendants_iff _ (proj1 W1) d u (proj2 W1) Hn1). tauto.
  - intros u Z K Hz Dc. apply filter_In in K. destruct K as [K1 K2]. apply mem_In in K2. rewrite (descendants_iff _ (proj1 W1) d u (proj2 W1) Hn1) in K2. apply Rq1. exists zero, u. split; [apply Idd; left; auto|]. split; [apply Iu; auto|]. split; [auto|]. exists Z. auto.
  - assert (Rb' : rule_seeing n d (fun p => edge (ngraph n) p d /\ p <> x) b).
    { destruct Rb as (A1 & A2 & A3). assert (Es : forall p, edge (ngraph n1) p d /\ p <> x <-> edge (ngraph n) p d /\ p <> x) by (intro p; rewrite (proj2 (proj2 Lk)); tauto).
      split; [intros a a' Ka K; apply A1; [auto|]; intros p Hp; apply K, Es; auto|]. split; [auto|]. intros a K. rewrite <- (Dm d Hn). apply A3. intros p Hp. apply Es in Hp. rewrite Dm by (destruct Hp as [Hp _]; apply W in Hp; tauto). apply K; auto. }
    assert (v <= w). { rewrite <- Eb1, <- (Val b1). eapply Qcle_trans; [apply Bb, Po; auto|]. rewrite Val. apply U2; auto. }
    assert (w <= v). { rewrite <- Eb2. apply U1. apply (seeing_more n d (fun p => edge (ngraph n) p d /\ p <> x)); auto; tauto. }
    assert (Evw : v = w) by (apply Qcle_antisym; auto). rewrite Evw. apply Qcplus_opp_r.
Qed.
Print Assumptions C47_zero.
Theorem C47_admits : forall o choose m n d us x q, valid_order o -> SpecI.askable IsCID m -> mgraph m = ngraph n ->
  agent_decisions m = [(zero, [d])] -> agent_utilities m = [(zero, us)] -> built n -> distribution n -> plain_decision n d ->
  quantitative_voi o choose m n d x = Ok q -> admits_voi IsCID o m d x = Ok false -> q = 0.
Proof.
  intros o choose m n d us x q O (V & Pr & Sa & NC) Eg Ea Eu B Hd Pl H Av. assert (NCn : no_clash (ngraph n)) by (rewrite <- Eg; auto).
  apply (C47_zero o choose m n d us x q O V Eg NCn Ea Eu B Hd Pl H). intro Rq. destruct (solo m zero [d] us (proj1 (proj2 V)) Ea Eu) as (_ & _ & _ & Idd & _).
  assert (Rc : recalls m). { intros a ds K (y & p & Hc). rewrite Ea in K. destruct K as [K|[]]. injection K as <- <-. assert (X : forall y z, ~ (y <> z /\ In y [d] /\ In z [d] /\ r_relevant m y z)) by (intros y' z (N & [<-|[]] & [<-|[]] & _); congruence). destruct p as [|z p]; cbn [app] in Hc; inversion Hc; subst; eapply X; eauto. }
  assert (Hx : In x (nodes (mgraph m))). { rewrite Eg. unfold quantitative_voi in H. destruct (mem x (nodes (ngraph n))) eqn:Mx; [apply mem_In; auto|discriminate]. }
  destruct (PIncent.C24_voi IsCID o m d x) as (b & Eb & Kb); auto; [split; auto|intro e; split; [|intros ->; exists zero; apply Idd; left; auto]|].
  - intros [a Ha]. destruct Ha as (l & K & Hl). rewrite Ea in K. destruct K as [K|[]]. injection K as <- <-. destruct Hl as [<-|[]]. auto.
  - rewrite Av in Eb. injection Eb as <-. destruct (voi_core o choose m n d us x q O V Eg NCn Ea Eu B Hd Pl H) as (_ & _ & _ & _ & _ & _ & _ & _ & Nx & Nd & _). assert (false = true) by (apply Kb; rewrite Eg; auto). discriminate.
Qed.
Print Assumptions C47_admits.
(* guessing a coin: seeing it is worth 1/2 to a blind guesser, seeing another coin nothing; if the coin is seen already, the number
   is what seeing it is worth *)
Definition ex_blind_graph : graph := mkG ["X"; "Y"; "D"; "U"] [("X", "U"); ("D", "U")].
Definition ex_blind : macid := diagram_of ex_blind_graph [("0", ["D"])] [("0", ["U"])].
Definition ex_blind_net : net := made ex_blind_graph [("X", RDist coin); ("Y", RDist coin); ("D", RDom [0; 1]); ("U", same_u)].
Lemma ex_blind_built : built ex_blind_net /\ distribution ex_blind_net.
Proof.
  split; [apply made_built|apply dist_check_ok]; [vm_compute; reflexivity| |vm_compute; reflexivity|vm_compute; reflexivity].
  rels_ok; [split; [exact I|exact coin_dict]|split; [exact I|exact coin_dict]|split; exact I|apply tab_admissible].
Qed.
Definition first_of (l : list (list tab)) : option (list tab) := match l with p :: _ => Some p | [] => None end.
Definition is_val (r : result Qc) (v : Qc) : bool := match r with Ok q => oeqb q v | Err _ => false end.
Lemma is_val_ok : forall r v, is_val r v = true -> r = Ok v.
Proof. intros [q|e] v H; [|discriminate]. cbn in H. apply oeqb_iff in H. subst. auto. Qed.
Example C47_example : SpecI.askable IsCID ex_blind /\ mgraph ex_blind = ngraph ex_blind_net /\ agent_decisions ex_blind = [(zero, ["D"])] /\ agent_utilities ex_blind = [(zero, ["U"])] /\
  built ex_blind_net /\ distribution ex_blind_net /\ plain_decision ex_blind_net "D" /\
  quantitative_voi (fun _ l => l) first_of ex_blind ex_blind_net "D" "X" = Ok (q 1 2) /\ admits_voi IsCID (fun _ l => l) ex_blind "D" "X" = Ok true /\
  quantitative_voi (fun _ l => l) first_of ex_blind ex_blind_net "D" "Y" = Ok 0 /\ admits_voi IsCID (fun _ l => l) ex_blind "D" "Y" = Ok false /\
  plain_decision ex_bet_net "D" /\ quantitative_voi (fun _ l => l) first_of ex_bet ex_bet_net "D" "X" = Ok (q 1 2).
Proof.
  destruct ex_blind_built as [B Hd]. split; [|split; [vm_compute; reflexivity|]]. 
  - PIncent.cid.
  - split; [reflexivity|]. split; [reflexivity|]. split; [exact B|]. split; [exact Hd|]. split; [exists (RDom [0; 1]); split; [vm_compute; reflexivity|exact I]|].
    split; [apply is_val_ok; vm_compute; reflexivity|]. split; [vm_compute; reflexivity|]. split; [apply is_val_ok; vm_compute; reflexivity|]. split; [vm_compute; reflexivity|]. split; [exists (RDom [0; 1]); split; [vm_compute; reflexivity|exact I]|apply is_val_ok; vm_compute; reflexivity].
Qed.

(* ---- C48 ---- *)
(* the effects leave the diagram alone *)
Theorem C48_effects_partial : forall o m n a d y a0 a1 adapt, wf_dag (ngraph n) ->
  fst (total_effect o m n a y a0 a1) = n /\ fst (introduced_total_effect o m n a d y a0 a1 adapt) = n.
Proof.
  intros o m n a d y a0 a1 adapt W. assert (T : forall x v, fst (effect_term o m n a x v) = n).
  { intros x v. unfold effect_term. destruct (macid_expected_value o m n [x] [] [(a, v)]) as [n' r] eqn:E. apply (C37_methods_partial o m n [x] [] [(a, v)] W) in E. cbn [fst]. destruct E as [E _]. apply E. discriminate. }
  assert (X : forall x, fst (total_effect o m n a x a0 a1) = n).
  { intro x. unfold total_effect. assert (K := T x a1). destruct (effect_term o m n a x a1) as [n1 [e1|e]]; cbn [fst] in K; subst n1; auto. assert (K := T x a0). destruct (effect_term o m n a x a0) as [n0 r0]. cbn [fst] in *. auto. }
  split; auto. unfold introduced_total_effect. assert (K := X d). destruct (total_effect o m n a d a0 a1) as [n1 [e1|e]]; cbn [fst] in K; subst n1; auto. assert (K := X y). destruct (total_effect o m n a y a0 a1) as [n0 r0]. cbn [fst] in *. auto.
Qed.
Print Assumptions C48_effects_partial.
Lemma voc_reads : forall (ask : macid -> net -> node -> (macid * net) * result Qc) (r : (macid * net) * result Qc),
  is_val (snd r) (q 1 2) && is_val (snd (ask (fst (fst r)) (snd (fst r)) "X")) 0 && negb (mem "Y" (nodes (ngraph (snd (fst r))))) && match lookup zero (agent_decisions (fst (fst r))) with Some l => mem "X" l | None => false end = true ->
  exists m' n', r = ((m', n'), Ok (q 1 2)) /\ snd (ask m' n' "X") = Ok 0 /\ has_role m' "X" (RDecision zero) /\ ~ In "Y" (nodes (ngraph n')).
Proof.
  intros ask [[m' n'] r] X. cbn [fst snd] in X. apply andb_prop in X. destruct X as [X X4]. apply andb_prop in X. destruct X as [X X3]. apply andb_prop in X. destruct X as [X1 X2]. apply is_val_ok in X1, X2. exists m', n'.
  split; [congruence|]. split; [exact X2|]. split; [|apply mem_nIn; apply negb_true_iff; exact X3].
  destruct (lookup zero (agent_decisions m')) as [l|] eqn:E; [|discriminate]. exists l. split; [apply lookup_In; exact E|apply mem_In; exact X4].
Qed.
(* quantitative_voc works on the diagram it is given: the node stays a decision, variables that are not connected to a utility
   are gone, and asking again gives another answer *)
Theorem C48_voc_refuted : exists o choose m n x m' n' q1 q2, valid_order o /\ SpecI.askable IsCID m /\ mgraph m = ngraph n /\ built n /\ distribution n /\
  quantitative_voc o choose m n x = ((m', n'), Ok q1) /\ snd (quantitative_voc o choose m' n' x) = Ok q2 /\ q1 <> q2 /\
  has_role m x RChance /\ has_role m' x (RDecision zero) /\ exists y, In y (nodes (ngraph n)) /\ ~ In y (nodes (ngraph n')).
Proof.
  destruct (voc_reads (quantitative_voc (fun _ l => l) first_of) (quantitative_voc (fun _ l => l) first_of ex_blind ex_blind_net "X")) as (m' & n' & E1 & E2 & Hr & Hy); [vm_compute; reflexivity|].
  exists (fun _ l => l), first_of, ex_blind, ex_blind_net, "X", m', n', (q 1 2), 0.
  split; [exact LBase.id_order_valid|]. split; [PIncent.cid|]. split; [vm_compute; reflexivity|]. destruct ex_blind_built as [B Hd]. split; [exact B|]. split; [exact Hd|].
  split; [exact E1|]. split; [exact E2|]. split; [intro K; apply (f_equal (fun x => oeqb x 0)) in K; vm_compute in K; discriminate K|].
  split; [split; intros a (l & [K|[]] & Hl); injection K as <- <-; destruct Hl as [Hl|[]]; discriminate|].
  split; [exact Hr|]. exists "Y". split; [vm_compute; auto|exact Hy].
Qed.
Print Assumptions C48_voc_refuted.
