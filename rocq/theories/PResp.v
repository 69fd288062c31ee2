(* C77: the graphical test for response incentives is complete for one decision. *)
From Coq Require Import String List Bool Arith QArith Qcanon Lia Permutation.
Import ListNotations.
From Verif Require Import MBase MGraph MPaths MMacid MIncent MCpd MNet MProb MQuery Spec SpecM SpecI SpecC SpecN SpecQ SpecPol SpecVoi SpecGen LBase LGraph LQc LQcArith LSum LBayes LDo LQuery LValue LBest LSolve LReq LWire LTrek LGate LMix LResp LRespG PComplete LControl LIncent LTrim PMacid PIncent PGen PSolve PVoc PControl LVoc LCheck.
Local Open Scope string_scope.
Local Open Scope list_scope.
Local Open Scope Qc_scope.

(* the probability that d is z after x is set to y *)
Lemma forced_prob : forall n D K x y d z, In x (nodes (ngraph n)) -> NoDup (nodes (ngraph n)) -> (forall v, In v (nodes (ngraph n)) -> Permutation (dom_of (doms n) v) (D v)) -> (forall v a, In v (nodes (ngraph n)) -> within n a -> kernel n v a = K v a) ->
  do_prob n [(x, y)] [(d, z)] = forced (ngraph n) D K x y d z.
Proof.
  intros n D K x y d z Hx Nn P HK. unfold do_prob, forced. rewrite <- (total_dom_perm (dom_of (doms n)) D) by auto. apply total_ext_in. intros a Wa _.
  assert (Ag : forall v w, agrees [(v, w)] a = if Qc_eq_dec (a v) w then true else false). { intros v w. destruct (Qc_eq_dec (a v) w) as [E|E]; [apply agrees_iff; intros ? ? [K0|[]]; injection K0 as <- <-; auto|]. destruct (agrees [(v, w)] a) eqn:Eg; auto. exfalso. apply E. apply (proj1 (agrees_iff _ _) Eg). left; auto. }
  rewrite Ag. destruct (Qc_eq_dec (a d) z); auto. unfold do_joint. rewrite Ag. destruct (Qc_eq_dec (a x) y); auto. unfold rest, weight. change (fold_right Qcmult 1) with qprod. apply qprod_ext. intros v Hv. unfold swap. cbn [keys map fst]. match goal with |- (if ?c then _ else _) = _ => destruct c as [E|E] end.
  - destruct (String.string_dec v x) as [E'|E']. { reflexivity. } destruct E as [E|[]]. exfalso. apply E'. symmetry. exact E.
  - destruct (String.string_dec v x) as [E'|E']; [exfalso; apply E; left; symmetry; exact E'|]. apply HK; auto.
Qed.
Lemma chance_prob : forall n D K d z, (forall v, In v (nodes (ngraph n)) -> Permutation (dom_of (doms n) v) (D v)) -> (forall v a, In v (nodes (ngraph n)) -> within n a -> kernel n v a = K v a) ->
  do_prob n [] [(d, z)] = chance (ngraph n) D K d z.
Proof.
  intros n D K d z P HK. unfold do_prob, chance. rewrite <- (total_dom_perm (dom_of (doms n)) D) by auto. apply total_ext_in. intros a Wa _.
  assert (Ag : agrees [(d, z)] a = if Qc_eq_dec (a d) z then true else false). { destruct (Qc_eq_dec (a d) z) as [E|E]; [apply agrees_iff; intros ? ? [K0|[]]; injection K0 as <- <-; auto|]. destruct (agrees [(d, z)] a) eqn:Eg; auto. exfalso. apply E. apply (proj1 (agrees_iff _ _) Eg). left; auto. }
  rewrite Ag. destruct (Qc_eq_dec (a d) z); auto. unfold do_joint. change (agrees [] a) with true. cbv iota. change (fold_right Qcmult 1) with qprod. unfold weight. apply qprod_ext. intros v Hv. cbn [keys map]. destruct (in_dec String.string_dec v []) as [[]|_]. apply HK; auto.
Qed.

(* ---- C77 ---- *)
(* wherever the test says yes there are conditional probabilities, entered with add_cpds, under which every rule that does not respond to x (setting x
   does not change the distribution of d) is worse than some rule by at least 3/4 *)
Theorem C77_ri : forall k o m a d us x, valid_order o -> askable k m -> agent_decisions m = [(a, [d])] -> agent_utilities m = [(a, us)] ->
  In x (nodes (mgraph m)) -> admits_ri k o m d x = Ok true ->
  exists l n b, (forall v r, In (v, r) l -> admissible v r) /\ add_cpds (bare (mgraph m)) l = (n, None) /\ built n /\ distribution n /\ ngraph n = mgraph m /\
    policy n [d] b /\
    forall n', distribution n' -> differ_in (fun v => v = d) n n' ->
      (forall y z, In y (dom_of (doms n) x) -> In z (dom_of (doms n) d) -> do_prob n' [(x, y)] [(d, z)] = do_prob n' [] [(d, z)]) ->
      fold_right Qcplus 0 (map (expectation n' [] []) us) + Q2Qc (3 # 4) <= value n [d] b us.
Proof.
  intros k o m ag d us x O A Ea Eu Hx Av. assert (A0 := A). destruct A0 as (V & Pr & Sa & NC). destruct (solo m ag [d] us (proj1 (proj2 V)) Ea Eu) as (_ & Nus & Iu & Idd & Dj & _). assert (W : wf_dag (mgraph m)) by apply V.
  assert (Hr : has_role m d (RDecision ag)) by (apply Idd; left; auto). assert (Hd : In d (nodes (mgraph m))) by (apply (proj2 (proj2 V) ag d); left; auto). assert (Ius : incl us (nodes (mgraph m))) by (intros u K; apply (proj2 (proj2 V) ag u); right; apply Iu; auto).
  assert (Du : ~ In d us). { intro K. apply Iu in K. destruct (proj2 (proj2 (proj2 (proj2 (proj2 (proj1 (proj2 V)))))) d) as (rl & Rl & _). assert (E1 := proj1 (Rl _) K). assert (E2 := proj1 (Rl _) Hr). congruence. }
  assert (Rc := one_recalls m ag d Ea). assert (Dd : is_decision m d) by (exists ag; auto).
  destruct (C26_ri k o m d x A Rc O Hx Hd) as (r & b0 & Er & (Nr & h & [Rd Ih] & Sm) & Eb & Kb & Ky). rewrite Av in Eb. injection Eb as <-. destruct (proj1 Kb eq_refl) as [Nxd _]. destruct (Ky eq_refl Dd) as (y & Ey & _ & Ry).
  destruct (reduces_wf m _ _ W Rd) as (Wh & Nh & Sb). assert (Sub : forall p q, edge (mgraph r) p q -> edge (mgraph m) p q) by (intros p q E; apply Sb, Sm; auto). assert (Eyg := Sub _ _ Ey). assert (Ryg : reach (mgraph m) x y) by (eapply reach_sub; [|exact Ry]; auto).
  assert (Only : forall e, is_decision m e -> e = d). { intros e (c & l & K1 & K2). rewrite Ea in K1. destruct K1 as [K1|[]]. injection K1 as _ <-. destruct K2 as [K2|[]]; auto. }
  assert (Rq : requisite_in m (mgraph m) d y).
  { destruct (C22_requisite m d y V (proj1 (proper_complete k m V Pr)) Dd Eyg) as (q & _ & Kq). destruct q; [apply Kq; auto|]. exfalso. assert (Nq : ~ requisite_in m (mgraph m) d y) by (intro K; apply Kq in K; discriminate).
    destruct (reduces_single m (mgraph m) h d y V W Only Dd Rd Eyg) as [_ Q]. destruct (Q Nq) as [K|K]; [apply K; apply Ih; auto; apply Sm; auto|apply K; apply Sm; auto]. }
  destruct Rq as (ag' & u & _ & Hu & Dsc & Z & Hz & Cn).
  assert (Iu' : In u us). { destruct Hu as (l & K & Hl). rewrite Eu in K. destruct K as [K|[]]. injection K as <- <-. auto. }
  set (g := mgraph m) in *. assert (Nud : u <> d) by (intros ->; contradiction).
  assert (Rs : responsive g d x us). { destruct (off_dec g d x u W Nxd Nud) as [Of|Of]; [|eapply respond_gated; eauto]. eapply respond_direct; eauto. intros ->. apply (proj2 W d). eapply descends_reach_trans; [exact Dsc|]. eapply reach_snoc; eauto. }
  destruct Rs as (D & K & bw & Vg & Cg & Rw & Gap). destruct (C73 g D K [d] W Vg Cg) as (l & n & Hl & El & Bn & Dn & Eg & Pm & Kn & _).
  assert (Dr : forall b, rule_seeing n d (fun p => edge (ngraph n) p d) b <-> rules g d D b). { intro b. rewrite (dom_ruled n g D d (fun p => edge (ngraph n) p d) b Eg Hd Pm) by (intros p E; rewrite Eg in E; apply (proj1 W) in E; tauto). rewrite Eg. unfold rules. tauto. }
  assert (Val : forall b, value n [d] b us = pays g us D (with_rule K d b)).
  { intros b. unfold pays. rewrite value_weight, Eg. rewrite (total_dom_perm _ D) by auto. apply total_ext_in. intros a Wa _. f_equal. unfold weight. apply qprod_ext. intros v Hv. unfold follow, with_rule. destruct (in_dec String.string_dec v [d]) as [[E|[]]|E]; destruct (String.string_dec v d) as [E'|E']; try congruence; try (exfalso; apply E; left; congruence).
    apply Kn; auto. intros w Hw. rewrite Eg in Hw. eapply Permutation_in; [apply Permutation_sym; apply Pm; auto|auto]. }
  exists l, n, bw. split; auto. split; auto. split; auto. split; auto. split; auto. split.
  - intros e [<-|[]]. apply Dr; auto.
  - intros n' Dn' Df Df0. assert (Df' : differ_in (fun v => In v [d]) n n'). { destruct Df as (K1 & K2 & K3). split; auto. split; auto. intros v t Nv. apply K3. intros ->. apply Nv. left; auto. }
    assert (G' : ngraph n' = ngraph n) by apply Df. assert (D' := same_dom_of n n' (proj1 (proj2 Df))). change (eu n' us + Q2Qc (3 # 4) <= value n [d] bw us).
    assert (Ids : incl [d] (nodes (ngraph n'))) by (intros e [<-|[]]; rewrite G', Eg; auto). assert (Wn : forall a, within n' a -> within n a) by (intros a H v Hv; rewrite <- D'; apply H; rewrite G'; auto).
    assert (Rb : rules g d D (kernel n')). { apply Dr. assert (P' := own_policy n' [d] Dn' Ids d (or_introl eq_refl)). destruct P' as (P1 & P2 & P3). rewrite G' in P1, P3. split; auto. split; auto. intros a H. rewrite <- (P3 a); [rewrite D'; auto|]. intros p Hp. rewrite D'. apply H; auto. }
    rewrite (follow_value n n' [d] (kernel n') us); auto; [|rewrite Eg; auto]. rewrite !Val. apply Gap; auto.
    assert (Kn' : forall v a, In v (nodes (ngraph n')) -> within n' a -> kernel n' v a = with_rule K d (kernel n') v a).
    { intros v a Hv Wa. unfold with_rule. destruct (String.string_dec v d) as [->|Nv]; auto. rewrite <- (kernel_differ (fun v => v = d) n n' v a); auto; [|apply Dn|apply Dn']. apply Kn; auto; [rewrite <- Eg, <- G'; auto|intros [E|[]]; congruence]. }
    assert (Pm' : forall v, In v (nodes (ngraph n')) -> Permutation (dom_of (doms n') v) (D v)) by (intros v Hv; rewrite D'; apply Pm; rewrite <- Eg, <- G'; auto).
    intros q z Hq Hz0. assert (E1 := forced_prob n' D (with_rule K d (kernel n')) x q d z). assert (E2 := chance_prob n' D (with_rule K d (kernel n')) d z Pm' Kn'). rewrite G', Eg in E1, E2. fold g in E1, E2. rewrite <- E1, <- E2; auto.
    + apply Df0; [eapply Permutation_in; [apply Permutation_sym; apply Pm; auto|auto]|eapply Permutation_in; [apply Permutation_sym; apply Pm; auto|auto]].
    + apply W.
    + intros v Hv. apply Pm'. rewrite G', Eg. auto.
    + intros v a Hv. apply Kn'. rewrite G', Eg. auto.
Qed.
Print Assumptions C77_ri.
(* soundness and completeness: the test says yes exactly if for some parametrisation every rule that does not respond to x is worse than some rule *)
Theorem C77_exact : forall k o m a d us x, valid_order o -> askable k m -> agent_decisions m = [(a, [d])] -> agent_utilities m = [(a, us)] ->
  In x (nodes (mgraph m)) -> x <> d ->
  (admits_ri k o m d x = Ok true <->
   exists n b, distribution n /\ ngraph n = mgraph m /\ policy n [d] b /\
     forall n', distribution n' -> differ_in (fun v => v = d) n n' ->
       (forall y z, In y (dom_of (doms n) x) -> In z (dom_of (doms n) d) -> do_prob n' [(x, y)] [(d, z)] = do_prob n' [] [(d, z)]) ->
       fold_right Qcplus 0 (map (expectation n' [] []) us) < value n [d] b us).
Proof.
  intros k o m ag d us x O A Ea Eu Hx Nxd. split.
  - intro Av. destruct (C77_ri k o m ag d us x O A Ea Eu Hx Av) as (l & n & b & _ & _ & _ & Dn & Eg & Pb & Ub). exists n, b. split; auto. split; auto. split; auto. intros n' Dn' Df Dz. specialize (Ub n' Dn' Df Dz).
    eapply Qclt_le_trans; [|exact Ub]. generalize (fold_right Qcplus 0 (map (expectation n' [] []) us)). intro q. apply Qclt_minus_iff. replace (q + Q2Qc (3 # 4) + - q) with (Q2Qc (3 # 4)) by ring. reflexivity.
  - intros (n & b & Dn & Eg & Pb & Ub). assert (V : valid m) by apply A. destruct (solo m ag [d] us (proj1 (proj2 V)) Ea Eu) as (_ & _ & _ & Idd & _). assert (Rc := one_recalls m ag d Ea). assert (Hd : In d (nodes (mgraph m))) by (apply (proj2 (proj2 V) ag d); left; apply Idd; left; auto).
    destruct (C26_ri k o m d x A Rc O Hx Hd) as (r & b0 & _ & _ & Eb & _). destruct b0; auto. exfalso.
    destruct (C67_ri k o m n ag [d] us d x O A Rc (eq_sym Eg) Ea Eu Dn (or_introl eq_refl)) with (b := b) as (n' & Dn' & Df & L & Ds); auto; [rewrite Eg; auto|].
    assert (Df' : differ_in (fun v => v = d) n n'). { destruct Df as (K1 & K2 & K3). split; auto. split; auto. intros v t Nv. apply K3. intros [E|[]]. congruence. }
    apply (Qclt_not_le _ _ (Ub n' Dn' Df' (fun y z Hy _ => Ds y z Hy)) L).
Qed.
Print Assumptions C77_exact.
(* in ex22 the link from X to D is not requisite, but D responds to X through Y; in ex_ctrl D observes X, which matters, and Z, which does not *)
Example C77_example : valid_order (fun _ l => l) /\ askable IsCID ex22 /\ agent_decisions ex22 = [(zero, ["D"])] /\ (exists us, agent_utilities ex22 = [(zero, us)]) /\
  In "X" (nodes (mgraph ex22)) /\ "X" <> "D" /\ admits_ri IsCID (fun _ l => l) ex22 "D" "X" = Ok true /\ admits_ri IsCID (fun _ l => l) ex22 "D" "Y" = Ok true /\
  askable IsCID ex_ctrl /\ agent_decisions ex_ctrl = [(zero, ["D"])] /\ (exists us, agent_utilities ex_ctrl = [(zero, us)]) /\ In "Z" (nodes (mgraph ex_ctrl)) /\ admits_ri IsCID (fun _ l => l) ex_ctrl "D" "Z" = Ok false.
Proof.
  split; [exact id_order_valid|]. split; [apply C26_example|]. split; [reflexivity|]. split; [eexists; reflexivity|]. split; [vm_compute; tauto|]. split; [discriminate|]. split; [vm_compute; reflexivity|]. split; [vm_compute; reflexivity|].
  split; [apply C67_example|]. split; [reflexivity|]. split; [eexists; reflexivity|]. split; [vm_compute; tauto|vm_compute; reflexivity].
Qed.
