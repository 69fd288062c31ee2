(* Lemmas: an agent that changes several decisions of a stage at once, with sufficient recall. *)
From Coq Require Import String List Bool Arith QArith Qcanon Permutation Lia.
Import ListNotations.
From Verif Require Import MBase MGraph MMacid MRel MIncent MCpd MNet MProb MQuery MPolicy MGame MSub Spec SpecM SpecC SpecN SpecQ SpecPol SpecGame
  LBase LQc LQcArith LGraph LPaths LActive LRoles LCopy LMech LReach LIncent LTrim LCpd LNet LSum LSep LBayes LQuery LDo LPolicy LValue LLike LSearch LBest LSolve LOptimal LRespond LKept LMargin LShift LSub LStage LReq LWhole PMacid PRel PRely SpecSub.
Local Open Scope Qc_scope.

Lemma twin_eu : forall n n' us, distribution n -> distribution n' -> twin (fun _ => False) n n' -> incl us (nodes (ngraph n)) -> eu n' us = eu n us.
Proof.
  intros n n' us Hd Hd' T I. assert (G := t_graph _ _ _ T). assert (D := t_dom _ _ _ T). unfold eu. rewrite !expectations_sum by (auto; rewrite G; auto). rewrite G.
  rewrite (total_dom_perm (dom_of (doms n')) (dom_of (doms n))) by (intros v _; rewrite D; apply Permutation_refl). apply total_ext_in. intros a Wa _. f_equal. unfold weight. apply qprod_ext. intros v Hv. apply (t_kernel _ _ _ T); auto.
Qed.
Lemma even_all : forall n L, distribution n -> incl L (nodes (ngraph n)) -> policy n L (fun x _ => 1 / Qc_of_nat (length (dom_of (doms n) x))).
Proof. intros n L Hd I d K. apply (even_policy n d Hd (I d K)). left. auto. Qed.
(* the rules of k on the decisions L of q *)
Lemma borrowed : forall q k L, distribution q -> distribution k -> ngraph k = ngraph q -> (forall v, dom_of (doms k) v = dom_of (doms q) v) -> incl L (nodes (ngraph q)) -> policy q L (kernel k).
Proof.
  intros q k L Hq Hk G D I. assert (P : policy k L (kernel k)) by (apply own_policy; auto; rewrite G; auto). intros d Kd. destruct (P d Kd) as (P1 & P2 & P3). split; [|split; auto].
  - intros a a' E H. apply P1; auto. intros p Hp. apply H. rewrite <- G. auto.
  - intros a H. rewrite <- D. apply P3. intros p Hp. rewrite D. apply H. rewrite <- G. auto.
Qed.
(* q with the rules b at L *)
Lemma over : forall q L b, distribution q -> incl L (nodes (ngraph q)) -> policy q L b ->
  exists q', distribution q' /\ twin (fun v => In v L) q q' /\ ngraph q' = ngraph q /\ (forall v, dom_of (doms q') v = dom_of (doms q) v) /\ forall v a, In v L -> within q a -> kernel q' v a = b v a.
Proof.
  intros q L b Hq I P. destruct (follow_net_ok q L b Hq I P) as (K1 & K2 & K3). exists (follow_net q L b). assert (T := differ_twin _ _ _ Hq K1 K2). split; auto. split; auto. split; [apply (t_graph _ _ _ T)|]. split; [apply (t_dom _ _ _ T)|auto].
Qed.

Section Joint.
Variables (m : macid) (a : agent).
Hypothesis V : valid m.
Hypothesis NC : no_clash (mgraph m).
Hypothesis U : utilities_complete m.
(* one decision: what is best for d in k is best for d in q, if q and k agree on what d relies on and k makes everything possible that q does *)
Lemma respond_one : forall d us vs q q1 k, has_role m d (RDecision a) -> ngraph q = mgraph m -> distribution q -> distribution q1 -> distribution k ->
  NoDup us -> (forall u, In u us -> has_role m u (RUtility a)) -> NoDup vs -> (forall u, In u vs -> has_role m u (RUtility a)) -> (forall u, has_role m u (RUtility a) -> descends (mgraph m) u d -> In u us /\ In u vs) ->
  ngraph k = ngraph q -> (forall v, dom_of (doms k) v = dom_of (doms q) v) ->
  (forall v x, In v (nodes (ngraph q)) -> v <> d -> r_relevant m d v -> within q x -> kernel k v x = kernel q v x) ->
  twin (eq d) q q1 -> (forall x, within q x -> kernel q1 d x = kernel k d x) ->
  (forall v x, In v (nodes (ngraph q)) -> v <> d -> within q x -> kernel k v x = 0 -> kernel q v x = 0) ->
  (forall k2, distribution k2 -> twin (eq d) k k2 -> eu k2 vs <= eu k vs) -> eu q us <= eu q1 us.
Proof.
  intros d us vs q q1 k Rd Gq Hq Hq1 Hk Nu Iu Nv Iv De Gk Dk Ag Tq Kd Su Op. assert (W : wf_dag (mgraph m)) by apply V.
  assert (Dd : is_decision m d) by (exists a; auto). assert (Hdn : In d (nodes (mgraph m))) by (apply (is_decision_in m d V Dd)).
  assert (Unode : forall u, has_role m u (RUtility a) -> In u (nodes (mgraph m))) by (intros u K; apply (proj2 (proj2 V) a u); right; auto).
  assert (Nd : ~ has_role m d (RUtility a)). { intro K. destruct (proj2 (proj2 (proj2 (proj2 (proj2 (proj1 (proj2 V)))))) d) as (r & X1 & _). apply X1 in K. apply X1 in Rd. congruence. }
  set (SS := filter (fun v => negb (keptb m [d] v)) (nodes (mgraph m))). set (ud := filter (fun u => mem u (descendants (mgraph m) d)) us).
  assert (Iud : forall u, In u ud <-> In u us /\ descends (mgraph m) u d). { intro u. unfold ud. rewrite filter_In, mem_In. rewrite descendants_iff; [tauto|apply W|apply W|auto]. }
  assert (Hds : forall e, In e [d] -> is_decision m e) by (intros e [<-|[]]; auto).
  assert (Kp : forall v, In v (nodes (mgraph m)) -> ~ In v SS -> v = d \/ r_relevant m d v).
  { intros v Hv K. assert (X : keptb m [d] v = true). { destruct (keptb m [d] v) eqn:E; auto. exfalso. apply K. apply filter_In. rewrite E. auto. }
    apply keptb_iff in X; auto. destruct X as [[->|[]]|(e & [<-|[]] & X)]; auto. }
  assert (ISS : forall s, In s SS -> In s (nodes (mgraph m)) /\ ~ r_relevant m d s).
  { intros s K. apply filter_In in K. destruct K as [K K']. split; auto. intro R. apply negb_true_iff in K'. assert (X : keptb m [d] s = true); [|congruence]. apply keptb_iff; auto. right. exists d. split; [left|]; auto. }
  destruct (mech_exists (mgraph m) W NC) as [hg Mg].
  apply (respond q q1 k SS us vs ud d hg); auto; try (rewrite Gq; solve [auto]).
  - constructor; auto. intros v x Hv Nv' Wx. assert (Hv' := Hv). rewrite Gq in Hv'. destruct (Kp v Hv') as [->|R]; [intro; apply Nv'; auto|exfalso; apply Nv'; auto|]. apply Ag; auto.
  - intros s K. rewrite Gq. apply ISS; auto.
  - intros u Hu. rewrite Gq. auto.
  - intros u Hu. rewrite Gq. auto.
  - apply NoDup_filter. auto.
  - intro u. rewrite Gq, Iud. split; intros [X1 X2]; split; auto; apply (De u); auto.
  - intros s u Hs Hu K. destruct (ISS s Hs) as [Hsn Ns]. apply Ns. apply Iud in Hu. destruct Hu as [Hu Des]. rewrite Gq in K. apply r_relevant_char; auto. exists a, u. split; [exact Rd|]. split; [exact (Iu u Hu)|]. split; [exact Des|].
    apply (pendant_dconn hg (mgraph m) (mec s) s); auto; [apply pendant_mech; auto; apply W|apply W|apply family_nodes; auto; apply W].
Qed.
(* several decisions, each of which relies on later ones only *)
Lemma respond_all : forall us vs, NoDup us -> (forall u, In u us <-> has_role m u (RUtility a)) -> NoDup vs -> (forall u, In u vs -> has_role m u (RUtility a)) ->
  forall L, NoDup L -> (forall d, In d L -> has_role m d (RDecision a)) -> (forall d u, In d L -> has_role m u (RUtility a) -> descends (mgraph m) u d -> In u vs) ->
  (forall L1 d L2 e, L = L1 ++ d :: L2 -> In e L1 -> ~ r_relevant m d e) ->
  forall q q1 k, ngraph q = mgraph m -> distribution q -> distribution q1 -> distribution k -> ngraph k = ngraph q -> (forall v, dom_of (doms k) v = dom_of (doms q) v) ->
  (forall v d x, In v (nodes (ngraph q)) -> ~ In v L -> In d L -> r_relevant m d v -> within q x -> kernel k v x = kernel q v x) ->
  twin (fun v => In v L) q q1 -> (forall d x, In d L -> within q x -> kernel q1 d x = kernel k d x) ->
  (forall v x, In v (nodes (ngraph q)) -> ~ In v L -> within q x -> kernel k v x = 0 -> kernel q v x = 0) ->
  (forall k2, distribution k2 -> twin (fun v => In v L) k k2 -> eu k2 vs <= eu k vs) -> eu q us <= eu q1 us.
Proof.
  intros us vs Nus Ius Nvs Ivs. assert (Unode : forall u, has_role m u (RUtility a) -> In u (nodes (mgraph m))) by (intros u K; apply (proj2 (proj2 V) a u); right; auto).
  intro L. induction L as [|d L IH] using rev_ind; intros NL RL DL OL q q1 k Gq Hq Hq1 Hk Gk Dk Ag Tq Kd Su Op.
  - rewrite (twin_eu q q1 us); auto; [apply Qcle_refl|intros u Hu; rewrite Gq; apply Unode, Ius; auto].
  - assert (Hin : incl (L ++ [d]) (nodes (ngraph q))) by (intros e K; rewrite Gq; apply (is_decision_in m e V); exists a; auto).
    assert (HL : incl L (nodes (ngraph q))) by (intros e K; apply Hin, in_or_app; auto). assert (Hd1 : incl [d] (nodes (ngraph q))) by (intros e [<-|[]]; apply Hin, in_or_app; right; left; auto). assert (Hdn : In d (nodes (ngraph q))) by (apply Hd1; left; auto).
    assert (Ld : In d (L ++ [d])) by (apply in_or_app; right; left; auto). assert (LL : forall e, In e L -> In e (L ++ [d])) by (intros e K; apply in_or_app; auto).
    assert (NdL : ~ In d L) by (intro K; apply NoDup_app_inv in NL; apply (proj2 (proj2 NL) d); [auto|left; auto]). assert (NL' : NoDup L) by (apply NoDup_app_inv in NL; apply NL).
    assert (Late : forall e, In e L -> ~ r_relevant m d e) by (intros e K; apply (OL L d [] e); auto).
    assert (Rd := RL d Ld). assert (Out : forall v, ~ In v L -> v <> d -> ~ In v (L ++ [d])) by (intros v K1 K2 K; apply in_app_or in K; destruct K as [K|[K|[]]]; auto).
    assert (Wq : forall n x, ngraph n = ngraph q -> (forall v, dom_of (doms n) v = dom_of (doms q) v) -> (within n x <-> within q x)) by (intros n x G D; unfold within; rewrite G; split; intros H v Hv; [rewrite <- D|rewrite D]; auto).
    (* a rule for d that is best in every context *)
    destruct (over k L _ Hk ltac:(rewrite Gk; exact HL) (even_all k L Hk ltac:(rewrite Gk; exact HL))) as (km & Hkm & Tkm & Gkm & Dkm & Kkm).
    destruct (best_rule km vs d Hkm) as (b & kb & _ & Hkb & Fkb & _ & Okb); [intros u Hu; rewrite Gkm, Gk, Gq; auto|rewrite Gkm, Gk; auto|].
    assert (Tkb := differ_twin _ _ _ Hkm Hkb Fkb). assert (Gkb : ngraph kb = ngraph q) by (rewrite (t_graph _ _ _ Tkb), Gkm; auto). assert (Dkb : forall v, dom_of (doms kb) v = dom_of (doms q) v) by (intro v; rewrite (t_dom _ _ _ Tkb), Dkm; auto).
    assert (Ekb : forall v x, In v (nodes (ngraph q)) -> ~ In v L -> v <> d -> within q x -> kernel kb v x = kernel k v x).
    { intros v x Hv N1 N2 Wx. rewrite (t_kernel _ _ _ Tkb); [|rewrite Gkm, Gk; auto|intros [K|[]]; auto|apply Wq; auto; [congruence|intro; rewrite Dkm; auto]]. apply (t_kernel _ _ _ Tkm); auto; [rewrite Gk; auto|apply Wq; auto]. }
    assert (Zkb : forall v x, In v L -> within q x -> kernel kb v x <> 0).
    { intros v x Kv Wx. assert (v <> d) by (intros ->; contradiction). rewrite (t_kernel _ _ _ Tkb); [|rewrite Gkm, Gk; auto|intros [K|[]]; auto|apply Wq; auto; [congruence|intro; rewrite Dkm; auto]]. rewrite Kkm; auto; [|apply Wq; auto]. apply even_pos. apply (dist_lookup k v Hk). rewrite Gk. auto. }
    destruct (over q [d] (kernel kb) Hq Hd1 (borrowed q kb [d] Hq Hkb Gkb Dkb Hd1)) as (qd & Hqd & Tqd & Gqd & Dqd & Kqd).
    assert (Hd1k : incl [d] (nodes (ngraph k))) by (rewrite Gk; auto). destruct (over k [d] (kernel kb) Hk Hd1k (borrowed k kb [d] Hk Hkb ltac:(congruence) ltac:(intro; rewrite Dkb, Dk; auto) Hd1k)) as (kd & Hkd & Tkd & Gkd & Dkd & Kkd).
    assert (HLq : incl L (nodes (ngraph qd))) by (rewrite Gqd; auto). destruct (over qd L (kernel k) Hqd HLq (borrowed qd k L Hqd Hk ltac:(congruence) ltac:(intro; rewrite Dqd, Dk; auto) HLq)) as (q2 & Hq2 & Tq2 & Gq2 & Dq2 & Kq2).
    assert (Eqd : forall v x, In v (nodes (ngraph q)) -> v <> d -> within q x -> kernel qd v x = kernel q v x) by (intros v x Hv N Wx; apply (t_kernel _ _ _ Tqd); auto; intros [K|[]]; auto).
    assert (Ekd : forall v x, In v (nodes (ngraph q)) -> v <> d -> within q x -> kernel kd v x = kernel k v x) by (intros v x Hv N Wx; apply (t_kernel _ _ _ Tkd); [rewrite Gk; auto|intros [K|[]]; auto|apply Wq; auto]).
    assert (Eq2 : forall v x, In v (nodes (ngraph q)) -> ~ In v L -> within q x -> kernel q2 v x = kernel qd v x) by (intros v x Hv N Wx; apply (t_kernel _ _ _ Tq2); [rewrite Gqd; auto|auto|apply Wq; auto]).
    assert (Eq2L : forall v x, In v L -> within q x -> kernel q2 v x = kernel k v x) by (intros v x Hv Wx; apply Kq2; auto; apply Wq; auto).
    assert (Ag' : forall v x, In v (nodes (ngraph q)) -> v <> d -> r_relevant m d v -> within q x -> ~ In v L /\ kernel k v x = kernel q v x).
    { intros v x Hv Nv R Wx. assert (K : ~ In v L) by (intro K; apply (Late v K R)). split; auto. apply (Ag v d x); auto. }
    (* A: q -> qd *)
    assert (A : eu q us <= eu qd us).
    { apply (respond_one d us vs q qd kb); auto; try (intros u; apply Ius).
      - intros u R De. split; [apply Ius; auto|]. apply (DL d u); auto.
      - intros v x Hv Nv R Wx. destruct (Ag' v x Hv Nv R Wx) as [N E]. rewrite Ekb; auto.
      - constructor; auto.
      - intros x Wx. apply Kqd; [left; auto|auto].
      - intros v x Hv Nv Wx Z. destruct (in_dec String.string_dec v L) as [K|K]; [exfalso; apply (Zkb v x K Wx Z)|]. apply Su; auto. rewrite <- Ekb; auto. }
    (* B: k and kd are equally good *)
    assert (B : eu k vs <= eu kd vs).
    { apply (respond_one d vs vs k kd kb); auto; try congruence.
      - intros u R De. split; apply (DL d u); auto.
      - intros v x Hv Nv R Wx. rewrite Gk in Hv. apply Wq in Wx; auto. destruct (Ag' v x Hv Nv R Wx) as [N E]. apply Ekb; auto.
      - constructor; auto. intros v x Hv Nv Wx. rewrite Gk in Hv. apply Wq in Wx; auto.
      - intros x Wx. apply Kkd; [left; auto|auto].
      - intros v x Hv Nv Wx Z. rewrite Gk in Hv. apply Wq in Wx; auto. destruct (in_dec String.string_dec v L) as [K|K]; [exfalso; apply (Zkb v x K Wx Z)|]. rewrite <- Ekb; auto. }
    (* the earlier decisions *)
    assert (C : eu qd us <= eu q2 us).
    { apply (IH NL' (fun e K => RL e (LL e K)) (fun e u K => DL e u (LL e K))) with (k := kd); auto; try congruence.
      - intros L1 e L2 f E. apply (OL L1 e (L2 ++ [d]) f). rewrite E, <- app_assoc. reflexivity.
      - intros v e x Hv Nv Ke R Wx. rewrite Gqd in Hv. apply Wq in Wx; auto. destruct (String.string_dec v d) as [->|N].
        + rewrite Kkd, Kqd; auto; try (left; auto; fail). apply Wq; auto.
        + rewrite Ekd, Eqd by auto. apply (Ag v e x); auto.
      - intros e x Ke Wx. apply Wq in Wx; auto. rewrite Eq2L by auto. symmetry. apply Ekd; auto. intros ->. contradiction.
      - intros v x Hv Nv Wx Z. rewrite Gqd in Hv. apply Wq in Wx; auto. destruct (String.string_dec v d) as [->|N].
        + rewrite Kqd by (auto; left; auto). rewrite Kkd in Z; auto; [left; auto|apply Wq; auto].
        + rewrite Eqd by auto. rewrite Ekd in Z by auto. apply Su; auto.
      - intros k2 Hk2 T2. apply Qcle_trans with (eu k vs); auto. apply Op; auto. apply (twin_trans _ k kd k2); [eapply twin_mono; [|exact Tkd]; intros v [<-|[]]; auto|eapply twin_mono; [|exact T2]; auto]. }
    (* back to the rule of k at d *)
    assert (E : eu q2 us <= eu q1 us).
    { apply (respond_one d us vs q2 q1 k); auto; try congruence; try (intros u; apply Ius).
      - intros u R De. split; [apply Ius; auto|]. apply (DL d u); auto.
      - intros v x Hv Nv R Wx. assert (Hv' : In v (nodes (ngraph q))) by (rewrite <- Gqd, <- Gq2; auto). assert (Wx' : within q x) by (revert Wx; apply Wq; [congruence|intro; rewrite Dq2; auto]). destruct (Ag' v x Hv' Nv R Wx') as [N E]. rewrite Eq2, Eqd; auto.
      - constructor; [rewrite (t_graph _ _ _ Tq); congruence|intro v; rewrite (t_dom _ _ _ Tq), Dq2, Dqd; auto|]. intros v x Hv Nv Wx. assert (Hv' : In v (nodes (ngraph q))) by (rewrite <- Gqd, <- Gq2; auto). assert (Wx' : within q x) by (revert Wx; apply Wq; [congruence|intro; rewrite Dq2; auto]).
        destruct (in_dec String.string_dec v L) as [K|K]; [rewrite Eq2L, Kd; auto|]. rewrite Eq2, Eqd; auto. apply (t_kernel _ _ _ Tq); auto.
      - intros x Wx. apply Kd; auto. revert Wx. apply Wq; [congruence|intro; rewrite Dq2; auto].
      - intros v x Hv Nv Wx Z. assert (Hv' : In v (nodes (ngraph q))) by (rewrite <- Gqd, <- Gq2; auto). assert (Wx' : within q x) by (revert Wx; apply Wq; [congruence|intro; rewrite Dq2; auto]).
        destruct (in_dec String.string_dec v L) as [K|K]; [rewrite Eq2L; auto|]. rewrite Eq2, Eqd; auto.
      - intros k2 Hk2 T2. apply Op; auto. eapply twin_mono; [|exact T2]. intros v <-. auto. }
    eapply Qcle_trans; [exact A|]. eapply Qcle_trans; [exact C|exact E].
Qed.
End Joint.

Section JointStage.
Variables (m : macid) (n n' : net) (before : list tab) (ds : list node) (sm : macid) (sn : net).
Hypothesis V : valid m.
Hypothesis G : mgraph m = ngraph n.
Hypothesis NC : no_clash (mgraph m).
Hypothesis U : utilities_complete m.
Hypothesis Hd : distribution n.
Hypothesis Ru : ruled n before n'.
Hypothesis S : subgame m n' ds sm sn.
Hypothesis I : incl ds (nodes (ngraph sn)).
Hypothesis Hds : forall d, In d ds -> is_decision m d.
Let Hd' : distribution n' := ru_dist _ _ _ Ru.
Let Hsn : distribution sn := sg_dist _ _ _ _ _ S.
Let D : node -> list outcome := dom_of (doms n).
Let E : node -> list outcome := dom_of (doms sn).
(* with the rules c for ds, no other rules for the decisions L of one agent are better for it in the network of the stage *)
Lemma stage_best_all : forall c ags a L us k, policy sn ds c -> equilibrium sm sn ds ags c -> In a ags -> incl L ds -> (forall d, In d L -> has_role m d (RDecision a)) -> lookup a (agent_utilities sm) = Some us ->
  distribution k -> ngraph k = ngraph n -> (forall v, dom_of (doms k) v = dom_of (doms n) v) -> (forall v a, In v (nodes (ngraph n)) -> within n a -> kernel k v a = star m n n' sn ds c v a) ->
  (forall u, In u us -> In u (nodes (ngraph sn)) /\ kept m ds u) -> forall k2, distribution k2 -> twin (fun v => In v L) k k2 -> eu k2 us <= eu k us.
Proof.
  intros c ags a L us k Po Eq Ha KL Ra Lu Hk Gk Dk Ek Iu k2 Hk2 T. assert (G2 := t_graph _ _ _ T). assert (D2 := t_dom _ _ _ T). assert (C2 := kernel_cond k2 Hk2).
  assert (Sn := snode m n n' before ds sm sn Hd Ru S). assert (Se := sedge m n n' before ds sm sn Ru S). assert (Sp := sparent m n n' before ds sm sn Ru S). assert (Sd := sdom m n n' before ds sm sn V G NC U Hd Ru S Hds). assert (Kdm := kdom m n n' before ds sm sn Hd Ru S). fold D E in Sd, Kdm.
  set (c2 := fun v b => if in_dec String.string_dec v L then kernel k2 v (carry E D b) else c v b). assert (Hd2 : forall d, In d L -> In d (nodes (ngraph k2))) by (intros d K; rewrite G2, Gk; auto). assert (Kd' : forall d, In d L -> kept m ds d) by (left; auto).
  assert (Ln : forall d u, In d L -> u = d \/ edge (ngraph n) u d -> In u (nodes (ngraph sn))) by (intros d u K [->|Hu]; [apply I; auto|apply (Sp u d); auto]).
  assert (Po2 : policy sn ds c2).
  { intros v Kv. unfold c2. destruct (in_dec String.string_dec v L) as [Nv|Nv]; [|apply Po; auto]. split; [|split].
    - intros b b' E1 E2. apply (k_local _ _ _ C2 v (Hd2 v Nv)). intros u Hu. unfold carry. f_equal. destruct Hu as [->|K]; auto. apply E2. apply Se. rewrite G2, Gk in K. auto.
    - intro b. apply (k_nonneg _ _ _ C2 v _ (Hd2 v Nv)).
    - intros b Eb. change (fold_right Qcplus 0) with qsum. fold E. rewrite (Kdm v) by auto.
      rewrite (qsum_ext _ _ (fun x => kernel k2 v (upd (carry E D b) v x))).
      + unfold D. rewrite <- Dk, <- D2. apply (k_normal _ _ _ C2 v _ (Hd2 v Nv)). intros p Hp. rewrite G2, Gk in Hp. rewrite D2, Dk. unfold carry. destruct (Sd p) as (Le & _); [apply (Sp p v); auto|]. apply shift_in; [auto|]. apply Eb. apply Se. auto.
      + intros x Hx. apply (k_local _ _ _ C2 v (Hd2 v Nv)). intros w _. rewrite carry_upd. rewrite (Kdm v) by auto. rewrite shift_same. auto. }
  rewrite (star_value m n n' before ds sm sn V G NC U Hd Ru S I Hds c k us); auto. rewrite (star_value m n n' before ds sm sn V G NC U Hd Ru S I Hds c2 k2 us); auto; [|congruence|intro v; rewrite D2; auto|].
  - apply (Eq a us c2); auto. split; auto. intros e x Ke Ne _. unfold c2. destruct (in_dec String.string_dec e L) as [K|]; auto. exfalso. apply Ne. apply good_listed_decision; [apply good_consistent; apply (sg_consistent _ _ _ _ _ S)|]. apply (sg_decision _ _ _ _ _ S e a). auto.
  - intros v b Hv Wb. unfold star, c2. destruct (in_dec String.string_dec v ds) as [K|K].
    + destruct (in_dec String.string_dec v L) as [Nv|Nv].
      * apply (k_local _ _ _ C2 v (Hd2 v Nv)). intros u Hu. rewrite G2, Gk in Hu. symmetry. unfold carry at 1. unfold carry. destruct (Sd u (Ln v u Nv Hu)) as (Le & N1 & N2). fold (D u) (E u). apply shift_back; auto. apply Wb. apply Sn. eauto.
      * rewrite (t_kernel _ _ _ T); auto; [|rewrite Gk; auto|intros u Hu; rewrite Dk; apply Wb; rewrite <- Gk; auto]. rewrite Ek by auto. unfold star. destruct (in_dec String.string_dec v ds); [auto|contradiction].
    + assert (Nv : ~ In v L) by auto. rewrite (t_kernel _ _ _ T); auto; [|rewrite Gk; auto|intros u Hu; rewrite Dk; apply Wb; rewrite <- Gk; auto]. rewrite Ek by auto. unfold star. destruct (in_dec String.string_dec v ds); [contradiction|auto].
Qed.
End JointStage.

Section JointWhole.
Variables (m : macid) (n : net) (DS sg : list node) (c c' : behaviour) (a : agent) (us : list node).
Hypothesis V : valid m.
Hypothesis G : mgraph m = ngraph n.
Hypothesis NC : no_clash (mgraph m).
Hypothesis U : utilities_complete m.
Hypothesis Hd : distribution n.
Hypothesis HDS : forall d, In d DS <-> is_decision m d.
Hypothesis Po : policy n DS c.
Hypothesis Lu : lookup a (agent_utilities m) = Some us.
Hypothesis Po' : policy n DS c'.
Hypothesis Dev : forall d x, In d sg -> lookup d (decision_agent m) <> Some a -> within n x -> c' d x = c d x.
Local Notation hyb := (LWhole.hyb c c').
Let hyb_policy := hyb_policy n DS c c' Po Po'.
Let IDS := IDS m n DS V G HDS.
Let own_utility := own_utility m a us V Lu.
Let hyb_same := hyb_same m n DS sg c c' a us V Dev.
Let hyb_ext := hyb_ext m n DS sg c c' a us V Dev.
Local Notation insg := (LWhole.insg sg).
Lemma stage_step_all : forall before n' l b B, ruled n before n' -> stage m n' l b -> (forall t x, In t (before ++ b) -> within n x -> entry (doms n) t x = c (tvar t) x) ->
  incl l sg -> (forall d, In d l -> is_decision m d) -> incl B (map tvar before) -> (forall v, In v (map tvar before) -> In v DS /\ ~ In v l) ->
  (forall x y, In x l -> is_decision m y -> r_relevant m x y -> In y l \/ In y B) ->
  (exists L, NoDup L /\ (forall d, In d L <-> In d l /\ has_role m d (RDecision a)) /\ forall L1 d L2 e, L = L1 ++ d :: L2 -> In e L1 -> ~ r_relevant m d e) ->
  value n DS (hyb B) us <= value n DS (hyb (B ++ l)) us.
Proof.
  intros before n' l b B Ru (sm & sn & ds & ags & cC & P & Ag & S & I & Pos & Tev & PoC & [Tv Te] & Eq) Ent Ls Hl HB Hb Rel (L & NL & IL & OL).
  assert (Gr : good_roles m) by (apply good_consistent; apply V). assert (W : wf_dag (ngraph n)) by apply Hd. assert (Vm : wf_dag (mgraph m)) by apply V. assert (HB' : forall v, In v B -> In v DS /\ ~ In v l) by (intros v K; apply Hb, HB; auto).
  assert (Mem : forall v, In v ds <-> In v l) by (intro v; split; apply Permutation_in; auto using Permutation_sym).
  assert (Hds : forall d, In d ds -> is_decision m d) by (intros d K; apply Hl, Mem; auto).
  destruct (existsb (fun d => match lookup d (decision_agent m) with Some a' => if string_dec a' a then true else false | None => false end) ds) eqn:Ex.
  2:{ rewrite (hyb_same B (B ++ l)); [apply Qcle_refl| |apply incl_appl, incl_refl]. intros d _ K1 K2. apply in_app_or in K1. destruct K1 as [K1|K1]; [contradiction|]. split; [auto|]. intro R. apply Mem in K1. apply good_listed_decision in R; auto.
      assert (X : existsb (fun d => match lookup d (decision_agent m) with Some a' => if string_dec a' a then true else false | None => false end) ds = true); [|congruence]. apply existsb_exists. exists d. split; auto. rewrite R. destruct (string_dec a a); congruence. }
  apply existsb_exists in Ex. destruct Ex as (d & Kd & Ld). destruct (lookup d (decision_agent m)) as [a'|] eqn:La; [|discriminate]. destruct (string_dec a' a) as [->|]; [|discriminate]. clear Ld.
  assert (Rd : has_role m d (RDecision a)) by (apply good_listed_decision; auto). assert (Hdn : In d (nodes (ngraph n))) by (apply IDS, HDS; exists a; auto).
  assert (Ka : In a ags) by (apply Ag; exists d; split; [apply Mem; auto|auto]).
  destruct own_utility as [Nus Ius].
  (* the utilities of a in the subgame *)
  assert (Vs : exists vs, NoDup vs /\ (forall u, In u vs <-> has_role sm u (RUtility a)) /\ (vs = [] \/ lookup a (agent_utilities sm) = Some vs)).
  { destruct (sg_consistent _ _ _ _ _ S) as (_ & N & _ & _ & Nl & _). destruct (lookup a (agent_utilities sm)) as [vs|] eqn:Lv.
    - exists vs. split; [apply (Nl a); right; apply (LBase.lookup_In _ _ _ _ Lv)|]. split; [|right; auto]. intro u. change (has_role sm u (RUtility a)) with (listed (agent_utilities sm) a u). rewrite listed_lookup by auto. rewrite Lv. split; [intro K; exists vs; auto|]. intros (l0 & K1 & K2). congruence.
    - exists []. split; [constructor|]. split; [|left; auto]. intro u. change (has_role sm u (RUtility a)) with (listed (agent_utilities sm) a u). rewrite listed_lookup by auto. rewrite Lv. split; [intros []|]. intros (l0 & K1 & K2). discriminate. }
  destruct Vs as (vs & Nvs & Ivs & Lvs). assert (Rvs : forall u, In u vs <-> (exists e, In e ds /\ r_relevant m e u) /\ has_role m u (RUtility a)) by (intro u; rewrite Ivs; apply (sg_utility _ _ _ _ _ S)).
  assert (Unode : forall u, has_role m u (RUtility a) -> In u (nodes (mgraph m))) by (intros u K; apply (proj2 (proj2 V) a u); right; auto).
  assert (Iv : incl vs (nodes (ngraph sn))). { intros u K. apply Rvs in K. destruct K as ((e & K1 & K2) & K3). apply (relevant_node m n n' before ds sm sn V G NC Ru S I e u K1 K2); auto. }
  (* the networks *)
  set (q := follow_net n DS (hyb B)). set (q1 := follow_net n DS (hyb (B ++ l))). set (k := follow_net n (nodes (ngraph n)) (star m n n' sn ds cC)).
  destruct (follow_net_ok n DS (hyb B) Hd IDS (hyb_policy B)) as (Q1 & Q2 & Q3). fold q in Q1, Q2, Q3.
  destruct (follow_net_ok n DS (hyb (B ++ l)) Hd IDS (hyb_policy (B ++ l))) as (R1 & R2 & R3). fold q1 in R1, R2, R3.
  assert (PoS := star_policy m n n' before ds sm sn V G NC U Hd Ru S I Hds cC PoC). destruct (follow_net_ok n (nodes (ngraph n)) (star m n n' sn ds cC) Hd (incl_refl _) PoS) as (K1 & K2 & K3). fold k in K1, K2, K3.
  assert (Gq : ngraph q = ngraph n) by apply Q2. assert (Gq1 : ngraph q1 = ngraph n) by apply R2. assert (Gk : ngraph k = ngraph n) by apply K2.
  assert (Dq := same_dom_of _ _ (proj1 (proj2 Q2))). assert (Dq1 := same_dom_of _ _ (proj1 (proj2 R2))). assert (Dk := same_dom_of _ _ (proj1 (proj2 K2))).
  assert (Wq : forall x, within q x <-> within n x) by (intro x; unfold within; rewrite Gq; split; intros H v Hv; [rewrite <- Dq|rewrite Dq]; auto).
  assert (Oq : forall v x, ~ In v DS -> kernel q v x = kernel n v x) by (intros v x K; symmetry; apply (kernel_differ (fun v => In v DS)); auto; [apply Hd|apply Q1]).
  assert (Oq1 : forall v x, ~ In v DS -> kernel q1 v x = kernel n v x) by (intros v x K; symmetry; apply (kernel_differ (fun v => In v DS)); auto; [apply Hd|apply R1]).
  (* what c does at the decisions of the stage and before it *)
  set (E := dom_of (doms sn)). set (D := dom_of (doms n)). assert (Sd := sdom m n n' before ds sm sn V G NC U Hd Ru S Hds).
  assert (Cw : forall x, within n x -> within sn (carry D E x)) by (intros x Wx; apply (cwithin m n n' before ds sm sn V G NC U Hd Ru S Hds); intros u Hu; apply Wx; apply (snode m n n' before ds sm sn Hd Ru S u Hu)).
  assert (Cc : forall v x, In v ds -> within n x -> cC v (carry D E x) = c v x).
  { intros v x Kv Wx. rewrite <- Tv in Kv. apply in_map_iff in Kv. destruct Kv as (t & Et & Ht). assert (Kv : In v ds) by (rewrite <- Tv, <- Et; apply in_map; auto). rewrite <- Et at 1. rewrite <- Te; auto.
    rewrite (entry_place (doms n) (doms sn) t x); [rewrite Ent by (auto; apply in_or_app; auto); rewrite Et; auto|].
    intros u Hu. assert (Hs : In u (nodes (ngraph sn))). { destruct Hu as [->|Hu]; [rewrite Et; apply I; auto|]. apply Tev in Hu; auto. rewrite Et in Hu. apply (sg_node _ _ _ _ _ S). exists v. right. apply (sg_edge _ _ _ _ _ S). split; auto. left. auto. }
    destruct (Sd u Hs) as (Le & N1 & N2). split; auto. apply place_pos; auto. apply shift_place; auto. apply Wx. apply (snode m n n' before ds sm sn Hd Ru S u Hs). }
  assert (Cb : forall v x, In v B -> within n x -> kernel n' v x = c v x).
  { intros v x Kv Wx. apply HB, in_map_iff in Kv. destruct Kv as (t & <- & Ht). rewrite (ru_rule _ _ _ Ru t x Ht Wx). apply Ent; auto. apply in_or_app. auto. }
  assert (Co : forall v x, In v (nodes (ngraph n)) -> ~ In v (map tvar before) -> within n x -> kernel n' v x = kernel n v x) by (intros; apply (ru_other _ _ _ Ru); auto).
  assert (Own : forall v x, In v l -> ~ In v L -> within n x -> c' v x = c v x). { intros v x Kv Nv Wx. apply Dev; auto. intro X. apply Nv. apply IL. split; auto. apply good_listed_decision; auto. }
  (* q follows n' at the other nodes that are kept *)
  assert (Qo : forall v x, In v (nodes (ngraph n)) -> ~ In v l -> kept m ds v -> within n x -> kernel q v x = kernel n' v x).
  { intros v x Hv N1 N2 Wx. destruct (in_dec String.string_dec v DS) as [K|K].
    - rewrite Q3 by auto. unfold LWhole.hyb. destruct (in_dec String.string_dec v B) as [K'|K']; [rewrite Cb; auto|]. exfalso. destruct N2 as [N2|(e & Ke & N2)]; [apply N1, Mem; auto|]. destruct (Rel e v) as [J|J]; auto; [apply Mem; auto|apply HDS; auto].
    - rewrite Oq by auto. symmetry. apply Co; auto. intro K'. apply K. apply Hb. auto. }
  assert (Tq1 : twin (fun v => In v L) q q1).
  { constructor; [congruence|intro v; rewrite Dq1, Dq; auto|]. intros v x Hv Nv Wx. rewrite Gq in Hv. apply Wq in Wx. destruct (in_dec String.string_dec v DS) as [K|K]; [|rewrite Oq, Oq1; auto]. rewrite Q3, R3 by auto. unfold LWhole.hyb.
    destruct (in_dec String.string_dec v B) as [J|J]; [destruct (in_dec String.string_dec v (B ++ l)) as [J'|J']; auto; exfalso; apply J', in_or_app; auto|]. destruct (in_dec String.string_dec v (B ++ l)) as [J'|J']; auto. apply in_app_or in J'. destruct J' as [J'|J']; [contradiction|]. symmetry. apply Own; auto. }
  assert (Vq : eu q us = value n DS (hyb B) us). { apply follow_value; auto. intros u Hu. rewrite <- G. apply Unode, Ius; auto. }
  assert (Vq1 : eu q1 us = value n DS (hyb (B ++ l)) us). { apply follow_value; auto. intros u Hu. rewrite <- G. apply Unode, Ius; auto. }
  rewrite <- Vq, <- Vq1.
  assert (Ldec : forall e, In e L -> has_role m e (RDecision a)) by (intros e K; apply IL; auto). assert (Lds : incl L ds) by (intros e K; apply Mem, IL; auto).
  apply (respond_all m a V NC U us vs Nus Ius Nvs) with (L := L) (k := k); auto; try congruence.
  - intros u K. apply Rvs in K. apply K.
  - intros e u Ke Ku De. apply Rvs. split; auto. exists e. split; auto. apply (utility_relevant m a); auto.
  - (* agreement *) intros v e x Hv Nv Ke R Wx. rewrite Gq in Hv. apply Wq in Wx. assert (Kk : kept m ds v) by (right; exists e; auto). assert (Kv : keptb m ds v = true) by (apply keptb_iff; auto; rewrite G; auto).
    rewrite K3 by auto. unfold star. rewrite Kv. destruct (in_dec String.string_dec v ds) as [J|J].
    + rewrite Cc by auto. rewrite Q3 by (auto; apply HDS; auto). unfold LWhole.hyb. destruct (in_dec String.string_dec v B); auto. symmetry. apply Own; auto. apply Mem; auto.
    + symmetry. apply Qo; auto. intro K; apply J, Mem; auto.
  - intros e x Ke Wx. apply Wq in Wx. assert (De : In e DS) by (apply HDS; exists a; apply Ldec; auto). rewrite K3 by (solve [auto | apply IDS; auto]). rewrite R3 by auto. unfold LWhole.hyb, star. destruct (in_dec String.string_dec e ds) as [J|J]; [|exfalso; apply J; auto]. rewrite Cc by auto. destruct (in_dec String.string_dec e (B ++ l)) as [J'|J']; auto. exfalso. apply J', in_or_app. right. apply Mem; auto.
  - (* support *) intros v x Hv Nd Wx Z. rewrite Gq in Hv. apply Wq in Wx. rewrite K3 in Z by auto. unfold star in Z. assert (Wx' : within n' x) by (eapply swithin; eauto). assert (Hv' : In v (nodes (ngraph n'))) by (eapply rnodes; eauto).
    destruct (in_dec String.string_dec v ds) as [J|J].
    + rewrite Cc in Z by auto. rewrite Q3 by (auto; apply HDS; auto). unfold LWhole.hyb. destruct (in_dec String.string_dec v B); auto. rewrite Own; auto. apply Mem; auto.
    + assert (Vm' : In v (nodes (mgraph m))) by (rewrite G; auto). destruct (keptb m ds v) eqn:Ek; [rewrite Qo; auto; [intro K; apply J, Mem; auto|apply keptb_iff; auto]|]. assert (Nk : ~ kept m ds v) by (intro K; apply keptb_iff in K; auto; congruence). exfalso.
      destruct (in_dec String.string_dec v (nodes (ngraph sn))) as [Js|Js]; [|revert Z; apply even_pos; apply dist_lookup; auto; apply Ru].
      apply (Pos v (carry D E x) Js Nk); auto.
  - destruct Lvs as [->|Lvs]; [intros k2 _ _; apply Qcle_refl|]. apply (stage_best_all m n n' before ds sm sn V G NC U Hd Ru S I Hds cC ags a L vs k); auto.
    intros u Hu. split; auto. right. apply Rvs in Hu. apply Hu.
Qed.
Lemma staged_best_all : forall ls before p, staged m n ls before p -> (forall t x, In t (before ++ p) -> within n x -> entry (doms n) t x = c (tvar t) x) ->
  NoDup (map tvar before ++ concat ls) -> (forall v, In v DS <-> In v (map tvar before) \/ In v (concat ls)) ->
  (forall l, In l ls -> incl l sg \/ forall d, In d l -> ~ In d sg) ->
  (forall x y, In x sg -> is_decision m y -> r_relevant m x y -> In y sg) ->
  (forall pre l post x y, ls = pre ++ l :: post -> In x l -> In y (concat post) -> ~ r_relevant m x y) ->
  (forall l, In l ls -> exists L, NoDup L /\ (forall d, In d L <-> In d l /\ has_role m d (RDecision a)) /\ forall L1 d L2 e, L = L1 ++ d :: L2 -> In e L1 -> ~ r_relevant m d e) ->
  value n DS (hyb (filter insg (map tvar before))) us <= value n DS (hyb (filter insg (map tvar before ++ concat ls))) us.
Proof.
  intros ls before p Sg. induction Sg as [before|l ls before b p n' Ru St Sg IH]; intros Ent N Mem Cut Clo Ord One; cbn [concat] in *; [rewrite app_nil_r; apply Qcle_refl|].
  assert (Pb : Permutation (map tvar b) l). { destruct St as (sm & sn & ds & ags & cC & P & _ & _ & _ & _ & _ & _ & [Tv _] & _). rewrite Tv. auto. }
  assert (Tb : forall v, In v (map tvar b) <-> In v l) by (intro v; split; apply Permutation_in; auto using Permutation_sym).
  assert (R : value n DS (hyb (filter insg (map tvar (before ++ b)))) us <= value n DS (hyb (filter insg (map tvar before ++ l ++ concat ls))) us).
  { rewrite (hyb_ext (filter insg (map tvar before ++ l ++ concat ls)) (filter insg (map tvar (before ++ b) ++ concat ls))).
    2:{ intro v. rewrite !filter_In, map_app, !in_app_iff, Tb. tauto. }
    apply IH; auto.
    - intros t x K. apply Ent. rewrite app_assoc. auto.
    - rewrite map_app, <- app_assoc. eapply Permutation_NoDup; [|exact N]. apply Permutation_app_head, Permutation_app_tail, Permutation_sym. auto.
    - intro v. rewrite Mem, map_app, !in_app_iff, Tb. tauto.
    - intros l' K. apply Cut. right. auto.
    - intros pre l' post x y E. apply (Ord (l :: pre) l' post). rewrite E. auto.
    - intros l' K. apply (One l'). right. auto. }
  eapply Qcle_trans; [|exact R]. clear R IH. destruct (Cut l (or_introl eq_refl)) as [Ls|Ls].
  - rewrite (hyb_ext (filter insg (map tvar (before ++ b))) (filter insg (map tvar before) ++ l)).
    2:{ intro v. rewrite map_app, in_app_iff, !filter_In, in_app_iff, Tb. unfold LWhole.insg. rewrite mem_In. split; [tauto|]. intros [K|K]; [tauto|auto]. }
    apply (stage_step_all before n' l b); auto.
    + intros t x K Wx. apply Ent; auto. rewrite app_assoc. apply in_or_app. left. auto.
    + intros d K. apply HDS, Mem. right. apply in_or_app. auto.
    + intros v K. apply filter_In in K. tauto.
    + intros v K. split; [apply Mem; auto|]. intro K'. apply NoDup_app_inv in N. apply (proj2 (proj2 N) v); auto. apply in_or_app. auto.
    + intros x y Kx Dy Rl. assert (Ky := proj1 (Mem y) (proj2 (HDS y) Dy)). rewrite in_app_iff in Ky. destruct Ky as [Ky|[Ky|Ky]]; [|auto|exfalso; apply (Ord [] l ls x y); auto]. right. apply filter_In. split; auto. apply mem_In. apply (Clo x y); auto.
    + apply (One l). left. auto.
  - rewrite (hyb_ext (filter insg (map tvar (before ++ b))) (filter insg (map tvar before))); [apply Qcle_refl|].
    intro v. rewrite map_app, !filter_In, in_app_iff, Tb. unfold LWhole.insg. rewrite mem_In. split; [|tauto]. intros [[K|K] K']; [auto|]. exfalso. apply (Ls v); auto.
Qed.
End JointWhole.
