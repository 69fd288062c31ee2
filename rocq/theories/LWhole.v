(* Lemmas: the stages of get_spe add up to an equilibrium of the whole diagram. *)
From Coq Require Import String List Bool Arith QArith Qcanon Permutation Lia Sorted.
Import ListNotations.
From Verif Require Import MBase MGraph MMacid MRel MIncent MCpd MNet MProb MQuery MPolicy MGame MSub Spec SpecM SpecC SpecN SpecQ SpecPol SpecGame
  LBase LQc LQcArith LGraph LPaths LActive LRoles LCopy LMech LReach LIncent LTrim LCpd LNet LSum LSep LBayes LQuery LDo LPolicy LValue LLike LSearch LBest LSolve LOptimal LRespond LKept LMargin LShift LSub LStage PMacid PRel SpecSub.
Local Open Scope Qc_scope.

(* the kept nodes, computed *)
Definition keptb (m : macid) (ds : list node) (v : node) : bool := mem v ds || match is_r_reachable m ds [v] with Ok b => b | Err _ => false end.
Lemma keptb_iff : forall m ds v, valid m -> no_clash (mgraph m) -> utilities_complete m -> (forall d, In d ds -> is_decision m d) -> In v (nodes (mgraph m)) -> (keptb m ds v = true <-> kept m ds v).
Proof.
  intros m ds v V NC U Hds Hv. unfold keptb, kept. rewrite orb_true_iff, mem_In. destruct (C17_r_reachable m ds [v] V NC U Hds) as (b & E & R); [intros u [<-|[]]; auto|]. rewrite E, R. split; (intros [K|K]; [left; auto|right]).
  - destruct K as (d & w & K1 & [<-|[]] & K3). eauto.
  - destruct K as (d & K1 & K2). exists d, v. split; auto. split; [left|]; auto.
Qed.
(* the subgame with all nodes of the diagram: those that it lacks are made at random *)
Definition star (m : macid) (n n' sn : net) (ds : list node) (c : behaviour) : behaviour :=
  fun v a => let b := carry (dom_of (doms n)) (dom_of (doms sn)) a in
    if in_dec String.string_dec v ds then c v b else if keptb m ds v then kernel n' v a else if in_dec String.string_dec v (nodes (ngraph sn)) then kernel sn v b else 1 / Qc_of_nat (length (dom_of (doms n) v)).
Lemma even_normal : forall (l : list outcome) (f : outcome -> Qc), l <> [] -> (forall x, f x = 1 / Qc_of_nat (length l)) -> qsum (map f l) = 1.
Proof.
  intros l f Nl E. rewrite (map_ext _ (fun _ => 1 / Qc_of_nat (length l))) by auto. rewrite qsum_const. field. apply Qc_of_nat_nz. destruct l; [congruence|cbn; lia].
Qed.
Lemma even_pos : forall (l : list outcome), l <> [] -> 0 <= 1 / Qc_of_nat (length l) /\ 1 / Qc_of_nat (length l) <> 0.
Proof.
  intros l Nl. assert (N : Qc_of_nat (length l) <> 0) by (apply Qc_of_nat_nz; destruct l; [congruence|cbn; lia]). assert (C2 := Qc_of_nat_nonneg (length l)). set (q := Qc_of_nat (length l)) in *. split.
  { unfold Qcdiv. rewrite Qcmult_1_l. destruct (Qclt_le_dec (/ q) 0) as [L|L]; auto. exfalso. assert (X : 1 <= 0). { rewrite <- (Qcmult_inv_l _ N), <- (Qcmult_0_l q). apply Qcmult_le_compat_r; auto. apply Qclt_le_weak. auto. } apply (Qcle_not_lt _ _ X). apply Qc_0_lt_1. }
  intro Z. assert (X : 1 / q * q = 1) by (field; auto). rewrite Z, Qcmult_0_l in X. discriminate X.
Qed.

Section Star.
Variables (m : macid) (n n' : net) (before : list tab) (ds : list node) (sm : macid) (sn : net).
Hypothesis V : valid m.
Hypothesis G : mgraph m = ngraph n.
Hypothesis NC : no_clash (mgraph m).
Hypothesis U : utilities_complete m.
Hypothesis Hd : distribution n.
Hypothesis Ru : ruled n before n'.
Hypothesis S : subgame m n' ds sm sn.
Hypothesis I : incl ds (nodes (ngraph sn)).
Hypothesis Hds : forall d, In d ds -> is_decision m d.
Let Hd' : distribution n' := ru_dist _ _ _ Ru.
Let Hsn : distribution sn := sg_dist _ _ _ _ _ S.
Let D : node -> list outcome := dom_of (doms n).
Let E : node -> list outcome := dom_of (doms sn).
Lemma rnodes : forall v, In v (nodes (ngraph n')) <-> In v (nodes (ngraph n)).
Proof. intro v. rewrite (ru_nodes _ _ _ Ru). tauto. Qed.
Lemma sedge : forall u v, edge (ngraph sn) u v <-> edge (ngraph n) u v /\ kept m ds v.
Proof. intros u v. rewrite (sg_edge _ _ _ _ _ S), (ru_edges _ _ _ Ru). tauto. Qed.
Lemma snode : forall v, In v (nodes (ngraph sn)) -> In v (nodes (ngraph n)).
Proof. intros v Hv. apply (sg_node _ _ _ _ _ S) in Hv. destruct Hv as (u & [K|K]); apply sedge in K; destruct K as [K _]; apply Hd in K; tauto. Qed.
Lemma sparent : forall u v, edge (ngraph n) u v -> kept m ds v -> In u (nodes (ngraph sn)).
Proof. intros u v K1 K2. apply (sg_node _ _ _ _ _ S). exists v. right. apply sedge. auto. Qed.
Lemma kdom : forall v, In v (nodes (ngraph sn)) -> kept m ds v -> E v = D v.
Proof. intros v Hv K. unfold E, D. rewrite (sg_dom _ _ _ _ _ S v Hv K). apply (ru_dom _ _ _ Ru). apply snode; auto. Qed.
Lemma sdom : forall v, In v (nodes (ngraph sn)) -> length (D v) = length (E v) /\ NoDup (D v) /\ NoDup (E v).
Proof.
  intros v Hv. assert (Hn := snode v Hv). assert (Hm : In v (nodes (mgraph m))) by (rewrite G; auto). split; [|split; apply dom_nodup; auto]. unfold D, E. destruct (keptb m ds v) eqn:Ek.
  - apply keptb_iff in Ek; auto. symmetry. f_equal. apply kdom; auto.
  - assert (K : ~ kept m ds v) by (intro K; apply keptb_iff in K; auto; congruence). destruct (sg_outer_dom _ _ _ _ _ S v Hv K) as [K1 K2]. rewrite <- (ru_dom _ _ _ Ru) by auto. symmetry. apply Permutation_length. auto.
Qed.
Lemma swithin : forall a, within n a -> within n' a.
Proof. intros a W v Hv. apply rnodes in Hv. rewrite (ru_dom _ _ _ Ru) by auto. auto. Qed.
Lemma cwithin : forall a, (forall v, In v (nodes (ngraph sn)) -> In (a v) (D v)) -> within sn (carry D E a).
Proof. intros a W v Hv. unfold carry. apply shift_in; [apply sdom; auto|auto]. Qed.
Lemma relevant_node : forall d v, In d ds -> r_relevant m d v -> In v (nodes (mgraph m)) -> In v (nodes (ngraph sn)).
Proof.
  intros d v Kd R Hv. assert (J : joined (ngraph sn) [] v d). { apply (relevant_joined m); auto. intros x y K K'. apply sedge. rewrite <- G. split; auto. right. eauto. }
  destruct (String.string_dec v d) as [->|N]; [apply I; auto|]. destruct J as [|u x z K J]; [congruence|]. apply (sg_node _ _ _ _ _ S). exists x. tauto.
Qed.
(* summing over the values of one variable *)
Lemma carry_sum : forall f v a, ext f -> In v (nodes (ngraph sn)) -> qsum (map (fun x => f (carry D E (upd a v x))) (D v)) = qsum (map (fun y => f (upd (carry D E a) v y)) (E v)).
Proof.
  intros f v a Ef Hv. destruct (sdom v Hv) as (L & N & _). rewrite <- (map_shift (D v) (E v) L N) at 1. rewrite map_map. apply qsum_ext. intros x Hx. apply Ef. intros w _. apply carry_upd.
Qed.
Lemma policy_on : forall k c v, policy k ds c -> In v ds -> on (fun u => u = v \/ edge (ngraph k) u v) (c v).
Proof. intros k c v Po K a b Eq. apply Po; auto. Qed.
Lemma star_local : forall c, policy sn ds c -> forall v, In v (nodes (ngraph n)) -> on (fun u => u = v \/ edge (ngraph sn) u v) (star m n n' sn ds c v).
Proof.
  intros c Po v Hv a b Eq. unfold star. assert (Hm : In v (nodes (mgraph m))) by (rewrite G; auto). assert (Hv' : In v (nodes (ngraph n'))) by (apply rnodes; auto).
  assert (Ec : forall u, u = v \/ edge (ngraph sn) u v -> carry (dom_of (doms n)) (dom_of (doms sn)) a u = carry (dom_of (doms n)) (dom_of (doms sn)) b u) by (intros u Hu; unfold carry; rewrite (Eq u Hu); auto). destruct (in_dec String.string_dec v ds) as [K|K].
  - apply (policy_on sn c v Po K). auto.
  - destruct (keptb m ds v) eqn:Ek; [apply keptb_iff in Ek; auto; apply (k_local _ _ _ (kernel_cond n' Hd') v Hv'); intros u [->|Hu]; apply Eq; auto; right; apply (sg_edge _ _ _ _ _ S); auto|]. destruct (in_dec String.string_dec v (nodes (ngraph sn))) as [Ks|]; [apply (k_local _ _ _ (kernel_cond sn Hsn) v Ks); auto|auto].
Qed.
Lemma star_normal : forall c, policy sn ds c -> forall v a, In v (nodes (ngraph n)) -> (forall p, edge (ngraph sn) p v -> In (a p) (dom_of (doms n) p)) -> qsum (map (fun x => star m n n' sn ds c v (upd a v x)) (dom_of (doms n) v)) = 1.
Proof.
  intros c Po v a Hv Ea. assert (Hm : In v (nodes (mgraph m))) by (rewrite G; auto). assert (Hv' : In v (nodes (ngraph n'))) by (apply rnodes; auto). unfold star.
  assert (Ps : forall p, edge (ngraph sn) p v -> In (carry D E a p) (E p)) by (intros p Hp; unfold carry; apply shift_in; [apply sdom; apply (sg_node _ _ _ _ _ S); eauto|apply Ea; auto]). destruct (in_dec String.string_dec v ds) as [K|K].
  - fold D E. change (qsum (map (fun x => c v (carry D E (upd a v x))) (D v)) = 1). rewrite carry_sum; [|eapply on_ext; apply (policy_on sn c v Po K)|auto]. destruct (Po v K) as (_ & _ & N). apply N. auto.
  - destruct (keptb m ds v) eqn:Ek; [|destruct (in_dec String.string_dec v (nodes (ngraph sn))) as [Ks|]; [|apply even_normal; auto; apply dist_lookup; auto]].
    + rewrite <- (ru_dom _ _ _ Ru) by auto. apply keptb_iff in Ek; auto. apply (k_normal _ _ _ (kernel_cond n' Hd') v a Hv'). intros p Hp.
      assert (Hp' : edge (ngraph n) p v) by (apply (ru_edges _ _ _ Ru); auto). rewrite (ru_dom _ _ _ Ru) by (apply Hd in Hp'; tauto). apply Ea. apply sedge. auto.
    + change (qsum (map (fun x => kernel sn v (carry D E (upd a v x))) (D v)) = 1). rewrite carry_sum; [|eapply on_ext; apply (k_local _ _ _ (kernel_cond sn Hsn) v Ks)|auto]. apply (k_normal _ _ _ (kernel_cond sn Hsn) v _ Ks). auto.
Qed.
Lemma star_nonneg : forall c, policy sn ds c -> forall v a, In v (nodes (ngraph n)) -> 0 <= star m n n' sn ds c v a.
Proof.
  intros c Po v a Hv. assert (Hv' : In v (nodes (ngraph n'))) by (apply rnodes; auto). unfold star. destruct (in_dec String.string_dec v ds) as [K|K]; [apply Po; auto|]. destruct (keptb m ds v); [apply (k_nonneg _ _ _ (kernel_cond n' Hd') v a Hv')|].
  destruct (in_dec String.string_dec v (nodes (ngraph sn))) as [Ks|]; [apply (k_nonneg _ _ _ (kernel_cond sn Hsn) v _ Ks)|apply even_pos; apply dist_lookup; auto].
Qed.
Lemma star_policy : forall c, policy sn ds c -> policy n (nodes (ngraph n)) (star m n n' sn ds c).
Proof.
  intros c Po v Hv. split; [|split].
  - intros a a' E1 E2. apply (star_local c Po v Hv). intros u [->|K]; auto. apply E2. apply sedge in K. tauto.
  - intro a. apply star_nonneg; auto.
  - intros a Ea. change (fold_right Qcplus 0) with qsum. apply star_normal; auto. intros p Hp. apply Ea. apply sedge in Hp. tauto.
Qed.
Lemma star_follow : forall c v a, In v (nodes (ngraph sn)) -> (forall u, In u (nodes (ngraph sn)) -> In (a u) (dom_of (doms n) u)) -> star m n n' sn ds c v a = follow sn ds c v (carry D E a).
Proof.
  intros c v a Hv Ha. assert (Hn := snode v Hv). assert (Hm : In v (nodes (mgraph m))) by (rewrite G; auto). unfold star, follow. destruct (in_dec String.string_dec v ds) as [K|K]; auto. destruct (keptb m ds v) eqn:Ek.
  - apply keptb_iff in Ek; auto. symmetry. apply (sg_kernel _ _ _ _ _ S); auto. intros u Hu.
    assert (Hs : In u (nodes (ngraph sn))). { destruct Hu as [->|Hu]; auto. apply (ru_edges _ _ _ Ru) in Hu. apply (sparent u v); auto. }
    rewrite (ru_dom _ _ _ Ru) by (apply snode; auto). unfold carry. apply shift_place; [apply sdom; auto|apply Ha; auto].
  - destruct (in_dec String.string_dec v (nodes (ngraph sn))); [auto|contradiction].
Qed.
(* dropping the other nodes does not change the expected utility *)
Lemma star_value : forall c k us, policy sn ds c -> distribution k -> ngraph k = ngraph n -> (forall v, dom_of (doms k) v = dom_of (doms n) v) ->
  (forall v a, In v (nodes (ngraph n)) -> within n a -> kernel k v a = star m n n' sn ds c v a) -> (forall u, In u us -> In u (nodes (ngraph sn)) /\ kept m ds u) -> eu k us = value sn ds c us.
Proof.
  intros c k us Po Hk Gk Dk Ek Iu. unfold eu. rewrite expectations_sum; [|auto|rewrite Gk; intros u Hu; apply snode; apply Iu; auto]. rewrite Gk. set (N := nodes (ngraph n)). set (A := nodes (ngraph sn)).
  rewrite (total_dom_perm (dom_of (doms k)) D) by (intros v _; rewrite Dk; apply Permutation_refl).
  rewrite (total_ext_in D N _ (fun a => weight (star m n n' sn ds c) N a * qsum (map a us))). 2:{ intros a Ha _. f_equal. apply qprod_ext. intros v Hv. apply Ek; auto. }
  set (gs := mkG N (edges (ngraph sn))). assert (Es : forall u v, edge gs u v <-> edge (ngraph sn) u v) by (intros; reflexivity).
  assert (Wn : wf_dag (ngraph n)) by apply Hd. assert (Ws : wf_dag (ngraph sn)) by apply Hsn.
  assert (W : wf_dag gs). { split; [|intros v (w & K1 & K2); apply (proj2 Ws v); exists w; split; [exact K1|apply (same_reach gs); auto]]. destruct Wn as [(W1 & W2 & W3) _]. destruct Ws as [(W4 & W5 & W6) _]. split; [exact W1|]. split; [exact W5|]. intros u v K. apply sedge in K. apply W3. tauto. }
  assert (C : LBayes.cond gs D (star m n n' sn ds c)).
  { constructor.
    - intros v Hv. apply (star_local c Po v Hv).
    - intros v a Hv Ea. apply star_normal; auto.
    - intros v a Hv. apply star_nonneg; auto. }
  assert (IA : incl A N) by (intros v; apply snode). assert (NA : NoDup A) by apply Ws.
  eapply eq_trans; [apply (barren gs D W (star m n n' sn ds c) A (fun a => qsum (map a us)) (fun _ => 0)); auto|].
  - intros u v K _. apply (sg_node _ _ _ _ _ S). exists v. auto.
  - apply sum_on. intros u Hu. apply Iu. auto.
  - rewrite value_weight. fold A. fold E.
    assert (On : on (fun v => In v A) (fun b => weight (follow sn ds c) A b * qsum (map b us))).
    { intros b b' Eb. f_equal; [|f_equal; apply map_ext_in; intros u Hu; apply Eb, Iu; auto]. apply qprod_ext. intros v Hv. unfold follow. destruct (in_dec String.string_dec v ds) as [K|K].
      - apply (policy_on sn c v Po K). intros u [->|Hu]; apply Eb; auto. apply (proj1 Ws) in Hu. tauto.
      - apply (k_local _ _ _ (kernel_cond sn Hsn) v Hv). intros u [->|Hu]; apply Eb; auto. apply (proj1 Ws) in Hu. tauto. }
    eapply eq_trans; [apply (total_ext_in D A _ (fun a => weight (follow sn ds c) A (carry D E a) * qsum (map (carry D E a) us)))|].
    + intros a Ha _. f_equal; [apply qprod_ext; intros v Hv; apply star_follow; auto|]. f_equal. apply map_ext_in. intros u Hu. destruct (Iu u Hu) as [K1 K2]. symmetry. apply carry_same. symmetry. apply kdom; auto.
    + eapply eq_trans; [apply (total_carry D E A (fun b => weight (follow sn ds c) A b * qsum (map b us))); [eapply on_ext; exact On|intros v Hv; split; apply sdom; auto]|].
      apply (total_on E A _ _ On). intros v [K1 K2]. contradiction.
Qed.
(* with the rules c for ds, no other rule for d is better for its owner in the network of the stage *)
Lemma stage_best : forall c ags a d us k, policy sn ds c -> equilibrium sm sn ds ags c -> In a ags -> In d ds -> has_role m d (RDecision a) -> lookup a (agent_utilities sm) = Some us ->
  distribution k -> ngraph k = ngraph n -> (forall v, dom_of (doms k) v = dom_of (doms n) v) -> (forall v a, In v (nodes (ngraph n)) -> within n a -> kernel k v a = star m n n' sn ds c v a) ->
  (forall u, In u us -> In u (nodes (ngraph sn)) /\ kept m ds u) -> forall k2, distribution k2 -> twin (eq d) k k2 -> eu k2 us <= eu k us.
Proof.
  intros c ags a d us k Po Eq Ha Kd Ra Lu Hk Gk Dk Ek Iu k2 Hk2 T. assert (G2 := t_graph _ _ _ T). assert (D2 := t_dom _ _ _ T). assert (Hdn : In d (nodes (ngraph n))) by (apply snode; auto). assert (C2 := kernel_cond k2 Hk2).
  assert (Ws : wf_dag (ngraph sn)) by apply Hsn.
  set (c2 := fun v b => if String.string_dec v d then kernel k2 d (carry E D b) else c v b). assert (Hd2 : In d (nodes (ngraph k2))) by (rewrite G2, Gk; auto). assert (Kd' : kept m ds d) by (left; auto).
  assert (Ln : forall u, u = d \/ edge (ngraph n) u d -> In u (nodes (ngraph sn))) by (intros u [->|Hu]; [apply I; auto|apply (sparent u d); auto]).
  assert (Po2 : policy sn ds c2).
  { intros v Kv. unfold c2. destruct (String.string_dec v d) as [->|Nv]; [|apply Po; auto]. split; [|split].
    - intros b b' E1 E2. apply (k_local _ _ _ C2 d Hd2). intros u Hu. unfold carry. f_equal. destruct Hu as [->|K]; auto. apply E2. apply sedge. rewrite G2, Gk in K. auto.
    - intro b. apply (k_nonneg _ _ _ C2 d _ Hd2).
    - intros b Eb. change (fold_right Qcplus 0) with qsum. fold E. rewrite (kdom d) by auto.
      rewrite (qsum_ext _ _ (fun x => kernel k2 d (upd (carry E D b) d x))).
      + unfold D. rewrite <- Dk, <- D2. apply (k_normal _ _ _ C2 d _ Hd2). intros p Hp. rewrite G2, Gk in Hp. rewrite D2, Dk. unfold carry. destruct (sdom p) as (L & _); [apply (sparent p d); auto|]. apply shift_in; [auto|]. apply Eb. apply sedge. auto.
      + intros x Hx. apply (k_local _ _ _ C2 d Hd2). intros w _. rewrite carry_upd. rewrite (kdom d) by auto. rewrite shift_same. auto. }
  rewrite (star_value c k us); auto. rewrite (star_value c2 k2 us); auto; [|congruence|intro v; rewrite D2; auto|].
  - apply (Eq a us c2); auto. split; auto. intros e x Ke Ne _. unfold c2. destruct (String.string_dec e d) as [->|]; auto. exfalso. apply Ne. apply good_listed_decision; [apply good_consistent; apply (sg_consistent _ _ _ _ _ S)|]. apply (sg_decision _ _ _ _ _ S d a). auto.
  - intros v b Hv Wb. unfold star, c2. destruct (in_dec String.string_dec v ds) as [K|K].
    + destruct (String.string_dec v d) as [->|Nv].
      * apply (k_local _ _ _ C2 d Hd2). intros u Hu. rewrite G2, Gk in Hu. symmetry. unfold carry at 1. unfold carry. destruct (sdom u (Ln u Hu)) as (L & N1 & N2). fold (D u) (E u). apply shift_back; auto. apply Wb. apply snode. auto.
      * rewrite (t_kernel _ _ _ T); auto; [|rewrite Gk; auto|intros u Hu; rewrite Dk; apply Wb; rewrite <- Gk; auto]. rewrite Ek by auto. unfold star. destruct (in_dec String.string_dec v ds); [auto|contradiction].
    + assert (Nv : d <> v) by (intros ->; auto). rewrite (t_kernel _ _ _ T); auto; [|rewrite Gk; auto|intros u Hu; rewrite Dk; apply Wb; rewrite <- Gk; auto]. rewrite Ek by auto. unfold star. destruct (in_dec String.string_dec v ds); [contradiction|auto].
Qed.
End Star.

Lemma utility_relevant : forall m a d u, valid m -> no_clash (mgraph m) -> has_role m d (RDecision a) -> has_role m u (RUtility a) -> descends (mgraph m) u d -> r_relevant m d u.
Proof.
  intros m a d u V NC Rd Ru De. assert (W : wf_dag (mgraph m)) by apply V. apply r_relevant_char; auto; [apply (proj2 (proj2 V) a d); left; auto|apply (proj2 (proj2 V) a u); right; auto|].
  exists a, u. split; [auto|]. split; [auto|]. split; auto. apply directed_pend; [apply W|constructor|]. intros x Rx K. destruct De as (w & E & R). apply (proj2 W d). exists w. split; auto. apply (reach_trans _ w u); auto. apply in_family in K. destruct K as [->|K]; auto.
  eapply reach_trans; [exact Rx|]. econstructor; [exact K|constructor].
Qed.

Section Whole.
Variables (m : macid) (n : net) (DS sg : list node) (c c' : behaviour) (a : agent) (us : list node).
Hypothesis V : valid m.
Hypothesis G : mgraph m = ngraph n.
Hypothesis NC : no_clash (mgraph m).
Hypothesis U : utilities_complete m.
Hypothesis Hd : distribution n.
Hypothesis HDS : forall d, In d DS <-> is_decision m d.
Hypothesis Po : policy n DS c.
Hypothesis Lu : lookup a (agent_utilities m) = Some us.
Hypothesis Po' : policy n DS c'.
Hypothesis Dev : forall d x, In d sg -> lookup d (decision_agent m) <> Some a -> within n x -> c' d x = c d x.
(* the decisions B follow c, the others c' *)
Definition hyb (B : list node) : behaviour := fun v x => if in_dec String.string_dec v B then c v x else c' v x.
Lemma hyb_policy : forall B, policy n DS (hyb B).
Proof. intros B d K. unfold hyb. destruct (in_dec String.string_dec d B); [apply Po; auto|apply Po'; auto]. Qed.
Lemma IDS : incl DS (nodes (ngraph n)).
Proof. intros d K. apply HDS in K. rewrite <- G. apply (is_decision_in m d V K). Qed.
Lemma own_utility : NoDup us /\ forall u, In u us <-> has_role m u (RUtility a).
Proof.
  destruct (proj1 (proj2 V)) as (_ & N & _ & _ & Nl & _). split; [apply (Nl a); right; apply (LBase.lookup_In _ _ _ _ Lu)|]. intro u. change (has_role m u (RUtility a)) with (listed (agent_utilities m) a u). rewrite listed_lookup by auto.
  split; [intro K; exists us; auto|]. intros (l & K1 & K2). congruence.
Qed.
Lemma hyb_same : forall B B', (forall d, In d DS -> In d B' -> ~ In d B -> In d sg /\ ~ has_role m d (RDecision a)) -> incl B B' -> value n DS (hyb B) us = value n DS (hyb B') us.
Proof.
  intros B B' H I. apply value_ext. intros d x K Wx. unfold hyb. destruct (in_dec String.string_dec d B) as [K1|K1], (in_dec String.string_dec d B') as [K2|K2]; auto; [exfalso; auto|].
  apply Dev; auto; [apply (H d); auto|]. intro L. apply (H d K K2 K1). apply good_listed_decision; auto. apply good_consistent. apply V.
Qed.
Lemma stage_step : forall before n' l b B, ruled n before n' -> stage m n' l b -> (forall t x, In t (before ++ b) -> within n x -> entry (doms n) t x = c (tvar t) x) ->
  incl l sg -> (forall d, In d l -> is_decision m d) -> incl B (map tvar before) -> (forall v, In v (map tvar before) -> In v DS /\ ~ In v l) ->
  (forall x y, In x l -> is_decision m y -> r_relevant m x y -> In y l \/ In y B) ->
  (forall d d', In d l -> In d' l -> has_role m d (RDecision a) -> has_role m d' (RDecision a) -> d = d') ->
  value n DS (hyb B) us <= value n DS (hyb (B ++ l)) us.
Proof.
  intros before n' l b B Ru (sm & sn & ds & ags & cC & P & Ag & S & I & Pos & Tev & PoC & [Tv Te] & Eq) Ent Ls Hl HB Hb Rel One.
  assert (Gr : good_roles m) by (apply good_consistent; apply V). assert (W : wf_dag (ngraph n)) by apply Hd. assert (Vm : wf_dag (mgraph m)) by apply V. assert (HB' : forall v, In v B -> In v DS /\ ~ In v l) by (intros v K; apply Hb, HB; auto).
  assert (Mem : forall v, In v ds <-> In v l) by (intro v; split; apply Permutation_in; auto using Permutation_sym).
  assert (Hds : forall d, In d ds -> is_decision m d) by (intros d K; apply Hl, Mem; auto).
  destruct (existsb (fun d => match lookup d (decision_agent m) with Some a' => if string_dec a' a then true else false | None => false end) ds) eqn:Ex.
  2:{ rewrite (hyb_same B (B ++ l)); [apply Qcle_refl| |apply incl_appl, incl_refl]. intros d _ K1 K2. apply in_app_or in K1. destruct K1 as [K1|K1]; [contradiction|]. split; [auto|]. intro R. apply Mem in K1. apply good_listed_decision in R; auto.
      assert (X : existsb (fun d => match lookup d (decision_agent m) with Some a' => if string_dec a' a then true else false | None => false end) ds = true); [|congruence]. apply existsb_exists. exists d. split; auto. rewrite R. destruct (string_dec a a); congruence. }
  apply existsb_exists in Ex. destruct Ex as (d & Kd & Ld). destruct (lookup d (decision_agent m)) as [a'|] eqn:La; [|discriminate]. destruct (string_dec a' a) as [->|]; [|discriminate]. clear Ld.
  assert (Rd : has_role m d (RDecision a)) by (apply good_listed_decision; auto). assert (Hdn : In d (nodes (ngraph n))) by (apply IDS, HDS; exists a; auto).
  assert (Ka : In a ags) by (apply Ag; exists d; split; [apply Mem; auto|auto]).
  destruct own_utility as [Nus Ius].
  (* the utilities of a in the subgame *)
  assert (Vs : exists vs, NoDup vs /\ (forall u, In u vs <-> has_role sm u (RUtility a)) /\ (vs = [] \/ lookup a (agent_utilities sm) = Some vs)).
  { destruct (sg_consistent _ _ _ _ _ S) as (_ & N & _ & _ & Nl & _). destruct (lookup a (agent_utilities sm)) as [vs|] eqn:Lv.
    - exists vs. split; [apply (Nl a); right; apply (LBase.lookup_In _ _ _ _ Lv)|]. split; [|right; auto]. intro u. change (has_role sm u (RUtility a)) with (listed (agent_utilities sm) a u). rewrite listed_lookup by auto. rewrite Lv. split; [intro K; exists vs; auto|]. intros (l0 & K1 & K2). congruence.
    - exists []. split; [constructor|]. split; [|left; auto]. intro u. change (has_role sm u (RUtility a)) with (listed (agent_utilities sm) a u). rewrite listed_lookup by auto. rewrite Lv. split; [intros []|]. intros (l0 & K1 & K2). discriminate. }
  destruct Vs as (vs & Nvs & Ivs & Lvs). assert (Rvs : forall u, In u vs <-> (exists e, In e ds /\ r_relevant m e u) /\ has_role m u (RUtility a)) by (intro u; rewrite Ivs; apply (sg_utility _ _ _ _ _ S)).
  assert (Unode : forall u, has_role m u (RUtility a) -> In u (nodes (mgraph m))) by (intros u K; apply (proj2 (proj2 V) a u); right; auto).
  assert (Iv : incl vs (nodes (ngraph sn))). { intros u K. apply Rvs in K. destruct K as ((e & K1 & K2) & K3). apply (relevant_node m n n' before ds sm sn V G NC Ru S I e u K1 K2); auto. }
  set (ud := filter (fun u => mem u (descendants (ngraph n) d)) us). assert (Iud : forall u, In u ud <-> In u us /\ descends (ngraph n) u d). { intro u. unfold ud. rewrite filter_In, mem_In. rewrite descendants_iff; [tauto|apply W|apply W|auto]. }
  (* the networks *)
  set (q := follow_net n DS (hyb B)). set (q1 := follow_net n DS (hyb (B ++ l))). set (k := follow_net n (nodes (ngraph n)) (star m n n' sn ds cC)).
  destruct (follow_net_ok n DS (hyb B) Hd IDS (hyb_policy B)) as (Q1 & Q2 & Q3). fold q in Q1, Q2, Q3.
  destruct (follow_net_ok n DS (hyb (B ++ l)) Hd IDS (hyb_policy (B ++ l))) as (R1 & R2 & R3). fold q1 in R1, R2, R3.
  assert (PoS := star_policy m n n' before ds sm sn V G NC U Hd Ru S I Hds cC PoC). destruct (follow_net_ok n (nodes (ngraph n)) (star m n n' sn ds cC) Hd (incl_refl _) PoS) as (K1 & K2 & K3). fold k in K1, K2, K3.
  assert (Gq : ngraph q = ngraph n) by apply Q2. assert (Gq1 : ngraph q1 = ngraph n) by apply R2. assert (Gk : ngraph k = ngraph n) by apply K2.
  assert (Dq := same_dom_of _ _ (proj1 (proj2 Q2))). assert (Dq1 := same_dom_of _ _ (proj1 (proj2 R2))). assert (Dk := same_dom_of _ _ (proj1 (proj2 K2))).
  assert (Wq : forall x, within q x <-> within n x) by (intro x; unfold within; rewrite Gq; split; intros H v Hv; [rewrite <- Dq|rewrite Dq]; auto).
  assert (Oq : forall v x, ~ In v DS -> kernel q v x = kernel n v x) by (intros v x K; symmetry; apply (kernel_differ (fun v => In v DS)); auto; [apply Hd|apply Q1]).
  assert (Oq1 : forall v x, ~ In v DS -> kernel q1 v x = kernel n v x) by (intros v x K; symmetry; apply (kernel_differ (fun v => In v DS)); auto; [apply Hd|apply R1]).
  (* what c does at the decisions of the stage and before it *)
  set (E := dom_of (doms sn)). set (D := dom_of (doms n)). assert (Sd := sdom m n n' before ds sm sn V G NC U Hd Ru S Hds).
  assert (Cw : forall x, within n x -> within sn (carry D E x)) by (intros x Wx; apply (cwithin m n n' before ds sm sn V G NC U Hd Ru S Hds); intros u Hu; apply Wx; apply (snode m n n' before ds sm sn Hd Ru S u Hu)).
  assert (Cc : forall v x, In v ds -> within n x -> cC v (carry D E x) = c v x).
  { intros v x Kv Wx. rewrite <- Tv in Kv. apply in_map_iff in Kv. destruct Kv as (t & Et & Ht). assert (Kv : In v ds) by (rewrite <- Tv, <- Et; apply in_map; auto). rewrite <- Et at 1. rewrite <- Te; auto.
    rewrite (entry_place (doms n) (doms sn) t x); [rewrite Ent by (auto; apply in_or_app; auto); rewrite Et; auto|].
    intros u Hu. assert (Hs : In u (nodes (ngraph sn))). { destruct Hu as [->|Hu]; [rewrite Et; apply I; auto|]. apply Tev in Hu; auto. rewrite Et in Hu. apply (sg_node _ _ _ _ _ S). exists v. right. apply (sg_edge _ _ _ _ _ S). split; auto. left. auto. }
    destruct (Sd u Hs) as (L & N1 & N2). split; auto. apply place_pos; auto. apply shift_place; auto. apply Wx. apply (snode m n n' before ds sm sn Hd Ru S u Hs). }
  assert (Cb : forall v x, In v B -> within n x -> kernel n' v x = c v x).
  { intros v x Kv Wx. apply HB, in_map_iff in Kv. destruct Kv as (t & <- & Ht). rewrite (ru_rule _ _ _ Ru t x Ht Wx). apply Ent; auto. apply in_or_app. auto. }
  assert (Co : forall v x, In v (nodes (ngraph n)) -> ~ In v (map tvar before) -> within n x -> kernel n' v x = kernel n v x) by (intros; apply (ru_other _ _ _ Ru); auto).
  assert (Own : forall v x, In v l -> v <> d -> within n x -> c' v x = c v x). { intros v x Kv Nv Wx. apply Dev; auto. intro L. apply Nv. apply (One v d); auto; [apply Mem; auto|]. apply good_listed_decision; auto. }
  assert (Dlb : ~ In d B) by (intro K; apply HB' in K; apply K, Mem; auto).
  (* q follows n' at the other nodes that are kept *)
  assert (Qo : forall v x, In v (nodes (ngraph n)) -> ~ In v l -> kept m ds v -> within n x -> kernel q v x = kernel n' v x).
  { intros v x Hv N1 N2 Wx. destruct (in_dec String.string_dec v DS) as [K|K].
    - rewrite Q3 by auto. unfold hyb. destruct (in_dec String.string_dec v B) as [K'|K']; [rewrite Cb; auto|]. exfalso. destruct N2 as [N2|(e & Ke & N2)]; [apply N1, Mem; auto|]. destruct (Rel e v) as [J|J]; auto; [apply Mem; auto|apply HDS; auto].
    - rewrite Oq by auto. symmetry. apply Co; auto. intro K'. apply K. apply Hb. auto. }
  assert (Tq1 : twin (eq d) q q1).
  { constructor; [congruence|intro v; rewrite Dq1, Dq; auto|]. intros v x Hv Nv Wx. rewrite Gq in Hv. apply Wq in Wx. destruct (in_dec String.string_dec v DS) as [K|K]; [|rewrite Oq, Oq1; auto]. rewrite Q3, R3 by auto. unfold hyb.
    destruct (in_dec String.string_dec v B) as [J|J]; [destruct (in_dec String.string_dec v (B ++ l)) as [J'|J']; auto; exfalso; apply J', in_or_app; auto|]. destruct (in_dec String.string_dec v (B ++ l)) as [J'|J']; auto. apply in_app_or in J'. destruct J' as [J'|J']; [contradiction|]. symmetry. apply Own; auto. }
  assert (Vq : eu q us = value n DS (hyb B) us). { apply follow_value; auto. intros u Hu. rewrite <- G. apply Unode, Ius; auto. }
  assert (Vq1 : eu q1 us = value n DS (hyb (B ++ l)) us). { apply follow_value; auto. intros u Hu. rewrite <- G. apply Unode, Ius; auto. }
  rewrite <- Vq, <- Vq1. set (SS := filter (fun v => negb (keptb m ds v)) (nodes (ngraph n))).
  assert (ISS : forall s, In s SS -> In s (nodes (ngraph n)) /\ ~ r_relevant m d s).
  { intros s K. apply filter_In in K. destruct K as [K K']. split; auto. intro R. apply negb_true_iff in K'. assert (X : keptb m ds s = true); [|congruence]. apply keptb_iff; auto; [rewrite G; auto|]. right. exists d. auto. }
  destruct (mech_exists (ngraph n) W ltac:(rewrite <- G; auto)) as [hg Mg].
  apply (respond q q1 k SS us vs ud d hg); auto; try (rewrite Gq; solve [auto]).
  - rewrite Gq, <- G. auto.
  - (* twin q k *) constructor; [congruence|intro v; rewrite Dk, Dq; auto|]. intros v x Hv Nv Wx. rewrite Gq in Hv. apply Wq in Wx. assert (Nd : v <> d) by (intro; apply Nv; auto). assert (Ns : ~ In v SS) by (intro; apply Nv; auto). clear Nv.
    assert (Kv : keptb m ds v = true). { destruct (keptb m ds v) eqn:Ek; auto. exfalso. apply Ns. apply filter_In. rewrite Ek. auto. }
    rewrite K3 by auto. unfold star. rewrite Kv. destruct (in_dec String.string_dec v ds) as [J|J].
    + rewrite Cc by auto. rewrite Q3 by (auto; apply HDS; auto). unfold hyb. destruct (in_dec String.string_dec v B); auto. symmetry. apply Own; auto. apply Mem; auto.
    + symmetry. apply Qo; auto; [intro K; apply J, Mem; auto|]. apply keptb_iff; auto. rewrite G. auto.
  - intros s K. rewrite Gq. apply ISS; auto.
  - intros x Wx. apply Wq in Wx. rewrite K3 by auto. rewrite R3 by (auto; apply HDS; exists a; auto). unfold hyb, star. destruct (in_dec String.string_dec d ds); [|contradiction]. rewrite Cc by auto. destruct (in_dec String.string_dec d (B ++ l)) as [J|J]; auto. exfalso. apply J, in_or_app. right. apply Mem; auto.
  - (* support *) intros v x Hv Nd Wx Z. rewrite Gq in Hv. apply Wq in Wx. rewrite K3 in Z by auto. unfold star in Z. assert (Wx' : within n' x) by (eapply swithin; eauto). assert (Hv' : In v (nodes (ngraph n'))) by (eapply rnodes; eauto).
    destruct (in_dec String.string_dec v ds) as [J|J].
    + rewrite Cc in Z by auto. rewrite Q3 by (auto; apply HDS; auto). unfold hyb. destruct (in_dec String.string_dec v B); auto. rewrite Own; auto. apply Mem; auto.
    + assert (Vm' : In v (nodes (mgraph m))) by (rewrite G; auto). destruct (keptb m ds v) eqn:Ek; [rewrite Qo; auto; [intro K; apply J, Mem; auto|apply keptb_iff; auto]|]. assert (Nk : ~ kept m ds v) by (intro K; apply keptb_iff in K; auto; congruence). exfalso.
      destruct (in_dec String.string_dec v (nodes (ngraph sn))) as [Js|Js]; [|revert Z; apply even_pos; apply dist_lookup; auto; apply Ru].
      apply (Pos v (carry D E x) Js Nk); auto.
  - intros u Hu. rewrite Gq, <- G. apply Unode, Ius; auto.
  - intro K. apply Ius in K. destruct (proj2 (proj2 (proj2 (proj2 (proj2 (proj1 (proj2 V)))))) d) as (r & X1 & _). apply X1 in K. apply X1 in Rd. congruence.
  - intros u Hu. rewrite Gq. apply (snode m n n' before ds sm sn Hd Ru S). auto.
  - intro K. apply Rvs in K. destruct K as [_ K]. destruct (proj2 (proj2 (proj2 (proj2 (proj2 (proj1 (proj2 V)))))) d) as (r & X1 & _). apply X1 in K. apply X1 in Rd. congruence.
  - apply NoDup_filter. auto.
  - intro u. rewrite Gq, Iud, Rvs, Ius. split; intros [X1 X2]; split; auto; [|apply X1]. split; auto. exists d. split; auto. apply (utility_relevant m a); auto. rewrite G. auto.
  - intros s u Hs Hu K. destruct (ISS s Hs) as [Hsn Ns]. apply Ns. apply Iud in Hu. destruct Hu as [Hu De]. rewrite Gq in K. apply r_relevant_char; rewrite ?G; auto; [rewrite <- G; auto|]. exists a, u. split; [auto|]. split; [apply Ius; auto|]. split; auto.
    apply (pendant_dconn hg (ngraph n) (mec s) s); auto; [apply pendant_mech; auto; rewrite <- G; auto; apply Vm|apply W|apply family_nodes; auto; apply W|rewrite <- G; apply Unode; apply Ius; auto].
  - destruct Lvs as [->|Lvs]; [intros k2 _ _; apply Qcle_refl|]. apply (stage_best m n n' before ds sm sn V G NC U Hd Ru S I Hds cC ags a d vs k); auto.
    intros u Hu. split; auto. right. apply Rvs in Hu. apply Hu.
Qed.
Lemma hyb_ext : forall B B', (forall d, In d B <-> In d B') -> value n DS (hyb B) us = value n DS (hyb B') us.
Proof. intros B B' H. apply hyb_same; [intros d _ K1 K2; exfalso; apply K2, H; auto|intros d K; apply H; auto]. Qed.
Definition insg (v : node) : bool := mem v sg.
Lemma staged_best : forall ls before p, staged m n ls before p -> (forall t x, In t (before ++ p) -> within n x -> entry (doms n) t x = c (tvar t) x) ->
  NoDup (map tvar before ++ concat ls) -> (forall v, In v DS <-> In v (map tvar before) \/ In v (concat ls)) ->
  (forall l, In l ls -> incl l sg \/ forall d, In d l -> ~ In d sg) ->
  (forall x y, In x sg -> is_decision m y -> r_relevant m x y -> In y sg) ->
  (forall pre l post x y, ls = pre ++ l :: post -> In x l -> In y (concat post) -> ~ r_relevant m x y) ->
  (forall l d d', In l ls -> In d l -> In d' l -> has_role m d (RDecision a) -> has_role m d' (RDecision a) -> d = d') ->
  value n DS (hyb (filter insg (map tvar before))) us <= value n DS (hyb (filter insg (map tvar before ++ concat ls))) us.
Proof.
  intros ls before p Sg. induction Sg as [before|l ls before b p n' Ru St Sg IH]; intros Ent N Mem Cut Clo Ord One; cbn [concat] in *; [rewrite app_nil_r; apply Qcle_refl|].
  assert (Pb : Permutation (map tvar b) l). { destruct St as (sm & sn & ds & ags & cC & P & _ & _ & _ & _ & _ & _ & [Tv _] & _). rewrite Tv. auto. }
  assert (Tb : forall v, In v (map tvar b) <-> In v l) by (intro v; split; apply Permutation_in; auto using Permutation_sym).
  assert (R : value n DS (hyb (filter insg (map tvar (before ++ b)))) us <= value n DS (hyb (filter insg (map tvar before ++ l ++ concat ls))) us).
  { rewrite (hyb_ext (filter insg (map tvar before ++ l ++ concat ls)) (filter insg (map tvar (before ++ b) ++ concat ls))).
    2:{ intro v. rewrite !filter_In, map_app, !in_app_iff, Tb. tauto. }
    apply IH; auto.
    - intros t x K. apply Ent. rewrite app_assoc. auto.
    - rewrite map_app, <- app_assoc. eapply Permutation_NoDup; [|exact N]. apply Permutation_app_head, Permutation_app_tail, Permutation_sym. auto.
    - intro v. rewrite Mem, map_app, !in_app_iff, Tb. tauto.
    - intros l' K. apply Cut. right. auto.
    - intros pre l' post x y E. apply (Ord (l :: pre) l' post). rewrite E. auto.
    - intros l' d d' K. apply (One l'). right. auto. }
  eapply Qcle_trans; [|exact R]. clear R IH. destruct (Cut l (or_introl eq_refl)) as [Ls|Ls].
  - rewrite (hyb_ext (filter insg (map tvar (before ++ b))) (filter insg (map tvar before) ++ l)).
    2:{ intro v. rewrite map_app, in_app_iff, !filter_In, in_app_iff, Tb. unfold insg. rewrite mem_In. split; [tauto|]. intros [K|K]; [tauto|auto]. }
    apply (stage_step before n' l b); auto.
    + intros t x K Wx. apply Ent; auto. rewrite app_assoc. apply in_or_app. left. auto.
    + intros d K. apply HDS, Mem. right. apply in_or_app. auto.
    + intros v K. apply filter_In in K. tauto.
    + intros v K. split; [apply Mem; auto|]. intro K'. apply NoDup_app_inv in N. apply (proj2 (proj2 N) v); auto. apply in_or_app. auto.
    + intros x y Kx Dy Rl. assert (Ky := proj1 (Mem y) (proj2 (HDS y) Dy)). rewrite in_app_iff in Ky. destruct Ky as [Ky|[Ky|Ky]]; [|auto|exfalso; apply (Ord [] l ls x y); auto]. right. apply filter_In. split; auto. apply mem_In. apply (Clo x y); auto.
    + intros d d'. apply (One l). left. auto.
  - rewrite (hyb_ext (filter insg (map tvar (before ++ b))) (filter insg (map tvar before))); [apply Qcle_refl|].
    intro v. rewrite map_app, !filter_In, in_app_iff, Tb. unfold insg. rewrite mem_In. split; [|tauto]. intros [[K|K] K']; [auto|]. exfalso. apply (Ls v); auto.
Qed.
End Whole.

(* the rules of a stage as behaviour in the whole diagram *)
Lemma stage_policy : forall m n before n' l b, valid m -> mgraph m = ngraph n -> no_clash (mgraph m) -> utilities_complete m -> distribution n ->
  ruled n before n' -> (forall d, In d l -> is_decision m d) -> stage m n' l b ->
  exists c, policy n l c /\ Permutation (map tvar b) l /\ forall t x, In t b -> within n x -> entry (doms n) t x = c (tvar t) x.
Proof.
  intros m n before n' l b V G NC U Hd Ru Hl (sm & sn & ds & ags & cC & P & Ag & S & I & _ & Tev & PoC & [Tv Te] & Eq).
  assert (Mem : forall v, In v ds <-> In v l) by (intro v; split; apply Permutation_in; auto using Permutation_sym).
  assert (Hds : forall d, In d ds -> is_decision m d) by (intros d K; apply Hl, Mem; auto).
  assert (Sd := sdom m n n' before ds sm sn V G NC U Hd Ru S Hds). set (D := dom_of (doms n)). set (E := dom_of (doms sn)).
  assert (Se : forall d u, In d ds -> (edge (ngraph sn) u d <-> edge (ngraph n) u d)). { intros d u K. rewrite (sg_edge _ _ _ _ _ S). rewrite (ru_edges _ _ _ Ru). split; [tauto|]. intro; split; auto. left. auto. }
  assert (Pn : forall d u, In d ds -> edge (ngraph n) u d -> In u (nodes (ngraph sn))). { intros d u K X. apply (sg_node _ _ _ _ _ S). exists d. right. apply Se; auto. }
  exists (fun v x => cC v (carry D E x)). split; [|split; [rewrite Tv; auto|]].
  - intros d K. apply Mem in K. destruct (PoC d K) as (X1 & X2 & X3). split; [|split; auto].
    + intros x x' E1 E2. apply X1; [unfold carry; rewrite E1; auto|]. intros u Eu. unfold carry. rewrite E2; auto. apply Se in Eu; auto.
    + intros x Hx. change (fold_right Qcplus 0) with qsum. fold D. change (qsum (map (fun y => cC d (carry D E (upd x d y))) (D d)) = 1).
      eapply eq_trans; [apply (carry_sum m n n' before ds sm sn V G NC U Hd Ru S Hds (cC d) d x); auto; intros y y' Ey; apply X1; auto|]. apply X3. intros u Eu. apply Se in Eu; auto. unfold carry. apply shift_in; [apply Sd; eauto|apply Hx; auto].
  - intros t x Ht Wx. assert (Kv : In (tvar t) ds) by (rewrite <- Tv; apply in_map; auto). rewrite <- Te; auto.
    + symmetry. apply entry_place. intros u Hu. assert (Hs : In u (nodes (ngraph sn))) by (destruct Hu as [->|Hu]; [auto|apply (Pn (tvar t)); auto; apply (ru_edges _ _ _ Ru); apply Tev; auto]).
      destruct (Sd u Hs) as (L & N1 & N2). split; auto. apply place_pos; auto. apply shift_place; auto. apply Wx. apply (snode m n n' before ds sm sn Hd Ru S u Hs).
    + apply (cwithin m n n' before ds sm sn V G NC U Hd Ru S Hds). intros u Hu. apply Wx. apply (snode m n n' before ds sm sn Hd Ru S u Hu).
Qed.
Lemma staged_policy : forall m n ls before p, valid m -> mgraph m = ngraph n -> no_clash (mgraph m) -> utilities_complete m -> distribution n ->
  staged m n ls before p -> NoDup (concat ls) -> (forall d, In d (concat ls) -> is_decision m d) ->
  exists c, policy n (concat ls) c /\ Permutation (map tvar p) (concat ls) /\ forall t x, In t p -> within n x -> entry (doms n) t x = c (tvar t) x.
Proof.
  intros m n ls before p V G NC U Hd Sg. induction Sg as [before|l ls before b p n' Ru St Sg IH]; intros N Hls.
  - exists (fun _ _ => 0). split; [intros d []|]. split; [constructor|intros t x []].
  - cbn [concat] in *. destruct (NoDup_app_inv _ _ _ N) as (N1 & N2 & N3). destruct IH as (c & C1 & C2 & C3); auto; [intros d K; apply Hls, in_or_app; auto|].
    destruct (stage_policy m n before n' l b V G NC U Hd Ru) as (c0 & D1 & D2 & D3); auto; [intros d K; apply Hls, in_or_app; auto|].
    exists (fun v x => if in_dec String.string_dec v l then c0 v x else c v x). split; [|split].
    + intros d K. destruct (in_dec String.string_dec d l) as [J|J]; [apply D1; auto|apply C1]. apply in_app_or in K. destruct K; [contradiction|auto].
    + rewrite map_app. apply Permutation_app; auto.
    + intros t x K Wx. apply in_app_or in K. destruct K as [K|K].
      * destruct (in_dec String.string_dec (tvar t) l) as [J|J]; [apply D3; auto|]. exfalso. apply J. apply (Permutation_in _ D2). apply in_map. auto.
      * destruct (in_dec String.string_dec (tvar t) l) as [J|J]; [|apply C3; auto]. exfalso. apply (N3 (tvar t)); auto. apply (Permutation_in _ C2). apply in_map. auto.
Qed.
