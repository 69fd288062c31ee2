(* C78: r-reachability and s-reachability are sound and complete for strategic relevance. *)
From Coq Require Import String List Bool Arith QArith Qcanon Lia Permutation.
Import ListNotations.
From Verif Require Import MBase MGraph MMacid MCpd MNet MProb MQuery MPolicy MVoi Spec SpecM SpecC SpecN SpecQ SpecPol SpecVoi SpecGen LBase LGraph LDfs LPaths LQc LCpd LNet LSum LBayes LSep LQuery LDo LInter LEdit LBuilt LTotal LRoles LReach LTrim LActive LMech LPolicy LValue LQcArith LSearch LLike LOptimal LOptDec LBest LSolve LRespond LIndep PMacid PPolicy POptDec PSolve LVoi LVoc LReq LWhole PGen PComplete LControl LRely.
Local Open Scope string_scope.
Local Open Scope list_scope.
Local Open Scope Qc_scope.

Lemma policy_like : forall n n' ds b, ngraph n' = ngraph n -> (forall v, dom_of (doms n') v = dom_of (doms n) v) -> policy n ds b -> policy n' ds b.
Proof.
  intros n n' ds b G D P d Hd. destruct (P d Hd) as (P1 & P2 & P3). split; [intros a a' E H; apply P1; auto; intros p Hp; apply H; rewrite G; auto|]. split; auto. intros a H. rewrite D. apply P3. intros p Hp. rewrite <- D. apply H. rewrite G; auto.
Qed.
(* the even distribution is a policy *)
Lemma even_policy : forall n v, distribution n -> In v (nodes (ngraph n)) -> policy n [v] (fun x _ => 1 / Qc_of_nat (length (dom_of (doms n) x))).
Proof.
  intros n v Hd Hv e [<-|[]]. assert (Ne : dom_of (doms n) v <> []) by (apply (dist_lookup n v Hd Hv)).
  split; auto. split; [intros _; apply even_pos; auto|]. intros a _. apply even_normal; auto.
Qed.
(* a best rule of d *)
Lemma best_rule : forall n us d, distribution n -> incl us (nodes (ngraph n)) -> In d (nodes (ngraph n)) ->
  exists b k, policy n [d] b /\ distribution k /\ differ_in (fun v => In v [d]) n k /\ (forall a, within n a -> kernel k d a = b d a) /\ forall k2, distribution k2 -> twin (eq d) k k2 -> eu k2 us <= eu k us.
Proof.
  intros n us d Hd Iu Hn. set (h := fun pv => top (pay n us d pv) (dom_of (doms n) d)). assert (Ne : dom_of (doms n) d <> []) by (apply (dist_lookup n d Hd Hn)).
  assert (Ch : choice_function n d h) by (intros pv _; apply (proj1 (top_spec (pay n us d pv) _ Ne))). set (H := fun (e : node) a => h (ctx a (parents (ngraph n) e))).
  assert (Cc : choice n [d] H) by (apply (obeyed_choice n [d] (fun _ => h)); auto; intros e [<-|[]]; auto).
  assert (Pp : policy n [d] (pure H)) by (apply pure_policy; auto; intros e [<-|[]]; auto).
  destruct (follow_net_ok n [d] (pure H) Hd) as (Hk & Df & Kk); auto; [intros e [<-|[]]; auto|]. set (k := follow_net n [d] (pure H)) in *.
  assert (Gk : ngraph k = ngraph n) by apply Df. assert (Dk := same_dom_of n k (proj1 (proj2 Df))).
  exists (pure H), k. split; auto. split; auto. split; auto. split; [intros a Wa; apply Kk; [left; auto|auto]|].
  intros k2 Hk2 T. assert (Gt := t_graph _ _ _ T). assert (Dt := t_dom _ _ _ T).
  assert (Tn : twin (eq d) n k2). { apply (twin_trans _ n k k2); auto. apply differ_twin; auto. destruct Df as (F1 & F2 & F3). split; auto. split; auto. intros v t Nv. apply F3. intros [E|[]]. auto. }
  apply (best_response k2 k us d h); auto.
  - apply twin_sym; auto.
  - rewrite Gt, Gk. auto.
  - rewrite Gt, Gk. auto.
  - intros pv Hc. rewrite Dt, Dk. apply (proj1 (top_spec (pay n us d pv) _ Ne)).
  - intros a Wa. rewrite Kk; [|left; auto|intros v Hv; rewrite <- Dk; apply Wa; rewrite Gk; auto]. unfold pure, H. rewrite Gk. reflexivity.
  - intros pv x _ Hx _. rewrite !(twin_pay n k2 us d pv _ Tn). apply (proj2 (top_spec (pay n us d pv) _ Ne)). rewrite Dt, Dk in Hx. auto.
Qed.

(* ---- C78 ---- *)
(* where the test says no, whatever the tables some rule of d is best whatever the conditional probabilities of v are *)
Theorem C78_irrelevant : forall m n a d us v, valid m -> no_clash (mgraph m) -> utilities_complete m -> has_role m d (RDecision a) ->
  NoDup us -> (forall u, In u us <-> has_role m u (RUtility a)) -> In v (nodes (mgraph m)) -> v <> d ->
  is_r_reachable m [d] [v] = Ok false -> distribution n -> ngraph n = mgraph m ->
  exists b, policy n [d] b /\ forall n' b', distribution n' -> differ_in (fun x => x = v) n n' -> policy n [d] b' -> value n' [d] b' us <= value n' [d] b us.
Proof.
  intros m n a d us v V NC U Rd Nu Iu Hv Nvd E Hd G. assert (W : wf_dag (mgraph m)) by apply V. assert (Hdn : In d (nodes (ngraph n))) by (rewrite G; apply (proj2 (proj2 V) a d); left; auto). assert (Hvn : In v (nodes (ngraph n))) by (rewrite G; auto).
  assert (Ius : incl us (nodes (ngraph n))) by (intros u Hu; rewrite G; apply Iu in Hu; apply (proj2 (proj2 V) a u); right; auto).
  assert (Nr : ~ r_relevant m d v). { destruct (C17_r_reachable m [d] [v] V NC U) as (b & E' & R); [intros e [<-|[]]; eauto|intros e [<-|[]]; auto|]. rewrite E in E'. injection E' as <-. intro K. assert (X : false = true) by (apply R; exists d, v; split; [left|split; [left|]]; auto). discriminate. }
  assert (Cm : consistent m) by apply V. assert (Dnu : ~ In d us). { intro K. apply Iu in K. destruct (proj2 (proj2 (proj2 (proj2 (proj2 Cm)))) d) as (r & R1 & _). assert (X1 := proj1 (R1 _) Rd). assert (X2 := proj1 (R1 _) K). congruence. }
  set (e := fun (x : node) (_ : asg) => 1 / Qc_of_nat (length (dom_of (doms n) x))).
  destruct (follow_net_ok n [v] e Hd) as (H0 & D0 & K0); [intros x [<-|[]]; auto|apply even_policy; auto|]. set (n0 := follow_net n [v] e) in *. assert (G0 : ngraph n0 = ngraph n) by apply D0. assert (Dm0 := same_dom_of n n0 (proj1 (proj2 D0))).
  destruct (best_rule n0 us d H0) as (b & k & Pb & Hk & Dk & Kk & Best); [rewrite G0; auto|rewrite G0; auto|].
  assert (Pn : policy n [d] b) by (apply (policy_like n0 n); auto). exists b. split; auto. intros n' b' Hn' Df Pb'. assert (G' : ngraph n' = ngraph n) by apply Df. assert (D' := same_dom_of n n' (proj1 (proj2 Df))).
  assert (Inc : incl [d] (nodes (ngraph n'))) by (intros x [<-|[]]; rewrite G'; auto).
  destruct (follow_net_ok n' [d] b' Hn' Inc) as (Hq & Dq & Kq); [apply (policy_like n n'); auto|]. destruct (follow_net_ok n' [d] b Hn' Inc) as (Hq1 & Dq1 & Kq1); [apply (policy_like n n'); auto|]. set (q := follow_net n' [d] b') in *. set (q1 := follow_net n' [d] b) in *.
  assert (Gq : ngraph q = ngraph n') by apply Dq. assert (Dmq := same_dom_of n' q (proj1 (proj2 Dq))).
  rewrite <- (follow_value n' q [d] b' us), <- (follow_value n' q1 [d] b us); auto; try (rewrite G'; auto).
  assert (Wn : forall x, within q x -> within n' x /\ within n x /\ within n0 x). { intros x Wx. assert (A1 : within n' x) by (intros y Hy; rewrite <- Dmq; apply Wx; rewrite Gq; auto). assert (A2 : within n x) by (intros y Hy; rewrite <- D'; apply A1; rewrite G'; auto). split; [exact A1|split; [exact A2|]]. intros y Hy. rewrite Dm0. apply A2. rewrite <- G0. exact Hy. }
  assert (Fq : differ_in (fun x => x = d \/ In x [v]) q k).
  { apply (differ_trans (fun x => In x [d]) (fun x => x = d \/ In x [v]) _ q n' k); [apply differ_sym; auto| |intros x [[->|[]]|K]; auto]. apply (differ_trans (fun x => x = v) (fun x => x = d \/ In x [v]) _ n' n k); [apply differ_sym; auto| |intros x [->|K]; auto; right; left; auto].
    apply (differ_trans (fun x => In x [v]) (fun x => In x [d]) _ n n0 k); auto. intros x [K|[->|[]]]; auto. }
  set (ud := filter (fun u => mem u (descendants (mgraph m) d)) us). assert (Hdm : In d (nodes (mgraph m))) by (rewrite <- G; auto). assert (Iud : forall u, In u ud <-> In u us /\ descends (mgraph m) u d). { intro u. unfold ud. rewrite filter_In, mem_In. rewrite descendants_iff; [tauto|apply W|apply W|auto]. }
  assert (Gm : ngraph q = mgraph m) by (rewrite Gq, G'; auto). destruct (mech_exists (mgraph m) W NC) as [hg Mg].
  apply (respond q q1 k [v] us us ud d hg); auto; try (rewrite Gm; auto).
  - apply differ_twin; auto.
  - apply differ_twin; auto. apply (differ_trans (fun x => In x [d]) (fun x => In x [d]) _ q n' q1); [apply differ_sym; auto|auto|]. intros x [[->|[]]|[->|[]]]; auto.
  - intros x [<-|[]]; auto.
  - intros x Wx. destruct (Wn x Wx) as (A1 & A2 & A3). rewrite Kk, Kq1; auto. left; auto.
  - intros x y Hx Nx Wy Z. destruct (Wn y Wy) as (A1 & A2 & A3). destruct (String.string_dec x v) as [->|Nxv].
    + exfalso. assert (X : kernel k v y = e v y). { rewrite <- (K0 v y); [|left; auto|auto]. symmetry. apply (kernel_differ (fun x => In x [d]) n0 k); auto; [apply H0|apply Hk|intros [E'|[]]; auto]. } rewrite X in Z. unfold e in Z. destruct (even_pos (dom_of (doms n) v)) as [_ X2]; [apply (dist_lookup n v Hd Hvn)|]. contradiction.
    + rewrite <- Z. apply (kernel_differ (fun x => x = d \/ In x [v]) q k); auto; [apply Hq|apply Hk|]. intros [E'|[E'|[]]]; auto.
  - rewrite <- G. auto.
  - rewrite <- G. auto.
  - unfold ud. apply NoDup_filter. auto.
  - intros s u [<-|[]] Hu K. apply Nr. apply r_relevant_char; auto. apply Iud in Hu. exists a, u. split; auto. split; [apply Iu; apply Hu|]. split; [apply Hu|].
    apply (pendant_dconn hg (mgraph m) (mec v) v); auto; [apply pendant_mech; auto; apply W|apply W|apply family_nodes; auto; apply W|eapply wf_reach; [apply W|apply descends_reach; apply Hu|auto]].
Qed.
Print Assumptions C78_irrelevant.
(* where the test says yes there are tables, entered with add_cpds, for which no rule of d is best for all conditional probabilities of v: every rule
   is worse by 1/4 than another one for some of them *)
Theorem C78_relevant : forall m a d us v, valid m -> no_clash (mgraph m) -> utilities_complete m -> has_role m d (RDecision a) ->
  NoDup us -> (forall u, In u us <-> has_role m u (RUtility a)) -> In v (nodes (mgraph m)) -> v <> d ->
  is_r_reachable m [d] [v] = Ok true ->
  exists l n, (forall x r, In (x, r) l -> admissible x r) /\ add_cpds (bare (mgraph m)) l = (n, None) /\ built n /\ distribution n /\ ngraph n = mgraph m /\
    forall b, policy n [d] b -> exists n' b', distribution n' /\ differ_in (fun x => x = v) n n' /\ policy n [d] b' /\
      value n' [d] b us + Q2Qc (1 # 4) <= value n' [d] b' us.
Proof.
  intros m ag d us v V NC U Rd Nu Iu Hv Nvd E. assert (W : wf_dag (mgraph m)) by apply V. assert (Hd : In d (nodes (mgraph m))) by (apply (proj2 (proj2 V) ag d); left; auto). assert (Cm : consistent m) by apply V.
  assert (Ius : incl us (nodes (mgraph m))) by (intros u Hu; apply Iu in Hu; apply (proj2 (proj2 V) ag u); right; auto).
  assert (Rr : r_relevant m d v). { destruct (C17_r_reachable m [d] [v] V NC U) as (b & E' & R); [intros e [<-|[]]; eauto|intros e [<-|[]]; auto|]. rewrite E in E'. injection E' as <-. destruct (proj1 R eq_refl) as (d' & v' & [<-|[]] & [<-|[]] & K). exact K. }
  destruct Rr as (a' & u & w & Ra & Ru & Du & Hw & Z & Hz & Dc). assert (Ea : a' = ag). { destruct (proj2 (proj2 (proj2 (proj2 (proj2 Cm)))) d) as (r & R1 & _). assert (X1 := proj1 (R1 (RDecision a')) Ra). assert (X2 := proj1 (R1 _) Rd). congruence. } subst a'.
  set (g := mgraph m) in *. destruct (relevant_reliant g d v u w us Z W Hd Hv Nvd Hw Nu (proj2 (Iu u) Ru) Ius Du Hz Dc) as (D & Y & K & bw & Vl & NeY & Cd & Same & Rb & Gap).
  destruct Y as [|y0 Y]; [congruence|]. assert (Hy0 : In y0 (y0 :: Y)) by (left; auto).
  destruct (C73 g D (K y0) [d] W Vl (Cd y0 Hy0)) as (l & n & Hl & El & Bn & Dn & Eg & Pm & Kn & _).
  assert (Dr : forall b, policy n [d] b <-> rules g d D b).
  { intro b. assert (X : rule_seeing n d (fun p => edge (ngraph n) p d) b <-> rules g d D b). { rewrite (dom_ruled n g D d (fun p => edge (ngraph n) p d) b Eg Hd Pm) by (intros p E'; rewrite Eg in E'; apply (proj1 W) in E'; tauto). rewrite Eg. unfold rules. tauto. }
    rewrite <- X. split; [intro P; apply (P d); left; auto|intros P e [<-|[]]; exact P]. }
  exists l, n. split; auto. split; auto. split; auto. split; auto. split; auto. intros b Pb. destruct (Gap b (proj1 (Dr b) Pb)) as (y & Hy & Ly).
  assert (Pv : policy n [v] (K y)). { intros e [<-|[]]. destruct (Cd y Hy) as (C1 & C2 & C3). apply (dom_ruled n g D v (fun p => edge (ngraph n) p v) (K y) Eg Hv Pm); [intros p E'; rewrite Eg in E'; apply (proj1 W) in E'; tauto|]. rewrite Eg. split; [intros x x' E1 E2; apply C1; auto|]. split; [intro x; apply C2; auto|]. intros x H. apply C3; auto. }
  destruct (follow_net_ok n [v] (K y) Dn) as (Dn' & Df & Kv); auto; [intros e [<-|[]]; rewrite Eg; auto|]. set (n' := follow_net n [v] (K y)) in *. assert (G' : ngraph n' = ngraph n) by apply Df. assert (D' := same_dom_of n n' (proj1 (proj2 Df))).
  exists n', (bw y). split; auto. split; [destruct Df as (F1 & F2 & F3); split; auto; split; auto; intros x t Nx; apply F3; intros [E'|[]]; auto|]. split; [apply Dr; auto|].
  assert (Val : forall c, value n' [d] c us = pays g us D (with_rule (K y) d c)).
  { intro c. unfold pays. rewrite value_weight, G', Eg. rewrite (total_dom_perm _ D) by (intros x Hx; rewrite D'; auto). apply total_ext_in. intros x Wx _. f_equal. unfold weight. apply qprod_ext. intros z Hz'. assert (Wn : within n x) by (intros q Hq; rewrite Eg in Hq; eapply Permutation_in; [apply Permutation_sym; apply Pm; auto|auto]).
    unfold follow, with_rule. destruct (in_dec String.string_dec z [d]) as [[E'|[]]|N]; destruct (String.string_dec z d) as [E2|E2]; try congruence; try (exfalso; apply N; left; congruence).
    destruct (String.string_dec z v) as [->|Nz]; [apply Kv; [left; auto|auto]|]. rewrite <- (kernel_differ (fun x => In x [v]) n n' z x); [|apply Dn|apply Dn'|auto|intros [E'|[]]; auto]. rewrite Kn by auto. apply Same; auto. }
  rewrite !Val. exact Ly.
Qed.
Print Assumptions C78_relevant.
(* r-reachability of v from d decides whether the best rule of d can depend on the conditional probabilities of v *)
Theorem C78_exact : forall m a d us v, valid m -> no_clash (mgraph m) -> utilities_complete m -> has_role m d (RDecision a) ->
  NoDup us -> (forall u, In u us <-> has_role m u (RUtility a)) -> In v (nodes (mgraph m)) -> v <> d ->
  (is_r_reachable m [d] [v] = Ok true <->
   exists n, distribution n /\ ngraph n = mgraph m /\
     forall b, policy n [d] b -> exists n' b', distribution n' /\ differ_in (fun x => x = v) n n' /\ policy n [d] b' /\ value n' [d] b us < value n' [d] b' us).
Proof.
  intros m a d us v V NC U Rd Nu Iu Hv Nvd. split.
  - intro E. destruct (C78_relevant m a d us v V NC U Rd Nu Iu Hv Nvd E) as (l & n & _ & _ & _ & Dn & Eg & H). exists n. split; auto. split; auto. intros b Pb. destruct (H b Pb) as (n' & b' & H1 & H2 & H3 & H4). exists n', b'. split; auto. split; auto. split; auto.
    eapply Qclt_le_trans; [|exact H4]. generalize (value n' [d] b us). intro q. apply Qclt_minus_iff. replace (q + Q2Qc (1 # 4) + - q) with (Q2Qc (1 # 4)) by ring. reflexivity.
  - intros (n & Dn & Eg & H). destruct (C17_r_reachable m [d] [v] V NC U) as (b & E' & _); [intros e [<-|[]]; eauto|intros e [<-|[]]; auto|]. destruct b; auto. exfalso.
    destruct (C78_irrelevant m n a d us v V NC U Rd Nu Iu Hv Nvd E' Dn Eg) as (b & Pb & Opt). destruct (H b Pb) as (n' & b' & H1 & H2 & H3 & H4). exact (Qclt_not_le _ _ H4 (Opt n' b' H1 H2 H3)).
Qed.
Print Assumptions C78_exact.
(* the same for two decisions, of one agent or of two: the arcs of the relevance graph *)
Theorem C78_strategic : forall m a d us e c, valid m -> no_clash (mgraph m) -> utilities_complete m -> has_role m d (RDecision a) -> has_role m e (RDecision c) ->
  NoDup us -> (forall u, In u us <-> has_role m u (RUtility a)) -> e <> d ->
  (is_s_reachable m [d] e = Ok true <->
   exists n, distribution n /\ ngraph n = mgraph m /\
     forall b, policy n [d] b -> exists n' b', distribution n' /\ differ_in (fun x => x = e) n n' /\ policy n [d] b' /\ value n' [d] b us < value n' [d] b' us).
Proof.
  intros m a d us e c V NC U Rd Re Nu Iu Ne. assert (He : In e (nodes (mgraph m))) by (apply (proj2 (proj2 V) c e); left; auto). rewrite <- (C78_exact m a d us e V NC U Rd Nu Iu He Ne).
  destruct (C17_s_reachable m [d] e V NC U) as [S _]; [intros x [<-|[]]; eauto|]. destruct (S (ex_intro _ c Re)) as (b & Eb & Rb). destruct (C17_r_reachable m [d] [e] V NC U) as (b' & Eb' & Rb'); [intros x [<-|[]]; eauto|intros x [<-|[]]; auto|]. rewrite Eb, Eb'.
  assert (X : b = true <-> b' = true). { rewrite Rb, Rb'. split; [intros (x & K1 & K2); exists x, e; split; auto; split; [left|]; auto|intros (x & y & K1 & [<-|[]] & K2); eauto]. }
  destruct b, b'; split; intro K; auto; try (injection K as K); try (assert (Y := proj1 X eq_refl); discriminate); try (assert (Y := proj2 X eq_refl); discriminate); discriminate.
Qed.
Print Assumptions C78_strategic.
(* in ex12 the utility of b is a common child of D and E: how D is played matters for E, but not conversely *)
Example C78_example : valid ex12 /\ no_clash (mgraph ex12) /\ utilities_complete ex12 /\ has_role ex12 "D" (RDecision "a") /\ has_role ex12 "E" (RDecision "b") /\
  (forall u, In u ["U"] <-> has_role ex12 u (RUtility "a")) /\ (forall u, In u ["V"] <-> has_role ex12 u (RUtility "b")) /\
  is_r_reachable ex12 ["E"] ["D"] = Ok true /\ is_s_reachable ex12 ["E"] "D" = Ok true /\ is_r_reachable ex12 ["D"] ["E"] = Ok false /\ is_s_reachable ex12 ["D"] "E" = Ok false /\
  exists n, distribution n /\ ngraph n = mgraph ex12.
Proof.
  assert (V : valid ex12) by apply C17_example. assert (NC : no_clash (mgraph ex12)) by apply C17_example. assert (U : utilities_complete ex12) by apply C17_example.
  assert (Rd : has_role ex12 "D" (RDecision "a")) by (exists ["D"]; split; left; reflexivity). assert (Re : has_role ex12 "E" (RDecision "b")) by (exists ["E"]; split; [right; left; reflexivity|left; reflexivity]).
  assert (Iv : forall u, In u ["V"] <-> has_role ex12 u (RUtility "b")). { intro u. split; [intros [<-|[]]; exists ["V"]; split; [right; left; reflexivity|left; reflexivity]|]. intros (l & [K|[K|[]]] & Hu); [discriminate K|injection K as <-; exact Hu]. }
  assert (Er : is_r_reachable ex12 ["E"] ["D"] = Ok true) by (vm_compute; reflexivity).
  split; auto. split; auto. split; auto. split; auto. split; auto. split. { intro u. split; [intros [<-|[]]; exists ["U"]; split; left; reflexivity|]. intros (l & [K|[K|[]]] & Hu); [injection K as <-; exact Hu|discriminate K]. }
  split; auto. split; auto. split; [vm_compute; reflexivity|]. split; [vm_compute; reflexivity|]. split; [vm_compute; reflexivity|].
  destruct (C78_relevant ex12 "b" "E" ["V"] "D" V NC U Re) as (l & n & _ & _ & _ & Dn & Eg & _); auto; [repeat constructor; intros []|vm_compute; tauto|discriminate|]. exists n. auto.
Qed.
