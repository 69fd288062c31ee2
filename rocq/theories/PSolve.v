(* Properties C46 and C57: the imputed policy is globally optimal. *)
From Coq Require Import String List Bool Arith QArith Qcanon Lia Permutation.
Import ListNotations.
From Verif Require Import LIncent LCopy.
From Verif Require PPatterns.
From Verif Require Import MBase MGraph MMacid MCpd MNet MProb MQuery MPolicy Spec SpecM SpecC SpecN SpecQ SpecPol LBase LGraph LQc LCpd LNet LSum LBayes LSep LQuery LDo LInter LFactor LEdit LBuilt LTotal LCheckN LCheck LEffects PMacid PQuery LRoles LReach LTrim LActive LMech LPolicy LValue LQcArith LSearch LLike LOptimal LOptDec LOptTotal LBest LSolve PPolicy POptDec.
Local Open Scope string_scope.
Local Open Scope list_scope.
Local Open Scope Qc_scope.

Lemma random_loop : forall l n n', built n -> distribution n -> loop_net impute_random_decision n l = (n', None) ->
  built n' /\ distribution n' /\ differ_in (fun v => In v l) n n' /\ (forall u, lookup u (doms n') = lookup u (doms n)) /\ forall d t, In d l -> has_table n' d t -> tkind t = KStoch.
Proof.
  induction l as [|d l IH]; intros n n' B Hd H; cbn [loop_net] in H.
  - injection H as <-. split; auto. split; auto. split; [split; [reflexivity|split; [intros v x; reflexivity|intros; reflexivity]]|]. split; auto. intros d t [].
  - destruct (impute_random_decision n d) as [n1 [e|]] eqn:E; [discriminate|]. assert (Hn := random_inv n d n1 Hd B E). destruct (random_set n d B Hd Hn) as (n1' & X & B1 & Hd1 & G1 & Dm1 & Cp1 & _). rewrite E in X. injection X as <-.
    destruct (IH n1 n' B1 Hd1 H) as (B2 & Hd2 & Df & Dm2 & Kd). split; auto. split; auto. destruct (differ_single n n1 d (uni_tab n d) B1 Hd G1 Dm1 Cp1 (proj1 (proj2 Hd1))) as [Df1 Ht].
    split; [apply (differ_trans _ _ _ _ _ _ Df1 Df); intros v [<-|K]; [left|right]; auto|]. split; [intro u; rewrite Dm2; auto|]. intros e t He Hte. destruct (in_dec String.string_dec e l) as [K|K]; [apply (Kd e t); auto|].
    destruct He as [<-|He]; [|contradiction]. apply Df in Hte; auto. assert (t = uni_tab n d) by (apply (proj1 (proj2 Hd1) d); auto). subst t. reflexivity.
Qed.
Lemma obeys_ext : forall n n' d h, distribution n -> distribution n' -> ngraph n' = ngraph n -> (forall v, dom_of (doms n') v = dom_of (doms n) v) -> (forall a, within n a -> kernel n' d a = kernel n d a) -> obeys n d h -> obeys n' d h.
Proof.
  intros n n' d h Hd Hd' G D K O a Wa. assert (Wn : within n a) by (intros v Hv; rewrite <- D; apply Wa; rewrite G; auto). rewrite K by auto. rewrite (O a Wn), G. auto.
Qed.
Lemma choice_frame : forall n n' d h, ngraph n' = ngraph n -> same_domains n n' -> choice_function n d h -> choice_function n' d h.
Proof.
  intros n n' d h G Sd Ch pv [C1 C2]. rewrite (same_dom_of n n' Sd). apply Ch. rewrite G in C1. split; auto. intros p x K. destruct (C2 p x K) as (l & Hl & Hx). exists l. split; auto. apply Sd. exact Hl.
Qed.
Lemma context_frame : forall n n' ps pv, same_domains n n' -> context_of (doms n) ps pv -> context_of (doms n') ps pv.
Proof. intros n n' ps pv Sd [C1 C2]. split; auto. intros p x K. destruct (C2 p x K) as (l & Hl & Hx). exists l. split; auto. apply Sd. exact Hl. Qed.

(* solving the decisions l in turn, none of which relies on a later one of the list, is best against all networks
   that differ only in the tables of l *)
Lemma solve_loop : forall o m a us l c n', valid_order o -> valid m -> mgraph m = ngraph c -> no_clash (ngraph c) -> (NoDup us /\ forall u, In u us <-> has_role m u (RUtility a)) ->
  (forall d, In d l -> has_role m d (RDecision a)) -> NoDup l -> (forall l1 d l2, l = l1 ++ d :: l2 -> forall d', In d' l2 -> ~ r_relevant m d d') ->
  built c -> distribution c -> loop_net (fun n d => impute_optimal_decision o m n d) c l = (n', None) ->
  built n' /\ distribution n' /\ differ_in (fun v => In v l) c n' /\ (exists h, forall d, In d l -> choice_function c d (h d) /\ obeys n' d (h d)) /\
  forall q, distribution q -> differ_in (fun v => In v l) c q -> eu q us <= eu n' us.
Proof.
  intros o m a us l. induction l as [|d l IH]; intros c n' O V Eg NC (Nu & Iu) Rl Nl Rel B Hd H; cbn [loop_net] in H.
  - injection H as <-. split; auto. split; auto. split; [split; [reflexivity|split; [intros v x; reflexivity|intros; reflexivity]]|]. split; [exists (fun _ _ => 0); intros d []|].
    intros q Hq Df. assert (Ic : incl us (nodes (ngraph c))) by (intros u Hu; rewrite <- Eg; apply Iu in Hu; apply (proj2 (proj2 V) a u); right; auto).
    rewrite (follow_value c q [] (fun _ _ => 0) us), (follow_value c c [] (fun _ _ => 0) us); auto; [apply Qcle_refl|split; [reflexivity|split; [intros v x; reflexivity|intros; reflexivity]]|intros ? ? []|intros ? ? []].
  - destruct (impute_optimal_decision o m c d) as [c1 [e|]] eqn:E; [discriminate|].
    destruct (C45_optimal_partial o m c d c1 O V B Hd E) as (a' & ud & h & t & Ra & Ne & (Nud & Iud) & B1 & Hd1 & Df1 & Ht & Ch & Pl & Best).
    assert (Cm : consistent m) by apply V. assert (Ea : a' = a). { destruct (proj2 (proj2 (proj2 (proj2 (proj2 Cm)))) d) as (r & R1 & _). assert (X := Rl d (or_introl eq_refl)). apply R1 in Ra. apply R1 in X. congruence. } subst a'.
    assert (W : wf_dag (ngraph c)) by apply Hd. assert (G1 : ngraph c1 = ngraph c) by apply Df1. assert (Sd1 : same_domains c c1) by apply Df1. assert (Hn : In d (nodes (ngraph c))) by (rewrite <- Eg; apply (proj2 (proj2 V) a d); left; auto).
    assert (Ob : obeys c1 d h) by (apply (plays_obeys c c1 d h t); auto).
    inversion Nl as [|? ? Nd Nl']; subst.
    destruct (IH c1 n') as (B2 & Hd2 & Df2 & (hs & Hs) & Opt); auto; [rewrite G1; auto|rewrite G1; auto|intros e K; apply Rl; right; auto|intros l1 e l2 K; apply (Rel (d :: l1) e l2); rewrite K; auto|].
    split; auto. split; auto. split; [apply (differ_trans _ _ _ _ _ _ Df1 Df2); intros v [<-|K]; [left|right]; auto|]. split.
    + exists (fun e => if String.string_dec e d then h else hs e). intros e He. destruct (String.string_dec e d) as [->|N].
      * split; auto. apply (obeys_ext c1); auto; [apply Df2|apply same_dom_of; apply Df2|]. intros b _. symmetry. apply (kernel_differ (fun v => In v l)); auto; [apply Hd1|apply Hd2].
      * destruct He as [<-|He]; [congruence|]. destruct (Hs e He) as [K1 K2]. split; auto. apply (choice_frame c1); auto. intros v s. symmetry. apply Sd1.
    + intros q Hq Dq. assert (Gq : ngraph q = ngraph c) by apply Dq. assert (Sdq : same_domains c q) by apply Dq. assert (Edq := same_dom_of c q Sdq).
      assert (T1 : table_ok c1 d t). { destruct (dist_table c1 d Hd1) as (t' & Ct & Tok); [rewrite G1; auto|]. apply single_cpd in Ct; [|apply Hd1]. assert (t' = t) by (apply (proj1 (proj2 Hd1) d); auto). subst t'. exact Tok. }
      assert (Tq : table_ok q d t). { apply (table_frame c1); auto; [congruence|]. intro v. rewrite Edq. symmetry. apply same_dom_of; auto. }
      assert (Hp : distribution (put q d t)) by (apply put_dist; auto; rewrite Gq; auto). assert (Dp := put_differ q d t (ok_var _ _ _ Tq)).
      apply Qcle_trans with (eu (put q d t) us).
      * apply (best_response q (put q d t) us d h); auto.
        -- apply differ_twin; auto.
        -- intros u Hu. rewrite Gq, <- Eg. apply Iu in Hu. apply (proj2 (proj2 V) a u). right. auto.
        -- rewrite Gq. auto.
        -- apply (choice_frame c); auto.
        -- apply (plays_obeys c (put q d t) d h t); auto; [apply put_table; auto; apply Tq].
        -- intros pv x Cx Hx Pq. rewrite Gq in Cx. assert (Cc : context_of (doms c) (parents (ngraph c) d) pv) by (apply (context_frame q c); [intros v s; symmetry; apply Sdq|auto]).
           destruct (Best pv Cc) as [Pc Bc]. assert (Pc' : do_prob c [] pv <> 0) by (intro K; rewrite K in Pc; apply (Qclt_not_eq _ _ Pc); auto). rewrite Edq in Hx. assert (Hh : In (h pv) (dom_of (doms c) d)) by (apply Ch; auto).
           assert (Dnu : ~ In d us). { intro K. apply Iu in K. destruct (proj2 (proj2 (proj2 (proj2 (proj2 Cm)))) d) as (r & R1 & _). apply R1 in Ra. apply R1 in K. congruence. }
           assert (Iq : incl us (nodes (ngraph q))). { intros u Hu. rewrite Gq, <- Eg. apply Iu in Hu. apply (proj2 (proj2 V) a u). right. auto. }
           assert (Iuq : forall u, In u ud <-> In u us /\ descends (ngraph q) u d) by (intro u; rewrite Iud, Iu, Gq; tauto).
           assert (Cq : context_of (doms q) (parents (ngraph q) d) pv) by (rewrite Gq; exact Cx).
           rewrite !(pay_more q us ud d pv) by (auto; rewrite ?Gq, ?Edq; auto). apply Qcplus_le_compat; [|apply Qcle_refl].
           destruct (mech_exists (ngraph c) W NC) as [hg Mg].
           assert (Pe : forall y, In y (dom_of (doms c) d) -> pay q ud d pv y = pay c ud d pv y).
           { intros y Hy. apply (pay_irrelevant c q l ud d pv y hg); auto.
             - destruct Dq as (D1 & D2 & D3). split; auto. split; auto. intros v s K. apply D3. intros [->|K']; apply K; auto.
             - intros e He. rewrite <- Eg. apply (proj2 (proj2 V) a e). left. apply Rl. right. auto.
             - intros s u Hs' Hu K. apply (Rel [] d l eq_refl s Hs'). assert (Hsn : In s (nodes (ngraph c))) by (rewrite <- Eg; apply (proj2 (proj2 V) a s); left; apply Rl; right; auto).
               apply r_relevant_char; rewrite ?Eg; auto. apply Iud in Hu. exists a, u. split; [apply Rl; left; auto|]. split; [apply Hu|]. split; [apply Hu|].
               apply (pendant_dconn hg (ngraph c) (mec s) s); auto; [apply pendant_mech; auto; apply W|apply W|apply family_nodes; auto; apply W|eapply wf_reach; [apply W|apply descends_reach; apply Hu|auto]].
             - intros u Hu. apply Iud in Hu. apply Hu. }
           rewrite !Pe; auto.
      * apply Opt; auto. split; [change (ngraph q = ngraph c1); congruence|]. split; [intros v s; rewrite <- (Sd1 v s); apply Sdq|].
        intros v s K. rewrite put_table by apply Tq. destruct (String.string_dec v d) as [->|Nv].
        -- split; [intro K'; left; split; auto; apply (proj1 (proj2 Hd1) d); auto|]. intros [[_ ->]|[K' _]]; [auto|congruence].
        -- assert (X1 : has_table c v s <-> has_table c1 v s) by (apply Df1; congruence). assert (X2 : has_table c v s <-> has_table q v s) by (apply Dq; intros [K'|K']; congruence). tauto.
Qed.

Lemma obeyed_choice : forall n ds h, distribution n -> (forall d, In d ds -> choice_function n d (h d)) -> choice n ds (fun d b => h d (ctx b (parents (ngraph n) d))).
Proof.
  intros n ds h Hd H d K. split.
  - intros b b' E. f_equal. apply map_ext_in. intros p Hp. rewrite E; auto. apply edge_parents; auto.
  - intros b E. apply (H d K). apply ctx_context; [apply dist_ready; auto|]. intros p Hp. apply E. apply edge_parents; auto.
Qed.
Lemma pure_policy : forall n ds H, distribution n -> incl ds (nodes (ngraph n)) -> choice n ds H -> policy n ds (pure H).
Proof.
  intros n ds H Hd I Ch d K. destruct (Ch d K) as [C1 C2]. assert (W : wf_dag (ngraph n)) by apply Hd. split; [|split].
  - intros b b' E1 E2. unfold pure. rewrite E1, (C1 b b' E2). auto.
  - intro b. unfold pure. destruct (Qc_eq_dec _ _); discriminate.
  - intros b E. change (fold_right Qcplus 0) with qsum. rewrite (qsum_single _ Qc_eq_dec _ _ (H d b)); [|apply dom_nodup; auto|auto|].
    + unfold pure. rewrite upd_same. rewrite (C1 (upd b d (H d b)) b). { destruct (Qc_eq_dec _ _); congruence. } intros p Hp. apply upd_other. intros ->. apply (no_self_edge _ _ (proj2 W) Hp).
    + intros y Hy Ne. unfold pure. rewrite upd_same. rewrite (C1 (upd b d y) b). { destruct (Qc_eq_dec _ _); congruence. } intros p Hp. apply upd_other. intros ->. apply (no_self_edge _ _ (proj2 W) Hp).
Qed.
Lemma solo : forall m a ds us, consistent m -> agent_decisions m = [(a, ds)] -> agent_utilities m = [(a, us)] ->
  NoDup ds /\ NoDup us /\ (forall u, In u us <-> has_role m u (RUtility a)) /\ (forall d, In d ds <-> has_role m d (RDecision a)) /\ (forall d, In d (decisions m) <-> In d ds) /\ utilities_complete m /\ decisions_complete m.
Proof.
  intros m a ds us C Ea Eu. assert (Gm := proj2 (good_consistent m) C).
  assert (L1 : forall d b, listed (agent_decisions m) b d <-> b = a /\ In d ds). { intros d b. rewrite Ea. split; [intros (l & [K|[]] & Hl); injection K as <- <-; auto|intros [-> K]; exists ds; split; [left|]; auto]. }
  assert (L2 : forall u b, listed (agent_utilities m) b u <-> b = a /\ In u us). { intros d b. rewrite Eu. split; [intros (l & [K|[]] & Hl); injection K as <- <-; auto|intros [-> K]; exists us; split; [left|]; auto]. }
  destruct C as (_ & _ & _ & _ & N & _). split; [apply (N a); left; rewrite Ea; left; auto|]. split; [apply (N a); right; rewrite Eu; left; auto|]. split; [intro u; cbn [has_role]; rewrite L2; tauto|]. split; [intro d; cbn [has_role]; rewrite L1; tauto|]. split.
  - intro d. unfold decisions. rewrite in_keys_lookup. split.
    + intros [b K]. apply good_listed_decision in K; auto. apply L1 in K. tauto.
    + intro K. exists a. apply good_listed_decision; auto. apply L1. auto.
  - split; [intros b d K; apply L1 in K; destruct K as [-> _]; rewrite Eu; left; auto|]. intros b K. rewrite Eu in K. destruct K as [<-|[]]. rewrite Ea. left; auto.
Qed.

(* ---- C57 ---- *)
(* a diagram of one agent with sufficient recall: if impute_optimal_policy returns, only the tables of the decisions have changed,
   the new rules are deterministic, and no policy, random or not, has a greater expected utility *)
Theorem C57_recall_optimal : forall o choose m n a ds us n', valid_order o -> valid m -> mgraph m = ngraph n -> no_clash (ngraph n) ->
  agent_decisions m = [(a, ds)] -> agent_utilities m = [(a, us)] -> built n -> distribution n -> sufficient_recall m None = Ok true ->
  impute_optimal_policy o choose m n = (n', None) ->
  built n' /\ distribution n' /\ differ_in (fun v => In v ds) n n' /\
  exists H, choice n ds H /\ (forall d b, In d ds -> within n b -> kernel n' d b = pure H d b) /\
    fold_right Qcplus 0 (map (expectation n' [] []) us) = value n ds (pure H) us /\
    forall b, policy n ds b -> value n ds b us <= value n ds (pure H) us.
Proof.
  intros o choose m n a ds us n' O V Eg NC Ea Eu B Hd Sr E. assert (Cm : consistent m) by apply V. destruct (solo m a ds us Cm Ea Eu) as (Nds & Nus & Iu & Id & Dm & UC & DC).
  unfold impute_optimal_policy in E. destruct (impute_random_policy m n) as [n1 [e|]] eqn:E1; [discriminate|].
  destruct (random_loop (decisions m) n n1 B Hd E1) as (B1 & Hd1 & Df1 & _ & _). assert (G1 : ngraph n1 = ngraph n) by apply Df1. assert (Sd1 : same_domains n n1) by apply Df1.
  rewrite (with_graph_eq m (ngraph n1)) in E by congruence. rewrite Sr in E.
  assert (Ev : get_valid_order o m (Some (decisions m)) = get_valid_order o m None).
  { unfold get_valid_order. replace (forallb (fun n0 => mem n0 (nodes (mgraph m))) (decisions m)) with true; auto. symmetry. apply forallb_forall. intros d K. apply mem_In. apply (proj2 (proj2 V) a d). left. apply Id, Dm; auto. }
  rewrite Ev in E. destruct (C15_default o m V O) as (l & El & Nl & Tl & Il). rewrite El in E.
  assert (Ild : forall d, In d (rev l) <-> In d ds). { intro d. rewrite <- in_rev, Il. split; [intros [b K]|intro K; exists a; apply Id; auto]. cbn [has_role] in K. rewrite Ea in K. destruct K as (k & [K|[]] & Hk). injection K as _ <-. auto. }
  assert (NC1 : no_clash (ngraph n1)) by (rewrite G1; auto). assert (Eg1 : mgraph m = ngraph n1) by congruence.
  destruct (solve_loop o m a us (rev l) n1 n' O V Eg1 NC1 (conj Nus Iu)) as (B2 & Hd2 & Df2 & (h & Hh) & Opt); auto.
  - intros d K. apply Id, Ild; auto.
  - apply NoDup_rev; auto.
  - intros l1 d l2 K d' Kd' R. assert (El2 : l = rev l2 ++ d :: rev l1). { rewrite <- (rev_involutive l), K, rev_app_distr. cbn [rev]. rewrite <- app_assoc. reflexivity. }
    assert (S := C19_solving_order m o a ds l V ltac:(rewrite Eg; auto) UC O Ea Sr DC El (rev l2) d (rev l1) El2 d' ltac:(rewrite <- in_rev; auto)).
    assert (Rd : has_role m d (RDecision a)). { apply Id, Ild. rewrite K. apply in_or_app. right; left; auto. } assert (Rd' : has_role m d' (RDecision a)). { apply Id, Ild. rewrite K. apply in_or_app. right; right; auto. }
    destruct (C17_s_reachable m [d] d' V ltac:(rewrite Eg; auto) UC) as [X _]; [intros x [<-|[]]; eauto|]. destruct X as (b & X1 & X2); [eauto|]. rewrite S in X1. injection X1 as <-. assert (false = true) by (apply X2; exists d; split; [left; auto|auto]). discriminate.
  - assert (Df : differ_in (fun v => In v ds) n n'). { apply (differ_trans _ _ _ _ _ _ Df1 Df2). intros v [K|K]; [apply Dm; auto|apply Ild; auto]. }
    split; auto. split; auto. split; auto. assert (Ids : incl ds (nodes (ngraph n))) by (intros d K; rewrite <- Eg; apply (proj2 (proj2 V) a d); left; apply Id; auto).
    assert (Ius : incl us (nodes (ngraph n))) by (intros u K; rewrite <- Eg; apply (proj2 (proj2 V) a u); right; apply Iu; auto).
    set (H := fun d b => h d (ctx b (parents (ngraph n) d))). exists H.
    assert (Ch : choice n ds H). { apply obeyed_choice; auto. intros d K. apply Ild in K. destruct (Hh d K) as [K1 _]. apply (choice_frame n1); auto. intros v s. symmetry. apply Sd1. }
    assert (Ke : forall d b, In d ds -> within n b -> kernel n' d b = pure H d b).
    { intros d b K Wb. apply Ild in K. destruct (Hh d K) as [_ K2]. assert (Gn : ngraph n' = ngraph n) by apply Df. rewrite (K2 b); [unfold pure, H; rewrite Gn; reflexivity|]. intros v Hv. rewrite (same_dom_of n n' (proj1 (proj2 Df))). apply Wb. rewrite <- Gn. auto. }
    assert (Ev' : eu n' us = value n ds (pure H) us) by (apply follow_value; auto).
    split; auto. split; auto. split; auto. intros b Po. rewrite <- Ev'. destruct (follow_net_ok n ds b Hd Ids Po) as (F1 & F2 & F3). rewrite <- (follow_value n (follow_net n ds b) ds b us); auto. apply Opt; auto.
    apply (differ_trans _ _ _ _ _ _ (differ_sym _ _ _ Df1) F2). intros v [K|K]; apply Ild; auto. apply Dm; auto.
Qed.
Print Assumptions C57_recall_optimal.

(* some deterministic policy is as good as any given policy *)
Definition top (V : outcome -> Qc) (l : list outcome) : outcome := match l with [] => 0 | x :: l' => arg_max (x, V x) (map (fun z => (z, V z)) l') end.
Lemma top_spec : forall V l, l <> [] -> In (top V l) l /\ forall z, In z l -> V z <= V (top V l).
Proof. intros V [|x l] N; [congruence|]. apply (arg_max_spec V l x). Qed.
Lemma purify : forall n ds us l q, distribution n -> incl us (nodes (ngraph n)) -> incl ds (nodes (ngraph n)) -> incl l ds -> distribution q -> differ_in (fun v => In v ds) n q ->
  exists q' h, distribution q' /\ differ_in (fun v => In v ds) n q' /\ eu q us <= eu q' us /\ forall d, In d l -> choice_function n d (h d) /\ obeys q' d (h d).
Proof.
  intros n ds us l q Hd Iu Ids. induction l as [|d l IH]; intros I Hq Df.
  - exists q, (fun _ _ => 0). split; auto. split; auto. split; [apply Qcle_refl|]. intros d [].
  - destruct IH as (q1 & h & Hq1 & D1 & E1 & H1); auto; [intros v K; apply I; right; auto|]. assert (Hn : In d (nodes (ngraph n))) by (apply Ids, I; left; auto). assert (W : wf_dag (ngraph n)) by apply Hd.
    assert (G1 : ngraph q1 = ngraph n) by apply D1. assert (Sd1 : same_domains n q1) by apply D1. assert (Ed1 := same_dom_of n q1 Sd1). destruct (dist_lookup n d Hd Hn) as [Ld Ne]. assert (Nd := dom_nodup n d Hd Hn).
    set (g := fun pv => top (pay q1 us d pv) (dom_of (doms n) d)). assert (Cg : choice_function n d g) by (intros pv _; apply top_spec; auto).
    set (t := col_tab n d (fun pv x => if Qc_eq_dec x (g pv) then 1 else 0) KStoch).
    assert (To : table_ok n d t).
    { apply col_ok; auto. intros pv Cp. split; [intros x _; destruct (Qc_eq_dec x (g pv)); discriminate|]. rewrite (qsum_single _ Qc_eq_dec _ _ (g pv)); auto; [destruct (Qc_eq_dec (g pv) (g pv)); congruence|]. intros y Hy N. destruct (Qc_eq_dec y (g pv)); congruence. }
    assert (Hp : distribution (put q1 d t)) by (apply put_dist; [auto|rewrite G1; auto|apply (table_frame n q1); auto]). assert (Dp := put_differ q1 d t eq_refl).
    exists (put q1 d t), (fun e => if String.string_dec e d then g else h e). split; auto.
    assert (Og : obeys (put q1 d t) d g).
    { intros a Wa. assert (Wn : within n a) by (intros v Hv; rewrite <- Ed1; apply Wa; change (In v (nodes (ngraph q1))); rewrite G1; auto). unfold kernel. assert (Ct : cpd_of (put q1 d t) d = Some t) by (apply single_cpd; [apply Hp|apply put_table; auto]). rewrite Ct.
      transitivity (entry (doms n) t a); [apply entry_doms_in; intros; apply Ed1|]. unfold t. rewrite col_entry by auto. cbn [put ngraph]. rewrite G1. reflexivity. }
    split; [apply (differ_trans _ _ _ _ _ _ D1 Dp); intros v [K|<-]; [auto|apply I; left; auto]|]. split.
    + apply Qcle_trans with (eu q1 us); auto. apply (best_response q1 (put q1 d t) us d g); auto; try (rewrite G1; auto); [apply differ_twin; auto|apply (choice_frame n); auto|].
      intros pv x Cx Hx _. apply top_spec; auto. rewrite <- Ed1. auto.
    + intros e He. destruct (String.string_dec e d) as [->|N]; [auto|]. destruct He as [<-|He]; [congruence|]. destruct (H1 e He) as [K1 K2]. split; auto. apply (obeys_ext q1); auto. intros b _. symmetry. apply (kernel_differ (eq d) q1 (put q1 d t)); auto; [apply Hq1|apply Hp].
Qed.
Lemma pure_enough : forall n ds us b, distribution n -> incl us (nodes (ngraph n)) -> incl ds (nodes (ngraph n)) -> policy n ds b -> exists H, choice n ds H /\ value n ds b us <= value n ds (pure H) us.
Proof.
  intros n ds us b Hd Iu Ids Po. destruct (follow_net_ok n ds b Hd Ids Po) as (F1 & F2 & F3). destruct (purify n ds us ds (follow_net n ds b) Hd Iu Ids (incl_refl _) F1 F2) as (q & h & Hq & Dq & Eq & Hh).
  exists (fun d b => h d (ctx b (parents (ngraph n) d))). split; [apply obeyed_choice; auto; intros d K; apply Hh; auto|].
  rewrite <- (follow_value n (follow_net n ds b) ds b us); auto. rewrite <- (follow_value n q ds (pure (fun d b0 => h d (ctx b0 (parents (ngraph n) d)))) us); auto.
  intros d a K _ Wa. assert (G : ngraph q = ngraph n) by apply Dq. destruct (Hh d K) as [_ K2]. rewrite (K2 a); [unfold pure; rewrite G; reflexivity|]. intros v Hv. rewrite (same_dom_of n q (proj1 (proj2 Dq))). apply Wa. rewrite <- G. auto.
Qed.

(* the tables that are returned fit the network *)
Lemma like_ok : forall n n' d t, like n n' -> wf_dag (ngraph n) -> In d (nodes (ngraph n)) -> table_ok n' d t -> table_ok n d t.
Proof.
  intros n n' d t L W Hn [K1 K2 K3 K4 K5]. assert (E : forall p, In p (tev t) <-> edge (ngraph n) p d) by (intro p; rewrite K4; apply (l_edges _ _ L)). constructor; auto.
  - rewrite <- (l_dom _ _ L); auto.
  - rewrite K5. apply map_ext_in. intros p Hp. apply E in Hp. rewrite (l_dom _ _ L); auto. apply W in Hp. tauto.
Qed.
Lemma optimal_tables : forall o m n ds tol ps, valid_order o -> valid m -> mgraph m = ngraph n -> built n -> distribution n -> unset_uniform n -> ds <> [] ->
  optimal_pure_policies o m n ds tol = Ok ps -> forall p t, In p ps -> In t p -> table_ok n (tvar t) t.
Proof.
  intros o m n ds0 tol r O V Eg B Hd U Ne E. unfold optimal_pure_policies in E. destruct ds0 as [|d0 dl] eqn:Eds; [congruence|]. rewrite <- Eds in *. clear Ne.
  destruct (dedup_order o ds0 O) as [Nd Id]. set (ds := o [] (nodup String.string_dec ds0)) in *.
  destruct (map_r (fun d => dict_get d (decision_agent m)) ds) as [ags|] eqn:Ea; [|discriminate]. cbn [bind] in E. destruct (nodup String.string_dec ags) as [|a [|]] eqn:En; try discriminate.
  assert (Ow := owners_one _ _ _ _ Ea En). assert (Cm : consistent m) by apply V. assert (Gm : good_roles m) by (apply good_consistent; auto).
  assert (Rd : forall d, In d ds -> has_role m d (RDecision a)) by (intros d K; apply (good_listed_decision m a d Gm); auto).
  assert (Ids : incl ds (nodes (ngraph n))). { intros d K. rewrite <- Eg. apply (proj2 (proj2 V) a d). left. apply Rd; auto. }
  unfold macid_copy in E. rewrite (with_graph_eq m (ngraph n) Eg) in E. destruct (copy_without_cpds m) as [m1|] eqn:Em; [|discriminate]. cbn [bind] in E. destruct (copy_net n) as [n1|] eqn:Ec; [|discriminate]. cbn [bind] in E.
  assert (L1 := like_copy n n1 B Hd Ec). assert (U1 := copy_unset n n1 B Hd Ec U). destruct (loop_net (impute_irrelevant m1 ds) n1 (decisions m1)) as [n2 [e|]] eqn:El; [discriminate|].
  destruct (irrelevant_loop _ _ _ _ _ (l_built _ _ L1) (l_dist _ _ L1) U1 El) as (L2 & _). assert (L := like_trans _ _ _ L1 L2). clear L1 L2 U1.
  assert (Hd2 := l_dist _ _ L). assert (B2 := l_built _ _ L). assert (Ids2 : incl ds (nodes (ngraph n2))) by (rewrite (l_nodes _ _ L); auto).
  destruct (C43_policies n2 ds (proj1 Hd2) (proj1 (proj2 Hd2)) (fun d K => open_of n2 d Hd2 (Ids2 d K))) as (ps & Ep & Np & _ & Ip). rewrite Ep in E. cbn [bind] in E.
  assert (Sub : forall best acc l n3 res, search o m1 a tol n3 best acc l = Ok res -> forall p, In p res -> In p acc \/ In p l).
  { clear. intros best acc l. revert best acc. induction l as [|q l IH]; intros best acc n3 res E p Hp; cbn [search] in E; [injection E as <-; auto|].
    destruct (add_policy n3 q) as [n4 [e|]]; [discriminate|]. destruct (expected_utility o m1 n4 [] [] a) as [n5 [eu|]]; [|discriminate]. cbn [bind] in E. destruct (negb (qleb 0 tol)); [discriminate|].
    assert (X : forall b ac, search o m1 a tol n5 b ac l = Ok res -> In p ac \/ In p l) by (intros b ac K; apply (IH b ac n5 res K p Hp)).
    destruct best as [b|]; [destruct (isclose tol eu b); [|destruct (negb (qleb eu b))]|]; apply X in E; cbn [In]; try rewrite in_app_iff in E; cbn [In] in E; tauto. }
  intros p t Hp Ht. destruct (Sub _ _ _ _ _ E p Hp) as [[]|Hps]. apply Ip in Hps.
  assert (X : exists d, In d ds /\ rule n2 d t). { clear - Hps Ht. induction Hps as [|d s ds p R F IH]; [destruct Ht|]. destruct Ht as [->|Ht]; [exists d; split; [left|]; auto|]. destruct (IH Ht) as (e & K1 & K2). exists e. split; [right|]; auto. }
  destruct X as (d & Kd & R). assert (Ev := rule_var _ _ _ R). apply (like_ok n n2 (tvar t) t L (proj1 Hd)); [rewrite Ev; auto|]. rewrite Ev. apply (rule_ok n2 ds n2); auto. apply variant_self; auto.
Qed.
Lemma add_all : forall p n n', built n -> distribution n -> (forall t, In t p -> In (tvar t) (nodes (ngraph n)) /\ table_ok n (tvar t) t) -> NoDup (map tvar p) -> add_policy n p = (n', None) ->
  built n' /\ distribution n' /\ differ_in (fun v => In v (map tvar p)) n n' /\ forall t, In t p -> has_table n' (tvar t) t.
Proof.
  induction p as [|t p IH]; intros n n' B Hd H N E.
  - injection E as <-. split; auto. split; auto. split; [split; [reflexivity|split; [intros v x; reflexivity|intros; reflexivity]]|intros t []].
  - rewrite add_policy_cons in E. destruct (H t (or_introl eq_refl)) as [Hn To]. destruct (set_same n (tvar t) t B Hd Hn To) as (n1 & E1 & B1 & Hd1 & G1 & Dm1 & Cp1 & _). rewrite E1 in E.
    destruct (differ_single n n1 (tvar t) t B1 Hd G1 Dm1 Cp1 (proj1 (proj2 Hd1))) as [Df1 Ht]. inversion N as [|? ? N1 N2]; subst.
    destruct (IH n1 n' B1 Hd1) as (B2 & Hd2 & Df2 & Tb); auto.
    + intros s Hs. destruct (H s (or_intror Hs)) as [K1 K2]. split; [rewrite G1; auto|]. apply (table_frame n n1); auto. apply same_doms_dom; auto.
    + split; auto. split; auto. split; [apply (differ_trans _ _ _ _ _ _ Df1 Df2); intros v [<-|K]; [left|right]; auto|]. intros s [<-|Hs]; auto. apply Df2; auto.
Qed.
Lemma map_nodup_in : forall (p : list tab) ds, map tvar p = ds -> forall d, In d ds -> exists t, In t p /\ tvar t = d.
Proof. intros p ds <- d K. apply in_map_iff in K. destruct K as (t & <- & Ht). exists t. auto. Qed.
Lemma value_frame : forall n n' ds ds' b us, distribution n -> distribution n' -> differ_in (fun v => In v ds) n n' -> (forall d, In d ds' <-> In d ds) -> value n' ds' b us = value n ds b us.
Proof.
  intros n n' ds ds' b us Hd Hd' Df I. assert (G : ngraph n' = ngraph n) by apply Df. unfold value. rewrite G. rewrite (total_dom_perm (dom_of (doms n')) (dom_of (doms n))) by (intros v _; rewrite (same_dom_of n n' (proj1 (proj2 Df))); apply Permutation_refl).
  apply total_ext. intro a. f_equal. change (fold_right Qcmult 1) with qprod. apply qprod_ext. intros v _. unfold follow. destruct (in_dec String.string_dec v ds') as [K|K], (in_dec String.string_dec v ds) as [K'|K']; auto; try (exfalso; apply I in K; tauto); try (exfalso; apply I in K'; tauto).
  symmetry. apply (kernel_differ (fun v => In v ds)); auto; [apply Hd|apply Hd'].
Qed.
Lemma choice_frame_all : forall n n' ds ds' H, ngraph n' = ngraph n -> same_domains n n' -> (forall d, In d ds' <-> In d ds) -> choice n' ds' H -> choice n ds H.
Proof.
  intros n n' ds ds' H G Sd I C d K. apply I in K. destruct (C d K) as [C1 C2]. rewrite G in *. assert (Ed := same_dom_of n n' Sd). split; auto. intros a E. rewrite <- Ed. apply C2. intros p Hp. rewrite Ed. auto.
Qed.
(* a diagram of one agent without sufficient recall: if impute_optimal_policy returns, only the tables of the decisions have changed,
   the new rules are deterministic; their value is close to a value that no policy, random or not, exceeds by more than the tolerance *)
Theorem C57_search_optimal_partial : forall o choose m n a ds us n', valid_order o -> (forall ps p, choose ps = Some p -> In p ps) -> valid m -> mgraph m = ngraph n ->
  agent_decisions m = [(a, ds)] -> agent_utilities m = [(a, us)] -> built n -> distribution n -> unset_uniform n -> sufficient_recall m None = Ok false ->
  impute_optimal_policy o choose m n = (n', None) ->
  built n' /\ distribution n' /\ differ_in (fun v => In v ds) n n' /\
  exists H v, choice n ds H /\ (forall d b, In d ds -> within n b -> kernel n' d b = pure H d b) /\
    fold_right Qcplus 0 (map (expectation n' [] []) us) = value n ds (pure H) us /\ close default_tol (value n ds (pure H) us) v /\
    forall b, policy n ds b -> value n ds b us <= v \/ exists w, value n ds b us <= w /\ close default_tol w v.
Proof.
  intros o choose m n a ds us n' O Cs V Eg Ea Eu B Hd U Sr E. assert (Cm : consistent m) by apply V. destruct (solo m a ds us Cm Ea Eu) as (Nds & Nus & Iu & Id & Dm & UC & DC).
  unfold impute_optimal_policy in E. destruct (impute_random_policy m n) as [n1 [e|]] eqn:E1; [discriminate|].
  destruct (random_loop (decisions m) n n1 B Hd E1) as (B1 & Hd1 & Df1 & Dm1 & Kd). assert (G1 : ngraph n1 = ngraph n) by apply Df1. assert (Sd1 : same_domains n n1) by apply Df1. assert (Ed1 := same_dom_of n n1 Sd1).
  rewrite (with_graph_eq m (ngraph n1)) in E by congruence. rewrite Sr in E. destruct (optimal_pure_policies o m n1 (decisions m) default_tol) as [ps|e] eqn:Eo; [|discriminate]. destruct (choose ps) as [p|] eqn:Ec; [|discriminate]. apply Cs in Ec.
  assert (Ne : decisions m <> []). { intro K. rewrite K in Eo. cbn in Eo. injection Eo as <-. destruct Ec. }
  assert (U1 : unset_uniform n1).
  { intros d t b Ht Kt Wb. destruct (in_dec String.string_dec d (decisions m)) as [K|K]; [rewrite (Kd d t K Ht) in Kt; discriminate|]. apply Df1 in Ht; auto. rewrite Ed1. rewrite <- (U d t b Ht Kt); [apply entry_doms_in; intros; apply Ed1|]. intros v Hv. rewrite <- Ed1. apply Wb. rewrite G1. auto. }
  assert (Eg1 : mgraph m = ngraph n1) by congruence.
  destruct (C44_optimal_partial o m n1 (decisions m) default_tol ps O V Eg1 B1 Hd1 U1 Ne Eo) as (a' & ds' & us' & (Nds' & Ids') & Rds & (Nus' & Ius') & _ & _ & Ch & _ & p0 & H0 & P0 & C0 & A0 & Cl & Mx & _).
  assert (Ea' : a' = a). { destruct (decisions m) as [|d dl] eqn:Ed; [congruence|]. assert (K := Rds d (or_introl eq_refl)). cbn [has_role] in K. rewrite Ea in K. destruct K as (k & [K|[]] & _). injection K as <- _. auto. } subst a'.
  assert (Pus : Permutation us' us) by (apply NoDup_Permutation; auto; intro u; rewrite Iu, Ius'; tauto).
  assert (I' : forall d, In d ds' <-> In d ds) by (intro d; rewrite Ids'; apply Dm).
  assert (Dfd : differ_in (fun v => In v ds) n n1) by (destruct Df1 as (D1 & D2 & D3); split; auto; split; auto; intros v t K; apply D3; intro K'; apply K, Dm; auto).
  assert (Ev : forall b, value n1 ds' b us' = value n ds b us) by (intro b; rewrite (value_us n1 ds' b us' us Pus); apply value_frame; auto).
  assert (Ids : incl ds (nodes (ngraph n))) by (intros d K; rewrite <- Eg; apply (proj2 (proj2 V) a d); left; apply Id; auto).
  assert (Ius : incl us (nodes (ngraph n))) by (intros u K; rewrite <- Eg; apply (proj2 (proj2 V) a u); right; apply Iu; auto).
  destruct (Ch p Ec) as (H & C & A). assert (Tv : map tvar p = ds') by apply A.
  destruct (add_all p n1 n' B1 Hd1) as (B2 & Hd2 & Df2 & Tb); auto.
  { intros t Ht. split; [|apply (optimal_tables o m n1 (decisions m) default_tol ps O V Eg1 B1 Hd1 U1 Ne Eo p t Ec Ht)]. rewrite G1. apply Ids, I'. rewrite <- Tv. apply in_map; auto. }
  { rewrite Tv. auto. }
  rewrite Tv in Df2. assert (Df : differ_in (fun v => In v ds) n n') by (apply (differ_trans _ _ _ _ _ _ Dfd Df2); intros v [K|K]; [auto|apply I'; auto]).
  split; auto. split; auto. split; auto. exists H, (value n1 ds' (pure H0) us'). split; [apply (choice_frame_all n n1 ds ds'); auto|].
  assert (Ke : forall d b, In d ds -> within n b -> kernel n' d b = pure H d b).
  { intros d b K Wb. apply I' in K. destruct (map_nodup_in p ds' Tv d K) as (t & Ht & <-). assert (Tn := Tb t Ht). apply single_cpd in Tn; [|apply Hd2]. unfold kernel. rewrite Tn.
    assert (Wb1 : within n1 b) by (intros v Hv; rewrite Ed1; apply Wb; rewrite <- G1; auto). rewrite <- (proj2 A t b Ht Wb1). apply entry_doms_in; intros; apply (same_dom_of n1 n' (proj1 (proj2 Df2))). }
  split; auto. split; [apply (follow_value n n' ds (pure H) us); auto|]. split; [rewrite <- Ev; apply (Cl p H Ec A)|].
  intros b Po. destruct (pure_enough n ds us b Hd Ius Ids Po) as (H' & C' & Le). assert (C1 : choice n1 ds' H') by (apply (choice_frame_all n1 n ds' ds); auto; [intros v s; symmetry; apply Sd1|intro d; symmetry; apply I']).
  destruct (Mx H' C1) as [K|K]; rewrite Ev in K; [left; eapply Qcle_trans; eauto|right; exists (value n ds (pure H') us); auto].
Qed.
Print Assumptions C57_search_optimal_partial.

(* ---- C46 ---- *)
(* one decision, every context possible, a utility that depends on the decision: impute_optimal_policy returns, and no policy is better *)
Theorem C46_single_partial : forall o choose m n a d us, valid_order o -> valid m -> mgraph m = ngraph n -> no_clash (ngraph n) ->
  agent_decisions m = [(a, [d])] -> agent_utilities m = [(a, us)] -> built n -> distribution n -> (exists u, In u us /\ descends (ngraph n) u d) ->
  (forall pv, context_of (doms n) (parents (ngraph n) d) pv -> do_prob n [] pv <> 0) ->
  (forall p t, edge (ngraph n) p d -> has_table n p t -> tkind t <> KTab) ->
  (forall u v, In u (nodes (ngraph n)) -> In v (nodes (ngraph n)) -> joined (ngraph n) [] u v) ->
  exists n' H, impute_optimal_policy o choose m n = (n', None) /\ built n' /\ distribution n' /\ differ_in (eq d) n n' /\ choice n [d] H /\
    (forall b, within n b -> kernel n' d b = pure H d b) /\ fold_right Qcplus 0 (map (expectation n' [] []) us) = value n [d] (pure H) us /\
    forall b, policy n [d] b -> value n [d] b us <= value n [d] (pure H) us.
Proof.
  intros o choose m n a d us O V Eg NC Ea Eu B Hd (u0 & Hu0 & Du0) Pos Kt J. assert (Cm : consistent m) by apply V. destruct (solo m a [d] us Cm Ea Eu) as (Nds & Nus & Iu & Id & Dm & UC & DC).
  assert (W : wf_dag (ngraph n)) by apply Hd. assert (NCm : no_clash (mgraph m)) by (rewrite Eg; auto). assert (Hn : In d (nodes (ngraph n))) by (rewrite <- Eg; apply (proj2 (proj2 V) a d); left; apply Id; left; auto).
  assert (Sr : sufficient_recall m None = Ok true).
  { destruct (C18_sufficient_recall_partial m V NCm UC DC) as (_ & _ & b & Eb & Rb). rewrite Eb. f_equal. apply Rb. intros a' ds K (x & p & Hc). rewrite Ea in K. destruct K as [K|[]]. injection K as <- <-.
    assert (X : forall y z, ~ (y <> z /\ In y [d] /\ In z [d] /\ r_relevant m y z)). { intros y z (N & [<-|[]] & [<-|[]] & _). congruence. }
    destruct p as [|z p]; cbn [app] in Hc; inversion Hc; subst; eapply X; eauto. }
  assert (Dl : decisions m = [d]).
  { assert (ND : NoDup (decisions m)) by (destruct Cm as (_ & _ & N3 & _); exact N3). assert (I1 : In d (decisions m)) by (apply Dm; left; auto). destruct (decisions m) as [|x [|y l]]; [destruct I1| |].
    - destruct I1 as [->|[]]. auto.
    - exfalso. assert (X1 : In x [d]) by (apply Dm; left; auto). assert (X2 : In y [d]) by (apply Dm; right; left; auto). destruct X1 as [<-|[]], X2 as [<-|[]]. inversion ND. apply H1. left; auto. }
  assert (Ret : exists n', impute_optimal_policy o choose m n = (n', None)).
  { unfold impute_optimal_policy, impute_random_policy. rewrite Dl. cbn [loop_net]. destruct (random_set n d B Hd Hn) as (n1 & E1 & B1 & Hd1 & G1 & Dm1 & Cp1 & _). rewrite E1.
    rewrite (with_graph_eq m (ngraph n1)) by congruence. rewrite Sr. destruct (differ_single n n1 d (uni_tab n d) B1 Hd G1 Dm1 Cp1 (proj1 (proj2 Hd1))) as [Df1 _]. assert (T := differ_twin _ _ _ Hd Hd1 Df1). assert (Ed1 := t_dom _ _ _ T).
    destruct (proj1 (C15_valid_order o m (decisions m) ltac:(rewrite Eg; auto) O)) as (l & El & Nl & Il & _). { rewrite Dl. intros x [<-|[]]. rewrite Eg. auto. }
    rewrite El. assert (l = [d]). { rewrite Dl in Il. destruct l as [|x [|y l]].
      - destruct (proj2 (Il d) (or_introl eq_refl)).
      - destruct (proj1 (Il x) (or_introl eq_refl)) as [<-|[]]. auto.
      - exfalso. destruct (proj1 (Il x) (or_introl eq_refl)) as [<-|[]], (proj1 (Il y) (or_intror (or_introl eq_refl))) as [<-|[]]. inversion Nl. apply H1. left; auto. }
    subst l. cbn [rev app loop_net].
    destruct (C45_returns_partial o m n1 d a O V) as [n2 E2].
    - split; [intros x K|intros x e K]; cbn in *; rewrite ?Ea, ?Eu in *.
      + destruct K as [<-|[]]. exists d. exists [d]. split; left; auto.
      + destruct K as (k & [K|[]] & Hk). injection K as <- <-. exists u0. exists us. split; [left|]; auto.
    - congruence.
    - rewrite G1. auto.
    - auto.
    - auto.
    - apply Id. left; auto.
    - exists u0. rewrite G1. split; auto. apply Iu; auto.
    - intros pv Cx. rewrite G1 in Cx. assert (Cn : context_of (doms n) (parents (ngraph n) d) pv) by (apply (context_frame n1 n); auto; intros v s; symmetry; apply Df1). destruct (dist_lookup n d Hd Hn) as [_ Ned]. destruct (dom_of (doms n) d) as [|x0 l0] eqn:Ex; [congruence|].
      assert (Hx0 : In x0 (dom_of (doms n) d)) by (rewrite Ex; left; auto). assert (Ek : keys pv = parents (ngraph n) d) by apply Cn. assert (Hk : forall v, In v (keys pv) -> edge (ngraph n) v d) by (intros v K; rewrite Ek in K; apply edge_parents; auto).
      rewrite <- (do_prob_parents n1 d x0) by (rewrite ?G1, ?Ed1; auto). rewrite (twin_do n n1 d x0 pv T). rewrite do_prob_parents; auto.
    - intros p t K Ht. rewrite G1 in K. apply (Kt p t K). apply Df1; auto. intros <-. apply (no_self_edge _ _ (proj2 W) K).
    - intros e b K. left. cbn [has_role] in K. rewrite Ea in K. destruct K as (k & [K|[]] & Hk). injection K as <- <-. destruct Hk as [<-|[]]. auto.
    - rewrite G1. auto.
    - rewrite E2. eauto. }
  destruct Ret as [n' En]. destruct (C57_recall_optimal o choose m n a [d] us n' O V Eg NC Ea Eu B Hd Sr En) as (B' & Hd' & Df & H & Ch & Ke & Ev & Mx). exists n', H. split; auto. split; auto. split; auto. split.
  - destruct Df as (D1 & D2 & D3). split; auto. split; auto. intros v t K. apply D3. intros [->|[]]. apply K. auto.
  - split; auto. split; [intros b Wb; apply Ke; [left|]; auto|]. auto.
Qed.
Print Assumptions C46_single_partial.

(* two decisions: D observes X, E observes X and D; the payoff is 1 if E guesses X, plus D *)
Definition ex_two_graph : graph := mkG ["X"; "D"; "E"; "U"] [("X", "D"); ("X", "E"); ("D", "E"); ("X", "U"); ("D", "U"); ("E", "U")].
Definition ex_two : macid := diagram_of ex_two_graph [("0", ["D"; "E"])] [("0", ["U"])].
Definition ex_two_net : net := made ex_two_graph [("X", RDist coin); ("D", RDom [0; 1]); ("E", RDom [0; 1]);
  ("U", tab_of "U" [0; 1; q 2 1] ["X"; "D"; "E"] [2; 2; 2]%nat [[0;1;0]; [1;0;0]; [0;0;1]; [0;1;0]; [1;0;0]; [0;1;0]; [0;1;0]; [0;0;1]])].
Lemma ex_two_built : built ex_two_net /\ distribution ex_two_net.
Proof.
  split; [apply made_built|apply dist_check_ok]; [vm_compute; reflexivity| |vm_compute; reflexivity|vm_compute; reflexivity]. rels_ok; [split; [exact I|exact coin_dict]|split; exact I|split; exact I|apply tab_admissible].
Qed.
Definition recall_is (m : macid) (b : bool) : bool := match sufficient_recall m None with Ok c => Bool.eqb b c | _ => false end.
Example C57_example : valid ex_two /\ mgraph ex_two = ngraph ex_two_net /\ no_clash (ngraph ex_two_net) /\ agent_decisions ex_two = [("0", ["D"; "E"])] /\ agent_utilities ex_two = [("0", ["U"])] /\
  built ex_two_net /\ distribution ex_two_net /\ sufficient_recall ex_two None = Ok true /\
  let r := impute_optimal_policy (fun _ l => l) (fun l => hd_error l) ex_two ex_two_net in
  returned r = true /\ fold_right Qcplus 0 (map (expectation (fst r) [] []) ["U"]) = q 2 1.
Proof.
  destruct ex_two_built as [B Hd]. split; [apply LCheck.check_ok; vm_compute; reflexivity|]. split; [vm_compute; reflexivity|]. split; [apply clash_free_ok; vm_compute; reflexivity|]. split; [vm_compute; reflexivity|]. split; [vm_compute; reflexivity|].
  split; [exact B|]. split; [exact Hd|]. split; [vm_compute; reflexivity|]. split; [vm_compute; reflexivity|]. apply Qc_is_canon. vm_compute. reflexivity.
Qed.
(* two decisions that do not observe each other: no sufficient recall *)
Definition ex_team_graph : graph := mkG ["D"; "E"; "U"] [("D", "U"); ("E", "U")].
Definition ex_team : macid := diagram_of ex_team_graph [("0", ["D"; "E"])] [("0", ["U"])].
Definition ex_team_net : net := made ex_team_graph [("D", RDom [0; 1]); ("E", RDom [0; 1]); ("U", tab_of "U" [0; 1; q 2 1] ["D"; "E"] [2; 2]%nat [[0;1;0]; [1;0;0]; [1;0;0]; [0;0;1]])].
Lemma ex_team_built : built ex_team_net /\ distribution ex_team_net.
Proof.
  split; [apply made_built|apply dist_check_ok]; [vm_compute; reflexivity| |vm_compute; reflexivity|vm_compute; reflexivity]. rels_ok; [split; exact I|split; exact I|apply tab_admissible].
Qed.
Example C57_search_example : valid ex_team /\ mgraph ex_team = ngraph ex_team_net /\ agent_decisions ex_team = [("0", ["D"; "E"])] /\ agent_utilities ex_team = [("0", ["U"])] /\
  built ex_team_net /\ distribution ex_team_net /\ unset_uniform ex_team_net /\ sufficient_recall ex_team None = Ok false /\
  let r := impute_optimal_policy (fun _ l => l) (fun l => hd_error l) ex_team ex_team_net in
  returned r = true /\ fold_right Qcplus 0 (map (expectation (fst r) [] []) ["U"]) = q 2 1.
Proof.
  destruct ex_team_built as [B Hd]. split; [apply LCheck.check_ok; vm_compute; reflexivity|]. split; [vm_compute; reflexivity|]. split; [vm_compute; reflexivity|]. split; [vm_compute; reflexivity|].
  split; [exact B|]. split; [exact Hd|]. split; [apply unset_check; [exact B|exact Hd|vm_compute; reflexivity]|]. split; [vm_compute; reflexivity|]. split; [vm_compute; reflexivity|]. apply Qc_is_canon. vm_compute. reflexivity.
Qed.
(* the hypotheses of C46_single_partial that C45_example does not list *)
Example C46_example : agent_decisions ex_bet = [("0", ["D"])] /\ agent_utilities ex_bet = [("0", ["U"])] /\ descends (ngraph ex_bet_net) "U" "D" /\
  (forall u v, In u (nodes (ngraph ex_bet_net)) -> In v (nodes (ngraph ex_bet_net)) -> joined (ngraph ex_bet_net) [] u v) /\
  let r := impute_optimal_policy (fun _ l => l) (fun l => hd_error l) ex_bet ex_bet_net in
  returned r = true /\ fold_right Qcplus 0 (map (expectation (fst r) [] []) ["U"]) = 1.
Proof.
  split; [vm_compute; reflexivity|]. split; [vm_compute; reflexivity|]. split; [exists "U"; split; [apply PPatterns.edge_in; vm_compute; reflexivity|constructor]|]. split.
  - apply (joined_hub _ "U"). intros v Hv. assert (K : In v ["X"; "D"; "U"]) by exact Hv. destruct K as [<-|[<-|[<-|[]]]]; [| |constructor]; (apply joined_step with "U"; [left; split; [apply PPatterns.edge_in; vm_compute; reflexivity|intros []]|constructor]).
  - split; [vm_compute; reflexivity|]. apply Qc_is_canon. vm_compute. reflexivity.
Qed.
