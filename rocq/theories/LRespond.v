(* Lemmas: a rule that is a best response in one network is one in every network that differs from it only in what is irrelevant to the
   decision. *)
From Coq Require Import String List Bool Arith QArith Qcanon Lia Permutation.
Import ListNotations.
From Verif Require Import MBase MGraph MMacid MCpd MNet MProb MQuery MPolicy Spec SpecM SpecC SpecN SpecQ SpecPol LBase LGraph LQc LCpd LNet LSum LBayes LSep LQuery LDo LInter LFactor LEffects LRoles LReach LTrim LActive LMech LPolicy LValue LQcArith LSearch LLike LOptimal LOptDec LBest LSolve.
Local Open Scope Qc_scope.

(* a network like n with the conditional probabilities of n' at the nodes L *)
Lemma twin_net : forall X L n n', distribution n -> distribution n' -> twin X n n' -> (forall v, X v -> In v L) -> incl L (nodes (ngraph n)) ->
  exists k, distribution k /\ differ_in (fun v => In v L) n k /\ twin (fun _ => False) n' k.
Proof.
  intros X L n n' Hd Hd' T HL IL. assert (G := t_graph _ _ _ T). assert (D := t_dom _ _ _ T). assert (Ck := kernel_cond n' Hd').
  assert (Po : policy n L (kernel n')).
  { intros d Hd1. assert (Hn : In d (nodes (ngraph n'))) by (rewrite G; auto). split; [|split].
    - intros a a' E1 E2. apply (k_local _ _ _ Ck d Hn). intros u [->|K]; auto. apply E2. rewrite <- G. auto.
    - intro a. apply (k_nonneg _ _ _ Ck d); auto.
    - intros a E. change (fold_right Qcplus 0) with qsum. rewrite <- (k_normal _ _ _ Ck d a Hn); [rewrite D; auto|]. intros p K. rewrite D. apply E. rewrite <- G. auto. }
  destruct (follow_net_ok n L (kernel n') Hd IL Po) as (F1 & F2 & F3). exists (follow_net n L (kernel n')). split; auto. split; auto.
  assert (Gk : ngraph (follow_net n L (kernel n')) = ngraph n) by apply F2. assert (Dk := same_dom_of _ _ (proj1 (proj2 F2))).
  constructor; [congruence|intro v; rewrite Dk, D; auto|]. intros v a Hv _ Wa. assert (Wn : within n a) by (intros u Hu; rewrite <- D; apply Wa; rewrite G; auto).
  destruct (in_dec String.string_dec v L) as [I|I]; [apply F3; auto|]. rewrite <- (kernel_differ (fun v => In v L) n _ v a (proj1 (proj2 Hd)) (proj1 (proj2 F1)) F2 I).
  symmetry. apply (t_kernel _ _ _ T); auto. rewrite <- G. auto.
Qed.
Lemma pay_twin : forall n n' S ud d pv x h, distribution n -> distribution n' -> no_clash (ngraph n) -> is_mech_graph (ngraph n) h ->
  twin (fun v => v = d \/ In v S) n n' -> incl S (nodes (ngraph n)) -> In d (nodes (ngraph n)) -> In x (dom_of (doms n) d) -> context_of (doms n) (parents (ngraph n) d) pv ->
  (forall s u, In s S -> In u ud -> ~ dconn h (family (ngraph n) d) (mec s) u) -> (forall u, In u ud -> descends (ngraph n) u d) ->
  do_prob n [] pv <> 0 -> do_prob n' [] pv <> 0 -> pay n' ud d pv x = pay n ud d pv x.
Proof.
  intros n n' S ud d pv x h Hd Hd' NC M T IS Hn Hx Cx Sep De P1 P2. assert (G := t_graph _ _ _ T). assert (D := t_dom _ _ _ T).
  destruct (twin_net _ (d :: S) n n' Hd Hd' T) as (k & Hk & Df & Tk); [intros v [->|K]; [left|right]; auto|intros v [<-|K]; auto|].
  assert (Td : twin (eq d) n' k) by (apply (twin_mono (fun _ => False)); [intros ? []|auto]). rewrite <- (twin_pay n' k ud d pv x Td).
  assert (Ek : forall v, In v (keys pv) -> edge (ngraph n) v d). { intros v K. apply edge_parents. destruct Cx as [<- _]. exact K. }
  apply (pay_irrelevant n k S ud d pv x h); auto.
  - destruct Df as (D1 & D2 & D3). split; auto. split; auto. intros v t K. apply D3. intros [<-|K']; apply K; auto.
  - assert (Gk : ngraph k = ngraph n) by apply Df. assert (Dk := same_dom_of _ _ (proj1 (proj2 Df))).
    rewrite <- (do_prob_parents k d x pv) by (rewrite ?Gk, ?Dk; auto). rewrite (twin_do n' k d x pv Td). rewrite do_prob_parents by (rewrite ?G, ?D; auto). auto.
Qed.

(* in what may be observed, a best rule does at least as well as every action *)
Lemma local_best : forall k vs d, distribution k -> In d (nodes (ngraph k)) -> incl vs (nodes (ngraph k)) ->
  (forall k2, distribution k2 -> twin (eq d) k k2 -> eu k2 vs <= eu k vs) ->
  forall pv x0, context_of (doms k) (parents (ngraph k) d) pv -> In x0 (dom_of (doms k) d) -> do_prob k [] pv <> 0 ->
  pay k vs d pv x0 <= qsum (map (fun y => kernel k d (upd (given pv (fun _ => 0)) d y) * pay k vs d pv y) (dom_of (doms k) d)).
Proof.
  intros k vs d Hd Hn Iv Best pv x0 Cx Hx0 Pv. assert (W : wf_dag (ngraph k)) by apply Hd. assert (Ck := kernel_cond k Hd). set (ps := parents (ngraph k) d) in *. set (D := dom_of (doms k)).
  assert (Ek : keys pv = ps) by apply Cx. assert (Nps : NoDup ps) by (apply nodup_parents; apply W). assert (Ips : incl ps (nodes (ngraph k))) by (intros p K; apply edge_parents in K; apply W in K; tauto).
  assert (Nd : ~ In d ps) by (intro K; apply edge_parents in K; apply (no_self_edge _ _ (proj2 W) K)).
  assert (Dv : forall v x, In (v, x) pv -> In x (D v)). { intros v x K. destruct Cx as [_ Cx]. destruct (Cx v x K) as (l & L1 & L2). unfold D, dom_of. rewrite L1. auto. }
  set (b := fun (_ : node) (a : asg) => if agrees pv a then (if Qc_eq_dec (a d) x0 then 1 else 0) else kernel k d a).
  assert (Ag : forall a a', (forall p, In p ps -> a p = a' p) -> agrees pv a = agrees pv a').
  { intros a a' E. assert (X := agrees_on pv a a'). rewrite Ek in X. specialize (X E). destruct (agrees pv a), (agrees pv a'); auto; [|symmetry in X]; apply (f_equal this) in X; discriminate. }
  assert (Agu : forall a x, agrees pv (upd a d x) = agrees pv a). { intros a x. apply Ag. intros p Hp. apply upd_other. intros ->. auto. }
  assert (NDd : NoDup (D d)) by (apply dom_nodup; auto).
  assert (Po : policy k [d] b).
  { intros d' [<-|[]]. unfold b. split; [|split].
    - intros a a' E1 E2. rewrite (Ag a a') by (intros p K; apply E2, edge_parents; auto). rewrite E1. destruct (agrees pv a'); auto. apply (k_local _ _ _ Ck d Hn). intros u [->|K]; auto.
    - intro a. destruct (agrees pv a); [destruct (Qc_eq_dec _ _); discriminate|]. apply (k_nonneg _ _ _ Ck d); auto.
    - intros a E. change (fold_right Qcplus 0) with qsum. destruct (agrees pv a) eqn:Ea.
      + rewrite (qsum_single _ Qc_eq_dec _ _ x0); auto; [rewrite Agu, Ea, upd_same; destruct (Qc_eq_dec x0 x0); congruence|]. intros y Hy Ne. rewrite Agu, Ea, upd_same. destruct (Qc_eq_dec y x0); congruence.
      + rewrite (qsum_ext _ _ (fun x => kernel k d (upd a d x))); [apply (k_normal _ _ _ Ck d a Hn E)|]. intros x Hx. rewrite Agu, Ea. auto. }
  assert (I1 : incl [d] (nodes (ngraph k))) by (intros v [<-|[]]; auto). destruct (follow_net_ok k [d] b Hd I1 Po) as (F1 & F2 & F3). set (k2 := follow_net k [d] b) in *.
  assert (Tw : twin (eq d) k k2). { apply differ_twin; auto. destruct F2 as (D1 & D2 & D3). split; auto. split; auto. intros v t K. apply D3. intros [K'|[]]. auto. }
  assert (Le := Best k2 F1 Tw). assert (G2 := t_graph _ _ _ Tw). assert (Dm2 := t_dom _ _ _ Tw). assert (Ck2 := kernel_cond k2 F1).
  rewrite (eu_parts k vs d Hd Iv Hn) in Le. rewrite (eu_parts k2 vs d) in Le; [|auto|rewrite G2; auto|rewrite G2; auto]. rewrite G2 in Le. fold ps D in Le.
  rewrite (total_dom_perm (dom_of (doms k2)) D) in Le by (intros v _; rewrite Dm2; apply Permutation_refl). rewrite Dm2 in Le. fold D in Le.
  set (F := fun a : asg => qsum (map (fun x => kernel k d (upd a d x) * part k vs d x (ctx a ps)) (D d))) in Le. set (C0 := part k vs d x0 pv).
  assert (Cxe : forall a, agrees pv a = true -> ctx a ps = pv).
  { intros a E. rewrite agrees_iff in E. unfold ctx. rewrite <- Ek. unfold keys. rewrite map_map. rewrite <- (map_id pv) at 2. apply map_ext_in. intros [v x] K. cbn. rewrite (E v x K). auto. }
  rewrite (total_ext_in D ps _ (fun a => F a + (if agrees pv a then 1 else 0) * (C0 + - F a))) in Le.
  2:{ intros a Ha _.
    assert (Kb : forall x, In x (D d) -> kernel k2 d (upd a d x) = b d (upd a d x)).
    { intros x Hx. destruct (extend_within k (upd a d x) (fun v => v = d \/ edge (ngraph k) v d) (fam_dec (ngraph k) d) Hd) as (a' & Wa & Ea).
      - intros v K Hv. destruct (String.string_dec v d) as [->|Nv]; [rewrite upd_same; auto|]. rewrite upd_other by auto. apply Ha. apply edge_parents. destruct K; [contradiction|auto].
      - rewrite (k_local _ _ _ Ck2 d ltac:(rewrite G2; auto) (upd a d x) a'). 2:{ intros v [->|K]; symmetry; apply Ea; [left; auto|right; rewrite <- G2; auto]. }
        rewrite (F3 d a' ltac:(left; auto) Wa). apply Po; [left; auto|rewrite Ea; auto|intros p K; rewrite Ea; auto]. }
    rewrite (qsum_ext _ _ (fun x => b d (upd a d x) * part k vs d x (ctx a ps))) by (intros x Hx; rewrite Kb by auto; rewrite (twin_part k k2) by auto; auto).
    unfold b. destruct (agrees pv a) eqn:Ea.
    - rewrite (qsum_single _ Qc_eq_dec _ _ x0); auto.
      + rewrite Agu, Ea, upd_same. destruct (Qc_eq_dec x0 x0); [|congruence]. rewrite (Cxe a Ea). unfold C0. ring.
      + intros y Hy Ne. rewrite Agu, Ea, upd_same. destruct (Qc_eq_dec y x0); [congruence|ring].
    - rewrite (qsum_ext _ _ (fun x => kernel k d (upd a d x) * part k vs d x (ctx a ps))) by (intros x Hx; rewrite Agu, Ea; auto). fold (F a). ring. }
  rewrite total_plus in Le. assert (EF : ext F).
  { intros a a' E. unfold F. apply qsum_ext. intros x Hx. f_equal; [apply (k_local _ _ _ Ck d Hn); intros u _; unfold upd; rewrite (E u I); auto|]. f_equal. apply map_ext. intro p. rewrite (E p I). auto. }
  assert (Z : total D ps (fun a => (if agrees pv a then 1 else 0) * (C0 + - F a)) (fun _ => 0) = C0 + - F (given pv (fun _ => 0))).
  { rewrite (total_dom_perm D (ndom k) ps) by (intros v Hv; rewrite ndom_in by auto; apply Permutation_refl).
    rewrite (collapse (ndom k) (fun v => ndom_nodup k v Hd) pv ps (fun a => C0 + - F a)); auto.
    - rewrite Ek. replace (filter (fun v => negb (mem v ps)) ps) with (@nil node); [reflexivity|]. clear. assert (X : forall l, incl l ps -> [] = filter (fun v => negb (mem v ps)) l). { induction l as [|v l IH]; intro I; cbn; auto. rewrite (proj2 (mem_In v ps)) by (apply I; left; auto). cbn. apply IH. intros u Hu. apply I; right; auto. } apply X, incl_refl.
    - rewrite Ek. auto.
    - rewrite Ek. apply incl_refl.
    - intros v x K. assert (Hv : In v ps) by (rewrite <- Ek; apply in_map_iff; exists (v, x); auto). rewrite ndom_in by auto. apply Dv. auto.
    - intros a a' E. rewrite (EF a a' E). auto. }
  rewrite Z in Le. set (g0 := given pv (fun _ => 0)) in *.
  assert (Le' : C0 <= F g0). { set (T := total D ps F (fun _ => 0)) in *. apply (Qcplus_le_compat _ _ (- T + F g0) (- T + F g0)) in Le; [|apply Qcle_refl]. replace (T + (C0 + - F g0) + (- T + F g0)) with C0 in Le by ring. replace (T + (- T + F g0)) with (F g0) in Le by ring. auto. }
  assert (Eg : ctx g0 ps = pv). { apply Cxe. apply agrees_iff. intros v x K. apply given_in; auto. rewrite Ek. auto. }
  assert (Ed : forall v, In v (keys pv) -> edge (ngraph k) v d) by (intros v K; rewrite Ek in K; apply edge_parents; auto).
  assert (Pd : forall x, In x (D d) -> do_prob k [(d, x)] pv = do_prob k [] pv) by (intros x Hx; apply do_prob_parents; auto).
  assert (Pa : forall x, In x (D d) -> part k vs d x pv = do_prob k [] pv * pay k vs d pv x). { intros x Hx. rewrite part_pay; auto; [rewrite Pd; auto|rewrite Pd; auto]. }
  assert (Pp : 0 < do_prob k [] pv). { destruct (Qcle_lt_or_eq _ _ (Qc_le_refl' 0)) as [X|_]; [exfalso; apply (Qclt_not_eq _ _ X); auto|]. assert (P0 : 0 <= do_prob k [] pv). { rewrite do_prob_P; [|constructor|intros ? []]. apply P_nonneg. apply do_kernel_cond; auto. intros v x K. discriminate. } destruct (Qcle_lt_or_eq _ _ P0); auto. congruence. }
  unfold C0 in Le'. rewrite Pa in Le' by auto. unfold F in Le'. rewrite Eg in Le'.
  rewrite (qsum_ext _ _ (fun x => do_prob k [] pv * (kernel k d (upd g0 d x) * pay k vs d pv x))) in Le' by (intros x Hx; rewrite Pa by auto; ring). rewrite qsum_scale in Le'.
  apply (Qcmult_lt_0_le_reg_r _ _ (do_prob k [] pv)); auto. rewrite !(Qcmult_comm _ (do_prob k [] pv)). exact Le'.
Qed.

Lemma respond : forall q q1 k S us vs ud d h, distribution q -> distribution q1 -> distribution k -> no_clash (ngraph q) -> is_mech_graph (ngraph q) h ->
  twin (fun v => v = d \/ In v S) q k -> twin (eq d) q q1 -> incl S (nodes (ngraph q)) -> In d (nodes (ngraph q)) ->
  (forall a, within q a -> kernel q1 d a = kernel k d a) ->
  (forall v a, In v (nodes (ngraph q)) -> v <> d -> within q a -> kernel k v a = 0 -> kernel q v a = 0) ->
  NoDup us -> incl us (nodes (ngraph q)) -> ~ In d us -> NoDup vs -> incl vs (nodes (ngraph q)) -> ~ In d vs -> NoDup ud ->
  (forall u, In u ud <-> In u us /\ descends (ngraph q) u d) -> (forall u, In u ud <-> In u vs /\ descends (ngraph q) u d) ->
  (forall s u, In s S -> In u ud -> ~ dconn h (family (ngraph q) d) (mec s) u) ->
  (forall k2, distribution k2 -> twin (eq d) k k2 -> eu k2 vs <= eu k vs) ->
  eu q us <= eu q1 us.
Proof.
  intros q q1 k S us vs ud d h Hq Hq1 Hk NC Mg Tk T1 IS Hn Ek Sup Nu Iu Du Nv Iv Dv Nud Eu Ev Sep Best.
  assert (W : wf_dag (ngraph q)) by apply Hq. assert (Gk := t_graph _ _ _ Tk). assert (Dk := t_dom _ _ _ Tk). assert (G1 := t_graph _ _ _ T1). assert (D1 := t_dom _ _ _ T1).
  assert (Cq := kernel_cond q Hq). assert (Cq1 := kernel_cond q1 Hq1). assert (Ckk := kernel_cond k Hk).
  rewrite (eu_parts q us d Hq Iu Hn). rewrite (eu_parts q1 us d); [|auto|rewrite G1; auto|rewrite G1; auto]. rewrite G1. set (ps := parents (ngraph q) d). set (D := dom_of (doms q)).
  rewrite (total_dom_perm (dom_of (doms q1)) D) by (intros v _; rewrite D1; apply Permutation_refl). apply total_le. intros a Ha _. rewrite D1. fold D.
  assert (Nd : ~ In d ps) by (intro K; apply edge_parents in K; apply (no_self_edge _ _ (proj2 W) K)).
  assert (Cx : context_of (doms q) ps (ctx a ps)) by (apply ctx_context; auto; apply dist_ready; auto).
  assert (Cxk : context_of (doms k) (parents (ngraph k) d) (ctx a ps)) by (rewrite Gk; apply ctx_context; [unfold ps; rewrite <- Gk; apply dist_ready; auto|intros p Hp; rewrite Dk; auto]).
  assert (Ed : forall v, In v (keys (ctx a ps)) -> edge (ngraph q) v d) by (intros v Hv; rewrite keys_ctx in Hv; apply edge_parents; auto).
  assert (Ps : forall x, In x (D d) -> do_prob q [(d, x)] (ctx a ps) = do_prob q [] (ctx a ps)) by (intros x Hx; apply do_prob_parents; auto).
  rewrite (qsum_ext _ (fun x => kernel q1 d (upd a d x) * part q1 us d x (ctx a ps)) (fun x => kernel k d (upd a d x) * part q us d x (ctx a ps))).
  2:{ intros x Hx. rewrite (twin_part q q1) by auto. f_equal. destruct (extend_within q (upd a d x) (fun v => v = d \/ edge (ngraph q) v d) (fam_dec (ngraph q) d) Hq) as (a' & Wa & Ea).
      - intros v K Hv. destruct (String.string_dec v d) as [->|Nv']; [rewrite upd_same; auto|]. rewrite upd_other by auto. apply Ha. apply edge_parents. destruct K; [contradiction|auto].
      - rewrite (k_local _ _ _ Cq1 d ltac:(rewrite G1; auto) (upd a d x) a'). 2:{ intros v [->|K]; symmetry; apply Ea; [left; auto|right; rewrite <- G1; auto]. }
        rewrite (Ek a' Wa). apply (k_local _ _ _ Ckk d ltac:(rewrite Gk; auto)). intros v [->|K]; apply Ea; [left; auto|right; rewrite <- Gk; auto]. }
  assert (Nq : qsum (map (fun x => kernel q d (upd a d x)) (D d)) = 1) by (apply (k_normal _ _ _ Cq d a Hn); intros p K; apply Ha; apply edge_parents; auto).
  assert (Nk : qsum (map (fun x => kernel k d (upd a d x)) (D d)) = 1). { unfold D. rewrite <- Dk. apply (k_normal _ _ _ Ckk d a ltac:(rewrite Gk; auto)). intros p K. rewrite Dk. apply Ha. apply edge_parents. rewrite <- Gk. auto. }
  destruct (Qc_eq_dec (do_prob q [] (ctx a ps)) 0) as [Z|Z].
  { rewrite !(qsum_ext _ (fun x => _ * part q us d x (ctx a ps)) (fun _ => 0)); [apply Qcle_refl| |]; intros x Hx; rewrite part_zero by (auto; rewrite Ps; auto); ring. }
  assert (Pp : 0 <= do_prob q [] (ctx a ps)). { rewrite do_prob_P; [|constructor|intros ? []]. apply P_nonneg. apply do_kernel_cond; auto. intros v x K. discriminate. }
  assert (HDd : exists y, In y (D d)). { destruct (dist_lookup q d Hq Hn) as [_ Ne]. unfold D. destruct (dom_of (doms q) d) as [|y l]; [congruence|]. exists y. left; auto. } destruct HDd as [y0 Hy0].
  (* the context is possible in k, too *)
  assert (Zk : do_prob k [] (ctx a ps) <> 0).
  { intro K. apply Z. rewrite <- (do_prob_parents k d y0) in K by (rewrite ?Gk, ?Dk; auto). rewrite <- (Ps y0 Hy0). rewrite do_prob_others in K. rewrite do_prob_others. rewrite Gk in K.
    rewrite (total_dom_perm (dom_of (doms k)) D) in K by (intros v _; rewrite Dk; apply Permutation_refl).
    assert (Nn : forall n', distribution n' -> forall b, 0 <= others n' d b). { intros n' Hn' b. unfold others. apply qprod_nonneg. intros z Hz. apply in_map_iff in Hz. destruct Hz as (v & <- & Hv). destruct (in_dec String.string_dec v [d]); [discriminate|]. apply (k_nonneg _ _ _ (kernel_cond n' Hn') v b Hv). }
    assert (TP : forall l f (a0 : asg), (forall b, (forall v, In v l -> In (b v) (D v)) -> (forall v, ~ In v l -> b v = a0 v) -> 0 <= f b) -> total D l f a0 = 0 -> forall f', (forall b, (forall v, In v l -> In (b v) (D v)) -> (forall v, ~ In v l -> b v = a0 v) -> f b = 0 -> f' b = 0) -> total D l f' a0 = 0).
    { clear. induction l as [|v l IH]; intros f a0 H0 E f' H'; cbn [total] in *; [apply H'; auto; intros ? []|].
      assert (Q : forall l0 (g : outcome -> Qc), (forall x, In x l0 -> 0 <= g x) -> qsum (map g l0) = 0 -> forall x, In x l0 -> g x = 0).
      { clear. induction l0 as [|y l0 IH]; intros g H E x Hx; [destruct Hx|]. cbn [map] in E. change (qsum (g y :: map g l0)) with (g y + qsum (map g l0)) in E.
        assert (A : 0 <= g y) by (apply H; left; auto). assert (B : 0 <= qsum (map g l0)). { rewrite <- (qsum_zero _ l0). apply qsum_le. intros z Hz. apply H. right; auto. }
        assert (E1 : g y = 0). { apply Qcle_antisym; auto. rewrite <- E. rewrite <- (Qcplus_0_r (g y)) at 1. apply Qcplus_le_compat; [apply Qcle_refl|auto]. }
        destruct Hx as [<-|Hx]; auto. apply IH; auto; [intros; apply H; right; auto|]. rewrite E1, Qcplus_0_l in E. auto. }
      assert (Ob : forall x b, In x (D v) -> (forall w, In w l -> In (b w) (D w)) -> (forall w, ~ In w l -> b w = upd a0 v x w) -> (forall w, In w (v :: l) -> In (b w) (D w)) /\ (forall w, ~ In w (v :: l) -> b w = a0 w)).
      { intros x b Hx B1 B2. split.
        - intros w [<-|Hw]; auto. destruct (in_dec String.string_dec v l); [auto|]. rewrite B2 by auto. rewrite upd_same. auto.
        - intros w Hw. rewrite B2; [apply upd_other; intros ->; apply Hw; left; auto|]. intro K; apply Hw; right; auto. }
      rewrite (qsum_ext _ _ (fun _ => 0)); [apply qsum_zero|]. intros x Hx. apply (IH f (upd a0 v x)).
      - intros b B1 B2. destruct (Ob x b Hx B1 B2). apply H0; auto.
      - apply (Q (D v) (fun x => total D l f (upd a0 v x))); auto. intros y Hy. apply total_nonneg. intros b B1 B2. destruct (Ob y b Hy B1 B2). apply H0; auto.
      - intros b B1 B2. destruct (Ob x b Hx B1 B2). apply H'; auto. }
    apply (TP _ _ _) with (2 := K).
    - intros b _ _. apply Qc_mul_nonneg; [destruct (agrees _ b); discriminate|apply Nn; auto].
    - intros b Hb _ E. destruct (agrees (ctx a ps ++ [(d, y0)]) b); [|apply Qcmult_0_l]. rewrite Qcmult_1_l in *. unfold others in *. rewrite Gk in E.
      assert (X : forall l, incl l (nodes (ngraph q)) -> qprod (map (fun v => if in_dec String.string_dec v [d] then 1 else kernel k v b) l) = 0 -> qprod (map (fun v => if in_dec String.string_dec v [d] then 1 else kernel q v b) l) = 0).
      { induction l as [|v l IH]; intros I E0; cbn [map] in *; [auto|]. change (qprod (?x :: ?y)) with (x * qprod y) in *. apply Qcmult_integral in E0. destruct E0 as [E0|E0].
        - destruct (in_dec String.string_dec v [d]) as [|Ni]; [discriminate|]. rewrite (Sup v b); auto; [ring|apply I; left; auto|intros ->; apply Ni; left; auto].
        - rewrite (IH (fun u Hu => I u (or_intror Hu)) E0). ring. }
      apply X; auto. apply incl_refl. }
  assert (Pq : forall x, In x (D d) -> part q us d x (ctx a ps) = do_prob q [] (ctx a ps) * pay q us d (ctx a ps) x). { intros x Hx. rewrite part_pay; auto; [rewrite Ps; auto|rewrite Ps; auto]. }
  set (pv := ctx a ps) in *. set (R := qsum (map (expectation q [] pv) (filter (fun u => negb (mem u ud)) us))).
  assert (Pm : forall x, In x (D d) -> pay q us d pv x = pay q ud d pv x + R) by (intros x Hx; apply pay_more; auto).
  set (Rk := qsum (map (expectation k [] pv) (filter (fun u => negb (mem u ud)) vs))).
  assert (Pk : forall x, In x (D d) -> pay k vs d pv x = pay q ud d pv x + Rk).
  { intros x Hx. rewrite <- (pay_twin q k S ud d pv x h); auto; [|intros u Hu; apply Eu in Hu; apply Hu]. apply pay_more; auto; rewrite ?Gk, ?Dk; auto. }
  assert (Lb : forall x, In x (D d) -> pay q ud d pv x <= qsum (map (fun y => kernel k d (upd a d y) * pay q ud d pv y) (D d))).
  { intros x Hx. assert (L := local_best k vs d Hk ltac:(rewrite Gk; auto) ltac:(rewrite Gk; auto) Best pv x Cxk ltac:(rewrite Dk; auto) Zk). rewrite Dk in L. fold D in L. rewrite Pk in L by auto.
    rewrite (qsum_ext _ _ (fun y => kernel k d (upd a d y) * pay q ud d pv y + Rk * kernel k d (upd a d y))) in L.
    - rewrite qsum_plus, qsum_scale, Nk, Qcmult_1_r in L. apply (Qcplus_le_compat _ _ (- Rk) (- Rk)) in L; [|apply Qcle_refl]. rewrite <- !Qcplus_assoc, Qcplus_opp_r, !Qcplus_0_r in L. auto.
    - intros y Hy. rewrite Pk by auto. replace (kernel k d (upd (given pv (fun _ => 0)) d y)) with (kernel k d (upd a d y)); [ring|]. apply (k_local _ _ _ Ckk d ltac:(rewrite Gk; auto)). intros u [->|K]; [rewrite !upd_same; auto|]. rewrite Gk in K.
      assert (u <> d) by (intros ->; apply (no_self_edge _ _ (proj2 W) K)). rewrite !upd_other by auto. symmetry. apply given_in; [unfold pv; rewrite keys_ctx; apply nodup_parents; apply W|]. unfold pv, ctx. apply in_map_iff. exists u. split; auto. apply edge_parents; auto. }
  set (B := qsum (map (fun y => kernel k d (upd a d y) * pay q ud d pv y) (D d))) in *.
  assert (E1 : qsum (map (fun x => kernel k d (upd a d x) * part q us d x pv) (D d)) = do_prob q [] pv * (B + R)).
  { rewrite (qsum_ext _ _ (fun x => do_prob q [] pv * (kernel k d (upd a d x) * pay q ud d pv x + R * kernel k d (upd a d x)))); [|intros x Hx; rewrite Pq, Pm by auto; ring]. rewrite qsum_scale, qsum_plus, qsum_scale, Nk. unfold B. ring. }
  assert (E2 : qsum (map (fun x => kernel q d (upd a d x) * part q us d x pv) (D d)) = do_prob q [] pv * (qsum (map (fun x => kernel q d (upd a d x) * pay q ud d pv x) (D d)) + R)).
  { rewrite (qsum_ext _ _ (fun x => do_prob q [] pv * (kernel q d (upd a d x) * pay q ud d pv x + R * kernel q d (upd a d x)))); [|intros x Hx; rewrite Pq, Pm by auto; ring]. rewrite qsum_scale, qsum_plus, qsum_scale, Nq. ring. }
  rewrite E1, E2. rewrite !(Qcmult_comm (do_prob q [] pv)). apply Qcmult_le_compat_r; auto. apply Qcplus_le_compat; [|apply Qcle_refl].
  apply Qcle_trans with (qsum (map (fun x => B * kernel q d (upd a d x)) (D d))).
  - apply qsum_le. intros x Hx. rewrite (Qcmult_comm B). rewrite !(Qcmult_comm (kernel q d (upd a d x))). apply Qcmult_le_compat_r; auto. apply (k_nonneg _ _ _ Cq d); auto.
  - rewrite qsum_scale, Nq, Qcmult_1_r. apply Qcle_refl.
Qed.
