(* C80: when effects are defined, and directed paths as possible effects. *)
From Coq Require Import String List Bool Arith QArith Qcanon Lia Permutation.
Import ListNotations.
From Verif Require Import MBase MGraph MPaths MMacid MCpd MNet MProb MQuery MEffects Spec SpecM SpecC SpecN SpecQ SpecPol SpecGen LBase LGraph LRoles LMech LQc LSum LBayes LSep LQuery LDo LInter LFactor LBuilt LNet LTotal LCheck LEffects LLike LSearch LOptTotal LActive LControl PMacid PQuery PEffects PGen PInstr.
From Verif Require LIncent.
Local Open Scope string_scope.
Local Open Scope list_scope.
Local Open Scope Qc_scope.

(* ---- the check of the decisions goes through ---- *)
Lemma edges_into_ok : forall g (iv : list (node * outcome)), wf_graph g -> incl (keys iv) (nodes g) -> NoDup (keys iv) -> exists es, edges_into g iv = Ok es /\ NoDup es /\ forall u v, In (u, v) es -> In v (keys iv) /\ edge g u v.
Proof.
  intros g iv W I N. unfold edges_into. assert (X : exists ess, map_r (fun vx : node * outcome => ps <- get_parents g (fst vx) ;; Ok (map (fun p => (p, fst vx)) ps)) iv = Ok ess /\ NoDup (concat ess) /\ forall u v, In (u, v) (concat ess) -> In v (keys iv) /\ edge g u v).
  { induction iv as [|[v x] iv IH]; [exists []; split; [auto|]; split; [constructor|intros u v []]|]. inversion N as [|? ? N1 N2]; subst. destruct IH as (ess & E & Nd & H); auto; [intros w Hw; apply I; right; auto|].
    cbn [map_r fst]. unfold get_parents at 1. rewrite (proj2 (mem_In v (nodes g))) by (apply I; left; auto). cbn [bind]. rewrite E. cbn [bind]. eexists. split; [reflexivity|]. cbn [concat].
    assert (Hp : forall u w, In (u, w) (map (fun p => (p, v)) (parents g v)) -> w = v /\ edge g u v) by (intros u w K; apply in_map_iff in K; destruct K as (q & K & Hq); injection K as <- <-; split; auto; apply in_parents; auto). split.
    - apply NoDup_app'; auto.
      + apply FinFun.Injective_map_NoDup; [intros p q K; injection K; auto|apply nodup_parents; auto].
      + intros [u w] K1 K2. apply Hp in K1. destruct K1 as [-> _]. apply H in K2. destruct K2 as [K2 _]. contradiction.
    - intros u w K. apply in_app_or in K. destruct K as [K|K]; [apply Hp in K; destruct K as [-> K]; split; [left; auto|auto]|]. apply H in K. destruct K as [K1 K2]. split; [right; auto|auto]. }
  destruct X as (ess & -> & X). exists (concat ess). cbn [bind]. auto.
Qed.
Lemma cut_edges_ok : forall es h, NoDup es -> (forall u v, In (u, v) es -> edge h u v) -> exists h', cut_edges h es = Ok h'.
Proof.
  induction es as [|[u v] es IH]; intros h N H; cbn [cut_edges]; [eauto|]. inversion N as [|? ? N1 N2]; subst.
  assert (R : exists h', nx_remove_edge h u v = Ok h'). { unfold nx_remove_edge. rewrite (proj2 (has_edge_iff h u v)) by (apply H; left; auto). eauto. }
  destruct R as [h' R]. rewrite R. cbn [bind]. apply IH; auto. intros a b K. apply (edge_nx_remove_edge _ _ _ _ a b R). split; [apply H; right; auto|]. intros [-> ->]. contradiction.
Qed.
Lemma check_policies_do : forall m n qs (c iv : list (node * outcome)), wf_dag (ngraph n) -> no_clash (ngraph n) -> incl (keys c) (nodes (ngraph n)) -> incl (keys iv) (nodes (ngraph n)) -> NoDup (keys iv) ->
  (forall d, In d (decisions m) -> In d (nodes (ngraph n)) /\ has_policy n d = true) -> check_policies m n qs c iv = Ok tt.
Proof.
  intros m n qs c iv W C Ic Ii Ni H. unfold check_policies. destruct (mechanism_graph_ok (with_graph m (ngraph n)) W C) as (h & E & (H1 & H2 & H3)). rewrite E. cbn [bind mgraph]. change (mgraph (with_graph m (ngraph n))) with (ngraph n) in *.
  destruct (edges_into_ok (ngraph n) iv (proj1 W) Ii Ni) as (es & Ee & Ne & He). rewrite Ee. cbn [bind]. destruct (cut_edges_ok es h Ne) as [h' Eh]; [intros u v K; apply H2; left; apply He; auto|]. rewrite Eh. cbn [bind]. destruct (cut_edges_spec _ _ _ H1 Eh) as (K1 & K2 & K3).
  assert (M : exists l, map_r (check_decision h' n (keys c ++ keys iv)) (list_prod (decisions m) qs) = Ok l).
  { assert (X : forall d q, In (d, q) (list_prod (decisions m) qs) -> In d (decisions m)) by (intros d q K; apply in_prod_iff in K; tauto). induction (list_prod (decisions m) qs) as [|[d q] l IH]; [exists []; reflexivity|]. cbn [map_r].
    destruct IH as [l' El]; [intros; eapply X; right; eauto|]. destruct (H d (X d q (or_introl eq_refl))) as [Hd Hp]. unfold check_decision at 1. cbn [fst snd].
    destruct (is_dconnected_spec h' (mec d) q (keys c ++ keys iv)) as (b & Eb & _); [exact K1| | |].
    - intros x Hx. rewrite K2. apply H3. left. apply in_app_or in Hx. destruct Hx; auto.
    - rewrite K2. apply H3. right. eauto.
    - rewrite Eb. cbn [bind]. rewrite (proj2 (mem_In _ _) Hd), Hp, andb_false_r. cbn [bind]. rewrite El. cbn [bind]. eauto. }
  destruct M as [l ->]. reflexivity.
Qed.

(* ---- C80 ---- *)
(* all decisions have been given a policy *)
Definition policies_set (m : macid) (n : net) : Prop := forall d b, has_role m d (RDecision b) -> exists t, has_table n d t /\ tkind t <> KDec.
(* with values of the domains, and a context without ready-made tables that is possible, a diagram whose decisions all have policies answers every question *)
Theorem C80_returns : forall o m n qs (c iv : list (node * outcome)), valid_order o -> valid m -> decisions_complete m -> mgraph m = ngraph n -> no_clash (ngraph n) -> built n -> distribution n -> policies_set m n ->
  NoDup (keys iv) -> incl (keys iv) (nodes (ngraph n)) -> in_domains n iv -> tables_sorted n iv ->
  NoDup (keys c) -> in_domains n c -> incl (keys c) (nodes (ngraph n)) -> (forall v, In v (keys c) -> exists t, has_table n v t /\ tkind t <> KTab) ->
  qs <> [] -> incl qs (nodes (ngraph n)) -> (forall q q', In q qs -> In q' qs -> joined (ngraph n) (keys iv) q q') -> (forall q, In q qs -> ~ In q (keys c)) ->
  do_prob n iv c <> 0 -> exists n' l, macid_expected_value o m n qs c iv = (n', Ok l).
Proof.
  intros o m n qs c iv O V Dc Eg NC B Hd Ps Ni Ii Di Ts Nc Dm Ic Kt Nq Iq Jq Dq Nz. assert (W : wf_dag (ngraph n)) by apply Hd. destruct (built_sound n B) as [S _].
  assert (C1 : check_domains n c = Ok tt). { apply check_domains_ok. intros v x K. assert (Kv : In v (keys c)) by (apply (in_map fst) in K; auto). split; [apply Ic; auto|]. destruct (Kt v Kv) as (t & T & Nt). apply has_table_iff in T; [|apply S]. exists t. split; auto. split; auto. destruct (Dm v x K) as (l & L & Hx). destruct (dist_table n v Hd (Ic v Kv)) as (t0 & T0 & Ok0). rewrite T in T0. injection T0 as <-. assert (D := ok_dom _ _ _ Ok0). unfold dom_of in D. rewrite L in D. rewrite <- D. auto. }
  assert (C2 : check_policies m n qs c iv = Ok tt). { apply check_policies_do; auto. intros d K. destruct (proj1 (LIncent.in_decisions m d V) K) as [b Hb]. destruct (Ps d b Hb) as (t & T & Nt). split; [rewrite <- Eg; apply (proj2 (proj2 V) b d); left; auto|]. apply has_table_iff in T; [|apply S]. unfold has_policy. rewrite T. destruct (tkind t); congruence. }
  assert (C3 : copy_roles_only m n = Ok tt). { unfold copy_roles_only. rewrite <- Eg. destruct (C14_copy m V Dc) as (m' & Em & _). replace (with_graph m (mgraph m)) with m by (destruct m; reflexivity). rewrite Em. reflexivity. }
  destruct (proj1 (C41_defined o (copy_roles_only m n) n qs c iv O B Hd Ni Ii Di Ts Nc Dm Ic Nq Iq Jq Dq (or_intror C3)) Nz) as (n' & l & E). exists n', l. rewrite <- E. unfold macid_expected_value, expected_value, macid_query. rewrite C1. cbn [bind]. rewrite C2. reflexivity.
Qed.
Print Assumptions C80_returns.
(* so total_effect returns, and is the difference of the two expectations *)
Theorem C80_effect : forall o m n a x a0 a1, valid_order o -> valid m -> decisions_complete m -> mgraph m = ngraph n -> no_clash (ngraph n) -> built n -> distribution n -> policies_set m n ->
  In a (nodes (ngraph n)) -> In x (nodes (ngraph n)) -> in_domains n [(a, a0); (a, a1)] -> tables_sorted n [(a, a1)] ->
  total_effect o m n a x a0 a1 = (n, Ok (expectation n [(a, a1)] [] x - expectation n [(a, a0)] [] x)).
Proof.
  intros o m n a x a0 a1 O V Dc Eg NC B Hd Ps Ha Hx Di Ts.
  assert (T : forall v, v = a0 \/ v = a1 -> effect_term o m n a x v = (n, Ok (expectation n [(a, v)] [] x))).
  { intros v Hv. assert (Dv : in_domains n [(a, v)]) by (intros w y [K|[]]; injection K as <- <-; apply Di; destruct Hv as [->| ->]; [left|right; left]; auto). assert (Tv : tables_sorted n [(a, v)]) by (intros w u t [<-|[]] E L; apply (Ts a u t); auto; left; auto).
    assert (Nv : NoDup (keys [(a, v)])) by (repeat constructor; auto). assert (Iv : incl (keys [(a, v)]) (nodes (ngraph n))) by (intros u [<-|[]]; auto).
    destruct (C80_returns o m n [x] [] [(a, v)]) as (n' & l & E); auto; try (constructor; fail); try (intros ? []; fail); try discriminate; try (intros ? ? []; fail).
    - intros q [<-|[]]; auto.
    - intros q q' [<-|[]] [<-|[]]. constructor.
    - rewrite do_prob_nil; auto. discriminate.
    - assert (X : exists e, effect_term o m n a x v = (n', Ok e)). { unfold effect_term. rewrite E. cbn [bind]. assert (L : l <> []). { unfold macid_expected_value in E. destruct (macid_query o m n [x] [] [(a, v)]) as [n1 [f|e]] eqn:Q; [|discriminate]. cbn [bind] in E. destruct (macid_query_inv _ _ _ _ _ _ _ _ Q) as (_ & _ & _ & Q').
          assert (Y : l = [expectation n [(a, v)] [] x]). { apply (C41_single o (copy_roles_only m n) n x [] [(a, v)] n'); auto; [constructor|intros u Hu; destruct Hu|rewrite do_prob_nil; auto; discriminate|]. refine (eq_trans (f_equal (fun z : net * result factor => let '(n', r) := z in (n', f <- r ;; expectations f)) Q') _). exact E. } rewrite Y. discriminate. }
        destruct l as [|e l]; [congruence|]. cbn [nth_error]. eauto. }
      destruct X as [e X]. assert (n' = n) as -> by (eapply effect_keeps; eauto). destruct (effect_value o m n a x v e O B Hd Ha Dv Tv X) as [-> _]. auto. }
  unfold total_effect. rewrite (T a1), (T a0) by auto. reflexivity.
Qed.
Print Assumptions C80_effect.
(* and introduced_total_effect returns the effect on d less the effect on y, both with the sign changed when the effect on y is negative and adapting is on *)
Theorem C80_introduced : forall o m n a d y a0 a1 adapt, valid_order o -> valid m -> decisions_complete m -> mgraph m = ngraph n -> no_clash (ngraph n) -> built n -> distribution n -> policies_set m n ->
  In a (nodes (ngraph n)) -> In d (nodes (ngraph n)) -> In y (nodes (ngraph n)) -> in_domains n [(a, a0); (a, a1)] -> tables_sorted n [(a, a1)] ->
  let te x := expectation n [(a, a1)] [] x - expectation n [(a, a0)] [] x in
  exists r, introduced_total_effect o m n a d y a0 a1 adapt = (n, Ok r) /\
    (adapt = true -> te y < 0 -> r = te y - te d) /\ (adapt = false \/ 0 <= te y -> r = te d - te y).
Proof.
  intros o m n a d y a0 a1 adapt O V Dc Eg NC B Hd Ps Ha Hdd Hy Di Ts te. unfold introduced_total_effect.
  rewrite (C80_effect o m n a d a0 a1), (C80_effect o m n a y a0 a1) by auto. fold (te d) (te y). cbn [bind]. clearbody te. destruct (qleb 0 (te y)) eqn:L; cbn [negb andb].
  - exists (te d - te y). split; [reflexivity|]. split; [|auto]. intros _ K. apply qleb_iff in L. exfalso. exact (Qclt_not_le _ _ K L).
  - apply qleb_false in L. destruct adapt.
    + exists (- te d - - te y). split; [reflexivity|]. split; [intros _ _; ring|]. intros [K|K]; [discriminate|]. exfalso. exact (Qclt_not_le _ _ L K).
    + exists (te d - te y). split; [reflexivity|]. split; [discriminate|auto].
Qed.
Print Assumptions C80_introduced.
(* A has a directed path to X exactly if, for some network and some values, the total effect of A on X is not 0 *)
Theorem C80_paths : forall o m a x, valid_order o -> valid m -> decisions_complete m -> no_clash (mgraph m) -> In a (nodes (mgraph m)) -> In x (nodes (mgraph m)) ->
  (reach (mgraph m) a x <-> exists n a0 a1 n' r, built n /\ distribution n /\ ngraph n = mgraph m /\ policies_set m n /\ in_domains n [(a, a0); (a, a1)] /\ tables_sorted n [(a, a1)] /\ total_effect o m n a x a0 a1 = (n', Ok r) /\ r <> 0).
Proof.
  intros o m a x O V Dc NC Ha Hx. set (g := mgraph m) in *. assert (W : wf_dag g) by apply V. split.
  - intro R. destruct (line g a x W R) as (par & P1 & P2). assert (Pe : forall v q, par v = Some q -> edge g q v) by (intros v q K; apply P1 in K; tauto).
    assert (Vl : value_lists g (fun _ => bin)). { intros v _. split; [|discriminate]. constructor; [intros [E|[]]; discriminate|]. constructor; [tauto|constructor]. }
    destruct (C73_relationships g (fun _ => bin) (copying par) [] W Vl (copying_ok g par W Pe)) as (l & n & Hl & El & Bn & Dn & Eg & Pm & Kn & _ & Rn). destruct (built_sound n Bn) as [S _].
    assert (Dom : forall v y, In v (nodes g) -> In y [0; 1] -> In y (dom_of (doms n) v)) by (intros v y Hv Hy; eapply Permutation_in; [apply Permutation_sym; apply Pm; auto|auto]).
    assert (InD : forall iv : list (node * outcome), (forall v y, In (v, y) iv -> In v (nodes g) /\ In y [0; 1]) -> in_domains n iv).
    { intros iv H v y Hy. destruct (H v y Hy) as [K1 K2]. rewrite <- Eg in K1. destruct (dist_lookup n v Dn K1) as [Lv _]. exists (dom_of (doms n) v). split; auto. apply Dom; auto. rewrite <- Eg. auto. }
    assert (Nr : forall v s, reach g s v -> In s (nodes g) -> In v (nodes g)). { intros v s R' Hs. induction R' as [|s y v E R' IH]; auto. apply IH. apply (proj1 W) in E. tauto. }
    assert (Mean : forall y, In y [0; 1] -> expectation n [(a, y)] [] x = y).
    { intros y Hy. apply do_mean; auto; try (rewrite Eg; auto).
      - repeat constructor; auto.
      - intros w [<-|[]]; auto.
      - apply InD. intros v z [K|[]]. injection K as <- <-. auto.
      - intros b Wb Ag K. rewrite (P2 b (fun v => In v (nodes g) /\ v <> a)).
        + apply (proj1 (agrees_iff _ _) Ag). left; auto.
        + intros v K1 K2 K3. split; auto. apply (Nr v a); auto.
        + intros v q [Hv Nv] E. assert (X : kernel n v b <> 0) by (apply K; [rewrite ?Eg; exact Hv|intros [Y|[]]; cbn in Y; congruence]). rewrite Kn in X by auto. unfold copying in X. rewrite E in X. unfold point in X. destruct (oeqb (b v) (b q)) eqn:Eo; [apply oeqb_iff in Eo; auto|congruence]. }
    assert (Ps : policies_set m n). { intros d b Hb. assert (Hdn : In d (nodes g)) by (apply (proj2 (proj2 V) b d); left; auto). destruct (Rn d Hdn (fun K => K)) as [f Lf]. rewrite <- Eg in Hdn. destruct (dist_table n d Dn Hdn) as (t & T & _). exists t. split; [apply has_table_iff; auto; apply S|]. rewrite (table_kind n d t _ S T Lf). discriminate. }
    assert (Ts : tables_sorted n [(a, 1)]). { intros v u t _ E L. exfalso. rewrite Eg in E. assert (Hu : In u (nodes g)) by (apply (proj1 W) in E; tauto). destruct (Rn u Hu (fun K => K)) as [f Lf]. congruence. }
    assert (Di : in_domains n [(a, 0); (a, 1)]) by (apply InD; intros v y [K|[K|[]]]; injection K as <- <-; cbn; auto).
    exists n, 0, 1, n, (expectation n [(a, 1)] [] x - expectation n [(a, 0)] [] x). repeat (split; [assumption|]). split; [apply C80_effect; auto; rewrite Eg; auto|]. rewrite !Mean by (cbn; auto). discriminate.
  - intros (n & a0 & a1 & n' & r & B & Hd & Eg & Ps & Di & Ts & E & Nr). destruct (reach_dec g (proj1 W) a x) as [R|R]; auto. exfalso. apply Nr. apply (C42_zero_partial o m n a x a0 a1 n' r); auto; rewrite Eg; auto.
Qed.
Print Assumptions C80_paths.
(* in the diagram X -> D -> U <- X, D -> V <- E, X has an effect on V through D in some network, and V never has one on X *)
Example C80_example : (exists n a0 a1 r, ngraph n = mgraph ex12 /\ total_effect MBase.id_order ex12 n "X" "V" a0 a1 = (n, Ok r) /\ r <> 0) /\
  (forall n a0 a1 n' r, built n -> distribution n -> ngraph n = mgraph ex12 -> policies_set ex12 n -> in_domains n [("V", a0); ("V", a1)] -> tables_sorted n [("V", a1)] ->
    total_effect MBase.id_order ex12 n "V" "X" a0 a1 = (n', Ok r) -> r = 0).
Proof.
  assert (Mx : In "X" (nodes (mgraph ex12))) by (apply mem_In; vm_compute; reflexivity). assert (Mv : In "V" (nodes (mgraph ex12))) by (apply mem_In; vm_compute; reflexivity).
  assert (Rxv : reach (mgraph ex12) "X" "V"). { apply (reach_step _ "X" "D"); [apply has_edge_iff; vm_compute; reflexivity|]. apply (reach_step _ "D" "V"); [apply has_edge_iff; vm_compute; reflexivity|constructor]. }
  split.
  - destruct (proj1 (C80_paths MBase.id_order ex12 "X" "V" LBase.id_order_valid ex12_valid (proj1 ex12_complete) ex12_clash Mx Mv) Rxv) as (n & a0 & a1 & n' & r & B & Hd & Eg & Ps & Di & Ts & E & Nr).
    exists n, a0, a1, r. split; auto. split; auto.
    assert (X := C80_effect MBase.id_order ex12 n "X" "V" a0 a1 LBase.id_order_valid ex12_valid (proj1 ex12_complete) (eq_sym Eg)).
    assert (NC : no_clash (ngraph n)) by (rewrite Eg; apply ex12_clash). rewrite <- Eg in Mx, Mv. specialize (X NC B Hd Ps Mx Mv Di Ts). rewrite E in X. injection X as -> _. exact E.
  - intros n a0 a1 n' r B Hd Eg Ps Di Ts E. destruct (Qc_eq_dec r 0) as [Z|Z]; auto. exfalso.
    assert (R : reach (mgraph ex12) "V" "X") by (apply (C80_paths MBase.id_order ex12 "V" "X" LBase.id_order_valid ex12_valid (proj1 ex12_complete) ex12_clash Mv Mx); exists n, a0, a1, n', r; repeat (split; auto)).
    inversion R as [|? y ? E1 R1]; subst. unfold edge in E1. change (In ("V", y) [("X","D"); ("X","U"); ("D","U"); ("D","V"); ("E","V")]) in E1. cbn in E1. clear - E1. repeat (destruct E1 as [E1|E1]; [discriminate E1|]). exact E1.
Qed.
Print Assumptions C80_example.
