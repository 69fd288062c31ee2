(* Properties C34, C35 and C36: adding and removing relationships. *)
From Coq Require Import String List Bool Arith QArith Qcanon Lia Permutation.
Import ListNotations.
From Verif Require Import MBase MGraph MMacid MCpd MNet Spec SpecC SpecN LBase LGraph LQc LCpd LNet.

(* the bound on the recursion is not part of the behaviour *)
Theorem C35_bound_irrelevant : forall k n v r, wf_dag (ngraph n) -> (length (nodes (ngraph n)) < k)%nat ->
  set_item k n v r = set_rel n v r.
Proof.
  intros k n v r W H. unfold set_rel. assert (X := reach_set_le (ngraph n) v). apply fuel_enough; auto; lia.
Qed.
Print Assumptions C35_bound_irrelevant.

(* ---- C35 ---- *)
Theorem C35_tables_current : forall g os n, wf_dag g -> (forall v r, In (OAdd v r) os -> proper v r) ->
  run (bare g) os = (n, None) ->
  ngraph n = g /\ (forall v, lookup v (rels n) = last_given os v) /\
  (forall v r, last_given os v = Some r -> can_tabulate n v r ->
     exists t, has_table n v t /\ reflects g (doms n) v r t /\ has_domain n v (tdom t)) /\
  (forall v r, last_given os v = Some r -> ~ can_tabulate n v r -> forall t, ~ has_table n v t) /\
  (forall v t, has_table n v t -> In v (nodes g) /\ (exists r, last_given os v = Some r) /\ forall t', has_table n v t' -> t' = t).
Proof.
  intros g os n W P H.
  destruct (run_keeps os (bare g) n) as (I & S & G & R); auto.
  { apply bare_inv. } { intros u r Hu. discriminate. } { intros [v r|v] Ho; simpl; auto. }
  cbn [ngraph bare] in G. assert (R' : forall v, lookup v (rels n) = last_given os v) by (intro v; rewrite R; reflexivity).
  split; auto. split; auto.
  assert (Nd : forall v r, lookup v (rels n) = Some r -> In v (nodes g)).
  { intros v r Hr. assert (Sv := S v r Hr). unfold settled in Sv. rewrite G in Sv. destruct (in_dec String.string_dec v (nodes g)) as [|Hn]; auto. exfalso.
    assert (X : forall f fo k, init_table g (doms n) (ideal (doms n)) v f fo k = Err NetworkXError).
    { intros. unfold init_table, get_parents. rewrite (proj2 (mem_nIn _ _) Hn). reflexivity. }
    unfold table_of, table_from in Sv. destruct r; try rewrite X in Sv; auto.
    apply Hn. rewrite <- G. apply (inv_rel n I v t Sv). }
  assert (Can : forall v r, lookup v (rels n) = Some r -> can_tabulate n v r -> exists t, table_of g (doms n) v r = Ok t /\ cpd_of n v = Some t).
  { intros v r Hr Hc. assert (Sv := S v r Hr). unfold settled in Sv. rewrite G in Sv. destruct (table_of g (doms n) v r) as [t|e] eqn:E; eauto.
    exfalso. assert (e = ParentsNotReady) by (destruct e; auto; destruct Sv). subst e. destruct Hc as [[t ->]|Hc]; [discriminate|].
    apply (ready_not_pnr g (doms n) v r (Nd v r Hr) (inv_proper n I v r Hr)); auto. intros p Hp K. rewrite <- G in Hp.
    destruct (Hc p Hp) as [d Hd]. unfold has_domain in Hd. congruence. }
  split; [|split].
  - intros v r Hr Hc. rewrite <- R' in Hr. destruct (Can v r Hr Hc) as (t & T1 & T2). exists t. split; [apply has_table_iff; auto|].
    split; [apply ok_reflects; eauto|]. apply (inv_dom n I v t T2).
  - intros v r Hr Hc t Ht. rewrite <- R' in Hr. apply has_table_iff in Ht; auto. apply Hc. assert (Sv := S v r Hr). unfold settled in Sv. rewrite G in Sv.
    destruct (table_of g (doms n) v r) as [t'|e] eqn:E; [|exfalso; destruct e; congruence].
    destruct (ok_ready g (doms n) v r t' (Nd v r Hr) E) as [|Rd]; [left; auto|]. right. intros p Hp. rewrite G in Hp. specialize (Rd p Hp).
    unfold has_domain. destruct (lookup p (doms n)) as [d|]; [eauto|congruence].
  - intros v t Ht. apply has_table_iff in Ht; auto. destruct (inv_rel n I v t Ht) as [K1 K2]. rewrite G in K2. split; auto. split.
    + apply lookup_In_keys in K1. destruct K1 as [r Hr]. exists r. rewrite <- R'. auto.
    + intros t' Ht'. apply has_table_iff in Ht'; auto. congruence.
Qed.
Print Assumptions C35_tables_current.

(* ---- C34 ---- *)
Definition adds (l : list (node * rel)) : list op := map (fun vr => OAdd (fst vr) (snd vr)) l.
Lemma adds_last : forall l v r cur, NoDup (map fst l) -> In (v, r) l -> fold_left (effect v) (adds l) cur = Some r.
Proof.
  induction l as [|[u s] l IH]; intros v r cur N H; [destruct H|]. simpl. inversion N as [|? ? N1 N2]; subst. destruct H as [H|H].
  - injection H as -> ->. rewrite String.eqb_refl. clear - N1. assert (X : forall cur, fold_left (effect v) (adds l) cur = cur).
    { induction l as [|[a b] l IH]; intro cur; simpl; auto. destruct (String.eqb_spec a v) as [->|E]; [exfalso; apply N1; simpl; auto|].
      apply IH. intro K. apply N1. simpl; auto. }
    apply X.
  - apply IH; auto.
Qed.
Lemma adds_none : forall l v cur, ~ In v (map fst l) -> fold_left (effect v) (adds l) cur = cur.
Proof.
  induction l as [|[a b] l IH]; intros v cur H; simpl; auto. destruct (String.eqb_spec a v) as [->|E]; [exfalso; apply H; simpl; auto|].
  apply IH. intro K. apply H. simpl; auto.
Qed.
Lemma run_once : forall l n n', wf_dag (ngraph n) -> inv n -> all_settled n -> dom_tab n -> tab_ready n ->
  (forall v r, In (v, r) l -> proper v r) -> NoDup (map fst l) -> (forall v, In v (map fst l) -> lookup v (rels n) = None) ->
  run n (adds l) = (n', None) -> dom_tab n' /\ tab_ready n'.
Proof.
  induction l as [|[v r] l IH]; intros n n' W I S J K P N D H.
  { simpl in H. injection H as <-. auto. }
  change (adds ((v, r) :: l)) with (OAdd v r :: adds l) in H. cbn [run] in H.
  inversion N as [|? ? N1 N2]; subst. destruct (step n (OAdd v r)) as [n1 [e|]] eqn:E; [discriminate|].
  assert (Pv : proper v r) by (apply P; simpl; auto).
  destruct (step_keeps n (OAdd v r) n1 W I S Pv E) as (I1 & S1 & G1 & R1).
  destruct (set_item_once _ n v r n1 W I Pv J K (or_introl (D v (or_introl eq_refl))) E) as [J1 K1].
  apply (IH n1 n'); auto.
  - rewrite G1; auto.
  - intros u s Hu. apply P. simpl; auto.
  - intros u Hu. rewrite R1. simpl. destruct (String.eqb_spec v u) as [->|]; [contradiction|]. apply D. simpl; auto.
Qed.
Lemma run_below : forall n1 l n, wf_dag (ngraph n1) -> inv n1 -> all_settled n1 -> below n1 n ->
  (forall v r, In (v, r) l -> lookup v (rels n1) = Some r /\ In v (nodes (ngraph n1))) ->
  exists n', run n (adds l) = (n', None) /\ below n1 n'.
Proof.
  induction l as [|[v r] l IH]; intros n W I S B H; [exists n; auto|].
  change (adds ((v, r) :: l)) with (OAdd v r :: adds l). cbn [run step]. destruct (H v r (or_introl eq_refl)) as [H1 H2].
  unfold set_rel. destruct (below_set n1 W I S (Datatypes.S (length (nodes (ngraph n)))) n v r B H2 H1) as (n' & N1 & N2 & _).
  { rewrite (b_graph n1 n B). assert (X := reach_set_le (ngraph n1) v). lia. }
  rewrite N1. apply IH; auto. intros u s Hu. apply H. simpl; auto.
Qed.
Theorem C34_any_order : forall g l l' n, wf_dag g -> NoDup (map fst l) -> (forall v r, In (v, r) l -> proper v r) ->
  Permutation l l' -> add_cpds (bare g) l = (n, None) ->
  exists n', add_cpds (bare g) l' = (n', None) /\ ngraph n' = ngraph n /\ same_rels n n' /\ same_tables n n' /\ same_domains n n'.
Proof.
  intros g l l' n1 W N P Pm H. change (add_cpds (bare g) l) with (run (bare g) (adds l)) in H.
  assert (S0 : all_settled (bare g)) by (intros u r Hu; discriminate).
  assert (Po : forall l0, (forall v r, In (v, r) l0 -> proper v r) -> forall o, In o (adds l0) -> proper_op o).
  { intros l0 Hp o Ho. apply in_map_iff in Ho. destruct Ho as ([v r] & <- & Ho). simpl. eauto. }
  destruct (run_keeps (adds l) (bare g) n1 W (bare_inv g) S0 (Po l P) H) as (I1 & S1 & G1 & R1). cbn [ngraph bare] in G1.
  destruct (run_once l (bare g) n1 W (bare_inv g) S0) as [J1 K1]; auto.
  { intros u d Hd. discriminate. } { intros u r Hd. exfalso. apply Hd. reflexivity. }
  assert (W1 : wf_dag (ngraph n1)) by (rewrite G1; auto).
  assert (Ln : forall v r, In (v, r) l -> lookup v (rels n1) = Some r) by (intros v r Hv; rewrite R1; apply adds_last; auto).
  assert (Nd : forall v r, lookup v (rels n1) = Some r -> In v (nodes g)).
  { intros v r Hr. assert (Sv := S1 v r Hr). unfold settled in Sv. rewrite G1 in Sv. destruct (in_dec String.string_dec v (nodes g)) as [|Hn]; auto. exfalso.
    assert (X : forall f fo k, init_table g (doms n1) (ideal (doms n1)) v f fo k = Err NetworkXError).
    { intros. unfold init_table, get_parents. rewrite (proj2 (mem_nIn _ _) Hn). reflexivity. }
    unfold table_of, table_from in Sv. destruct r; try rewrite X in Sv; auto.
    apply Hn. rewrite <- G1. apply (inv_rel n1 I1 v t Sv). }
  assert (B0 : below n1 (bare g)).
  { split; auto; try (apply bare_inv); try (intros; discriminate).
    all: intros u r Hd; exfalso; apply Hd; reflexivity. }
  destruct (run_below n1 l' (bare g) W1 I1 S1 B0) as (n2 & H2 & B2).
  { intros v r Hv. assert (Hv' : In (v, r) l) by (eapply Permutation_in; [apply Permutation_sym; eauto|auto]). split; auto. rewrite G1. eauto. }
  assert (P' : forall v r, In (v, r) l' -> proper v r) by (intros v r Hv; apply P; eapply Permutation_in; [apply Permutation_sym; eauto|auto]).
  destruct (run_keeps (adds l') (bare g) n2 W (bare_inv g) S0 (Po l' P') H2) as (I2 & S2 & G2 & R2). cbn [ngraph bare] in G2.
  assert (N' : NoDup (map fst l')) by (eapply Permutation_NoDup; [apply Permutation_map; eauto|auto]).
  exists n2. split; auto. split; [congruence|].
  assert (SR : same_rels n1 n2).
  { intro v. rewrite R1, R2. destruct (in_dec String.string_dec v (map fst l)) as [Hi|Hi].
    - apply in_map_iff in Hi. destruct Hi as ([u r] & E & Hi). simpl in E. subst u. rewrite (adds_last l v r); auto.
      rewrite (adds_last l' v r); auto. eapply Permutation_in; eauto.
    - rewrite adds_none by auto. rewrite adds_none; auto. intro K. apply Hi. eapply Permutation_in; [apply Permutation_sym, Permutation_map; eauto|auto]. }
  assert (DomEq : forall v, lookup v (doms n1) = lookup v (doms n2)).
  { assert (Fw : forall v, In v (nodes g) -> forall d, lookup v (doms n1) = Some d -> lookup v (doms n2) = Some d).
    { apply (dag_parents_ind g (fun v => forall d, lookup v (doms n1) = Some d -> lookup v (doms n2) = Some d) W).
      intros v Hv IH d Hd. assert (C := J1 v d Hd). destruct (cpd_of n1 v) as [t|] eqn:Ec; [|congruence].
      destruct (inv_rel n1 I1 v t Ec) as [Hk _]. apply lookup_In_keys in Hk. destruct Hk as [r Hr].
      assert (T1 : table_of g (doms n1) v r = Ok t).
      { assert (Sv := S1 v r Hr). unfold settled in Sv. rewrite G1 in Sv. destruct (table_of g (doms n1) v r) as [t'|e]; [congruence|].
        exfalso. destruct e; congruence. }
      assert (T2 : table_of g (doms n2) v r = Ok t).
      { destruct (K1 v r) as [[t' ->]|Rd]; [congruence|auto|exact T1|]. rewrite <- T1. symmetry. apply table_of_ext. intros p Hp. rewrite G1 in Rd.
        specialize (Rd p Hp). destruct (lookup p (doms n1)) as [dp|] eqn:Ep; [|congruence]. symmetry. apply IH; auto. }
      assert (Sv := S2 v r). rewrite <- SR in Sv. specialize (Sv Hr). unfold settled in Sv. rewrite G2, T2 in Sv.
      rewrite (inv_dom n2 I2 v t Sv). rewrite (inv_dom n1 I1 v t Ec) in Hd. auto. }
    intro v. destruct (lookup v (doms n1)) as [d|] eqn:E1.
    - symmetry. apply Fw; auto. assert (C := J1 v d E1). destruct (cpd_of n1 v) as [t|] eqn:Ec; [|congruence]. rewrite <- G1. apply (inv_rel n1 I1 v t Ec).
    - destruct (lookup v (doms n2)) as [d|] eqn:E2; auto. rewrite (b_dom n1 n2 B2 v d E2) in E1. discriminate. }
  split; auto. split.
  - assert (X : forall v, cpd_of n1 v = cpd_of n2 v).
    { intro v. destruct (lookup v (rels n1)) as [r|] eqn:Er.
      - assert (A := S1 v r Er). assert (B := S2 v r). rewrite <- SR in B. specialize (B Er). unfold settled in A, B. rewrite G1 in A. rewrite G2 in B.
        rewrite (table_of_ext g (doms n1) (doms n2)) in A by (intros; apply DomEq). destruct (table_of g (doms n2) v r) as [t|e]; [congruence|]. destruct e; congruence || destruct A.
      - destruct (cpd_of n1 v) as [t|] eqn:E1; [exfalso; destruct (inv_rel n1 I1 v t E1) as [Hk _]; apply lookup_In_keys in Hk; destruct Hk; congruence|].
        destruct (cpd_of n2 v) as [t|] eqn:E2; auto. exfalso. destruct (inv_rel n2 I2 v t E2) as [Hk _]. apply lookup_In_keys in Hk. destruct Hk as [x Hx].
        rewrite <- SR in Hx. congruence. }
    intros v t. rewrite !has_table_iff by auto. rewrite X. tauto.
  - intros v d. unfold has_domain. rewrite DomEq. tauto.
Qed.
Print Assumptions C34_any_order.
(* splitting one call into several makes no difference *)
Theorem C34_split : forall n l1 l2, add_cpds n (l1 ++ l2) =
  match add_cpds n l1 with (n', None) => add_cpds n' l2 | (n', Some e) => (n', Some e) end.
Proof. intros n l1 l2. unfold add_cpds. rewrite map_app. apply run_app. Qed.
Print Assumptions C34_split.

(* ---- C36 ---- *)
Local Open Scope string_scope.
Local Open Scope Qc_scope.
Definition ex36 : graph := mkG ["A"; "B"] [("A", "B")].
Definition half : dist := [(0, Some (Q2Qc (1 # 2))); (1, None)].
Definition bad : dist := [(0, Some (Q2Qc (1 # 2)))].
Definition copyA : fn := mkFn [("A", false)] false (fun pv => match lookup "A" pv with Some a => Ok (VOut a) | None => Err KeyError end).
(* accepts 0 and 1 only *)
Definition bit : fn := mkFn [("A", false)] false (fun pv => match lookup "A" pv with
  | Some a => if oeqb a 0 || oeqb a 1 then Ok (VOut a) else Err ValueError | None => Err KeyError end).
Theorem C36_refuted :
  (* a rejected relationship replaces the old one and deletes its table *)
  (exists g os n v r n' e t, wf_dag g /\ run (bare g) os = (n, None) /\ set_rel n v r = (n', Some e) /\
     has_table n v t /\ (forall t', ~ has_table n' v t') /\ lookup v (rels n) <> lookup v (rels n')) /\
  (* a relationship rejected because of a child leaves its domain changed *)
  (exists g os n v r n' e d, wf_dag g /\ run (bare g) os = (n, None) /\ set_rel n v r = (n', Some e) /\
     has_domain n v d /\ ~ has_domain n' v d).
Proof.
  assert (W : wf_dag ex36).
  { split.
    - split; [repeat constructor; simpl; intuition congruence|]. split; [repeat constructor; simpl; auto|].
      intros u v [E|[]]. injection E as <- <-. simpl; auto.
    - apply has_cycle_iff; [|reflexivity]. split; [repeat constructor; simpl; intuition congruence|]. split; [repeat constructor; simpl; auto|].
      intros u v [E|[]]. injection E as <- <-. simpl; auto. }
  split.
  - exists ex36, [OAdd "A" (RDist half)]. eexists. exists "A", (RDist bad). eexists. eexists. eexists. split; auto.
    split; [vm_compute; reflexivity|]. split; [vm_compute; reflexivity|]. split; [split; [simpl; left; reflexivity|reflexivity]|].
    split; [intros t' [[] _]|]. vm_compute. discriminate.
  - exists ex36, [OAdd "A" (RDist half); OAdd "B" (RFun bit)]. eexists. exists "A", (RDist [(Q2Qc 2, Some 1)]). eexists. eexists. eexists. split; auto.
    split; [vm_compute; reflexivity|]. split; [vm_compute; reflexivity|]. split; [vm_compute; reflexivity|]. vm_compute. discriminate.
Qed.
Print Assumptions C36_refuted.
(* whatever happens, only the relationship of v changes, and only tables and domains of v and its descendants *)
Theorem C36_others_unchanged_partial : forall g os n v r n' e, wf_dag g -> (forall u s, In (OAdd u s) os -> proper u s) -> proper v r ->
  run (bare g) os = (n, None) -> set_rel n v r = (n', e) ->
  ngraph n' = g /\ (forall u, u <> v -> lookup u (rels n') = lookup u (rels n)) /\ lookup v (rels n') = Some r /\
  forall u, u <> v -> ~ descends g u v -> (forall t, has_table n' u t <-> has_table n u t) /\ (forall d, has_domain n' u d <-> has_domain n u d).
Proof.
  intros g os n v r n' e W P Pv H Hs.
  destruct (run_keeps os (bare g) n) as (I & S & G & R); auto.
  { apply bare_inv. } { intros u s Hu. discriminate. } { intros [u s|u] Ho; simpl; auto. }
  cbn [ngraph bare] in G. assert (W' : wf_dag (ngraph n)) by (rewrite G; auto).
  destruct (set_item_frame (Datatypes.S (length (nodes (ngraph n)))) n v r W' I Pv) as [F1 F2].
  assert (Gs := set_item_graph (Datatypes.S (length (nodes (ngraph n)))) n v r). unfold set_rel in Hs. rewrite Hs in F1, F2, Gs. cbn [fst] in *.
  split; [congruence|]. split; [intros u Hu; rewrite F1; destruct (String.eqb_spec u v); [congruence|auto]|].
  split; [rewrite F1, String.eqb_refl; auto|]. intros u Hu Hd.
  assert (NR : ~ reach (ngraph n) v u). { rewrite G. intro K. destruct (reach_descends _ _ _ K); auto. }
  destruct (F2 u NR) as [A B]. split; [|intro d; unfold has_domain; rewrite B; tauto].
  intro t. assert (X : forall m, has_table m u t -> In t (cpds m)) by (intros m [? _]; auto).
  clear X. split; intros [H1 H2].
  - assert (Ct : exists s, cpd_of n' u = Some s).
    { destruct (cpd_of n' u) eqn:E; eauto. exfalso. apply find_tab_none in E. apply E. rewrite <- H2. apply in_map; auto. }
    (* tables are unique in n', as the state keeps one table per variable *)
    destruct Ct as [s Cs]. assert (U : NoDup (map tvar (cpds n'))).
    { assert (Nd : forall k m w q, inv m -> proper w q -> wf_dag (ngraph m) -> NoDup (map tvar (cpds (fst (set_item k m w q))))).
      { clear. induction k as [|k IH]; intros m w q Im Pq Wm; [apply Im|]. rewrite set_item_S. cbv zeta.
        assert (Ib : inv (begin m w q)) by (apply begin_inv; auto). destruct (to_tabular (begin m w q) w q) as [t|e0] eqn:T; [|destruct e0; apply Ib].
        destruct (in_scope (ngraph (begin m w q)) t) eqn:Sc; cbn [negb]; [|apply Ib].
        assert (Tv : tvar t = w) by (apply (tab_var _ _ _ _ _ _ Pq T)).
        assert (Ip : inv (place (begin m w q) w t)).
        { apply place_inv; auto. apply lookup_In_keys. exists q. rewrite begin_rels, String.eqb_refl. auto. }
        destruct (same_domain _ _); [apply Ip|]. assert (Wp : wf_dag (ngraph (place (begin m w q) w t))) by (cbn [ngraph place]; rewrite begin_graph; auto).
        revert Ip Wp. generalize (place (begin m w q) w t). generalize (children (ngraph (begin m w q)) w).
        induction l as [|c cs IHc]; intros m0 I0 W0; cbn [resets]; [apply I0|]. destruct (lookup c (rels m0)) as [rc|] eqn:Ec; [|apply IHc; auto].
        assert (X := IH m0 c rc I0 (inv_proper m0 I0 c rc Ec) W0). destruct (set_item k m0 c rc) as [m' [e1|]] eqn:Es; cbn [fst] in *; auto.
        destruct (set_item_keeps k m0 c rc m' W0 I0 (inv_proper m0 I0 c rc Ec) Es) as (K1 & K2 & _). apply IHc; auto. rewrite K2; auto. }
      assert (X := Nd (Datatypes.S (length (nodes (ngraph n)))) n v r I Pv W'). rewrite Hs in X. exact X. }
    assert (Ct : cpd_of n' u = Some t) by (apply in_find_tab; auto). rewrite A in Ct. apply find_tab_in in Ct. split; tauto.
  - assert (Ct : cpd_of n u = Some t) by (apply in_find_tab; auto; apply I). rewrite <- A in Ct. apply find_tab_in in Ct. split; tauto.
Qed.
Print Assumptions C36_others_unchanged_partial.
(* if no table can be built from the relationship itself, then nothing else changes at all *)
Theorem C36_rejected_partial : forall g os n v r n' e, wf_dag g -> (forall u s, In (OAdd u s) os -> proper u s) -> proper v r ->
  run (bare g) os = (n, None) -> set_rel n v r = (n', Some e) -> (forall t, ~ reflects g (doms n) v r t) ->
  same_domains n' n /\ (forall u, u <> v -> lookup u (rels n') = lookup u (rels n)) /\
  (forall u t, u <> v -> (has_table n' u t <-> has_table n u t)) /\ (forall t, ~ has_table n' v t).
Proof.
  intros g os n v r n' e W P Pv H Hs No.
  destruct (run_keeps os (bare g) n) as (I & S & G & R); auto.
  { apply bare_inv. } { intros u s Hu. discriminate. } { intros [u s|u] Ho; simpl; auto. }
  cbn [ngraph bare] in G. unfold set_rel in Hs. rewrite set_item_S in Hs. cbv zeta in Hs.
  assert (Ib : inv (begin n v r)) by (apply begin_inv; auto).
  assert (E : n' = begin n v r).
  { destruct (to_tabular (begin n v r) v r) as [t|e0] eqn:T; [|destruct e0; congruence].
    destruct (in_scope (ngraph (begin n v r)) t) eqn:Sc; cbn [negb] in Hs; [|congruence]. exfalso.
    assert (Hv : In v (nodes g)). { apply in_scope_iff in Sc. rewrite (tab_var _ _ _ _ _ _ Pv T) in Sc. rewrite begin_graph, G in Sc. tauto. }
    apply (No t). apply ok_reflects; auto. assert (X := real_ok _ _ _ _ Ib T). rewrite begin_graph, begin_doms, G in X. auto. }
  subst n'. split; [intros u d; unfold has_domain; rewrite begin_doms; tauto|].
  split; [intros u Hu; rewrite begin_rels; destruct (String.eqb_spec u v); [congruence|auto]|]. split.
  - intros u t Hu. rewrite !has_table_iff by auto. rewrite begin_cpd by auto. destruct (String.eqb_spec u v); [congruence|tauto].
  - intros t Ht. apply has_table_iff in Ht; auto. rewrite begin_cpd, String.eqb_refl in Ht by auto. discriminate.
Qed.
Print Assumptions C36_rejected_partial.

(* concrete histories: children first, a changed domain, a removal *)
Example C34_example : exists n n', wf_dag ex36 /\ proper "B" (RFun copyA) /\ proper "A" (RDist half) /\
  add_cpds (bare ex36) [("A", RDist half); ("B", RFun copyA)] = (n, None) /\
  add_cpds (bare ex36) [("B", RFun copyA); ("A", RDist half)] = (n', None) /\
  lookup "B" (doms n) = Some [0; 1] /\ lookup "B" (doms n') = Some [0; 1].
Proof.
  eexists. eexists. split.
  { assert (X : wf_graph ex36).
    { split; [repeat constructor; simpl; intuition congruence|]. split; [repeat constructor; simpl; auto|].
      intros u v [E|[]]. injection E as <- <-. simpl; auto. }
    split; auto. apply has_cycle_iff; auto. }
  split; [intros pv; simpl; destruct (lookup "A" pv); discriminate|]. split; [exact I|].
  split; [vm_compute; reflexivity|]. split; [vm_compute; reflexivity|]. split; vm_compute; repeat (f_equal; try (apply Qc_is_canon; reflexivity)).
Qed.
Example C35_example : exists n t, run (bare ex36)
    [OAdd "B" (RFun copyA); OAdd "A" (RDist half); OAdd "A" (RDom [Q2Qc 2; Q2Qc 3]); ODel "A"] = (n, None) /\
  last_given [OAdd "B" (RFun copyA); OAdd "A" (RDist half); OAdd "A" (RDom [Q2Qc 2; Q2Qc 3]); ODel "A"] "A" = None /\
  can_tabulate n "B" (RFun copyA) /\ has_table n "B" t /\ tdom t = [Q2Qc 2; Q2Qc 3].
Proof.
  eexists. eexists. split; [vm_compute; reflexivity|]. split; [reflexivity|]. split.
  { right. intros p [E|[]]. injection E as <-. eexists. vm_compute. reflexivity. }
  split; [split; [left; reflexivity|reflexivity]|]. vm_compute. repeat (f_equal; try (apply Qc_is_canon; reflexivity)).
Qed.
