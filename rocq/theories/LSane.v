(* Lemmas about relationships that make sense whatever the parents' values are. *)
From Coq Require Import String List Bool Arith QArith Qcanon Lia Permutation.
Import ListNotations.
From Verif Require Import MBase MGraph MMacid MCpd MNet Spec SpecC SpecN SpecQ SpecSane LBase LGraph LQc LCpd LNet LQcArith LInter PCpd.
Local Open Scope Qc_scope.

(* ---- columns ---- *)
Definition fair (dom : list outcome) (d : dist) : Prop :=
  is_dict d /\ (forall y, In y (map fst d) -> In y dom) /\ (forall x p, gives d x p -> 0 <= p) /\ mass d <= 1 /\ (mass d = 1 \/ exists x, In x dom /\ forall p, ~ gives d x p).
Lemma complete_sum : forall dom d, NoDup dom -> fair dom d -> qsum (map (complete dom d) dom) = 1.
Proof.
  intros dom d ND (N & Sub & _ & _ & H).
  assert (D : (exists x, In x dom /\ forall p, ~ gives d x p) \/ forall x, In x dom -> exists p, gives d x p).
  { clear - dom. induction dom as [|y dom IH]; [right; intros x []|]. destruct (given_dec d y) as [Hy|Hy]; [|left; exists y; split; [left; auto|auto]]. destruct IH as [(x & Hx & Hp)|A]; [left; exists x; split; [right; auto|auto]|]. right. intros x [<-|Hx]; auto. }
  destruct D as [(x & Hx & Hp)|D]; [apply (column_sum dom d _ x); auto; apply complete_column; auto|].
  destruct H as [H|(x & Hx & Hp)]; [|destruct (D x Hx) as (p & Gp); destruct (Hp p Gp)].
  rewrite <- H, <- given_mass. rewrite (qsum_perm _ (map (complete dom d) (map fst (given_entries d)))).
  - rewrite map_map. apply qsum_ext. intros [y p] Hy. simpl. apply complete_given; auto. apply in_given; auto.
  - apply Permutation_map. apply NoDup_Permutation; auto; [apply given_keys; auto|]. intro y. split.
    + intro Hy. destruct (D y Hy) as (p & Gp). apply in_given in Gp. change y with (fst (y, p)). apply in_map; auto.
    + intro K. apply Sub. apply in_map_iff in K. destruct K as ([z p] & <- & K). apply in_given in K. simpl. change z with (fst (z, Some p)). apply in_map; auto.
Qed.
Lemma complete_nonneg : forall dom d x, fair dom d -> In x dom -> 0 <= complete dom d x.
Proof.
  intros dom d x (N & Sub & P & M & _) Hx. destruct (given_dec d x) as [[p Hp]|Hp]; [rewrite (complete_given dom d x p); eauto|]. rewrite complete_open by auto.
  assert (L := Qc_of_nat_pos _ (open_pos dom d x Hx Hp)). set (k := Qc_of_nat _) in *. assert (E : (1 - mass d) / k * k = 1 - mass d) by (field; intro K; rewrite K in L; discriminate L).
  generalize dependent ((1 - mass d) / k). intros q E. destruct (Qclt_le_dec q 0) as [Q|]; auto. exfalso. assert (q * k < 0) by qcnra. qclra.
Qed.
Lemma le_qsum : forall l x, (forall y, In y l -> 0 <= y) -> In x l -> x <= qsum l.
Proof.
  induction l as [|y l IH]; intros x H K; [destruct K|]. cbn [qsum fold_right]. fold (qsum l). assert (H0 := H y (or_introl eq_refl)). destruct K as [<-|K].
  - assert (0 <= qsum l) by (apply qsum_nonneg; intros; apply H; right; auto). qclra.
  - assert (x <= qsum l) by (apply IH; auto; intros; apply H; right; auto). qclra.
Qed.
Lemma fair_column : forall dom d, NoDup dom -> fair dom d -> prob_column (map (complete dom d) dom).
Proof.
  intros dom d N F. assert (S := complete_sum dom d N F). assert (P : forall q, In q (map (complete dom d) dom) -> 0 <= q) by (intros q K; apply in_map_iff in K; destruct K as (x & <- & K); apply complete_nonneg; auto).
  unfold prob_column. fold (qsum (map (complete dom d) dom)). split; [|rewrite S; split; apply Qc_sub_le; vm_compute; discriminate]. intros q K. split; auto. rewrite <- S. apply le_qsum; auto.
Qed.

(* ---- tables ---- *)
Lemma sorted_nodup : forall l, NoDup (sorted_set l).
Proof.
  intro l. assert (S := sorted_set_sorted l). induction S as [|x l' S IH F]; constructor; auto. intro K. rewrite Forall_forall in F. apply F in K. apply (Qclt_not_eq _ _ K). auto.
Qed.
Lemma some_context : forall ds ps, (forall p, In p ps -> exists x, In x (dom_of ds p)) -> exists pv, context_of ds ps pv.
Proof.
  intros ds ps. induction ps as [|p ps IH]; intro H; [exists []; split; [auto|intros ? ? []]|]. destruct IH as (pv & E & C); [intros; apply H; right; auto|]. destruct (H p (or_introl eq_refl)) as (x & Hx).
  exists ((p, x) :: pv). split; [cbn; congruence|]. intros q y [K|K]; [|auto]. injection K as <- <-. unfold dom_of in Hx. destruct (lookup p ds) as [d|]; [eauto|destruct Hx].
Qed.
Lemma init_sane : forall g ds v f force k, In v (nodes g) -> ready ds (parents g v) -> (forall p, In p (parents g v) -> exists x, In x (dom_of ds p)) -> NoDup force ->
  (forall pv, context_of ds (parents g v) pv -> exists w, call f pv = Ok w /\ if match force with [] => true | _ => false end then sane_dist (dist_of w) else dist_of w = []) ->
  exists t, init_table g ds (ideal ds) v f force k = Ok t /\ (NoDup (parents g v) -> exact_table t).
Proof.
  intros g ds v f force k Hv R Ne Nf H. set (ps := parents g v) in *.
  assert (Call : exists l, all_calls g ds v f l).
  { destruct (map_r_total _ _ (stochastic_function f) (map (combine ps) (product (map (dom_of ds) ps)))) as [l Hl].
    - intros pv Hpv. apply in_contexts in Hpv; auto. destruct (H pv Hpv) as (w & W & _). exists (dist_of w). apply dist_call; auto.
    - exists l. apply map_r_ok; auto. }
  destruct Call as [l A]. set (dom := domain_from force l).
  assert (Back : forall d, In d l -> exists pv w, context_of ds ps pv /\ call f pv = Ok w /\ dist_of w = d).
  { intros d Hd. destruct (Forall2_in_r _ _ _ _ _ _ A Hd) as (pv & P1 & P2). destruct (call_dist f pv d P2) as (w & W1 & W2).
    exists pv, w. split; auto. apply (in_contexts ds ps pv R); auto. }
  assert (Nd : NoDup dom) by (unfold dom, domain_from; destruct force; [apply sorted_nodup|auto]).
  assert (Fair : forall d, In d l -> fair dom d).
  { intros d Hd. destruct (Back d Hd) as (pv & w & B1 & B2 & B3). destruct (H pv B1) as (w' & W' & B4). rewrite B2 in W'. injection W' as <-. rewrite B3 in B4. unfold dom, domain_from. destruct force as [|x0 fo].
    - destruct B4 as (D1 & D2 & D3). assert (Sub : forall y, In y (map fst d) -> In y (sorted_set (flat_map (map fst) l))) by (intros y Hy; apply in_sorted_set, in_flat_map; eauto). split; auto. split; auto. split; auto. split; [destruct D3 as [->|[D3 _]]; [apply Qcle_refl|auto]|]. destruct D3 as [D3|[_ (x & Hx)]]; auto. right. exists x. split; [apply Sub; change x with (fst (x, @None Qc)); apply in_map; auto|]. intros p Hp. unfold gives in Hp. unfold is_dict in D1. clear - D1 Hx Hp. induction d as [|[y q] d IH]; [destruct Hx|]. cbn in D1. inversion D1 as [|? ? N1 N2]; subst. destruct Hx as [Hx|Hx], Hp as [Hp|Hp].
      + congruence.
      + injection Hx as -> ->. apply N1. change x with (fst (x, Some p)). apply in_map; auto.
      + injection Hp as -> ->. apply N1. change x with (fst (x, @None Qc)). apply in_map; auto.
      + auto.
    - subst d. rewrite B4. split; [constructor|]. split; [intros y []|]. split; [intros y p []|]. split; [cbn; discriminate|]. right. exists x0. split; [left; auto|intros p []]. }
  assert (L0 : l <> []).
  { destruct (some_context ds ps Ne) as (pv & C). apply (in_contexts ds ps pv R) in C. destruct (Forall2_in_l _ _ _ _ _ _ A C) as (d & K & _). intros ->. destruct K. }
  destruct (init_accepts g ds v f force k (ideal ds) Hv R l (map (fun p => length (dom_of ds p)) ps) A eq_refl (count_cards ds ps)) as (t & T); auto.
  { intros d x Hd Hx. apply (Fair d Hd); auto. } { intros d Hd. apply fair_column; auto. }
  exists t. split; auto. intro Np. rewrite (init_eq g ds v f force k (ideal ds) Hv R l A) in T. destruct (forallb _ (flat_map (map fst) l)); [|discriminate]. cbn [ideal bind] in T. cbv zeta in T. fold dom in T.
  destruct (match map (fun d => map (complete dom d) dom) l with [] => false | _ => true end && forallb (fun c => qabs_close (qsum c) 1 hundredth) (map (fun d => map (complete dom d) dom) l)); [|discriminate].
  destruct (forallb (forallb (fun p => qleb 0 p && qleb p 1)) (map (fun d => map (complete dom d) dom) l)); [|discriminate]. cbn [negb] in T.
  destruct (Nat.eqb_spec (length (map (fun d => map (complete dom d) dom) l)) (fold_right Nat.mul 1%nat (map (fun p => length (dom_of ds p)) (parents g v)))) as [El|]; [|discriminate]. cbn [negb] in T. destruct (negb _); [discriminate|]. injection T as <-.
  unfold exact_table. cbn [tev tdom tcards tcols]. split; auto. split; auto. split; [apply map_length|]. split; [exact El|]. intros col K. apply in_map_iff in K. destruct K as (d & <- & K). apply Fair in K. split; [apply map_length|]. split; [|apply complete_sum; auto].
  intros q Kq. apply in_map_iff in Kq. destruct Kq as (x & <- & Kq). apply complete_nonneg; auto.
Qed.
Lemma dom_of_in : forall ds p x, In x (dom_of ds p) -> exists d, lookup p ds = Some d /\ In x d.
Proof. intros ds p x H. unfold dom_of in H. destruct (lookup p ds) as [d|]; [eauto|destruct H]. Qed.

(* ---- networks ---- *)
Section Sane.
  Variables (g : graph) (range : node -> outcome -> Prop).
  Hypothesis W : wf_dag g.
  Definition ranged (ds : domains) : Prop := forall u d, lookup u ds = Some d -> d <> [] /\ forall x, In x d -> range u x.
  Lemma context_ranged : forall ds ps pv, ranged ds -> context_of ds ps pv -> map fst pv = ps /\ forall p x, In (p, x) pv -> range p x.
  Proof. intros ds ps pv R [E C]. split; auto. intros p x H. destruct (C p x H) as (d & L & Hx). apply (R p d L); auto. Qed.
  Lemma table_sane : forall ds v r, ranged ds -> sane g range v r -> (forall p, edge g p v -> lookup p ds <> None) ->
    exists t, table_of g ds v r = Ok t /\ exact_table t /\ tdom t <> [] /\ (forall x, In x (tdom t) -> range v x) /\ tev t = parents g v /\ tcards t = map (fun p => length (dom_of ds p)) (parents g v).
  Proof.
    intros ds v r Rg [Hv Sr] Rd. assert (R : ready ds (parents g v)) by (intros p Hp; apply Rd, in_parents; auto).
    assert (Ne : forall p, In p (parents g v) -> exists x, In x (dom_of ds p)).
    { intros p Hp. specialize (R p Hp). unfold dom_of. destruct (lookup p ds) as [d|] eqn:E; [|congruence]. destruct (Rg p d E) as [Nd _]. destruct d as [|x d]; [congruence|exists x; left; auto]. }
    assert (X : forall f force k, NoDup force -> (forall pv, context_of ds (parents g v) pv -> exists w, call f pv = Ok w /\ (if match force with [] => true | _ => false end then sane_dist (dist_of w) else dist_of w = []) /\ forall x, In x (map fst (dist_of w)) -> range v x) ->
      (forall x, In x force -> range v x) -> exists t, init_table g ds (ideal ds) v f force k = Ok t /\ exact_table t /\ tdom t <> [] /\ (forall x, In x (tdom t) -> range v x) /\ tev t = parents g v /\ tcards t = map (fun p => length (dom_of ds p)) (parents g v)).
    { intros f force k Nf H Hf. destruct (init_sane g ds v f force k Hv R Ne Nf) as (t & T & Ex).
      - intros pv C. destruct (H pv C) as (w & K1 & K2 & _). eauto.
      - exists t. split; auto. split; [apply Ex, nodup_parents; apply W|]. destruct (C32_sound g ds (ideal ds) v f force k t Hv T) as ((T1 & T2 & T3 & T4 & T5 & T6 & T7) & Tc & _). split; auto. split; [|split; auto].
        + destruct force as [|x0 fo]; [|intros x Hx; apply Hf; rewrite <- T5; [auto|discriminate]]. destruct (T6 eq_refl) as [_ T6']. intros x Hx. apply T6' in Hx. destruct Hx as (pv & w & C & K1 & K2). destruct (H pv C) as (w' & K3 & _ & K4). rewrite K1 in K3. injection K3 as <-. auto.
        + unfold ideal in Tc. injection Tc as Tc. auto. }
    unfold table_of, table_from. destruct r as [f|d|l|t]; [| | |destruct Sr].
    - apply X; [constructor| |intros x []]. intros pv C. destruct (context_ranged ds _ pv Rg C) as [C1 C2]. apply Sr; auto.
    - destruct Sr as [Sd Sx]. apply X; [constructor| |intros x []]. intros pv C. exists (VDist d). split; [reflexivity|]. split; auto.
    - destruct Sr as (Sn & Sd & Sx). apply X; auto. intros pv C. exists (VDist []). split; [reflexivity|]. destruct l; [congruence|]. split; [reflexivity|intros x []].
  Qed.
  Record fine (n : net) : Prop := {
    fi_graph : ngraph n = g;
    fi_inv : inv n;
    fi_dom : ranged (doms n);
    fi_tab : dom_tab n;
    fi_ready : forall u, cpd_of n u <> None -> forall p, edge g p u -> lookup p (doms n) <> None;
    fi_rel : forall u r, lookup u (rels n) = Some r -> proper u r /\ sane g range u r }.
  Lemma fine_set : forall k n v r, fine n -> proper v r -> sane g range v r -> (length (reach_set g v) <= k)%nat ->
    exists n', set_item k n v r = (n', None) /\ fine n' /\ (forall u, lookup u (rels n') = if String.eqb u v then Some r else lookup u (rels n)).
  Proof.
    induction k as [|k IH]; intros n v r B P Sn F.
    { exfalso. assert (K : In v (reach_set g v)) by (unfold reach_set; rewrite filter_In; split; [apply Sn|apply has_path_iff; [apply W|apply Sn|constructor]]).
      destruct (reach_set g v); [destruct K|simpl in F; lia]. }
    assert (Hv : In v (nodes g)) by apply Sn. destruct B as [BG BI BD BT BR BL].
    rewrite set_item_S. cbv zeta. set (n0 := begin n v r).
    assert (G0 : ngraph n0 = g) by (unfold n0; rewrite begin_graph; auto). assert (D0 : doms n0 = doms n) by apply begin_doms.
    assert (I0 : inv n0) by (apply begin_inv; auto).
    assert (R0 : forall u, lookup u (rels n0) = if String.eqb u v then Some r else lookup u (rels n)) by apply begin_rels.
    assert (C0 : forall u, cpd_of n0 u = if String.eqb u v then None else cpd_of n u) by (intro; apply begin_cpd; auto).
    assert (NSE : ~ edge g v v) by (apply no_self_edge, W).
    assert (L0 : forall u ru, lookup u (rels n0) = Some ru -> proper u ru /\ sane g range u ru) by (intros u ru Hu; rewrite R0 in Hu; destruct (String.eqb_spec u v) as [->|]; [injection Hu as <-; auto|auto]).
    assert (NT : forall t, r <> RTab t) by (intros t ->; apply (proj2 Sn)).
    destruct (ready_edges g (doms n) v) as [Rd|[p [P1 P2]]].
    2:{ assert (T : to_tabular n0 v r = Err ParentsNotReady) by (unfold to_tabular; rewrite G0, D0; eapply not_ready_pnr; eauto). rewrite T. exists n0. split; auto. split; auto. constructor; auto.
        - rewrite D0. auto.
        - intros u d Hd. rewrite D0 in Hd. rewrite C0. destruct (String.eqb_spec u v) as [->|Hn]; [|eauto]. exfalso. apply (BR v (BT v d Hd) p); auto.
        - intros u Hc q Hq. rewrite C0 in Hc. rewrite D0. destruct (String.eqb u v); [congruence|]. apply (BR u); auto. }
    destruct (table_sane (doms n) v r BD Sn Rd) as (t & T & Tx & Tn & Tr & Te & _).
    assert (EqT : to_tabular n0 v r = Ok t).
    { rewrite <- T. unfold to_tabular, table_of, table_from. rewrite G0, D0.
      assert (Cd : cards_of n0 (parents g v) = ideal (doms n) (parents g v)).
      { unfold cards_of, ideal. apply map_r_all.
        assert (X : forall ps, (forall p, In p ps -> edge g p v) -> Forall2 (fun x y => get_cardinality n0 x = Ok y) ps (map (fun p => length (dom_of (doms n) p)) ps)).
        { induction ps as [|p ps IHp]; intro Hps; simpl; constructor; [|apply IHp; intros; apply Hps; simpl; auto].
          assert (Ep : edge g p v) by (apply Hps; simpl; auto). specialize (Rd p Ep). destruct (lookup p (doms n)) as [d|] eqn:El; [|congruence].
          assert (Ct := BT p d El). destruct (cpd_of n p) as [s|] eqn:Ecp; [|congruence].
          unfold get_cardinality, get_cpds. rewrite G0. rewrite (proj2 (mem_In _ _) (wf_edge_l g (proj1 W) p v Ep)). cbn [bind].
          rewrite C0. destruct (String.eqb_spec p v) as [->|Hn]; [contradiction|]. rewrite Ecp. f_equal.
          unfold dom_of. rewrite (inv_dom n BI p s Ecp). auto. }
        apply X. intros p Hp. apply in_parents; auto. }
      destruct r; try (apply init_ext; auto). reflexivity. }
    rewrite EqT. assert (Tv : tvar t = v) by (apply (tab_var _ _ _ _ _ _ P EqT)).
    assert (Sc : in_scope (ngraph n0) t = true) by (rewrite G0; apply in_scope_iff; split; [rewrite Tv; auto|intros u Hu; rewrite Te in Hu; apply in_parents in Hu; eapply wf_edge_l; [apply W|eauto]]). rewrite Sc. cbn [negb].
    assert (Kv : In v (keys (rels n0))) by (apply lookup_In_keys; exists r; rewrite R0, String.eqb_refl; auto).
    set (n2 := place n0 v t) in *. assert (I2 : inv n2) by (apply place_inv; auto).
    assert (C2 : forall u, cpd_of n2 u = if String.eqb u v then Some t else cpd_of n0 u) by (intro; apply place_cpd; auto).
    assert (D2 : forall u, lookup u (doms n2) = if String.eqb u v then Some (tdom t) else lookup u (doms n0)) by (intro; apply place_dom).
    assert (R2 : forall u, lookup u (rels n2) = if String.eqb u v then Some r else lookup u (rels n)) by (intro u; change (rels n2) with (rels n0); apply R0).
    assert (Gr : forall u, lookup u (doms n) <> None -> lookup u (doms n2) <> None).
    { intros u Hu. rewrite D2, D0. destruct (String.eqb u v); [discriminate|auto]. }
    assert (B2 : fine n2).
    { constructor; auto.
      - intros u d Hd. rewrite D2, D0 in Hd. destruct (String.eqb_spec u v) as [->|Hn]; [|auto]. injection Hd as <-. auto.
      - intros u d Hd. rewrite D2, D0 in Hd. rewrite C2, C0. destruct (String.eqb_spec u v) as [->|Hn]; [discriminate|eauto].
      - intros u Hc q Hq. rewrite C2, C0 in Hc. destruct (String.eqb_spec u v) as [Eu|Hn]; [apply Gr, Rd; rewrite <- Eu; auto|]. apply Gr. apply (BR u Hc); auto. }
    destruct (same_domain (lookup v (doms n0)) (tdom t)); [exists n2; auto|].
    assert (L : forall cs m, fine m -> (forall c, In c cs -> edge g v c) -> exists m', resets k m cs = (m', None) /\ fine m' /\
      forall u, lookup u (rels m') = lookup u (rels m)).
    { induction cs as [|c cs IHc]; intros m Bm Hc; cbn [resets]; [eauto|].
      destruct (lookup c (rels m)) as [rc|] eqn:Ec.
      - assert (Ecv : edge g v c) by (apply Hc; simpl; auto). destruct (fi_rel m Bm c rc Ec) as [Pc Scc].
        destruct (IH m c rc Bm Pc Scc) as (m1 & M1 & M2 & M3).
        + assert (X := reach_set_child g v c W Ecv). lia.
        + rewrite M1. destruct (IHc m1 M2) as (m' & N1 & N2 & N3); [intros x Hx; apply Hc; simpl; auto|].
          exists m'. split; auto. split; auto. intro u. rewrite N3, M3. destruct (String.eqb_spec u c) as [->|]; auto.
      - apply IHc; auto. intros x Hx. apply Hc. simpl; auto. }
    destruct (L (children (ngraph n0) v) n2 B2) as (m' & M1 & M2 & M3).
    { intros c Hc. rewrite G0 in Hc. apply in_children; auto. }
    exists m'. split; auto. split; auto. intro u. rewrite M3, R2. auto.
  Qed.
  Lemma fine_bare : fine (bare g).
  Proof. constructor; auto; try (apply bare_inv); try (intros; discriminate). Qed.
  Lemma fine_run : forall l n, fine n -> (forall v r, In (v, r) l -> proper v r /\ sane g range v r) -> exists n', add_cpds n l = (n', None) /\ fine n' /\ forall v, lookup v (rels n') = fold_left (effect v) (map (fun vr => OAdd (fst vr) (snd vr)) l) (lookup v (rels n)).
  Proof.
    induction l as [|[v r] l IH]; intros n B H; [exists n; auto|]. unfold add_cpds. cbn [map fst snd run step]. destruct (H v r (or_introl eq_refl)) as [P Sn]. unfold set_rel.
    destruct (fine_set (S (length (nodes (ngraph n)))) n v r B P Sn) as (n1 & E & B1 & R1); [rewrite (fi_graph n B); assert (X := reach_set_le g v); lia|]. rewrite E.
    destruct (IH n1 B1) as (n' & E' & B' & R'); [intros; apply H; right; auto|]. exists n'. split; auto. split; auto. intro u. rewrite R', R1. cbn [fold_left effect]. rewrite String.eqb_sym. destruct (String.eqb u v); auto.
  Qed.
End Sane.
