(* Copies, interventions and queries succeed. *)
From Coq Require Import String List Bool Arith QArith Qcanon Lia Permutation Setoid.
Import ListNotations.
From Verif Require Import MBase MGraph MMacid MCpd MNet MProb MQuery Spec SpecM SpecC SpecN SpecQ LBase LGraph LCopy LQc LCpd LNet LSum LBayes LQuery LDo LInter LFactor LBuilt.
Local Open Scope Qc_scope.

(* ---- tabulating again, with the parents in another order ---- *)
Lemma init_again : forall g ds g' ds' v f fo k t, In v (nodes g) -> In v (nodes g') -> keyword_function f ->
  Permutation (parents g v) (parents g' v) -> NoDup (parents g v) -> ready ds (parents g v) -> ready ds' (parents g' v) ->
  (forall p, In p (parents g v) -> Permutation (dom_of ds p) (dom_of ds' p)) ->
  init_table g ds (ideal ds) v f fo k = Ok t -> exists t', init_table g' ds' (ideal ds') v f fo k = Ok t'.
Proof.
  intros g ds g' ds' v f fo k t Hv Hv' K Pp N R R' Pd H.
  assert (N' : NoDup (parents g' v)) by (eapply Permutation_NoDup; eauto).
  destruct (init_tabulates g ds v f fo k (ideal ds) Hv R t H) as (T & _). destruct T as (_ & _ & T3 & T4 & T5 & T6 & _ & T8).
  (* the contexts correspond *)
  assert (Cx : forall pv', context_of ds' (parents g' v) pv' -> exists pv, context_of ds (parents g v) pv /\ call f pv = call f pv').
  { intros pv' C. destruct (context_is_ctx _ _ _ N' C) as (a & -> & Ha). exists (ctx a (parents g v)). split; [|apply call_ctx; auto].
    apply ctx_context; auto. intros p Hp. eapply Permutation_in; [apply Permutation_sym, Pd; auto|]. apply Ha. eapply Permutation_in; eauto. }
  assert (Cx' : forall pv, context_of ds (parents g v) pv -> exists pv', context_of ds' (parents g' v) pv' /\ call f pv' = call f pv).
  { intros pv C. destruct (context_is_ctx _ _ _ N C) as (a & -> & Ha). exists (ctx a (parents g' v)). split; [|apply call_ctx; auto; apply Permutation_sym; auto].
    apply ctx_context; auto. intros p Hp. apply (Permutation_in p (Permutation_sym Pp)) in Hp. eapply Permutation_in; [apply Pd; auto|]. auto. }
  assert (Cl : exists dl, all_calls g' ds' v f dl).
  { unfold all_calls. destruct (map_r_total _ _ (stochastic_function f) (map (combine (parents g' v)) (product (map (dom_of ds') (parents g' v))))) as [dl E].
    - intros pv' Hp. apply in_contexts in Hp; auto. destruct (Cx pv' Hp) as (pv & C & E). destruct (T8 pv C) as (col & w & _ & C2 & _). rewrite E in C2. exists (dist_of w). apply dist_call; auto.
    - exists dl. apply map_r_ok. auto. }
  destruct Cl as [dl A].
  assert (In_dl : forall d, In d dl -> exists pv' w, context_of ds' (parents g' v) pv' /\ call f pv' = Ok w /\ d = dist_of w).
  { intros d Hd. destruct (Forall2_in_r _ _ _ _ _ _ A Hd) as (pv' & P1 & P2). destruct (call_dist f pv' d P2) as (w & W1 & <-). exists pv', w. split; auto. apply in_contexts; auto. }
  assert (Ed : domain_from fo dl = tdom t).
  { unfold domain_from. destruct fo as [|y fo]; [|symmetry; apply T5; discriminate]. destruct (T6 eq_refl) as [S1 I1]. apply sorted_unique; auto; [apply sorted_set_sorted|].
    intro x. rewrite in_sorted_set, in_flat_map, I1. split.
    - intros (d & D1 & D2). destruct (In_dl d D1) as (pv' & w & C & C2 & ->). destruct (Cx pv' C) as (pv & C' & E). exists pv, w. rewrite E. auto.
    - intros (pv & w & C & C2 & C3). destruct (Cx' pv C) as (pv' & C' & E). assert (Hp := proj2 (in_contexts ds' (parents g' v) pv' R') C').
      destruct (Forall2_in_l _ _ _ _ _ _ A Hp) as (d & D1 & D2). rewrite (dist_call f pv' w) in D2 by congruence. injection D2 as <-. exists (dist_of w). auto. }
  apply (init_accepts g' ds' v f fo k (ideal ds') Hv' R' dl (map (fun p => length (dom_of ds' p)) (parents g' v)) A eq_refl).
  - rewrite <- contexts_cards. auto.
  - rewrite Ed. intros d x Hd Hx. destruct (In_dl d Hd) as (pv' & w & C & C2 & ->). destruct (Cx pv' C) as (pv & C' & E). destruct (T8 pv C') as (col & w' & _ & X2 & X3 & _). assert (w' = w) by congruence. subst. auto.
  - rewrite Ed. auto.
  - destruct (calls_of_ok g ds v f fo k (ideal ds) Hv R t H) as [dl0 A0]. rewrite (init_eq g ds v f fo k (ideal ds) Hv R dl0 A0) in H.
    destruct dl0 as [|d0 dl0].
    { destruct (forallb _ _); [|discriminate]. cbn [ideal bind map] in H. discriminate. }
    intros ->. destruct (Forall2_in_r _ _ _ _ _ _ A0 (or_introl eq_refl)) as (pv & P1 & _). apply in_contexts in P1; auto. destruct (Cx' pv P1) as (pv' & C' & _).
    apply in_contexts in C'; auto. unfold all_calls in A. inversion A as [E0|]. rewrite <- E0 in C'. destruct C'.
  - rewrite Ed. intros d Hd. destruct (In_dl d Hd) as (pv' & w & C & C2 & ->). destruct (Cx pv' C) as (pv & C' & E). destruct (T8 pv C') as (col & w' & _ & X2 & _ & X4 & X5). assert (w' = w) by congruence. subst.
    assert (Dw : is_dict (dist_of w)) by (eapply call_dict; eauto). rewrite <- (column_unique _ _ _ Dw (X4 Dw)). auto.
Qed.

(* ---- copies ---- *)
Lemma table_again : forall n g' ds' v r t, portable n -> wf_dag g' -> In v (nodes g') -> incl (nodes (ngraph n)) (nodes g') -> (forall a, edge g' a v <-> edge (ngraph n) a v) ->
  (forall p, edge (ngraph n) p v -> lookup p ds' <> None /\ Permutation (dom_of (doms n) p) (dom_of ds' p)) ->
  lookup v (rels n) = Some r -> cpd_of n v = Some t -> exists t', table_of g' ds' v r = Ok t' /\ tdom t' = tdom t /\ tvar t' = v /\ in_scope g' t' = true.
Proof.
  intros n g' ds' v r t [S C Py Ev Nd] W' Hv' Nn Ed Pd Hr Ht. assert (W := s_dag n S). assert (Hv := proj2 (inv_rel n (s_inv n S) v t Ht)).
  destruct (sound_table n v t S Ht) as (r' & Hr' & T). assert (r' = r) by congruence. subst r'.
  assert (Rd : ready (doms n) (parents (ngraph n) v)).
  { intros p Hp. apply in_parents in Hp. destruct (complete_dom n p S C) as (tp & _ & Lp & _); [apply (proj2 (proj2 (proj1 W)) p v Hp)|congruence]. }
  assert (Pp : Permutation (parents (ngraph n) v) (parents g' v)) by (apply sub_parents; [intro; apply Ed|apply W|apply W']).
  assert (Rd' : ready ds' (parents g' v)) by (intros p Hp; apply in_parents, Ed in Hp; apply (Pd p Hp)).
  assert (Pd' : forall p, In p (parents (ngraph n) v) -> Permutation (dom_of (doms n) p) (dom_of ds' p)) by (intros p Hp; apply in_parents in Hp; apply (Pd p Hp)).
  destruct (fn_of r) as [[f fo]|] eqn:Ef.
  - assert (Kf := python_fn r f fo (Py v r Hr) Ef).
    assert (X : forall k, init_table (ngraph n) (doms n) (ideal (doms n)) v f fo k = Ok t -> exists t', init_table g' ds' (ideal ds') v f fo k = Ok t' /\ tdom t' = tdom t /\ tvar t' = v /\ in_scope g' t' = true).
    { intros k Hk. destruct (init_again (ngraph n) (doms n) g' ds' v f fo k t Hv Hv' Kf Pp (nodup_parents _ v (proj1 W)) Rd Rd' Pd' Hk) as [t' Ht'].
      exists t'. split; auto. destruct (init_tabulates _ _ _ _ _ _ _ Hv Rd t Hk) as (T1 & _). destruct (init_tabulates _ _ _ _ _ _ _ Hv' Rd' t' Ht') as (T2 & _).
      destruct (compare_tab _ _ _ _ v f fo t t' T1 T2 Kf Pp (nodup_parents _ v (proj1 W)) Rd Rd') as [E _].
      { intros p Hp x. split; intro K; [exact (Permutation_in x (Pd' p Hp) K)|exact (Permutation_in x (Permutation_sym (Pd' p Hp)) K)]. }
      split; auto. destruct T2 as (E1 & E2 & _). split; auto. apply in_scope_iff. rewrite E1, E2. split; auto. intros u Hu. apply in_parents in Hu. apply (proj2 (proj2 (proj1 W')) u v Hu). }
    unfold table_of, table_from in *. destruct r as [g0|d|l|t0]; cbn in Ef; try discriminate; injection Ef as <- <-; apply X; auto.
  - destruct r as [| | |t0]; try discriminate. unfold table_of, table_from in *. injection T as ->. exists t. split; auto. split; auto.
    assert (Tv : tvar t = v) by (apply (inv_proper n (s_inv n S) v _ Hr)). split; auto. assert (Sc := inv_scope n (s_inv n S) v t Ht). apply in_scope_iff in Sc. apply in_scope_iff. rewrite Tv in *. split; [auto|]. intros u Hu. apply Nn. apply Sc; auto.
Qed.
Definition again (n : net) (g' : graph) : net :=
  mkNet g' (rels n) (flat_map (fun vr => match table_of g' (doms n) (fst vr) (snd vr) with Ok t => [t] | _ => [] end) (rels n)) (doms n).
Lemma again_sound : forall n g', portable n -> (forall v r, lookup v (rels n) = Some r -> cpd_of n v <> None) -> wf_dag g' -> nodes g' = nodes (ngraph n) -> (forall a b, edge g' a b <-> edge (ngraph n) a b) ->
  sound (again n g').
Proof.
  intros n g' Po Rt W' Nn Ed. assert (S := p_sound n Po).
  assert (Tb : forall v r, lookup v (rels n) = Some r -> exists t', table_of g' (doms n) v r = Ok t' /\ lookup v (doms n) = Some (tdom t') /\ tvar t' = v /\ in_scope g' t' = true /\ In v (nodes g')).
  { intros v r Hr. specialize (Rt v r Hr). destruct (cpd_of n v) as [t|] eqn:E; [|congruence]. assert (Hv := proj2 (inv_rel n (s_inv n S) v t E)).
    destruct (table_again n g' (doms n) v r t Po W') as (t' & T1 & T2 & T3 & T4); auto; [rewrite Nn; auto|rewrite Nn; apply incl_refl| |].
    { intros p Hp. split; auto. destruct (complete_dom n p S (p_complete n Po)) as (tp & _ & Lp & _); [apply (proj2 (proj2 (proj1 (s_dag n S))) p v Hp)|congruence]. }
    exists t'. rewrite T2. split; auto. split; [apply (inv_dom n (s_inv n S)); auto|]. split; auto. split; auto. rewrite Nn. apply (inv_rel n (s_inv n S) v t E). }
  set (mk := fun vr : node * rel => match table_of g' (doms n) (fst vr) (snd vr) with Ok t => [t] | _ => [] end).
  assert (Kn := s_keys n S).
  assert (F : forall l, NoDup (keys l) -> (forall v r, In (v, r) l -> lookup v (rels n) = Some r) -> map tvar (flat_map mk l) = keys l /\
    forall v r t, In (v, r) l -> table_of g' (doms n) v r = Ok t -> find_tab v (flat_map mk l) = Some t).
  { induction l as [|[u s] l IH]; intros Nl Hl; [split; [auto|intros ? ? ? []]|]. inversion Nl as [|? ? N1 N2]; subst.
    destruct (IH N2) as [I1 I2]; [intros; apply Hl; right; auto|]. destruct (Tb u s) as (t0 & T1 & _ & T3 & _); [apply Hl; left; auto|].
    assert (M : mk (u, s) = [t0]) by (unfold mk; cbn [fst snd]; rewrite T1; auto). cbn [flat_map]. rewrite M. cbn [app map]. split; [rewrite I1, T3; auto|].
    intros v r t [E|Hi] Ht.
    - injection E as -> ->. unfold find_tab. cbn [find]. rewrite T3, String.eqb_refl. congruence.
    - unfold find_tab. cbn [find]. destruct (String.eqb_spec (tvar t0) v) as [E|_]; [|apply (I2 v r t Hi Ht)]. exfalso. apply N1. assert (X : u = v) by congruence. rewrite X. exact (in_map fst _ _ Hi). }
  destruct (F (rels n) Kn) as [F1 F2]; [intros; apply In_lookup; auto|].
  assert (Cp : forall v t, cpd_of (again n g') v = Some t -> exists r, lookup v (rels n) = Some r /\ table_of g' (doms n) v r = Ok t).
  { intros v t Hc. assert (Hi := find_tab_in _ _ _ Hc). destruct Hi as [Hi Tv]. apply in_flat_map in Hi. destruct Hi as ([u s] & Hu & Hm). cbn [fst snd] in Hm. apply In_lookup in Hu; auto.
    destruct (Tb u s Hu) as (t0 & T1 & _ & T3 & _). rewrite T1 in Hm. destruct Hm as [<-|[]]. assert (u = v) by congruence. subst. eauto. }
  constructor; auto.
  - constructor.
    + unfold again. cbn [cpds]. fold mk. rewrite F1. auto.
    + intros v t Hc. destruct (Cp v t Hc) as (r & Hr & Ht). destruct (Tb v r Hr) as (t' & T1 & T2 & _). cbn [again doms]. congruence.
    + intros v t Hc. destruct (Cp v t Hc) as (r & Hr & Ht). destruct (Tb v r Hr) as (t' & T1 & T2 & T3 & T4 & T5). cbn [again ngraph rels]. split; auto. apply lookup_In_keys; eauto.
    + intros v r Hr. apply (inv_proper n (s_inv n S)). auto.
    + intros v t Hc. destruct (Cp v t Hc) as (r & Hr & Ht). destruct (Tb v r Hr) as (t' & T1 & T2 & T3 & T4 & T5). cbn [again ngraph]. congruence.
  - intros v r Hr. unfold settled. cbn [again ngraph doms rels] in *. destruct (Tb v r Hr) as (t' & T1 & _). rewrite T1. apply (F2 v r t'); auto. apply lookup_In; auto.
Qed.
Lemma run_below : forall n1 l n0, sound n1 -> below n1 n0 -> (forall v r, In (v, r) l -> lookup v (rels n1) = Some r /\ In v (nodes (ngraph n1))) ->
  exists n', run n0 (map (fun vr => OAdd (fst vr) (snd vr)) l) = (n', None).
Proof.
  intros n1 l. induction l as [|[v r] l IH]; intros n0 S B H; cbn [map run]; [eauto|]. cbn [step fst snd]. destruct (H v r) as [H1 H2]; [left; auto|].
  destruct (below_set n1 (s_dag n1 S) (s_inv n1 S) (s_settled n1 S) (Datatypes.S (length (nodes (ngraph n0)))) n0 v r B H2 H1) as (n' & E & B' & _).
  { rewrite (b_graph n1 n0 B). assert (X := reach_set_le (ngraph n1) v). lia. }
  unfold set_rel. rewrite E. apply IH; auto. intros; apply H; right; auto.
Qed.
Lemma copy_total : forall n, portable n -> (forall v r, lookup v (rels n) = Some r -> cpd_of n v <> None) -> exists n1, copy_net n = Ok n1.
Proof.
  intros n Po Rt. assert (S := p_sound n Po). assert (W := s_dag n S). unfold copy_net. rewrite copy_graph by auto. cbn [bind].
  assert (Sg : sound (again n (copied (ngraph n)))). { apply again_sound; auto; [apply copied_wf; auto|]. intros a b. apply edge_copied. apply W. }
  destruct (run_below (again n (copied (ngraph n))) (rels n) (bare (copied (ngraph n))) Sg) as [n' E].
  - constructor; auto; try (intros; discriminate). apply bare_inv.
  - intros v r Hi. cbn [again rels ngraph copied nodes]. apply In_lookup in Hi; [|apply S]. split; auto. specialize (Rt v r Hi). destruct (cpd_of n v) as [t|] eqn:Ec; [|congruence]. apply (inv_rel n (s_inv n S) v t Ec).
  - unfold add_cpds. rewrite E. eauto.
Qed.

(* ---- interventions ---- *)
Lemma tabular_ideal : forall n v r, inv n -> wf_dag (ngraph n) -> (forall p, edge (ngraph n) p v -> cpd_of n p <> None) -> to_tabular n v r = table_of (ngraph n) (doms n) v r.
Proof.
  intros n v r I W H. unfold to_tabular, table_of, table_from.
  assert (Cd : cards_of n (parents (ngraph n) v) = ideal (doms n) (parents (ngraph n) v)).
  { unfold cards_of, ideal. apply map_r_all.
    assert (X : forall ps, (forall p, In p ps -> edge (ngraph n) p v) -> Forall2 (fun x y => get_cardinality n x = Ok y) ps (map (fun p => length (dom_of (doms n) p)) ps)).
    { induction ps as [|p ps IHp]; intro Hps; simpl; constructor; [|apply IHp; intros; apply Hps; simpl; auto].
      assert (Ep : edge (ngraph n) p v) by (apply Hps; simpl; auto). specialize (H p Ep). destruct (cpd_of n p) as [s|] eqn:Ecp; [|congruence].
      unfold get_cardinality, get_cpds. rewrite (proj2 (mem_In _ _) (wf_edge_l _ (proj1 W) p v Ep)). cbn [bind]. rewrite Ecp. f_equal. unfold dom_of. rewrite (inv_dom n I p s Ecp). auto. }
    apply X. intros p Hp. apply in_parents; auto. }
  destruct r; try (apply init_ext; auto). reflexivity.
Qed.
Lemma child_again : forall k m c rc t, inv m -> wf_dag (ngraph m) -> lookup c (rels m) = Some rc ->
  (forall p, edge (ngraph m) p c -> cpd_of m p <> None) -> table_of (ngraph m) (doms m) c rc = Ok t -> lookup c (doms m) = Some (tdom t) -> tdom t <> [] -> in_scope (ngraph m) t = true ->
  exists m', set_item (S k) m c rc = (m', None) /\ inv m' /\ ngraph m' = ngraph m /\ (forall u, lookup u (rels m') = lookup u (rels m)) /\
    (forall u, lookup u (doms m') = lookup u (doms m)) /\ (forall u, cpd_of m u <> None -> cpd_of m' u <> None).
Proof.
  intros k m c rc t I W Hr Hp Ht Ld Ne Sc. assert (Pr := inv_proper m I c rc Hr). rewrite set_item_S. cbv zeta. set (n0 := begin m c rc).
  assert (G0 : ngraph n0 = ngraph m) by apply begin_graph. assert (D0 : doms n0 = doms m) by apply begin_doms. assert (I0 : inv n0) by (apply begin_inv; auto).
  assert (C0 : forall u, cpd_of n0 u = if String.eqb u c then None else cpd_of m u) by (intro; apply begin_cpd; auto).
  rewrite tabular_ideal; auto; [|rewrite G0; auto|].
  2:{ intros p Hq. rewrite G0 in Hq. rewrite C0. destruct (String.eqb_spec p c) as [->|]; [exfalso; apply (no_self_edge (ngraph m) c); [apply W|auto]|auto]. }
  rewrite G0, D0, Ht, Sc. cbn [negb]. rewrite (proj2 (same_domain_iff _ _)) by auto.
  assert (Tv : tvar t = c) by (eapply tab_var; eauto). exists (place n0 c t). split; auto. split.
  { apply place_inv; auto; [|rewrite G0; auto]. apply lookup_In_keys. exists rc. unfold n0. rewrite begin_rels, String.eqb_refl. auto. }
  split; auto. split; [|split].
  - intro u. change (rels (place n0 c t)) with (rels n0). unfold n0. rewrite begin_rels. destruct (String.eqb_spec u c) as [->|]; auto.
  - intro u. rewrite place_dom, D0. destruct (String.eqb_spec u c) as [->|]; auto.
  - intros u Hu. rewrite place_cpd by auto. rewrite C0. destruct (String.eqb u c); [discriminate|auto].
Qed.
Lemma resets_again : forall k cs m, inv m -> wf_dag (ngraph m) -> (forall u, In u (nodes (ngraph m)) -> cpd_of m u <> None) ->
  (forall c rc, In c cs -> lookup c (rels m) = Some rc -> exists t, table_of (ngraph m) (doms m) c rc = Ok t /\ lookup c (doms m) = Some (tdom t) /\ tdom t <> [] /\ in_scope (ngraph m) t = true) ->
  exists m', resets (S k) m cs = (m', None).
Proof.
  intros k cs. induction cs as [|c cs IH]; intros m I W Ct H; [exists m; reflexivity|]. cbn [resets]. destruct (lookup c (rels m)) as [rc|] eqn:L.
  2:{ apply IH; auto. intros; apply H; auto. right; auto. }
  destruct (H c rc) as (t & T1 & T2 & T3 & T4); auto; [left; auto|]. destruct (child_again k m c rc t I W L) as (m' & E & I' & G' & R' & D' & C'); auto.
  { intros p Hp. apply Ct. apply (proj2 (proj2 (proj1 W)) p c Hp). }
  rewrite E. apply IH; auto; [rewrite G'; auto|rewrite G'; auto|].
  intros u ru Hu Lu. rewrite R' in Lu. destruct (H u ru) as (s & S1 & S2 & S3 & S4); auto; [right; auto|]. exists s. rewrite G', D'. split; auto. rewrite <- S1. apply table_of_ext. intros; apply D'.
Qed.
Lemma remove_edges_total : forall ps n v, wf_dag (ngraph n) -> lookup v (rels n) = None -> NoDup ps -> (forall p, In p ps -> edge (ngraph n) p v) ->
  exists n', loop_net (fun m p => remove_edge m p v) n ps = (n', None).
Proof.
  induction ps as [|p ps IH]; intros n v W L N H; [exists n; reflexivity|]. cbn [loop_net]. unfold remove_edge at 1. inversion N as [|? ? N1 N2]; subst.
  destruct (nx_remove_edge (ngraph n) p v) as [g|e] eqn:E.
  - unfold renew. cbn [on_graph rels]. rewrite L. assert (Eg := fun a b => edge_nx_remove_edge _ _ _ _ a b E). apply IH; auto.
    + cbn [on_graph ngraph]. split; [eapply wf_nx_remove_edge; eauto; apply W|]. eapply acyclic_sub; [|apply W]. intros a b K. apply Eg in K. tauto.
    + intros q Hq. cbn [on_graph ngraph]. apply Eg. split; [apply H; right; auto|]. intros [-> _]. contradiction.
  - exfalso. unfold nx_remove_edge in E. assert (K : edge (ngraph n) p v) by (apply H; left; auto). apply has_edge_iff in K. rewrite K in E. discriminate.
Qed.
Lemma point_total : forall g ds v d x, In v (nodes g) -> parents g v = [] -> exists t, table_of g ds v (RDist (point_dist d x)) = Ok t.
Proof.
  intros g ds v d x Hv Hp. unfold table_of, table_from. assert (R : ready ds (parents g v)) by (rewrite Hp; intros p []).
  set (dd := point_dist d x). assert (Dd : is_dict dd) by apply point_dist_dict.
  assert (Dm : forall y, In y (domain_from [] [dd]) <-> y = x \/ In y d).
  { intro y. unfold domain_from. rewrite in_sorted_set. cbn [flat_map]. rewrite app_nil_r. apply point_dist_keys. }
  apply (init_accepts g ds v (const_fn dd) [] KConst (ideal ds) Hv R [dd] (map (fun p => length (dom_of ds p)) (parents g v))); auto.
  - unfold all_calls. rewrite Hp. cbn [map product combine]. constructor; [|constructor]. reflexivity.
  - symmetry. apply contexts_cards.
  - intros d' y [<-|[]] Hy. apply Dm. apply point_dist_keys. auto.
  - unfold domain_from. apply sorted_NoDup. apply sorted_set_sorted.
  - discriminate.
  - intros d' [<-|[]].
    assert (Cy : forall y, In y (domain_from [] [dd]) -> complete (domain_from [] [dd]) dd y = if oeqb y x then 1 else 0).
    { intros y Hy. apply complete_given; auto. apply point_dist_gives. apply Dm; auto. }
    unfold prob_column. assert (Sm : qsum (map (complete (domain_from [] [dd]) dd) (domain_from [] [dd])) = 1).
    { rewrite (qsum_single _ Qc_eq_dec _ _ x).
      - rewrite Cy by (apply Dm; auto). replace (oeqb x x) with true by (symmetry; apply oeqb_iff; auto). auto.
      - unfold domain_from. apply sorted_NoDup. apply sorted_set_sorted.
      - apply Dm; auto.
      - intros y Hy Ne. rewrite Cy by auto. destruct (oeqb_spec y x); [contradiction|auto]. }
    apply prob_column_iff. split.
    + rewrite Sm. reflexivity.
    + apply forallb_forall. intros q Hq. apply in_map_iff in Hq. destruct Hq as (y & <- & Hy). rewrite Cy by auto. destruct (oeqb y x); reflexivity.
Qed.
Definition inhabited_domains (n : net) : Prop := forall u, In u (nodes (ngraph n)) -> dom_of (doms n) u <> [].
Lemma dom_unique : forall n v t, sound n -> (forall v t, lookup v (rels n) = Some (RTab t) -> NoDup (tdom t)) -> cpd_of n v = Some t -> NoDup (tdom t).
Proof.
  intros n v t S Nd Ct. assert (Hv := proj2 (inv_rel n (s_inv n S) v t Ct)). destruct (sound_table n v t S Ct) as (r & Hr & Tr). destruct (fn_of r) as [[f fo]|] eqn:E.
  - apply (reflects_fn _ _ _ _ _ f fo (ok_reflects _ _ _ _ _ Hv Tr)) in E. apply E.
  - destruct r as [| | |t0]; try discriminate. unfold table_of, table_from in Tr. injection Tr as ->. eapply Nd; eauto.
Qed.
Lemma intervene_one_total : forall n v x, portable n -> inhabited_domains n -> In v (nodes (ngraph n)) -> In x (dom_of (doms n) v) -> exists n', intervene_one n (v, x) = (n', None).
Proof.
  intros n v x Po Ne Hv Hx. assert (S := p_sound n Po). assert (C := p_complete n Po). assert (W := s_dag n S). unfold intervene_one.
  destruct (complete_dom n v S C Hv) as (tv & Cv & Lv & Dv). assert (Kv := proj1 (inv_rel n (s_inv n S) v tv Cv)).
  destruct (del_item n v) as [n0 [e|]] eqn:Ed.
  { exfalso. unfold del_item in Ed. rewrite (proj2 (mem_In _ _) Kv) in Ed. discriminate. }
  destruct (step_sound n (ODel v) n0 S Logic.I Ed) as (S0 & G0 & R0). destruct (del_item_spec n v n0 (s_inv n S) Ed) as (_ & _ & D0 & K0 & _ & C0).
  unfold get_parents. rewrite G0, (proj2 (mem_In _ _) Hv).
  assert (L0 : lookup v (rels n0) = None) by (rewrite R0; cbn [effect]; rewrite String.eqb_refl; auto).
  destruct (remove_edges_total (parents (ngraph n) v) n0 v) as [n1 El]; auto; [rewrite G0; auto|apply nodup_parents; apply W|intros p Hp; rewrite G0; apply in_parents; auto|].
  rewrite El. destruct (remove_edges_sound _ n0 v n1 S0 L0 El) as (S1 & R1 & D1 & Cp1 & N1 & E1 & P1).
  rewrite D1, D0, Lv. rewrite Dv in Hx. fold (point_dist (tdom tv) x). unfold set_rel. rewrite set_item_S. cbv zeta.
  set (r := RDist (point_dist (tdom tv) x)). set (m := begin n1 v r).
  assert (Gm : ngraph m = ngraph n1) by apply begin_graph. assert (Dm : doms m = doms n) by (unfold m; rewrite begin_doms; congruence).
  assert (Im : inv m) by (apply begin_inv; [apply S1|exact Logic.I]). assert (W1 := s_dag n1 S1).
  assert (Hv1 : In v (nodes (ngraph n1))) by (rewrite N1, G0; auto).
  assert (E0 : parents (ngraph n1) v = []).
  { destruct (parents (ngraph n1) v) as [|p l] eqn:E; auto. exfalso. assert (K : edge (ngraph n1) p v) by (apply in_parents; rewrite E; left; auto).
    apply E1 in K. destruct K as [K1 K2]. apply K2. split; auto. rewrite G0 in K1. apply in_parents; auto. }
  destruct (point_total (ngraph n1) (doms n) v (tdom tv) x Hv1 E0) as [t Ht].
  rewrite tabular_ideal; auto; [|rewrite Gm; auto|].
  2:{ intros p Hp. rewrite Gm in Hp. apply in_parents in Hp. rewrite E0 in Hp. destruct Hp. }
  rewrite Gm, Dm. unfold r at 1. rewrite Ht.
  assert (Rd : ready (doms n) (parents (ngraph n1) v)) by (rewrite E0; intros p []).
  destruct (init_tabulates (ngraph n1) (doms n) v (const_fn (point_dist (tdom tv) x)) [] KConst (ideal (doms n)) Hv1 Rd t Ht) as (T & _). assert (T' := T). destruct T' as (Tv & Te & T3 & _).
  assert (Sc : in_scope (ngraph n1) t = true) by (apply in_scope_iff; rewrite Tv, Te, E0; split; [auto|intros u []]). rewrite Sc. cbn [negb].
  destruct (same_domain (lookup v (doms n)) (tdom t)); [eauto|].
  assert (Pt : Permutation (tdom tv) (tdom t)).
  { apply NoDup_Permutation; auto; [exact (dom_unique n v tv S (p_nodup n Po) Cv)|]. destruct T as (_ & _ & _ & _ & _ & F & _). destruct (F eq_refl) as [_ F2]. intro y. rewrite F2, E0. split.
    - intro Hy. exists [], (VDist (point_dist (tdom tv) x)). split; [split; [auto|intros p z []]|]. split; auto. cbn [dist_of]. apply point_dist_keys; auto.
    - intros (pv & w & _ & Hc & K). cbn in Hc. injection Hc as <-. cbn [dist_of] in K. apply point_dist_keys in K. destruct K as [->|K]; auto. }
  assert (Cn : forall u, u <> v -> cpd_of n1 u = cpd_of n u).
  { intros u Hu. unfold cpd_of at 1. rewrite Cp1. change (cpd_of n0 u = cpd_of n u). rewrite C0. destruct (String.eqb_spec u v); [contradiction|auto]. }
  assert (Rn : forall u, u <> v -> lookup u (rels n1) = lookup u (rels n)).
  { intros u Hu. rewrite R1, R0. cbn [effect]. destruct (String.eqb_spec v u); [congruence|auto]. }
  destruct (length (nodes (ngraph n1))) as [|k] eqn:Lk. { destruct (nodes (ngraph n1)); [destruct Hv1|discriminate]. }
  assert (Rm : forall u, lookup u (rels m) = if String.eqb u v then Some r else lookup u (rels n1)) by apply begin_rels.
  assert (Cm : forall u, cpd_of m u = if String.eqb u v then None else cpd_of n1 u) by (intro u; apply begin_cpd; apply S1).
  apply resets_again.
  - apply place_inv; auto; [|rewrite Gm; auto]. apply lookup_In_keys. exists r. rewrite Rm, String.eqb_refl. auto.
  - exact (eq_ind_r (fun g => wf_dag g) W1 Gm).
  - intros u Hu. change (ngraph (place m v t)) with (ngraph m) in Hu. rewrite Gm, N1, G0 in Hu. rewrite place_cpd by auto. rewrite Cm. destruct (String.eqb_spec u v) as [->|Hn]; [discriminate|]. rewrite Cn by auto. apply C; auto.
  - intros c rc Hc Hrc. change (ngraph (place m v t)) with (ngraph m). rewrite Gm in *. apply in_children in Hc. assert (Hcn : In c (nodes (ngraph n1))) by apply (proj2 (proj2 (proj1 W1)) v c Hc).
    assert (Ncv : c <> v) by (intros ->; apply (no_self_edge (ngraph n1) v); [apply W1|auto]).
    change (rels (place m v t)) with (rels m) in Hrc. rewrite Rm in Hrc. destruct (String.eqb_spec c v); [contradiction|]. rewrite Rn in Hrc by auto.
    assert (Hcn' := Hcn). rewrite N1, G0 in Hcn'. destruct (complete_dom n c S C Hcn') as (tc & Cc & Lc & Dc).
    destruct (table_again n (ngraph n1) (doms (place m v t)) c rc tc Po W1 Hcn) as (t' & T1 & T2 & T4 & T5); auto.
    + rewrite N1, G0. apply incl_refl.
    + intro a. rewrite E1, G0. split; [tauto|]. intro K. split; auto. tauto.
    + intros p Hp. destruct (complete_dom n p S C) as (tp & _ & Lp & Dp); [apply (proj2 (proj2 (proj1 W)) p c Hp)|]. unfold dom_of. rewrite !place_dom, Dm. destruct (String.eqb_spec p v) as [->|Hn]; [split; [discriminate|]|split; [congruence|auto]]. rewrite Lv. auto.
    + exists t'. split; auto. rewrite place_dom, Dm. destruct (String.eqb_spec c v); [contradiction|]. rewrite T2, Lc. split; auto. split; auto. rewrite <- Dc. apply Ne; auto.
Qed.

(* ---- the new network has a joint distribution ---- *)
Lemma init_column : forall g ds v f fo k cards t col, In v (nodes g) -> ready ds (parents g v) -> init_table g ds cards v f fo k = Ok t -> In col (tcols t) ->
  length col = length (tdom t) /\ (forall q, In q col -> 0 <= q) /\
  exists pv w, context_of ds (parents g v) pv /\ call f pv = Ok w /\ col = map (complete (tdom t) (dist_of w)) (tdom t).
Proof.
  intros g ds v f fo k cards t col Hv R H Hc. destruct (calls_of_ok g ds v f fo k cards Hv R t H) as [dl A]. rewrite (init_eq g ds v f fo k cards Hv R dl A) in H.
  destruct (forallb (fun x => omem x (domain_from fo dl)) (flat_map (map fst) dl)); [|discriminate]. destruct (cards (parents g v)) as [ec|e]; cbn [bind] in H; [|discriminate]. cbv zeta in H.
  set (dom := domain_from fo dl) in *. set (cols := map (fun d => map (complete dom d) dom) dl) in *.
  destruct (negb (match cols with [] => false | _ => true end && forallb (fun c => qabs_close (qsum c) 1 hundredth) cols)); [discriminate|].
  destruct (forallb (forallb (fun p => qleb 0 p && qleb p 1)) cols) eqn:E3; cbn [negb] in H; [|discriminate].
  destruct (negb (length cols =? fold_right Nat.mul 1%nat ec)%nat); [discriminate|]. destruct (negb (length (nodup Qc_eq_dec dom) =? length dom)%nat); [discriminate|].
  injection H as <-. cbn [tcols tdom] in *. assert (Hc' := Hc). apply in_map_iff in Hc. destruct Hc as (d & <- & Hd). split; [apply map_length|]. split.
  - intros q Hq. rewrite forallb_forall in E3. specialize (E3 _ Hc'). rewrite forallb_forall in E3. specialize (E3 q Hq). apply andb_true_iff in E3. apply qleb_iff. apply E3.
  - destruct (Forall2_in_r _ _ _ _ _ _ A Hd) as (pv & P1 & P2). destruct (call_dist f pv d P2) as (w & W1 & <-). exists pv, w. split; [apply in_contexts; auto|]. auto.
Qed.
Lemma tracks_distribution : forall n n' iv, portable n -> distribution n -> NoDup (keys iv) -> in_domains n iv -> tracks n n' iv -> distribution n'.
Proof.
  intros n n' iv Po Hd Ni Di T. destruct T as [S' C' Nn Ed Rs Pt Pd Sm Kn]. assert (W' := s_dag n' S'). assert (W : wf_dag (ngraph n)) by apply Hd.
  assert (Ht := fun v t => has_table_iff n' v t (s_inv n' S')).
  assert (Cd := do_kernel_cond n iv Hd (fun v x => lookup_in_domains n iv v x Di)).
  assert (Ld : forall p, In p (nodes (ngraph n')) -> lookup p (doms n') <> None) by (intros p Hp; destruct (complete_dom n' p S' C' Hp) as (tp & _ & Lp & _); congruence).
  assert (Pe : forall p v, edge (ngraph n') p v -> In p (nodes (ngraph n'))) by (intros p v Hp; apply (proj2 (proj2 (proj1 W')) p v Hp)).
  assert (Rel : forall v t, cpd_of n' v = Some t -> In v (nodes (ngraph n')) /\ lookup v (doms n') = Some (tdom t) /\
    ((exists f fo k, keyword_function f /\ init_table (ngraph n') (doms n') (ideal (doms n')) v f fo k = Ok t) \/ ~ In v (keys iv) /\ lookup v (rels n) = Some (RTab t) /\ cpd_of n v = Some t)).
  { intros v t Hc. split; [apply (inv_rel n' (s_inv n' S') v t Hc)|]. split; [apply (inv_dom n' (s_inv n' S')); auto|].
    destruct (sound_table n' v t S' Hc) as (r & Hr & Tr). assert (Py : python_rel r /\ forall t0, r = RTab t0 -> ~ In v (keys iv)).
    { destruct (in_dec String.string_dec v (keys iv)) as [K|K]; [destruct (Pt v K) as (d & Hd' & Dd); assert (r = RDist d) by congruence; subst r; split; [exact Dd|discriminate]|].
      split; auto. rewrite Rs in Hr by auto. apply (p_python n Po v r Hr). }
    destruct Py as [Py Nk]. destruct (fn_of r) as [[f fo]|] eqn:Ef.
    - left. assert (Kf := python_fn r f fo Py Ef). unfold table_of, table_from in Tr. destruct r; cbn in Ef; try discriminate; injection Ef as <- <-; do 3 eexists; split; eauto.
    - right. destruct r as [| | |t0]; try discriminate. unfold table_of, table_from in Tr. injection Tr as ->. assert (K := Nk t eq_refl). split; auto. rewrite Rs in Hr by auto. split; auto. apply (s_settled n (p_sound n Po) v _ Hr). }
  split; auto. split; [|split].
  - intros v t t' H1 H2. apply Ht in H1. apply Ht in H2. congruence.
  - intros v t H. apply Ht in H. destruct (Rel v t H) as (Hv & Lv & [(f & fo & k & Kf & Hi)|(K & Hr & Hc)]).
    + assert (R : ready (doms n') (parents (ngraph n') v)) by (intros p Hp; apply in_parents in Hp; eauto).
      destruct (init_tabulates _ _ _ _ _ _ _ Hv R t Hi) as (Tb & _ & Tc). injection Tc as Tc. assert (Tb' := Tb). destruct Tb' as (T1 & T2 & T3 & T4 & _ & _ & T7 & _).
      split; [rewrite T2; apply nodup_parents; apply W'|]. split; auto. split; [rewrite <- Tc, T2, map_length; auto|]. split; [rewrite T7, <- Tc; apply contexts_cards|].
      intros col Hc. destruct (init_column _ _ _ _ _ _ _ _ _ Hv R Hi Hc) as (C1 & C2 & pv & w & Cx & Cl & Ec). split; auto. split; auto. change (qsum col = 1).
      destruct (context_is_ctx _ _ _ (nodup_parents _ v (proj1 W')) Cx) as (a & -> & Ha).
      assert (Hvn : In v (nodes (ngraph n))) by (rewrite <- Nn; auto).
      assert (Dn : forall p, edge (ngraph n') p v -> In (a p) (dom_of (doms n) p)).
      { intros p Hp. assert (X := Pe p v Hp). rewrite Nn in X. eapply Permutation_in; [apply Permutation_sym, Pd; auto|]. apply Ha. apply in_parents; auto. }
      assert (Sum := k_normal _ _ _ Cd v a Hvn). rewrite ndom_in in Sum by auto. rewrite <- Sum.
      2:{ intros p Hp. apply edge_cut in Hp. rewrite ndom_in by apply (proj2 (proj2 (proj1 W)) p v (proj1 Hp)). apply Dn. apply Ed. auto. }
      rewrite (qsum_perm _ _ (Permutation_map _ (Pd v Hvn))). assert (Dv : dom_of (doms n') v = tdom t) by (unfold dom_of; rewrite Lv; auto). rewrite Dv.
      rewrite <- (sum_by_position (tdom t) col) by auto. apply qsum_ext. intros x Hx.
      assert (Up : forall p, In p (parents (ngraph n') v) -> upd a v x p = a p).
      { intros p Hp. apply upd_other. intros ->. apply in_parents in Hp. apply (no_self_edge _ _ (proj2 W') Hp). }
      rewrite <- (Kn v (upd a v x) Hvn).
      * unfold kernel. rewrite H. destruct (tabulates_entry _ _ _ _ _ t (upd a v x) Tb Kf Lv R) as (w' & Cw & ->).
        { intros p Hp. rewrite Up by auto. apply Ha; auto. }
        assert (Ex : ctx (upd a v x) (parents (ngraph n') v) = ctx a (parents (ngraph n') v)) by (apply map_ext_in; intros p Hp; rewrite Up; auto).
        rewrite Ex in Cw. assert (w' = w) by congruence. subst w'. rewrite upd_same, Ec. auto.
      * intros u [->|[Hu Kv]]; [rewrite upd_same; eapply Permutation_in; [apply Permutation_sym, Pd; auto|rewrite Dv; auto]|].
        assert (Hu' : edge (ngraph n') u v) by (apply Ed; auto). rewrite Up by (apply in_parents; auto). apply Dn; auto.
    + destruct Hd as (_ & _ & Ex & _). apply (Ex v t). apply has_table_iff; auto. apply (p_sound n Po).
  - intros v Hv. assert (Cv := C' v Hv). destruct (cpd_of n' v) as [t|] eqn:Hc; [|congruence]. exists t. split; [apply Ht; auto|]. destruct (Rel v t Hc) as (_ & Lv & [(f & fo & k & Kf & Hi)|(K & Hr & Hcn)]); (split; [exact Lv|]).
    + assert (R : ready (doms n') (parents (ngraph n') v)) by (intros p Hp; apply in_parents in Hp; eauto).
      destruct (init_tabulates _ _ _ _ _ _ _ Hv R t Hi) as (Tb & _ & Tc). injection Tc as Tc. destruct Tb as (T1 & T2 & _). rewrite T2. split; [intro p; apply in_parents|]. rewrite <- Tc. auto.
    + rewrite Nn in Hv. destruct (dist_table n v Hd Hv) as (t' & Ct' & To). assert (t' = t) by congruence. subst t'. split.
      * intro p. rewrite (ok_ev n v t To), Ed. tauto.
      * rewrite (ok_cards n v t To). apply map_ext_in. intros p Hp. apply Permutation_length. apply Pd. apply (ok_ev n v t To) in Hp. apply (proj2 (proj2 (proj1 W)) p v Hp).
Qed.
Lemma dist_inhabited : forall n, distribution n -> inhabited_domains n.
Proof.
  intros n Hd. assert (W : wf_dag (ngraph n)) by apply Hd. intros u Hu. revert u Hu. apply (dag_parents_ind (ngraph n) (fun u => dom_of (doms n) u <> []) W). intros v Hv IH E.
  destruct (dist_table n v Hd Hv) as (t & Ct & T). rewrite (ok_dom n v t T) in E. destruct (ok_exact n v t T) as (_ & _ & _ & L & C).
  assert (Z : length (tcols t) <> 0%nat).
  { rewrite L, (ok_cards n v t T). assert (X : forall p, In p (tev t) -> dom_of (doms n) p <> []) by (intros p Hp; apply IH; apply (ok_ev n v t T); auto).
    clear - X. induction (tev t) as [|p l IHl]; cbn [map fold_right]; [discriminate|]. specialize (X p (or_introl eq_refl)) as Xp. destruct (dom_of (doms n) p); [congruence|]. specialize (IHl (fun q Hq => X q (or_intror Hq))). cbn [length]. nia. }
  destruct (tcols t) as [|col cols]; [apply Z; auto|]. destruct (C col (or_introl eq_refl)) as (C1 & _ & C3). rewrite E in C1. destruct col; [|discriminate]. discriminate.
Qed.
Lemma tracks_pythonic : forall n n' iv, portable n -> tracks n n' iv -> pythonic n'.
Proof.
  intros n n' iv Po T v r Hr. destruct (in_dec String.string_dec v (keys iv)) as [K|K].
  - destruct (k_point n n' iv T v K) as (d & Hd & Dd). assert (r = RDist d) by congruence. subst r. exact Dd.
  - rewrite (k_rels n n' iv T v K) in Hr. eapply (p_python n Po); eauto.
Qed.
Lemma intervene_steps : forall n iv2 iv1 n1, portable n -> distribution n -> tracks n n1 iv1 -> NoDup (keys (iv1 ++ iv2)) -> in_domains n (iv1 ++ iv2) -> incl (keys iv2) (nodes (ngraph n)) ->
  tables_sorted n iv2 -> exists n2, intervene n1 iv2 = (n2, None).
Proof.
  intros n iv2. induction iv2 as [|[v x] iv2 IH]; intros iv1 n1 Po Hd T N Di Ii Ts; [exists n1; reflexivity|]. cbn [intervene loop_net].
  assert (Hx : In x (dom_of (doms n) v)) by (eapply in_domains_dom; [exact Di|apply in_or_app; right; left; auto]).
  assert (Hv : In v (nodes (ngraph n))) by (apply Ii; left; auto).
  assert (N1 : NoDup (keys iv1)) by (rewrite keys_app in N; revert N; clear; induction (keys iv1) as [|a l IH]; intro N; [constructor|]; inversion N as [|? ? A B]; subst; constructor; [intro K; apply A; apply in_or_app; auto|apply IH; exact B]).
  assert (Hd1 : distribution n1) by (apply (tracks_distribution n n1 iv1); auto; intros u y Hu; apply Di; apply in_or_app; auto).
  assert (Po1 : portable n1) by (apply dist_portable; auto; [apply T|eapply tracks_pythonic; eauto]).
  destruct (intervene_one_total n1 v x Po1 (dist_inhabited n1 Hd1)) as [m E]; [rewrite (k_nodes _ _ _ T); auto| |].
  { eapply Permutation_in; [apply (k_dom _ _ _ T); auto|auto]. }
  rewrite E. assert (Nv : ~ In v (keys iv1)). { rewrite keys_app in N. cbn [keys map fst] in N. apply NoDup_remove_2 in N. intro K. apply N. apply in_or_app. auto. }
  assert (T' : tracks n m (iv1 ++ [(v, x)])). { eapply tracks_step; eauto. intros u t _ _ Hr He. apply (Ts v u t); auto. left; auto. }
  replace (iv1 ++ (v, x) :: iv2) with ((iv1 ++ [(v, x)]) ++ iv2) in * by (rewrite <- app_assoc; auto).
  apply (IH (iv1 ++ [(v, x)]) m); auto; [intros u Hu; apply Ii; right; auto|intros u w t Hu; apply Ts; right; auto].
Qed.

(* ---- queries ---- *)
Lemma remove_nodes_total : forall vs n, wf_dag (ngraph n) -> NoDup (map tvar (cpds n)) -> NoDup (keys (rels n)) -> NoDup vs ->
  (forall v, In v vs -> In v (nodes (ngraph n)) /\ cpd_of n v <> None /\ In v (keys (rels n))) -> exists n', loop_net remove_node n vs = (n', None).
Proof.
  induction vs as [|v vs IH]; intros n W I N Nv H; [exists n; reflexivity|]. cbn [loop_net]. inversion Nv as [|? ? N1 N2]; subst. destruct (H v (or_introl eq_refl)) as (H1 & H2 & H3).
  destruct (remove_node n v) as [m [e|]] eqn:E.
  { exfalso. unfold remove_node in E. destruct (cpd_of n v); [|congruence]. unfold del_item in E. rewrite (proj2 (mem_In _ _) H3) in E. cbn [ngraph] in E. unfold nx_remove_node in E. rewrite (proj2 (mem_In _ _) H1) in E. discriminate. }
  destruct (remove_node_spec n v m W E) as (W1 & N3 & _). destruct (remove_node_inv n v m I N H2 E) as (I1 & K1 & R1 & C1). apply IH; auto.
  intros u Hu. assert (Nu : u <> v) by (intros ->; contradiction). destruct (H u (or_intror Hu)) as (X1 & X2 & X3). rewrite C1. destruct (String.eqb_spec u v) as [|_]; [contradiction|]. split; [|split; auto].
  - rewrite N3. apply filter_In. split; auto. apply negb_true_iff. apply String.eqb_neq; auto.
  - apply lookup_In_keys in X3. apply lookup_In_keys. rewrite R1. destruct (String.eqb_spec u v); [contradiction|auto].
Qed.
Lemma check_model_ok : forall n, wf_dag (ngraph n) -> (forall v, In v (nodes (ngraph n)) -> exists t, cpd_of n v = Some t /\ table_ok n v t) -> check_model n = Ok tt.
Proof.
  intros n W H. unfold check_model.
  destruct (map_r_total _ _ (check_node n) (nodes (ngraph n))) as [l1 E1].
  { intros v Hv. destruct (H v Hv) as (t & Ct & T). exists tt. unfold check_node. rewrite Ct.
    assert (Se : same_set (tev t) (parents (ngraph n) v) = true).
    { unfold same_set. apply andb_true_iff. rewrite !forallb_forall. split; intros p Hp; apply mem_In; [apply in_parents; apply (ok_ev n v t T); auto|apply (ok_ev n v t T); apply in_parents; auto]. }
    rewrite Se. cbn [negb]. destruct (ok_exact n v t T) as (_ & _ & _ & _ & C).
    replace (forallb (fun c => qabs_close (qsum c) 1 hundredth) (tcols t)) with true; auto. symmetry. apply forallb_forall. intros col Hc. destruct (C col Hc) as (_ & _ & E). change (qsum col = 1) in E. rewrite E. reflexivity. }
  rewrite E1. cbn [bind].
  destruct (map_r_total _ _ (check_cards n) (nodes (ngraph n))) as [l2 E2]; [|rewrite E2; auto].
  intros v Hv. destruct (H v Hv) as (t & Ct & T). exists tt. unfold check_cards. rewrite Ct.
  destruct (map_r_total _ _ (fun pc => match cpd_of n (fst pc) with None => Err AttributeError | Some s => if (length (tdom s) =? snd pc)%nat then Ok tt else Err ValueError end) (combine (tev t) (tcards t))) as [l E]; [|rewrite E; auto].
  intros [p k] Hp. exists tt. cbn [fst snd]. rewrite (ok_cards n v t T) in Hp. assert (Hk : k = length (dom_of (doms n) p) /\ In p (tev t)).
  { clear - Hp. induction (tev t) as [|q l IH]; [destruct Hp|]. cbn [map combine] in Hp. destruct Hp as [E|Hp]; [injection E as -> <-; split; [auto|left; auto]|]. destruct (IH Hp). split; [auto|right; auto]. }
  destruct Hk as [-> Hp']. apply (ok_ev n v t T) in Hp'. destruct (H p) as (s & Cs & Ts); [apply (proj2 (proj2 (proj1 W)) p v Hp')|]. rewrite Cs, (ok_dom n p s Ts), Nat.eqb_refl. auto.
Qed.
Lemma linked_sym : forall g u v, linked g u v -> linked g v u.
Proof.
  intros g u v H. induction H as [u|u v w E R IH]; [constructor|]. eapply reach_snoc; [exact IH|]. apply edge_undirected. apply edge_undirected in E. tauto.
Qed.
Lemma linked_trans : forall g u v w, linked g u v -> linked g v w -> linked g u w.
Proof. intros g u v w H. induction H as [u|u x y E R IH]; auto. intro K. eapply reach_step; eauto. exact (IH K). Qed.
(* removing the nodes of other components *)
Lemma kept_table : forall n n3 vs, distribution n -> NoDup vs -> loop_net remove_node n vs = (n3, None) -> (forall u v, edge (ngraph n) u v -> (In u vs <-> In v vs)) ->
  forall v, In v (nodes (ngraph n3)) -> exists t, cpd_of n3 v = Some t /\ table_ok n3 v t.
Proof.
  intros n n3 vs Hd Nv E Lk v Hv. destruct (remove_nodes_spec vs n n3 (proj1 Hd) E) as (W3 & N3 & E3 & D3 & C3).
  rewrite N3, filter_In, negb_true_iff, mem_nIn in Hv. destruct Hv as [Hv Nf]. destruct (dist_table n v Hd Hv) as (t & Ct & T).
  exists t. split; [rewrite (proj1 (C3 v Nf)); auto|]. destruct T as [T1 T2 T3 T4 T5]. constructor; auto; try (rewrite D3; auto).
  intro p. rewrite T4, E3. split; [|tauto]. intro K. split; auto. split; auto. intro X. apply Nf. apply (Lk p v K). auto.
Qed.
Lemma query_connected_total : forall o n qs c, sound n -> pythonic n -> distribution n -> qs <> [] -> incl qs (nodes (ngraph n)) ->
  (forall q q', In q qs -> In q' qs -> linked (ngraph n) q q') -> (forall q, In q qs -> ~ In q (keys c)) -> exists n' f, query_connected o n qs c = (n', Ok f).
Proof.
  intros o n qs c S Py Hd Nq Iq Lq Dq. assert (W : wf_dag (ngraph n)) by apply Hd. destruct (dist_portable n S Py Hd) as (Po & Rt & Ev). unfold query_connected.
  destruct (map_r_total _ _ (component (ngraph n)) qs) as [cs Ec].
  { intros q Hq. unfold component. rewrite (proj2 (mem_In _ _) (Iq q Hq)). eauto. }
  rewrite Ec. destruct (components_spec _ _ _ W Ec) as [_ Cq]. set (far := filter (fun v => negb (mem v (concat cs))) (nodes (ngraph n))).
  assert (Kf : forall v, In v far <-> In v (nodes (ngraph n)) /\ ~ In v (concat cs)) by (intro v; unfold far; rewrite filter_In, negb_true_iff, mem_nIn; tauto).
  assert (Nf : NoDup far) by (apply NoDup_filter; apply W).
  destruct (remove_nodes_total far n) as [n3 El]; auto; [apply S|apply S| |].
  { intros v Hv. apply Kf in Hv. destruct Hv as [Hv _]. split; auto. assert (C := p_complete n Po v Hv). split; auto. destruct (cpd_of n v) as [t|] eqn:E; [|congruence]. apply (inv_rel n (s_inv n S) v t E). }
  rewrite El. destruct (remove_nodes_spec _ _ _ W El) as (W3 & N3 & E3 & D3 & C3).
  assert (Lk : forall u v, edge (ngraph n) u v -> (In u (concat cs) <-> In v (concat cs))).
  { intros u v E. rewrite !Cq. assert (In u (nodes (ngraph n)) /\ In v (nodes (ngraph n))) by (apply W; auto).
    split; intros (_ & q & Hq & L); (split; [tauto|]); exists q; (split; [auto|]); eapply linked_edge; eauto. }
  assert (Lf : forall u v, edge (ngraph n) u v -> (In u far <-> In v far)).
  { intros u v E. rewrite !Kf, (Lk u v E). assert (In u (nodes (ngraph n)) /\ In v (nodes (ngraph n))) by (apply W; auto). tauto. }
  assert (K3 : forall v, In v (nodes (ngraph n3)) <-> In v (concat cs)).
  { intro v. rewrite N3, filter_In, negb_true_iff, mem_nIn, Kf. split; [|intro K; split; [apply Cq in K; tauto|tauto]]. intros [H1 H2]. destruct (in_dec String.string_dec v (concat cs)) as [K|K]; auto. exfalso. tauto. }
  assert (Stay : forall u w, linked (ngraph n) u w -> ~ In u far -> reach (undirected (ngraph n3)) u w).
  { clear - E3 Lf. intros u w L. induction L as [u|u v w E R IH]; intro Ku; [constructor|]. apply edge_undirected in E. assert (Kw : ~ In v far) by (intro K; apply Ku; destruct E as [E|E]; apply Lf in E; tauto).
    eapply reach_step; [|apply IH; auto]. apply edge_undirected. rewrite !E3. tauto. }
  assert (Cn : is_connected (ngraph n3) = Ok true).
  { unfold is_connected. destruct (nodes (ngraph n3)) as [|v0 vs] eqn:En.
    - exfalso. destruct qs as [|q qs]; [congruence|]. apply (K3 q). apply Cq. split; [apply Iq; left; auto|]. exists q. split; [left; auto|constructor].
    - f_equal. rewrite <- En. apply forallb_forall. intros w Hw.
      assert (Hv0 : In v0 (nodes (ngraph n3))) by (rewrite En; left; auto).
      apply (has_path_iff _ (wf_undirected _ W3)); auto.
      assert (Lw : linked (ngraph n) v0 w).
      { rewrite En in Hw. apply K3, Cq in Hw. rewrite En in Hv0. apply K3, Cq in Hv0. destruct Hw as (_ & q & Hq & L). destruct Hv0 as (_ & q' & Hq' & L').
        eapply linked_trans; [apply linked_sym; exact L'|]. eapply linked_trans; [apply (Lq q' q); auto|auto]. }
      apply Stay; auto. intro K. apply Kf in K. rewrite En in Hv0. apply K3 in Hv0. tauto. }
  rewrite Cn. unfold bp_query. rewrite (check_model_ok n3 W3 (kept_table n n3 far Hd Nf El Lf)). cbn [bind].
  set (c1 := filter (fun vx => mem (fst vx) (concat cs)) c). assert (X : existsb (fun q => mem q (keys c1)) qs = false).
  { destruct (existsb (fun q => mem q (keys c1)) qs) eqn:E; auto. exfalso. apply existsb_exists in E. destruct E as (q & Hq & K). apply mem_In in K. apply (Dq q Hq). unfold c1, keys in K. apply in_map_iff in K. destruct K as ([w x] & <- & K). apply filter_In in K. apply (in_map fst _ _ (proj1 K)). }
  rewrite X. eauto.
Qed.
Lemma check_context_ok : forall n c, in_domains n c <-> check_context (doms n) c = Ok tt.
Proof.
  intros n c. induction c as [|[v x] c IH]; cbn [check_context]; [split; [auto|intros _ v x []]|]. split.
  - intro H. destruct (H v x (or_introl eq_refl)) as (d & L & Hx). unfold has_domain in L. rewrite L, (proj2 (omem_In _ _) Hx). apply IH. intros w y Hw. apply H. right; auto.
  - intros E w y [K|K]; [|destruct (lookup v (doms n)) as [d|]; [|discriminate]; destruct (omem x d); [|discriminate]; apply (proj2 IH E w y K)].
    injection K as -> ->. destruct (lookup w (doms n)) as [d|] eqn:L; [|discriminate]. exists d. split; auto. apply omem_In. destruct (omem y d); [auto|discriminate].
Qed.
(* what a query is asked of: the network itself, or a copy of it that has been intervened on *)
Lemma query_total : forall o roles n qs c iv, built n -> distribution n -> NoDup (keys iv) -> incl (keys iv) (nodes (ngraph n)) -> in_domains n iv -> tables_sorted n iv ->
  in_domains n c -> qs <> [] -> incl qs (nodes (ngraph n)) -> (forall q q', In q qs -> In q' qs -> joined (ngraph n) (keys iv) q q') -> (forall q, In q qs -> ~ In q (keys c)) ->
  (iv = [] \/ roles = Ok tt) -> exists n' f, query o roles n qs c iv = (n', Ok f).
Proof.
  intros o roles n qs c iv B Hd Ni Ii Di Ts Dc Nq Iq Jq Dq Ro. destruct (built_sound n B) as [S Py]. destruct (dist_portable n S Py Hd) as (Po & Rt & Ev).
  unfold query. rewrite (proj1 (check_context_ok n c) Dc). destruct iv as [|vx iv].
  - apply query_connected_total; auto. intros q q' H1 H2. apply (linked_joined (ngraph n) (ngraph n) []); auto. intros; simpl; tauto.
  - destruct Ro as [Ro| ->]; [discriminate|]. cbn [bind]. destruct (copy_total n Po Rt) as [n1 E1]. rewrite E1. cbn [bind]. assert (T1 := tracks_copy n n1 Po E1).
    destruct (intervene_steps n (vx :: iv) [] n1 Po Hd T1) as [n2 E2]; auto. rewrite E2. assert (T2 := intervene_tracks n n1 _ n2 Po T1 E2 Ni Di Ts).
    destruct (query_connected_total o n2 qs c) as (n3 & f & E3); auto.
    + apply T2. + eapply tracks_pythonic; eauto. + apply (tracks_distribution n n2 (vx :: iv)); auto.
    + rewrite (k_nodes _ _ _ T2). auto.
    + intros q q' H1 H2. apply (linked_joined (ngraph n) (ngraph n2) (keys (vx :: iv))); auto. intros; apply (k_edges _ _ _ T2).
    + exists n, f. rewrite E3. auto.
Qed.
