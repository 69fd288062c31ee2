(* Lemmas about copies and interventions of networks. *)
From Coq Require Import String List Bool Arith QArith Qcanon Lia Permutation Setoid.
Import ListNotations.
From Verif Require Import MBase MGraph MMacid MCpd MNet MProb MQuery Spec SpecM SpecC SpecN SpecQ LBase LGraph LCopy LQc LCpd LNet LSum LBayes LQuery LDo.
Local Open Scope Qc_scope.

(* ---- networks with current tables ---- *)
Record sound (n : net) : Prop := {
  s_dag : wf_dag (ngraph n);
  s_inv : inv n;
  s_settled : all_settled n;
  s_keys : NoDup (keys (rels n)) }.
Lemma begin_keys : forall n v r, NoDup (keys (rels n)) -> NoDup (keys (rels (begin n v r))).
Proof.
  intros n v r N. unfold begin. cbn [rels]. apply NoDup_keys_dset. destruct (mem v (keys (rels n))) eqn:E; auto.
  unfold del_item. rewrite E. cbn [fst rels]. apply NoDup_keys_ddel; auto.
Qed.
Lemma set_item_keys : forall k n v r, NoDup (keys (rels n)) -> NoDup (keys (rels (fst (set_item k n v r)))).
Proof.
  induction k as [|k IH]; intros n v r N; [exact N|]. rewrite set_item_S. cbv zeta. assert (B := begin_keys n v r N). set (n1 := begin n v r) in *.
  destruct (to_tabular n1 v r) as [t|e]; [|destruct e; exact B].
  destruct (negb (in_scope (ngraph n1) t)); [exact B|]. destruct (same_domain (lookup v (doms n1)) (tdom t)); [exact B|].
  assert (R : forall cs m, NoDup (keys (rels m)) -> NoDup (keys (rels (fst (resets k m cs))))).
  { induction cs as [|c cs IHc]; intros m Nm; cbn [resets]; auto. destruct (lookup c (rels m)) as [rc|]; auto.
    assert (X := IH m c rc Nm). destruct (set_item k m c rc) as [m' [e|]]; auto. }
  apply R. exact B.
Qed.
Lemma run_keys : forall os n n' e, run n os = (n', e) -> NoDup (keys (rels n)) -> NoDup (keys (rels n')).
Proof.
  induction os as [|o os IH]; intros n n' e H N; cbn [run] in H; [injection H as <- <-; auto|].
  assert (X : NoDup (keys (rels (fst (step n o))))).
  { destruct o as [v r|v]; cbn [step]; [apply set_item_keys; auto|]. unfold del_item. destruct (mem v (keys (rels n))); auto. cbn [fst rels]. apply NoDup_keys_ddel; auto. }
  destruct (step n o) as [n1 [e1|]]; [injection H as <- <-; auto|]. eapply IH; eauto.
Qed.
Lemma run_sound : forall g os n, wf_dag g -> (forall v r, In (OAdd v r) os -> proper v r) -> run (bare g) os = (n, None) -> sound n /\ ngraph n = g.
Proof.
  intros g os n W P H. destruct (run_keeps os (bare g) n) as (I & S & G & R); auto.
  { apply bare_inv. } { intros u r Hu. discriminate. } { intros [v r|v] Ho; simpl; auto. }
  cbn [ngraph bare] in G. split; auto. constructor; auto; [rewrite G; auto|]. eapply run_keys; eauto. constructor.
Qed.
Lemma step_sound : forall n o n', sound n -> proper_op o -> step n o = (n', None) -> sound n' /\ ngraph n' = ngraph n /\ forall v, lookup v (rels n') = effect v (lookup v (rels n)) o.
Proof.
  intros n o n' [W I S N] P H. destruct (step_keeps n o n' W I S P H) as (A & B & C & D). split; auto. constructor; auto; [rewrite C; auto|].
  apply (run_keys [o] n n' None); auto. cbn [run]. rewrite H. auto.
Qed.

(* ---- copies ---- *)
Lemma effect_rels : forall (l : list (node * rel)) v cur, NoDup (keys l) ->
  fold_left (effect v) (map (fun vr => OAdd (fst vr) (snd vr)) l) cur = match lookup v l with Some r => Some r | None => cur end.
Proof.
  induction l as [|[u r] l IH]; intros v cur N; cbn [map fold_left lookup fst snd]; auto. inversion N as [|? ? N1 N2]; subst. rewrite IH by auto. cbn [effect].
  destruct (String.eqb_spec v u) as [->|E].
  - rewrite String.eqb_refl. apply lookup_None_keys in N1. rewrite N1. auto.
  - destruct (String.eqb_spec u v); [congruence|]. auto.
Qed.
Lemma copy_sound : forall n n1, sound n -> copy_net n = Ok n1 -> sound n1 /\ ngraph n1 = copied (ngraph n) /\ same_rels n1 n.
Proof.
  intros n n1 [W I S N] H. unfold copy_net in H. rewrite copy_graph in H by auto. cbn [bind] in H.
  destruct (add_cpds (bare (copied (ngraph n))) (rels n)) as [n' [e|]] eqn:E; [discriminate|]. injection H as ->.
  assert (Pr : forall v r, In (OAdd v r) (map (fun vr : node * rel => OAdd (fst vr) (snd vr)) (rels n)) -> proper v r).
  { intros v r Hi. apply in_map_iff in Hi. destruct Hi as ([u s] & E1 & Hi). cbn [fst snd] in E1. injection E1 as <- <-. apply (inv_proper n I). apply In_lookup; auto. }
  assert (W1 := copied_wf _ W). destruct (run_sound (copied (ngraph n)) _ n1 W1 Pr E) as [S1 G1]. split; auto. split; auto.
  destruct (run_keeps (map (fun vr : node * rel => OAdd (fst vr) (snd vr)) (rels n)) (bare (copied (ngraph n))) n1 W1 (bare_inv _)) as (_ & _ & _ & R); auto.
  { intros u r Hu. discriminate. } { intros o Ho. destruct o; [apply Pr; auto|exact Logic.I]. }
  intro v. rewrite R, effect_rels by auto. cbn [bare rels lookup]. destruct (lookup v (rels n)); auto.
Qed.

(* ---- removing edges ---- *)
Lemma table_of_graph : forall g g' ds v r, nodes g' = nodes g -> parents g' v = parents g v -> table_of g' ds v r = table_of g ds v r.
Proof.
  intros g g' ds v r Hn Hp. assert (E : get_parents g' v = get_parents g v) by (unfold get_parents; rewrite Hn, Hp; auto).
  unfold table_of, table_from. assert (I : forall f fo k, init_table g' ds (ideal ds) v f fo k = init_table g ds (ideal ds) v f fo k).
  { intros f fo k. unfold init_table, possible_values, parent_values. rewrite E. auto. }
  destruct r; auto.
Qed.
Lemma parents_removed : forall g g' u v w, nx_remove_edge g u v = Ok g' -> w <> v -> parents g' w = parents g w.
Proof.
  intros g g' u v w H Hw. unfold nx_remove_edge in H. destruct (has_edge g u v); [|discriminate]. injection H as <-. unfold parents. cbn [edges]. f_equal.
  induction (edges g) as [|[a b] l IH]; auto. cbn [filter snd]. destruct (negb (eqb_edge (u, v) (a, b))) eqn:E; cbn [filter snd].
  - rewrite IH. auto.
  - apply negb_false_iff in E. apply eqb_edge_eq in E. injection E as <- <-. destruct (String.eqb_spec v w); [congruence|]. auto.
Qed.
Lemma on_graph_sound : forall n g, sound n -> wf_dag g -> nodes g = nodes (ngraph n) ->
  (forall v r, lookup v (rels n) = Some r -> parents g v = parents (ngraph n) v) -> sound (on_graph n g).
Proof.
  intros n g [W I S N] Wg Hn Hp. constructor; auto.
  - destruct I as [i1 i2 i3 i4 i5]. constructor; auto.
    + intros u t Hu. destruct (i3 u t Hu). split; auto. cbn [on_graph ngraph]. rewrite Hn. auto.
    + intros u t Hu. apply in_scope_iff. cbn [on_graph ngraph]. rewrite Hn. apply in_scope_iff. apply (i5 u t Hu).
  - intros u r Hu. assert (Su := S u r Hu). unfold settled in *. cbn [on_graph ngraph doms] in *. rewrite (table_of_graph (ngraph n) g) by (auto; eapply Hp; eauto). exact Su.
Qed.
(* removing the edges into a node without relationship *)
Lemma remove_edges_sound : forall ps n v n', sound n -> lookup v (rels n) = None ->
  loop_net (fun m p => remove_edge m p v) n ps = (n', None) ->
  sound n' /\ rels n' = rels n /\ doms n' = doms n /\ cpds n' = cpds n /\ nodes (ngraph n') = nodes (ngraph n) /\
  (forall u w, edge (ngraph n') u w <-> edge (ngraph n) u w /\ ~ (w = v /\ In u ps)) /\ (forall w, w <> v -> parents (ngraph n') w = parents (ngraph n) w).
Proof.
  induction ps as [|p ps IH]; intros n v n' S L H; cbn [loop_net] in H.
  - injection H as <-. split; auto. split; auto. split; auto. split; auto. split; auto. split; [|auto]. intros u w. simpl. tauto.
  - unfold remove_edge at 1 in H. destruct (nx_remove_edge (ngraph n) p v) as [g|e] eqn:E; [|discriminate].
    unfold renew in H. cbn [on_graph rels] in H. rewrite L in H. cbn iota in H.
    assert (W := s_dag n S). assert (Eg := fun a b => edge_nx_remove_edge _ _ _ _ a b E).
    assert (Wg : wf_dag g). { split; [eapply wf_nx_remove_edge; eauto; apply W|]. eapply acyclic_sub; [|apply W]. intros a b K. apply Eg in K. tauto. }
    assert (Sg : sound (on_graph n g)).
    { apply on_graph_sound; auto; [eapply nodes_nx_remove_edge; eauto|]. intros w r Hw. eapply parents_removed; eauto. congruence. }
    destruct (IH (on_graph n g) v n' Sg L H) as (K1 & K2 & K3 & K4 & K5 & K6 & K7). split; auto. split; auto. split; auto. split; auto. cbn [on_graph ngraph] in *.
    split; [rewrite K5; eapply nodes_nx_remove_edge; eauto|]. split.
    + intros u w. rewrite K6, Eg. simpl. split.
      * intros [[X1 X2] X3]. split; auto. intros [-> [->|X4]]; [apply X2; auto|apply X3; auto].
      * intros [X1 X2]. split; [split; auto|]; [intros [-> ->]; apply X2; auto|intros [-> X3]; apply X2; auto].
    + intros w Hw. rewrite K7 by auto. eapply parents_removed; eauto.
Qed.

(* ---- interventions ---- *)
(* the distribution put in place by an intervention *)
Definition point_dist (d : list outcome) (x : outcome) : dist := odset x (Some 1) (fold_left (fun l y => odset y (Some 0) l) d []).
Lemma intervene_one_sound : forall n v x n', sound n -> intervene_one n (v, x) = (n', None) ->
  sound n' /\ nodes (ngraph n') = nodes (ngraph n) /\ (forall u w, edge (ngraph n') u w <-> edge (ngraph n) u w /\ w <> v) /\
  (forall w, w <> v -> parents (ngraph n') w = parents (ngraph n) w) /\ In v (keys (rels n)) /\ In v (nodes (ngraph n)) /\
  exists d, lookup v (doms n) = Some d /\ forall u, lookup u (rels n') = if String.eqb u v then Some (RDist (point_dist d x)) else lookup u (rels n).
Proof.
  intros n v x n' S H. unfold intervene_one in H. destruct (del_item n v) as [n0 [e|]] eqn:Ed; [discriminate|].
  destruct (step_sound n (ODel v) n0 S Logic.I Ed) as (S0 & G0 & R0). destruct (del_item_spec n v n0 (s_inv n S) Ed) as (_ & _ & D0 & K0 & _ & _).
  unfold get_parents in H. destruct (mem v (nodes (ngraph n0))) eqn:Mv; [|discriminate]. apply mem_In in Mv.
  destruct (loop_net (fun m p => remove_edge m p v) n0 (parents (ngraph n0) v)) as [n1 [e|]] eqn:El; [discriminate|].
  assert (L0 : lookup v (rels n0) = None) by (rewrite R0; cbn [effect]; rewrite String.eqb_refl; auto).
  destruct (remove_edges_sound _ n0 v n1 S0 L0 El) as (S1 & R1 & D1 & _ & N1 & E1 & P1).
  destruct (lookup v (doms n1)) as [d|] eqn:Ld; [|discriminate].
  destruct (step_sound n1 (OAdd v (RDist (point_dist d x))) n' S1) as (S2 & G2 & R2); auto; [exact Logic.I|].
  split; auto. rewrite G2. split; [rewrite N1, G0; auto|]. split; [|split; [|split; [auto|split; [rewrite <- G0; auto|]]]].
  - intros u w. rewrite E1, G0. rewrite in_parents. split.
    + intros [X1 X2]. split; auto. intros ->. apply X2; auto.
    + intros [X1 X2]. split; auto. tauto.
  - intros w Hw. rewrite P1, G0; auto.
  - exists d. split; [congruence|]. intro u. rewrite R2, R1, R0. cbn [effect]. rewrite (String.eqb_sym v u). destruct (String.eqb u v); auto.
Qed.

(* ---- the distribution of an intervention ---- *)
Lemma olookup_odset : forall (A : Type) x y (v : A) d, olookup x (odset y v d) = if Qc_eq_dec x y then Some v else olookup x d.
Proof.
  intros A x y v d. induction d as [|[z w] d IH]; cbn [odset olookup].
  - destruct (oeqb_spec x y), (Qc_eq_dec x y); congruence.
  - destruct (oeqb_spec y z) as [->|Hn]; cbn [olookup].
    + destruct (oeqb_spec x z), (Qc_eq_dec x z); congruence.
    + rewrite IH. destruct (oeqb_spec x z), (Qc_eq_dec x y); congruence.
Qed.
Lemma keys_odset : forall (A : Type) x y (v : A) d, In x (map fst (odset y v d)) <-> x = y \/ In x (map fst d).
Proof.
  intros A x y v d. induction d as [|[z w] d IH]; cbn [odset map fst In].
  - intuition.
  - destruct (oeqb_spec y z) as [->|Hn]; cbn [map fst In]; [intuition|]. rewrite IH. intuition.
Qed.
Lemma nodup_odset : forall (A : Type) y (v : A) d, NoDup (map fst d) -> NoDup (map fst (odset y v d)).
Proof.
  intros A y v d. induction d as [|[z w] d IH]; cbn [odset map fst]; intro N; [repeat constructor; auto|]. inversion N as [|? ? N1 N2]; subst.
  destruct (oeqb_spec y z) as [->|Hn]; cbn [map fst]; constructor; auto. rewrite keys_odset. intros [K|K]; congruence.
Qed.
Lemma zeros_spec : forall d l0, NoDup (map fst l0) -> let l := fold_left (fun (l : dist) y => odset y (Some 0) l) d l0 in
  NoDup (map fst l) /\ (forall x, In x (map fst l) <-> In x d \/ In x (map fst l0)) /\ (forall x, In x d -> olookup x l = Some (Some 0)) /\ (forall x, ~ In x d -> olookup x l = olookup x l0).
Proof.
  induction d as [|y d IH]; intros l0 N; cbv zeta; cbn [fold_left].
  - split; auto. split; [intro; simpl; tauto|]. split; [intros x []|auto].
  - destruct (IH (odset y (Some 0) l0) (nodup_odset _ _ _ _ N)) as (H1 & H2 & H3 & H4). cbv zeta in *. split; auto. split; [|split].
    + intro x. rewrite H2, keys_odset. simpl. intuition.
    + intros x Hx. destruct (in_dec Qc_eq_dec x d) as [K|K]; [apply H3; auto|]. rewrite H4 by auto. rewrite olookup_odset. destruct Hx as [->|Hx]; [|contradiction]. destruct (Qc_eq_dec x x); congruence.
    + intros x Hx. rewrite H4 by (intro; apply Hx; right; auto). rewrite olookup_odset. destruct (Qc_eq_dec x y) as [->|]; auto. exfalso. apply Hx. left; auto.
Qed.
Lemma point_dist_dict : forall d x, is_dict (point_dist d x).
Proof. intros d x. unfold is_dict, point_dist. apply nodup_odset. apply (zeros_spec d []). constructor. Qed.
Lemma point_dist_keys : forall d x y, In y (map fst (point_dist d x)) <-> y = x \/ In y d.
Proof. intros d x y. unfold point_dist. rewrite keys_odset. destruct (zeros_spec d [] (NoDup_nil _)) as (_ & H & _). cbv zeta in H. rewrite H. simpl. tauto. Qed.
Lemma point_dist_gives : forall d x y, y = x \/ In y d -> gives (point_dist d x) y (if oeqb y x then 1 else 0).
Proof.
  intros d x y H. unfold gives. apply olookup_In. unfold point_dist. rewrite olookup_odset. destruct (Qc_eq_dec y x) as [->|Hn].
  - replace (oeqb x x) with true by (symmetry; apply oeqb_iff; auto). auto.
  - destruct (oeqb_spec y x); [contradiction|]. apply (zeros_spec d [] (NoDup_nil _)). tauto.
Qed.

(* ---- one function, two networks ---- *)
Lemma mem_perm : forall x l l', Permutation l l' -> mem x l = mem x l'.
Proof.
  intros x l l' P. destruct (mem x l') eqn:E.
  - apply mem_In. apply mem_In in E. eapply Permutation_in; [apply Permutation_sym; eauto|auto].
  - apply mem_nIn. apply mem_nIn in E. intro K. apply E. eapply Permutation_in; eauto.
Qed.
Lemma call_perm : forall f pv pv', keyword_function f -> NoDup (map fst pv) -> Permutation pv pv' -> call f pv = call f pv'.
Proof.
  intros f pv pv' [K _] N P. assert (Pk : Permutation (keys pv) (keys pv')) by (apply Permutation_map; auto).
  assert (B : binds f (keys pv) = binds f (keys pv')).
  { unfold binds. f_equal.
    - f_equal. apply eq_true_iff_eq. rewrite !forallb_forall. split; intros H n Hn; apply H; [apply (Permutation_in n (Permutation_sym Pk) Hn)|apply (Permutation_in n Pk Hn)].
    - apply eq_true_iff_eq. rewrite !forallb_forall. split; intros H p Hp; specialize (H p Hp); [rewrite <- (mem_perm (fst p) _ _ Pk)|rewrite (mem_perm (fst p) _ _ Pk)]; auto. }
  unfold call. rewrite B. destruct (binds f (keys pv')); auto.
Qed.
Lemma call_dict : forall f pv w, keyword_function f -> call f pv = Ok w -> is_dict (dist_of w).
Proof.
  intros f pv w [_ K] H. unfold call in H. destruct (binds f (keys pv)); [|discriminate]. destruct w as [d|x]; [apply (K pv d H)|]. repeat constructor; auto.
Qed.
Lemma const_keyword : forall d, is_dict d -> keyword_function (const_fn d).
Proof. intros d H. split; auto. intros pv d' E. cbn in E. injection E as <-. auto. Qed.
Definition ctx (a : asg) (ps : list node) : list (node * outcome) := map (fun p => (p, a p)) ps.
Lemma ctx_context : forall ds a ps, ready ds ps -> (forall p, In p ps -> In (a p) (dom_of ds p)) -> context_of ds ps (ctx a ps).
Proof.
  intros ds a ps R H. split.
  - unfold ctx. rewrite map_map. simpl. apply map_id.
  - intros p x Hi. apply in_map_iff in Hi. destruct Hi as (q & E & Hq). injection E as <- <-. specialize (H q Hq). unfold dom_of in H. destruct (lookup q ds) as [d|] eqn:L; [eauto|destruct H].
Qed.
Lemma context_is_ctx : forall ds ps pv, NoDup ps -> context_of ds ps pv -> exists a, pv = ctx a ps /\ forall p, In p ps -> In (a p) (dom_of ds p).
Proof.
  intros ds ps pv N [E H]. exists (fun p => match lookup p pv with Some x => x | None => 0 end).
  assert (Nk : NoDup (keys pv)) by (rewrite <- E in N; exact N).
  assert (L : forall p x, In (p, x) pv -> lookup p pv = Some x) by (intros; apply In_lookup; auto).
  split.
  - subst ps. clear H N. unfold ctx. rewrite map_map. rewrite <- (map_id pv) at 1. apply map_ext_in. intros [p x] Hi. cbn [fst]. rewrite (L p x Hi). auto.
  - intros p Hp. subst ps. apply in_map_iff in Hp. destruct Hp as ([q x] & Eq & Hi). cbn [fst] in Eq. subst q. rewrite (L p x Hi). destruct (H p x Hi) as (d & H1 & H2). unfold dom_of. rewrite H1. auto.
Qed.
Lemma ctx_perm : forall a ps ps', Permutation ps ps' -> Permutation (ctx a ps) (ctx a ps').
Proof. intros. apply Permutation_map; auto. Qed.
Lemma call_ctx : forall f a ps ps', keyword_function f -> NoDup ps -> Permutation ps ps' -> call f (ctx a ps) = call f (ctx a ps').
Proof. intros f a ps ps' K N P. apply call_perm; auto; [|apply ctx_perm; auto]. unfold ctx. rewrite map_map. cbn [fst]. rewrite map_id. auto. Qed.
Lemma tabulates_entry : forall g ds v f fo t a, tabulates g ds v f fo t -> keyword_function f -> lookup v ds = Some (tdom t) -> ready ds (parents g v) ->
  (forall p, In p (parents g v) -> In (a p) (dom_of ds p)) ->
  exists w, call f (ctx a (parents g v)) = Ok w /\ entry ds t a = nth (pos (a v) (tdom t)) (map (complete (tdom t) (dist_of w)) (tdom t)) 0.
Proof.
  intros g ds v f fo t a (T1 & T2 & T3 & T4 & T5 & T6 & T7 & T8) K L R H. destruct (T8 _ (ctx_context ds a (parents g v) R H)) as (col & w & C1 & C2 & C3 & C4 & _).
  exists w. split; auto. unfold entry. rewrite T1, T2, name_pos, states_dom. unfold dom_of at 1. rewrite L. f_equal. rewrite column_context.
  unfold ctx in C1. apply nth_error_nth with (d := []) in C1. rewrite C1. apply column_unique; [eapply call_dict; eauto|]. apply C4. eapply call_dict; eauto.
Qed.
Lemma compare_tab : forall g ds g' ds' v f fo t t', tabulates g ds v f fo t -> tabulates g' ds' v f fo t' -> keyword_function f ->
  Permutation (parents g v) (parents g' v) -> NoDup (parents g v) -> ready ds (parents g v) -> ready ds' (parents g' v) ->
  (forall p, In p (parents g v) -> forall x, In x (dom_of ds p) <-> In x (dom_of ds' p)) ->
  tdom t' = tdom t /\
  (lookup v ds = Some (tdom t) -> lookup v ds' = Some (tdom t') -> forall a, (forall p, In p (parents g v) -> In (a p) (dom_of ds p)) -> entry ds' t' a = entry ds t a).
Proof.
  intros g ds g' ds' v f fo t t' T T' K P N R R' H.
  assert (N' : NoDup (parents g' v)) by (eapply Permutation_NoDup; eauto).
  assert (E : tdom t' = tdom t).
  { destruct T as (_ & _ & _ & _ & F1 & F2 & _). destruct T' as (_ & _ & _ & _ & F1' & F2' & _). destruct fo as [|y fo].
    - destruct (F2 eq_refl) as [S1 I1]. destruct (F2' eq_refl) as [S2 I2]. apply sorted_unique; auto. intro x. rewrite I1, I2. split.
      + intros (pv & w & C1 & C2 & C3). destruct (context_is_ctx _ _ _ N' C1) as (a & -> & Ha). exists (ctx a (parents g v)), w. split; [|split; auto].
        * apply ctx_context; auto. intros p Hp. apply H; auto. apply Ha. eapply Permutation_in; eauto.
        * rewrite <- C2. apply call_ctx; auto.
      + intros (pv & w & C1 & C2 & C3). destruct (context_is_ctx _ _ _ N C1) as (a & -> & Ha). exists (ctx a (parents g' v)), w. split; [|split; auto].
        * apply ctx_context; auto. intros p Hp. apply (Permutation_in p (Permutation_sym P)) in Hp. apply H; auto.
        * rewrite <- C2. apply call_ctx; auto. apply Permutation_sym; auto.
    - rewrite F1, F1' by discriminate. auto. }
  split; auto. intros L L' a Ha.
  assert (Ha' : forall p, In p (parents g' v) -> In (a p) (dom_of ds' p)). { intros p Hp. apply (Permutation_in p (Permutation_sym P)) in Hp. apply H; auto. }
  destruct (tabulates_entry g ds v f fo t a T K L R Ha) as (w & C1 & ->). destruct (tabulates_entry g' ds' v f fo t' a T' K L' R' Ha') as (w' & C1' & ->).
  rewrite (call_ctx f a _ _ K N P) in C1. rewrite C1 in C1'. injection C1' as <-. rewrite E. auto.
Qed.

(* ---- two networks with the same relationships, up to interventions ---- *)
Lemma nodup_parents : forall g v, wf_graph g -> NoDup (parents g v).
Proof.
  intros g v (_ & N & _). unfold parents. induction (edges g) as [|[a b] l IH]; cbn [filter snd]; [constructor|]. inversion N as [|? ? N1 N2]; subst.
  destruct (String.eqb_spec b v) as [->|]; auto. cbn [map fst]. constructor; auto. intro K. apply in_map_iff in K. destruct K as ([a' b'] & E & K). cbn [fst] in E. subst a'.
  apply filter_In in K. destruct K as [K1 K2]. cbn [snd] in K2. apply String.eqb_eq in K2. subst b'. contradiction.
Qed.
Lemma sound_table : forall n v t, sound n -> cpd_of n v = Some t -> exists r, lookup v (rels n) = Some r /\ table_of (ngraph n) (doms n) v r = Ok t.
Proof.
  intros n v t S H. destruct (inv_rel n (s_inv n S) v t H) as [K _]. apply lookup_In_keys in K. destruct K as [r Hr]. exists r. split; auto.
  assert (Sv := s_settled n S v r Hr). unfold settled in Sv. destruct (table_of (ngraph n) (doms n) v r) as [t'|e]; [congruence|]. destruct e; try contradiction; congruence.
Qed.
Lemma sound_node : forall n v r, sound n -> In v (nodes (ngraph n)) -> lookup v (rels n) = Some r -> (forall p, edge (ngraph n) p v -> lookup p (doms n) <> None) ->
  exists t, cpd_of n v = Some t /\ table_of (ngraph n) (doms n) v r = Ok t /\ lookup v (doms n) = Some (tdom t).
Proof.
  intros n v r S Hv Hr Hp. assert (Sv := s_settled n S v r Hr). unfold settled in Sv.
  assert (Np := ready_not_pnr (ngraph n) (doms n) v r Hv (inv_proper n (s_inv n S) v r Hr) Hp).
  destruct (table_of (ngraph n) (doms n) v r) as [t|e]; [|destruct e; try contradiction; congruence]. exists t. split; auto. split; auto. apply (inv_dom n (s_inv n S)); auto.
Qed.
Definition complete_net (n : net) : Prop := forall v, In v (nodes (ngraph n)) -> cpd_of n v <> None.
Lemma complete_dom : forall n v, sound n -> complete_net n -> In v (nodes (ngraph n)) -> exists t, cpd_of n v = Some t /\ lookup v (doms n) = Some (tdom t) /\ dom_of (doms n) v = tdom t.
Proof.
  intros n v S C Hv. specialize (C v Hv). destruct (cpd_of n v) as [t|] eqn:E; [|congruence]. exists t. split; auto. assert (L := inv_dom n (s_inv n S) v t E). split; auto. unfold dom_of. rewrite L. auto.
Qed.
Definition fn_of (r : rel) : option (fn * list outcome) :=
  match r with RFun f => Some (f, []) | RDist d => Some (const_fn d, []) | RDom l => Some (const_fn [], l) | RTab _ => None end.
Lemma reflects_fn : forall g ds v r t f fo, reflects g ds v r t -> fn_of r = Some (f, fo) -> tabulates g ds v f fo t.
Proof. intros g ds v r t f fo H E. destruct r; cbn in *; try discriminate; injection E as <- <-; auto. Qed.
Lemma python_fn : forall r f fo, python_rel r -> fn_of r = Some (f, fo) -> keyword_function f.
Proof.
  intros r f fo P E. destruct r; cbn in *; try discriminate; injection E as <- <-; auto; [apply const_keyword; auto|apply const_keyword; constructor].
Qed.
Lemma point_table : forall g ds v d x t, tabulates g ds v (const_fn (point_dist d x)) [] t -> parents g v = [] -> lookup v ds = Some (tdom t) -> In x d ->
  increasing (tdom t) /\ (forall y, In y (tdom t) <-> In y d) /\ forall a, In (a v) d -> entry ds t a = if oeqb (a v) x then 1 else 0.
Proof.
  intros g ds v d x t T E L Hx. assert (T' := T). destruct T' as (_ & _ & _ & _ & _ & F & _). destruct (F eq_refl) as [F1 F2].
  assert (I : forall y, In y (tdom t) <-> In y d).
  { intro y. rewrite F2, E. split.
    - intros (pv & w & _ & C & K). cbn in C. injection C as <-. cbn [dist_of] in K. apply point_dist_keys in K. destruct K as [->|K]; auto.
    - intro Hy. exists [], (VDist (point_dist d x)). split; [split; [auto|intros p z []]|]. split; auto. cbn [dist_of]. apply point_dist_keys; auto. }
  split; auto. split; auto. intros a Ha. assert (R : ready ds (parents g v)) by (rewrite E; intros p []).
  destruct (tabulates_entry g ds v _ [] t a T (const_keyword _ (point_dist_dict d x)) L R) as (w & C & ->); [rewrite E; intros p []|]. cbn in C. injection C as <-. cbn [dist_of].
  apply I in Ha. rewrite (nth_indep _ 0 (complete (tdom t) (point_dist d x) 0)) by (rewrite map_length; apply pos_lt; auto). rewrite map_nth.
  assert (Na : nth (pos (a v) (tdom t)) (tdom t) 0 = a v) by (apply nth_error_nth, pos_nth; auto). unfold outcome in *. rewrite Na. apply complete_given; [apply point_dist_dict|]. apply point_dist_gives. right. apply I; auto.
Qed.
Section Compare.
  Variables (n n' : net) (iv : list (node * outcome)).
  Hypothesis S : sound n.
  Hypothesis S' : sound n'.
  Hypothesis Cn : complete_net n.
  Hypothesis Nn : nodes (ngraph n') = nodes (ngraph n).
  Hypothesis Ed : forall u v, edge (ngraph n') u v <-> edge (ngraph n) u v /\ ~ In v (keys iv).
  Hypothesis Rs : forall v, ~ In v (keys iv) -> lookup v (rels n') = lookup v (rels n).
  Hypothesis Rj : forall v x, lookup v iv = Some x -> exists d, lookup v (rels n') = Some (RDist (point_dist d x)) /\ (forall y, In y d <-> In y (dom_of (doms n) v)) /\ In x d.
  Hypothesis Py : forall v r, ~ In v (keys iv) -> lookup v (rels n) = Some r -> python_rel r.
  Hypothesis Ev : forall v t, lookup v (rels n) = Some (RTab t) -> forall p, In p (tev t) -> edge (ngraph n) p v.
  Hypothesis Inc : forall v t p, ~ In v (keys iv) -> lookup v (rels n) = Some (RTab t) -> In p (keys iv) -> edge (ngraph n) p v -> increasing (dom_of (doms n) p).
  Hypothesis Nd : forall v t, lookup v (rels n) = Some (RTab t) -> NoDup (tdom t).
  Lemma compare : forall v, In v (nodes (ngraph n)) ->
    (exists t', cpd_of n' v = Some t' /\ lookup v (doms n') = Some (tdom t')) /\ Permutation (dom_of (doms n) v) (dom_of (doms n') v) /\
    (~ In v (keys iv) \/ increasing (dom_of (doms n) v) -> dom_of (doms n') v = dom_of (doms n) v) /\
    forall a, (forall u, u = v \/ edge (ngraph n) u v /\ ~ In v (keys iv) -> In (a u) (dom_of (doms n) u)) -> kernel n' v a = do_kernel n iv v a.
  Proof.
    assert (W := s_dag n S). assert (W' := s_dag n' S').
    intros v Hv0. rewrite <- Nn in Hv0. revert v Hv0. apply (dag_parents_ind (ngraph n') _ W'). intros v Hv' IH. assert (Hv : In v (nodes (ngraph n))) by (rewrite <- Nn; auto).
    destruct (complete_dom n v S Cn Hv) as (t & Ct & Lt & Dt).
    assert (Nt : NoDup (tdom t)).
    { destruct (sound_table n v t S Ct) as (r & Hr & Tr). destruct (fn_of r) as [[f fo]|] eqn:E.
      - apply (reflects_fn _ _ _ _ _ f fo (ok_reflects _ _ _ _ _ Hv Tr)) in E. apply E.
      - destruct r as [| | |t0]; try discriminate. unfold table_of, table_from in Tr. injection Tr as ->. eapply Nd; eauto. }
    assert (Pd : forall p, edge (ngraph n') p v -> lookup p (doms n') <> None).
    { intros p Hp. destruct (IH p Hp) as ((t' & _ & L) & _). congruence. }
    destruct (lookup v iv) as [x|] eqn:Lv.
    - (* intervened *)
      assert (Kv : In v (keys iv)) by (apply lookup_In_keys; eauto).
      destruct (Rj v x Lv) as (d & Hr & Hd & Hx). destruct (sound_node n' v _ S' Hv' Hr Pd) as (t' & Ct' & Tt' & Lt').
      assert (Rf := ok_reflects _ _ _ _ _ Hv' Tt'). cbn [reflects] in Rf.
      assert (E0 : parents (ngraph n') v = []). { destruct (parents (ngraph n') v) as [|p l] eqn:E; auto. exfalso. assert (K : edge (ngraph n') p v) by (apply in_parents; rewrite E; left; auto). apply Ed in K. tauto. }
      destruct (point_table _ _ _ _ _ _ Rf E0 Lt' Hx) as (P1 & P2 & P3).
      assert (Dt' : dom_of (doms n') v = tdom t') by (unfold dom_of; rewrite Lt'; auto).
      split; [eauto|]. split; [|split].
      + rewrite Dt', Dt. apply NoDup_Permutation; auto; [apply sorted_NoDup; auto|]. intro y. rewrite P2, Hd, Dt. tauto.
      + intros [K|K]; [contradiction|]. rewrite Dt'. apply sorted_unique; auto. intro y. rewrite P2. apply Hd.
      + intros a Ha. unfold kernel, do_kernel. rewrite Ct', Lv. apply P3. apply Hd. apply Ha; auto.
    - apply lookup_None_keys in Lv. destruct (sound_table n v t S Ct) as (r & Hr & Tr). assert (Hr' : lookup v (rels n') = Some r) by (rewrite Rs; auto).
      destruct (sound_node n' v _ S' Hv' Hr' Pd) as (t' & Ct' & Tt' & Lt'). assert (Dt' : dom_of (doms n') v = tdom t') by (unfold dom_of; rewrite Lt'; auto).
      destruct (fn_of r) as [[f fo]|] eqn:Ef.
      + assert (T1 := reflects_fn _ _ _ _ _ f fo (ok_reflects _ _ _ _ _ Hv Tr) Ef). assert (T2 := reflects_fn _ _ _ _ _ f fo (ok_reflects _ _ _ _ _ Hv' Tt') Ef).
        assert (Pp : Permutation (parents (ngraph n) v) (parents (ngraph n') v)).
        { apply NoDup_Permutation; try (apply nodup_parents; apply W || apply W'). intro p. rewrite !in_parents, Ed. tauto. }
        destruct (compare_tab _ _ _ _ v f fo t t' T1 T2) as [E1 E2]; auto.
        * eapply python_fn; eauto.
        * apply nodup_parents. apply W.
        * intros p Hp. apply in_parents in Hp. destruct (complete_dom n p S Cn) as (tp & _ & Lp & _); [apply (proj2 (proj2 (proj1 W)) p v Hp)|congruence].
        * intros p Hp. apply in_parents in Hp. auto.
        * intros p Hp y. apply in_parents in Hp. assert (Hp' : edge (ngraph n') p v) by (apply Ed; auto). destruct (IH p Hp') as (_ & P & _).
          split; intro K; [eapply Permutation_in; eauto|eapply Permutation_in; [apply Permutation_sym; eauto|auto]].
        * split; [eauto|]. split; [rewrite Dt, Dt', E1; auto|]. split; [congruence|]. intros a Ha. unfold kernel, do_kernel. apply lookup_None_keys in Lv. rewrite Lv. unfold kernel. rewrite Ct, Ct'.
          apply E2; auto. intros p Hp. apply Ha. apply in_parents in Hp. right. split; auto. apply lookup_None_keys. auto.
      + destruct r as [| | |t0]; try discriminate. unfold table_of, table_from in Tr, Tt'. injection Tr as ->. injection Tt' as ->.
        split; [eauto|]. split; [rewrite Dt, Dt'; auto|]. split; [congruence|]. intros a Ha. unfold kernel, do_kernel. assert (Lv' := Lv). apply lookup_None_keys in Lv'. rewrite Lv'. unfold kernel. rewrite Ct, Ct'.
        assert (Tv : tvar t' = v) by (apply (inv_proper n (s_inv n S) v _ Hr)).
        unfold entry. rewrite Tv, (states_dom (doms n) v), (states_dom (doms n') v), Dt, Dt'. f_equal. f_equal. unfold column_no.
        assert (X : forall p, In p (tev t') -> states (doms n') p = states (doms n) p).
        { intros p Hp. rewrite !states_dom. assert (K := Ev v t' Hr p Hp). destruct (IH p) as (_ & _ & K2 & _); [apply Ed; auto|]. apply K2.
          destruct (in_dec String.string_dec p (keys iv)) as [Kp|]; auto. right. eapply Inc; eauto. }
        clear - X. revert X. generalize 0%nat as i. induction (tev t') as [|p l IHl]; intros i X; cbn [fold_left]; auto. rewrite X by (left; auto). apply IHl. intros; apply X; right; auto.
  Qed.
End Compare.

(* ---- a network as another one under an intervention ---- *)
Record tracks (n n' : net) (iv : list (node * outcome)) : Prop := {
  k_sound : sound n';
  k_complete : complete_net n';
  k_nodes : nodes (ngraph n') = nodes (ngraph n);
  k_edges : forall u v, edge (ngraph n') u v <-> edge (ngraph n) u v /\ ~ In v (keys iv);
  k_rels : forall v, ~ In v (keys iv) -> lookup v (rels n') = lookup v (rels n);
  k_point : forall v, In v (keys iv) -> exists d, lookup v (rels n') = Some (RDist d) /\ is_dict d;
  k_dom : forall v, In v (nodes (ngraph n)) -> Permutation (dom_of (doms n) v) (dom_of (doms n') v);
  k_same : forall v, In v (nodes (ngraph n)) -> ~ In v (keys iv) \/ increasing (dom_of (doms n) v) -> dom_of (doms n') v = dom_of (doms n) v;
  k_kernel : forall v a, In v (nodes (ngraph n)) -> (forall u, u = v \/ edge (ngraph n) u v /\ ~ In v (keys iv) -> In (a u) (dom_of (doms n) u)) -> kernel n' v a = do_kernel n iv v a }.
(* the conditions on a network under which its relationships can be recomputed elsewhere *)
Record portable (n : net) : Prop := {
  p_sound : sound n;
  p_complete : complete_net n;
  p_python : forall v r, lookup v (rels n) = Some r -> python_rel r;
  p_ev : forall v t, lookup v (rels n) = Some (RTab t) -> forall p, In p (tev t) -> edge (ngraph n) p v;
  p_nodup : forall v t, lookup v (rels n) = Some (RTab t) -> NoDup (tdom t) }.
Lemma tracks_copy : forall n n1, portable n -> copy_net n = Ok n1 -> tracks n n1 [].
Proof.
  intros n n1 [S C Py Ev Nd] H. destruct (copy_sound n n1 S H) as (S1 & G1 & R1). assert (W := s_dag n S).
  assert (Nn : nodes (ngraph n1) = nodes (ngraph n)) by (rewrite G1; auto).
  assert (Ed : forall u v, edge (ngraph n1) u v <-> edge (ngraph n) u v /\ ~ In v (@keys outcome [])).
  { intros u v. rewrite G1, edge_copied by apply W. simpl. tauto. }
  assert (X := compare n n1 [] S S1 C Nn Ed (fun v _ => R1 v)). 
  assert (Y : forall v, In v (nodes (ngraph n)) -> _) by (apply X; [intros v x Hx; discriminate|intros v r _; apply Py|exact Ev|intros v t p _ _ []|exact Nd]). clear X.
  constructor; auto.
  - intros v Hv. rewrite Nn in Hv. destruct (Y v Hv) as ((t & Ht & _) & _). congruence.
  - intros v [].
  - intros v Hv. apply (Y v Hv).
  - intros v Hv. apply (Y v Hv).
  - intros v a Hv. apply (Y v Hv).
Qed.
Lemma keys_snoc : forall (iv : list (node * outcome)) v x u, In u (keys (iv ++ [(v, x)])) <-> In u (keys iv) \/ u = v.
Proof. intros. unfold keys. rewrite map_app, in_app_iff. simpl. intuition. Qed.
Lemma lookup_snoc : forall (iv : list (node * outcome)) v x u, lookup u (iv ++ [(v, x)]) = match lookup u iv with Some y => Some y | None => if String.eqb u v then Some x else None end.
Proof. intros iv v x u. induction iv as [|[w y] iv IH]; cbn [app lookup]; auto. destruct (String.eqb u w); auto. Qed.
Lemma tracks_step : forall n n1 iv v x n2, portable n -> tracks n n1 iv -> intervene_one n1 (v, x) = (n2, None) -> ~ In v (keys iv) -> In x (dom_of (doms n) v) ->
  (forall u t, ~ In u (keys iv) -> u <> v -> lookup u (rels n) = Some (RTab t) -> edge (ngraph n) v u -> increasing (dom_of (doms n) v)) ->
  tracks n n2 (iv ++ [(v, x)]).
Proof.
  intros n n1 iv v x n2 [S C Py Ev Nd] [S1 C1 N1 E1 R1 Pt1 D1 Sm1 K1] H Hv Hx Inc.
  destruct (intervene_one_sound n1 v x n2 S1 H) as (S2 & N2 & E2 & _ & _ & Hvn & d & Ld & R2). rewrite N1 in Hvn.
  assert (Dv : dom_of (doms n1) v = dom_of (doms n) v) by (apply Sm1; auto).
  assert (Y : forall u, In u (nodes (ngraph n1)) -> (exists t', cpd_of n2 u = Some t' /\ lookup u (doms n2) = Some (tdom t')) /\ Permutation (dom_of (doms n1) u) (dom_of (doms n2) u) /\
    (~ In u (keys [(v, x)]) \/ increasing (dom_of (doms n1) u) -> dom_of (doms n2) u = dom_of (doms n1) u) /\
    forall a, (forall w, w = u \/ edge (ngraph n1) w u /\ ~ In u (keys [(v, x)]) -> In (a w) (dom_of (doms n1) w)) -> kernel n2 u a = do_kernel n1 [(v, x)] u a).
  { apply compare; auto.
    - intros u w. rewrite E2. simpl. intuition.
    - intros u Hu. rewrite R2. destruct (String.eqb_spec u v) as [->|]; auto. exfalso. apply Hu. simpl; auto.
    - intros u y Hu. cbn [lookup] in Hu. destruct (String.eqb_spec u v) as [->|]; [|discriminate]. injection Hu as ->. exists d. split; [rewrite R2, String.eqb_refl; auto|].
      assert (Dd : dom_of (doms n1) v = d) by (unfold dom_of; rewrite Ld; auto). split; [rewrite Dd; tauto|]. rewrite <- Dd, Dv. auto.
    - intros u r Hu Hr. destruct (in_dec String.string_dec u (keys iv)) as [K|K].
      + destruct (Pt1 u K) as (d' & Hd' & Dd'). rewrite Hd' in Hr. injection Hr as <-. exact Dd'.
      + rewrite R1 in Hr by auto. eapply Py; eauto.
    - intros u t Hr p Hp. destruct (in_dec String.string_dec u (keys iv)) as [K|K].
      + destruct (Pt1 u K) as (d' & Hd' & _). congruence.
      + rewrite R1 in Hr by auto. apply E1. split; auto. eapply Ev; eauto.
    - intros u t p Hu Hr Hp He. destruct Hp as [<-|[]]. cbn [fst] in *. rewrite Dv. destruct (in_dec String.string_dec u (keys iv)) as [K|K].
      + destruct (Pt1 u K) as (d' & Hd' & _). congruence.
      + rewrite R1 in Hr by auto. apply (Inc u t); auto; [intros ->; apply Hu; simpl; auto|apply E1 in He; tauto].
    - intros u t Hr. destruct (in_dec String.string_dec u (keys iv)) as [K|K].
      + destruct (Pt1 u K) as (d' & Hd' & _). congruence.
      + rewrite R1 in Hr by auto. eapply Nd; eauto. }
  rewrite N1 in Y. constructor; auto.
  - intros u Hu. rewrite N2, N1 in Hu. destruct (Y u Hu) as ((t & Ht & _) & _). congruence.
  - congruence.
  - intros u w. rewrite E2, E1, keys_snoc. tauto.
  - intros u Hu. rewrite keys_snoc in Hu. rewrite R2. destruct (String.eqb_spec u v) as [->|]; [tauto|]. apply R1; tauto.
  - intros u Hu. rewrite R2. destruct (String.eqb_spec u v) as [->|]; [eexists; split; [reflexivity|apply point_dist_dict]|]. apply keys_snoc in Hu. apply Pt1. tauto.
  - intros u Hu. eapply perm_trans; [apply D1; auto|]. apply (Y u Hu).
  - intros u Hu Hor. rewrite keys_snoc in Hor. destruct (Y u Hu) as (_ & _ & Z & _). rewrite Z; [apply Sm1; auto; tauto|].
    destruct Hor as [K|K]; [left; simpl; intuition|]. right. rewrite Sm1; auto.
  - intros u a Hu Ha. destruct (Y u Hu) as (_ & _ & _ & Z). rewrite Z.
    + unfold do_kernel. rewrite lookup_snoc. cbn [lookup]. destruct (String.eqb_spec u v) as [->|Ne].
      * destruct (lookup v iv) eqn:L; auto. exfalso. apply Hv. apply lookup_In_keys; eauto.
      * rewrite K1; auto; [unfold do_kernel; destruct (lookup u iv); auto|]. intros w Hw. apply Ha. rewrite keys_snoc. destruct Hw as [Hw|[H1 H2]]; auto. right. split; auto. tauto.
    + intros w Hw. assert (Hw' : w = u \/ edge (ngraph n) w u /\ ~ In u (keys (iv ++ [(v, x)]))).
      { destruct Hw as [->|[Hw Hk]]; auto. apply E1 in Hw. right. rewrite keys_snoc. split; [tauto|]. intros [X|X]; [tauto|]. apply Hk. left; auto. }
      eapply Permutation_in; [apply D1|apply Ha; auto]. destruct Hw' as [->|[Hw' _]]; auto. apply (proj2 (proj2 (proj1 (s_dag n S))) w u Hw').
Qed.
Lemma tracks_intervene : forall n iv2 iv1 n1 n2, portable n -> tracks n n1 iv1 -> intervene n1 iv2 = (n2, None) -> NoDup (keys (iv1 ++ iv2)) ->
  (forall v x, In (v, x) iv2 -> In x (dom_of (doms n) v)) ->
  (forall v x u t, In (v, x) iv2 -> lookup u (rels n) = Some (RTab t) -> edge (ngraph n) v u -> increasing (dom_of (doms n) v)) ->
  tracks n n2 (iv1 ++ iv2).
Proof.
  intros n iv2. induction iv2 as [|[v x] iv2 IH]; intros iv1 n1 n2 Pn T H N Dx Inc; cbn [intervene loop_net] in H.
  - injection H as <-. rewrite app_nil_r. auto.
  - destruct (intervene_one n1 (v, x)) as [m [e|]] eqn:E; [discriminate|].
    assert (X : tracks n m (iv1 ++ [(v, x)])).
    { eapply tracks_step; eauto; [|apply (Dx v x); left; auto|].
      - intro K. unfold keys in N. rewrite map_app in N. apply NoDup_remove_2 in N. apply N. apply in_or_app. left; auto.
      - intros u t _ _ Hr He. apply (Inc v x u t); auto. left; auto. }
    replace (iv1 ++ (v, x) :: iv2) with ((iv1 ++ [(v, x)]) ++ iv2) in * by (rewrite <- app_assoc; auto).
    eapply IH; eauto; [intros; eapply Dx; right; eauto|intros u y w t Hu; eapply Inc; right; eauto].
Qed.
