(* What macid_to_efg returns. *)
From Coq Require Import String List Bool Arith QArith Qcanon Lia Permutation.
Import ListNotations.
From Verif Require Import MBase MGraph MMacid MCpd MNet MProb MQuery MGame Spec SpecM SpecC SpecN SpecQ SpecPol SpecGame LBase LGraph LRoles LQc LCpd LNet LCheck LSum LBayes LQuery LFactor LBuilt LTotal PMacid PQuery LGame LGrow LTree LLevels.
Local Open Scope nat_scope.

Lemma parents_of_all : forall g ds pss, map_r (get_parents g) ds = Ok pss -> incl ds (nodes g) /\ forall v, In v (concat pss) <-> exists d, In d ds /\ edge g v d.
Proof.
  intros g ds pss H. apply map_r_ok in H. induction H as [|d ps l l' E F [I1 I2]]; [split; [intros x []|intro v; split; [intros []|intros (d & [] & _)]]|].
  unfold get_parents in E. destruct (mem_spec d (nodes g)) as [Hd|]; [|discriminate]. injection E as <-. split.
  - intros x [<-|Hx]; auto.
  - intro v. cbn [concat]. rewrite in_app_iff, I2, in_parents. split.
    + intros [K|(d' & K1 & K2)]; [exists d|exists d']; cbn; auto.
    + intros (d' & [<-|K1] & K2); eauto.
Qed.
Lemma cards_read : forall n vs cards, map_r (fun v => d <- dict_get v (doms n) ;; Ok (length d)) vs = Ok cards -> cards = map (fun v => length (dom_of (doms n) v)) vs.
Proof.
  intros n vs cards H. apply map_r_ok in H. induction H as [|v c l l' E F IH]; auto. cbn. f_equal; auto. unfold dict_get in E. unfold dom_of. destruct (lookup v (doms n)); cbn in E; [|discriminate]. injection E as <-. auto.
Qed.
Lemma tree_order : forall o m n sg pss vs, valid_order o -> wf_dag (ngraph n) -> map_r (get_parents (ngraph n)) sg = Ok pss ->
  get_valid_order o (with_graph m (ngraph n)) (Some (to_set (sg ++ concat pss))) = Ok vs -> tree_variables n sg vs /\ incl vs (nodes (ngraph n)).
Proof.
  intros o m n sg pss vs O W E1 E2. destruct (parents_of_all _ _ _ E1) as [I1 I2]. destruct (C15_valid_order o (with_graph m (ngraph n)) (to_set (sg ++ concat pss)) W O) as [V _].
  destruct V as (l & El & Nl & Hl & Tl).
  { intros v K. apply in_to_set, in_app_iff in K. cbn. destruct K as [K|K]; auto. apply I2 in K. destruct K as (d & _ & K). apply (proj1 W) in K. apply K. }
  rewrite El in E2. injection E2 as <-. cbn in Tl. assert (Hv : forall v, In v l <-> In v sg \/ exists d, In d sg /\ edge (ngraph n) v d) by (intro v; rewrite Hl, in_to_set, in_app_iff, I2; tauto).
  split; [split; auto|]. intros v K. apply Hv in K. destruct K as [K|(d & _ & K)]; auto. apply (proj1 W) in K. apply K.
Qed.
(* everything at once *)
Record shaped (o : order) (m : macid) (n : net) (sg : list node) (ags : list agent) (vs : list node) (g : game) (keys : list (key * nat)) : Prop := mkShaped {
  sh_vars : tree_variables n sg vs;
  sh_nodes : incl vs (nodes (ngraph n));
  sh_tree : exists n1 t L, grown o m n sg ags vs L n1 t /\ (forall p, In p L <-> position n vs p /\ length p < length vs) /\
    g_players g = ags /\ g_isets g = g_isets (t_game t) /\ g_moves g = g_moves (t_game t) /\ keys = t_keys t;
  sh_leaves : forall idx, In idx (map fst (g_payoffs g)) <-> exists p, idx = 0 :: p /\ length p = length vs /\ position n vs p;
  sh_once : NoDup (map fst (g_payoffs g));
  sh_pay : forall p us, In (0 :: p, us) (g_payoffs g) -> exists n1 n2, later n n1 /\ payoffs o m n1 (history n vs p) ags = (n2, Ok us) }.
Lemma no_payoffs_at : forall o m sg v n t idx n' t', grow_at o m sg v n t idx = (n', Ok t') -> g_payoffs (t_game t') = g_payoffs (t_game t).
Proof.
  intros o m sg v n t idx n' t' H. unfold grow_at in H. match type of H with match ?x with _ => _ end = _ => destruct x as [[cur pv]|] end; [|discriminate]. destruct (mem v sg).
  - injection H as <- H. unfold add_decision in H. destruct (dict_get v (decision_agent m)); [|discriminate]. cbn [bind] in H. destruct (negb _); [discriminate|]. destruct (dict_get v (doms n)); [|discriminate]. cbn [bind] in H. cbv zeta in H.
    match type of H with match ?x with _ => _ end = _ => destruct x end.
    + destruct (nth_error _ _); [|discriminate]. destruct (put_labels _ _); [|discriminate]. injection H as <-. auto.
    + destruct (put_labels _ _); [|discriminate]. injection H as <-. auto.
  - destruct (macid_query o m n [v] pv []) as [n1 [f|]]; [|discriminate]. cbn [bind] in H. injection H as <- H. unfold add_chance in H. destruct (dict_get v (doms n1)); [|discriminate]. cbn [bind] in H. cbv zeta in H. destruct (_ <=? _); [|discriminate]. injection H as <-. auto.
Qed.
Lemma no_payoffs : forall o m sg cards l n t n' t', loop_tree (grow o m sg cards) n t l = (n', Ok t') -> g_payoffs (t_game t') = g_payoffs (t_game t).
Proof.
  intros o m sg cards l n t n' t' H. apply (loop_inv _ _ (fun _ _ t1 => g_payoffs (t_game t1) = g_payoffs (t_game t))) in H; auto.
  intros done x rest n1 t1 n2 t2 _ E F. rewrite <- E. clear E. unfold grow in F. apply (loop_inv _ _ (fun _ _ t3 => g_payoffs (t_game t3) = g_payoffs (t_game t1))) in F; auto.
  intros done' y rest' n3 t3 n4 t4 _ E F'. rewrite <- E. eapply no_payoffs_at; eauto.
Qed.
Lemma efg_shape : forall o m n so ao n' g keys, valid_order o -> wf_dag (ngraph n) -> macid_to_efg o m n so ao = (n', Ok (g, keys)) ->
  later n n' /\ exists vs, shaped o m n (or_default so (decisions m)) (or_default ao (agents m)) vs g keys.
Proof.
  intros o m n so ao n' g keys O W H. unfold macid_to_efg in H. fold (or_default so (decisions m)) in H. fold (or_default ao (agents m)) in H. set (sg := or_default so (decisions m)) in *. set (ags := or_default ao (agents m)) in *.
  destruct (map_r (get_parents (ngraph n)) sg) as [pss|] eqn:E1; [|discriminate]. cbn [bind] in H. match type of H with context [get_valid_order ?a ?b ?c] => destruct (get_valid_order a b c) as [vs|] eqn:E2 end; [|discriminate]. cbn [bind] in H.
  match type of H with context [map_r ?f vs] => destruct (map_r f vs) as [cards|] eqn:E3 end; [|discriminate]. cbn [bind] in H. destruct (tree_order _ _ _ _ _ _ O W E1 E2) as [Tv Iv]. apply cards_read in E3. subst cards.
  match type of H with context [loop_tree ?f ?n ?t ?l] => destruct (loop_tree f n t l) as [n1 [t1|]] eqn:E4 end; [|discriminate].
  destruct (loop_tree (add_payoff o m ags) n1 t1 _) as [n2 [t2|]] eqn:E5; [|discriminate]. cbn [bind] in H. injection H as <- <- <-.
  destruct (grow_all o m n sg ags vs O (proj1 Tv) _ _ _ _ (later_refl n W) eq_refl E4) as (L & G & HL). assert (Ep : g_payoffs (t_game t1) = []) by (apply no_payoffs in E4; auto).
  destruct (pay_all o m n ags vs n1 t1 n2 t2 (gr_net _ _ _ _ _ _ _ _ _ G) Ep E5) as (P1 & P2 & P3 & P4 & P5 & P6 & P7 & P8 & P9). split; auto. exists vs. constructor; auto.
  - exists n1, t1, L. split; auto. split; auto. rewrite P2, (gr_players _ _ _ _ _ _ _ _ _ G). auto.
  - intro idx. rewrite P7. apply indices_spec.
  - intros p us K. destruct (P9 _ _ K) as (m1 & m2 & K1 & K2). exists m1, m2. split; auto. rewrite <- K2. f_equal. symmetry.
    assert (Q : exists q, 0 :: p = 0 :: q /\ length q = length vs /\ position n vs q) by (apply indices_spec, P7; apply in_map_iff; exists (0 :: p, us); auto). destruct Q as (q & Eq & Lq & Pq). injection Eq as <-.
    destruct (rev p) as [|j r] eqn:Er.
    + assert (p = []) by (rewrite <- (rev_involutive p), Er; auto). subst p. rewrite (gr_root _ _ _ _ _ _ _ _ _ G). destruct vs; auto.
    + assert (Epp : p = rev r ++ [j]) by (rewrite <- (rev_involutive p), Er; auto). rewrite Epp in Pq |- *. destruct (position_init n vs (rev r) j Pq) as (w & Aw & Pw & Hj). apply (gr_state _ _ _ _ _ _ _ _ _ G (rev r) j w); auto. apply HL. split; auto. rewrite Epp, app_length in Lq. cbn in Lq. lia.
Qed.
