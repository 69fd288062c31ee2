(* The invariant of the growth of the game tree. *)
From Coq Require Import String List Bool Arith QArith Qcanon Lia Permutation.
Import ListNotations.
From Verif Require Import MBase MGraph MMacid MCpd MNet MProb MQuery MGame Spec SpecM SpecC SpecN SpecQ SpecPol SpecGame LBase LGraph LRoles LQc LCpd LNet LCheck LSum LBayes LQuery LFactor LBuilt LTotal PQuery LGame LGrow.
Local Open Scope nat_scope.

Lemma sees_inj : forall n v h pv pv', NoDup (keys h) -> sees n v h pv -> sees n v h pv' -> pv = pv'.
Proof.
  intros n v h pv pv' N [E I] [E' I']. rewrite <- E' in E. clear E'. revert pv' E I'. induction pv as [|[q x] pv IH]; intros [|[q' x'] pv'] E I'; cbn in E; try discriminate; auto.
  injection E as E1 E. subst q'. f_equal.
  - f_equal. assert (K1 : In (q, x) h) by (apply I; left; auto). assert (K2 : In (q, x') h) by (apply I'; left; auto). apply In_lookup in K1; auto. apply In_lookup in K2; auto. congruence.
  - apply IH; auto; intros y Hy; [apply I|apply I']; right; auto.
Qed.
Lemma sees_read : forall n v h ps pv, get_parents (ngraph n) v = Ok ps -> map_r (fun q => x <- dict_get q h ;; Ok (q, x)) ps = Ok pv -> sees n v h pv.
Proof.
  intros n v h ps pv G H. unfold get_parents in G. destruct (mem v (nodes (ngraph n))); [|discriminate]. injection G as <-. apply map_r_ok in H. split.
  - induction H as [|q y l l' E F IH]; auto. cbn. unfold dict_get in E. destruct (lookup q h); cbn in E; [|discriminate]. injection E as <-. cbn. f_equal. auto.
  - intros y Hy. induction H as [|q z l l' E F IH]; [destruct Hy|]. unfold dict_get in E. destruct (lookup q h) as [x|] eqn:L; cbn in E; [|discriminate]. injection E as <-. destruct Hy as [<-|Hy]; [apply lookup_In in L; auto|auto].
Qed.

Lemma snd_unique : forall (A B : Type) (l : list (A * B)) x y k, NoDup (map snd l) -> In (x, k) l -> In (y, k) l -> x = y.
Proof.
  intros A B l x y k. induction l as [|[a b] l IH]; intros N H H'; [destruct H|]. cbn in N. apply NoDup_cons_iff in N. destruct N as [N1 N2].
  destruct H as [H|H], H' as [H'|H']; [congruence| | |auto]; exfalso; apply N1; apply in_map_iff; [exists (y, k)|exists (x, k)]; split; auto; cbn; congruence.
Qed.

Section growth.
Variables (o : order) (m : macid) (n0 : net) (sg : list node) (ags : list agent) (vs : list node).
Hypothesis O : valid_order o.
Hypothesis Nv : NoDup vs.
Local Notation dom v := (dom_of (doms n0) v).

(* what is known of the tree when the positions L have got their variables *)
Record grown (L : list (list nat)) (n : net) (t : tree) : Prop := mkGrown {
  gr_net : later n0 n;
  gr_players : g_players (t_game t) = ags;
  gr_moves : map fst (g_moves (t_game t)) = map (cons 0) L;
  gr_nodup : NoDup L;
  gr_root : state_of t [0] = [];
  gr_state : forall p i v, In p L -> at_variable vs p v -> i < length (dom v) -> state_of t (0 :: p ++ [i]) = history n0 vs (p ++ [i]);
  gr_ids : forall p k, belongs (t_game t) p k -> k < length (g_isets (t_game t));
  gr_dec : forall p k v, belongs (t_game t) p k -> at_variable vs p v -> In v sg ->
    exists a pv i, lookup v (decision_agent m) = Some a /\ sees n0 v (history n0 vs p) pv /\ In ((a, pv), k) (t_keys t) /\ nth_error (g_isets (t_game t)) k = Some i /\ length (dom v) <= length (is_actions i);
  gr_chance : forall p k v, belongs (t_game t) p k -> at_variable vs p v -> ~ In v sg ->
    exists pv n1 n2 f, sees n0 v (history n0 vs p) pv /\ later n0 n1 /\ macid_query o m n1 [v] pv [] = (n2, Ok f) /\
      nth_error (g_isets (t_game t)) k = Some (mkIset None None (map Some (dom v)) (map snd (fentries f))) /\ (forall q, belongs (t_game t) q k -> q = p) /\ ~ In k (map snd (t_keys t));
  gr_keys : NoDup (map fst (t_keys t)) /\ NoDup (map snd (t_keys t));
  gr_label : forall a pv k, In ((a, pv), k) (t_keys t) -> exists d i, nth_error (g_isets (t_game t)) k = Some i /\ is_player i = Some a /\ is_label i = Some d /\ In d sg /\ In a ags /\
    lookup d (decision_agent m) = Some a /\ get_parents (ngraph n0) d = Ok (map fst pv) /\ length (is_actions i) = length (dom d) /\ (separate m n0 sg -> is_actions i = map Some (dom d)) }.

Lemma belongs_cons : forall t idx k isets keys new p j, belongs (t_game (move_to t idx k isets keys new)) p j <-> (0 :: p = idx /\ j = k) \/ belongs (t_game t) p j.
Proof. intros. unfold belongs, move_to. cbn [t_game g_moves]. split; [intros [K|K]; [injection K as -> ->|]; auto|intros [[<- ->]|K]; [left|right]; auto]. Qed.
Lemma grown_in : forall L n t p k, grown L n t -> belongs (t_game t) p k -> In p L.
Proof. intros L n t p k G B. unfold belongs in B. apply (in_map fst) in B. rewrite (gr_moves _ _ _ G) in B. apply in_map_iff in B. destruct B as (q & E & K). injection E as <-. auto. Qed.
Lemma grown_unique : forall L n t p k k', grown L n t -> belongs (t_game t) p k -> belongs (t_game t) p k' -> k = k'.
Proof.
  intros L n t p k k' G B B'. assert (N : NoDup (map fst (g_moves (t_game t)))).
  { rewrite (gr_moves _ _ _ G). apply FinFun.Injective_map_NoDup; [|apply (gr_nodup _ _ _ G)]. intros a b E. congruence. }
  unfold belongs in *. apply (in_find _ _ idx_dec) in B; auto. apply (in_find _ _ idx_dec) in B'; auto. congruence.
Qed.

Lemma dict_get_ok : forall (A : Type) k (l : list (string * A)) x, dict_get k l = Ok x -> lookup k l = Some x.
Proof. intros A k l x H. unfold dict_get in H. destruct (lookup k l); [congruence|discriminate]. Qed.
Lemma dom_of_lookup : forall ds (v : node) d, lookup v ds = Some d -> dom_of ds v = d.
Proof. intros ds v d H. unfold dom_of. rewrite H. auto. Qed.

(* what the new states have in common *)
Lemma states_step : forall L n t p v k isets keys, grown L n t -> ~ In p L -> at_variable vs p v -> state_of t (0 :: p) = history n0 vs p -> 
  let t' := move_to t (0 :: p) k isets keys (child_states t (0 :: p) v (dom v)) in
  state_of t' [0] = [] /\ forall q i w, In q (p :: L) -> at_variable vs q w -> i < length (dom w) -> state_of t' (0 :: q ++ [i]) = history n0 vs (q ++ [i]).
Proof.
  intros L n t p v k isets keys G Np Av St t'. split.
  - unfold t'. rewrite state_else; [apply (gr_root _ _ _ G)|]. intros i E. destruct p; discriminate.
  - intros q i w Hq Aw Hi. destruct (list_eq_dec Nat.eq_dec q p) as [->|Ne].
    + assert (w = v) by (unfold at_variable in *; congruence). subst w. unfold t'. change (0 :: p ++ [i]) with ((0 :: p) ++ [i]). rewrite state_child; auto. rewrite St, (history_snoc n0 vs p i v Av). apply dset_fresh. apply fresh_variable; auto.
    + unfold t'. rewrite state_else; [|intros j E; apply Ne; change (0 :: q ++ [i]) with ((0 :: q) ++ [i]) in E; apply app_inj_tail in E; destruct E as [E _]; congruence].
      destruct Hq as [->|Hq]; [congruence|]. apply (gr_state _ _ _ G q i w); auto.
Qed.

Lemma grow_step : forall L n t p v n' t', grown L n t -> ~ In p L -> at_variable vs p v -> state_of t (0 :: p) = history n0 vs p -> grow_at o m sg v n t (0 :: p) = (n', Ok t') -> grown (p :: L) n' t'.
Proof.
  intros L n t p v n' t' G Np Av St H. unfold grow_at in H. rewrite St in H. destruct (get_cur_node (t_game t) (0 :: p)) as [cur|] eqn:Ec; [|discriminate]. cbn [bind] in H. apply get_cur_node_ok in Ec. subst cur.
  destruct (get_parents (ngraph n) v) as [ps|] eqn:Ep; [|discriminate]. cbn [bind] in H. match type of H with context [map_r ?f ps] => destruct (map_r f ps) as [pv|] eqn:Ev end; [|discriminate]. cbn [bind] in H.
  assert (Sm : smaller n0 n) by apply (gr_net _ _ _ G). assert (Ep0 : get_parents (ngraph n0) v = Ok ps) by (apply Sm; auto).
  assert (Se : sees n0 v (history n0 vs p) pv) by (eapply sees_read; eauto). assert (Nh : NoDup (keys (history n0 vs p))) by (apply history_nodup; auto).
  assert (Eps : get_parents (ngraph n0) v = Ok (map fst pv)). { rewrite Ep0. unfold get_parents in Ep0. destruct (mem v (nodes (ngraph n0))); [|discriminate]. injection Ep0 as <-. f_equal. symmetry. apply Se. }
  assert (Nb : forall k, ~ belongs (t_game t) p k) by (intros k B; apply Np; eapply grown_in; eauto).
  assert (Other : forall q k isets keys new j, belongs (t_game (move_to t (0 :: p) k isets keys new)) q j -> (q = p /\ j = k) \/ (q <> p /\ belongs (t_game t) q j)).
  { intros q k isets keys new j B. apply belongs_cons in B. destruct B as [[E ->]|B]; [injection E as ->; auto|]. right. split; auto. intros ->. apply (Nb j B). }
  destruct (mem v sg) eqn:Mv.
  - (* a decision *)
    apply mem_In in Mv. injection H as <- H. unfold add_decision in H. destruct (dict_get v (decision_agent m)) as [a|] eqn:Ea; [|discriminate]. cbn [bind] in H. apply dict_get_ok in Ea. rewrite (gr_players _ _ _ G) in H.
    destruct (mem a ags) eqn:Ma; [|discriminate]. apply mem_In in Ma. cbn [negb] in H. destruct (dict_get v (doms n)) as [acts|] eqn:Ed; [|discriminate]. cbn [bind] in H. apply dict_get_ok in Ed. rewrite (proj1 Sm) in Ed. apply dom_of_lookup in Ed. subst acts.
    cbv zeta in H. match type of H with match ?x with _ => _ end = _ => destruct x as [k|] eqn:Fk end.
    + (* an information set that is there *)
      destruct (nth_error (g_isets (t_game t)) k) as [i|] eqn:Ni; [|discriminate]. destruct (put_labels (dom v) i) as [i'|] eqn:Pl; [|discriminate]. cbn [bind] in H. injection H as <-. apply put_labels_ok in Pl. destruct Pl as (Le & Ei & Eal). apply find_in in Fk.
      assert (Ni' : nth_error (put_nth k i' (g_isets (t_game t))) k = Some i') by (eapply put_nth_same; eauto).
      assert (Nth : forall j x, nth_error (g_isets (t_game t)) j = Some x -> exists x', nth_error (put_nth k i' (g_isets (t_game t))) j = Some x' /\ length (is_actions x') = length (is_actions x)).
      { intros j x E. destruct (Nat.eq_dec j k) as [->|Ne]; [exists i'; split; auto; congruence|exists x; rewrite put_nth_other; auto]. }
      destruct (states_step L n t p v k (put_nth k i' (g_isets (t_game t))) (t_keys t) G Np Av St) as [Sr Ss].
      constructor; [apply G|apply G| | |exact Sr|exact Ss| | | |apply G|].
      * cbn. rewrite (gr_moves _ _ _ G). auto.
      * constructor; [auto|apply (gr_nodup _ _ _ G)].
      * intros q j B. unfold move_to. cbn [t_game g_isets]. rewrite put_nth_length. apply Other in B. destruct B as [[-> ->]|[_ B]]; [apply nth_error_Some; congruence|eapply (gr_ids _ _ _ G); eauto].
      * intros q j w B Aw Hw. apply Other in B. destruct B as [[-> ->]|[Nq B]].
        -- assert (w = v) by (unfold at_variable in *; congruence). subst w. exists a, pv, i'. repeat split; auto; try apply Se. rewrite Eal. auto.
        -- destruct (gr_dec _ _ _ G q j w B Aw Hw) as (a1 & pv1 & i1 & H1 & H2 & H3 & H4 & H5). destruct (Nth _ _ H4) as (i2 & K1 & K2). exists a1, pv1, i2. repeat split; auto; try apply H2. rewrite K2. auto.
      * intros q j w B Aw Hw. apply Other in B. destruct B as [[-> ->]|[Nq B]]; [exfalso; apply Hw; replace w with v by (unfold at_variable in *; congruence); auto|].
        destruct (gr_chance _ _ _ G q j w B Aw Hw) as (pv1 & m1 & m2 & f & H1 & H2 & H3 & H4 & H5 & H6). exists pv1, m1, m2, f. split; auto. split; auto. split; auto. split; [|split; [|auto]].
        -- cbn. rewrite put_nth_other; auto. intros ->. apply H6. apply in_map_iff. exists ((a, pv), k). auto.
        -- intros q' B'. apply Other in B'. destruct B' as [[-> ->]|[_ B']]; auto. exfalso. apply H6. apply in_map_iff. exists ((a, pv), k). auto.
      * intros a1 pv1 j K. destruct (Nat.eq_dec j k) as [->|Nj].
        -- destruct (gr_label _ _ _ G a1 pv1 k K) as (d & i1 & H1 & H2 & H3 & H4 & H4' & H5 & H6 & H7 & H8). assert (i1 = i) by congruence. subst i1. exists d, i'. split; [exact Ni'|]. rewrite Ei. cbn [is_player is_label is_actions]. repeat split; auto.
           ++ rewrite Ei in Eal. cbn in Eal. rewrite Eal. auto.
           ++ intro Sp. assert (Ek : (a1, pv1) = (a, pv)).
              { destruct (gr_keys _ _ _ G) as [_ Nk]. eapply snd_unique; eauto. }
              injection Ek as -> ->. assert (d = v).
              { apply Sp; auto; [congruence|]. unfold get_parents in H6, Eps. destruct (mem d (nodes (ngraph n0))); [|discriminate]. destruct (mem v (nodes (ngraph n0))); [|discriminate]. injection H6 as E8. injection Eps as E9. exact (eq_trans E8 (eq_sym E9)). }
              subst d. rewrite skipn_all2 by lia. apply app_nil_r.
        -- destruct (gr_label _ _ _ G a1 pv1 j K) as (d & i1 & H1 & H2). exists d, i1. split; [|exact H2]. cbn. rewrite put_nth_other; auto.
    + (* a new one *)
      destruct (put_labels (dom v) _) as [i'|] eqn:Pl; [|discriminate]. cbn [bind] in H. injection H as <-. apply put_labels_ok in Pl. destruct Pl as (Le & Ei & Eal). cbn [is_player is_label is_actions is_probs] in Ei, Eal. rewrite repeat_length in Eal.
      set (k := length (g_isets (t_game t))) in *.
      assert (Ni' : nth_error (g_isets (t_game t) ++ [i']) k = Some i') by (rewrite nth_error_app2 by (unfold k; auto); replace (k - length (g_isets (t_game t))) with 0 by (unfold k; lia); auto).
      assert (Nth : forall j x, nth_error (g_isets (t_game t)) j = Some x -> nth_error (g_isets (t_game t) ++ [i']) j = Some x).
      { intros j x E. rewrite nth_error_app1; auto. apply nth_error_Some. congruence. }
      assert (Kb : forall x j, In (x, j) (t_keys t) -> j < k). { intros [a1 pv1] j K. destruct (gr_label _ _ _ G a1 pv1 j K) as (d & i1 & H1 & _). apply nth_error_Some. congruence. }
      assert (Nk : ~ In k (map snd (t_keys t))) by (intro K; apply in_map_iff in K; destruct K as ([x j] & E & K); cbn in E; subst j; apply Kb in K; lia).
      destruct (states_step L n t p v k (g_isets (t_game t) ++ [i']) (((a, pv), k) :: t_keys t) G Np Av St) as [Sr Ss].
      constructor; [apply G|apply G| | |exact Sr|exact Ss| | | | |].
      * cbn. rewrite (gr_moves _ _ _ G). auto.
      * constructor; [auto|apply (gr_nodup _ _ _ G)].
      * intros q j B. unfold move_to. cbn [t_game g_isets]. rewrite app_length. cbn [length]. apply Other in B. destruct B as [[-> ->]|[_ B]]; [unfold k; lia|apply (gr_ids _ _ _ G) in B; lia].
      * intros q j w B Aw Hw. apply Other in B. destruct B as [[-> ->]|[Nq B]].
        -- assert (w = v) by (unfold at_variable in *; congruence). subst w. exists a, pv, i'. refine (conj Ea (conj Se (conj (or_introl eq_refl) (conj Ni' _)))). lia.
        -- destruct (gr_dec _ _ _ G q j w B Aw Hw) as (a1 & pv1 & i1 & H1 & H2 & H3 & H4 & H5). exists a1, pv1, i1. refine (conj H1 (conj H2 (conj (or_intror H3) (conj (Nth _ _ H4) H5)))).
      * intros q j w B Aw Hw. apply Other in B. destruct B as [[-> ->]|[Nq B]]; [exfalso; apply Hw; replace w with v by (unfold at_variable in *; congruence); auto|].
        destruct (gr_chance _ _ _ G q j w B Aw Hw) as (pv1 & m1 & m2 & f & H1 & H2 & H3 & H4 & H5 & H6). assert (Hj : j <> k) by (apply (gr_ids _ _ _ G) in B; unfold k; lia). exists pv1, m1, m2, f. split; auto. split; auto. split; auto. split; [|split].
        -- apply Nth. auto.
        -- intros q' B'. apply Other in B'. destruct B' as [[-> E]|[_ B']]; auto. congruence.
        -- cbn. intros [E|E]; auto.
      * destruct (gr_keys _ _ _ G) as [K1 K2]. split; constructor; auto. intro K. apply in_map_iff in K. destruct K as ([x j] & E & K). cbn [fst] in E. subst x. eapply find_none_in; eauto.
      * intros a1 pv1 j K. cbn [move_to t_keys] in K. destruct K as [K|K].
        -- injection K as <- <- <-. exists v, i'. split; [exact Ni'|]. rewrite Ei. cbn [is_player is_label is_actions]. rewrite skipn_all2 by (rewrite repeat_length; auto). rewrite app_nil_r, map_length. repeat split; auto.
        -- destruct (gr_label _ _ _ G a1 pv1 j K) as (d & i1 & H1 & H2). exists d, i1. split; [|exact H2]. apply Nth. auto.
  - (* chance *)
    apply mem_nIn in Mv. destruct (macid_query o m n [v] pv []) as [n1 [f|e]] eqn:Q; [|discriminate]. cbn [bind] in H. injection H as <- H. pose proof (later_query n0 o m n [v] pv n1 f (gr_net _ _ _ G) Q) as Ln.
    destruct (macid_query_smaller o m n v pv n1 f O (proj1 (proj2 Sm)) Q) as [Sm1 Ef]. unfold add_chance in H. cbv zeta in H. destruct (dict_get v (doms n1)) as [acts|] eqn:Ed; [|discriminate]. cbn [bind] in H. apply dict_get_ok in Ed. rewrite (proj1 (proj1 Ln)) in Ed. apply dom_of_lookup in Ed. subst acts.
    assert (El : length (fentries f) = length (dom v)) by (rewrite <- (map_length fst), Ef, map_length, (proj1 Sm); auto). rewrite El, firstn_all, Nat.leb_refl in H. injection H as <-.
    set (k := length (g_isets (t_game t))) in *. set (i' := mkIset None None (map Some (dom v)) (map snd (fentries f))) in *.
    assert (Ni' : nth_error (g_isets (t_game t) ++ [i']) k = Some i') by (rewrite nth_error_app2 by (unfold k; auto); replace (k - length (g_isets (t_game t))) with 0 by (unfold k; lia); auto).
    assert (Nth : forall j x, nth_error (g_isets (t_game t)) j = Some x -> nth_error (g_isets (t_game t) ++ [i']) j = Some x).
    { intros j x E. rewrite nth_error_app1; auto. apply nth_error_Some. congruence. }
    assert (Kb : forall x j, In (x, j) (t_keys t) -> j < k). { intros [a1 pv1] j K. destruct (gr_label _ _ _ G a1 pv1 j K) as (d & i1 & H1 & _). apply nth_error_Some. congruence. }
    assert (Nk : ~ In k (map snd (t_keys t))) by (intro K; apply in_map_iff in K; destruct K as ([x j] & E & K); cbn in E; subst j; apply Kb in K; lia).
    destruct (states_step L n t p v k (g_isets (t_game t) ++ [i']) (t_keys t) G Np Av St) as [Sr Ss].
    constructor; [exact Ln|apply G| | |exact Sr|exact Ss| | | |apply G|].
    * cbn. rewrite (gr_moves _ _ _ G). auto.
    * constructor; [auto|apply (gr_nodup _ _ _ G)].
    * intros q j B. unfold move_to. cbn [t_game g_isets]. rewrite app_length. cbn [length]. apply Other in B. destruct B as [[-> ->]|[_ B]]; [unfold k; lia|apply (gr_ids _ _ _ G) in B; lia].
    * intros q j w B Aw Hw. apply Other in B. destruct B as [[-> ->]|[Nq B]]; [exfalso; apply Mv; replace v with w by (unfold at_variable in *; congruence); auto|].
      destruct (gr_dec _ _ _ G q j w B Aw Hw) as (a1 & pv1 & i1 & H1 & H2 & H3 & H4 & H5). exists a1, pv1, i1. refine (conj H1 (conj H2 (conj H3 (conj (Nth _ _ H4) H5)))).
    * intros q j w B Aw Hw. apply Other in B. destruct B as [[-> ->]|[Nq B]].
      -- assert (w = v) by (unfold at_variable in *; congruence). subst w. exists pv, n, n1, f. split; auto. split; [apply G|]. split; auto. split; [exact Ni'|]. split; auto. intros q' B'. apply Other in B'. destruct B' as [[-> _]|[_ B']]; auto. apply (gr_ids _ _ _ G) in B'. unfold k in B'. lia.
      -- destruct (gr_chance _ _ _ G q j w B Aw Hw) as (pv1 & m1 & m2 & f1 & H1 & H2 & H3 & H4 & H5 & H6). assert (Hj : j <> k) by (apply (gr_ids _ _ _ G) in B; unfold k; lia). exists pv1, m1, m2, f1. split; auto. split; auto. split; auto. split; [|split; auto].
         ++ apply Nth. auto.
         ++ intros q' B'. apply Other in B'. destruct B' as [[-> E]|[_ B']]; auto. congruence.
    * intros a1 pv1 j K. destruct (gr_label _ _ _ G a1 pv1 j K) as (d & i1 & H1 & H2). exists d, i1. split; [|exact H2]. apply Nth. auto.
Qed.
End growth.
