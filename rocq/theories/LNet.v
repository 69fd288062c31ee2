(* Lemmas about setting and deleting relationships. *)
From Coq Require Import String List Bool Arith QArith Qcanon Lia.
Import ListNotations.
From Verif Require Import MBase MGraph MMacid MCpd MNet Spec SpecC SpecN LBase LGraph LQc LCpd.

(* ---- induction along the edges of an acyclic graph ---- *)
Definition reach_set (g : graph) (v : node) : list node := filter (has_path g v) (nodes g).
Definition back_set (g : graph) (v : node) : list node := filter (fun u => has_path g u v) (nodes g).
Lemma subset_length : forall (l l' : list node) x, NoDup l -> incl l l' -> In x l' -> ~ In x l -> (length l < length l')%nat.
Proof.
  intros l l' x N I Hx Hn. assert (K : (length (x :: l) <= length l')%nat).
  { apply NoDup_incl_length; [constructor; auto|]. intros y [<-|Hy]; auto. }
  simpl in K. lia.
Qed.
Lemma reach_set_child : forall g u v, wf_dag g -> edge g u v -> (length (reach_set g v) < length (reach_set g u))%nat.
Proof.
  intros g u v [W A] E. assert (Hu := wf_edge_l g W u v E). assert (Hv := wf_edge_r g W u v E).
  apply (subset_length _ _ u).
  - apply NoDup_filter'. apply W.
  - intros x Hx. unfold reach_set in *. rewrite filter_In in *. destruct Hx as [H1 H2]. split; auto.
    apply has_path_iff in H2; auto. apply has_path_iff; auto. econstructor; eauto.
  - unfold reach_set. rewrite filter_In. split; auto. apply has_path_iff; auto. constructor.
  - unfold reach_set. rewrite filter_In. intros [_ H]. apply has_path_iff in H; auto. apply (A u). exists v. auto.
Qed.
Lemma back_set_parent : forall g u v, wf_dag g -> edge g u v -> (length (back_set g u) < length (back_set g v))%nat.
Proof.
  intros g u v [W A] E. assert (Hu := wf_edge_l g W u v E). assert (Hv := wf_edge_r g W u v E).
  apply (subset_length _ _ v).
  - apply NoDup_filter'. apply W.
  - intros x Hx. unfold back_set in *. rewrite filter_In in *. destruct Hx as [H1 H2]. split; auto.
    apply has_path_iff in H2; auto. apply has_path_iff; auto. eapply reach_snoc; eauto.
  - unfold back_set. rewrite filter_In. split; auto. apply has_path_iff; auto. constructor.
  - unfold back_set. rewrite filter_In. intros [_ H]. apply has_path_iff in H; auto. apply (A u). exists v. auto.
Qed.
Lemma reach_set_le : forall g v, (length (reach_set g v) <= length (nodes g))%nat.
Proof. intros g v. unfold reach_set. induction (nodes g) as [|x l IH]; simpl; auto. destruct (has_path g v x); simpl; lia. Qed.
Lemma dag_parents_ind : forall g (P : node -> Prop), wf_dag g ->
  (forall v, In v (nodes g) -> (forall p, edge g p v -> P p) -> P v) -> forall v, In v (nodes g) -> P v.
Proof.
  intros g P W H. assert (K : forall k v, (length (back_set g v) <= k)%nat -> In v (nodes g) -> P v).
  - induction k as [|k IH]; intros v L Hv; apply H; auto; intros p E.
    + exfalso. assert (X := back_set_parent g p v W E). lia.
    + apply IH; [|eapply (wf_edge_l g); [apply W|eauto]]. assert (X := back_set_parent g p v W E). lia.
  - intros v Hv. apply (K _ v (le_n _) Hv).
Qed.
Lemma dag_children_ind : forall g (P : node -> Prop), wf_dag g ->
  (forall v, In v (nodes g) -> (forall c, edge g v c -> P c) -> P v) -> forall v, In v (nodes g) -> P v.
Proof.
  intros g P W H. assert (K : forall k v, (length (reach_set g v) <= k)%nat -> In v (nodes g) -> P v).
  - induction k as [|k IH]; intros v L Hv; apply H; auto; intros p E.
    + exfalso. assert (X := reach_set_child g v p W E). lia.
    + apply IH; [|eapply (wf_edge_r g); [apply W|eauto]]. assert (X := reach_set_child g v p W E). lia.
  - intros v Hv. apply (K _ v (le_n _) Hv).
Qed.
Lemma no_self_edge : forall g v, acyclic g -> ~ edge g v v.
Proof. intros g v A E. apply (A v). exists v. split; auto. constructor. Qed.

(* ---- lists of tables ---- *)
Definition find_tab (v : node) (l : list tab) : option tab := find (fun t => String.eqb (tvar t) v) l.
Lemma find_tab_in : forall v l t, find_tab v l = Some t -> In t l /\ tvar t = v.
Proof. intros v l t H. apply find_some in H. destruct H as [H1 H2]. apply String.eqb_eq in H2. auto. Qed.
Lemma find_tab_none : forall v l, find_tab v l = None <-> ~ In v (map tvar l).
Proof.
  intros v l. split.
  - intros H K. apply in_map_iff in K. destruct K as (t & E & K). assert (X := find_none _ _ H t K). simpl in X. rewrite E, String.eqb_refl in X. discriminate.
  - intro H. destruct (find_tab v l) as [t|] eqn:E; auto. apply find_tab_in in E. destruct E as [E1 E2]. exfalso. apply H. rewrite <- E2. apply in_map; auto.
Qed.
Lemma in_find_tab : forall v l t, NoDup (map tvar l) -> In t l -> tvar t = v -> find_tab v l = Some t.
Proof.
  intros v l t N H E. induction l as [|s l IH]; [destruct H|]. simpl in *. inversion N as [|? ? N1 N2]; subst.
  destruct H as [->|H]; [rewrite String.eqb_refl; auto|]. destruct (String.eqb_spec (tvar s) (tvar t)) as [Es|Es].
  - exfalso. apply N1. rewrite Es. apply in_map; auto.
  - apply IH; auto.
Qed.
Lemma map_remove_tab : forall v l, NoDup (map tvar l) -> NoDup (map tvar (remove_tab v l)) /\ (forall u, In u (map tvar (remove_tab v l)) -> In u (map tvar l) /\ u <> v).
Proof.
  intros v l. induction l as [|t l IH]; simpl; intro N; [split; [constructor|tauto]|]. inversion N as [|? ? N1 N2]; subst.
  destruct (IH N2) as [I1 I2]. destruct (String.eqb_spec (tvar t) v) as [<-|E].
  - split; auto. intros u Hu. split; auto. intros ->. contradiction.
  - simpl. split.
    + constructor; auto. intro K. apply I2 in K. tauto.
    + intros u [<-|Hu]; auto. apply I2 in Hu. tauto.
Qed.
Lemma find_remove_tab : forall u v l, NoDup (map tvar l) -> find_tab u (remove_tab v l) = if String.eqb u v then None else find_tab u l.
Proof.
  intros u v l N. destruct (String.eqb_spec u v) as [->|E].
  - apply find_tab_none. intro K. apply (map_remove_tab v l N) in K. tauto.
  - induction l as [|t l IH]; simpl in *; auto. inversion N as [|? ? N1 N2]; subst.
    destruct (String.eqb_spec (tvar t) v) as [->|Ev].
    + destruct (String.eqb_spec v u); [congruence|auto].
    + simpl. unfold find_tab in *. simpl. destruct (String.eqb (tvar t) u); auto.
Qed.
Lemma map_put_tab : forall t l, map tvar (put_tab t l) = if mem (tvar t) (map tvar l) then map tvar l else map tvar l ++ [tvar t].
Proof.
  intros t l. induction l as [|s l IH]; simpl; auto. destruct (String.eqb_spec (tvar s) (tvar t)) as [E|E].
  - simpl. rewrite E, String.eqb_refl. simpl. auto.
  - simpl. rewrite IH. destruct (String.eqb_spec (tvar t) (tvar s)); [congruence|]. simpl. destruct (mem (tvar t) (map tvar l)); auto.
Qed.
Lemma NoDup_put_tab : forall t l, NoDup (map tvar l) -> NoDup (map tvar (put_tab t l)).
Proof.
  intros t l N. rewrite map_put_tab. destruct (mem_spec (tvar t) (map tvar l)) as [H|H]; auto. apply NoDup_snoc; auto.
Qed.
Lemma find_put_tab : forall u t l, find_tab u (put_tab t l) = if String.eqb u (tvar t) then Some t else find_tab u l.
Proof.
  intros u t l. unfold find_tab. induction l as [|s l IH]; simpl.
  - rewrite (String.eqb_sym (tvar t) u). destruct (String.eqb u (tvar t)); auto.
  - destruct (String.eqb_spec (tvar s) (tvar t)) as [E|E]; simpl.
    + rewrite (String.eqb_sym (tvar t) u). destruct (String.eqb_spec u (tvar t)) as [->|Hn]; auto.
      destruct (String.eqb_spec (tvar s) u); [congruence|auto].
    + rewrite IH. destruct (String.eqb_spec (tvar s) u) as [<-|Hn]; auto.
      destruct (String.eqb_spec (tvar s) (tvar t)); [congruence|auto].
Qed.
Lemma olist_eqb_iff : forall l l', olist_eqb l l' = true <-> l = l'.
Proof.
  induction l as [|x l IH]; intros [|y l']; simpl.
  - split; auto.
  - split; discriminate.
  - split; discriminate.
  - rewrite andb_true_iff, oeqb_iff, IH. split; [intros [-> ->]; auto|intro E; injection E; auto].
Qed.
Lemma same_domain_iff : forall o d, same_domain o d = true <-> o = Some d /\ d <> [].
Proof.
  intros [[|x l]|] d; cbn [same_domain].
  - split; [discriminate|]. intros [E Hn]. injection E as <-. congruence.
  - rewrite olist_eqb_iff. split; [intros <-; split; auto; discriminate|]. intros [E _]. congruence.
  - split; [discriminate|]. intros [E _]. discriminate.
Qed.

(* ---- init_table depends on the domains of the parents only ---- *)
Lemma init_ext : forall g ds ds' cards cards' v f fo k,
  (forall p, edge g p v -> lookup p ds = lookup p ds') -> cards (parents g v) = cards' (parents g v) ->
  init_table g ds cards v f fo k = init_table g ds' cards' v f fo k.
Proof.
  intros g ds ds' cards cards' v f fo k H C. unfold init_table, get_parents. destruct (mem v (nodes g)) eqn:Hv; auto. cbn [bind].
  destruct (check_arguments (parents g v)); cbn [bind]; auto.
  assert (PV : parent_values g ds v = parent_values g ds' v).
  { unfold parent_values, get_parents. rewrite Hv. cbn [bind]. f_equal. apply map_r_ext. intros p Hp. unfold parent_domain. rewrite H; auto. apply in_parents; auto. }
  unfold possible_values. rewrite PV, C. reflexivity.
Qed.
Definition ideal (ds : domains) (ps : list node) : result (list nat) := Ok (map (fun p => length (dom_of ds p)) ps).
Definition table_of (g : graph) (ds : domains) (v : node) (r : rel) : result tab := table_from g ds (ideal ds) v r.
Lemma table_of_ext : forall g ds ds' v r, (forall p, edge g p v -> lookup p ds = lookup p ds') ->
  table_of g ds v r = table_of g ds' v r.
Proof.
  intros g ds ds' v r H. unfold table_of, table_from.
  assert (C : ideal ds (parents g v) = ideal ds' (parents g v)).
  { unfold ideal. f_equal. apply map_ext_in. intros p Hp. unfold dom_of. rewrite H; auto. apply in_parents; auto. }
  destruct r; auto; apply init_ext; auto.
Qed.
(* an exception of get_cardinality only matters once the calls have returned *)
Lemma init_cards : forall g ds cards cards' v f fo k ec, cards (parents g v) = Ok ec ->
  (forall t, init_table g ds cards v f fo k = Ok t -> cards' (parents g v) = Ok ec -> init_table g ds cards' v f fo k = Ok t).
Proof. intros g ds cards cards' v f fo k ec C t H C'. rewrite <- H. apply init_ext; auto. congruence. Qed.
Lemma init_pnr : forall g ds cards cards' v f fo k, (forall ps e, cards ps = Err e -> e <> ParentsNotReady) ->
  init_table g ds cards v f fo k = Err ParentsNotReady -> init_table g ds cards' v f fo k = Err ParentsNotReady.
Proof.
  intros g ds cards cards' v f fo k Hc H. unfold init_table in *. destruct (get_parents g v) as [ps|e] eqn:G; cbn [bind] in *; auto.
  destruct (check_arguments ps); cbn [bind] in *; auto.
  match goal with |- bind ?a _ = _ => destruct a as [dom|e'] eqn:D; cbn [bind] in * end.
  2:{ auto. }
  destruct (cards ps) as [ec|e2] eqn:C; cbn [bind] in H.
  2:{ exfalso. apply (Hc ps e2 C). congruence. }
  exfalso. destruct (parent_values g ds v) as [pvs|e3] eqn:P; cbn [bind] in H.
  - assert (PV : exists xs, possible_values g ds v f = Ok xs).
    { destruct fo as [|x fo]; [eauto|]. destruct (possible_values g ds v f); cbn [bind] in D; [eauto|discriminate]. }
    destruct PV as [xs PV]. unfold possible_values in PV. rewrite P in PV. cbn [bind] in PV.
    destruct (map_r (stochastic_function f) pvs) as [dl|e4] eqn:M; cbn [bind] in PV; [|discriminate].
    assert (Fm : map_r (fun pv => d <- stochastic_function f pv ;; Ok (map (complete dom d) dom)) pvs = Ok (map (fun d => map (complete dom d) dom) dl)).
    { apply map_r_all. apply map_r_ok in M. clear - M. induction M; simpl; constructor; auto. rewrite H. reflexivity. }
    rewrite Fm in H. cbn [bind] in H.
    repeat match type of H with (if ?b then _ else _) = _ => destruct b; [congruence|] end. discriminate.
  - assert (PV : exists xs, possible_values g ds v f = Ok xs).
    { destruct fo as [|x fo]; [eauto|]. destruct (possible_values g ds v f); cbn [bind] in D; [eauto|discriminate]. }
    destruct PV as [xs PV]. unfold possible_values in PV. rewrite P in PV. discriminate.
Qed.
Lemma tab_var : forall g ds cards v r t, proper v r -> table_from g ds cards v r = Ok t -> tvar t = v.
Proof.
  intros g ds cards v r t P H.
  assert (X : forall f fo k, init_table g ds cards v f fo k = Ok t -> tvar t = v).
  { intros f fo k E. unfold init_table in E. destruct (get_parents g v); cbn [bind] in E; [|discriminate].
    destruct (check_arguments _); cbn [bind] in E; [|discriminate].
    match type of E with bind ?a _ = _ => destruct a; cbn [bind] in E; [|discriminate] end.
    destruct (cards _); cbn [bind] in E; [|discriminate]. destruct (parent_values _ _ _); cbn [bind] in E; [|discriminate].
    destruct (map_r _ _); cbn [bind] in E; [|discriminate].
    repeat match type of E with (if ?b then _ else _) = _ => destruct b; [congruence|] end. injection E as <-. auto. }
  destruct r; simpl in *; eauto. injection H as <-. auto.
Qed.

(* ---- unfolding set_item ---- *)
Fixpoint resets (k : nat) (m : net) (cs : list node) : outcome_of :=
  match cs with
  | [] => (m, None)
  | c :: cs' =>
    match lookup c (rels m) with
    | None => resets k m cs'
    | Some rc => match set_item k m c rc with
                 | (m', None) => resets k m' cs'
                 | (m', Some e) => (m', Some e)
                 end
    end
  end.
Definition begin (n : net) (v : node) (r : rel) : net :=
  let n0 := if mem v (keys (rels n)) then fst (del_item n v) else n in
  mkNet (ngraph n0) (dset v r (rels n0)) (cpds n0) (doms n0).
Definition place (n1 : net) (v : node) (t : tab) : net :=
  mkNet (ngraph n1) (rels n1) (put_tab t (cpds n1)) (dset v (tdom t) (doms n1)).
Lemma set_item_S : forall k n v r, set_item (S k) n v r =
  let n1 := begin n v r in
  match to_tabular n1 v r with
  | Err ParentsNotReady => (n1, None)
  | Err e => (n1, Some e)
  | Ok t => if negb (in_scope (ngraph n1) t) then (n1, Some ValueError)
            else if same_domain (lookup v (doms n1)) (tdom t) then (place n1 v t, None)
            else resets k (place n1 v t) (children (ngraph n1) v)
  end.
Proof.
  intros k n v r. cbn [set_item]. fold (begin n v r). cbv zeta. destruct (to_tabular (begin n v r) v r) as [t|e]; auto.
  destruct (negb (in_scope (ngraph (begin n v r)) t)); auto. destruct (same_domain _ _); auto.
  fold (place (begin n v r) v t). generalize (place (begin n v r) v t). induction (children (ngraph (begin n v r)) v) as [|c cs IH]; intro m; auto.
  cbn [resets]. destruct (lookup c (rels m)); auto. destruct (set_item k m c r0) as [m' [e|]]; auto.
Qed.
Lemma begin_graph : forall n v r, ngraph (begin n v r) = ngraph n.
Proof. intros n v r. unfold begin, del_item. destruct (mem v (keys (rels n))); auto. Qed.
Lemma begin_doms : forall n v r, doms (begin n v r) = doms n.
Proof. intros n v r. unfold begin, del_item. destruct (mem v (keys (rels n))); auto. Qed.
Lemma begin_rels : forall n v r u, lookup u (rels (begin n v r)) = if String.eqb u v then Some r else lookup u (rels n).
Proof.
  intros n v r u. unfold begin, del_item. destruct (mem v (keys (rels n))); cbn [fst rels]; rewrite lookup_dset; destruct (String.eqb_spec u v) as [->|E]; auto.
  rewrite lookup_ddel. destruct (String.eqb_spec u v); [congruence|auto].
Qed.

(* ---- invariants ---- *)
Record inv (n : net) : Prop := {
  inv_tabs : NoDup (map tvar (cpds n));
  inv_dom : forall u t, cpd_of n u = Some t -> lookup u (doms n) = Some (tdom t);
  inv_rel : forall u t, cpd_of n u = Some t -> In u (keys (rels n)) /\ In u (nodes (ngraph n));
  inv_proper : forall u r, lookup u (rels n) = Some r -> proper u r;
  inv_scope : forall u t, cpd_of n u = Some t -> in_scope (ngraph n) t = true }.
Lemma begin_cpd : forall n v r u, inv n -> cpd_of (begin n v r) u = if String.eqb u v then None else cpd_of n u.
Proof.
  intros n v r u I. assert (J : cpd_of n v <> None -> In v (keys (rels n)) /\ In v (nodes (ngraph n))).
  { intro H. destruct (cpd_of n v) as [t|] eqn:E; [|congruence]. apply (inv_rel n I v t E). }
  unfold begin, del_item. destruct (mem_spec v (keys (rels n))) as [H|H]; cbn [fst ngraph rels doms cpds].
  - destruct (mem_spec v (nodes (ngraph n))) as [Hv|Hv].
    + unfold cpd_of. cbn [cpds]. apply (find_remove_tab u v (cpds n) (inv_tabs n I)).
    + unfold cpd_of. cbn [cpds]. destruct (String.eqb_spec u v) as [->|E]; auto.
      destruct (cpd_of n v) eqn:Ec; [|exact Ec]. exfalso. apply Hv, J. discriminate.
  - unfold cpd_of. cbn [cpds]. destruct (String.eqb_spec u v) as [->|E]; auto.
    destruct (cpd_of n v) eqn:Ec; [|exact Ec]. exfalso. apply H, J. discriminate.
Qed.
Lemma begin_inv : forall n v r, inv n -> proper v r -> inv (begin n v r).
Proof.
  intros n v r I P. constructor.
  - unfold begin, del_item. destruct (mem v (keys (rels n))); cbn [fst cpds]; [|apply I].
    destruct (mem v (nodes (ngraph n))); [|apply I]. apply map_remove_tab. apply I.
  - intros u t H. rewrite begin_cpd in H by auto. rewrite begin_doms. destruct (String.eqb u v); [discriminate|]. apply I; auto.
  - intros u t H. rewrite begin_cpd in H by auto. rewrite begin_graph. destruct (String.eqb_spec u v) as [->|E]; [discriminate|].
    destruct (inv_rel n I u t H) as [H1 H2]. split; auto. apply lookup_In_keys. rewrite begin_rels.
    destruct (String.eqb_spec u v); [congruence|]. apply lookup_In_keys; auto.
  - intros u ru H. rewrite begin_rels in H. destruct (String.eqb_spec u v) as [->|E]; [injection H as <-; auto|]. apply (inv_proper n I); auto.
  - intros u t H. rewrite begin_cpd in H by auto. rewrite begin_graph. destruct (String.eqb u v); [discriminate|]. apply (inv_scope n I u t H).
Qed.
Lemma place_cpd : forall n v t u, tvar t = v -> cpd_of (place n v t) u = if String.eqb u v then Some t else cpd_of n u.
Proof. intros n v t u <-. unfold place, cpd_of. cbn [cpds]. apply find_put_tab. Qed.
Lemma place_dom : forall n v t u, lookup u (doms (place n v t)) = if String.eqb u v then Some (tdom t) else lookup u (doms n).
Proof. intros. unfold place. cbn [doms]. apply lookup_dset. Qed.
Lemma in_scope_iff : forall g t, in_scope g t = true <-> In (tvar t) (nodes g) /\ forall u, In u (tev t) -> In u (nodes g).
Proof.
  intros g t. unfold in_scope. rewrite forallb_forall. split.
  - intro H. split; [apply mem_In, H; simpl; auto|]. intros u Hu. apply mem_In, H. simpl; auto.
  - intros [H1 H2] u [<-|Hu]; apply mem_In; auto.
Qed.
Lemma place_inv : forall n v t, inv n -> tvar t = v -> In v (keys (rels n)) -> in_scope (ngraph n) t = true -> inv (place n v t).
Proof.
  intros n v t I E Hk Hs. assert (Hv : In v (nodes (ngraph n))) by (apply in_scope_iff in Hs; rewrite <- E; tauto). constructor.
  - apply NoDup_put_tab. apply I.
  - intros u s H. rewrite place_cpd in H by auto. rewrite place_dom. destruct (String.eqb_spec u v) as [->|Hn]; [congruence|]. apply I; auto.
  - intros u s H. rewrite place_cpd in H by auto. destruct (String.eqb_spec u v) as [->|Hn]; [auto|]. apply (inv_rel n I u s H).
  - intros u ru H. apply (inv_proper n I u ru H).
  - intros u s H. rewrite place_cpd in H by auto. destruct (String.eqb_spec u v) as [->|Hn]; [injection H as <-; auto|]. apply (inv_scope n I u s H).
Qed.
Lemma cards_err : forall n ps e, cards_of n ps = Err e -> e <> ParentsNotReady.
Proof.
  intros n ps e H. unfold cards_of in H. apply map_r_err in H. destruct H as (p & _ & H). unfold get_cardinality, get_cpds in H.
  destruct (mem p (nodes (ngraph n))); cbn [bind] in H; [|congruence]. destruct (cpd_of n p); congruence.
Qed.
Lemma cards_ideal : forall n ps ec, inv n -> cards_of n ps = Ok ec -> ideal (doms n) ps = Ok ec.
Proof.
  intros n ps ec I H. unfold cards_of in H. apply map_r_ok in H. unfold ideal. f_equal. induction H as [|p c ps ec H1 H2 IH]; auto.
  simpl. rewrite IH. f_equal. unfold get_cardinality, get_cpds in H1. destruct (mem p (nodes (ngraph n))); cbn [bind] in H1; [|discriminate].
  destruct (cpd_of n p) as [t|] eqn:E; [|discriminate]. injection H1 as <-. unfold dom_of. rewrite (inv_dom n I p t E). auto.
Qed.
Lemma real_ok : forall n v r t, inv n -> to_tabular n v r = Ok t -> table_of (ngraph n) (doms n) v r = Ok t.
Proof.
  intros n v r t I H. unfold to_tabular, table_of, table_from in *.
  assert (X : forall f fo k, init_table (ngraph n) (doms n) (cards_of n) v f fo k = Ok t ->
              init_table (ngraph n) (doms n) (ideal (doms n)) v f fo k = Ok t).
  { intros f fo k E. destruct (cards_of n (parents (ngraph n) v)) as [ec|e] eqn:C.
    - apply (init_cards _ _ (cards_of n) _ _ _ _ _ ec); auto. apply cards_ideal; auto.
    - exfalso. unfold init_table, get_parents in E. destruct (mem v (nodes (ngraph n))); cbn [bind] in E; [|discriminate].
      destruct (check_arguments _); cbn [bind] in E; [|discriminate].
      match type of E with bind ?a _ = _ => destruct a; cbn [bind] in E; [|discriminate] end. rewrite C in E. discriminate. }
  destruct r; auto.
Qed.
Lemma real_pnr : forall n v r, to_tabular n v r = Err ParentsNotReady -> table_of (ngraph n) (doms n) v r = Err ParentsNotReady.
Proof.
  intros n v r H. unfold to_tabular, table_of, table_from in *. destruct r; try discriminate; eapply init_pnr; try exact H; apply cards_err.
Qed.
(* u has the table its relationship gives for the current domains, or waits *)
Definition settled (n : net) (u : node) (r : rel) : Prop :=
  match table_of (ngraph n) (doms n) u r with
  | Ok t => cpd_of n u = Some t
  | Err ParentsNotReady => cpd_of n u = None
  | Err _ => False
  end.
Lemma settled_ext : forall n m u r, ngraph m = ngraph n -> cpd_of m u = cpd_of n u ->
  (forall p, edge (ngraph n) p u -> lookup p (doms m) = lookup p (doms n)) -> settled n u r -> settled m u r.
Proof.
  intros n m u r G C D H. unfold settled in *. rewrite G, C. rewrite (table_of_ext (ngraph n) (doms m) (doms n)); auto.
Qed.
Definition keeps (n n' : net) (v : node) (r : rel) : Prop :=
  inv n' /\ ngraph n' = ngraph n /\ (forall u, lookup u (rels n') = if String.eqb u v then Some r else lookup u (rels n)) /\
  settled n' v r /\
  (forall u ru, u <> v -> lookup u (rels n) = Some ru -> settled n u ru -> settled n' u ru) /\
  (forall u, lookup u (doms n) <> None -> lookup u (doms n') <> None).
Lemma set_item_keeps : forall k n v r n', wf_dag (ngraph n) -> inv n -> proper v r ->
  set_item k n v r = (n', None) -> keeps n n' v r.
Proof.
  induction k as [|k IH]; intros n v r n' W I P H; [discriminate|]. rewrite set_item_S in H. cbv zeta in H.
  set (n1 := begin n v r) in *. assert (G1 : ngraph n1 = ngraph n) by apply begin_graph. assert (D1 : doms n1 = doms n) by apply begin_doms.
  assert (I1 : inv n1) by (apply begin_inv; auto).
  assert (R1 : forall u, lookup u (rels n1) = if String.eqb u v then Some r else lookup u (rels n)) by apply begin_rels.
  assert (C1 : forall u, cpd_of n1 u = if String.eqb u v then None else cpd_of n u) by (intro; apply begin_cpd; auto).
  assert (S1 : forall u ru, u <> v -> settled n u ru -> settled n1 u ru).
  { intros u ru Hu S. apply (settled_ext n); auto; [|rewrite D1; auto]. rewrite C1. destruct (String.eqb_spec u v); congruence. }
  destruct (to_tabular n1 v r) as [t|e] eqn:T.
  2:{ destruct e; try discriminate. injection H as <-. split; auto. split; auto. split; auto. split.
      - unfold settled. rewrite (real_pnr n1 v r T), C1, String.eqb_refl. auto.
      - split; auto. rewrite D1. auto. }
  destruct (in_scope (ngraph n1) t) eqn:Sc; cbn [negb] in H; [|discriminate].
  assert (Tv : tvar t = v) by (apply (tab_var _ _ _ _ _ _ P T)).
  assert (Kv : In v (keys (rels n1))) by (apply lookup_In_keys; exists r; rewrite R1, String.eqb_refl; auto).
  set (n2 := place n1 v t) in *. assert (I2 : inv n2) by (apply place_inv; auto).
  assert (C2 : forall u, cpd_of n2 u = if String.eqb u v then Some t else cpd_of n1 u) by (intro; apply place_cpd; auto).
  assert (D2 : forall u, lookup u (doms n2) = if String.eqb u v then Some (tdom t) else lookup u (doms n1)) by (intro; apply place_dom).
  assert (NSE : ~ edge (ngraph n) v v) by (apply no_self_edge, W).
  assert (Sv : settled n2 v r).
  { unfold settled. cbn [ngraph place]. change (ngraph n2) with (ngraph n1). rewrite (table_of_ext _ (doms n2) (doms n1)).
    - rewrite (real_ok n1 v r t I1 T). rewrite C2, String.eqb_refl. auto.
    - intros p Hp. rewrite D2. destruct (String.eqb_spec p v) as [->|Hn]; auto. rewrite G1 in Hp. contradiction. }
  assert (Gr : forall u, lookup u (doms n) <> None -> lookup u (doms n2) <> None).
  { intros u Hu. rewrite D2, D1. destruct (String.eqb u v); [discriminate|auto]. }
  destruct (same_domain (lookup v (doms n1)) (tdom t)) eqn:SD.
  - injection H as <-. apply same_domain_iff in SD. destruct SD as [SD _]. split; auto. split; auto. split; auto. split; auto. split; auto.
    intros u ru Hu Hr S. apply (settled_ext n1); auto.
    + rewrite C2. destruct (String.eqb_spec u v); congruence.
    + intros p Hp. rewrite D2. destruct (String.eqb_spec p v) as [->|]; auto.
  - (* the children are set again *)
    assert (L : forall cs m n', resets k m cs = (n', None) -> inv m -> ngraph m = ngraph n ->
      (forall u, lookup u (rels m) = lookup u (rels n2)) -> settled m v r ->
      (forall c, In c cs -> edge (ngraph n) v c) ->
      inv n' /\ ngraph n' = ngraph n /\ (forall u, lookup u (rels n') = lookup u (rels n2)) /\ settled n' v r /\
      (forall u ru, lookup u (rels m) = Some ru -> In u cs \/ settled m u ru -> settled n' u ru) /\
      (forall u, lookup u (doms m) <> None -> lookup u (doms n') <> None)).
    { induction cs as [|c cs IHc]; intros m m' Hm Im Gm Rm Svm Hc; cbn [resets] in Hm.
      - injection Hm as <-. split; auto. split; auto. split; auto. split; auto. split; auto. intros u ru Hu [[]|S]; auto.
      - destruct (lookup c (rels m)) as [rc|] eqn:Ec.
        + destruct (set_item k m c rc) as [m1 [e|]] eqn:Es; [discriminate|].
          assert (Wm : wf_dag (ngraph m)) by (rewrite Gm; auto).
          destruct (IH m c rc m1 Wm Im (inv_proper m Im c rc Ec) Es) as (K1 & K2 & K3 & K4 & K5 & K6).
          assert (Rm1 : forall u, lookup u (rels m1) = lookup u (rels m)).
          { intro u. rewrite K3. destruct (String.eqb_spec u c) as [->|]; auto. }
          assert (cv : v <> c). { intros <-. apply NSE, Hc. simpl; auto. }
          assert (Q1 : ngraph m1 = ngraph n) by congruence.
          assert (Q2 : forall u, lookup u (rels m1) = lookup u (rels n2)) by (intro u; rewrite Rm1; auto).
          assert (Q3 : settled m1 v r) by (apply K5; auto; rewrite Rm; unfold n2; cbn [rels place]; rewrite R1, String.eqb_refl; auto).
          assert (Q4 : forall x, In x cs -> edge (ngraph n) v x) by (intros x Hx; apply Hc; simpl; auto).
          destruct (IHc m1 m' Hm K1 Q1 Q2 Q3 Q4) as (L1 & L2 & L3 & L4 & L5 & L6).
          * split; auto. split; auto. split; auto. split; auto. split.
            -- intros u ru Hu [[<-|Hi]|S].
               ++ apply L5; [rewrite Rm1; auto|]. right. rewrite Ec in Hu. injection Hu as <-. auto.
               ++ apply L5; [rewrite Rm1; auto|auto].
               ++ apply L5; [rewrite Rm1; auto|]. right. destruct (String.eqb_spec u c) as [->|Hn].
                  ** rewrite Ec in Hu. injection Hu as <-. auto.
                  ** apply K5; auto.
            -- auto.
        + destruct (IHc m m' Hm Im Gm Rm Svm) as (L1 & L2 & L3 & L4 & L5 & L6); [intros x Hx; apply Hc; simpl; auto|].
          split; auto. split; auto. split; auto. split; auto. split; auto.
          intros u ru Hu [[<-|Hi]|S]; [congruence|auto|auto]. }
    destruct (L _ n2 n' H I2) as (L1 & L2 & L3 & L4 & L5 & L6); auto.
    { intros c Hc. rewrite G1 in Hc. apply in_children; auto. }
    split; auto. split; auto. split; [intro u; rewrite L3; auto|]. split; auto. split; [|auto].
    intros u ru Hu Hr S. apply L5.
    + unfold n2. cbn [rels place]. rewrite R1. destruct (String.eqb_spec u v); [congruence|auto].
    + destruct (in_dec String.string_dec u (children (ngraph n1) v)) as [Hi|Hi]; auto. right.
      apply (settled_ext n1); auto.
      * rewrite C2. destruct (String.eqb_spec u v); congruence.
      * intros p Hp. rewrite D2. destruct (String.eqb_spec p v) as [->|]; auto. exfalso. apply Hi. apply in_children; auto.
Qed.

(* ---- deleting ---- *)
Lemma del_item_spec : forall n v n', inv n -> del_item n v = (n', None) ->
  inv n' /\ ngraph n' = ngraph n /\ doms n' = doms n /\ In v (keys (rels n)) /\
  (forall u, lookup u (rels n') = if String.eqb u v then None else lookup u (rels n)) /\
  (forall u, cpd_of n' u = if String.eqb u v then None else cpd_of n u).
Proof.
  intros n v n' I H. unfold del_item in H. destruct (mem_spec v (keys (rels n))) as [Hk|]; [|discriminate]. injection H as <-.
  assert (C : forall u, cpd_of (mkNet (ngraph n) (ddel v (rels n)) (if mem v (nodes (ngraph n)) then remove_tab v (cpds n) else cpds n) (doms n)) u
      = if String.eqb u v then None else cpd_of n u).
  { intro u. unfold cpd_of. cbn [cpds]. destruct (mem_spec v (nodes (ngraph n))) as [Hv|Hv].
    - apply (find_remove_tab u v (cpds n) (inv_tabs n I)).
    - destruct (String.eqb_spec u v) as [->|E]; auto. destruct (cpd_of n v) eqn:Ec; [|exact Ec]. exfalso. apply Hv, (inv_rel n I v t Ec). }
  assert (R : forall u, lookup u (ddel v (rels n)) = if String.eqb u v then None else lookup u (rels n)) by (intro; apply lookup_ddel).
  split; [|split; [|split; [|split; [|split]]]]; auto. constructor; cbn [ngraph rels doms].
  - cbn [cpds]. destruct (mem v (nodes (ngraph n))); [|apply I]. apply map_remove_tab. apply I.
  - intros u t. rewrite C. destruct (String.eqb u v); [discriminate|]. apply I.
  - intros u t. rewrite C. destruct (String.eqb_spec u v) as [->|E]; [discriminate|]. intro Hc. destruct (inv_rel n I u t Hc) as [H1 H2].
    split; auto. apply lookup_In_keys. rewrite R. destruct (String.eqb_spec u v); [congruence|]. apply lookup_In_keys; auto.
  - intros u r. rewrite R. destruct (String.eqb u v); [discriminate|]. apply I.
  - intros u t. rewrite C. destruct (String.eqb u v); [discriminate|]. apply I.
Qed.

(* ---- histories ---- *)
Definition all_settled (n : net) : Prop := forall u r, lookup u (rels n) = Some r -> settled n u r.
Lemma bare_inv : forall g, inv (bare g).
Proof. intro g. constructor; simpl; try discriminate. constructor. Qed.
Definition proper_op (o : op) : Prop := match o with OAdd v r => proper v r | ODel _ => True end.
Definition effect (v : node) (cur : option rel) (o : op) : option rel :=
  match o with
  | OAdd u r => if String.eqb u v then Some r else cur
  | ODel u => if String.eqb u v then None else cur
  end.
Lemma step_keeps : forall n o n', wf_dag (ngraph n) -> inv n -> all_settled n -> proper_op o -> step n o = (n', None) ->
  inv n' /\ all_settled n' /\ ngraph n' = ngraph n /\ forall v, lookup v (rels n') = effect v (lookup v (rels n)) o.
Proof.
  intros n [v r|v] n' W I S P H; simpl in H.
  - destruct (set_item_keeps _ n v r n' W I P H) as (K1 & K2 & K3 & K4 & K5 & K6). split; auto. split; [|split; auto].
    + intros u ru Hu. rewrite K3 in Hu. destruct (String.eqb_spec u v) as [->|E]; [injection Hu as <-; auto|]. apply K5; auto.
    + intro u. rewrite K3. simpl. rewrite String.eqb_sym. auto.
  - destruct (del_item_spec n v n' I H) as (K1 & K2 & K3 & K4 & K5 & K6). split; auto. split; [|split; auto].
    + intros u ru Hu. rewrite K5 in Hu. destruct (String.eqb_spec u v) as [->|E]; [discriminate|].
      apply (settled_ext n); auto; [|rewrite K3; auto]. rewrite K6. destruct (String.eqb_spec u v); congruence.
    + intro u. rewrite K5. simpl. rewrite String.eqb_sym. auto.
Qed.
Lemma run_keeps : forall os n n', wf_dag (ngraph n) -> inv n -> all_settled n -> (forall o, In o os -> proper_op o) ->
  run n os = (n', None) ->
  inv n' /\ all_settled n' /\ ngraph n' = ngraph n /\ forall v, lookup v (rels n') = fold_left (effect v) os (lookup v (rels n)).
Proof.
  induction os as [|o os IH]; intros n n' W I S P H; cbn [run] in H.
  - injection H as <-. auto.
  - destruct (step n o) as [n1 [e|]] eqn:E; [discriminate|].
    destruct (step_keeps n o n1 W I S) as (A & B & C & D); auto; [apply P; simpl; auto|].
    destruct (IH n1 n') as (A' & B' & C' & D'); auto; [rewrite C; auto|intros; apply P; simpl; auto|].
    split; auto. split; auto. split; [congruence|]. intro v. rewrite D', D. reflexivity.
Qed.
Lemma run_app : forall os1 os2 n, run n (os1 ++ os2) = match run n os1 with (n', None) => run n' os2 | (n', Some e) => (n', Some e) end.
Proof.
  induction os1 as [|o os1 IH]; intros os2 n; cbn [app run]; auto. destruct (step n o) as [n1 [e|]]; auto.
Qed.

(* ---- when a table can be built ---- *)
Lemma ready_not_pnr : forall g ds v r, In v (nodes g) -> proper v r -> (forall p, edge g p v -> lookup p ds <> None) ->
  table_of g ds v r <> Err ParentsNotReady.
Proof.
  intros g ds v r Hv P R. assert (R' : ready ds (parents g v)) by (intros p Hp; apply R, in_parents; auto).
  assert (X : forall f fo k, (forall pv, body f pv <> Err ParentsNotReady) -> init_table g ds (ideal ds) v f fo k <> Err ParentsNotReady).
  { intros f fo k B E. assert (SF : forall pv, stochastic_function f pv <> Err ParentsNotReady).
    { intros pv K. unfold stochastic_function, call in K. destruct (binds f (keys pv)); [|discriminate].
      destruct (body f pv) as [w|e] eqn:Eb; cbn [bind] in K; [discriminate|]. apply (B pv). congruence. }
    destruct (map_r (stochastic_function f) (map (combine (parents g v)) (product (map (dom_of ds) (parents g v))))) as [dl|e] eqn:M.
    - apply map_r_ok in M. rewrite (init_eq g ds v f fo k (ideal ds) Hv R' dl M) in E. unfold ideal in E. cbn [bind] in E. cbv zeta in E.
      destruct (forallb _ _); [|congruence].
      repeat match type of E with (if ?b then _ else _) = _ => destruct b; [congruence|] end. discriminate.
    - assert (E' : e <> ParentsNotReady). { apply map_r_err in M. destruct M as (pv & _ & M). intros ->. apply (SF pv M). }
      unfold init_table in E. rewrite (get_parents_ok g v Hv) in E. cbn [bind check_arguments wrapper_varkw negb andb] in E.
      rewrite (possible_err g ds v f Hv R' e M) in E. destruct fo; cbn [bind] in E; congruence. }
  destruct r; unfold table_of, table_from; try discriminate; apply X; auto; intros pv; discriminate.
Qed.
Lemma not_ready_pnr : forall g ds cards v r p, In v (nodes g) -> edge g p v -> lookup p ds = None -> (forall t, r <> RTab t) ->
  table_from g ds cards v r = Err ParentsNotReady.
Proof.
  intros g ds cards v r p Hv E L T. unfold table_from. destruct r; try (exfalso; eapply T; reflexivity);
  eapply not_ready; eauto; apply in_parents; auto.
Qed.
Lemma rel_dec : forall r, (exists t, r = RTab t) \/ forall t, r <> RTab t.
Proof. intros [f|d|l|t]; [right; discriminate|right; discriminate|right; discriminate|left; eauto]. Qed.
Lemma ready_edges : forall g (ds : domains) v, (forall p, edge g p v -> lookup p ds <> None) \/ exists p, edge g p v /\ lookup p ds = None.
Proof.
  intros g ds v. destruct (ready_dec ds (parents g v)) as [R|(p & P1 & P2)].
  - left. intros p Hp. apply R, in_parents; auto.
  - right. exists p. split; auto. apply in_parents; auto.
Qed.
Lemma ok_ready : forall g ds v r t, In v (nodes g) -> table_of g ds v r = Ok t -> (exists t', r = RTab t') \/ forall p, edge g p v -> lookup p ds <> None.
Proof.
  intros g ds v r t Hv H. destruct (rel_dec r) as [|T]; auto. right. intros p E L. unfold table_of in H.
  rewrite (not_ready_pnr g ds (ideal ds) v r p) in H; auto. discriminate.
Qed.
Lemma ok_reflects : forall g ds v r t, In v (nodes g) -> table_of g ds v r = Ok t -> reflects g ds v r t.
Proof.
  intros g ds v r t Hv H. assert (X : forall f fo k, init_table g ds (ideal ds) v f fo k = Ok t -> tabulates g ds v f fo t).
  { intros f fo k E. destruct (ready_dec ds (parents g v)) as [R|(p & P1 & P2)].
    - apply (init_tabulates g ds v f fo k (ideal ds) Hv R t E).
    - rewrite (not_ready g ds v f fo k (ideal ds) Hv p P1 P2) in E. discriminate. }
  destruct r; simpl in *; eauto. unfold table_of, table_from in H. congruence.
Qed.

(* ---- each variable given once: domains mean tables ---- *)
Definition dom_tab (n : net) : Prop := forall u d, lookup u (doms n) = Some d -> cpd_of n u <> None.
Definition tab_ready (n : net) : Prop := forall u r, cpd_of n u <> None -> lookup u (rels n) = Some r ->
  (exists t, r = RTab t) \/ forall p, edge (ngraph n) p u -> lookup p (doms n) <> None.
Lemma set_item_once : forall k n v r n', wf_dag (ngraph n) -> inv n -> proper v r -> dom_tab n -> tab_ready n ->
  (lookup v (rels n) = None \/ lookup v (rels n) = Some r) -> set_item k n v r = (n', None) -> dom_tab n' /\ tab_ready n'.
Proof.
  induction k as [|k IH]; intros n v r n' W I P J K E H; [discriminate|]. rewrite set_item_S in H. cbv zeta in H.
  set (n1 := begin n v r) in *. assert (G1 : ngraph n1 = ngraph n) by apply begin_graph. assert (D1 : doms n1 = doms n) by apply begin_doms.
  assert (I1 : inv n1) by (apply begin_inv; auto).
  assert (R1 : forall u, lookup u (rels n1) = if String.eqb u v then Some r else lookup u (rels n)) by apply begin_rels.
  assert (C1 : forall u, cpd_of n1 u = if String.eqb u v then None else cpd_of n u) by (intro; apply begin_cpd; auto).
  assert (K1 : tab_ready n1).
  { intros u ru Hc Hr. rewrite C1 in Hc. rewrite R1 in Hr. destruct (String.eqb u v); [congruence|]. rewrite D1, G1. auto. }
  destruct (to_tabular n1 v r) as [t|e] eqn:T.
  2:{ destruct e; try discriminate. injection H as <-. split; auto. intros u d Hd. rewrite D1 in Hd. rewrite C1.
      destruct (String.eqb_spec u v) as [->|Hn]; [|eauto]. exfalso.
      assert (Cn := J v d Hd). destruct (cpd_of n v) as [s|] eqn:Ec; [|congruence].
      destruct (inv_rel n I v s Ec) as [Hk Hv]. destruct E as [E|E].
      - apply lookup_In_keys in Hk. destruct Hk as [x Hx]. congruence.
      - assert (Rd := real_pnr n1 v r T). rewrite G1, D1 in Rd. destruct (K v r) as [[s' ->]|Rdy]; auto; [congruence|discriminate|].
        apply (ready_not_pnr (ngraph n) (doms n) v r Hv P Rdy Rd). }
  destruct (in_scope (ngraph n1) t) eqn:Sc; cbn [negb] in H; [|discriminate].
  assert (Tv : tvar t = v) by (apply (tab_var _ _ _ _ _ _ P T)).
  assert (Kv : In v (keys (rels n1))) by (apply lookup_In_keys; exists r; rewrite R1, String.eqb_refl; auto).
  set (n2 := place n1 v t) in *. assert (I2 : inv n2) by (apply place_inv; auto).
  assert (C2 : forall u, cpd_of n2 u = if String.eqb u v then Some t else cpd_of n1 u) by (intro; apply place_cpd; auto).
  assert (D2 : forall u, lookup u (doms n2) = if String.eqb u v then Some (tdom t) else lookup u (doms n1)) by (intro; apply place_dom).
  assert (Hv : In v (nodes (ngraph n))) by (rewrite <- G1; apply in_scope_iff in Sc; rewrite Tv in Sc; tauto).
  assert (J2 : dom_tab n2).
  { intros u d Hd. rewrite D2, D1 in Hd. rewrite C2, C1. destruct (String.eqb_spec u v) as [->|Hn]; [discriminate|]. eauto. }
  assert (Gr : forall u, lookup u (doms n) <> None -> lookup u (doms n2) <> None).
  { intros u Hu. rewrite D2, D1. destruct (String.eqb u v); [discriminate|auto]. }
  assert (K2 : tab_ready n2).
  { intros u ru Hc Hr. change (rels n2) with (rels n1) in Hr. change (ngraph n2) with (ngraph n1). rewrite G1. rewrite R1 in Hr. rewrite C2, C1 in Hc.
    destruct (String.eqb_spec u v) as [->|Hn].
    - injection Hr as <-. assert (Ok1 := real_ok n1 v r t I1 T). rewrite G1, D1 in Ok1.
      destruct (ok_ready _ _ _ _ _ Hv Ok1) as [|Rdy]; auto.
    - destruct (K u ru Hc Hr) as [|Rdy]; auto. }
  assert (R2 : forall u, lookup u (rels n2) = lookup u (rels n1)) by auto.
  destruct (same_domain (lookup v (doms n1)) (tdom t)); [injection H as <-; auto|].
  assert (L : forall cs m m', resets k m cs = (m', None) -> inv m -> ngraph m = ngraph n -> dom_tab m -> tab_ready m -> dom_tab m' /\ tab_ready m').
  { induction cs as [|c cs IHc]; intros m m' Hm Im Gm Jm Km; cbn [resets] in Hm; [injection Hm as <-; auto|].
    destruct (lookup c (rels m)) as [rc|] eqn:Ec; [|eapply IHc; eauto].
    destruct (set_item k m c rc) as [m1 [e|]] eqn:Es; [discriminate|].
    assert (Wm : wf_dag (ngraph m)) by (rewrite Gm; auto).
    destruct (set_item_keeps k m c rc m1 Wm Im (inv_proper m Im c rc Ec) Es) as (Q1 & Q2 & _).
    destruct (IH m c rc m1 Wm Im (inv_proper m Im c rc Ec) Jm Km (or_intror Ec) Es) as [Q3 Q4].
    apply (IHc m1 m' Hm Q1); auto. congruence. }
  apply (L _ n2 n' H); auto.
Qed.

(* ---- a second order of the same relationships ---- *)
Section Order.
  Variable n1 : net.
  Let g := ngraph n1.
  Hypothesis W : wf_dag g.
  Hypothesis I1 : inv n1.
  Hypothesis S1 : all_settled n1.
  Record below (n : net) : Prop := {
    b_graph : ngraph n = g;
    b_inv : inv n;
    b_dom : forall u d, lookup u (doms n) = Some d -> lookup u (doms n1) = Some d;
    b_tab : dom_tab n;
    b_ready : tab_ready n;
    b_rel : forall u r, lookup u (rels n) = Some r -> lookup u (rels n1) = Some r }.
  Lemma below_set : forall k n v r, below n -> In v (nodes g) -> lookup v (rels n1) = Some r ->
    (length (reach_set g v) <= k)%nat -> exists n', set_item k n v r = (n', None) /\ below n' /\
      (forall u, lookup u (rels n') = if String.eqb u v then Some r else lookup u (rels n)).
  Proof.
    induction k as [|k IH]; intros n v r B Hv Hr F.
    { exfalso. assert (K : In v (reach_set g v)) by (unfold reach_set; rewrite filter_In; split; auto; apply has_path_iff; [apply W|auto|constructor]).
      destruct (reach_set g v); [destruct K|simpl in F; lia]. }
    destruct B as [BG BI BD BT BR BL]. assert (P : proper v r) by (apply (inv_proper n1 I1 v r Hr)).
    rewrite set_item_S. cbv zeta. set (n0 := begin n v r).
    assert (G0 : ngraph n0 = g) by (unfold n0; rewrite begin_graph; auto). assert (D0 : doms n0 = doms n) by apply begin_doms.
    assert (I0 : inv n0) by (apply begin_inv; auto).
    assert (R0 : forall u, lookup u (rels n0) = if String.eqb u v then Some r else lookup u (rels n)) by apply begin_rels.
    assert (C0 : forall u, cpd_of n0 u = if String.eqb u v then None else cpd_of n u) by (intro; apply begin_cpd; auto).
    assert (NSE : ~ edge g v v) by (apply no_self_edge, W).
    assert (Sv := S1 v r Hr). unfold settled in Sv.
    (* what to_tabular gives *)
    assert (T : to_tabular n0 v r = Err ParentsNotReady /\ (exists p, edge g p v /\ lookup p (doms n) = None) /\ (forall t, r <> RTab t) \/
                exists t, to_tabular n0 v r = Ok t /\ cpd_of n1 v = Some t /\ ((exists t', r = RTab t') \/ forall p, edge g p v -> lookup p (doms n) <> None)).
    { destruct (rel_dec r) as [[t ->]|NT].
      - right. exists t. split; auto. split; eauto.
      - destruct (ready_edges g (doms n) v) as [Rd|[p [P1 P2]]].
        + right. assert (EqT : to_tabular n0 v r = table_of g (doms n1) v r).
          { assert (Agree : forall p, edge g p v -> lookup p (doms n) = lookup p (doms n1)).
            { intros p Hp. specialize (Rd p Hp). destruct (lookup p (doms n)) as [d|] eqn:E; [|congruence]. symmetry. auto. }
            rewrite <- (table_of_ext g (doms n) (doms n1) v r Agree). unfold to_tabular, table_of, table_from. rewrite G0, D0.
            assert (Cd : cards_of n0 (parents g v) = ideal (doms n) (parents g v)).
            { unfold cards_of, ideal. apply map_r_all. 
              assert (X : forall ps, (forall p, In p ps -> edge g p v) -> Forall2 (fun x y => get_cardinality n0 x = Ok y) ps (map (fun p => length (dom_of (doms n) p)) ps)).
              { induction ps as [|p ps IHp]; intro Hps; simpl; constructor; [|apply IHp; intros; apply Hps; simpl; auto].
                assert (Ep : edge g p v) by (apply Hps; simpl; auto). specialize (Rd p Ep). destruct (lookup p (doms n)) as [d|] eqn:El; [|congruence].
                assert (Ct := BT p d El). destruct (cpd_of n p) as [s|] eqn:Ecp; [|congruence].
                unfold get_cardinality, get_cpds. rewrite G0. rewrite (proj2 (mem_In _ _) (wf_edge_l g (proj1 W) p v Ep)). cbn [bind].
                rewrite C0. destruct (String.eqb_spec p v) as [->|Hn]; [contradiction|]. rewrite Ecp. f_equal.
                unfold dom_of. rewrite (inv_dom n BI p s Ecp). auto. }
              apply X. intros p Hp. apply in_parents; auto. }
            destruct r; try (apply init_ext; auto). reflexivity. }
          destruct (table_of g (doms n1) v r) as [t|e] eqn:Et; fold g in Sv; rewrite Et in Sv.
          * exists t. auto.
          * exfalso. assert (e = ParentsNotReady) by (destruct e; auto; destruct Sv). subst e.
            apply (ready_not_pnr g (doms n1) v r Hv P); auto. intros p Hp Hl. specialize (Rd p Hp). destruct (lookup p (doms n)) eqn:E; [|congruence].
            rewrite (BD p _ E) in Hl. discriminate.
        + left. split; [|split; eauto]. unfold to_tabular. rewrite G0, D0. eapply not_ready_pnr; eauto. }
    destruct T as [(T & (p & P1 & P2) & NT)|(t & T & Ct & Rd)]; rewrite T.
    - exists n0. split; auto. split; auto. split; auto.
      + rewrite D0. auto.
      + intros u d Hd. rewrite D0 in Hd. rewrite C0. destruct (String.eqb_spec u v) as [->|Hn]; [|eauto].
        exfalso. assert (Cv := BT v d Hd). destruct (cpd_of n v) as [s|] eqn:Ec; [|congruence].
        destruct (inv_rel n BI v s Ec) as [Hk _]. apply lookup_In_keys in Hk. destruct Hk as [r' Hk]. assert (r' = r) by (apply BL in Hk; congruence). subst r'.
        destruct (BR v r) as [[s' ->]|Rd]; [congruence|auto|eapply NT; reflexivity|]. apply (Rd p); auto. rewrite BG; auto.
      + intros u ru Hc Hru. rewrite C0 in Hc. rewrite R0 in Hru. destruct (String.eqb u v); [congruence|]. rewrite D0, G0. rewrite <- BG. auto.
      + intros u ru Hru. rewrite R0 in Hru. destruct (String.eqb_spec u v) as [->|Hn]; [congruence|auto].
    - assert (Sc : in_scope (ngraph n0) t = true) by (rewrite G0; apply (inv_scope n1 I1 v t Ct)). rewrite Sc. cbn [negb].
      assert (Tv : tvar t = v) by (apply (tab_var _ _ _ _ _ _ P T)).
      assert (Kv : In v (keys (rels n0))) by (apply lookup_In_keys; exists r; rewrite R0, String.eqb_refl; auto).
      set (n2 := place n0 v t) in *. assert (I2 : inv n2) by (apply place_inv; auto).
      assert (C2 : forall u, cpd_of n2 u = if String.eqb u v then Some t else cpd_of n0 u) by (intro; apply place_cpd; auto).
      assert (D2 : forall u, lookup u (doms n2) = if String.eqb u v then Some (tdom t) else lookup u (doms n0)) by (intro; apply place_dom).
      assert (R2 : forall u, lookup u (rels n2) = if String.eqb u v then Some r else lookup u (rels n)) by (intro u; change (rels n2) with (rels n0); apply R0).
      assert (Gr : forall u, lookup u (doms n) <> None -> lookup u (doms n2) <> None).
      { intros u Hu. rewrite D2, D0. destruct (String.eqb u v); [discriminate|auto]. }
      assert (B2 : below n2).
      { split; auto.
        - intros u d Hd. rewrite D2, D0 in Hd. destruct (String.eqb_spec u v) as [->|Hn]; [|auto]. injection Hd as <-. apply (inv_dom n1 I1 v t Ct).
        - intros u d Hd. rewrite D2, D0 in Hd. rewrite C2, C0. destruct (String.eqb_spec u v) as [->|Hn]; [discriminate|eauto].
        - intros u ru Hc Hru. change (ngraph n2) with (ngraph n0). rewrite G0. rewrite R2 in Hru. rewrite C2, C0 in Hc.
          destruct (String.eqb_spec u v) as [->|Hn].
          + injection Hru as <-. destruct Rd as [|Rd]; auto.
          + destruct (BR u ru Hc Hru) as [|Rd']; auto. right. intros q Hq. rewrite <- BG in Hq. auto.
        - intros u ru Hru. rewrite R2 in Hru. destruct (String.eqb_spec u v) as [->|Hn]; [congruence|auto]. }
      destruct (same_domain (lookup v (doms n0)) (tdom t)); [exists n2; auto|].
      assert (L : forall cs m, below m -> (forall c, In c cs -> edge g v c) -> exists m', resets k m cs = (m', None) /\ below m' /\
        forall u, lookup u (rels m') = lookup u (rels m)).
      { induction cs as [|c cs IHc]; intros m Bm Hc; cbn [resets]; [eauto|].
        destruct (lookup c (rels m)) as [rc|] eqn:Ec.
        - assert (Ecv : edge g v c) by (apply Hc; simpl; auto).
          destruct (IH m c rc Bm) as (m1 & M1 & M2 & M3).
          + eapply wf_edge_r; [apply W|eauto].
          + apply (b_rel m Bm); auto.
          + assert (X := reach_set_child g v c W Ecv). lia.
          + rewrite M1. destruct (IHc m1 M2) as (m' & N1 & N2 & N3); [intros x Hx; apply Hc; simpl; auto|].
            exists m'. split; auto. split; auto. intro u. rewrite N3, M3. destruct (String.eqb_spec u c) as [->|]; auto.
        - apply IHc; auto. intros x Hx. apply Hc. simpl; auto. }
      destruct (L (children (ngraph n0) v) n2 B2) as (m' & M1 & M2 & M3).
      { intros c Hc. rewrite G0 in Hc. apply in_children; auto. }
      exists m'. split; auto. split; auto. intro u. rewrite M3, R2. auto.
  Qed.
End Order.

(* ---- the bound on the recursion plays no role ---- *)
Lemma set_item_graph : forall k n v r, ngraph (fst (set_item k n v r)) = ngraph n.
Proof.
  induction k as [|k IH]; intros n v r; auto. rewrite set_item_S. cbv zeta.
  assert (G := begin_graph n v r). destruct (to_tabular (begin n v r) v r) as [t|e].
  2:{ destruct e; auto. }
  destruct (in_scope (ngraph (begin n v r)) t); cbn [negb]; auto. destruct (same_domain _ _); auto.
  assert (L : forall cs m, ngraph (fst (resets k m cs)) = ngraph m).
  { induction cs as [|c cs IHc]; intro m; cbn [resets]; auto. destruct (lookup c (rels m)) as [rc|]; auto.
    assert (X := IH m c rc). destruct (set_item k m c rc) as [m' [e|]]; cbn [fst] in *; auto. rewrite IHc. auto. }
  rewrite L. auto.
Qed.
Lemma fuel_enough : forall k k' n v r, wf_dag (ngraph n) ->
  (length (reach_set (ngraph n) v) < k)%nat -> (length (reach_set (ngraph n) v) < k')%nat -> set_item k n v r = set_item k' n v r.
Proof.
  induction k as [|k IH]; intros k' n v r W F F'; [lia|]. destruct k' as [|k']; [lia|]. rewrite !set_item_S. cbv zeta.
  destruct (to_tabular (begin n v r) v r) as [t|e]; auto. destruct (negb _); auto. destruct (same_domain _ _); auto.
  rewrite begin_graph. assert (G : ngraph (place (begin n v r) v t) = ngraph n) by apply begin_graph.
  assert (H : forall c, In c (children (ngraph n) v) -> edge (ngraph n) v c) by (intros c Hc; apply in_children; auto).
  revert G H. generalize (place (begin n v r) v t). generalize (children (ngraph n) v). 
  induction l as [|c cs IHc]; intros m G H; cbn [resets]; auto. destruct (lookup c (rels m)) as [rc|]; [|apply IHc; auto; intros; apply H; simpl; auto].
  assert (X := reach_set_child (ngraph n) v c W (H c (or_introl eq_refl))).
  rewrite (IH k' m c rc); [|rewrite G; auto|rewrite G; lia|rewrite G; lia].
  assert (Y := set_item_graph k' m c rc). destruct (set_item k' m c rc) as [m' [e|]]; auto. cbn [fst] in Y. apply IHc; [congruence|]. intros x Hx. apply H. simpl; auto.
Qed.

(* ---- what a call, returning or raising, leaves alone ---- *)
Lemma begin_find : forall n v r u, u <> v -> cpd_of (begin n v r) u = cpd_of n u.
Proof.
  intros n v r u Hn. unfold begin, del_item, cpd_of. destruct (mem v (keys (rels n))); cbn [fst cpds]; auto.
  destruct (mem v (nodes (ngraph n))); auto. induction (cpds n) as [|t l IH]; simpl; auto.
  destruct (String.eqb_spec (tvar t) v) as [->|E]; simpl.
  - destruct (String.eqb_spec v u); [congruence|auto].
  - destruct (String.eqb (tvar t) u); auto.
Qed.
Lemma set_item_frame : forall k n v r, wf_dag (ngraph n) -> inv n -> proper v r ->
  let n' := fst (set_item k n v r) in
  (forall u, lookup u (rels n') = if (String.eqb u v && (0 <? k)%nat)%bool then Some r else lookup u (rels n)) /\
  (forall u, ~ reach (ngraph n) v u -> cpd_of n' u = cpd_of n u /\ lookup u (doms n') = lookup u (doms n)).
Proof.
  induction k as [|k IH]; intros n v r W I P; cbv zeta.
  { simpl. split; [intro u; destruct (String.eqb u v); auto|auto]. }
  rewrite set_item_S. cbv zeta. set (n1 := begin n v r).
  assert (G1 : ngraph n1 = ngraph n) by apply begin_graph. assert (D1 : doms n1 = doms n) by apply begin_doms.
  assert (R1 : forall u, lookup u (rels n1) = if (String.eqb u v && (0 <? S k)%nat)%bool then Some r else lookup u (rels n)).
  { intro u. rewrite andb_true_r. apply begin_rels. }
  assert (F1 : forall u, ~ reach (ngraph n) v u -> cpd_of n1 u = cpd_of n u /\ lookup u (doms n1) = lookup u (doms n)).
  { intros u Hu. split; [|rewrite D1; auto]. apply begin_find. intros ->. apply Hu. constructor. }
  assert (I1 : inv n1) by (apply begin_inv; auto).
  destruct (to_tabular n1 v r) as [t|e] eqn:T; [|destruct e; auto].
  destruct (in_scope (ngraph n1) t) eqn:Sc; cbn [negb]; auto.
  assert (Tv : tvar t = v) by (apply (tab_var _ _ _ _ _ _ P T)).
  assert (Kv : In v (keys (rels n1))) by (apply lookup_In_keys; exists r; rewrite R1, String.eqb_refl; auto).
  assert (I2 : inv (place n1 v t)) by (apply place_inv; auto). set (n2 := place n1 v t) in *.
  assert (F2 : forall u, ~ reach (ngraph n) v u -> cpd_of n2 u = cpd_of n u /\ lookup u (doms n2) = lookup u (doms n)).
  { intros u Hu. unfold n2. rewrite place_cpd, place_dom by auto. destruct (String.eqb_spec u v) as [->|Hn]; [exfalso; apply Hu; constructor|auto]. }
  destruct (same_domain _ _); [auto|].
  assert (L : forall cs m, inv m -> ngraph m = ngraph n -> (forall c, In c cs -> edge (ngraph n) v c) ->
    (forall u, lookup u (rels (fst (resets k m cs))) = lookup u (rels m)) /\
    (forall u, ~ reach (ngraph n) v u -> cpd_of (fst (resets k m cs)) u = cpd_of m u /\ lookup u (doms (fst (resets k m cs))) = lookup u (doms m))).
  { induction cs as [|c cs IHc]; intros m Im Gm Hc; cbn [resets]; auto.
    destruct (lookup c (rels m)) as [rc|] eqn:Ec.
    2:{ apply IHc; auto. intros x Hx. apply Hc. simpl; auto. }
    assert (Wm : wf_dag (ngraph m)) by (rewrite Gm; auto).
    destruct (IH m c rc Wm Im (inv_proper m Im c rc Ec)) as [Q1 Q2]. rewrite Gm in Q2.
    assert (Q1' : forall u, lookup u (rels (fst (set_item k m c rc))) = lookup u (rels m)).
    { intro u. rewrite Q1. destruct (String.eqb_spec u c) as [->|]; auto. destruct (0 <? k)%nat; auto. }
    assert (Q3 : forall u, ~ reach (ngraph n) v u -> ~ reach (ngraph n) c u).
    { intros u Hu K. apply Hu. econstructor; [|exact K]. apply Hc. simpl; auto. }
    destruct (set_item k m c rc) as [m' [e|]] eqn:Es; cbn [fst] in *; [split; auto|].
    destruct (set_item_keeps k m c rc m' Wm Im (inv_proper m Im c rc Ec) Es) as (K1 & K2 & _).
    destruct (IHc m' K1) as [L1 L2]; [congruence|intros x Hx; apply Hc; simpl; auto|].
    split; [intro u; rewrite L1; auto|]. intros u Hu. destruct (L2 u Hu) as [A B]. destruct (Q2 u (Q3 u Hu)) as [A' B']. rewrite A, B. auto. }
  destruct (L (children (ngraph n1) v) n2 I2) as [L1 L2]; auto.
  { intros c Hc. rewrite G1 in Hc. apply in_children; auto. }
  split; [intro u; rewrite L1; apply R1|]. intros u Hu. destruct (L2 u Hu) as [A B]. rewrite A, B. auto.
Qed.
Lemma has_table_iff : forall n v t, inv n -> (has_table n v t <-> cpd_of n v = Some t).
Proof.
  intros n v t I. split.
  - intros [H1 H2]. apply in_find_tab; auto. apply I.
  - intro H. apply find_tab_in in H. auto.
Qed.
