(* C87: removing relationships. *)
From Coq Require Import String List Bool Arith QArith Qcanon Lia.
Import ListNotations.
From Verif Require Import MBase MGraph MMacid MCpd MNet MProb MQuery Spec SpecC SpecN SpecQ LBase LGraph LQc LCpd LNet LInter LFactor LBuilt PEdit.
Local Open Scope string_scope.
Local Open Scope list_scope.

Lemma del_spec : forall n v, inv n -> In v (keys (rels n)) -> exists n', del_item n v = (n', None) /\ inv n' /\ ngraph n' = ngraph n /\ doms n' = doms n /\
  (forall u, lookup u (rels n') = if String.eqb u v then None else lookup u (rels n)) /\ (forall u, cpd_of n' u = if String.eqb u v then None else cpd_of n u).
Proof.
  intros n v I Hv. unfold del_item. rewrite (proj2 (mem_In _ _) Hv). eexists. split; [reflexivity|].
  assert (Cp : forall u, cpd_of (mkNet (ngraph n) (ddel v (rels n)) (if mem v (nodes (ngraph n)) then remove_tab v (cpds n) else cpds n) (doms n)) u = if String.eqb u v then None else cpd_of n u).
  { intro u. unfold cpd_of. cbn [cpds]. destruct (mem_spec v (nodes (ngraph n))) as [K|K]; [apply find_remove_tab; apply I|]. destruct (String.eqb_spec u v) as [->|]; auto. destruct (find_tab v (cpds n)) as [t|] eqn:E; auto. exfalso. apply K. apply (inv_rel n I v t E). }
  cbn [ngraph doms rels]. split; [|split; [auto|split; [auto|split; [intro u; apply lookup_ddel|exact Cp]]]].
  constructor; cbn [cpds doms rels ngraph].
  - destruct (mem v (nodes (ngraph n))); [apply map_remove_tab|]; apply I.
  - intros u t E. rewrite Cp in E. destruct (String.eqb u v); [discriminate|]. apply (inv_dom n I); auto.
  - intros u t E. rewrite Cp in E. destruct (String.eqb_spec u v) as [|Ne]; [discriminate|]. destruct (inv_rel n I u t E) as [K1 K2]. split; auto. apply lookup_In_keys in K1. destruct K1 as [r K1]. apply lookup_In_keys. exists r. rewrite lookup_ddel. destruct (String.eqb_spec u v); [congruence|auto].
  - intros u r E. rewrite lookup_ddel in E. destruct (String.eqb u v); [discriminate|]. apply (inv_proper n I u r E).
  - intros u t E. rewrite Cp in E. destruct (String.eqb u v); [discriminate|]. apply (inv_scope n I u t E).
Qed.
Lemma remove_spec : forall l n, inv n -> NoDup l -> (forall v, In v l -> lookup v (rels n) <> None) -> exists n', remove_cpds n l = (n', None) /\ inv n' /\ ngraph n' = ngraph n /\ doms n' = doms n /\
  (forall u, lookup u (rels n') = if mem u l then None else lookup u (rels n)) /\ (forall u, cpd_of n' u = if mem u l then None else cpd_of n u).
Proof.
  unfold remove_cpds. induction l as [|v l IH]; intros n I N H; cbn [map run]; [exists n; repeat (split; auto)|]. inversion N as [|? ? N1 N2]; subst.
  assert (Hv : In v (keys (rels n))) by (destruct (lookup v (rels n)) as [r|] eqn:E; [apply lookup_In_keys; eauto|exfalso; apply (H v); [left|]; auto]).
  destruct (del_spec n v I Hv) as (n1 & E1 & I1 & G1 & D1 & R1 & C1). cbn [step]. rewrite E1.
  destruct (IH n1 I1 N2) as (n' & E & I' & G & D & R & C). { intros u Hu. rewrite R1. destruct (String.eqb_spec u v) as [->|]; [contradiction|]. apply H. right. auto. }
  exists n'. split; auto. split; auto. split; [congruence|]. split; [congruence|]. split; intro u; [rewrite R, R1|rewrite C, C1]; cbn [mem existsb]; unfold mem; destruct (existsb (String.eqb u) l); rewrite ?orb_true_r, ?orb_false_r; destruct (String.eqb u v); auto.
Qed.
Lemma run_app : forall os os' n, run n (os ++ os') = match run n os with (n', None) => run n' os' | x => x end.
Proof.
  induction os as [|o os IH]; intros os' n; cbn [app run]; auto. destruct (step n o) as [n' [e|]]; auto.
Qed.
Lemma remove_app : forall l l' n, remove_cpds n (l ++ l') = match remove_cpds n l with (n', None) => remove_cpds n' l' | x => x end.
Proof. intros l l' n. unfold remove_cpds. rewrite map_app. apply run_app. Qed.
(* ---- C87 ---- *)
(* Relationships of different variables are removed together with their tables; nothing else changes, and domains stay known. *)
Theorem C87_removed : forall n l, built n -> NoDup l -> (forall v, In v l -> lookup v (rels n) <> None) ->
  exists n', remove_cpds n l = (n', None) /\ ngraph n' = ngraph n /\ doms n' = doms n /\
    (forall v r, lookup v (rels n') = Some r <-> lookup v (rels n) = Some r /\ ~ In v l) /\ (forall v t, has_table n' v t <-> has_table n v t /\ ~ In v l).
Proof.
  intros n l B N H. destruct (built_sound n B) as [[_ I _ _] _]. destruct (remove_spec l n I N H) as (n' & E & I' & G & D & R & C). exists n'. split; auto. split; auto. split; auto. split.
  - intros v r. rewrite R. destruct (mem_spec v l) as [K|K]; split; [discriminate|intros [_ K']; contradiction|auto|intros [K' _]; auto].
  - intros v t. rewrite (has_table_iff n' v t I'), (has_table_iff n v t I), C. destruct (mem_spec v l) as [K|K]; split; [discriminate|intros [_ K']; contradiction|auto|intros [K' _]; auto].
Qed.
Print Assumptions C87_removed.
(* A variable without relationship, or named twice, gives KeyError; the relationships named before it are gone then. *)
Theorem C87_missing : forall n l v l', built n -> NoDup l -> (forall u, In u l -> lookup u (rels n) <> None) -> lookup v (rels n) = None \/ In v l ->
  exists n', remove_cpds n l = (n', None) /\ remove_cpds n (l ++ v :: l') = (n', Some KeyError).
Proof.
  intros n l v l' B N H Hv. destruct (built_sound n B) as [[_ I _ _] _]. destruct (remove_spec l n I N H) as (n' & E & I' & G & D & R & C). exists n'. split; auto.
  rewrite remove_app, E. unfold remove_cpds. cbn [map run step]. assert (K : lookup v (rels n') = None) by (rewrite R; destruct (mem_spec v l); auto; destruct Hv; [auto|contradiction]).
  unfold del_item. assert (M : mem v (keys (rels n')) = false) by (apply mem_nIn; intro Q; apply lookup_In_keys in Q; destruct Q; congruence). rewrite M. auto.
Qed.
Print Assumptions C87_missing.
(* ---- giving a relationship again ---- *)
Lemma cards_ideal : forall n ps, inv n -> (forall p, In p ps -> cpd_of n p <> None) -> cards_of n ps = ideal (doms n) ps.
Proof.
  intros n ps I H. unfold cards_of, ideal. induction ps as [|p ps IH]; cbn [map_r map]; auto. destruct (cpd_of n p) as [t|] eqn:E; [|exfalso; apply (H p); [left|]; auto].
  assert (Gc : get_cardinality n p = Ok (length (tdom t))). { unfold get_cardinality, get_cpds. destruct (inv_rel n I p t E) as [_ K]. rewrite (proj2 (mem_In _ _) K). cbn [bind]. rewrite E. reflexivity. }
  rewrite Gc. cbn [bind]. rewrite IH by (intros q Hq; apply H; right; auto). cbn [bind]. unfold dom_of. rewrite (inv_dom n I p t E). auto.
Qed.
Lemma olist_eqb_refl : forall l, olist_eqb l l = true.
Proof. induction l as [|x l IH]; cbn; auto. rewrite IH, andb_true_r. unfold oeqb, Qc_eq_bool. destruct (Qc_eq_dec x x); [auto|congruence]. Qed.
(* If the parents of a variable have tables, and its domain is not empty, removing its relationship and giving it again changes nothing. *)
Theorem C87_again : forall n v r, built n -> lookup v (rels n) = Some r -> lookup v (doms n) <> Some [] -> (forall p, edge (ngraph n) p v -> exists t, has_table n p t) ->
  exists n1 n2, remove_cpds n [v] = (n1, None) /\ add_cpds n1 [(v, r)] = (n2, None) /\ ngraph n2 = ngraph n /\
    (forall u, lookup u (doms n2) = lookup u (doms n)) /\ (forall u, lookup u (rels n2) = lookup u (rels n)) /\ (forall u t, has_table n2 u t <-> has_table n u t).
Proof.
  intros n v r B Hr Ne Hp. destruct (built_sound n B) as [[W I S _] _]. destruct (remove_spec [v] n I) as (n1 & E1 & I1 & G1 & D1 & R1 & C1); [repeat constructor; auto|intros u [<-|[]]; congruence|].
  assert (R1v : lookup v (rels n1) = None) by (rewrite R1; cbn; rewrite String.eqb_refl; auto). exists n1.
  assert (M : mem v (keys (rels n1)) = false) by (apply mem_nIn; intro Q; apply lookup_In_keys in Q; destruct Q; congruence).
  unfold add_cpds. cbn [map run step fst snd]. unfold set_rel. rewrite set_item_S. cbv zeta. unfold begin. rewrite M.
  set (n1' := mkNet (ngraph n1) (dset v r (rels n1)) (cpds n1) (doms n1)).
  assert (Pn : forall p, edge (ngraph n) p v -> p <> v). { intros p He ->. apply (proj2 W v). exists v. split; [exact He|constructor]. }
  assert (Tt : to_tabular n1' v r = table_of (ngraph n) (doms n) v r).
  { unfold to_tabular, table_of. assert (Ec : cards_of n1' (parents (ngraph n) v) = ideal (doms n) (parents (ngraph n) v)).
    { rewrite <- D1. change (cards_of n1' (parents (ngraph n) v)) with (cards_of n1 (parents (ngraph n) v)). apply cards_ideal; auto. intros p Hq. apply in_parents in Hq. rewrite C1. cbn. destruct (String.eqb_spec p v) as [K|K]; [exfalso; apply (Pn p Hq K)|]. cbn.
      destruct (Hp p Hq) as [t Ht]. apply has_table_iff in Ht; auto. congruence. }
    change (ngraph n1') with (ngraph n1). change (doms n1') with (doms n1). rewrite G1, D1. unfold table_from. destruct r; auto; apply init_ext; auto. }
  assert (Rl : forall u, lookup u (dset v r (rels n1)) = lookup u (rels n)). { intro u. rewrite lookup_dset. destruct (String.eqb_spec u v) as [->|K]; [auto|]. rewrite R1. cbn. destruct (String.eqb_spec u v); [congruence|auto]. }
  assert (Sv := S v r Hr). unfold settled in Sv. rewrite Tt. destruct (table_of (ngraph n) (doms n) v r) as [t|e] eqn:Et.
  - assert (Tv : tvar t = v) by (apply (find_tab_in v (cpds n) t); exact Sv).
    change (ngraph n1') with (ngraph n1). rewrite G1, (inv_scope n I v t Sv). cbn [negb]. change (doms n1') with (doms n1). rewrite D1. rewrite (inv_dom n I v t Sv).
    assert (Sd : same_domain (Some (tdom t)) (tdom t) = true). { unfold same_domain. rewrite (inv_dom n I v t Sv) in Ne. destruct (tdom t) eqn:Ed; [congruence|]. apply olist_eqb_refl. }
    rewrite Sd. eexists. split; [auto|]. split; [reflexivity|]. unfold place. cbn [ngraph doms rels]. split; auto. split; [|split; [exact Rl|]].
    + intro u. rewrite lookup_dset. change (doms n1') with (doms n1). rewrite D1. destruct (String.eqb_spec u v) as [->|]; auto. symmetry. apply (inv_dom n I v t Sv).
    + intros u s. rewrite (has_table_iff n u s I). assert (Nt : NoDup (map tvar (put_tab t (cpds n1)))) by (apply NoDup_put_tab; apply I1).
      assert (Cu : find_tab u (put_tab t (cpds n1)) = cpd_of n u). { rewrite find_put_tab, Tv. destruct (String.eqb_spec u v) as [->|K]; [symmetry; exact Sv|]. change (cpd_of n1 u = cpd_of n u). rewrite C1. cbn. destruct (String.eqb_spec u v); [congruence|auto]. }
      rewrite <- Cu. unfold has_table. cbn [cpds]. change (cpds n1') with (cpds n1). split; [|apply find_tab_in].
      intros [K1 K2]. destruct (find_tab u (put_tab t (cpds n1))) as [s'|] eqn:Ef; [|exfalso; apply find_tab_none in Ef; apply Ef; rewrite <- K2; apply in_map; auto].
      destruct (find_tab_in _ _ _ Ef) as [K3 K4]. f_equal. clear - Nt K1 K2 K3 K4. induction (put_tab t (cpds n1)) as [|x l IH]; [destruct K1|]. inversion Nt as [|? ? N1 N2]; subst.
      destruct K1 as [->|K1], K3 as [->|K3]; auto; exfalso; apply N1; [rewrite <- K4|rewrite K4]; apply in_map; auto.
  - destruct e; try contradiction. exists n1'. split; [auto|]. split; [reflexivity|]. split; [exact G1|]. split; [intro u; change (doms n1') with (doms n1); rewrite D1; auto|]. split; [exact Rl|].
    intros u s. change (has_table n1' u s) with (has_table n1 u s). rewrite (has_table_iff n1 u s I1), (has_table_iff n u s I), C1. cbn. destruct (String.eqb_spec u v) as [->|]; cbn; [rewrite Sv; split; auto|tauto].
Qed.
Print Assumptions C87_again.
(* ---- without the tables of the parents ---- *)
Lemma have_tables : forall n vs, built n -> forallb (fun v => match cpd_of n v with Some _ => true | None => false end) vs = true -> forall v, In v vs -> exists t, has_table n v t.
Proof.
  intros n vs B X v Hv. rewrite forallb_forall in X. specialize (X v Hv). destruct (cpd_of n v) as [t|] eqn:E; [|discriminate]. exists t. apply has_table_iff; auto. destruct (built_sound n B) as [[_ I _ _] _]. exact I.
Qed.
(* Where a parent never had a relationship, a relationship waits for it; where the parent's was removed, giving the relationship (again) raises. *)
Theorem C87_child_refuted : exists n n1 n2 n3, built n /\ (forall v, In v (nodes (ngraph n)) -> exists t, has_table n v t) /\ remove_cpds n ["A"] = (n1, None) /\ lookup "B" (rels n1) = Some (RFun any_fn) /\
  add_cpds n1 [("B", RFun any_fn)] = (n2, Some AttributeError) /\ (forall t, ~ has_table n2 "B" t) /\ add_cpds (bare (ngraph n)) [("B", RFun any_fn)] = (n3, None).
Proof.
  exists ex_function. destruct (remove_cpds ex_function ["A"]) as [n1 e1] eqn:E1. destruct (add_cpds n1 [("B", RFun any_fn)]) as [n2 e2] eqn:E2. destruct (add_cpds (bare (ngraph ex_function)) [("B", RFun any_fn)]) as [n3 e3] eqn:E3. exists n1, n2, n3.
  split; [exact (proj1 ex_edit_built)|].
  split; [apply (have_tables ex_function); [exact (proj1 ex_edit_built)|vm_compute; reflexivity]|].
  assert (X : snd (remove_cpds ex_function ["A"]) = None) by (vm_compute; reflexivity). rewrite E1 in X. cbn [snd] in X. subst e1. split; [reflexivity|].
  assert (R : rels (fst (remove_cpds ex_function ["A"])) = [("B", RFun any_fn)]) by (vm_compute; reflexivity). rewrite E1 in R. cbn [fst] in R. split; [rewrite R; reflexivity|].
  assert (Y : snd (add_cpds (fst (remove_cpds ex_function ["A"])) [("B", RFun any_fn)]) = Some AttributeError /\ cpds (fst (add_cpds (fst (remove_cpds ex_function ["A"])) [("B", RFun any_fn)])) = []) by (split; vm_compute; reflexivity).
  rewrite E1 in Y. cbn [fst] in Y. rewrite E2 in Y. cbn [fst snd] in Y. destruct Y as [-> Y]. split; [exact E2|]. split; [intros t [K _]; rewrite Y in K; destruct K|].
  assert (Z : snd (add_cpds (bare (ngraph ex_function)) [("B", RFun any_fn)]) = None) by (vm_compute; reflexivity). rewrite E3 in Z. cbn [snd] in Z. subst e3. reflexivity.
Qed.
Print Assumptions C87_child_refuted.
Example C87_example : built ex_function /\ lookup "B" (rels ex_function) = Some (RFun any_fn) /\ lookup "B" (doms ex_function) <> Some [] /\ edge (ngraph ex_function) "A" "B" /\ (forall p, edge (ngraph ex_function) p "B" -> exists t, has_table ex_function p t).
Proof.
  split; [exact (proj1 ex_edit_built)|]. split; [vm_compute; reflexivity|]. split; [vm_compute; discriminate|]. split; [apply has_edge_iff; vm_compute; reflexivity|].
  intros p Hp. apply in_parents in Hp. revert p Hp. apply (have_tables ex_function); [exact (proj1 ex_edit_built)|vm_compute; reflexivity].
Qed.
