(* Properties C43 to C46: decision rules and policies. *)
From Coq Require Import String List Bool Arith QArith Qcanon Lia Permutation.
Import ListNotations.
From Verif Require Import LIncent LCopy.
From Verif Require PPatterns.
From Verif Require Import MBase MGraph MMacid MCpd MNet MProb MQuery MPolicy Spec SpecM SpecC SpecN SpecQ SpecPol LBase LGraph LQc LCpd LNet LSum LBayes LSep LQuery LDo LInter LFactor LEdit LBuilt LTotal LCheckN LCheck PMacid PQuery LRoles LReach LPolicy LValue LQcArith LSearch LLike LOptimal.
Local Open Scope string_scope.
Local Open Scope list_scope.
Local Open Scope Qc_scope.

(* ---- C43 ---- *)
(* every deterministic rule is listed, once *)
Theorem C43_rules : forall n d dom, wf_dag (ngraph n) -> single_tables n -> open_decision n d -> has_domain n d dom ->
  exists l, pure_decision_rules n d = Ok l /\ NoDup l /\
    length l = (length dom ^ contexts_count (doms n) (parents (ngraph n) d))%nat /\
    (forall t, In t l <-> exists h, choice_function n d h /\ plays n d h t) /\
    (forall h t h' t', choice_function n d h -> plays n d h t -> plays n d h' t' ->
       (t = t' <-> forall pv, context_of (doms n) (parents (ngraph n) d) pv -> h pv = h' pv)).
Proof.
  intros n d dom W S O D. destruct (open_tabled n d W S O) as (T & Ne & Np). destruct O as (Hd & (dom' & D' & N) & _). unfold has_domain in D, D'. rewrite D in D'. injection D' as <-.
  assert (R := tabled_ready _ _ T). assert (Nd : forall p, In p (parents (ngraph n) d) -> NoDup (dom_of (doms n) p)) by (intros; apply Ne; auto).
  exists (map (fun fl => det_tab n d dom (tuple_fn (doms n) fl)) (product (repeat dom (contexts_count (doms n) (parents (ngraph n) d))))). split; [|split; [|split; [|split]]].
  - apply rules_eq; auto. intros; apply Ne; auto.
  - apply rules_nodup; auto.
  - rewrite map_length, product_length. induction (contexts_count (doms n) (parents (ngraph n) d)) as [|k IH]; simpl; auto.
  - intro t. rewrite in_map_iff. split.
    + intros (fl & <- & Hf). exists (tuple_fn (doms n) fl). split; [|apply (plays_iff n d dom); auto]. intros pv Hp. unfold dom_of. rewrite D. apply in_product in Hf. assert (Lf := Forall2_len _ _ _ _ _ Hf). rewrite repeat_length in Lf.
      assert (Lt := first_lt _ _ _ Hp). assert (G : In (tuple_fn (doms n) fl pv) fl) by (apply nth_In; lia). destruct (Forall2_in_l _ _ _ _ _ _ Hf G) as (l & Hl & Hx). apply repeat_spec in Hl. subst l. auto.
    + intros (h & Hh & P). destruct (tuple_of n d dom h R Nd) as (fl & F1 & F2). { intros pv Hp. assert (X := Hh pv Hp). unfold dom_of in X. rewrite D in X. auto. }
      exists fl. split; auto. rewrite F2. symmetry. apply (plays_iff n d dom) in P; auto.
  - intros h t h' t' Hh P P'. apply (plays_iff n d dom) in P; auto. apply (plays_iff n d dom) in P'; auto. subst. split.
    + intros E pv Hp. apply (det_tab_inj n d dom h h' R); [|exact E|exact Hp]. intros pv' Hp'. assert (X := Hh pv' Hp'). unfold dom_of in X. rewrite D in X. auto.
    + intro E. unfold det_tab. f_equal. apply map_ext_in. intros pv Hp. apply in_contexts' in Hp; auto. f_equal. auto.
Qed.
Print Assumptions C43_rules.
(* every combination of deterministic rules is listed, once *)
Theorem C43_policies : forall n ds, wf_dag (ngraph n) -> single_tables n -> (forall d, In d ds -> open_decision n d) ->
  exists ps, pure_policies n ds = Ok ps /\ NoDup ps /\
    length ps = fold_right (fun d k => length (dom_of (doms n) d) ^ contexts_count (doms n) (parents (ngraph n) d) * k)%nat 1%nat ds /\
    (forall p, In p ps <-> Forall2 (fun d t => exists h, choice_function n d h /\ plays n d h t) ds p).
Proof.
  intros n ds W S H. assert (X : exists ls, map_r (pure_decision_rules n) ds = Ok ls /\ (forall l, In l ls -> NoDup l) /\
    fold_right (fun (l : list tab) k => length l * k)%nat 1%nat ls = fold_right (fun d k => length (dom_of (doms n) d) ^ contexts_count (doms n) (parents (ngraph n) d) * k)%nat 1%nat ds /\
    (forall p, Forall2 (fun t l => In t l) p ls <-> Forall2 (fun d t => exists h, choice_function n d h /\ plays n d h t) ds p)).
  { induction ds as [|d ds IH].
    - exists []. split; [reflexivity|]. split; [intros l []|]. split; [reflexivity|]. intro p. split; intro F; inversion F; constructor.
    - destruct IH as (ls & M & N & L & I); [intros; apply H; right; auto|]. assert (O := H d (or_introl eq_refl)). destruct (proj1 (proj2 O)) as (dom & D & _).
      destruct (C43_rules n d dom W S O D) as (l & E & Nl & Ll & Il & _). exists (l :: ls). split; [cbn [map_r]; rewrite E; cbn [bind]; rewrite M; reflexivity|]. split; [|split].
      + intros l' [<-|Hl']; auto.
      + cbn [fold_right]. rewrite L, Ll. unfold dom_of at 2. unfold has_domain in D. rewrite D. reflexivity.
      + intro p. split; intro F; inversion F; subst; constructor; try (apply Il; assumption); apply I; assumption. }
  destruct X as (ls & M & N & L & I). exists (product ls). split; [unfold pure_policies; rewrite M; reflexivity|]. split; [apply NoDup_product; auto|].
  split; [rewrite product_length; auto|]. intro p. rewrite in_product. apply I.
Qed.
Print Assumptions C43_policies.
(* a decision that observes a coin: four rules *)
Definition ex_bet_graph : graph := mkG ["X"; "D"; "U"] [("X", "U"); ("X", "D"); ("D", "U")].
Definition ex_bet : macid := diagram_of ex_bet_graph [("0", ["D"])] [("0", ["U"])].
Definition ex_bet_net : net := made ex_bet_graph [("X", RDist coin); ("D", RDom [0; 1]); ("U", same_u)].
Lemma ex_bet_built : built ex_bet_net /\ distribution ex_bet_net.
Proof.
  split; [apply made_built|apply dist_check_ok]; [vm_compute; reflexivity| |vm_compute; reflexivity|vm_compute; reflexivity].
  rels_ok; [split; [exact I|exact coin_dict]|split; exact I|apply tab_admissible].
Qed.
Example C43_example : wf_dag (ngraph ex_bet_net) /\ single_tables ex_bet_net /\ open_decision ex_bet_net "D" /\
  parents (ngraph ex_bet_net) "D" = ["X"] /\ (exists l, pure_decision_rules ex_bet_net "D" = Ok l /\ length l = 4%nat).
Proof.
  assert (Hd := proj2 ex_bet_built). split; [apply Hd|]. split; [apply Hd|]. split; [apply open_of; [exact Hd|vm_compute; auto]|]. split; [vm_compute; reflexivity|].
  assert (X : match pure_decision_rules ex_bet_net "D" with Ok l => Nat.eqb (length l) 4 | _ => false end = true) by (vm_compute; reflexivity).
  destruct (pure_decision_rules ex_bet_net "D") as [l|]; [|discriminate]. apply Nat.eqb_eq in X. eauto.
Qed.

(* ---- C44 ---- *)
Lemma absolute_qabs : forall x, absolute x = qabs x.
Proof. intro x. unfold absolute. destruct (qabs_cases x) as [[H ->]|[H ->]]; destruct (Qclt_le_dec x 0) as [K|K]; auto; exfalso; qclra. Qed.
Lemma close_iff : forall tol a b, isclose tol a b = true <-> close tol a b.
Proof. intros. rewrite isclose_iff. unfold close. rewrite !absolute_qabs. tauto. Qed.
Lemma owners_one : forall da ds ags a, map_r (fun d => dict_get d da) ds = Ok ags -> nodup String.string_dec ags = [a] -> forall d, In d ds -> lookup d da = Some a.
Proof.
  intros da ds ags a M N d Hd. apply map_r_ok in M. assert (X : exists b, In b ags /\ dict_get d da = Ok b).
  { clear N. induction M as [|x b ds ags E M IH]; [destruct Hd|]. destruct Hd as [<-|Hd]; [exists b; split; [left|]; auto|]. destruct (IH Hd) as (b' & K & E'). exists b'. split; [right|]; auto. }
  destruct X as (b & Hb & E). apply (nodup_In String.string_dec) in Hb. rewrite N in Hb. destruct Hb as [<-|[]]. unfold dict_get in E. destruct (lookup d da) as [c|]; congruence.
Qed.
Lemma dedup_order : forall o ds, valid_order o -> NoDup (o [] (nodup String.string_dec ds)) /\ forall d, In d (o [] (nodup String.string_dec ds)) <-> In d ds.
Proof.
  intros o ds O. assert (P := O [] (nodup String.string_dec ds)). split.
  - apply (Permutation_NoDup (Permutation_sym P)). apply NoDup_nodup.
  - intro d. rewrite <- (nodup_In String.string_dec ds). split; intro H; [apply (Permutation_in _ P)|apply (Permutation_in _ (Permutation_sym P))]; auto.
Qed.
(* what is returned: distinct deterministic policies; all are close to one of them, which is not beaten by more than
   the tolerance; and every optimal deterministic policy is returned (for a tolerance up to 1) *)
Theorem C44_optimal_partial : forall o m n ds tol ps, valid_order o -> valid m -> mgraph m = ngraph n -> built n -> distribution n -> unset_uniform n -> ds <> [] ->
  optimal_pure_policies o m n ds tol = Ok ps ->
  exists a ds' us, (NoDup ds' /\ forall d, In d ds' <-> In d ds) /\ (forall d, In d ds -> has_role m d (RDecision a)) /\ (NoDup us /\ forall u, In u us <-> has_role m u (RUtility a)) /\ 0 <= tol /\ NoDup ps /\
    (forall p, In p ps -> exists H, choice n ds' H /\ acts n ds' p (pure H)) /\
    (forall p p' b, In p ps -> In p' ps -> acts n ds' p b -> acts n ds' p' b -> p = p') /\
    let V := fun H => value n ds' (pure H) us in
    exists p0 H0, In p0 ps /\ choice n ds' H0 /\ acts n ds' p0 (pure H0) /\
      (forall p H, In p ps -> acts n ds' p (pure H) -> close tol (V H) (V H0)) /\
      (forall H, choice n ds' H -> V H <= V H0 \/ close tol (V H) (V H0)) /\
      (tol <= 1 -> forall H, choice n ds' H -> (forall H', choice n ds' H' -> V H' <= V H) -> exists p, In p ps /\ acts n ds' p (pure H)).
Proof.
  intros o m n ds0 tol r O V Eg B Hd U Ne E. unfold optimal_pure_policies in E. destruct ds0 as [|d0 dl] eqn:Eds; [congruence|]. rewrite <- Eds in *. clear Ne.
  destruct (dedup_order o ds0 O) as [Nd Id]. set (ds := o [] (nodup String.string_dec ds0)) in *.
  destruct (map_r (fun d => dict_get d (decision_agent m)) ds) as [ags|] eqn:Ea; [|discriminate]. cbn [bind] in E. destruct (nodup String.string_dec ags) as [|a [|]] eqn:En; try discriminate.
  assert (Ow := owners_one _ _ _ _ Ea En). assert (Cm : consistent m) by apply V. assert (Gm : good_roles m) by (apply good_consistent; auto).
  assert (Rd : forall d, In d ds -> has_role m d (RDecision a)) by (intros d K; apply (good_listed_decision m a d Gm); auto).
  assert (Ids : incl ds (nodes (ngraph n))). { intros d K. rewrite <- Eg. apply (proj2 (proj2 V) a d). left. apply Rd; auto. }
  unfold macid_copy in E. rewrite (with_graph_eq m (ngraph n) Eg) in E. destruct (copy_without_cpds m) as [m1|] eqn:Em; [|discriminate]. cbn [bind] in E. destruct (copy_net n) as [n1|] eqn:Ec; [|discriminate]. cbn [bind] in E.
  assert (L1 := like_copy n n1 B Hd Ec). assert (U1 := copy_unset n n1 B Hd Ec U). destruct (loop_net (impute_irrelevant m1 ds) n1 (decisions m1)) as [n2 [e|]] eqn:El; [discriminate|].
  destruct (irrelevant_loop _ _ _ _ _ (l_built _ _ L1) (l_dist _ _ L1) U1 El) as (L2 & _). assert (L := like_trans _ _ _ L1 L2). clear L1 L2 U1.
  assert (Hd2 := l_dist _ _ L). assert (B2 := l_built _ _ L). assert (Ids2 : incl ds (nodes (ngraph n2))) by (rewrite (l_nodes _ _ L); auto).
  destruct (C43_policies n2 ds (proj1 Hd2) (proj1 (proj2 Hd2)) (fun d K => open_of n2 d Hd2 (Ids2 d K))) as (ps & Ep & Np & _ & Ip). rewrite Ep in E. cbn [bind] in E.
  assert (R2 : forall p, In p ps -> Forall2 (rule n2) ds p) by (intros p Hp; apply Ip in Hp; exact Hp).
  assert (Nps : ps <> []). { destruct (choice_rules n2 ds (fun d _ => match dom_of (doms n2) d with x :: _ => x | [] => 0 end) Hd2 Ids2) as (p & Fp & _). { intros d K. split; auto. intros a' _. destruct (dist_lookup n2 d Hd2 (Ids2 d K)) as [_ X]. destruct (dom_of (doms n2) d); [congruence|left; auto]. } apply (proj2 (Ip p)) in Fp. intros ->. destruct Fp. }
  assert (X : exists us1, lookup a (agent_utilities m1) = Some us1).
  { destruct ps as [|p ps']; [congruence|]. cbn [search] in E. destruct (add_policy n2 p) as [n3 [e|]]; [discriminate|]. unfold expected_utility, dict_get in E. destruct (lookup a (agent_utilities m1)) as [us1|]; [eauto|discriminate]. }
  destruct X as [us1 Lu1]. destruct (C14_copy m V (copy_complete m m1 V Em)) as (c' & E' & Cc & _). rewrite Em in E'. injection E' as <-.
  assert (N1 := utilities_nodup m1 a us1 Cc Lu1). assert (X : exists us, (NoDup us /\ forall u, In u us <-> has_role m u (RUtility a)) /\ Permutation us us1).
  { destruct (lookup a (agent_utilities m)) as [us|] eqn:Lu.
    - exists us. split; [split; [apply (utilities_nodup m a us Cm Lu)|intro u; apply (listed_utility m a us u Cm Lu)]|apply (copy_utilities m m1 a us us1 V Em Lu Lu1)].
    - rewrite (copy_no_utilities m m1 a us1 V Em Lu Lu1). exists []. split; auto. split; [constructor|]. intro u. split; [intros []|]. unfold has_role. rewrite listed_lookup by apply Cm. intros (l & Hl & _). congruence. }
  destruct X as (us & Us & Pu). destruct (search_scan o m1 a us1 tol n2 ds ps n2 None [] r O Hd2 (variant_self n2 ds B2 Hd2) Nd Ids2 R2 N1 Lu1 E) as [Er Tol]. specialize (Tol Nps).
  destruct (scan_all (fun p => value n2 ds (played n2 p) us1) tol ps Tol Np) as (Nr & Ir & Bst). rewrite <- Er in Nr, Ir, Bst. destruct (Bst Nps) as (p0 & H0 & Cl & Mx & Op). clear Bst.
  assert (W : wf_dag (ngraph n)) by apply Hd.
  assert (Vp : forall p H, In p ps -> acts n ds p (pure H) -> value n2 ds (played n2 p) us1 = value n ds (pure H) us).
  { intros p H Hp A. apply (like_acts n n2 ds p _ L W Ids (R2 p Hp)) in A. rewrite (acts_value n2 ds p (pure H) us1 Nd A), (like_value n n2 ds _ _ L). symmetry. apply value_us; auto. }
  assert (Ch : forall p, In p ps -> exists H, choice n ds H /\ acts n ds p (pure H)).
  { intros p Hp. destruct (rules_choice n2 ds p Hd2 Nd Ids2 (R2 p Hp)) as (H & C & A). exists H. split; [apply (like_choice n n2 ds H L W Ids); auto|apply (like_acts n n2 ds p _ L W Ids (R2 p Hp)); auto]. }
  assert (Pl : forall H, choice n ds H -> exists p, In p ps /\ acts n ds p (pure H)).
  { intros H C. apply (like_choice n n2 ds H L W Ids) in C. destruct (choice_rules n2 ds H Hd2 Ids2 C) as (p & F & A). exists p. split; [apply Ip; exact F|]. apply (like_acts n n2 ds p _ L W Ids F). auto. }
  exists a, ds, us. split; [split; auto|]. split; [intros d K; apply Rd, Id; auto|]. split; [exact Us|]. split; [exact Tol|]. split; [exact Nr|]. split; [auto|]. split.
  - intros p p' b Hp Hp' A A'. assert (F := R2 p (Ir p Hp)). assert (F' := R2 p' (Ir p' Hp')). apply (like_acts n n2 ds p _ L W Ids F) in A. apply (like_acts n n2 ds p' _ L W Ids F') in A'. apply (rules_unique n2 ds p p' Hd2 Ids2 Nd F F' b A A').
  - intro Vf. destruct (Ch p0 (Ir p0 H0)) as (h0 & C0 & A0). exists p0, h0. split; [auto|]. split; [auto|]. split; [auto|]. unfold Vf. rewrite <- (Vp p0 h0 (Ir p0 H0) A0). split; [|split].
    + intros p H Hp A. rewrite <- (Vp p H (Ir p Hp) A). apply close_iff. apply Cl; auto.
    + intros H C. destruct (Pl H C) as (p & Hp & A). rewrite <- (Vp p H Hp A). destruct (Mx p Hp) as [K|K]; [left; auto|right; apply close_iff; auto].
    + intros T1 H C Hm. destruct (Pl H C) as (p & Hp & A). exists p. split; auto. apply (Op T1 p Hp). intros p' Hp'. destruct (Ch p' Hp') as (H' & C' & A'). rewrite (Vp p H Hp A), (Vp p' H' Hp' A'). auto.
Qed.
Print Assumptions C44_optimal_partial.
(* without tolerance: exactly the policies of greatest expected utility *)
Theorem C44_exact : forall o m n ds ps, valid_order o -> valid m -> mgraph m = ngraph n -> built n -> distribution n -> unset_uniform n -> ds <> [] ->
  optimal_pure_policies o m n ds 0 = Ok ps ->
  exists a ds' us, (NoDup ds' /\ forall d, In d ds' <-> In d ds) /\ (forall d, In d ds -> has_role m d (RDecision a)) /\ (NoDup us /\ forall u, In u us <-> has_role m u (RUtility a)) /\ NoDup ps /\ ps <> [] /\
    (forall p, In p ps -> exists H, choice n ds' H /\ acts n ds' p (pure H)) /\
    (forall H, choice n ds' H ->
      ((exists p, In p ps /\ acts n ds' p (pure H)) <-> forall H', choice n ds' H' -> value n ds' (pure H') us <= value n ds' (pure H) us)).
Proof.
  intros o m n ds ps O V Eg B Hd U Ne E. destruct (C44_optimal_partial o m n ds 0 ps O V Eg B Hd U Ne E) as (a & ds' & us & Hds & Rd & Us & _ & Nr & Ch & Un & p0 & H0 & P0 & C0 & A0 & Cl & Mx & Op).
  assert (Z : forall x y, close 0 x y -> x = y) by (intros x y K; apply close_iff in K; apply close_zero; auto).
  exists a, ds', us. split; auto. split; auto. split; auto. split; auto. split; [intros ->; destruct P0|]. split; auto. intros H C. split.
  - intros (p & Hp & A) H' C'. rewrite (Z _ _ (Cl p H Hp A)). destruct (Mx H' C') as [K|K]; auto. rewrite (Z _ _ K). apply Qcle_refl.
  - intro K. apply Op; auto. discriminate.
Qed.
Print Assumptions C44_exact.
Lemma irrelevant_total : forall m ds l n, built n -> distribution n -> unset_uniform n -> (forall d, In d l -> In d (nodes (ngraph n)) /\ exists b, is_s_reachable (with_graph m (ngraph n)) ds d = Ok b) ->
  exists n', loop_net (impute_irrelevant m ds) n l = (n', None).
Proof.
  intros m ds l. induction l as [|d l IH]; intros n B Hd U H; [exists n; reflexivity|]. cbn [loop_net]. destruct (H d (or_introl eq_refl)) as [Hn [b Es]].
  assert (X : exists n1, impute_irrelevant m ds n d = (n1, None)).
  { unfold impute_irrelevant, get_cpds. rewrite (proj2 (mem_In _ _) Hn). destruct (match cpd_of n d with Some t => match tkind t with KDec => true | _ => false end | None => false end); [|eauto]. rewrite Es.
    destruct (negb b && negb (mem d ds)); [|eauto]. destruct (random_set n d B Hd Hn) as (n1 & E1 & _). eauto. }
  destruct X as [n1 E1]. rewrite E1. destruct (irrelevant_like m ds n d n1 B Hd U E1) as (L1 & U1 & G1 & _). apply IH; [apply L1|apply L1|exact U1|]. intros x Hx. rewrite G1. apply H. right; auto.
Qed.
(* it returns for the decisions of one agent, if every other decision has a rule or is irrelevant, and the graph is connected *)
Theorem C44_returns_partial : forall o m n ds tol a, valid_order o -> valid m -> SpecI.proper MIncent.IsMACID m -> mgraph m = ngraph n -> no_clash (ngraph n) -> built n -> distribution n -> unset_uniform n ->
  (forall d, In d ds -> has_role m d (RDecision a)) -> 0 <= tol -> (forall u v, In u (nodes (ngraph n)) -> In v (nodes (ngraph n)) -> joined (ngraph n) [] u v) ->
  (forall d b, has_role m d (RDecision b) -> In d ds \/ (exists t, has_table n d t /\ tkind t <> KDec) \/ forall d1, In d1 ds -> ~ r_relevant m d1 d) ->
  exists ps, optimal_pure_policies o m n ds tol = Ok ps /\ (ds <> [] -> ps <> []).
Proof.
  intros o m n ds0 tol a O V Pr Eg NC B Hd U Ow T J Ds. assert (Xr : exists ps, optimal_pure_policies o m n ds0 tol = Ok ps).
  2:{ destruct Xr as [ps E]. exists ps. split; auto. intro Ne. destruct (C44_optimal_partial o m n ds0 tol ps O V Eg B Hd U Ne E) as (? & ? & ? & _ & _ & _ & _ & _ & _ & _ & p0 & ? & K & _). intros ->. destruct K. }
  unfold optimal_pure_policies. destruct ds0 as [|d0 dl] eqn:Eds; [eauto|]. rewrite <- Eds in *. destruct (dedup_order o ds0 O) as [Nd Id]. set (ds := o [] (nodup String.string_dec ds0)) in *.
  assert (Cm : consistent m) by apply V. assert (Gm : good_roles m) by (apply good_consistent; auto). assert (W : wf_dag (ngraph n)) by apply Hd.
  assert (Lo : forall d, In d ds -> lookup d (decision_agent m) = Some a) by (intros d K; apply (good_listed_decision m a d Gm), Ow, Id; auto).
  assert (Nds : ds <> []). { intro K. assert (X : In d0 ds) by (apply Id; rewrite Eds; left; auto). rewrite K in X. destruct X. }
  assert (Ids : incl ds (nodes (ngraph n))). { intros d K. rewrite <- Eg. apply (proj2 (proj2 V) a d). left. apply Ow, Id; auto. }
  assert (Xm : map_r (fun d => dict_get d (decision_agent m)) ds = Ok (map (fun _ => a) ds)).
  { apply map_r_all. clear - Lo. induction ds as [|d ds IH]; simpl; constructor; [unfold dict_get; rewrite Lo by (left; auto); auto|apply IH; intros; apply Lo; right; auto]. }
  rewrite Xm. cbn [bind]. replace (nodup String.string_dec (map (fun _ => a) ds)) with [a].
  2:{ symmetry. destruct ds as [|x ds]; [congruence|]. clear. cbn [map]. assert (H : forall l : list node, nodup String.string_dec (a :: map (fun _ => a) l) = [a]). { induction l as [|y l IH]; auto. cbn [map]. simpl in *. destruct (String.string_dec a a); [auto|congruence]. } apply H. }
  unfold macid_copy. rewrite (with_graph_eq m (ngraph n) Eg). destruct (LIncent.copy_spec MIncent.IsMACID m V Pr) as (m1 & Em & V1 & Pr1 & Gg & Sr). change (copy_without_cpds m = Ok m1) in Em. rewrite Em. cbn [bind].
  destruct (built_sound n B) as [So _]. destruct (copy_total n (built_portable n B Hd)) as [n1 Ec]. { intros v r Lr. destruct (dist_table n v Hd) as (t & Ct & _); [|congruence]. apply (settled_node n v r (s_inv n So) (s_settled n So v r Lr)). }
  rewrite Ec. cbn [bind]. assert (L1 := like_copy n n1 B Hd Ec). assert (U1 := copy_unset n n1 B Hd Ec U). destruct (copy_sound n n1 So Ec) as (_ & Gn1 & _).
  assert (Eg1 : mgraph m1 = ngraph n1) by (rewrite Gg, Gn1, Eg; auto). destruct (LIncent.proper_complete _ _ V1 Pr1) as [CU1 CD1].
  assert (NC1 : no_clash (mgraph m1)) by (rewrite Gg, Eg; exact NC).
  assert (Dec1 : forall d, In d (decisions m1) <-> exists b, has_role m d (RDecision b)).
  { intro d. assert (G1 : good_roles m1) by (apply good_consistent; apply V1). unfold decisions. rewrite in_keys_lookup. split; intros [b Hb]; exists b; [apply (Sr d (RDecision b)); apply (good_listed_decision m1 b d G1); auto|apply (good_listed_decision m1 b d G1); apply (Sr d (RDecision b)); auto]. }
  assert (Rel : forall d, In d (decisions m1) -> exists b, is_s_reachable m1 ds d = Ok b /\ (b = true <-> exists d1, In d1 ds /\ r_relevant m1 d1 d)).
  { intros d K. apply (C17_s_reachable m1 ds d V1 NC1 CU1).
    - intros x Kx. exists a. apply (Sr x (RDecision a)). apply Ow, Id; auto.
    - apply Dec1 in K. destruct K as [b Hb]. exists b. apply (Sr d (RDecision b)); auto. }
  assert (Nod : forall d, In d (decisions m1) -> In d (nodes (ngraph n))). { intros d K. apply Dec1 in K. destruct K as [b Hb]. rewrite <- Eg. apply (proj2 (proj2 V) b d). left. auto. }
  destruct (irrelevant_total m1 ds (decisions m1) n1 (l_built _ _ L1) (l_dist _ _ L1) U1) as [n2 El].
  { intros d K. split; [rewrite (l_nodes _ _ L1); auto|]. rewrite (with_graph_eq m1 (ngraph n1) Eg1). destruct (Rel d K) as (b & Eb & _). eauto. }
  rewrite El. destruct (irrelevant_loop _ _ _ _ _ (l_built _ _ L1) (l_dist _ _ L1) U1 El) as (L2 & G2 & Cp2 & D2). assert (L := like_trans _ _ _ L1 L2).
  assert (Hd2 := l_dist _ _ L). assert (B2 := l_built _ _ L). assert (Nn := l_nodes _ _ L). assert (Ids2 : incl ds (nodes (ngraph n2))) by (rewrite Nn; auto).
  destruct (C43_policies n2 ds (proj1 Hd2) (proj1 (proj2 Hd2)) (fun d K => open_of n2 d Hd2 (Ids2 d K))) as (ps & Ep & Np & _ & Ip). rewrite Ep. cbn [bind].
  destruct (Pr1) as [P1 P2]. assert (Hu : exists u, has_role m1 u (RUtility a)). { apply (P2 a d0). apply (Sr d0 (RDecision a)). apply Ow. rewrite Eds. left; auto. }
  destruct Hu as [u Hu]. assert (Hu' := Hu). unfold has_role in Hu'. rewrite listed_lookup in Hu' by apply V1. destruct Hu' as (us & Lu & Iu).
  apply (search_total o m1 a us tol n2 ds ps n2); auto.
  - intros x Hx. rewrite Nn in *. apply NC; auto.
  - intros x y Hx Hy. rewrite Nn in Hx, Hy. apply (joined_edges (ngraph n)); auto. intros; apply (l_edges _ _ L); auto.
  - intros d K. rewrite Nn. split; auto. destruct (D2 d K) as [_ [Kp|[Kp|Kp]]]; auto. rewrite (with_graph_eq m1 (ngraph n1) Eg1) in Kp. destruct (Rel d K) as (b & Eb & Rb). rewrite Kp in Eb. injection Eb as <-. destruct (proj1 Rb eq_refl) as (d1 & K1 & K2).
    assert (K' := K). apply Dec1 in K'. destruct K' as [b' Hb']. destruct (Ds d b' Hb') as [I|[(t & Ht & Kt)|I]]; [left; apply Id; auto| |exfalso; apply (I d1 (proj1 (Id d1) K1))].
    + right. assert (X : exists t1, cpd_of n1 d = Some t1 /\ tkind t1 <> KDec).
      { apply has_table_iff in Ht; [|apply So]. destruct (cpd_rel n d t So Ht) as [r Lr]. destruct (copy_sound n n1 So Ec) as (S1 & _ & R1). destruct (dist_table n1 d (l_dist _ _ L1)) as (t1 & T1 & _); [rewrite (l_nodes _ _ L1); auto|]. exists t1. split; auto.
        rewrite (table_kind n1 d t1 r S1 T1); [rewrite <- (table_kind n d t r So Ht Lr); auto|]. rewrite (R1 d); auto. }
      destruct X as (t1 & T1 & K3). unfold has_policy. destruct (Cp2 d) as [->|(t2 & -> & ->)]; auto. rewrite T1. destruct (tkind t1); auto.
    + eapply relevant_more; [apply V1|apply V| | | | |exact K2]; try (rewrite Gg); auto.
      * cbn [copied nodes]. rewrite Eg. apply Nod; auto.
      * intros x y. apply edge_copied. apply V.
      * intros x r. symmetry. apply Sr.
  - apply variant_self; auto.
  - intros p Hp. apply Ip in Hp. exact Hp.
  - intros ->. destruct Iu.
  - intros x Hx. rewrite Nn, <- Eg. apply (proj2 (proj2 V) a x). right. apply (Sr x (RUtility a)). apply (listed_utility m1 a us x); auto. apply V1.
  - apply (utilities_nodup m1 a us); auto. apply V1.
Qed.
Print Assumptions C44_returns_partial.
(* no decisions: no policies; an unknown decision: KeyError; decisions of different agents: ValueError *)
Theorem C44_owners : forall o m n ds tol, valid_order o -> consistent m ->
  (ds = [] -> optimal_pure_policies o m n ds tol = Ok []) /\
  ((exists d, In d ds /\ forall a, ~ has_role m d (RDecision a)) -> optimal_pure_policies o m n ds tol = Err KeyError) /\
  ((forall d, In d ds -> exists a, has_role m d (RDecision a)) -> (exists d d' a a', In d ds /\ In d' ds /\ has_role m d (RDecision a) /\ has_role m d' (RDecision a') /\ a <> a') ->
   optimal_pure_policies o m n ds tol = Err ValueError).
Proof.
  intros o m n ds0 tol O Cm. assert (Gm : good_roles m) by (apply good_consistent; auto). destruct (dedup_order o ds0 O) as [Nd Id]. split; [intros ->; reflexivity|]. unfold optimal_pure_policies. split.
  - intros (d & Hd & Hn). destruct ds0 as [|x l] eqn:E0; [destruct Hd|]. rewrite <- E0 in *. set (ds := o [] (nodup String.string_dec ds0)) in *. apply Id in Hd.
    assert (X : map_r (fun d => dict_get d (decision_agent m)) ds = Err KeyError); [|rewrite X; reflexivity].
    clear - Hd Hn Gm. induction ds as [|y ds IH]; [destruct Hd|]. cbn [map_r]. unfold dict_get at 1. destruct (lookup y (decision_agent m)) as [b|] eqn:Ey; [|reflexivity]. cbn [bind]. destruct Hd as [->|Hd].
    + exfalso. apply (Hn b). apply (good_listed_decision m b d Gm); auto.
    + rewrite IH; auto.
  - intros Al (d & d' & a & a' & H1 & H2 & R1 & R2 & Ne). destruct ds0 as [|x l] eqn:E0; [destruct H1|]. rewrite <- E0 in *. set (ds := o [] (nodup String.string_dec ds0)) in *. apply Id in H1. apply Id in H2.
    assert (X : exists ags, map_r (fun d => dict_get d (decision_agent m)) ds = Ok ags).
    { assert (Al' : forall y, In y ds -> exists b, lookup y (decision_agent m) = Some b) by (intros y Hy; apply Id in Hy; destruct (Al y Hy) as [b Hb]; exists b; apply (good_listed_decision m b y Gm); auto).
      clear - Al'. induction ds as [|y ds IH]; [exists []; reflexivity|]. destruct IH as [ags E]; [intros; apply Al'; right; auto|]. destruct (Al' y (or_introl eq_refl)) as [b Eb]. exists (b :: ags). cbn [map_r]. unfold dict_get at 1. rewrite Eb. cbn [bind]. rewrite E. reflexivity. }
    destruct X as [ags E]. rewrite E. cbn [bind]. destruct (nodup String.string_dec ags) as [|b [|]] eqn:En; auto. exfalso. assert (Ow := owners_one _ _ _ _ E En).
    apply (good_listed_decision m a d Gm) in R1. apply (good_listed_decision m a' d' Gm) in R2. assert (X1 := Ow d H1). assert (X2 := Ow d' H2). assert (Y1 := eq_trans (eq_sym R1) X1). assert (Y2 := eq_trans (eq_sym R2) X2). injection Y1 as ->. injection Y2 as ->. apply Ne; reflexivity.
Qed.
Print Assumptions C44_owners.
Lemma unset_check : forall n, built n -> distribution n -> forallb (fun vr => match snd vr with RTab t => match tkind t with KDec => false | _ => true end | _ => true end) (rels n) = true -> unset_uniform n.
Proof. intros n B Hd H. apply unset_rels; auto. intros v t L K. rewrite forallb_forall in H. apply lookup_In in L. specialize (H (v, RTab t) L). cbn in H. rewrite K in H. discriminate. Qed.
Lemma ex_bet_unset : unset_uniform ex_bet_net.
Proof. apply unset_check; [exact (proj1 ex_bet_built)|exact (proj2 ex_bet_built)|vm_compute; reflexivity]. Qed.
Lemma ex_bet_roles : valid ex_bet /\ SpecI.proper MIncent.IsMACID ex_bet.
Proof.
  split; [apply LCheck.check_ok; vm_compute; reflexivity|]. split; intros a; cbn.
  - intros [<-|[]]. exists "D". exists ["D"]. split; left; auto.
  - intros d (l & [K|[]] & Hd). injection K as <- <-. exists "U". exists ["U"]. split; left; auto.
Qed.
Lemma joined_sym : forall g u v, joined g [] u v -> joined g [] v u.
Proof.
  assert (T : forall g u v w, joined g [] u v -> joined g [] v w -> joined g [] u w) by (intros g u v w H; induction H; intros; [auto|eapply joined_step; eauto]).
  intros g u v H. induction H as [|u v w E H IH]; [constructor|]. eapply T; [exact IH|]. eapply joined_step; [|constructor]. tauto.
Qed.
Lemma joined_hub : forall g h, (forall v, In v (nodes g) -> joined g [] v h) -> forall u v, In u (nodes g) -> In v (nodes g) -> joined g [] u v.
Proof.
  assert (T : forall g u v w, joined g [] u v -> joined g [] v w -> joined g [] u w) by (intros g u v w H; induction H; intros; [auto|eapply joined_step; eauto]).
  intros g h H u v Hu Hv. eapply T; [apply H; auto|apply joined_sym; auto].
Qed.
Example C44_example : valid ex_bet /\ SpecI.proper MIncent.IsMACID ex_bet /\ mgraph ex_bet = ngraph ex_bet_net /\ no_clash (ngraph ex_bet_net) /\ built ex_bet_net /\ distribution ex_bet_net /\ unset_uniform ex_bet_net /\
  has_role ex_bet "D" (RDecision "0") /\ (forall u v, In u (nodes (ngraph ex_bet_net)) -> In v (nodes (ngraph ex_bet_net)) -> joined (ngraph ex_bet_net) [] u v) /\
  (forall d b, has_role ex_bet d (RDecision b) -> In d ["D"]) /\
  exists p, optimal_pure_policies (fun _ l => l) ex_bet ex_bet_net ["D"] default_tol = Ok [p].
Proof.
  split; [exact (proj1 ex_bet_roles)|]. split; [exact (proj2 ex_bet_roles)|]. split; [vm_compute; reflexivity|]. split; [apply clash_free_ok; vm_compute; reflexivity|].
  split; [exact (proj1 ex_bet_built)|]. split; [exact (proj2 ex_bet_built)|]. split; [exact ex_bet_unset|]. split; [exists ["D"]; split; left; auto|]. split; [|split].
  - apply (joined_hub _ "U"). intros v Hv. vm_compute in Hv. destruct Hv as [<-|[<-|[<-|[]]]]; [| |constructor]; (apply joined_step with "U"; [left; split; [apply PPatterns.edge_in; vm_compute; reflexivity|intros []]|constructor]).
  - intros d b (l & [K|[]] & Hd). injection K as <- <-. exact Hd.
  - assert (X : match optimal_pure_policies (fun _ l => l) ex_bet ex_bet_net ["D"] default_tol with Ok l => Nat.eqb (length l) 1 | _ => false end = true) by (vm_compute; reflexivity).
    destruct (optimal_pure_policies (fun _ l => l) ex_bet ex_bet_net ["D"] default_tol) as [[|p [|]]|]; try discriminate. eauto.
Qed.

(* the claim with the tolerance taken from the maximum is false in both directions: the candidates are compared with the
   first of a run of close values *)
Definition ex_pay (l : list Qc) : net := made (mkG ["D"; "U"] [("D", "U")])
  [("D", RDom [0; 1; Q2Qc 2]); ("U", tab_of "U" l ["D"] [3%nat] [[1; 0; 0]; [0; 1; 0]; [0; 0; 1]])].
Definition ex_pay_cid : macid := diagram_of (mkG ["D"; "U"] [("D", "U")]) [("0", ["D"])] [("0", ["U"])].
Definition ex_low : net := ex_pay [1; q 10000000008 10000000000; q 9999999992 10000000000].
Definition ex_step : net := ex_pay [1; q 10000000009 10000000000; q 10000000015 10000000000].
Lemma ex_pay_ok : forall n, n = ex_low \/ n = ex_step -> built n /\ distribution n /\ unset_uniform n /\ mgraph ex_pay_cid = ngraph n.
Proof.
  assert (X : forall n, n = ex_low \/ n = ex_step -> built n /\ distribution n).
  { intros n [->| ->]; (split; [apply made_built|apply dist_check_ok]; [vm_compute; reflexivity| |vm_compute; reflexivity|vm_compute; reflexivity]; rels_ok; [split; exact I|apply tab_admissible]). }
  intros n H. destruct (X n H) as [B Hd]. split; auto. split; auto. split.
  - apply unset_check; auto. destruct H as [->| ->]; vm_compute; reflexivity.
  - destruct H as [->| ->]; vm_compute; reflexivity.
Qed.
(* always making the same decision *)
Definition always (x : outcome) : node -> asg -> outcome := fun _ _ => x.
Definition same_rule (n : net) (p : list tab) (x : outcome) : bool :=
  match p with
  | [t] => String.eqb (tvar t) "D" && (match tev t with [] => true | _ => false end) &&
           forallb (fun y => oeqb (entry (doms n) t (fun _ => y)) (if oeqb y x then 1 else 0)) (dom_of (doms n) "D")
  | _ => false
  end.
Lemma same_rule_acts : forall n p x, In "D" (nodes (ngraph n)) -> same_rule n p x = true -> acts n ["D"] p (pure (always x)).
Proof.
  intros n [|t [|]] x Hd H; try discriminate. cbn [same_rule] in H. rewrite !andb_true_iff in H. destruct H as [[H1 H2] H3]. apply String.eqb_eq in H1. destruct (tev t) eqn:Et; [|discriminate]. split; [cbn [map]; rewrite H1; auto|].
  intros t' a [<-|[]] Wa. rewrite forallb_forall in H3. specialize (H3 (a "D") (Wa "D" Hd)). apply oeqb_iff in H3. unfold pure, always. rewrite H1.
  transitivity (entry (doms n) t (fun _ => a "D")); [unfold entry; rewrite Et, H1; reflexivity|]. rewrite H3. destruct (Qc_eq_dec (a "D") x) as [->|K]; [rewrite (proj2 (oeqb_iff x x) eq_refl); auto|]. destruct (oeqb (a "D") x) eqn:E; auto. apply oeqb_iff in E. congruence.
Qed.
Lemma always_choice : forall n x, In x (dom_of (doms n) "D") -> choice n ["D"] (always x).
Proof. intros n x H d [<-|[]]. split; [reflexivity|intros; exact H]. Qed.
Lemma choice_always : forall n H us, parents (ngraph n) "D" = [] -> choice n ["D"] H -> exists x, In x (dom_of (doms n) "D") /\ value n ["D"] (pure H) us = value n ["D"] (pure (always x)) us.
Proof.
  intros n H us P C. destruct (C "D" (or_introl eq_refl)) as [C1 C2]. assert (N : forall p, ~ edge (ngraph n) p "D") by (intros p K; apply in_parents in K; rewrite P in K; destruct K).
  exists (H "D" (fun _ => 0)). split; [apply C2; intros p K; destruct (N p K)|]. apply value_ext. intros d a [<-|[]] _. unfold pure, always. rewrite (C1 a (fun _ => 0)); auto. intros p K; destruct (N p K).
Qed.
Lemma choice_max : forall n us x, parents (ngraph n) "D" = [] -> forallb (fun y => qleb (value n ["D"] (pure (always y)) us) (value n ["D"] (pure (always x)) us)) (dom_of (doms n) "D") = true ->
  forall H, choice n ["D"] H -> value n ["D"] (pure H) us <= value n ["D"] (pure (always x)) us.
Proof.
  intros n us x P F H C. destruct (choice_always n H us P C) as (y & Hy & ->). rewrite forallb_forall in F. specialize (F y Hy). apply qleb_iff in F. exact F.
Qed.
Lemma same_rule_other : forall n p x y us, In "D" (nodes (ngraph n)) -> same_rule n p y = true -> oeqb (value n ["D"] (pure (always x)) us) (value n ["D"] (pure (always y)) us) = false -> ~ acts n ["D"] p (pure (always x)).
Proof.
  intros n p x y us Hd S Ne A. apply same_rule_acts in S; auto. assert (N : NoDup ["D"]) by (repeat constructor; intros []). assert (V := acts_value n _ p _ us N A). rewrite (acts_value n _ p _ us N S) in V. rewrite V in Ne.
  rewrite (proj2 (oeqb_iff _ _) eq_refl) in Ne. discriminate.
Qed.
Definition found (m : macid) (n : net) : list (list tab) := match optimal_pure_policies (fun _ l => l) m n ["D"] default_tol with Ok l => l | Err _ => [] end.
Lemma found_ok : forall m n, (match optimal_pure_policies (fun _ l => l) m n ["D"] default_tol with Ok l => true | Err _ => false end) = true -> optimal_pure_policies (fun _ l => l) m n ["D"] default_tol = Ok (found m n).
Proof. intros m n H. unfold found. destruct (optimal_pure_policies _ _ _ _ _); [auto|discriminate]. Qed.
Local Opaque ex_low ex_step found value.
(* a policy is returned though it is further from the maximum than the tolerance allows; *)
Theorem C44_far_refuted : exists o m n ds us ps p H H', valid_order o /\ valid m /\ mgraph m = ngraph n /\ built n /\ distribution n /\ unset_uniform n /\
  (forall u, In u us <-> has_role m u (RUtility "0")) /\ optimal_pure_policies o m n ds default_tol = Ok ps /\
  In p ps /\ acts n ds p (pure H) /\ choice n ds H' /\ (forall H'', choice n ds H'' -> value n ds (pure H'') us <= value n ds (pure H') us) /\
  ~ close default_tol (value n ds (pure H) us) (value n ds (pure H') us).
Proof.
  destruct (ex_pay_ok ex_low (or_introl eq_refl)) as (B & Hd & U & Eg).
  exists (fun _ l => l), ex_pay_cid, ex_low, ["D"], ["U"], (found ex_pay_cid ex_low), (nth 2 (found ex_pay_cid ex_low) []), (always (Q2Qc 2)), (always 1).
  split; [exact id_order|]. split; [apply LCheck.check_ok; vm_compute; reflexivity|]. do 4 (split; [assumption|]). split.
  { intro u. split; [intros [<-|[]]; exists ["U"]; split; left; auto|]. intros (l & [K|[]] & Hu). injection K as <-. exact Hu. }
  split; [apply found_ok; vm_compute; reflexivity|]. split; [|split; [|split; [|split]]].
  - apply nth_In. apply Nat.ltb_lt. vm_compute. reflexivity.
  - apply same_rule_acts; [vm_compute; auto|vm_compute; reflexivity].
  - apply always_choice. apply (nth_error_In _ 1). vm_compute. reflexivity.
  - apply choice_max; vm_compute; reflexivity.
  - intro K. apply close_iff in K. assert (X : isclose default_tol (value ex_low ["D"] (pure (always (Q2Qc 2))) ["U"]) (value ex_low ["D"] (pure (always 1)) ["U"]) = false) by (vm_compute; reflexivity). congruence.
Qed.
Print Assumptions C44_far_refuted.
(* and one within the tolerance of the maximum is not returned *)
Theorem C44_close_refuted : exists o m n ds us ps H H', valid_order o /\ valid m /\ mgraph m = ngraph n /\ built n /\ distribution n /\ unset_uniform n /\
  (forall u, In u us <-> has_role m u (RUtility "0")) /\ optimal_pure_policies o m n ds default_tol = Ok ps /\
  choice n ds H /\ choice n ds H' /\ (forall H'', choice n ds H'' -> value n ds (pure H'') us <= value n ds (pure H') us) /\
  close default_tol (value n ds (pure H) us) (value n ds (pure H') us) /\ forall p, In p ps -> ~ acts n ds p (pure H).
Proof.
  destruct (ex_pay_ok ex_step (or_intror eq_refl)) as (B & Hd & U & Eg).
  exists (fun _ l => l), ex_pay_cid, ex_step, ["D"], ["U"], (found ex_pay_cid ex_step), (always 1), (always (Q2Qc 2)).
  split; [exact id_order|]. split; [apply LCheck.check_ok; vm_compute; reflexivity|]. do 4 (split; [assumption|]). split.
  { intro u. split; [intros [<-|[]]; exists ["U"]; split; left; auto|]. intros (l & [K|[]] & Hu). injection K as <-. exact Hu. }
  split; [apply found_ok; vm_compute; reflexivity|]. split; [|split; [|split; [|split]]].
  - apply always_choice. apply (nth_error_In _ 1). vm_compute. reflexivity.
  - apply always_choice. apply (nth_error_In _ 2). vm_compute. reflexivity.
  - apply choice_max; vm_compute; reflexivity.
  - refine (proj1 (close_iff _ _ _) _). vm_compute. reflexivity.
  - assert (X : forallb (fun p => same_rule ex_step p (Q2Qc 2)) (found ex_pay_cid ex_step) = true) by (vm_compute; reflexivity). rewrite forallb_forall in X. intros p Hp A. specialize (X p Hp).
    refine (same_rule_other ex_step p 1 (Q2Qc 2) ["U"] _ X _ A); [vm_compute; auto|vm_compute; reflexivity].
Qed.
Print Assumptions C44_close_refuted.
(* one owner, but ValueError: the utility is not connected to the decision, which the first query removes *)
Definition ex_idle : net := made (mkG ["D"; "U"] []) [("D", RDom [0; 1]); ("U", RDist coin)].
Definition ex_idle_cid : macid := diagram_of (mkG ["D"; "U"] []) [("0", ["D"])] [("0", ["U"])].
Theorem C44_owner_refuted : exists o m n, valid_order o /\ valid m /\ SpecI.proper MIncent.IsMACID m /\ mgraph m = ngraph n /\ built n /\ distribution n /\ unset_uniform n /\
  has_role m "D" (RDecision "0") /\ optimal_pure_policies o m n ["D"] default_tol = Err ValueError.
Proof.
  assert (X : built ex_idle /\ distribution ex_idle).
  { split; [apply made_built|apply dist_check_ok]; [vm_compute; reflexivity| |vm_compute; reflexivity|vm_compute; reflexivity]. rels_ok; [split; exact I|split; [exact I|exact coin_dict]]. }
  destruct X as [B Hd]. exists (fun _ l => l), ex_idle_cid, ex_idle. split; [exact id_order|]. split; [apply LCheck.check_ok; vm_compute; reflexivity|]. split.
  { split; intros a; cbn.
    - intros [<-|[]]. exists "D". exists ["D"]. split; left; auto.
    - intros d (l & [K|[]] & Hd'). injection K as <- <-. exists "U". exists ["U"]. split; left; auto. }
  split; [vm_compute; reflexivity|]. split; [exact B|]. split; [exact Hd|]. split; [apply unset_check; [exact B|exact Hd|vm_compute; reflexivity]|]. split; [exists ["D"]; split; left; auto|vm_compute; reflexivity].
Qed.
Print Assumptions C44_owner_refuted.
