(* C50: when the export returns, and the leaves of the tree. *)
From Coq Require Import String List Bool Arith QArith Qcanon Lia Permutation.
Import ListNotations.
From Verif Require Import MBase MGraph MMacid MCpd MNet MProb MQuery MPolicy MGame MSub Spec SpecM SpecC SpecN SpecQ SpecPol SpecGame SpecExport LBase LGraph LRoles LQc LCpd LNet LCheck LCheckN LSum LBayes LQuery LFactor LBuilt LTotal PMacid PQuery PSolve LGame LGrow LTree LLevels LShape PGame PPlay LExport.
Local Open Scope nat_scope.

(* ---- the leaves ---- *)
Lemma history_inj : forall n vs p q, (forall v, In v vs -> NoDup (dom_of (doms n) v)) -> position n vs p -> position n vs q -> length p = length vs -> length q = length vs -> history n vs p = history n vs q -> p = q.
Proof.
  intros n vs. induction vs as [|v vs IH]; intros [|i p] [|j q] N P Q Lp Lq E; cbn in *; try discriminate; auto. destruct P as [P1 P2], Q as [Q1 Q2]. injection E as E1 E2. f_equal; [|apply IH; auto].
  eapply (proj1 (NoDup_nth (dom_of (doms n) v) (Q2Qc 0))); eauto.
Qed.
Lemma same_keys_perm : forall (c c' : list (node * outcome)), NoDup (keys c) -> keys c = keys c' -> Permutation c c' -> c = c'.
Proof.
  intros c. induction c as [|[v x] c IH]; intros [|[w y] c'] N E P; cbn in *; try discriminate; auto. injection E as -> E. apply NoDup_cons_iff in N. destruct N as [N1 N2].
  assert (K : In (w, x) ((w, y) :: c')) by (eapply Permutation_in; [exact P|left; auto]). destruct K as [K|K]; [|exfalso; apply N1; rewrite E; apply (in_map fst c' (w, x)); auto]. injection K as ->. f_equal. apply IH; auto. eapply Permutation_cons_inv; eauto.
Qed.
(* the outcome a leaf stands for *)
Definition leaf (n : net) (vs : list node) (e : list nat * list Qc) : list (node * outcome) := history n vs (tl (fst e)).
(* Whenever the export returns, its leaves are in bijection with the joint outcomes of the decisions and the variables they observe. *)
Theorem C50_leaves : forall o m n so ao n' g keys, valid_order o -> distribution n -> macid_to_efg o m n so ao = (n', Ok (g, keys)) ->
  let sg := or_default so (decisions m) in
  exists vs, tree_variables n sg vs /\ (forall e, In e (g_payoffs g) -> joint_outcome n sg (leaf n vs e)) /\
    (forall c, joint_outcome n sg c -> exists e, In e (g_payoffs g) /\ Permutation c (leaf n vs e)) /\
    (forall e e', In e (g_payoffs g) -> In e' (g_payoffs g) -> Permutation (leaf n vs e) (leaf n vs e') -> e = e') /\ NoDup (g_payoffs g).
Proof.
  intros o m n so ao n' g ks O Hd H sg. assert (W : wf_dag (ngraph n)) by apply Hd. destruct (efg_shape _ _ _ _ _ _ _ _ O W H) as [_ (vs & Sh)]. fold sg in Sh. exists vs. assert (Tv := sh_vars _ _ _ _ _ _ _ _ Sh). assert (Iv := sh_nodes _ _ _ _ _ _ _ _ Sh).
  assert (Ti : forall v, In v vs <-> in_tree n sg v) by apply Tv.
  assert (Le : forall e, In e (g_payoffs g) -> exists p, fst e = 0 :: p /\ length p = length vs /\ position n vs p). { intros e K. apply (sh_leaves _ _ _ _ _ _ _ _ Sh). apply in_map. auto. }
  assert (Ke : forall p, length p = length vs -> keys (history n vs p) = vs) by (intros p Lp; rewrite history_keys by lia; rewrite Lp; apply firstn_all).
  split; [exact Tv|]. split; [|split; [|split]].
  - intros e K. destruct (Le e K) as (p & E & Lp & Pp). unfold leaf. rewrite E. cbn [tl]. split; [apply history_nodup, Tv|]. rewrite (Ke p Lp). split; [exact Ti|apply (hist_values n vs Hd Iv p Pp)].
  - intros c (C1 & C2 & C3). destruct (outcome_position n vs c) as (p & P1 & P2 & P3); auto; [apply Tv|intro v; rewrite C2; symmetry; apply Ti|].
    assert (K : In (0 :: p) (map fst (g_payoffs g))) by (apply (sh_leaves _ _ _ _ _ _ _ _ Sh); eauto). apply in_map_iff in K. destruct K as (e & E & K). exists e. split; auto. unfold leaf. rewrite E. exact P3.
  - intros e e' K K' P. destruct (Le e K) as (p & E & Lp & Pp). destruct (Le e' K') as (p' & E' & Lp' & Pp'). unfold leaf in P. rewrite E, E' in P. cbn [tl] in P. apply same_keys_perm in P; [|apply history_nodup, Tv|rewrite (Ke p Lp), (Ke p' Lp'); auto].
    apply history_inj in P; auto; [|intros v Hv; destruct (proj2 (proj2 (proj2 Hd)) v (Iv v Hv)) as (t & T1 & T2 & _); unfold has_domain in T2; unfold dom_of; rewrite T2; apply (proj1 (proj2 (proj2 Hd)) v t T1)].
    assert (Ef : fst e = fst e') by congruence. destruct e as [x us], e' as [x' us']. cbn in Ef. subst x'. f_equal. assert (N := sh_once _ _ _ _ _ _ _ _ Sh). apply (in_find _ _ idx_dec) in K; auto. apply (in_find _ _ idx_dec) in K'; auto. congruence.
  - apply (NoDup_map_inv fst). apply (sh_once _ _ _ _ _ _ _ _ Sh).
Qed.
Print Assumptions C50_leaves.

(* ---- when the export returns ---- *)
(* On a connected diagram with the necessary data the export returns exactly when what the observed variables depend on is itself a decision or
   observed, and no joint outcome of the decisions and the observed variables has probability zero.  It raises KeyError when the first fails, and
   RuntimeError when only the second does. *)
Theorem C50_returns_partial : forall o m n so ao, valid_order o -> valid m -> mgraph m = ngraph n -> no_clash (ngraph n) -> built n -> distribution n -> connected n ->
  let sg := or_default so (decisions m) in let ags := or_default ao (agents m) in game_data m n sg ags -> ags <> [] ->
  ((exists n' r, macid_to_efg o m n so ao = (n', Ok r)) <-> closed_tree n sg /\ all_possible n sg) /\
  (macid_to_efg o m n so ao = (n, Err KeyError) <-> ~ closed_tree n sg) /\
  (macid_to_efg o m n so ao = (n, Err RuntimeError) <-> closed_tree n sg /\ ~ all_possible n sg).
Proof.
  intros o m n so ao O V G NC B Hd Co sg ags Da Na. destruct (efg_cases o m n so ao O V G NC B Hd Co Da) as [(C & [P|P] & r & E)|[(C & E)|(C & P & _ & E)]]; try contradiction; fold sg in C, P || fold sg in C; rewrite E.
  - split; [split; [auto|eauto]|]. split; (split; [discriminate|tauto]).
  - split; [split; [intros (n' & r & K); discriminate|tauto]|]. split; [tauto|]. split; [discriminate|tauto].
  - split; [split; [intros (n' & r & K); discriminate|tauto]|]. split; [split; [discriminate|tauto]|tauto].
Qed.
Print Assumptions C50_returns_partial.

(* ---- examples ---- *)
Definition tree_list (n : net) (sg : list node) : list node := sg ++ flat_map (parents (ngraph n)) sg.
Definition not_given (t : tab) : bool := match tkind t with KTab => false | _ => true end.
Definition data_check (m : macid) (n : net) (sg : list node) (ags : list agent) : bool :=
  forallb (fun d => mem d (decisions m) && match lookup d (decision_agent m) with Some a => mem a ags | None => false end) sg &&
  forallb (fun a => match lookup a (agent_utilities m) with Some us => negb (length us =? 0) && forallb (fun u => negb (mem u (tree_list n sg))) us | None => false end) ags &&
  forallb (fun d => mem d sg || has_policy n d) (decisions m) &&
  forallb (fun v => match cpd_of n v with Some t => not_given t | None => true end) (tree_list n sg) &&
  forallb (fun dd => (length (dom_of (doms n) (fst dd)) =? length (dom_of (doms n) (snd dd))) || negb (if list_eq_dec string_dec (parents (ngraph n) (fst dd)) (parents (ngraph n) (snd dd)) then true else false)) (list_prod sg sg).
Lemma tree_list_in : forall n sg v, In v (tree_list n sg) <-> in_tree n sg v.
Proof.
  intros n sg v. unfold tree_list, in_tree. rewrite in_app_iff, in_flat_map. split; (intros [K|(d & K1 & K2)]; [auto|right; exists d; split; auto; apply in_parents; auto]).
Qed.
Lemma data_check_ok : forall m n sg ags, valid m -> distribution n -> data_check m n sg ags = true -> game_data m n sg ags.
Proof.
  intros m n sg ags V Hd H. unfold data_check in H. apply andb_prop in H. destruct H as [H H5]. apply andb_prop in H. destruct H as [H H4]. apply andb_prop in H. destruct H as [H H3]. apply andb_prop in H. destruct H as [H1 H2]. rewrite forallb_forall in H1, H2, H3, H4, H5. assert (Si := proj1 (proj2 Hd)). constructor.
  - intros d K. specialize (H1 d K). apply andb_prop in H1. destruct H1 as [A1 A2]. split; [apply (LIncent.in_decisions m d V), mem_In; auto|]. destruct (lookup d (decision_agent m)) as [a|]; [|discriminate]. exists a. split; auto. apply mem_In; auto.
  - intros a K. specialize (H2 a K). destruct (lookup a (agent_utilities m)) as [us|]; [|discriminate]. apply andb_prop in H2. destruct H2 as [A1 A2]. exists us. split; auto. split; [intros ->; discriminate|]. intros u Hu. rewrite forallb_forall in A2. specialize (A2 u Hu). apply negb_true_iff, mem_nIn in A2. rewrite <- tree_list_in. auto.
  - intros d K. apply (LIncent.in_decisions m d V) in K. specialize (H3 d K). apply orb_prop in H3. destruct H3 as [A|A]; [left; apply mem_In; auto|right]. unfold has_policy in A. destruct (cpd_of n d) as [t|] eqn:E; [|discriminate]. exists t. split; [apply (single_cpd n d t Si); auto|]. intro X. rewrite X in A. discriminate.
  - intros v t K T. apply (single_cpd n v t Si) in T. apply tree_list_in in K. specialize (H4 v K). rewrite T in H4. unfold not_given in H4. intro X. rewrite X in H4. discriminate.
  - intros d d' K K' _ E. specialize (H5 (d, d') (in_prod _ _ _ _ K K')). cbn [fst snd] in H5. apply orb_prop in H5. destruct H5 as [A|A]; [apply Nat.eqb_eq; auto|]. destruct (list_eq_dec string_dec (parents (ngraph n) d) (parents (ngraph n) d')) as [X|X]; [discriminate|contradiction].
Qed.
Local Open Scope string_scope.
Local Open Scope Qc_scope.
(* a decision that observes a noisy signal of a hidden state; both matter for the payoff *)
Definition ex_noise_graph : graph := mkG ["Z"; "X"; "D"; "U"] [("Z", "X"); ("X", "D"); ("Z", "U"); ("D", "U")].
Definition ex_noise : macid := diagram_of ex_noise_graph [("0", ["D"])] [("0", ["U"])].
Definition ex_noise_net : net := made ex_noise_graph [("Z", RDist coin); ("X", RFun (fn1 "Z" noisy)); ("D", RDom [0; 1]); ("U", tab_of "U" [0; 1] ["Z"; "D"] [2; 2]%nat [[0;1]; [1;0]; [1;0]; [0;1]])].
Lemma ex_noise_built : built ex_noise_net /\ distribution ex_noise_net.
Proof.
  split; [apply made_built|apply dist_check_ok]; [vm_compute; reflexivity| |vm_compute; reflexivity|vm_compute; reflexivity]. rels_ok; [split; [exact I|exact coin_dict]|apply fn1_admissible, noisy_dict|split; exact I|apply tab_admissible].
Qed.
(* a decision that observes an outcome that is certain *)
Definition ex_sure_graph : graph := mkG ["X"; "D"; "U"] [("X", "D"); ("D", "U"); ("X", "U")].
Definition ex_sure : macid := diagram_of ex_sure_graph [("0", ["D"])] [("0", ["U"])].
Definition ex_sure_net : net := made ex_sure_graph [("X", RDist [(0, Some 1); (1, Some 0)]); ("D", RDom [0; 1]); ("U", tab_of "U" [0; 1] ["D"; "X"] [2; 2]%nat [[0;1]; [1;0]; [1;0]; [0;1]])].
Lemma ex_sure_built : built ex_sure_net /\ distribution ex_sure_net.
Proof.
  split; [apply made_built|apply dist_check_ok]; [vm_compute; reflexivity| |vm_compute; reflexivity|vm_compute; reflexivity]. rels_ok; [split; [exact I|apply nodupo_ok; vm_compute; reflexivity]|split; exact I|apply tab_admissible].
Qed.
(* two games in one diagram that have nothing to do with each other *)
Definition ex_pair_graph : graph := mkG ["D"; "U"; "E"; "V"] [("D", "U"); ("E", "V")].
Definition ex_pair : macid := diagram_of ex_pair_graph [("1", ["D"]); ("2", ["E"])] [("1", ["U"]); ("2", ["V"])].
Definition ex_pair_net : net := made ex_pair_graph [("D", RDom [0; 1]); ("E", RDom [0; 1]); ("U", tab_of "U" [0; 1] ["D"] [2]%nat [[0;1]; [1;0]]); ("V", tab_of "V" [0; 1] ["E"] [2]%nat [[0;1]; [1;0]])].
Lemma ex_pair_built : built ex_pair_net /\ distribution ex_pair_net.
Proof.
  split; [apply made_built|apply dist_check_ok]; [vm_compute; reflexivity| |vm_compute; reflexivity|vm_compute; reflexivity]. rels_ok; [split; exact I|split; exact I|apply tab_admissible|apply tab_admissible].
Qed.
(* a game with a tree that exports: two decisions, the second observing the first *)
Example C50_example : valid ex_duel /\ mgraph ex_duel = ngraph ex_duel_net /\ no_clash (ngraph ex_duel_net) /\ built ex_duel_net /\ distribution ex_duel_net /\ connected ex_duel_net /\
  game_data ex_duel ex_duel_net (or_default None (decisions ex_duel)) (or_default None (agents ex_duel)) /\ or_default None (agents ex_duel) <> [] /\ exported (macid_to_efg (fun _ l => l) ex_duel ex_duel_net None None) = true.
Proof.
  destruct ex_duel_built as [B Hd]. assert (V : valid ex_duel) by (apply LCheck.check_ok; vm_compute; reflexivity). split; [exact V|]. split; [vm_compute; reflexivity|]. split; [apply clash_free_ok; vm_compute; reflexivity|]. split; [exact B|]. split; [exact Hd|]. split; [exact duel_connected|].
  split; [apply data_check_ok; auto; vm_compute; reflexivity|]. split; [discriminate|vm_compute; reflexivity].
Qed.

(* ---- when it does not ---- *)
(* The property fails: in each of these diagrams every variable has what it needs, yet the export and the search for equilibria raise.
   - a decision observes a noisy signal of a hidden state (KeyError);
   - a decision observes a variable that is certain (RuntimeError);
   - two parts of the diagram have nothing to do with each other (ValueError). *)
Definition complete (m : macid) (n : net) : Prop := valid m /\ mgraph m = ngraph n /\ no_clash (ngraph n) /\ built n /\ distribution n /\ game_data m n (decisions m) (agents m) /\ agents m <> [].
Lemma noise_connected : connected ex_noise_net.
Proof.
  refine (PPolicy.joined_hub (ngraph ex_noise_net) "U" _). intros v Hv. assert (K : In v ["Z"; "X"; "D"; "U"]) by exact Hv. destruct K as [<-|[<-|[<-|[<-|[]]]]]; [| | |constructor].
  2: apply joined_step with "D"; [left; split; [apply PPatterns.edge_in; vm_compute; reflexivity|intros []]|].
  all: apply joined_step with "U"; [left; split; [apply PPatterns.edge_in; vm_compute; reflexivity|intros []]|constructor].
Qed.
Lemma sure_connected : connected ex_sure_net.
Proof. hub_of "U". Qed.
Lemma complete_ok : forall m n, valid m -> mgraph m = ngraph n -> clash_free (ngraph n) = true -> built n /\ distribution n -> data_check m n (decisions m) (agents m) = true -> agents m <> [] -> complete m n.
Proof. intros m n V G C [B Hd] Da Na. split; [auto|split; [auto|split; [apply clash_free_ok; auto|split; [auto|split; [auto|split; [apply data_check_ok; auto|auto]]]]]]. Qed.
Theorem C50_refuted :
  ~ (forall m n, complete m n -> connected n -> snd (macid_to_efg (fun _ l => l) m n None None) <> Err KeyError) /\
  ~ (forall s m n, complete m n -> connected n -> get_ne (fun _ l => l) s None m n <> Err KeyError) /\
  ~ (forall s m n, complete m n -> connected n -> get_spe (fun l => l) (fun _ l => l) s None m n <> Err KeyError) /\
  ~ (forall m n, complete m n -> connected n -> closed_tree n (decisions m) -> exists r, snd (macid_to_efg (fun _ l => l) m n None None) = Ok r) /\
  ~ (forall m n, complete m n -> (forall u d, In d (decisions m) -> ~ edge (ngraph n) u d) -> exists r, snd (macid_to_efg (fun _ l => l) m n None None) = Ok r).
Proof.
  assert (Cn : complete ex_noise ex_noise_net) by (apply complete_ok; [apply LCheck.check_ok; vm_compute; reflexivity|vm_compute; reflexivity|vm_compute; reflexivity|exact ex_noise_built|vm_compute; reflexivity|discriminate]).
  assert (Cs : complete ex_sure ex_sure_net) by (apply complete_ok; [apply LCheck.check_ok; vm_compute; reflexivity|vm_compute; reflexivity|vm_compute; reflexivity|exact ex_sure_built|vm_compute; reflexivity|discriminate]).
  assert (Cp : complete ex_pair ex_pair_net) by (apply complete_ok; [apply LCheck.check_ok; vm_compute; reflexivity|vm_compute; reflexivity|vm_compute; reflexivity|exact ex_pair_built|vm_compute; reflexivity|discriminate]).
  split; [|split; [|split; [|split]]].
  - intro H. apply (H _ _ Cn noise_connected). vm_compute. reflexivity.
  - intro H. apply (H (fun _ _ => []) _ _ Cn noise_connected). vm_compute. reflexivity.
  - intro H. apply (H (fun _ _ => []) _ _ Cn noise_connected). vm_compute. reflexivity.
  - intro H. destruct (H _ _ Cs sure_connected) as [r K]; [|vm_compute in K; discriminate]. intros u v Tv Nv E. exfalso. assert (Kv : v = "X"). { destruct Tv as [Tv|(d & Dd & Ed)]; [contradiction|]. vm_compute in Dd. destruct Dd as [<-|[]]. apply in_parents in Ed. vm_compute in Ed. destruct Ed as [<-|[]]. reflexivity. }
    subst v. apply in_parents in E. vm_compute in E. destruct E.
  - intro H. destruct (H _ _ Cp) as [r K]; [|vm_compute in K; discriminate]. intros u d Dd E. apply in_parents in E. vm_compute in Dd. destruct Dd as [<-|[<-|[]]]; vm_compute in E; destruct E.
Qed.
Print Assumptions C50_refuted.
