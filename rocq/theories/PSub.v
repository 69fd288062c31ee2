(* Properties of get_spe and get_ne. *)
From Coq Require Import String List Bool Arith QArith Qcanon Permutation Lia.
Import ListNotations.
From Verif Require Import MBase MGraph MMacid MRel MIncent MCpd MNet MProb MQuery MPolicy MGame MSub Spec SpecM SpecR SpecC SpecN SpecQ SpecPol SpecGame
  LBase LQc LGraph LPaths LActive LRoles LCopy LMech LReach LIncent LTrim LCpd LNet LSum LQuery LDo LLike LSearch LSolve LOptimal LGrow LShape LPlay LKept LMargin LSub LStage PMacid PRel PPlay PSolve PQuery LCheck LCheckN SpecSub.
Local Open Scope Qc_scope.

Lemma motivated_complete : forall m, consistent m -> motivated m -> utilities_complete m.
Proof. intros m C M a d L. destruct (M a d L) as (u & l & K & _). apply in_map_iff. exists (a, l). auto. Qed.
Lemma same_relies : forall m m' x y, valid m -> wf_dag (mgraph m') -> (forall x, In x (nodes (mgraph m')) <-> In x (nodes (mgraph m))) -> (forall x y, edge (mgraph m') x y <-> edge (mgraph m) x y) -> (forall x r, has_role m' x r <-> has_role m x r) ->
  relies_on m x y -> relies_on m' x y.
Proof.
  intros m m' x y V W N E R H. induction H as [d|x y z [a Dx] [b Dy] K H IH]; [constructor|]. econstructor; [exists a; apply R; eauto|exists b; apply R; eauto| |exact IH].
  eapply (same_relevant m); eauto. apply (is_decision_in m); auto. exists b. auto.
Qed.
Lemma same_components : forall m m' ls, valid m -> valid m' -> (forall x, In x (nodes (mgraph m')) <-> In x (nodes (mgraph m))) -> (forall x y, edge (mgraph m') x y <-> edge (mgraph m) x y) -> (forall x r, has_role m' x r <-> has_role m x r) ->
  components m' ls -> components m ls.
Proof.
  intros m m' ls V V' N E R (C1 & C2 & C3 & C4 & C5).
  assert (Rl : forall x y, relies_on m x y <-> relies_on m' x y). { intros x y. split; apply same_relies; auto; try apply V; try apply V'; intros; symmetry; auto. }
  assert (De : forall d, is_decision m d <-> is_decision m' d) by (intro d; split; intros [a K]; exists a; apply R; auto).
  split; auto. split; auto. split; [intro d; rewrite C3, De; tauto|]. split; [intros x y; rewrite De, !Rl; auto|]. intros pre l post x y H1 H2 H3. rewrite Rl. eauto.
Qed.
(* the copy that get_spe works on *)
Lemma spe_copy : forall m n mc nc, valid m -> mgraph m = ngraph n -> motivated m -> built n -> distribution n -> macid_copy m n = Ok (mc, nc) ->
  like n nc /\ let m' := with_graph mc (ngraph nc) in valid m' /\ (forall x, In x (nodes (mgraph m')) <-> In x (nodes (mgraph m))) /\ (forall x y, edge (mgraph m') x y <-> edge (mgraph m) x y) /\ (forall x r, has_role m' x r <-> has_role m x r) /\ motivated m'.
Proof.
  intros m n mc nc V G Mo B Hd E. unfold macid_copy in E. rewrite with_graph_eq in E by auto. destruct (copy_without_cpds m) as [mc'|] eqn:Ec; [|discriminate]. cbn [bind] in E. destruct (copy_net n) as [nc'|] eqn:En; [|discriminate]. cbn [bind] in E. injection E as -> ->.
  assert (L := like_copy n nc B Hd En). split; auto. assert (Dc := copy_complete m mc V Ec). destruct (C14_exact_copy_partial m V Dc (motivated_complete m (proj1 (proj2 V)) Mo)) as (c & E1 & _ & _ & R). rewrite Ec in E1. injection E1 as <-.
  destruct (C14_copy m V Dc) as (c & E2 & Cc & _). rewrite Ec in E2. injection E2 as <-.
  assert (R' : forall x r, has_role (with_graph mc (ngraph nc)) x r <-> has_role m x r) by exact R.
  assert (Nx : forall x, In x (nodes (ngraph nc)) <-> In x (nodes (mgraph m))) by (intro x; rewrite (l_nodes _ _ L), G; tauto).
  cbv zeta. split; [|split; [exact Nx|split; [intros x y; cbn [with_graph mgraph]; rewrite G; apply L|split; [exact R'|]]]].
  - split; [apply (l_dist _ _ L)|]. split; [exact Cc|]. intros a v K. apply Nx. apply (proj2 (proj2 V) a v). destruct K as [K|K]; [left; apply (R v (RDecision a)); exact K|right; apply (R v (RUtility a)); exact K].
  - intros a d K. apply R' in K. destruct (Mo a d K) as [u Ku]. exists u. apply R'. auto.
Qed.

(* ---- C51 ---- *)
(* Every profile that get_spe returns consists of equilibria of the subgames of the components of the relevance graph, the last component
   first, each given the rules found before. *)
Theorem C51_stages_partial : forall so o nash solver m n ps, valid_components so -> valid_order o -> sound_solver nash ->
  valid m -> mgraph m = ngraph n -> no_clash (mgraph m) -> motivated m -> (forall l, (forall x y, In x l -> In y l -> relies_on m x y) -> distinct_observations m l) -> built n -> distribution n -> unset_uniform n ->
  get_spe so o nash solver m n = Ok ps ->
  exists ls, components m ls /\ forall p, In p ps -> staged m n (rev ls) [] p.
Proof.
  intros so o nash solver m n ps Vs O Sn V G NC Mo Do B Hd Uu H. unfold get_spe in H. destruct (macid_copy m n) as [[mc nc]|] eqn:Ec; [|discriminate]. cbn [bind] in H.
  destruct (spe_copy m n mc nc V G Mo B Hd Ec) as (L & V' & N' & E' & R' & Mo'). set (m' := with_graph mc (ngraph nc)) in *.
  assert (NC' : no_clash (mgraph m')) by (intros x Hx; apply N' in Hx; destruct (NC x Hx) as [K1 K2]; split; auto; rewrite N'; auto). assert (U' := motivated_complete m' (proj1 (proj2 V')) Mo').
  assert (Do' : forall l, (forall x y, In x l -> In y l -> relies_on m' x y) -> distinct_observations m' l).
  { intros l Kl d d' a I1 I2 K1 K2 K3. apply R' in K1. apply R' in K2. apply (Do l) with (a := a); auto; [|intro u; rewrite <- !E'; auto]. intros x y Kx Ky. apply (same_relies m' m); auto; try apply V; try (intros; symmetry; auto). }
  destruct (C20_scc_ordering so o m' V' NC' U' Vs O) as (c & ls & E1 & E2 & C1 & C2 & C3 & C4 & C5). assert (C : components m' ls) by exact (conj C1 (conj C2 (conj C3 (conj C4 C5)))).
  rewrite E1 in H. cbn [bind] in H. rewrite E2 in H. cbn [bind] in H. exists ls. split; [apply (same_components m m'); auto|].
  intros p Hp. rewrite <- (spe_graph o nash solver mc (ngraph nc)) in H. fold m' in H.
  assert (Cr : forall d, In d (concat (rev ls)) <-> In d (concat ls)). { intro d. rewrite !in_concat. split; intros (l & K1 & K2); exists l; split; auto; [apply in_rev; auto|rewrite <- in_rev; auto]. }
  assert (Nr : NoDup (concat (rev ls))). { clear - C1. eapply Permutation_NoDup; [|exact C1]. clear. induction ls as [|l ls IH]; cbn; auto. rewrite concat_app. cbn. rewrite app_nil_r. eapply Permutation_trans; [apply Permutation_app_comm|]. apply Permutation_app_tail. auto. }
  assert (Uc : unset_uniform nc). { unfold macid_copy in Ec. destruct (copy_without_cpds _); [|discriminate]. cbn [bind] in Ec. destruct (copy_net n) as [nx|] eqn:En; [|discriminate]. cbn [bind] in Ec. injection Ec as -> ->. eapply (copy_unset n); eauto. }
  destruct (looped o nash solver m n m' nc O Sn V Hd G L V' eq_refl NC' U' Do' R' Uc (rev ls) [] nc [[]] ps) with (q := p) as (_ & p0 & rest & K1 & K2 & K3); auto.
  - cbn [app]. intros d K. apply Cr, C3 in K. apply (is_decision_in m' d V' K).
  - intros l K. apply in_rev in K. destruct (in_split _ _ K) as (pre & post & Es). split; [|split; [|split]].
    + rewrite Es, concat_app in C1. cbn [concat] in C1. apply NoDup_app_inv in C1. destruct C1 as (_ & C1 & _). apply NoDup_app_inv in C1. apply C1.
    + intros d Hd'. apply C3. apply in_concat. eauto.
    + intros x y Hx Hy. apply C4; [apply C3; apply in_concat; eauto|]. exists l. auto.
    + intros x e y Hx Hy R1 R2. assert (Dx : is_decision m' x) by (apply C3; apply in_concat; eauto). assert (Ryx : relies_on m' y x) by (apply C4; eauto).
      assert (T : forall a b c, relies_on m' a b -> relies_on m' b c -> relies_on m' a c) by (intros a b c' T1 T2; induction T1; auto; econstructor; eauto).
      destruct (proj2 (C4 x e Dx)) as (l' & K1 & K2 & K3); [split; eauto|]. assert (l' = l); [|subst; auto].
      destruct (in_split _ _ K) as (u & w & Eu). clear - C1 K1 K2 Hx Eu. subst ls. apply in_app_or in K1. rewrite concat_app in C1. cbn [concat] in C1. destruct (NoDup_app_inv _ _ _ C1) as (_ & C2 & C3). destruct (NoDup_app_inv _ _ _ C2) as (_ & _ & C4).
      destruct K1 as [K1|[K1|K1]]; auto; exfalso; [apply (C3 x); [apply in_concat; eauto|apply in_or_app; auto]|apply (C4 x); auto; apply in_concat; eauto].
  - split; [apply L|]. split; [apply L|]. split; [reflexivity|]. split; [intros v x; tauto|]. intros; tauto.
  - intros q [<-|[]]. split; [intros t []|]. split; [constructor|]. cbn. tauto.
  - destruct K1 as [<-|[]]. cbn [app] in K2. subst rest. auto.
Qed.
Print Assumptions C51_stages_partial.
(* Whatever the solver returns: every profile has exactly one rule for every decision. *)
Lemma ne_vars : forall o nash solver m n l nes b, get_ne_in_sg o nash solver m n (Some l) = Ok nes -> In b nes -> map tvar b = o ["decisions"%string] (to_set l).
Proof.
  intros o nash solver m n l nes b H Hb. unfold get_ne_in_sg in H. destruct (map_r (fun d => dict_get d (decision_agent m)) (o ["decisions"%string] (to_set l))) as [agl|]; [|discriminate]. cbn [bind] in H.
  destruct (create_subgame _ _ _ _) as [[sm sn]|]; [|discriminate]. cbn [bind] in H. destruct (macid_to_efg _ _ _ _ _) as [sn' [[g ks]|]]; [|discriminate]. cbn [bind] in H.
  destruct (pygambit_ne_solver _ _ _) as [bs|]; [|discriminate]. cbn [bind] in H. apply map_r_ok in H. destruct (Forall2_in_r _ _ _ _ _ _ H Hb) as (bh & _ & Eb). eapply rules_vars; eauto.
Qed.
Lemma extend_vars : forall o nash solver m l spes n r, extend_spes o nash solver m l n spes = Ok r -> forall q, In q (snd r) -> exists p, In p spes /\ map tvar q = map tvar p ++ o ["decisions"%string] (to_set l).
Proof.
  intros o nash solver m l. induction spes as [|p spes IH]; intros n r H q Hq; cbn [extend_spes] in H; [injection H as <-; destruct Hq|].
  destruct (ok_net (add_policy n p)) as [k1|]; cbn [bind] in H; [|discriminate]. destruct (get_ne_in_sg o nash solver m k1 (Some l)) as [nes|] eqn:En; cbn [bind] in H; [|discriminate].
  destruct (extend_spes o nash solver m l k1 spes) as [r'|] eqn:Er; cbn [bind] in H; [|discriminate]. injection H as <-. cbn [fst snd] in Hq. apply in_app_or in Hq. destruct Hq as [Hq|Hq].
  - apply in_map_iff in Hq. destruct Hq as (b & <- & Hb). exists p. split; [left; auto|]. rewrite map_app. f_equal. eapply ne_vars; eauto.
  - destruct (IH _ _ Er q Hq) as (p' & K1 & K2). exists p'. split; [right; auto|auto].
Qed.
Lemma loop_vars : forall o nash solver m sccs n spes res, spe_loop o nash solver m n spes sccs = Ok res -> forall q, In q res -> exists p, In p spes /\ map tvar q = map tvar p ++ concat (map (fun l => o ["decisions"%string] (to_set l)) sccs).
Proof.
  intros o nash solver m. induction sccs as [|l sccs IH]; intros n spes res H q Hq; cbn [spe_loop] in H.
  - injection H as <-. exists q. rewrite app_nil_r. auto.
  - destruct (extend_spes o nash solver m l n spes) as [r|] eqn:Er; cbn [bind] in H; [|discriminate]. destruct (IH _ _ _ H q Hq) as (p & K1 & K2). destruct (extend_vars _ _ _ _ _ _ _ _ Er p K1) as (p' & K3 & K4).
    exists p'. split; auto. rewrite K2, K4. cbn. rewrite app_assoc. auto.
Qed.
Theorem C51_covers : forall so o nash solver m n ps p, valid_components so -> valid_order o ->
  valid m -> mgraph m = ngraph n -> no_clash (mgraph m) -> motivated m -> built n -> distribution n -> get_spe so o nash solver m n = Ok ps -> In p ps ->
  NoDup (map tvar p) /\ forall d, In d (map tvar p) <-> is_decision m d.
Proof.
  intros so o nash solver m n ps p Vs O V G NC Mo B Hd H Hp. unfold get_spe in H. destruct (macid_copy m n) as [[mc nc]|] eqn:Ec; [|discriminate]. cbn [bind] in H.
  destruct (spe_copy m n mc nc V G Mo B Hd Ec) as (L & V' & N' & E' & R' & Mo'). set (m' := with_graph mc (ngraph nc)) in *.
  assert (NC' : no_clash (mgraph m')) by (intros x Hx; apply N' in Hx; destruct (NC x Hx) as [K1 K2]; split; auto; rewrite N'; auto). assert (U' := motivated_complete m' (proj1 (proj2 V')) Mo').
  destruct (C20_scc_ordering so o m' V' NC' U' Vs O) as (c & ls & E1 & E2 & C1 & C2 & C3 & _). rewrite E1 in H. cbn [bind] in H. rewrite E2 in H. cbn [bind] in H.
  destruct (loop_vars _ _ _ _ _ _ _ _ H p Hp) as (p0 & [<-|[]] & K). cbn [map app] in K.
  assert (Pm : Permutation (map tvar p) (concat ls)).
  { rewrite K. clear - C1 O. assert (X : forall l, In l ls -> NoDup l). { intros l Hl. destruct (in_split _ _ Hl) as (u & w & ->). rewrite concat_app in C1. cbn in C1. apply NoDup_app_inv in C1. destruct C1 as (_ & C1 & _). apply NoDup_app_inv in C1. apply C1. }
    transitivity (concat (rev ls)); [|clear; induction ls as [|l ls IH]; cbn; auto; rewrite concat_app; cbn; rewrite app_nil_r; eapply Permutation_trans; [apply Permutation_app_tail; exact IH|apply Permutation_app_comm]].
    assert (X' : forall l, In l (rev ls) -> NoDup l) by (intros l Hl; apply X, in_rev; auto). clear C1 X. induction (rev ls) as [|l r IH]; cbn; auto. apply Permutation_app; [|apply IH; intros; apply X'; right; auto].
    transitivity (to_set l); [apply O|]. apply NoDup_Permutation; [apply NoDup_to_set|apply X'; left; auto|intro; apply in_to_set]. }
  split; [apply (Permutation_NoDup (Permutation_sym Pm)); auto|]. intro d. transitivity (is_decision m' d).
  - rewrite <- C3. split; apply Permutation_in; auto using Permutation_sym.
  - split; intros [a Ka]; exists a; apply R'; auto.
Qed.
Print Assumptions C51_covers.

(* ---- C63 ---- *)
(* Every profile that get_ne returns is an equilibrium of the subgame for all decisions. *)
Theorem C63_ne_partial : forall o nash solver m n nes b, valid_order o -> sound_solver nash ->
  valid m -> mgraph m = ngraph n -> no_clash (mgraph m) -> utilities_complete m -> distinct_observations m (decisions m) -> built n -> distribution n -> unset_uniform n ->
  get_ne o nash solver m n = Ok nes -> In b nes ->
  map tvar b = decisions m /\ exists sm sn ags, subgame m n (decisions m) sm sn /\ (forall a, In a ags <-> exists d, has_role m d (RDecision a)) /\
    (connected sn -> exists c, policy sn (decisions m) c /\ acts sn (decisions m) b c /\ equilibrium sm sn (decisions m) ags c).
Proof.
  intros o nash solver m n nes b O Sn V G NC U Do B Hd Uu H Hb. assert (N : NoDup (decisions m)) by (apply (LRel.valid_ready m V NC U)).
  assert (Dm : forall d, In d (decisions m) <-> is_decision m d) by (intro d; apply (in_decisions m d); auto).
  destruct (ne_found o nash solver m n None nes b O Sn V G NC U B Hd Uu N) as (sm & sn & ags & S & Ag & Tv & X); auto; [intros d K; apply Dm; auto|].
  split; auto. exists sm, sn, ags. split; auto. split.
  - intro a. rewrite Ag. split; [intros (d & _ & K); eauto|]. intros (d & K). exists d. split; auto. apply Dm. exists a. auto.
  - intro Co. destruct (X Co) as (_ & _ & K & _). auto.
Qed.
Print Assumptions C63_ne_partial.

(* ---- an example: two agents, the first of which is interested in what the second does ---- *)
Local Open Scope string_scope.
Local Open Scope Qc_scope.
(* a solver for games in which one player chooses once between two branches *)
Definition one_choice (g : game) : list (nat -> list Qc) :=
  match g_players g, g_isets g, g_moves g, g_payoffs g with
  | [a], [s], [([0%nat], 0%nat)], [([0%nat; 1%nat], [q]); ([0%nat; 0%nat], [p])] =>
    match is_player s, is_actions s with
    | Some b, [_; _] => if string_dec a b then [if qleb p q then fun _ => [0; 1] else fun _ => [1; 0]] else []
    | _, _ => []
    end
  | _, _, _, _ => []
  end.
Lemma one_choice_sound : sound_solver (fun _ => one_choice).
Proof.
  intros _ [pl is mo py] b H. unfold one_choice in H. cbn [g_players g_isets g_moves g_payoffs] in H.
  destruct pl as [|a [|]]; try contradiction. destruct is as [|s [|]]; try contradiction. destruct mo as [|[[|[|] [|]] [|]] [|]]; try contradiction. destruct py as [|[[|[|] [|[|[|]] [|]]] [|q [|]]] [|[[|[|] [|[|] [|]]] [|p [|]]] [|]]]; try contradiction.
  destruct (is_player s) as [c|] eqn:Ep; [|contradiction]. destruct (is_actions s) as [|x [|y [|]]] eqn:Ea; try contradiction. destruct (string_dec a c) as [<-|]; [|contradiction]. destruct H as [<-|[]].
  set (g := mkGame [a] [s] [([0%nat], 0%nat)] [([0; 1]%nat, [q]); ([0; 0]%nat, [p])]).
  assert (Val : forall b x y, b 0%nat = [x; y] -> game_value g b 0 = y * q + x * p).
  { intros b' x' y' Eb. unfold game_value, g. cbn [g_payoffs map fst snd tl fold_right nth reach_prob app]. unfold branch_prob. cbn [g_moves g_isets].
    assert (F : MGame.find idx_dec [0%nat] [([0%nat], 0%nat)] = Some 0%nat) by reflexivity. rewrite F. cbn [nth_error]. rewrite Ep, Eb. cbn [nth]. ring. }
  split.
  - intros k s' a' Es _. destruct k as [|[|]]; try discriminate Es. cbn in Es. injection Es as <-. rewrite Ea. destruct (qleb p q); (split; [reflexivity|]); (split; [intros r [<-|[<-|[]]]; discriminate|]); reflexivity.
  - intros j a' b' Hj [Bb' _]. destruct j as [|[|]]; try discriminate Hj. cbn in Hj. injection Hj as <-. destruct (Bb' 0%nat s a eq_refl Ep) as (Ln & Nn & Sm). rewrite Ea in Ln. destruct (b' 0%nat) as [|x' [|y' [|]]] eqn:Eb; try discriminate Ln. rewrite (Val b' x' y' Eb). cbn [fold_right] in Sm.
    assert (Hx : 0 <= x') by (apply Nn; left; auto). assert (Hy : 0 <= y') by (apply Nn; right; left; auto). assert (Ex : x' = 1 - y') by (rewrite <- Sm; ring).
    destruct (qleb p q) eqn:Eq.
    + rewrite (Val _ 0 1 eq_refl). apply qleb_iff in Eq. assert (X : x' * p <= x' * q) by (rewrite !(Qcmult_comm x'); apply Qcmult_le_compat_r; auto).
      replace (1 * q + 0 * p) with (y' * q + x' * q) by (rewrite Ex; ring). apply Qcplus_le_compat; [apply Qcle_refl|auto].
    + rewrite (Val _ 1 0 eq_refl). assert (Eq' : q <= p) by (apply Qclt_le_weak, qleb_false; auto). assert (X : y' * q <= y' * p) by (rewrite !(Qcmult_comm y'); apply Qcmult_le_compat_r; auto).
      replace (0 * q + 1 * p) with (y' * p + x' * p) by (rewrite Ex; ring). apply Qcplus_le_compat; [auto|apply Qcle_refl].
Qed.
Definition ex_lead_graph : graph := mkG ["A"; "B"; "U"; "V"] [("A", "U"); ("B", "U"); ("B", "V")].
Definition ex_lead : macid := diagram_of ex_lead_graph [("1", ["A"]); ("2", ["B"])] [("1", ["U"]); ("2", ["V"])].
Definition ex_lead_net : net := made ex_lead_graph [("A", RDom [0; 1]); ("B", RDom [0; 1]);
  ("U", tab_of "U" [0; 1] ["A"; "B"] [2; 2]%nat [[0;1]; [1;0]; [1;0]; [0;1]]); ("V", tab_of "V" [0; 1] ["B"] [2]%nat [[1;0]; [0;1]])].
Lemma ex_lead_built : built ex_lead_net /\ distribution ex_lead_net.
Proof.
  split; [apply made_built|apply dist_check_ok]; [vm_compute; reflexivity| |vm_compute; reflexivity|vm_compute; reflexivity]. rels_ok; [split; exact I|split; exact I|apply tab_admissible|apply tab_admissible].
Qed.
Definition lead_found : option (list (list (string * list (list Q)))) :=
  match get_spe (fun x => x) (fun _ l => l) (fun _ => one_choice) None ex_lead ex_lead_net with Ok ps => Some (map (map (fun t => (tvar t, map (map this) (tcols t)))) ps) | _ => None end.
Lemma lead_is : lead_found = Some [[("B", [[0; 1]]); ("A", [[0; 1]])]]%Q.
Proof. vm_compute. reflexivity. Qed.
Lemma ex_lead_unset : unset_uniform ex_lead_net.
Proof. destruct ex_lead_built as [B Hd]. apply PPolicy.unset_check; auto. Qed.
Example C51_example : valid_components (fun x => x) /\ valid_order (fun _ l => l) /\ sound_solver (fun _ => one_choice) /\ valid ex_lead /\ mgraph ex_lead = ngraph ex_lead_net /\ no_clash (mgraph ex_lead) /\ motivated ex_lead /\ (forall l, (forall x y, In x l -> In y l -> relies_on ex_lead x y) -> distinct_observations ex_lead l) /\
  built ex_lead_net /\ distribution ex_lead_net /\ unset_uniform ex_lead_net /\
  exists p, get_spe (fun x => x) (fun _ l => l) (fun _ => one_choice) None ex_lead ex_lead_net = Ok [p] /\ map tvar p = ["B"; "A"] /\ map tcols p = [[[0; 1]]; [[0; 1]]].
Proof.
  destruct ex_lead_built as [B Hd]. split; [intro cs; exists cs; split; [apply Permutation_refl|induction cs; constructor; auto]|]. split; [intros s l; apply Permutation_refl|]. split; [exact one_choice_sound|].
  split; [apply LCheck.check_ok; vm_compute; reflexivity|]. split; [vm_compute; reflexivity|]. split; [intros x Hx; split; [|apply short_no_mec]; simpl in Hx; destruct Hx as [<-|[<-|[<-|[<-|[]]]]]; simpl; auto 8 with arith; intuition discriminate|].
  split; [|split; [|split; [exact B|split; [exact Hd|split; [exact ex_lead_unset|]]]]].
  - intros a d (l & Hl & _). assert (K : In (a, l) [("1", ["A"]); ("2", ["B"])]) by exact Hl. destruct K as [K|[K|[]]]; injection K as <- <-; [exists "U", ["U"]|exists "V", ["V"]]; (split; [vm_compute; auto|left; auto]).
  - intros l0 _ d d' a _ _ (l & Hl & Dl) (l' & Hl' & Dl') _. assert (K : In (a, l) [("1", ["A"]); ("2", ["B"])]) by exact Hl. assert (K' : In (a, l') [("1", ["A"]); ("2", ["B"])]) by exact Hl'.
    destruct K as [K|[K|[]]], K' as [K'|[K'|[]]]; injection K as <- <-; try discriminate K'; injection K' as <-; destruct Dl as [<-|[]], Dl' as [<-|[]]; reflexivity.
  - assert (L := lead_is). unfold lead_found in L. destruct (get_spe (fun x => x) (fun _ l => l) (fun _ => one_choice) None ex_lead ex_lead_net) as [[|p [|]]|]; try discriminate L. exists p. split; auto. cbn [map] in L.
    destruct p as [|t [|t' [|]]]; cbn [map] in L; try discriminate L. injection L as E1 E2 E3 E4. cbn [map]. rewrite E1, E3. split; auto.
    assert (X : forall (c : list (list Qc)), map (map this) c = [[0; 1]]%Q -> c = [[0; 1]]). { intros c Ec. destruct c as [|[|x [|y [|]]] [|]]; cbn in Ec; try discriminate Ec. injection Ec as K1 K2. f_equal. f_equal; [|f_equal]; apply Qc_is_canon; [rewrite K1|rewrite K2]; reflexivity. }
    rewrite (X _ E2), (X _ E4). auto.
Qed.

(* one decision and a chance variable *)
Definition ex_solo_graph : graph := mkG ["A"; "X"; "U"] [("A", "U"); ("X", "U")].
Definition ex_solo : macid := diagram_of ex_solo_graph [("1", ["A"])] [("1", ["U"])].
Definition ex_solo_net : net := made ex_solo_graph [("A", RDom [0; 1]); ("X", RDist coin); ("U", tab_of "U" [0; 1] ["A"; "X"] [2; 2]%nat [[1;0]; [1;0]; [1;0]; [0;1]])].
Lemma ex_solo_built : built ex_solo_net /\ distribution ex_solo_net.
Proof.
  split; [apply made_built|apply dist_check_ok]; [vm_compute; reflexivity| |vm_compute; reflexivity|vm_compute; reflexivity]. rels_ok; [split; exact I|split; [exact I|exact coin_dict]|apply tab_admissible].
Qed.
Definition solo_found : option (list (list (string * list (list Q)))) :=
  match get_ne (fun _ l => l) (fun _ => one_choice) None ex_solo ex_solo_net with Ok ps => Some (map (map (fun t => (tvar t, map (map this) (tcols t)))) ps) | _ => None end.
Lemma solo_is : solo_found = Some [[("A", [[0; 1]])]]%Q.
Proof. vm_compute. reflexivity. Qed.
Example C63_example : valid_order (fun _ l => l) /\ sound_solver (fun _ => one_choice) /\ valid ex_solo /\ mgraph ex_solo = ngraph ex_solo_net /\ no_clash (mgraph ex_solo) /\ utilities_complete ex_solo /\ distinct_observations ex_solo (decisions ex_solo) /\
  built ex_solo_net /\ distribution ex_solo_net /\ unset_uniform ex_solo_net /\ exists p, get_ne (fun _ l => l) (fun _ => one_choice) None ex_solo ex_solo_net = Ok [p] /\ map tvar p = ["A"].
Proof.
  destruct ex_solo_built as [B Hd]. split; [intros s l; apply Permutation_refl|]. split; [exact one_choice_sound|].
  split; [apply LCheck.check_ok; vm_compute; reflexivity|]. split; [vm_compute; reflexivity|]. split; [intros x Hx; split; [|apply short_no_mec]; simpl in Hx; destruct Hx as [<-|[<-|[<-|[]]]]; simpl; auto 8 with arith; intuition discriminate|].
  split; [|split; [|split; [exact B|split; [exact Hd|split; [apply PPolicy.unset_check; auto|]]]]].
  - intros a d (l & Hl & _). assert (K : In (a, l) [("1", ["A"])]) by exact Hl. destruct K as [K|[]]; injection K as <- <-. left. reflexivity.
  - intros d d' a _ _ (l & Hl & Dl) (l' & Hl' & Dl') _. assert (K : In (a, l) [("1", ["A"])]) by exact Hl. assert (K' : In (a, l') [("1", ["A"])]) by exact Hl'.
    destruct K as [K|[]], K' as [K'|[]]; injection K as <- <-; injection K' as <-; destruct Dl as [<-|[]], Dl' as [<-|[]]; reflexivity.
  - assert (L := solo_is). unfold solo_found in L. destruct (get_ne (fun _ l => l) (fun _ => one_choice) None ex_solo ex_solo_net) as [[|p [|]]|]; try discriminate L. exists p. split; auto. cbn [map] in L.
    destruct p as [|t [|]]; cbn [map] in L; try discriminate L. injection L as E1 E2. cbn [map]. rewrite E1. auto.
Qed.

(* ---- policy_profile_assignment ---- *)
(* The dictionary has every decision as a key, with its rule, or None if the profile has none for it. *)
Theorem C51_assignment : forall m p, NoDup (map tvar p) ->
  let d := policy_profile_assignment m p in
  (forall v, In v (keys d) <-> In v (decisions m) \/ In v (map tvar p)) /\
  (forall t, In t p -> lookup (tvar t) d = Some (Some t)) /\
  (forall v, In v (decisions m) -> ~ In v (map tvar p) -> lookup v d = Some None).
Proof.
  intros m p N. cbv zeta. unfold policy_profile_assignment.
  assert (G : forall (p : list tab) (acc : list (node * option tab)), NoDup (map tvar p) ->
    (forall v, In v (keys (fold_left (fun pp t => dset (tvar t) (Some t) pp) p acc)) <-> In v (keys acc) \/ In v (map tvar p)) /\
    (forall v, lookup v (fold_left (fun pp t => dset (tvar t) (Some t) pp) p acc) = match find_tab v p with Some t => Some (Some t) | None => lookup v acc end)).
  { clear. induction p as [|t p IH]; intros acc N; cbn [fold_left map].
    - split; [intro v; cbn [In]; tauto|intro v; reflexivity].
    - inversion N as [|? ? N1 N2]; subst. destruct (IH (dset (tvar t) (Some t) acc) N2) as [I1 I2]. split.
      + intro v. rewrite I1. assert (X : In v (keys (dset (tvar t) (Some t) acc)) <-> In v (keys acc) \/ v = tvar t).
        { rewrite !in_keys_lookup, lookup_dset. destruct (String.eqb_spec v (tvar t)) as [->|Ne]; (split; [intros [x K]|intro K]); eauto; [destruct K as [K|K]; [exact K|congruence]]. }
        rewrite X. cbn [In]. intuition.
      + intro v. rewrite I2. unfold find_tab. cbn [List.find]. rewrite lookup_dset. destruct (String.eqb_spec (tvar t) v) as [<-|Ne].
        * replace (List.find (fun t' => String.eqb (tvar t') (tvar t)) p) with (@None tab); [rewrite String.eqb_refl; auto|]. symmetry. destruct (List.find _ p) as [s|] eqn:F; auto. apply find_some in F. destruct F as [F1 F2]. apply String.eqb_eq in F2. exfalso. apply N1. rewrite <- F2. apply in_map. auto.
        * destruct (String.eqb_spec v (tvar t)); [congruence|]. auto. }
  destruct (G p (map (fun d => (d, None)) (decisions m)) N) as [G1 G2].
  assert (K : keys (map (fun d : node => (d, @None tab)) (decisions m)) = decisions m) by (unfold keys; rewrite map_map; apply map_id).
  split; [intro v; rewrite G1, K; tauto|]. split.
  - intros t Ht. rewrite G2, (in_find_tab (tvar t) p t); auto.
  - intros v Hv Nv. rewrite G2. replace (find_tab v p) with (@None tab).
    + clear - Hv. induction (decisions m) as [|d l IH]; [destruct Hv|]. cbn. destruct (String.eqb_spec v d) as [->|Ne]; auto. apply IH. destruct Hv; [congruence|auto].
    + symmetry. destruct (find_tab v p) as [s|] eqn:F; auto. apply find_tab_in in F. destruct F as [F1 F2]. exfalso. apply Nv. rewrite <- F2. apply in_map. auto.
Qed.
Print Assumptions C51_assignment.
