(* The game that export/gambit.py builds has the payoffs and the equilibria of the diagram (C60). *)
From Coq Require Import String List Bool Arith QArith Qcanon Lia Permutation.
Import ListNotations.
From Verif Require Import MBase MGraph MMacid MCpd MNet MProb MQuery MGame Spec SpecM SpecC SpecN SpecQ SpecPol SpecGame LBase LGraph LRoles LQc LCpd LNet LCheck LCheckN LSum LBayes LQuery LDo LInter LFactor LBuilt LTotal LValue LSearch LPolicy LQcArith LLike LOptimal LOptDec LBest LEffects PMacid PQuery PSolve LGame LGrow LTree LLevels LShape LPayoff LPlay LNash PGame.
Local Open Scope string_scope.
Local Open Scope Qc_scope.

Lemma valid_utilities : forall m a us, valid m -> In (a, us) (agent_utilities m) -> NoDup us.
Proof. intros m a us (_ & C & _) H. apply C with a. auto. Qed.
(* For every diagram and every (mixed) behaviour in the exported game: behavior_to_cpd turns the behaviour into a rule for every
   decision, and under these rules the expected utility of every agent is the agent's expected payoff in the game. *)
Theorem C60_payoffs : forall o m n so ao n' g keys b, valid_order o -> valid m -> built n -> distribution n -> connected n -> macid_to_efg o m n so ao = (n', Ok (g, keys)) ->
  let sg := or_default so (decisions m) in compatible m n sg -> behaves g b ->
  exists ts, behavior_to_cpd m n keys b so = Ok ts /\ (exists c, policy n sg c /\ acts n sg ts c) /\
    forall c, acts n sg ts c -> forall j a us, nth_error (g_players g) j = Some a -> lookup a (agent_utilities m) = Some us -> game_value g b j = value n sg c us.
Proof.
  intros o m n so ao n' g keys b O V B Hd Co H sg Cm Bb. destruct (efg_shape _ _ _ _ _ _ _ _ O (proj1 Hd) H) as (_ & vs & Sh). fold sg in Sh.
  destruct (tables_played o m n sg _ vs g keys Hd Sh b Bb Cm) as (ts & E & A). exists ts. split; [exact E|]. split; [exists (played m n keys b); split; [eapply played_policy; eauto|exact A]|].
  intros c Ac j a us Hj Lu. rewrite (players_ags _ _ _ _ _ _ _ _ Sh) in Hj. rewrite (payoff_value o m n sg _ vs g keys O B Hd Co Sh b j a us); auto; [|apply (valid_utilities m a); auto; eapply lookup_In; eauto].
  apply value_ext. intros d x Hs Wx. destruct A as [A1 A2], Ac as [C1 C2]. rewrite <- A1 in Hs. apply in_map_iff in Hs. destruct Hs as (t & <- & Ht). rewrite <- A2, <- C2; auto.
Qed.
(* The equilibria of the game are the equilibria of the diagram, when no two decisions of one agent observe the same variables. *)
Theorem C60_equilibria_partial : forall o m n so ao n' g keys b ts c, valid_order o -> valid m -> built n -> distribution n -> connected n -> macid_to_efg o m n so ao = (n', Ok (g, keys)) ->
  let sg := or_default so (decisions m) in compatible m n sg -> behaves g b -> behavior_to_cpd m n keys b so = Ok ts -> acts n sg ts c ->
  (equilibrium m n sg (or_default ao (agents m)) c -> game_equilibrium g b) /\
  (separate m n sg -> game_equilibrium g b -> equilibrium m n sg (or_default ao (agents m)) c).
Proof.
  intros o m n so ao n' g keys b ts c O V B Hd Co H sg Cm Bb Hb Ac. destruct (efg_shape _ _ _ _ _ _ _ _ O (proj1 Hd) H) as (_ & vs & Sh). fold sg in Sh.
  destruct (tables_played o m n sg _ vs g keys Hd Sh b Bb Cm) as (ts' & E & A). assert (ts' = ts). { assert (X : behavior_to_cpd m n keys b so = Ok ts') by exact E. congruence. } subst ts'.
  assert (Ec : forall d x, In d sg -> within n x -> c d x = played m n keys b d x). { intros d x Hs Wx. destruct A as [A1 A2], Ac as [C1 C2]. rewrite <- A1 in Hs. apply in_map_iff in Hs. destruct Hs as (t & <- & Ht). rewrite <- A2, <- C2; auto. }
  assert (Va : forall a us, In (a, us) (agent_utilities m) -> NoDup us) by (intros a us; apply valid_utilities; auto). split.
  - intro Eq. eapply diagram_to_game; eauto.
  - intros Sp Eq. eapply game_to_diagram; eauto.
Qed.

(* ---- without this, an equilibrium of the game need not be one of the diagram ---- *)
Definition ex_odd_net : net := made ex_team_graph [("D", RDom [0; 1]); ("E", RDom [0; 1]); ("U", tab_of "U" [0; 1] ["D"; "E"] [2; 2]%nat [[1;0]; [0;1]; [0;1]; [1;0]])]%string.
Lemma ex_odd_built : built ex_odd_net /\ distribution ex_odd_net.
Proof.
  split; [apply made_built|apply dist_check_ok]; [vm_compute; reflexivity| |vm_compute; reflexivity|vm_compute; reflexivity]. rels_ok; [split; exact I|split; exact I|apply tab_admissible].
Qed.
Lemma odd_connected : connected ex_odd_net.
Proof. hub_of "U"%string. Qed.
Definition odd_check (r : net * result (game * list (key * nat))) : bool :=
  match r with
  | (_, Ok (g, _)) =>
    (if list_eq_dec idx_dec (map fst (g_moves g)) [[0; 1]; [0; 0]; [0]]%nat then true else false) && (if list_eq_dec Nat.eq_dec (map snd (g_moves g)) [0; 0; 0]%nat then true else false) &&
    (if list_eq_dec idx_dec (map fst (g_payoffs g)) [[0; 1; 1]; [0; 1; 0]; [0; 0; 1]; [0; 0; 0]]%nat then true else false) &&
    (if list_eq_dec Qc_eq_dec (map (fun e => nth 0 (snd e) 0) (g_payoffs g)) [0; 1; 1; 0] then true else false) &&
    (if list_eq_dec string_dec (g_players g) ["0"%string] then true else false) &&
    match g_isets g with [s] => match is_player s with Some a => (length (is_actions s) =? 2)%nat && (if string_dec a "0" then true else false) | None => false end | _ => false end
  | _ => false
  end.
Lemma odd_game : odd_check (macid_to_efg (fun _ l => l) ex_team ex_odd_net None None) = true.
Proof. vm_compute. reflexivity. Qed.
Lemma odd_value : forall r, odd_check r = true -> exists n' g keys s, r = (n', Ok (g, keys)) /\ g_players g = ["0"%string] /\ g_isets g = [s] /\ is_player s = Some "0"%string /\ length (is_actions s) = 2%nat /\
  forall b x y, b 0%nat = [x; y] -> game_value g b 0 = x * y + y * x.
Proof.
  intros [n' [[g keys]|e]] H; [|discriminate]. unfold odd_check in H. repeat (apply andb_prop in H; destruct H as [H ?]). destruct (g_isets g) as [|s [|]] eqn:Ei; try discriminate. destruct (is_player s) as [a|] eqn:Ep; [|discriminate].
  match goal with K : _ && _ = true |- _ => apply andb_prop in K; destruct K as [K1 K2] end. apply Nat.eqb_eq in K1. destruct (string_dec a "0") as [->|]; [|discriminate].
  destruct (list_eq_dec idx_dec (map fst (g_moves g)) _) as [M1|]; [|discriminate]. destruct (list_eq_dec Nat.eq_dec (map snd (g_moves g)) _) as [M2|]; [|discriminate]. destruct (list_eq_dec idx_dec (map fst (g_payoffs g)) _) as [P1|]; [|discriminate]. destruct (list_eq_dec Qc_eq_dec _ _) as [P2|]; [|discriminate]. destruct (list_eq_dec string_dec _ _) as [Pl|]; [|discriminate].
  exists n', g, keys, s. do 5 (split; [auto|]). intros b x y Eb.
  assert (Em : g_moves g = [([0; 1], 0); ([0; 0], 0); ([0], 0)]%nat). { destruct (g_moves g) as [|[i1 k1] [|[i2 k2] [|[i3 k3] [|]]]]; cbn in M1, M2; try discriminate. congruence. }
  assert (Br : forall p i, branch_prob g b p i = if find idx_dec (0%nat :: p) (g_moves g) then nth i [x; y] 0 else 0).
  { intros p i. unfold branch_prob. destruct (find idx_dec (0%nat :: p) (g_moves g)) as [k|] eqn:F; auto. apply find_in in F. rewrite Em in F. assert (k = 0%nat) by (destruct F as [F|[F|[F|[]]]]; congruence). subst k. rewrite Ei. cbn [nth_error]. rewrite Ep, Eb. auto. }
  unfold game_value. destruct (g_payoffs g) as [|[j1 l1] [|[j2 l2] [|[j3 l3] [|[j4 l4] [|]]]]]; cbn [map fst snd] in P1, P2; try discriminate. injection P1 as -> -> -> ->. injection P2 as E1 E2 E3 E4.
  cbn [map fst snd tl fold_right]. rewrite E1, E2, E3, E4. unfold reach_prob. rewrite !Br, Em. cbn [app].
  assert (F0 : find idx_dec [0]%nat [([0; 1], 0); ([0; 0], 0); ([0], 0)]%nat = Some 0%nat) by reflexivity. assert (F1 : find idx_dec [0; 0]%nat [([0; 1], 0); ([0; 0], 0); ([0], 0)]%nat = Some 0%nat) by reflexivity. assert (F2 : find idx_dec [0; 1]%nat [([0; 1], 0); ([0; 0], 0); ([0], 0)]%nat = Some 0%nat) by reflexivity.
  rewrite F0, F1, F2. cbn [nth]. ring.
Qed.
Definition odd_policy : behaviour := pure (fun d _ => if string_dec d "D" then 0 else 1).
Lemma odd_deviation : forall c, deviation ex_team ex_odd_net (decisions ex_team) "0" c odd_policy.
Proof.
  intro c. split.
  - intros d Hs. unfold odd_policy, pure. split; [intros a a' -> _; reflexivity|]. split; [intro a; destruct (Qc_eq_dec _ _); discriminate|]. intros a _. assert (K : In d ["D"; "E"]%string) by exact Hs. destruct K as [<-|[<-|[]]]; apply Qc_is_canon; vm_compute; reflexivity.
  - intros d x Hs La. exfalso. apply La. assert (K : In d ["D"; "E"]%string) by exact Hs. destruct K as [<-|[<-|[]]]; vm_compute; reflexivity.
Qed.
Lemma odd_best : value ex_odd_net (decisions ex_team) odd_policy ["U"%string] = 1.
Proof. apply Qc_is_canon. vm_compute. reflexivity. Qed.
Lemma square_nonneg : forall x : Qc, 0 <= x * x.
Proof. intro x. destruct (Qclt_le_dec x 0) as [H|H]; [|apply Qc_mul_nonneg; auto]. replace (x * x) with ((- x) * (- x)) by ring. assert (0 <= - x) by qclra. apply Qc_mul_nonneg; auto. Qed.
(* In a diagram with two decisions of one agent that observe nothing, the exported game lets them only act alike (see C49_refuted), so that
   the game has an equilibrium with expected payoff 1/2 although the agent can get expected utility 1. *)
Theorem C60_equilibria_refuted : exists (o : order) (m : macid) (n n' : net) (g : game) (keys : list (key * nat)) (b : nat -> list Qc) (ts : list tab) (c : behaviour),
  valid_order o /\ valid m /\ mgraph m = ngraph n /\ built n /\ distribution n /\ connected n /\ compatible m n (decisions m) /\ macid_to_efg o m n None None = (n', Ok (g, keys)) /\
  behaves g b /\ behavior_to_cpd m n keys b None = Ok ts /\ policy n (decisions m) c /\ acts n (decisions m) ts c /\ game_equilibrium g b /\ ~ equilibrium m n (decisions m) (agents m) c.
Proof.
  destruct ex_odd_built as [B Hd]. destruct (odd_value _ odd_game) as (n' & g & keys & s & E & Pl & Is & Ip & La & Val). assert (Va : valid ex_team) by (apply LCheck.check_ok; vm_compute; reflexivity).
  assert (O : valid_order (fun _ l => l)) by (intros s' l; apply Permutation_refl). set (h := 1 / (1 + 1) : Qc). set (b := fun _ : nat => [h; h]).
  assert (Cm : compatible ex_team ex_odd_net (decisions ex_team)). { intros d d' K K' _ _. assert (K1 : In d ["D"; "E"]%string) by exact K. assert (K2 : In d' ["D"; "E"]%string) by exact K'. destruct K1 as [<-|[<-|[]]], K2 as [<-|[<-|[]]]; vm_compute; reflexivity. }
  assert (Bb : behaves g b). { intros k t a Et _. rewrite Is in Et. destruct k as [|[|]]; try discriminate Et. injection Et as <-. rewrite La. split; [reflexivity|]. split; [intros q [<-|[<-|[]]]; clear; unfold h; discriminate|]. apply Qc_is_canon. vm_compute. reflexivity. }
  destruct (C60_payoffs _ ex_team ex_odd_net None None n' g keys b O Va B Hd odd_connected E Cm Bb) as (ts & Et & (c & Pc & Ac) & Pay).
  exists (fun _ l => l), ex_team, ex_odd_net, n', g, keys, b, ts, c. split; [exact O|]. split; [exact Va|]. split; [vm_compute; reflexivity|]. split; [exact B|]. split; [exact Hd|]. split; [exact odd_connected|]. split; [exact Cm|]. split; [exact E|]. split; [exact Bb|]. split; [exact Et|]. split; [exact Pc|]. split; [exact Ac|].
  assert (V0 : game_value g b 0 = h) by (rewrite (Val b h h eq_refl); apply Qc_is_canon; vm_compute; reflexivity). split.
  - intros j a b' Hj [Bb' _]. rewrite Pl in Hj. destruct j as [|[|]]; try discriminate Hj. rewrite V0. destruct (Bb' 0%nat s "0"%string) as (L & _ & S); [rewrite Is; reflexivity|exact Ip|]. rewrite La in L. destruct (b' 0%nat) as [|x [|y [|]]] eqn:Eb; try discriminate L. rewrite (Val b' x y Eb). cbn in S.
    assert (Sq := square_nonneg (x - y)). assert (Ey : y = 1 - x) by (rewrite <- S; ring). subst y. unfold h. replace (x * (1 - x) + (1 - x) * x) with ((1 - (x - (1 - x)) * (x - (1 - x))) * (1 / (1 + 1))) by (clear; field; discriminate). rewrite <- (Qcmult_1_l (1 / (1 + 1))) at 2. apply Qcmult_le_compat_r; [clear - Sq; qclra|clear; discriminate].
  - intro Eq. assert (Q := Eq "0"%string ["U"%string] odd_policy). assert (X : value ex_odd_net (decisions ex_team) odd_policy ["U"%string] <= value ex_odd_net (decisions ex_team) c ["U"%string]) by (apply Q; [vm_compute; auto|vm_compute; reflexivity|apply odd_deviation]).
    assert (Y : game_value g b 0 = value ex_odd_net (decisions ex_team) c ["U"]) by (apply (Pay c Ac 0%nat "0" ["U"]); [rewrite Pl; reflexivity|vm_compute; reflexivity]). rewrite <- Y, V0, odd_best in X. unfold h in X. clear - X. vm_compute in X. apply X. reflexivity.
Qed.

(* a game of two agents, the second of which observes a signal and the decision of the first *)
Definition ex_duel_graph : graph := mkG ["X"; "A"; "B"; "U"; "V"]%string [("X", "B"); ("A", "B"); ("A", "U"); ("B", "U"); ("X", "U"); ("A", "V"); ("B", "V")]%string.
Definition ex_duel : macid := diagram_of ex_duel_graph [("1", ["A"]); ("2", ["B"])]%string [("1", ["U"]); ("2", ["V"])]%string.
Definition ex_duel_net : net := made ex_duel_graph [("X", RDist coin); ("A", RDom [0; 1]); ("B", RDom [0; 1]);
  ("U", tab_of "U" [0; 1] ["A"; "B"; "X"] [2; 2; 2]%nat [[1;0]; [0;1]; [0;1]; [1;0]; [1;0]; [0;1]; [0;1]; [1;0]]); ("V", tab_of "V" [0; 1] ["A"; "B"] [2; 2]%nat [[1;0]; [0;1]; [0;1]; [1;0]])]%string.
Lemma ex_duel_built : built ex_duel_net /\ distribution ex_duel_net.
Proof.
  split; [apply made_built|apply dist_check_ok]; [vm_compute; reflexivity| |vm_compute; reflexivity|vm_compute; reflexivity]. rels_ok; [split; [exact I|exact coin_dict]|split; exact I|split; exact I|apply tab_admissible|apply tab_admissible].
Qed.
Lemma duel_connected : connected ex_duel_net.
Proof.
  refine (PPolicy.joined_hub (ngraph ex_duel_net) "U" _). intros v Hv. assert (K : In v ["X"; "A"; "B"; "U"; "V"]) by exact Hv. destruct K as [<-|[<-|[<-|[<-|[<-|[]]]]]]; [| | |constructor|].
  4: apply joined_step with "A"; [right; split; [apply PPatterns.edge_in; vm_compute; reflexivity|intros []]|].
  all: apply joined_step with "U"; [left; split; [apply PPatterns.edge_in; vm_compute; reflexivity|intros []]|constructor].
Qed.
Definition pairs_only (r : net * result (game * list (key * nat))) : bool :=
  match r with (_, Ok (g, _)) => forallb (fun s => match is_player s with Some _ => (length (is_actions s) =? 2)%nat | None => true end) (g_isets g) && (if list_eq_dec string_dec (g_players g) ["1"; "2"] then true else false) && (5 <=? length (g_isets g))%nat | _ => false end.
Lemma duel_game : pairs_only (macid_to_efg (fun _ l => l) ex_duel ex_duel_net None None) = true.
Proof. vm_compute. reflexivity. Qed.
Lemma pairs_behave : forall r, pairs_only r = true -> exists n' g keys, r = (n', Ok (g, keys)) /\ g_players g = ["1"; "2"] /\ forall b, (forall k, exists x, b k = [x; 1 - x] /\ 0 <= x /\ x <= 1) -> behaves g b.
Proof.
  intros [n' [[g keys]|e]] H; [|discriminate]. unfold pairs_only in H. apply andb_prop in H. destruct H as [H _]. apply andb_prop in H. destruct H as [H1 H2]. destruct (list_eq_dec _ _ _) as [E|]; [|discriminate]. exists n', g, keys. split; auto. split; auto.
  intros b Hb k s a Es Pl. rewrite forallb_forall in H1. specialize (H1 s (nth_error_In _ _ Es)). rewrite Pl in H1. apply Nat.eqb_eq in H1. rewrite H1. destruct (Hb k) as (x & -> & X1 & X2). split; [reflexivity|]. split; [intros q [<-|[<-|[]]]; [auto|qclra]|cbn; ring].
Qed.
Example C60_example : valid_order (fun _ l => l) /\ valid ex_duel /\ built ex_duel_net /\ distribution ex_duel_net /\ connected ex_duel_net /\ separate ex_duel ex_duel_net (decisions ex_duel) /\
  exists n' g keys, macid_to_efg (fun _ l => l) ex_duel ex_duel_net None None = (n', Ok (g, keys)) /\ g_players g = ["1"; "2"] /\ forall b, (forall k, exists x, b k = [x; 1 - x] /\ 0 <= x /\ x <= 1) -> behaves g b.
Proof.
  destruct ex_duel_built as [B Hd]. split; [intros s l; apply Permutation_refl|]. split; [apply LCheck.check_ok; vm_compute; reflexivity|]. split; [exact B|]. split; [exact Hd|]. split; [exact duel_connected|].
  split; [|exact (pairs_behave _ duel_game)]. intros d d' K K' E _. assert (K1 : In d ["A"; "B"]) by exact K. assert (K2 : In d' ["A"; "B"]) by exact K'. destruct K1 as [<-|[<-|[]]], K2 as [<-|[<-|[]]]; try reflexivity; vm_compute in E; discriminate.
Qed.
Print Assumptions C60_payoffs.
Print Assumptions C60_equilibria_partial.
Print Assumptions C60_equilibria_refuted.
