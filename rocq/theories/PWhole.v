(* Properties of get_spe and get_ne: equilibria of the whole diagram. *)
From Coq Require Import String List Bool Arith QArith Qcanon Permutation Lia.
Import ListNotations.
From Verif Require Import MBase MGraph MMacid MRel MIncent MCpd MNet MProb MQuery MPolicy MGame MSub Spec SpecM SpecR SpecC SpecN SpecQ SpecPol SpecGame
  LBase LQc LGraph LPaths LActive LRoles LCopy LMech LReach LIncent LTrim LCpd LNet LSum LQuery LDo LValue LLike LSearch LBest LSolve LOptimal LGrow LShape LPlay LRespond LKept LMargin LSub LStage LWhole PMacid PRel PPlay PSolve PQuery PSub LCheck LCheckN SpecSub.
Local Open Scope Qc_scope.

Lemma in_concat_rev : forall (ls : list (list node)) d, In d (concat (rev ls)) <-> In d (concat ls).
Proof. intros ls d. rewrite !in_concat. split; intros (l & K1 & K2); exists l; split; auto; [apply in_rev; auto|rewrite <- in_rev; auto]. Qed.
Lemma NoDup_concat_rev : forall (ls : list (list node)), NoDup (concat ls) -> NoDup (concat (rev ls)).
Proof.
  intros ls C1. eapply Permutation_NoDup; [|exact C1]. clear. induction ls as [|l ls IH]; cbn; auto. rewrite concat_app. cbn. rewrite app_nil_r. eapply Permutation_trans; [apply Permutation_app_comm|]. apply Permutation_app_tail. auto.
Qed.
(* ---- C64 ---- *)
(* The rules that get_spe returns are an equilibrium in every set of decisions that relies on no other decision, whatever the others do. *)
Theorem C64_perfect_partial : forall so o nash solver m n ps p, valid_components so -> valid_order o -> sound_solver nash ->
  valid m -> mgraph m = ngraph n -> no_clash (mgraph m) -> motivated m -> one_per_component m -> built n -> distribution n -> unset_uniform n ->
  get_spe so o nash solver m n = Ok ps -> In p ps ->
  exists c, policy n (map tvar p) c /\ acts n (map tvar p) p c /\ forall s, subgame_set m s -> perfect_in m n (map tvar p) s c.
Proof.
  intros so o nash solver m n ps p Vs O Sn V G NC Mo Op B Hd Uu H Hp. assert (U := motivated_complete m (proj1 (proj2 V)) Mo).
  destruct (C51_stages_partial so o nash solver m n ps) as (ls & C & St); auto.
  { intros l Hl d d' a K1 K2 K3 K4 _. apply (Op d d' a); auto. }
  specialize (St p Hp). destruct C as (C1 & C2 & C3 & C4 & C5). assert (Nr := NoDup_concat_rev ls C1). assert (Hr : forall d, In d (concat (rev ls)) <-> is_decision m d) by (intro d; rewrite in_concat_rev; auto).
  destruct (staged_policy m n (rev ls) [] p) as (c & Pc & Pm & Ent); auto; [intros d K; apply Hr; auto|].
  assert (HDS : forall d, In d (map tvar p) <-> is_decision m d). { intro d. rewrite <- Hr. split; apply Permutation_in; auto using Permutation_sym. }
  exists c. assert (Pc' : policy n (map tvar p) c) by (intros d K; apply Pc, Hr, HDS; auto). split; [auto|]. split; [split; auto|].
  intros s (S1 & S2 & S3) a us c' Lu Po' Dev. assert (R := staged_best m n (map tvar p) s c c' a us V G NC U Hd HDS Pc' Lu Po' Dev (rev ls) [] p St).
  assert (E1 : value n (map tvar p) (hyb c c' (filter (insg s) (map tvar []))) us = value n (map tvar p) c' us) by (apply value_ext; intros d x K Wx; reflexivity). rewrite E1 in R. eapply Qcle_trans; [apply R; auto|].
  - intro v. cbn [map In]. rewrite Hr, HDS. tauto.
  - intros l Hl. rewrite <- in_rev in Hl. destruct (existsb (fun d => mem d s) l) eqn:El.
    + left. apply existsb_exists in El. destruct El as (e & K1 & K2). apply mem_In in K2. intros d Kd. apply (S3 e); auto. apply (C4 e d); auto. exists l. auto.
    + right. intros d Kd Ks. assert (X : existsb (fun d => mem d s) l = true); [|congruence]. apply existsb_exists. exists d. split; auto. apply mem_In. auto.
  - intros x y Kx Dy Rl. apply (S3 x); auto. econstructor; [apply S2; exact Kx|exact Dy|exact Rl|constructor].
  - intros pre l post x y E Kx Ky Rl. assert (Els : ls = rev post ++ l :: rev pre) by (rewrite <- (rev_involutive ls), E, rev_app_distr; cbn; rewrite <- app_assoc; auto).
    apply in_concat in Ky. destruct Ky as (l' & K1 & K2). rewrite in_rev in K1. apply in_split in K1. destruct K1 as (u & w & Ew).
    assert (Dx : is_decision m x) by (apply C3; rewrite Els; apply in_concat; exists l; split; auto; apply in_or_app; right; left; auto). assert (Dy : is_decision m y) by (apply C3; rewrite Els, Ew; apply in_concat; exists l'; split; auto; apply in_or_app; left; apply in_or_app; right; left; auto).
    apply (C5 u l' (w ++ l :: rev pre) y x); [rewrite Els, Ew, <- app_assoc; auto|auto|apply in_concat; exists l; split; auto; apply in_or_app; right; left; auto|].
    econstructor; [exact Dx|exact Dy|exact Rl|constructor].
  - intros l d d' Kl K1 K2 K3 K4. assert (Kl' := proj2 (in_rev _ _) Kl). destruct (proj1 (C4 d d' (ex_intro _ a K3))) as [X1 X2]; [exists l; auto|]. apply (Op d d' a); auto.
  - match goal with |- ?x <= ?y => assert (E2 : x = y); [|rewrite E2; apply Qcle_refl] end.
    apply value_ext. intros d x K Wx. unfold hyb. cbn [map app]. destruct (in_dec String.string_dec d (filter (insg s) (concat (rev ls)))) as [J|J], (in_dec String.string_dec d s) as [J'|J']; auto; exfalso.
    + apply J'. apply filter_In in J. apply mem_In. apply J.
    + apply J. apply filter_In. split; [apply Hr, S2; auto|]. apply mem_In. auto.
Qed.
Print Assumptions C64_perfect_partial.
(* Every profile that get_spe returns is a Nash equilibrium of the diagram. *)
Theorem C64_nash_partial : forall so o nash solver m n ps p, valid_components so -> valid_order o -> sound_solver nash ->
  valid m -> mgraph m = ngraph n -> no_clash (mgraph m) -> motivated m -> one_per_component m -> built n -> distribution n -> unset_uniform n ->
  get_spe so o nash solver m n = Ok ps -> In p ps ->
  exists c, policy n (map tvar p) c /\ acts n (map tvar p) p c /\ forall ags, equilibrium m n (map tvar p) ags c.
Proof.
  intros so o nash solver m n ps p Vs O Sn V G NC Mo Op B Hd Uu H Hp. destruct (C64_perfect_partial so o nash solver m n ps p) as (c & K1 & K2 & K3); auto. destruct (C51_covers so o nash solver m n ps p) as [_ Cv]; auto.
  exists c. split; auto. split; auto. intros ags a us c' _ Lu [Po' Dev].
  destruct (map tvar p) as [|d0 ds0] eqn:Ep; [assert (E : value n [] c' us = value n [] c us) by (apply value_ext; intros d x []); rewrite E; apply Qcle_refl|]. rewrite <- Ep in *.
  assert (Ss : subgame_set m (map tvar p)). { split; [congruence|]. split; [intros d K; apply Cv; auto|]. intros d d' K R. destruct R as [|x y z D1 D2 R1 R2]; auto. apply Cv. clear - R2 D2. induction R2; auto. }
  assert (R := K3 _ Ss a us c' Lu Po' Dev).
  assert (E : value n (map tvar p) (fun v x => if in_dec String.string_dec v (map tvar p) then c v x else c' v x) us = value n (map tvar p) c us); [|rewrite E in R; auto].
  apply value_ext. intros d x K Wx. destruct (in_dec String.string_dec d (map tvar p)); [auto|contradiction].
Qed.
Print Assumptions C64_nash_partial.

(* ---- C63 ---- *)
(* Every profile that get_ne returns is a Nash equilibrium of the diagram, if no agent makes two decisions and the subgame is connected. *)
Theorem C63_nash_partial : forall o nash solver m n nes b, valid_order o -> sound_solver nash ->
  valid m -> mgraph m = ngraph n -> no_clash (mgraph m) -> utilities_complete m -> built n -> distribution n -> unset_uniform n ->
  (forall a d d', has_role m d (RDecision a) -> has_role m d' (RDecision a) -> d = d') ->
  get_ne o nash solver m n = Ok nes -> In b nes ->
  exists sm sn, subgame m n (decisions m) sm sn /\
    (connected sn -> exists c, policy n (decisions m) c /\ acts n (decisions m) b c /\ forall ags, equilibrium m n (decisions m) ags c).
Proof.
  intros o nash solver m n nes b O Sn V G NC U B Hd Uu One H Hb. assert (N : NoDup (decisions m)) by (apply (LRel.valid_ready m V NC U)).
  assert (Dm : forall d, In d (decisions m) <-> is_decision m d) by (intro d; apply (in_decisions m d); auto).
  destruct (ne_found o nash solver m n None nes b O Sn V G NC U B Hd Uu N) as (sm & sn & ags & S & Ag & Tv & X); auto; [intros d K; apply Dm; auto|intros d d' a _ _ K1 K2 _; apply (One a); auto|].
  exists sm, sn. split; auto. intro Co. destruct (X Co) as (I & Pos & (c0 & P0 & A0 & E0) & Tb).
  assert (Ru : ruled n [] n) by (split; [auto|auto|reflexivity|intros; tauto|auto|intros t a []|auto]).
  assert (St : stage m n (decisions m) b). { exists sm, sn, (decisions m), ags, c0. split; auto. split; auto. split; auto. split; auto. split; auto. split; [|split; auto]. intros t u Ht. apply (ok_ev _ _ _ (proj1 (Tb t Ht))). }
  destruct (stage_policy m n [] n (decisions m) b V G NC U Hd Ru) as (c & Pc & Pm & Ent); auto; [intros d K; apply Dm; auto|].
  exists c. split; auto. split; [split; auto|]. intros ags' a us c' _ Lu [Po' Dev].
  assert (R := stage_step m n (decisions m) (decisions m) c c' a us V G NC U Hd Dm Pc Lu Po' Dev [] n (decisions m) b [] Ru St).
  assert (E1 : value n (decisions m) (hyb c c' []) us = value n (decisions m) c' us) by (apply value_ext; intros d x K Wx; reflexivity). rewrite E1 in R.
  assert (E2 : value n (decisions m) (hyb c c' ([] ++ decisions m)) us = value n (decisions m) c us). { apply value_ext. intros d x K Wx. unfold hyb. cbn [map app]. destruct (in_dec String.string_dec d (decisions m)); [auto|contradiction]. }
  rewrite E2 in R. apply R; auto; try (solve [intros ? []]); try (solve [intros ? ? []]); try (solve [intros ? ? ? []]).
  - apply incl_refl.
  - intros d K. apply Dm. auto.
  - intros x y _ Dy _. left. apply Dm. auto.
  - intros d d' _ _. apply One.
Qed.
Print Assumptions C63_nash_partial.

(* ---- examples ---- *)
Local Open Scope string_scope.
Local Open Scope Qc_scope.
Lemma lead_hyps : one_per_component ex_lead.
Proof.
  intros d d' a (l & Hl & Dl) (l' & Hl' & Dl') _ _. assert (K : In (a, l) [("1", ["A"]); ("2", ["B"])]) by exact Hl. assert (K' : In (a, l') [("1", ["A"]); ("2", ["B"])]) by exact Hl'.
  destruct K as [K|[K|[]]], K' as [K'|[K'|[]]]; injection K as <- <-; try discriminate K'; injection K' as <-; destruct Dl as [<-|[]], Dl' as [<-|[]]; reflexivity.
Qed.
(* B relies on nothing, A relies on B *)
Lemma relevant_check : forall m d v, valid m -> no_clash (mgraph m) -> utilities_complete m -> is_decision m d -> In v (nodes (mgraph m)) ->
  (is_r_reachable m [d] [v] = Ok true -> r_relevant m d v) /\ (is_r_reachable m [d] [v] = Ok false -> ~ r_relevant m d v).
Proof.
  intros m d v V NC U Dd Hv. destruct (C17_r_reachable m [d] [v] V NC U) as (b & E & S); [intros x [<-|[]]; exact Dd|intros x [<-|[]]; auto|].
  split; intro H; rewrite H in E; injection E as <-.
  - destruct (proj1 S eq_refl) as (d' & v' & [<-|[]] & [<-|[]] & K). exact K.
  - intro K. assert (X : false = true) by (apply S; exists d, v; split; [left; auto|split; [left; auto|auto]]). discriminate.
Qed.
Lemma lead_closed : subgame_set ex_lead ["B"] /\ ~ subgame_set ex_lead ["A"].
Proof.
  destruct C51_example as (_ & _ & _ & V & _ & NC & Mo & _). assert (U := motivated_complete _ (proj1 (proj2 V)) Mo).
  assert (DA : is_decision ex_lead "A") by (exists "1", ["A"]; split; [vm_compute; auto|left; auto]). assert (DB : is_decision ex_lead "B") by (exists "2", ["B"]; split; [vm_compute; auto|left; auto]).
  assert (Al : forall d, is_decision ex_lead d -> d = "A" \/ d = "B"). { intros d (ag & l & Hl & Dl). assert (K : In (ag, l) [("1", ["A"]); ("2", ["B"])]) by exact Hl. destruct K as [K|[K|[]]]; injection K as <- <-; destruct Dl as [<-|[]]; auto. }
  assert (RB : ~ r_relevant ex_lead "B" "A") by (apply (relevant_check ex_lead "B" "A"); auto; vm_compute; auto).
  assert (RA : r_relevant ex_lead "A" "B") by (apply (relevant_check ex_lead "A" "B"); auto; vm_compute; auto).
  split.
  - split; [discriminate|]. split; [intros d [<-|[]]; auto|]. intros d d' [<-|[]] R. remember "B" as x eqn:Ex. induction R as [|x y z D1 D2 R1 R2 IH]; [subst; left; auto|]. subst x. destruct (Al y D2) as [->| ->]; [contradiction|auto].
  - intros (_ & _ & K). destruct (K "A" "B") as [X|[]]; [left; auto| |discriminate X]. econstructor; [exact DA|exact DB|exact RA|constructor].
Qed.
(* the hypotheses of the theorems hold in the example of PSub *)
Example C64_example : valid_components (fun x => x) /\ valid_order (fun _ l => l) /\ sound_solver (fun _ => one_choice) /\ valid ex_lead /\ mgraph ex_lead = ngraph ex_lead_net /\ no_clash (mgraph ex_lead) /\ motivated ex_lead /\ one_per_component ex_lead /\
  built ex_lead_net /\ distribution ex_lead_net /\ unset_uniform ex_lead_net /\
  (exists p, get_spe (fun x => x) (fun _ l => l) (fun _ => one_choice) None ex_lead ex_lead_net = Ok [p] /\ map tvar p = ["B"; "A"]) /\ subgame_set ex_lead ["B"] /\ ~ subgame_set ex_lead ["A"].
Proof.
  destruct C51_example as (H1 & H2 & H3 & H4 & H5 & H6 & H7 & _ & H8 & H9 & H10 & p & H11 & H12 & _). assert (L1 := lead_hyps). destruct lead_closed as (L4 & L5).
  repeat (split; [assumption|]). split; [exists p; auto|]. split; assumption.
Qed.
Example C63_nash_example : (forall a d d', has_role ex_solo d (RDecision a) -> has_role ex_solo d' (RDecision a) -> d = d') /\
  exists sm sn, create_subgame (fun _ l => l) ex_solo ex_solo_net (decisions ex_solo) = Ok (sm, sn) /\ ngraph sn = mkG ["A"; "U"; "X"] [("A", "U"); ("X", "U")].
Proof.
  split.
  - intros a d d' (l & Hl & Dl) (l' & Hl' & Dl'). assert (K : In (a, l) [("1", ["A"])]) by exact Hl. assert (K' : In (a, l') [("1", ["A"])]) by exact Hl'.
    destruct K as [K|[]], K' as [K'|[]]; injection K as <- <-; injection K' as <-; destruct Dl as [<-|[]], Dl' as [<-|[]]; reflexivity.
  - destruct (create_subgame (fun _ l => l) ex_solo ex_solo_net (decisions ex_solo)) as [[sm sn]|] eqn:E; [|exfalso; assert (X : match create_subgame (fun _ l => l) ex_solo ex_solo_net (decisions ex_solo) with Ok _ => true | Err _ => false end = true) by (vm_compute; reflexivity); rewrite E in X; discriminate].
    exists sm, sn. split; auto. assert (X : match create_subgame (fun _ l => l) ex_solo ex_solo_net (decisions ex_solo) with Ok (_, s) => ngraph s | Err _ => empty_graph end = mkG ["A"; "U"; "X"] [("A", "U"); ("X", "U")]) by (vm_compute; reflexivity). rewrite E in X. exact X.
Qed.
