(* Properties of get_spe and get_ne: equilibria of the whole diagram when agents make several decisions and have sufficient recall. *)
From Coq Require Import String List Bool Arith QArith Qcanon Permutation Lia.
Import ListNotations.
From Verif Require Import MBase MGraph MMacid MRel MIncent MCpd MNet MProb MQuery MPolicy MGame MSub Spec SpecM SpecR SpecC SpecN SpecQ SpecPol SpecGame
  LBase LQc LGraph LPaths LActive LRoles LCopy LMech LReach LIncent LTrim LCpd LNet LSum LQuery LDo LValue LLike LSearch LBest LSolve LOptimal LGrow LShape LPlay LRespond LKept LMargin LSub LStage LWhole PMacid PRel PPlay PSolve PQuery PSub LCheck LCheckN SpecSub PWhole PRely SpecRelG PRelG LJoint.
Local Open Scope Qc_scope.

(* the decisions of every agent can be put in an order in which none of them needs to know how an earlier one is played *)
Definition orderly (m : macid) : Prop := forall a ds, In (a, ds) (agent_decisions m) -> exists l, Permutation l ds /\ solving_order m l.
(* two decisions of one agent that rely on each other do not have the same parents *)
Definition told_apart (m : macid) : Prop := forall l, (forall x y, In x l -> In y l -> relies_on m x y) -> distinct_observations m l.

Lemma filter_split : forall (A : Type) (f : A -> bool) l L1 d L2, filter f l = L1 ++ d :: L2 -> exists p1 p2, l = p1 ++ d :: p2 /\ forall e, In e L1 -> In e p1.
Proof.
  intros A f l. induction l as [|x l IH]; cbn; intros L1 d L2 E; [destruct L1; discriminate|]. destruct (f x).
  - destruct L1 as [|y L1]; cbn in E; injection E as <- E; [exists [], l; split; [auto|intros e []]|]. destruct (IH _ _ _ E) as (p1 & p2 & -> & K). exists (x :: p1), p2. split; auto. intros e [<-|H]; [left; auto|right; auto].
  - destruct (IH _ _ _ E) as (p1 & p2 & -> & K). exists (x :: p1), p2. split; auto. intros e H. right. auto.
Qed.
(* the decisions of a in l, in such an order *)
Lemma orderly_part : forall m a l, valid m -> no_clash (mgraph m) -> utilities_complete m -> orderly m ->
  exists L, NoDup L /\ (forall d, In d L <-> In d l /\ has_role m d (RDecision a)) /\ forall L1 d L2 e, L = L1 ++ d :: L2 -> In e L1 -> ~ r_relevant m d e.
Proof.
  intros m a l V NC U Or. destruct (lookup a (agent_decisions m)) as [ds|] eqn:La.
  - assert (Hin := LBase.lookup_In _ _ _ _ La). destruct (Or a ds Hin) as (l0 & P & So). destruct (proj1 (proj2 V)) as (N0 & _ & _ & _ & Nl & _).
    assert (Nd : NoDup ds) by (apply (Nl a); auto). assert (N : NoDup l0) by (apply (Permutation_NoDup (Permutation_sym P)); auto).
    assert (Role : forall d, In d l0 <-> has_role m d (RDecision a)). { intro d. change (has_role m d (RDecision a)) with (listed (agent_decisions m) a d). rewrite listed_lookup by auto. split; [intro K; exists ds; split; auto; apply (Permutation_in _ P); auto|]. intros (l' & K1 & K2). apply (Permutation_in _ (Permutation_sym P)). congruence. }
    exists (filter (fun d => mem d l) l0). split; [apply NoDup_filter; auto|]. split; [intro d; rewrite filter_In, mem_In, Role; tauto|].
    intros L1 d L2 e E K R. assert (Kd : In d (filter (fun d => mem d l) l0)) by (rewrite E; apply in_or_app; right; left; auto). destruct (filter_split _ _ _ _ _ _ E) as (p1 & p2 & E' & K'). specialize (K' e K).
    assert (Ne : e <> d). { intros ->. rewrite E' in N. apply NoDup_app_inv in N. apply (proj2 (proj2 N) d); [auto|left; auto]. }
    assert (Rd : has_role m d (RDecision a)) by (apply Role; rewrite E'; apply in_or_app; right; left; auto). assert (Re : has_role m e (RDecision a)) by (apply Role; rewrite E'; apply in_or_app; auto).
    apply (So p1 d p2 e E' K'). apply needs_exact; auto; [exists a; auto|exists a; auto].
  - exists []. split; [constructor|]. split; [|intros L1 d L2 e E; destruct L1; discriminate]. intro d. split; [intros []|]. intros [_ R]. change (has_role m d (RDecision a)) with (listed (agent_decisions m) a d) in R. destruct (proj1 (proj2 V)) as (N0 & _). rewrite listed_lookup in R by auto. destruct R as (l' & K1 & _). congruence.
Qed.

(* ---- C64 ---- *)
(* The rules that get_spe returns are an equilibrium in every set of decisions that relies on no other decision, whatever the others do:
   no agent gains by changing any number of its rules for decisions in the set. *)
Theorem C64_orderly_partial : forall so o nash solver m n ps p, valid_components so -> valid_order o -> sound_solver nash ->
  valid m -> mgraph m = ngraph n -> no_clash (mgraph m) -> motivated m -> orderly m -> told_apart m -> built n -> distribution n -> unset_uniform n ->
  get_spe so o nash solver m n = Ok ps -> In p ps ->
  exists c, policy n (map tvar p) c /\ acts n (map tvar p) p c /\ forall s, subgame_set m s -> perfect_in m n (map tvar p) s c.
Proof.
  intros so o nash solver m n ps p Vs O Sn V G NC Mo Or Ta B Hd Uu H Hp. assert (U := motivated_complete m (proj1 (proj2 V)) Mo).
  destruct (C51_stages_partial so o nash solver m n ps) as (ls & C & St); auto.
  specialize (St p Hp). destruct C as (C1 & C2 & C3 & C4 & C5). assert (Nr := NoDup_concat_rev ls C1). assert (Hr : forall d, In d (concat (rev ls)) <-> is_decision m d) by (intro d; rewrite in_concat_rev; auto).
  destruct (staged_policy m n (rev ls) [] p) as (c & Pc & Pm & Ent); auto; [intros d K; apply Hr; auto|].
  assert (HDS : forall d, In d (map tvar p) <-> is_decision m d). { intro d. rewrite <- Hr. split; apply Permutation_in; auto using Permutation_sym. }
  exists c. assert (Pc' : policy n (map tvar p) c) by (intros d K; apply Pc, Hr, HDS; auto). split; [auto|]. split; [split; auto|].
  intros s (S1 & S2 & S3) a us c' Lu Po' Dev. assert (R := staged_best_all m n (map tvar p) s c c' a us V G NC U Hd HDS Pc' Lu Po' Dev (rev ls) [] p St).
  assert (E1 : value n (map tvar p) (hyb c c' (filter (insg s) (map tvar []))) us = value n (map tvar p) c' us) by (apply value_ext; intros d x K Wx; reflexivity). rewrite E1 in R. eapply Qcle_trans; [apply R; auto|].
  - intro v. cbn [map In]. rewrite Hr, HDS. tauto.
  - intros l Hl. rewrite <- in_rev in Hl. destruct (existsb (fun d => mem d s) l) eqn:El.
    + left. apply existsb_exists in El. destruct El as (e & K1 & K2). apply mem_In in K2. intros d Kd. apply (S3 e); auto. apply (C4 e d); auto. exists l. auto.
    + right. intros d Kd Ks. assert (X : existsb (fun d => mem d s) l = true); [|congruence]. apply existsb_exists. exists d. split; auto. apply mem_In. auto.
  - intros x y Kx Dy Rl. apply (S3 x); auto. econstructor; [apply S2; exact Kx|exact Dy|exact Rl|constructor].
  - intros pre l post x y E Kx Ky Rl. assert (Els : ls = rev post ++ l :: rev pre) by (rewrite <- (rev_involutive ls), E, rev_app_distr; cbn; rewrite <- app_assoc; auto).
    apply in_concat in Ky. destruct Ky as (l' & K1 & K2). rewrite in_rev in K1. apply in_split in K1. destruct K1 as (u & w & Ew).
    assert (Dx : is_decision m x) by (apply C3; rewrite Els; apply in_concat; exists l; split; auto; apply in_or_app; right; left; auto). assert (Dy : is_decision m y) by (apply C3; rewrite Els, Ew; apply in_concat; exists l'; split; auto; apply in_or_app; left; apply in_or_app; right; left; auto).
    apply (C5 u l' (w ++ l :: rev pre) y x); [rewrite Els, Ew, <- app_assoc; auto|auto|apply in_concat; exists l; split; auto; apply in_or_app; right; left; auto|].
    econstructor; [exact Dx|exact Dy|exact Rl|constructor].
  - intros l Kl. apply orderly_part; auto.
  - match goal with |- ?x <= ?y => assert (E2 : x = y); [|rewrite E2; apply Qcle_refl] end.
    apply value_ext. intros d x K Wx. unfold hyb. cbn [map app]. destruct (in_dec String.string_dec d (filter (insg s) (concat (rev ls)))) as [J|J], (in_dec String.string_dec d s) as [J'|J']; auto; exfalso.
    + apply J'. apply filter_In in J. apply mem_In. apply J.
    + apply J. apply filter_In. split; [apply Hr, S2; auto|]. apply mem_In. auto.
Qed.
Print Assumptions C64_orderly_partial.
(* The same for diagrams that pass the sufficient recall test. *)
Theorem C64_recall_partial : forall so o nash solver m n ps p, valid_components so -> valid_order o -> sound_solver nash ->
  valid m -> mgraph m = ngraph n -> no_clash (mgraph m) -> motivated m -> decisions_complete m -> sufficient_recall m None = Ok true -> told_apart m -> built n -> distribution n -> unset_uniform n ->
  get_spe so o nash solver m n = Ok ps -> In p ps ->
  exists c, policy n (map tvar p) c /\ acts n (map tvar p) p c /\ (forall s, subgame_set m s -> perfect_in m n (map tvar p) s c) /\ forall ags, equilibrium m n (map tvar p) ags c.
Proof.
  intros so o nash solver m n ps p Vs O Sn V G NC Mo Dc Sr Ta B Hd Uu H Hp. assert (U := motivated_complete m (proj1 (proj2 V)) Mo).
  assert (Or : orderly m) by exact (proj1 (C81_recall m V NC U Dc) Sr).
  destruct (C64_orderly_partial so o nash solver m n ps p) as (c & K1 & K2 & K3); auto. destruct (C51_covers so o nash solver m n ps p) as [_ Cv]; auto.
  exists c. split; auto. split; auto. split; auto. intros ags a us c' _ Lu [Po' Dev].
  destruct (map tvar p) as [|d0 ds0] eqn:Ep; [assert (E : value n [] c' us = value n [] c us) by (apply value_ext; intros d x []); rewrite E; apply Qcle_refl|]. rewrite <- Ep in *.
  assert (Ss : subgame_set m (map tvar p)). { split; [congruence|]. split; [intros d K; apply Cv; auto|]. intros d d' K R. destruct R as [|x y z D1 D2 R1 R2]; auto. apply Cv. clear - R2 D2. induction R2; auto. }
  assert (R := K3 _ Ss a us c' Lu Po' Dev).
  assert (E : value n (map tvar p) (fun v x => if in_dec String.string_dec v (map tvar p) then c v x else c' v x) us = value n (map tvar p) c us); [|rewrite E in R; auto].
  apply value_ext. intros d x K Wx. destruct (in_dec String.string_dec d (map tvar p)); [auto|contradiction].
Qed.
Print Assumptions C64_recall_partial.

(* ---- C63 ---- *)
(* Every profile that get_ne returns is a Nash equilibrium of the diagram, if the decisions of every agent can be ordered and the subgame is connected. *)
Theorem C63_orderly_partial : forall o nash solver m n nes b, valid_order o -> sound_solver nash ->
  valid m -> mgraph m = ngraph n -> no_clash (mgraph m) -> utilities_complete m -> built n -> distribution n -> unset_uniform n ->
  orderly m -> distinct_observations m (decisions m) ->
  get_ne o nash solver m n = Ok nes -> In b nes ->
  exists sm sn, subgame m n (decisions m) sm sn /\
    (connected sn -> exists c, policy n (decisions m) c /\ acts n (decisions m) b c /\ forall ags, equilibrium m n (decisions m) ags c).
Proof.
  intros o nash solver m n nes b O Sn V G NC U B Hd Uu Or Do H Hb. assert (N : NoDup (decisions m)) by (apply (LRel.valid_ready m V NC U)).
  assert (Dm : forall d, In d (decisions m) <-> is_decision m d) by (intro d; apply (in_decisions m d); auto).
  destruct (ne_found o nash solver m n None nes b O Sn V G NC U B Hd Uu N) as (sm & sn & ags & S & Ag & Tv & X); auto; [intros d K; apply Dm; auto|].
  exists sm, sn. split; auto. intro Co. destruct (X Co) as (I & Pos & (c0 & P0 & A0 & E0) & Tb).
  assert (Ru : ruled n [] n) by (split; [auto|auto|reflexivity|intros; tauto|auto|intros t a []|auto]).
  assert (St : stage m n (decisions m) b). { exists sm, sn, (decisions m), ags, c0. split; auto. split; auto. split; auto. split; auto. split; auto. split; [|split; auto]. intros t u Ht. apply (ok_ev _ _ _ (proj1 (Tb t Ht))). }
  destruct (stage_policy m n [] n (decisions m) b V G NC U Hd Ru) as (c & Pc & Pm & Ent); auto; [intros d K; apply Dm; auto|].
  exists c. split; auto. split; [split; auto|]. intros ags' a us c' _ Lu [Po' Dev].
  assert (R := stage_step_all m n (decisions m) (decisions m) c c' a us V G NC U Hd Dm Pc Lu Po' Dev [] n (decisions m) b [] Ru St).
  assert (E1 : value n (decisions m) (hyb c c' []) us = value n (decisions m) c' us) by (apply value_ext; intros d x K Wx; reflexivity). rewrite E1 in R.
  assert (E2 : value n (decisions m) (hyb c c' ([] ++ decisions m)) us = value n (decisions m) c us). { apply value_ext. intros d x K Wx. unfold hyb. cbn [map app]. destruct (in_dec String.string_dec d (decisions m)); [auto|contradiction]. }
  rewrite E2 in R. apply R; auto; try (solve [intros ? []]); try (solve [intros ? ? []]); try (solve [intros ? ? ? []]).
  - apply incl_refl.
  - intros d K. apply Dm. auto.
  - intros x y _ Dy _. left. apply Dm. auto.
  - apply orderly_part; auto.
Qed.
Print Assumptions C63_orderly_partial.
(* The same for diagrams that pass the sufficient recall test. *)
Theorem C63_recall_partial : forall o nash solver m n nes b, valid_order o -> sound_solver nash ->
  valid m -> mgraph m = ngraph n -> no_clash (mgraph m) -> utilities_complete m -> decisions_complete m -> built n -> distribution n -> unset_uniform n ->
  sufficient_recall m None = Ok true -> distinct_observations m (decisions m) ->
  get_ne o nash solver m n = Ok nes -> In b nes ->
  exists sm sn, subgame m n (decisions m) sm sn /\
    (connected sn -> exists c, policy n (decisions m) c /\ acts n (decisions m) b c /\ forall ags, equilibrium m n (decisions m) ags c).
Proof. intros o nash solver m n nes b O Sn V G NC U Dc B Hd Uu Sr. apply C63_orderly_partial; auto. exact (proj1 (C81_recall m V NC U Dc) Sr). Qed.
Print Assumptions C63_recall_partial.

(* ---- an example: one agent decides A and, knowing A, B; another decides C at the same time; both want B and C to be the same ---- *)
Local Open Scope string_scope.
Local Open Scope Qc_scope.
Definition ex_meet_graph : graph := mkG ["A"; "B"; "C"; "U"; "V"] [("A", "B"); ("B", "U"); ("C", "U"); ("B", "V"); ("C", "V")].
Definition ex_meet : macid := diagram_of ex_meet_graph [("1", ["A"; "B"]); ("2", ["C"])] [("1", ["U"]); ("2", ["V"])].
Definition ex_meet_net : net := made ex_meet_graph [("A", RDom [0; 1]); ("B", RDom [0; 1]); ("C", RDom [0; 1]);
  ("U", tab_of "U" [0; 1] ["B"; "C"] [2; 2]%nat [[0;1]; [1;0]; [1;0]; [0;1]]); ("V", tab_of "V" [0; 1] ["B"; "C"] [2; 2]%nat [[0;1]; [1;0]; [1;0]; [0;1]])].
(* a solver for games of this form: if nothing is better for anyone than that everyone always takes the first branch, do that *)
Definition meet_shape : list agent * list (option agent * nat) * list (list nat * nat) * list (list nat) :=
  (["1"; "2"], [(Some "1", 2); (Some "2", 2); (Some "1", 2); (Some "1", 2)],
   [([0; 1; 1], 3); ([0; 1; 0], 3); ([0; 0; 1], 2); ([0; 0; 0], 2); ([0; 1], 1); ([0; 0], 1); ([0], 0)],
   [[0; 1; 1; 1]; [0; 1; 1; 0]; [0; 1; 0; 1]; [0; 1; 0; 0]; [0; 0; 1; 1]; [0; 0; 1; 0]; [0; 0; 0; 1]; [0; 0; 0; 0]])%nat.
Definition shape_of (g : game) := (g_players g, map (fun s => (is_player s, length (is_actions s))) (g_isets g), g_moves g, map fst (g_payoffs g)).
Definition shape_dec : forall x y : list agent * list (option agent * nat) * list (list nat * nat) * list (list nat), {x = y} + {x <> y}.
Proof. repeat (decide equality; try apply string_dec). Defined.
Definition first_best (g : game) : list (nat -> list Qc) :=
  if shape_dec (shape_of g) meet_shape then
    if forallb (fun j => forallb (fun e => qleb (nth j (snd e) 0) (nth j (snd (last (g_payoffs g) ([], []))) 0)) (g_payoffs g)) [0; 1]%nat then [fun _ => [1; 0]] else []
  else [].
Lemma mul_nonneg : forall x y : Qc, 0 <= x -> 0 <= y -> 0 <= x * y.
Proof. intros x y Hx Hy. rewrite <- (Qcmult_0_l y). apply Qcmult_le_compat_r; auto. Qed.
Lemma mul_le : forall w x y : Qc, 0 <= w -> x <= y -> w * x <= w * y.
Proof. intros w x y Hw H. rewrite !(Qcmult_comm w). apply Qcmult_le_compat_r; auto. Qed.
Lemma first_best_sound : sound_solver (fun _ => first_best).
Proof.
  intros _ [pl is mo py] b H. unfold first_best in H. destruct (shape_dec _ _) as [E|]; [|contradiction]. unfold shape_of, meet_shape in E. cbn [g_players g_isets g_moves g_payoffs] in E, H. injection E as E1 E2 E3 E4. subst pl mo.
  destruct is as [|s0 [|s1 [|s2 [|s3 [|]]]]]; try discriminate E2. cbn [map] in E2. injection E2 as P0 A0 P1 A1 P2 A2 P3 A3.
  destruct py as [|[? p1] [|[? p2] [|[? p3] [|[? p4] [|[? p5] [|[? p6] [|[? p7] [|[? p8] [|]]]]]]]]]; try discriminate E4. cbn [map fst] in E4. injection E4 as -> -> -> -> -> -> -> ->.
  match type of H with In _ (if ?t then _ else _) => destruct t eqn:F; [|contradiction] end. destruct H as [<-|[]].
  match goal with |- behaves ?g0 _ /\ _ => set (g := g0) end.
  assert (Val : forall b x0 y0 x1 y1 x2 y2 x3 y3 j, b 0%nat = [x0; y0] -> b 1%nat = [x1; y1] -> b 2%nat = [x2; y2] -> b 3%nat = [x3; y3] ->
    game_value g b j = y0 * y1 * y3 * nth j p1 0 + (y0 * y1 * x3 * nth j p2 0 + (y0 * x1 * y3 * nth j p3 0 + (y0 * x1 * x3 * nth j p4 0 + (x0 * y1 * y2 * nth j p5 0 + (x0 * y1 * x2 * nth j p6 0 + (x0 * x1 * y2 * nth j p7 0 + x0 * x1 * x2 * nth j p8 0))))))).
  { intros b x0 y0 x1 y1 x2 y2 x3 y3 j B0 B1 B2 B3.
    assert (Bp : forall p i k, MGame.find idx_dec (0%nat :: p) (g_moves g) = Some k -> (k < 4)%nat -> branch_prob g b p i = nth i (b k) 0).
    { intros p i k Fk L. unfold branch_prob. rewrite Fk. unfold g. cbn [g_isets]. destruct k as [|[|[|[|k]]]]; [| | | |lia]; cbn [nth_error]; [rewrite P0|rewrite P1|rewrite P2|rewrite P3]; reflexivity. }
    unfold game_value. change (g_payoffs g) with [([0; 1; 1; 1]%nat, p1); ([0; 1; 1; 0]%nat, p2); ([0; 1; 0; 1]%nat, p3); ([0; 1; 0; 0]%nat, p4); ([0; 0; 1; 1]%nat, p5); ([0; 0; 1; 0]%nat, p6); ([0; 0; 0; 1]%nat, p7); ([0; 0; 0; 0]%nat, p8)].
    cbn [map fst snd tl fold_right reach_prob app].
    rewrite !(Bp [] _ 0%nat) by (reflexivity || lia). rewrite !(Bp [1]%nat _ 1%nat) by (reflexivity || lia). rewrite !(Bp [0]%nat _ 1%nat) by (reflexivity || lia).
    rewrite !(Bp [1; 1]%nat _ 3%nat) by (reflexivity || lia). rewrite !(Bp [1; 0]%nat _ 3%nat) by (reflexivity || lia). rewrite !(Bp [0; 1]%nat _ 2%nat) by (reflexivity || lia). rewrite !(Bp [0; 0]%nat _ 2%nat) by (reflexivity || lia).
    rewrite B0, B1, B2, B3. cbn [nth]. ring. }
  split.
  - intros k s a Es _. assert (L : length (is_actions s) = 2%nat) by (destruct k as [|[|[|[|k]]]]; cbn in Es; try (injection Es as <-; assumption); destruct k; discriminate Es). rewrite L. split; [reflexivity|]. split; [intros r [<-|[<-|[]]]; discriminate|reflexivity].
  - intros j a b' Hj [Bb _]. rewrite (Val (fun _ => [1; 0]) 1 0 1 0 1 0 1 0 j) by reflexivity.
    assert (Le : forall e, In e (g_payoffs g) -> nth j (snd e) 0 <= nth j p8 0).
    { intros e He. assert (Jj : In j [0; 1]%nat) by (destruct j as [|[|j]]; [left; auto|right; left; auto|destruct j; discriminate Hj]). rewrite forallb_forall in F. specialize (F j Jj). rewrite forallb_forall in F. specialize (F e He). apply qleb_iff in F. exact F. }
    assert (L1 := Le _ (or_introl eq_refl)). assert (L2 := Le _ (or_intror (or_introl eq_refl))). assert (L3 := Le _ (or_intror (or_intror (or_introl eq_refl)))). assert (L4 := Le _ (or_intror (or_intror (or_intror (or_introl eq_refl))))).
    assert (L5 := Le _ (or_intror (or_intror (or_intror (or_intror (or_introl eq_refl)))))). assert (L6 := Le _ (or_intror (or_intror (or_intror (or_intror (or_intror (or_introl eq_refl))))))). assert (L7 := Le _ (or_intror (or_intror (or_intror (or_intror (or_intror (or_intror (or_introl eq_refl)))))))). cbn [snd] in *.
    assert (Two : forall k s a, nth_error (g_isets g) k = Some s -> is_player s = Some a -> length (is_actions s) = 2%nat -> exists x y, b' k = [x; y] /\ 0 <= x /\ 0 <= y /\ x = 1 - y).
    { intros k s a' Es Ps Ls. destruct (Bb k s a' Es Ps) as (K1 & K2 & K3). rewrite Ls in K1. destruct (b' k) as [|x [|y [|]]]; try discriminate K1. exists x, y. split; auto. split; [apply K2; left; auto|]. split; [apply K2; right; left; auto|]. cbn [fold_right] in K3. rewrite <- K3. ring. }
    destruct (Two 0%nat s0 "1" eq_refl P0 A0) as (x0 & y0 & B0 & X0 & Y0 & S0). destruct (Two 1%nat s1 "2" eq_refl P1 A1) as (x1 & y1 & B1 & X1 & Y1 & S1). destruct (Two 2%nat s2 "1" eq_refl P2 A2) as (x2 & y2 & B2 & X2 & Y2 & S2). destruct (Two 3%nat s3 "1" eq_refl P3 A3) as (x3 & y3 & B3 & X3 & Y3 & S3).
    rewrite (Val b' x0 y0 x1 y1 x2 y2 x3 y3 j) by auto.
    eapply Qcle_trans; [repeat apply Qcplus_le_compat; apply mul_le; [|exact L1| |exact L2| |exact L3| |exact L4| |exact L5| |exact L6| |exact L7| |apply Qcle_refl]; repeat apply mul_nonneg; assumption|].
    match goal with |- ?x <= ?y => assert (X : x = y); [rewrite S0, S1, S2, S3; ring|rewrite X; apply Qcle_refl] end.
Qed.
Lemma ex_meet_built : built ex_meet_net /\ distribution ex_meet_net.
Proof.
  split; [apply made_built|apply dist_check_ok]; [vm_compute; reflexivity| |vm_compute; reflexivity|vm_compute; reflexivity]. rels_ok; [split; exact I|split; exact I|split; exact I|apply tab_admissible|apply tab_admissible].
Qed.
Definition shown (ps : list (list tab)) := map (map (fun t => (tvar t, map (map this) (tcols t)))) ps.
Definition meet_spe := match get_spe (fun x => x) (fun _ l => l) (fun _ => first_best) None ex_meet ex_meet_net with Ok ps => Some (shown ps) | _ => None end.
Lemma meet_spe_is : meet_spe = Some [[("A", [[1; 0]]); ("B", [[1; 0]; [1; 0]]); ("C", [[1; 0]])]]%Q.
Proof. vm_compute. reflexivity. Qed.
Lemma meet_decisions : forall a d, has_role ex_meet d (RDecision a) -> (a = "1" /\ (d = "A" \/ d = "B")) \/ (a = "2" /\ d = "C").
Proof.
  intros a d (l & Hl & Dl). assert (K : In (a, l) [("1", ["A"; "B"]); ("2", ["C"])]) by exact Hl. destruct K as [K|[K|[]]]; injection K as <- <-; [left|right]; (split; [reflexivity|]); [destruct Dl as [<-|[<-|[]]]; auto|destruct Dl as [<-|[]]; auto].
Qed.
Lemma meet_observations : forall l, distinct_observations ex_meet l.
Proof.
  intros l d d' a _ _ R R' H. apply meet_decisions in R. apply meet_decisions in R'.
  assert (X : ~ edge (mgraph ex_meet) "A" "A") by (intros [K|[K|[K|[K|[K|[]]]]]]; discriminate K). assert (Y : edge (mgraph ex_meet) "A" "B") by (left; reflexivity).
  destruct R as [[-> [->| ->]]|[-> ->]], R' as [[E [->| ->]]|[E ->]]; try discriminate E; try reflexivity; exfalso; apply X; apply H; exact Y.
Qed.
(* agent 1 makes two decisions in one component of the relevance graph and passes the recall test *)
Example C64_recall_example : valid_components (fun x => x) /\ valid_order (fun _ l => l) /\ sound_solver (fun _ => first_best) /\ valid ex_meet /\ mgraph ex_meet = ngraph ex_meet_net /\ no_clash (mgraph ex_meet) /\ motivated ex_meet /\ decisions_complete ex_meet /\
  sufficient_recall ex_meet None = Ok true /\ told_apart ex_meet /\ built ex_meet_net /\ distribution ex_meet_net /\ unset_uniform ex_meet_net /\ ~ one_per_component ex_meet /\ distinct_observations ex_meet (decisions ex_meet) /\
  (exists p, get_spe (fun x => x) (fun _ l => l) (fun _ => first_best) None ex_meet ex_meet_net = Ok [p] /\ map tvar p = ["A"; "B"; "C"]) /\
  (exists b, get_ne (fun _ l => l) (fun _ => first_best) None ex_meet ex_meet_net = Ok [b] /\ map tvar b = ["A"; "B"; "C"]).
Proof.
  destruct ex_meet_built as [B Hd]. split; [intro cs; exists cs; split; [apply Permutation_refl|induction cs; constructor; auto]|]. split; [intros s l; apply Permutation_refl|]. split; [exact first_best_sound|].
  assert (V : valid ex_meet) by (apply LCheck.check_ok; vm_compute; reflexivity). split; [exact V|]. split; [vm_compute; reflexivity|].
  assert (NC : no_clash (mgraph ex_meet)) by (intros x Hx; split; [|apply short_no_mec]; simpl in Hx; destruct Hx as [<-|[<-|[<-|[<-|[<-|[]]]]]]; simpl; auto 8 with arith; intuition discriminate). split; [exact NC|].
  assert (Mo : motivated ex_meet). { intros a d R. apply meet_decisions in R. destruct R as [[-> _]|[-> _]]; [exists "U", ["U"]|exists "V", ["V"]]; (split; [vm_compute; auto|left; auto]). }
  split; [exact Mo|]. assert (U := motivated_complete _ (proj1 (proj2 V)) Mo).
  split; [intros a K; assert (K' : In a ["1"; "2"]) by exact K; vm_compute; destruct K' as [<-|[<-|[]]]; auto|]. split; [vm_compute; reflexivity|]. split; [intros l _; apply meet_observations|]. split; [exact B|]. split; [exact Hd|].
  split; [apply PPolicy.unset_check; auto|].
  assert (RA : has_role ex_meet "A" (RDecision "1")) by (exists ["A"; "B"]; split; [vm_compute; auto|left; auto]). assert (RB : has_role ex_meet "B" (RDecision "1")) by (exists ["A"; "B"]; split; [vm_compute; auto|right; left; auto]). assert (RC : has_role ex_meet "C" (RDecision "2")) by (exists ["C"]; split; [vm_compute; auto|left; auto]).
  assert (DA : is_decision ex_meet "A") by (exists "1"; exact RA). assert (DB : is_decision ex_meet "B") by (exists "1"; exact RB). assert (DC : is_decision ex_meet "C") by (exists "2"; exact RC).
  assert (Re : forall d v, is_decision ex_meet d -> is_decision ex_meet v -> is_r_reachable ex_meet [d] [v] = Ok true -> r_relevant ex_meet d v) by (intros d v D1 D2 E; exact (proj1 (relevant_check ex_meet d v V NC U D1 (is_decision_in ex_meet v V D2)) E)).
  assert (R1 : r_relevant ex_meet "A" "B") by (apply Re; [exact DA|exact DB|vm_compute; reflexivity]). assert (R2 : r_relevant ex_meet "B" "C") by (apply Re; [exact DB|exact DC|vm_compute; reflexivity]). assert (R3 : r_relevant ex_meet "C" "A") by (apply Re; [exact DC|exact DA|vm_compute; reflexivity]).
  split; [|split; [apply meet_observations|split]].
  - intro K. assert (X : "A" = "B"); [|discriminate X]. apply (K "A" "B" "1" RA RB); [econstructor; [exact DA|exact DB|exact R1|constructor]|].
    econstructor; [exact DB|exact DC|exact R2|]. econstructor; [exact DC|exact DA|exact R3|constructor].
  - assert (L := meet_spe_is). unfold meet_spe in L. destruct (get_spe (fun x => x) (fun _ l => l) (fun _ => first_best) None ex_meet ex_meet_net) as [[|p [|]]|]; try discriminate L. exists p. split; auto. unfold shown in L. cbn [map] in L.
    destruct p as [|t [|t' [|t2 [|]]]]; cbn [map] in L; try discriminate L. injection L as E1 _ E2 _ E3 _. cbn [map]. rewrite E1, E2, E3. reflexivity.
  - assert (L : match get_ne (fun _ l => l) (fun _ => first_best) None ex_meet ex_meet_net with Ok ps => Some (shown ps) | _ => None end = Some [[("A", [[1; 0]]); ("B", [[1; 0]; [1; 0]]); ("C", [[1; 0]])]]%Q) by (vm_compute; reflexivity).
    destruct (get_ne (fun _ l => l) (fun _ => first_best) None ex_meet ex_meet_net) as [[|p [|]]|]; try discriminate L. exists p. split; auto. unfold shown in L. cbn [map] in L.
    destruct p as [|t [|t' [|t2 [|]]]]; cbn [map] in L; try discriminate L. injection L as E1 _ E2 _ E3 _. cbn [map]. rewrite E1, E2, E3. reflexivity.
Qed.
