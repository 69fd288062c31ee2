(* C49, C50, C60: the exported game. *)
From Coq Require Import String List Bool Arith QArith Qcanon Lia Permutation.
Import ListNotations.
From Verif Require Import MBase MGraph MMacid MCpd MNet MProb MQuery MGame Spec SpecM SpecC SpecN SpecQ SpecPol SpecGame LBase LGraph LRoles LQc LCpd LNet LCheck LCheckN LSum LBayes LQuery LFactor LBuilt LTotal PMacid PQuery PSolve LGame LGrow LTree LLevels LShape.
Local Open Scope nat_scope.

(* ---- C49 ---- *)
(* What the information sets are.  Two positions of decisions are in the same information set exactly when the decisions belong to
   the same agent and see the same: the same variables, in the same order, with the same values.  A position of a chance variable
   is in an information set of its own. *)
Theorem C49_information_sets : forall o m n so ao n' g keys, valid_order o -> wf_dag (ngraph n) -> macid_to_efg o m n so ao = (n', Ok (g, keys)) ->
  let sg := or_default so (decisions m) in
  exists vs, tree_variables n sg vs /\
    (forall p, position n vs p /\ length p < length vs <-> exists k, belongs g p k) /\
    (forall p k k', belongs g p k -> belongs g p k' -> k = k') /\
    forall p q k k' u w, belongs g p k -> belongs g q k' -> at_variable vs p u -> at_variable vs q w ->
      (In u sg -> In w sg -> (k = k' <-> lookup u (decision_agent m) = lookup w (decision_agent m) /\ exists pv, sees n u (history n vs p) pv /\ sees n w (history n vs q) pv)) /\
      (~ In u sg -> (k = k' <-> p = q)).
Proof.
  intros o m n so ao n' g keys O W H sg. destruct (efg_shape _ _ _ _ _ _ _ _ O W H) as [_ (vs & Sh)]. fold sg in Sh. exists vs. destruct (sh_tree _ _ _ _ _ _ _ _ Sh) as (n1 & t & L & G & HL & _ & _ & Em & _).
  assert (Eb : forall p k, belongs g p k <-> belongs (t_game t) p k) by (intros p k; unfold belongs; rewrite Em; tauto). assert (Nv : NoDup vs) by apply (sh_vars _ _ _ _ _ _ _ _ Sh).
  split; [apply Sh|]. split; [|split].
  - intro p. rewrite <- HL. split.
    + intro K. apply (in_map (cons 0)) in K. rewrite <- (gr_moves _ _ _ _ _ _ _ _ _ G) in K. apply in_map_iff in K. destruct K as ([idx k] & E & K). cbn in E. subst idx. exists k. apply Eb. auto.
    + intros (k & K). apply Eb in K. eapply grown_in; eauto.
  - intros p k k' K K'. apply Eb in K, K'. eapply grown_unique; eauto.
  - intros p q k k' u w K K' A A'. apply Eb in K, K'. split.
    + intros Hu Hw. destruct (gr_dec _ _ _ _ _ _ _ _ _ G p k u K A Hu) as (a & pv & i & D1 & D2 & D3 & _). destruct (gr_dec _ _ _ _ _ _ _ _ _ G q k' w K' A' Hw) as (a' & pv' & i' & D1' & D2' & D3' & _). destruct (gr_keys _ _ _ _ _ _ _ _ _ G) as [N1 N2]. split.
      * intros <-. pose proof (snd_unique _ _ _ _ _ _ N2 D3 D3') as E. injection E as -> ->. split; [congruence|]. exists pv'. auto.
      * intros (Ea & pv1 & S1 & S2). rewrite (sees_inj n u _ pv1 pv (history_nodup n vs p Nv) S1 D2) in S2. rewrite (sees_inj n w _ pv pv' (history_nodup n vs q Nv) S2 D2') in D3. assert (a = a') by congruence. subst a'.
        apply (in_find _ _ key_dec) in D3; auto. apply (in_find _ _ key_dec) in D3'; auto. congruence.
    + intro Hu. split; [|intros ->; eapply grown_unique; eauto]. intros <-. destruct (gr_chance _ _ _ _ _ _ _ _ _ G p k u K A Hu) as (pv & m1 & m2 & f & _ & _ & _ & _ & Un & _). symmetry. auto.
Qed.
Print Assumptions C49_information_sets.
(* So, if no two decisions of one agent have the same parents, the information sets are the right ones. *)
Theorem C49_partial : forall o m n so ao n' g keys, valid_order o -> wf_dag (ngraph n) -> macid_to_efg o m n so ao = (n', Ok (g, keys)) ->
  let sg := or_default so (decisions m) in separate m n sg ->
  exists vs, tree_variables n sg vs /\ (forall p, position n vs p /\ length p < length vs <-> exists k, belongs g p k) /\
    forall p q k k' u w, belongs g p k -> belongs g q k' -> at_variable vs p u -> at_variable vs q w -> In u sg -> In w sg ->
      (k = k' <-> u = w /\ forall x, edge (ngraph n) x u -> lookup x (history n vs p) = lookup x (history n vs q)).
Proof.
  intros o m n so ao n' g keys O W H sg Sp. destruct (C49_information_sets _ _ _ _ _ _ _ _ O W H) as (vs & Tv & Pos & Un & C). fold sg in Tv, C. exists vs. split; auto. split; auto.
  intros p q k k' u w B B' A A' Hu Hw. destruct (C p q k k' u w B B' A A') as [C1 _]. rewrite (C1 Hu Hw). assert (Nv : NoDup vs) by apply Tv. split.
  - intros (Ea & pv & S1 & S2). assert (E : u = w) by (apply Sp; auto; destruct S1 as [<- _]; apply S2). split; auto. subst w. intros x Ex. apply in_parents in Ex. destruct S1 as [S1 I1], S2 as [_ I2]. rewrite <- S1 in Ex. apply in_map_iff in Ex. destruct Ex as ([y z] & E & K). cbn in E. subst y.
    rewrite (In_lookup _ x z (history n vs p)); [|apply history_nodup; auto|auto]. symmetry. apply In_lookup; [apply history_nodup; auto|auto].
  - intros [<- E]. split; auto. destruct (C p p k k u u B B A A) as [C2 _]. destruct (proj1 (C2 Hu Hu) eq_refl) as (_ & pv & S1 & _). exists pv. split; auto. destruct S1 as [S1 I1]. split; auto. intros [x z] K. assert (Ex : edge (ngraph n) x u) by (apply in_parents; rewrite <- S1; apply in_map_iff; exists (x, z); auto).
    apply lookup_In. rewrite <- (E x Ex). apply In_lookup; [apply history_nodup; auto|]. auto.
Qed.
Print Assumptions C49_partial.

(* every variable but u is a parent of u *)
Lemma hub : forall n u, (forall v, In v (nodes (ngraph n)) -> v = u \/ edge (ngraph n) v u) -> connected n.
Proof.
  intros n u H v w Hv Hw. assert (J1 : joined (ngraph n) [] v u). { destruct (H v Hv) as [->|E]; [constructor|]. econstructor; [|constructor]. left. split; [exact E|intros []]. }
  assert (J2 : joined (ngraph n) [] u w). { destruct (H w Hw) as [->|E]; [constructor|]. econstructor; [|constructor]. right. split; [exact E|intros []]. }
  clear - J1 J2. induction J1; auto. econstructor; eauto.
Qed.
Ltac hub_of u := apply (hub _ u); intros v Hv; vm_compute in Hv; repeat (destruct Hv as [<-|Hv]; [first [left; reflexivity | right; vm_compute; tauto]|]); destruct Hv.
Lemma team_connected : connected ex_team_net.
Proof. hub_of "U"%string. Qed.
Definition same_move (r : net * result (game * list (key * nat))) (p q : list nat) : bool :=
  match r with
  | (_, Ok (g, _)) => existsb (fun e => match idx_dec (0 :: p) (fst e) with left _ => existsb (fun e' => match idx_dec (0 :: q) (fst e') with left _ => snd e =? snd e' | _ => false end) (g_moves g) | _ => false end) (g_moves g)
  | _ => false
  end.
Lemma same_move_ok : forall r p q, same_move r p q = true -> exists n' g keys k, r = (n', Ok (g, keys)) /\ belongs g p k /\ belongs g q k.
Proof.
  intros [n' [[g keys]|e]] p q H; [|discriminate]. apply existsb_exists in H. destruct H as ([i k] & H1 & H2). cbn [fst snd] in H2. destruct (idx_dec (0 :: p) i) as [E|]; [|discriminate]. apply existsb_exists in H2. destruct H2 as ([j k'] & H2 & H3). cbn [fst snd] in H3.
  destruct (idx_dec (0 :: q) j) as [E'|]; [|discriminate]. apply Nat.eqb_eq in H3. exists n', g, keys, k. unfold belongs. split; auto. split; congruence.
Qed.
Lemma team_merged : same_move (macid_to_efg (fun _ l => l) ex_team ex_team_net None None) [] [0] = true.
Proof. vm_compute. reflexivity. Qed.
Lemma team_order : tree_variables ex_team_net (decisions ex_team) ["D"; "E"]%string.
Proof.
  destruct ex_team_built as [_ Hd]. refine (proj1 (tree_order (fun _ l => l) ex_team ex_team_net (decisions ex_team) [[]; []] _ _ _ _ _)); [intros s l; apply Permutation_refl|exact (proj1 Hd)|vm_compute; reflexivity|vm_compute; reflexivity].
Qed.
(* In general they are not: two decisions of one agent that observe nothing share an information set. *)
Theorem C49_refuted : exists (o : order) (m : macid) (n n' : net) (g : game) (keys : list (key * nat)) (vs : list node) (p q : list nat) (k : nat) (u w : node), valid_order o /\ valid m /\ mgraph m = ngraph n /\ built n /\ distribution n /\ connected n /\
  macid_to_efg o m n None None = (n', Ok (g, keys)) /\ tree_variables n (decisions m) vs /\
  belongs g p k /\ belongs g q k /\ at_variable vs p u /\ at_variable vs q w /\ In u (decisions m) /\ In w (decisions m) /\ u <> w.
Proof.
  destruct ex_team_built as [B Hd]. destruct (same_move_ok _ _ _ team_merged) as (n' & g & keys & k & E & K1 & K2).
  exists (fun _ l => l), ex_team, ex_team_net, n', g, keys, ["D"; "E"]%string, [], [0], k, "D"%string, "E"%string.
  split; [intros s l; apply Permutation_refl|]. split; [apply LCheck.check_ok; vm_compute; reflexivity|]. split; [vm_compute; reflexivity|]. split; [exact B|]. split; [exact Hd|]. split; [exact team_connected|]. split; [exact E|]. split; [exact team_order|].
  split; [exact K1|]. split; [exact K2|]. split; [reflexivity|]. split; [reflexivity|]. split; [vm_compute; tauto|]. split; [vm_compute; tauto|]. discriminate.
Qed.
Print Assumptions C49_refuted.
Definition exported (r : net * result (game * list (key * nat))) : bool := match r with (_, Ok _) => true | _ => false end.
Lemma two_exported : exported (macid_to_efg (fun _ l => l) ex_two ex_two_net None None) = true.
Proof. vm_compute. reflexivity. Qed.
(* a diagram with two decisions of one agent, the second of which observes the first *)
Example C49_example : valid_order (fun _ l => l) /\ wf_dag (ngraph ex_two_net) /\ separate ex_two ex_two_net (decisions ex_two) /\
  exported (macid_to_efg (fun _ l => l) ex_two ex_two_net None None) = true.
Proof.
  destruct ex_two_built as [B Hd]. split; [intros s l; apply Permutation_refl|]. split; [exact (proj1 Hd)|]. split; [|exact two_exported].
  intros d d' K K' _ E. vm_compute in K, K'. destruct K as [<-|[<-|[]]], K' as [<-|[<-|[]]]; try reflexivity; vm_compute in E; discriminate.
Qed.
