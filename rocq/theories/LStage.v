(* Lemmas: what get_ne_in_sg finds is an equilibrium of the subgame. *)
From Coq Require Import String List Bool Arith QArith Qcanon Permutation Lia.
Import ListNotations.
From Verif Require Import MBase MGraph MMacid MRel MIncent MCpd MNet MProb MQuery MPolicy MGame MSub Spec SpecM SpecC SpecN SpecQ SpecPol SpecGame
  LBase LGraph LPaths LActive LRoles LCopy LMech LReach LIncent LTrim LCpd LNet LSum LQuery LDo LInter LLike LSearch LSolve LOptimal LTree LLevels LPayoff LGrow LShape LPlay LKept LMargin LSub PMacid PRel PPlay PSolve SpecSub.
Local Open Scope Qc_scope.

(* ---- relevance depends on the graph and the roles only ---- *)
Lemma extend_acyclic : forall g w v, wf_dag g -> ~ In w (nodes g) -> In v (nodes g) -> acyclic (extend g w v).
Proof.
  intros g w v W Nw Hv. assert (Ne : v <> w) by congruence.
  assert (E : forall x y, edge (extend g w v) x y <-> (x = w /\ y = v) \/ edge g x y) by (intros x y; unfold edge, extend; cbn; split; intros [K|K]; auto; [left; split; congruence|left; destruct K; congruence]).
  assert (R : forall x y, reach (extend g w v) x y -> x <> w -> reach g x y /\ y <> w).
  { intros x y R. induction R as [x|x y z K R IH]; intro Nx; [split; auto; constructor|]. apply E in K. destruct K as [[-> _]|K]; [congruence|].
    assert (Ny : y <> w) by (intros ->; apply W in K; tauto). destruct (IH Ny) as [R1 R2]. split; auto. econstructor; eauto. }
  intros u (x & K & Rx). apply E in K. destruct K as [[-> ->]|K].
  - destruct (R _ _ Rx Ne) as [_ X]. congruence.
  - assert (Nx : x <> w) by (intros ->; apply W in K; tauto). destruct (R _ _ Rx Nx) as [R1 _]. apply (proj2 W u). exists x. auto.
Qed.
Lemma same_reach : forall g g' x y, (forall u v, edge g u v -> edge g' u v) -> reach g x y -> reach g' x y.
Proof. intros g g' x y E R. induction R; [constructor|econstructor; eauto]. Qed.
Lemma same_relevant : forall m m' d v, wf_dag (mgraph m') -> (forall x, In x (nodes (mgraph m')) <-> In x (nodes (mgraph m))) -> (forall x y, edge (mgraph m') x y <-> edge (mgraph m) x y) -> (forall x r, has_role m' x r <-> has_role m x r) ->
  In v (nodes (mgraph m)) -> r_relevant m d v -> r_relevant m' d v.
Proof.
  intros m m' d v W N E R Hv (a & u & w & L1 & L2 & De & Nw & Z & HZ & C). exists a, u, w. split; [apply (R d (RDecision a)); auto|]. split; [apply (R u (RUtility a)); auto|]. split.
  - destruct De as (x & K & De). exists x. split; [apply E; auto|]. eapply same_reach; [|eauto]. intros; apply E; auto.
  - split; [rewrite N; auto|]. exists Z. split; [intro x; rewrite HZ, E; tauto|]. eapply dconn_more; [apply extend_acyclic; auto; rewrite N; auto| |exact C].
    intros x y K. unfold edge, extend in *. cbn in *. destruct K as [K|K]; auto. right. apply E; auto.
Qed.
Lemma same_kept : forall m m' ds v, wf_dag (mgraph m) -> wf_dag (mgraph m') -> (forall x, In x (nodes (mgraph m')) <-> In x (nodes (mgraph m))) -> (forall x y, edge (mgraph m') x y <-> edge (mgraph m) x y) -> (forall x r, has_role m' x r <-> has_role m x r) ->
  In v (nodes (mgraph m)) -> (kept m' ds v <-> kept m ds v).
Proof.
  intros m m' ds v W W' N E R Hv. split; intros [K|(d & K & K')]; [left; auto| |left; auto|]; right; exists d; split; auto.
  - eapply same_relevant; [| | | | |exact K']; auto; try (intros; symmetry; auto). apply N; auto.
  - eapply same_relevant; [| | | | |exact K']; auto.
Qed.
Lemma same_subgame : forall m m' n ds sm sn, valid m -> wf_dag (mgraph m') -> mgraph m' = ngraph n -> (forall x, In x (nodes (mgraph m')) <-> In x (nodes (mgraph m))) -> (forall x y, edge (mgraph m') x y <-> edge (mgraph m) x y) ->
  (forall x r, has_role m' x r <-> has_role m x r) -> subgame m' n ds sm sn -> subgame m n ds sm sn.
Proof.
  intros m m' n ds sm sn V W' G N E R S. assert (W : wf_dag (mgraph m)) by apply V.
  assert (Nd : forall x, In x (nodes (ngraph n)) <-> In x (nodes (mgraph m))) by (intro x; rewrite <- G; auto).
  assert (In' : forall v, In v (nodes (ngraph sn)) -> In v (nodes (mgraph m))).
  { intros v Hv. apply (sg_node _ _ _ _ _ S) in Hv. destruct Hv as (u & [K|K]); apply (sg_edge _ _ _ _ _ S) in K; destruct K as [K _]; rewrite <- G, E in K; apply W in K; tauto. }
  assert (Sk : forall v, In v (nodes (mgraph m)) -> (kept m' ds v <-> kept m ds v)) by (intros; apply same_kept; auto).
  constructor; try apply S.
  - intros d a. rewrite (sg_decision _ _ _ _ _ S), R. tauto.
  - intros u a. rewrite (sg_utility _ _ _ _ _ S), R. split; intros [(d & K & K') Ro]; (split; [|auto]); exists d; split; auto.
    + eapply same_relevant; [| | | | |exact K']; auto; try (intros; symmetry; auto). apply N. apply (proj2 (proj2 V) a u). right. auto.
    + eapply same_relevant; [| | | | |exact K']; auto. apply (proj2 (proj2 V) a u). right. auto.
  - intros u v. rewrite (sg_edge _ _ _ _ _ S). split; intros [K K']; (split; [auto|]); apply Sk; auto; rewrite <- G, E in K; apply W in K; tauto.
  - intros v Hv K. apply (sg_dom _ _ _ _ _ S); auto. apply Sk; auto.
  - intros v Hv K. apply (sg_outer_dom _ _ _ _ _ S); auto. rewrite Sk; auto.
  - intros v a b Hv K Si. apply (sg_kernel _ _ _ _ _ S); auto. apply Sk; auto.
  - intros v a Hv K. apply (sg_outer _ _ _ _ _ S); auto. rewrite Sk; auto.
Qed.

(* ---- subgames are diagrams ---- *)
Lemma joined_snoc : forall g x y z, joined g [] x y -> edge g y z \/ edge g z y -> joined g [] x z.
Proof. intros g x y z J K. induction J as [x|x w y H J IH]; [apply joined_step with z; [destruct K; [left|right]; split; auto|constructor]|eapply joined_step; [exact H|auto]]. Qed.
Lemma joined_sym : forall g x y, joined g [] x y -> joined g [] y x.
Proof. intros g x y J. induction J as [x|x w y H J IH]; [constructor|]. eapply joined_snoc; [exact IH|]. destruct H as [[H _]|[H _]]; auto. Qed.
Lemma joined_trans : forall g x y z, joined g [] x y -> joined g [] y z -> joined g [] x z.
Proof. intros g x y z J K. induction J as [x|x w y H J IH]; auto. eapply joined_step; eauto. Qed.
Section Subgame.
Variables (m : macid) (n : net) (ds : list node) (sm : macid) (sn : net).
Hypothesis V : valid m.
Hypothesis G : mgraph m = ngraph n.
Hypothesis NC : no_clash (mgraph m).
Hypothesis S : subgame m n ds sm sn.
Lemma kept_joined : forall d v, In d ds -> r_relevant m d v -> In v (nodes (mgraph m)) -> joined (ngraph sn) [] v d.
Proof. intros d v Hd R Hv. apply (relevant_joined m); auto. intros x y K K'. apply (sg_edge _ _ _ _ _ S). rewrite <- G. split; auto. right. eauto. Qed.
Lemma sub_node : forall v w, v <> w -> joined (ngraph sn) [] v w -> In v (nodes (ngraph sn)).
Proof. intros v w Ne J. destruct J as [|u x z K J]; [congruence|]. apply (sg_node _ _ _ _ _ S). exists x. tauto. Qed.
Lemma sub_in : forall v, In v (nodes (ngraph sn)) -> In v (nodes (ngraph n)).
Proof. intros v Hv. apply (sg_node _ _ _ _ _ S) in Hv. destruct Hv as (u & [K|K]); apply (sg_edge _ _ _ _ _ S) in K; destruct K as [K _]; rewrite <- G in *; apply (proj1 V) in K; tauto. Qed.
Lemma sub_valid : incl ds (nodes (ngraph sn)) -> valid sm.
Proof.
  intro I. split; [rewrite (sg_graph _ _ _ _ _ S); apply (proj1 (sg_dist _ _ _ _ _ S))|]. split; [apply (sg_consistent _ _ _ _ _ S)|]. intros a v K. rewrite (sg_graph _ _ _ _ _ S). destruct K as [K|K].
  - apply I. apply (sg_decision _ _ _ _ _ S v a). exact K.
  - apply (sg_utility _ _ _ _ _ S v a) in K. destruct K as [(d & Hd & R) Ro]. apply (sub_node v d); [|apply kept_joined; auto; apply (proj2 (proj2 V) a v); right; auto].
    intros ->. destruct R as (b & _ & _ & L & _). exact (role_disjoint m d b a V L Ro).
Qed.
Lemma sub_connected : (forall d d', In d ds -> In d' ds -> joined (ngraph sn) [] d d') -> connected sn.
Proof.
  intros J. assert (X : forall v, In v (nodes (ngraph sn)) -> exists d, In d ds /\ joined (ngraph sn) [] v d).
  { assert (Y : forall v, kept m ds v -> In v (nodes (mgraph m)) -> exists d, In d ds /\ joined (ngraph sn) [] v d).
    { intros v [K|(d & K & R)] Hv; [exists v; split; auto; constructor|exists d; split; auto; apply kept_joined; auto]. }
    intros v Hv. assert (Hv' := sub_in v Hv). rewrite <- G in Hv'. apply (sg_node _ _ _ _ _ S) in Hv. destruct Hv as (u & [K|K]); assert (K' := K); apply (sg_edge _ _ _ _ _ S) in K; destruct K as [K Kp].
    - apply Y; auto.
    - destruct (Y u Kp) as (d & Hd & Jd); [rewrite <- G in K; apply (proj1 V) in K; tauto|]. exists d. split; auto. eapply joined_step; [left; split; [exact K'|intros []]|auto]. }
  intros u v Hu Hv. destruct (X u Hu) as (d & Hd & Ju), (X v Hv) as (d' & Hd' & Jv). eapply joined_trans; [exact Ju|]. eapply joined_trans; [apply J; eauto|]. apply joined_sym; auto.
Qed.
(* decisions that rely on each other *)
Lemma relies_joined : forall d d', relies_on m d d' -> (forall e, relies_on m d e -> relies_on m e d' -> In e ds) -> joined (ngraph sn) [] d d'.
Proof.
  intros d d' R. induction R as [d|x y z Dx Dy K R IH]; intro H; [constructor|]. assert (Hx : In x ds) by (apply H; [constructor|econstructor; eauto]).
  assert (J : joined (ngraph sn) [] y x) by (apply kept_joined; auto; apply is_decision_in; auto). eapply joined_trans; [apply joined_sym; exact J|]. apply IH. intros e R1 R2. apply H; auto. econstructor; eauto.
Qed.
Lemma sub_owner : forall d a, lookup d (decision_agent sm) = Some a <-> In d ds /\ has_role m d (RDecision a).
Proof. intros d a. rewrite <- (sg_decision _ _ _ _ _ S). symmetry. apply good_listed_decision. apply good_consistent. apply (sg_consistent _ _ _ _ _ S). Qed.
Lemma sub_separate : (forall d, In d ds -> is_decision m d) -> distinct_observations m ds -> separate sm sn ds.
Proof.
  intros Hds Dm d d' Hd Hd' L P. destruct (Hds d Hd) as [a Ra]. assert (La : lookup d (decision_agent sm) = Some a) by (apply sub_owner; auto). assert (La' : lookup d' (decision_agent sm) = Some a) by congruence. apply sub_owner in La'.
  apply (Dm d d' a); auto; [apply La'|]. intro u. rewrite G. assert (X : forall e, In e ds -> (edge (ngraph n) u e <-> In u (parents (ngraph sn) e))).
  { intros e He. rewrite in_parents, (sg_edge _ _ _ _ _ S). unfold kept. tauto. }
  rewrite !X, P by auto. tauto.
Qed.
(* the nodes that are not kept are parents of the decisions *)
Lemma outer_parent : forall v, In v (nodes (ngraph sn)) -> ~ kept m ds v -> exists d, In d ds /\ edge (ngraph n) v d.
Proof.
  intros v Hv Nk. apply (sg_node _ _ _ _ _ S) in Hv. destruct Hv as (w & K). rewrite !(sg_edge _ _ _ _ _ S) in K. destruct K as [[_ K]|[K1 [K2|(d & Kd & K2)]]]; [contradiction|exists w; auto|]. exists d. split; auto.
  destruct (parent_relevant m d v w V NC) as [->|K3]; [rewrite G; auto|auto|intro R; apply Nk; right; eauto|exfalso; apply Nk; left; auto|rewrite <- G; auto].
Qed.
Lemma sub_table : forall d t, In d ds -> In d (nodes (ngraph sn)) -> table_ok sn d t -> table_ok n d t.
Proof.
  intros d t Hd Hn [T1 T2 T3 T4 T5]. assert (Kd : kept m ds d) by (left; auto). assert (Ev : forall p, In p (tev t) <-> edge (ngraph n) p d) by (intro p; rewrite T4, (sg_edge _ _ _ _ _ S); tauto).
  constructor; auto.
  - rewrite <- T3. symmetry. apply (sg_dom _ _ _ _ _ S); auto.
  - rewrite T5. apply map_ext_in. intros p Hp. assert (Np : In p (nodes (ngraph sn))) by (apply (sg_node _ _ _ _ _ S); exists d; right; apply T4; auto).
    match goal with |- ?x = ?y => destruct (Nat.eq_dec x y) as [|Ne]; auto end. exfalso. assert (Nk : ~ kept m ds p) by (intro K; apply Ne; rewrite (sg_dom _ _ _ _ _ S); auto).
    apply Ne. apply Permutation_length. apply (sg_outer_dom _ _ _ _ _ S); auto.
Qed.
End Subgame.

(* ---- what is found in a subgame ---- *)
(* the leaf of the given values *)
Lemma leaf_of : forall n vs x, (forall v, In v vs -> In (x v) (dom_of (doms n) v)) -> exists p, length p = length vs /\ position n vs p /\ history n vs p = ctx x vs.
Proof.
  intros n. induction vs as [|v vs IH]; intros x H; [exists []; split; [auto|split; [exact I|auto]]|]. destruct (IH x) as (p & P1 & P2 & P3); [intros; apply H; right; auto|]. destruct (In_nth _ _ 0 (H v (or_introl eq_refl))) as (i & Hi & Ei).
  exists (i :: p). cbn [length position history]. rewrite P1, P3. split; auto. split; auto. unfold ctx. cbn [map]. f_equal. f_equal. exact Ei.
Qed.
(* the export succeeds only if all values of the variables of the tree are possible *)
Lemma efg_possible : forall o m n sg ags vs g ks x, valid_order o -> built n -> distribution n -> connected n -> shaped o m n sg ags vs g ks -> ags <> [] -> within n x -> do_prob n [] (ctx x vs) <> 0.
Proof.
  intros o m n sg ags vs g ks x O B Hd Co Sh Na Wx. destruct (leaf_of n vs x) as (p & P1 & P2 & P3); [intros v Hv; apply Wx; apply (sh_nodes _ _ _ _ _ _ _ _ Sh); auto|].
  assert (K : In (0%nat :: p) (map fst (g_payoffs g))) by (apply (sh_leaves _ _ _ _ _ _ _ _ Sh); exists p; auto). apply in_map_iff in K. destruct K as ([idx us] & E & K). cbn in E. subst idx.
  destruct (sh_pay _ _ _ _ _ _ _ _ Sh p us K) as (n1 & n2 & [_ Ln] & Pp). rewrite (Ln Co) in Pp. destruct ags as [|a ags]; [congruence|].
  rewrite <- P3. apply (payoffs_inv o m n O B Hd Co _ _ _ _ (history_nodup n vs p (proj1 (sh_vars _ _ _ _ _ _ _ _ Sh))) Pp 0%nat a eq_refl).
Qed.
Lemma root_possible : forall o m n sg ags vs g ks v x, valid_order o -> built n -> distribution n -> connected n -> shaped o m n sg ags vs g ks -> ags <> [] -> In v vs -> (forall u, ~ edge (ngraph n) u v) -> within n x -> kernel n v x <> 0.
Proof.
  intros o m n sg ags vs g ks v x O B Hd Co Sh Na Hv Nu Wx Z. assert (Hn := sh_nodes _ _ _ _ _ _ _ _ Sh v Hv). apply (do_prob_sub n [(v, x v)] (ctx x vs) Hd); [|eapply efg_possible; eauto|].
  - intros y [<-|[]]. apply in_map_iff. exists v. auto.
  - eapply eq_trans; [apply (kernel_given n v (x v) [] x Hd Hn (Wx v Hn))|rewrite Z; ring].
    + destruct (parents (ngraph n) v) as [|u l] eqn:E; auto. exfalso. apply (Nu u). apply in_parents. rewrite E. left. auto.
    + unfold agrees. cbn. rewrite (proj2 (LQc.oeqb_iff (x v) (x v)) eq_refl). auto.
Qed.
Lemma stage_found : forall o m n ds sm sn sn' ags g ks b ts, valid_order o -> valid m -> mgraph m = ngraph n -> no_clash (mgraph m) -> distinct_observations m ds -> (forall d, In d ds -> is_decision m d) ->
  subgame m n ds sm sn -> connected sn -> macid_to_efg o sm sn (Some ds) (Some ags) = (sn', Ok (g, ks)) -> behaves g b -> game_equilibrium g b -> behavior_to_cpd sm sn' ks b (Some ds) = Ok ts -> (ds <> [] -> ags <> []) ->
  incl ds (nodes (ngraph sn)) /\ (forall v a, In v (nodes (ngraph sn)) -> ~ kept m ds v -> within sn a -> kernel sn v a <> 0) /\ (exists c, policy sn ds c /\ acts sn ds ts c /\ equilibrium sm sn ds ags c) /\ forall t, In t ts -> table_ok n (tvar t) t /\ tkind t = KStoch.
Proof.
  intros o m n ds sm sn sn' ags g ks b ts O V G NC Do Hds S Co E Bb Eq Et Na. assert (Hd := sg_dist _ _ _ _ _ S). assert (B := sg_built _ _ _ _ _ S).
  destruct (efg_shape _ _ _ _ _ _ _ _ O (proj1 Hd) E) as ([_ Ln] & vs & Sh). assert (sn' = sn) by auto. subst sn'. cbn [or_default] in Sh.
  assert (I : incl ds (nodes (ngraph sn))). { intros d K. apply (sh_nodes _ _ _ _ _ _ _ _ Sh). apply (proj1 (proj2 (sh_vars _ _ _ _ _ _ _ _ Sh))). auto. }
  assert (Vs := sub_valid m n ds sm sn V G NC S I). assert (Sp := sub_separate m n ds sm sn G S Hds Do).
  assert (Cm : compatible sm sn ds) by (intros d d' K K' L P; rewrite (Sp d d'); auto).
  destruct (tables_full o sm sn ds ags vs g ks Hd Sh b Bb Cm) as (ts' & E' & A & T). assert (ts' = ts). { assert (X : behavior_to_cpd sm sn ks b (Some ds) = Ok ts') by exact E'. congruence. } subst ts'. clear E'.
  split; auto. split; [|split].
  - intros v x Hv Nk Wx. apply (root_possible o sm sn ds ags vs g ks); auto.
    + apply Na. intros ->. apply (sg_node _ _ _ _ _ S) in Hv. destruct Hv as (w & K). rewrite !(sg_edge _ _ _ _ _ S) in K. destruct K as [[_ [[]|(d & [] & _)]]|[_ [[]|(d & [] & _)]]].
    + apply (proj1 (proj2 (sh_vars _ _ _ _ _ _ _ _ Sh))). right. assert (K3 := outer_parent m n ds sm sn V G NC S v Hv Nk).
      destruct K3 as (d & Kd & K3). exists d. split; auto. apply (sg_edge _ _ _ _ _ S). split; auto. left. auto.
    + intros u K. apply (sg_edge _ _ _ _ _ S) in K. destruct K as [_ K]. contradiction.
  - exists (played sm sn ks b). split; [eapply played_policy; eauto|]. split; auto. destruct (C60_equilibria_partial o sm sn (Some ds) (Some ags) sn g ks b ts (played sm sn ks b) O Vs B Hd Co E Cm Bb Et A) as [_ X]. apply X; auto.
  - intros t Ht. destruct (T t Ht) as [T1 T2]. split; auto. assert (Hs : In (tvar t) ds) by (destruct A as [<- _]; apply in_map; auto). apply (sub_table m n ds sm sn S); auto.
Qed.
Lemma solver_found : forall nash ov g bs b, sound_solver nash -> pygambit_ne_solver nash ov g = Ok bs -> In b bs -> behaves g b /\ game_equilibrium g b.
Proof.
  intros nash ov g bs b Sn H Hb. unfold pygambit_ne_solver in H. cbv zeta in H. match type of H with context [String.eqb ?s "enumpure"] => destruct (String.eqb s "enumpure") eqn:Ee end.
  - injection H as <-. destruct (nash "enumpure"%string g) eqn:En; [destruct ov; [destruct Hb|eapply Sn; eauto]|]. eapply Sn. rewrite En. eauto.
  - match type of H with (if ?c then _ else _) = _ => destruct c end; [|discriminate]. injection H as <-. eapply Sn; eauto.
Qed.
Lemma init_var : forall g ds cards v f fo k t, init_table g ds cards v f fo k = Ok t -> tvar t = v.
Proof.
  intros g ds cards v f fo k t H. unfold init_table in H.
  repeat match type of H with
  | bind ?x _ = _ => destruct x eqn:?; cbn [bind] in H; [|discriminate]
  | (if ?c then _ else _) = _ => destruct c; try discriminate
  end. injection H as <-. reflexivity.
Qed.
Lemma rules_vars : forall m n ks b ds ts, behavior_to_cpd m n ks b (Some ds) = Ok ts -> map tvar ts = ds.
Proof.
  intros m n ks b ds ts H. apply map_r_ok in H. induction H as [|d t ds ts H _ IH]; auto. cbn [map]. rewrite IH. f_equal. destruct (dict_get d (doms n)); [|discriminate]. cbn [bind] in H. eapply init_var; eauto.
Qed.
(* everything about a call of get_ne_in_sg *)
Lemma ne_found : forall o nash solver m n ods nes b, valid_order o -> sound_solver nash -> valid m -> mgraph m = ngraph n -> no_clash (mgraph m) -> utilities_complete m -> built n -> distribution n -> unset_uniform n ->
  let ds := match ods with None => decisions m | Some l => o ["decisions"%string] (to_set l) end in
  NoDup ds -> (forall d, In d ds -> is_decision m d) -> distinct_observations m ds -> get_ne_in_sg o nash solver m n ods = Ok nes -> In b nes ->
  exists sm sn ags, subgame m n ds sm sn /\ (forall a, In a ags <-> exists d, In d ds /\ has_role m d (RDecision a)) /\ map tvar b = ds /\
    (connected sn -> incl ds (nodes (ngraph sn)) /\ (forall v a, In v (nodes (ngraph sn)) -> ~ kept m ds v -> within sn a -> kernel sn v a <> 0) /\ (exists c, policy sn ds c /\ acts sn ds b c /\ equilibrium sm sn ds ags c) /\ forall t, In t b -> table_ok n (tvar t) t /\ tkind t = KStoch).
Proof.
  intros o nash solver m n ods nes b O Sn V G NC U B Hd Uu ds N Hds Do H Hb. unfold get_ne_in_sg in H. fold ds in H. destruct (map_r (fun d => dict_get d (decision_agent m)) ds) as [agl|] eqn:Ea; [|discriminate]. cbn [bind] in H.
  destruct (create_subgame o m n ds) as [[sm sn]|] eqn:Es; [|discriminate]. cbn [bind] in H. destruct (macid_to_efg o sm sn (Some ds) (Some (o ["agents"%string] (to_set agl)))) as [sn' [[g ks]|]] eqn:Eg; [|discriminate]. cbn [bind] in H.
  destruct (pygambit_ne_solver nash solver g) as [bs|] eqn:Ep; [|discriminate]. cbn [bind] in H. assert (S := create_subgame_spec o m n ds sm sn O V G NC U N Hds B Hd Uu Es).
  apply map_r_ok in H. destruct (Forall2_in_r _ _ _ _ _ _ H Hb) as (bh & Hh & Eb). destruct (solver_found _ _ _ _ _ Sn Ep Hh) as [Bb Eq].
  exists sm, sn, (o ["agents"%string] (to_set agl)). split; auto. split; [|split].
  - intro a. assert (P := O ["agents"%string] (to_set agl)). transitivity (In a agl); [split; intro K; [apply (Permutation_in a P) in K; apply in_to_set; auto|apply (Permutation_in a (Permutation_sym P)), in_to_set; auto]|].
    apply map_r_ok in Ea. assert (Gr : good_roles m) by (apply good_consistent; apply V). split.
    + intro K. destruct (Forall2_in_r _ _ _ _ _ _ Ea K) as (d & Hs & Ed). exists d. split; auto. apply good_listed_decision; auto. unfold dict_get in Ed. destruct (lookup d (decision_agent m)); [congruence|discriminate].
    + intros (d & Hs & Ro). apply (good_listed_decision m a d Gr) in Ro. destruct (Forall2_in_l _ _ _ _ _ _ Ea Hs) as (a' & Ha & Ed). unfold dict_get in Ed. rewrite Ro in Ed. injection Ed as <-. auto.
  - eapply rules_vars; eauto.
  - intro Co. eapply (stage_found o m n ds); eauto. intros Nd E. destruct ds as [|d l]; [congruence|]. destruct agl as [|x agl]; [apply map_r_ok in Ea; inversion Ea|].
    assert (K : In x (o ["agents"%string] (to_set (x :: agl)))) by (apply (Permutation_in x (Permutation_sym (O _ _))), in_to_set; left; auto). rewrite E in K. destruct K.
Qed.
Lemma component_found : forall o nash solver m n l nes b, valid_order o -> sound_solver nash -> valid m -> mgraph m = ngraph n -> no_clash (mgraph m) -> utilities_complete m -> distinct_observations m l -> built n -> distribution n -> unset_uniform n ->
  NoDup l -> (forall d, In d l -> is_decision m d) -> (forall x y, In x l -> In y l -> relies_on m x y) -> (forall x e y, In x l -> In y l -> relies_on m x e -> relies_on m e y -> In e l) ->
  get_ne_in_sg o nash solver m n (Some l) = Ok nes -> In b nes ->
  stage m n l b /\ Permutation (map tvar b) l /\ forall t, In t b -> table_ok n (tvar t) t /\ tkind t = KStoch.
Proof.
  intros o nash solver m n l nes b O Sn V G NC U Do B Hd Uu N Hl Re Cl H Hb.
  assert (P : Permutation (o ["decisions"%string] (to_set l)) l). { eapply Permutation_trans; [apply O|]. apply NoDup_Permutation; auto; [apply NoDup_to_set|]. intro x. apply in_to_set. }
  assert (M : forall d, In d (o ["decisions"%string] (to_set l)) <-> In d l) by (intro d; split; apply Permutation_in; auto; apply Permutation_sym; auto).
  destruct (ne_found o nash solver m n (Some l) nes b O Sn V G NC U B Hd Uu) as (sm & sn & ags & S & Ag & Tv & X); auto.
  - apply (Permutation_NoDup (Permutation_sym P)); auto.
  - intros d K. apply Hl, M; auto.
  - intros d d' a K K'. apply Do; apply M; auto.
  - assert (Co : connected sn). { apply (sub_connected m n _ sm sn V G NC S). intros d d' K K'. apply M in K. apply M in K'. eapply relies_joined; eauto. intros e R1 R2. apply M. eauto. }
    destruct (X Co) as (In1 & In2 & (c & C1 & C2 & C3) & T). split; [|split]; auto.
    + exists sm, sn, (o ["decisions"%string] (to_set l)), ags, c. split; auto. split; [|split; [auto|split; [auto|split; [auto|split; [intros t u Ht; apply (ok_ev _ _ _ (proj1 (T t Ht)))|auto]]]]]. intro a. rewrite Ag. split; intros (d & K & K'); exists d; split; auto; apply M; auto.
    + rewrite Tv. auto.
Qed.

(* ---- the components one after the other ---- *)
Lemma ne_graph : forall o nash solver m g n ods, get_ne_in_sg o nash solver (with_graph m g) n ods = get_ne_in_sg o nash solver m n ods.
Proof. reflexivity. Qed.
Lemma extend_graph : forall o nash solver m g scc spes n, extend_spes o nash solver (with_graph m g) scc n spes = extend_spes o nash solver m scc n spes.
Proof. intros o nash solver m g scc. induction spes as [|p spes IH]; intro n; cbn [extend_spes]; auto. destruct (ok_net (add_policy n p)); cbn [bind]; auto. rewrite ne_graph. destruct (get_ne_in_sg _ _ _ _ _ _); cbn [bind]; auto. rewrite IH. auto. Qed.
Lemma spe_graph : forall o nash solver m g sccs n spes, spe_loop o nash solver (with_graph m g) n spes sccs = spe_loop o nash solver m n spes sccs.
Proof. intros o nash solver m g. induction sccs as [|l sccs IH]; intros n spes; cbn [spe_loop]; auto. rewrite extend_graph. destruct (extend_spes _ _ _ _ _ _ _); cbn [bind]; auto. Qed.
Section Loop.
Variables (o : order) (nash : string -> game -> list (nat -> list Qc)) (solver : option string) (m : macid) (n : net) (mc : macid) (n0 : net).
Hypothesis O : valid_order o.
Hypothesis Sn : sound_solver nash.
Hypothesis V : valid m.
Hypothesis Hn : distribution n.
Hypothesis Gm : mgraph m = ngraph n.
Hypothesis L0 : like n n0.
Hypothesis Vc : valid mc.
Hypothesis G0 : mgraph mc = ngraph n0.
Hypothesis NC : no_clash (mgraph mc).
Hypothesis U : utilities_complete mc.
Hypothesis Do : forall l, (forall x y, In x l -> In y l -> relies_on mc x y) -> distinct_observations mc l.
Hypothesis Ro : forall x r, has_role mc x r <-> has_role m x r.
Hypothesis Uu : unset_uniform n0.
Definition going (P : list node) (k : net) : Prop := built k /\ distribution k /\ differ_in (fun v => In v P) n0 k.
Definition fits (P : list node) (p : list tab) : Prop := (forall t, In t p -> table_ok n0 (tvar t) t /\ tkind t = KStoch) /\ NoDup (map tvar p) /\ forall v, In v (map tvar p) <-> In v P.
Lemma added : forall P k p k', incl P (nodes (ngraph n0)) -> going P k -> fits P p -> add_policy k p = (k', None) -> going P k' /\ unset_uniform k' /\ ngraph k' = ngraph n0 /\ (forall v, dom_of (doms k') v = dom_of (doms n0) v) /\ ruled n p k'.
Proof.
  intros P k p k' I (B & Hd & Df) (T & N & M) E. assert (Gk : ngraph k = ngraph n0) by apply Df. assert (Dk := same_dom_of n0 k (proj1 (proj2 Df))).
  destruct (add_all p k k' B Hd) as (B' & Hd' & Df' & Tb); auto.
  { intros t Ht. split; [rewrite Gk; apply I, M, in_map; auto|]. apply (table_frame n0 k); auto. apply T; auto. }
  assert (D0 : differ_in (fun v => In v P) n0 k') by (apply (differ_trans _ _ _ _ _ _ Df Df'); intros v [K|K]; auto; apply M; auto).
  assert (Gk' : ngraph k' = ngraph n0) by apply D0. assert (Dk' := same_dom_of n0 k' (proj1 (proj2 D0))). assert (S0 : single_tables n0) by apply (l_dist _ _ L0). assert (S' : single_tables k') by apply Hd'.
  assert (Wi : forall a, within k' a <-> within n0 a) by (intro a; unfold within; rewrite Gk'; split; intros K v Hv; specialize (K v Hv); rewrite Dk' in *; auto).
  split; [split; auto|]. split; [|split; [auto|split; [auto|]]].
  - intros d t a Ht Kt Wa. destruct (in_dec String.string_dec d P) as [K|K].
    + exfalso. apply M, in_map_iff in K. destruct K as (s & <- & Hs). assert (t = s) by (apply (S' (tvar s)); auto). subst s. destruct (T t Hs) as [_ K']. congruence.
    + rewrite Dk'. rewrite <- (Uu d t a); auto; [apply entry_doms_in; auto|apply (proj2 (proj2 D0)); auto|apply Wi; auto].
  - constructor; auto.
    + rewrite Gk'. apply L0.
    + intros u v. rewrite Gk'. apply L0.
    + intros v Hv. rewrite Dk'. apply L0; auto.
    + intros t a Ht Wa. rewrite (dist_kernel k' (tvar t) t a) by (apply single_cpd; auto). destruct (T t Ht) as [To _]. assert (Nt : In (tvar t) (nodes (ngraph n))) by (rewrite <- (l_nodes _ _ L0); apply I, M, in_map; auto).
      apply entry_doms_in; [rewrite Dk'; apply L0; auto|]. intros v Hv. rewrite Dk'. apply L0. apply (ok_ev _ _ _ To) in Hv. apply (l_edges _ _ L0) in Hv. apply (proj1 Hn) in Hv. tauto.
    + intros v a Hv K Wa. rewrite <- (kernel_differ _ n0 k' v a S0 S' D0); [apply L0; auto|]. rewrite <- M. auto.
Qed.
Definition component (l : list node) : Prop := NoDup l /\ (forall d, In d l -> is_decision mc d) /\ (forall x y, In x l -> In y l -> relies_on mc x y) /\ (forall x e y, In x l -> In y l -> relies_on mc x e -> relies_on mc e y -> In e l).
Lemma move_stage : forall k l b, ngraph k = ngraph n0 -> stage mc k l b -> stage m k l b.
Proof.
  intros k l b Gk (sm & sn & ds & ags & c & P & Ag & S & R1 & R2 & R3).
  assert (En : forall x, In x (nodes (mgraph mc)) <-> In x (nodes (mgraph m))) by (intro x; rewrite G0, Gm, (l_nodes _ _ L0); tauto). assert (Ee : forall x y, edge (mgraph mc) x y <-> edge (mgraph m) x y) by (intros x y; rewrite G0, Gm; apply L0).
  exists sm, sn, ds, ags, c. split; auto. split; [intro a; rewrite Ag; split; intros (d & K & K'); exists d; split; auto; apply (Ro d (RDecision a)); auto|]. split; [|split; [auto|split; [|auto]]].
  - apply (same_subgame m mc); auto; [apply Vc|congruence].
  - intros v x Hv Nk. apply R2; auto. intro K. apply Nk. apply (same_kept m mc); auto; [apply V|apply Vc|]. apply En. rewrite G0, <- Gk. apply (sg_node _ _ _ _ _ S) in Hv. assert (Wk : wf_dag (ngraph k)) by (rewrite Gk, <- G0; apply Vc). destruct Hv as (u & [J|J]); apply (sg_edge _ _ _ _ _ S) in J; destruct J as [J _]; apply Wk in J; tauto.
Qed.
Lemma extended : forall P l, incl P (nodes (ngraph n0)) -> component l -> (forall d, In d l -> ~ In d P) -> forall spes k r, going P k -> (forall p, In p spes -> fits P p) -> extend_spes o nash solver mc l k spes = Ok r ->
  going P (fst r) /\ forall q, In q (snd r) -> fits (P ++ l) q /\ exists p b k', In p spes /\ q = p ++ b /\ ruled n p k' /\ stage m k' l b.
Proof.
  intros P l I (Nl & Dl & Rl & Cl) Dj. induction spes as [|p spes IH]; intros k r Gk F H; cbn [extend_spes] in H; [injection H as <-; split; [auto|intros q []]|].
  destruct (add_policy k p) as [k1 [e|]] eqn:Ea; cbn [ok_net bind] in H; [discriminate|]. destruct (get_ne_in_sg o nash solver mc k1 (Some l)) as [nes|] eqn:En; cbn [bind] in H; [|discriminate].
  destruct (extend_spes o nash solver mc l k1 spes) as [r'|] eqn:Er; cbn [bind] in H; [|discriminate]. injection H as <-. cbn [fst snd].
  assert (Fp := F p (or_introl eq_refl)). destruct (added P k p k1 I Gk Fp Ea) as (Gk1 & Uk & Gr & Dk & Ru). destruct (IH k1 r' Gk1 (fun q K => F q (or_intror K)) Er) as [G2 Q]. split; auto.
  intros q Hq. apply in_app_or in Hq. destruct Hq as [Hq|Hq].
  - apply in_map_iff in Hq. destruct Hq as (b & <- & Hb). destruct (component_found o nash solver mc k1 l nes b) as (St & Pm & Tb); auto; try apply Gk1; [congruence|]. split.
    + destruct Fp as (F1 & F2 & F3). split; [|split].
      * intros t Ht. apply in_app_or in Ht. destruct Ht as [Ht|Ht]; auto. destruct (Tb t Ht) as [T1 T2]. split; auto. apply (table_frame k1 n0); auto.
      * rewrite map_app. apply LBayes.NoDup_app'; auto; [apply (Permutation_NoDup (Permutation_sym Pm)); auto|]. intros v K K'. apply F3 in K. apply (Permutation_in v Pm) in K'. exact (Dj v K' K).
      * intro v. rewrite map_app, !in_app_iff, F3. split; (intros [K|K]; [auto|right; eapply Permutation_in; [|exact K]; auto using Permutation_sym]).
    + exists p, b, k1. split; [left; auto|]. split; auto. split; auto. apply move_stage; auto.
  - destruct (Q q Hq) as (Fq & p' & b & k' & H1 & H2). split; auto. exists p', b, k'. split; [right; auto|auto].
Qed.
Lemma looped : forall sccs P k spes res, incl (P ++ concat sccs) (nodes (ngraph n0)) -> (forall l, In l sccs -> component l) -> NoDup (P ++ concat sccs) -> going P k -> (forall p, In p spes -> fits P p) -> spe_loop o nash solver mc k spes sccs = Ok res ->
  forall q, In q res -> fits (P ++ concat sccs) q /\ exists p rest, In p spes /\ q = p ++ rest /\ staged m n sccs p rest.
Proof.
  induction sccs as [|l sccs IH]; intros P k spes res I C N Gk F H q Hq; cbn [spe_loop concat] in *.
  - injection H as <-. rewrite app_nil_r in *. split; auto. exists q, []. rewrite app_nil_r. split; auto. split; auto. constructor.
  - destruct (extend_spes o nash solver mc l k spes) as [r|] eqn:Er; cbn [bind] in H; [|discriminate]. rewrite app_assoc in I, N.
    assert (N1 := NoDup_app_inv _ _ _ N). destruct N1 as (N1 & _ & _). assert (N2 := NoDup_app_inv _ _ _ N1). destruct N2 as (_ & _ & N2).
    destruct (extended P l) with (spes := spes) (k := k) (r := r) as [G1 Q]; auto.
    + intros v K. apply I. rewrite !in_app_iff. auto.
    + apply C; left; auto.
    + intros d K K'. exact (N2 d K' K).
    + destruct (IH (P ++ l) (fst r) (snd r) res I) with (q := q) as (Fq & p & rest & Hp & -> & St); auto.
      * intros l' K. apply C. right; auto.
      * destruct G1 as (B1 & D1 & Df). split; auto. split; auto. apply (differ_trans _ _ _ _ _ _ (conj eq_refl (conj (fun v d => conj (fun x => x) (fun x => x)) (fun v t _ => conj (fun x => x) (fun x => x))) : differ_in (fun _ => False) n0 n0) Df). intros v [[]|K]. apply in_or_app; auto.
      * intros p Hp. apply Q; auto.
      * split; [rewrite app_assoc; auto|]. destruct (Q p Hp) as (_ & p' & b & k' & H1 & -> & Ru & Sg). exists p', (b ++ rest). split; auto. split; [rewrite app_assoc; auto|]. econstructor; eauto.
Qed.
End Loop.
