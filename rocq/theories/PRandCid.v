(* C70: the generators random_cid, random_macid, random_cids and random_macids, and the CPDs they add. *)
From Coq Require Import String Ascii List Bool Arith ZArith QArith Qcanon Lia Permutation.
Import ListNotations.
From Verif Require Import PQuery PSane PRandCpd PMacid PRandDag PRandMacid.
From Verif Require Import MBase MGraph MPaths MMacid MCpd MNet MRandDag MRandMacid MRandCpd MRandCid Spec SpecM SpecC SpecN SpecQ SpecI SpecRand SpecSane LBase LGraph LRoles LMech LBayes LRandDag LRandMacid LRandCid.
Local Open Scope string_scope.
Local Open Scope list_scope.
Local Open Scope nat_scope.

(* ---- one diagram ---- *)
(* decisions are called D0, D1, ..., utilities U0, U1, ...; the shape is as requested *)
Lemma cid_requested : forall fuel o drs n nd nu recall density mx k m, valid_order o -> 2 <= n -> random_cid fuel o drs n nd nu recall density mx k = Ok m ->
  as_requested [nd] [nu] m /\ valid m /\ no_clash (mgraph m) /\
  agent_decisions m = [(zero, map cid_dname (seq 0 nd))] /\ agent_utilities m = [(zero, map cid_uname (seq 0 nu))] /\
  length (nodes (mgraph m)) = n /\ connected (mgraph m) /\ (wanted_edges n density <= Z.of_nat (length (edges (mgraph m))))%Z /\
  forall v, at_most_parents (mgraph m) (if recall then mx else Nat.max 4 mx) v.
Proof.
  intros fuel o drs n nd nu recall density mx k m Ho L H. apply random_cid_result in H; auto. destruct H as (mb & f & Hb & R). apply random_result in Hb; auto. destruct Hb as [_ A].
  destruct (at_all _ _ _ _ _ _ _ _ _ A L) as (V & N & C & E). assert (Rq := at_roles _ _ _ _ _ _ _ _ _ A). destruct (sole_roles _ _ _ Rq V eq_refl eq_refl) as (Sd & Su & Nd & Nu). injection Nd as Nd. injection Nu as Nu.
  destruct R as [Im Wm Ed Eu Fd Fu Bn Cl (es & Ini)]. assert (Wb := at_dag _ _ _ _ _ _ _ _ _ A).
  assert (Co : consistent m) by (destruct (C12_consistent es _ _ m [] Ini Cl) as [X _]; exact X).
  assert (LD : forall a x, has_role m x (RDecision a) -> a = zero /\ exists d, In d (decisions mb) /\ x = f d) by (intros a x K; cbn [has_role] in K; rewrite Ed in K; destruct K as (l & [K|[]] & K2); injection K as <- <-; split; auto; apply Fd; auto).
  assert (LU : forall a x, has_role m x (RUtility a) -> a = zero /\ exists d, In d (utilities mb) /\ x = f d) by (intros a x K; cbn [has_role] in K; rewrite Eu in K; destruct K as (l & [K|[]] & K2); injection K as <- <-; split; auto; apply Fu; auto).
  assert (Nm : forall x, In x (decisions mb) \/ In x (utilities mb) -> In x (nodes (mgraph mb))) by (intros x K; destruct V as (_ & _ & P); apply (P zero); destruct K as [K|K]; [left; apply Sd|right; apply Su]; auto).
  destruct (image_sizes _ _ _ (proj1 Wb) (proj1 Wm) Im) as [S1 S2].
  split; [|split; [|split; [|split; [|split; [|split; [|split; [|split]]]]]]].
  - constructor; auto.
    + rewrite Ed. reflexivity.
    + rewrite Eu. reflexivity.
    + rewrite Ed. cbn. rewrite new_names_length. congruence.
    + rewrite Eu. cbn. rewrite new_names_length. congruence.
    + intros a x v K Ev. apply LU in K. destruct K as (_ & u & Hu & ->). apply (i_edges _ _ _ Im) in Ev. destruct Ev as (u' & v' & Ev & E1 & _). apply (i_inj _ _ _ Im) in E1; [|apply Nm; auto|eapply wf_edge_l; [apply Wb|eauto]]. subst u'. apply Su in Hu. apply (ar_barren _ _ _ Rq zero u v' Hu Ev).
    + intros a x K. apply LD in K. destruct K as (-> & d & Hd & ->). apply Sd in Hd. destruct (ar_purpose _ _ _ Rq zero d Hd) as (u & Hu & De). exists (f u). split; [|eapply image_descends; eauto]. cbn [has_role]. rewrite Eu. eexists. split; [left; reflexivity|]. apply Fu. exists u. split; auto. apply Su. auto.
  - split; auto. split; auto. intros a x K. apply (i_nodes _ _ _ Im). destruct K as [K|K]; [apply LD in K|apply LU in K]; destruct K as (_ & d & Hd & ->); exists d; split; auto.
  - apply bare_no_clash. auto.
  - rewrite Ed. unfold new_names. rewrite <- Nd. reflexivity.
  - rewrite Eu. unfold new_names. rewrite <- Nu. reflexivity.
  - congruence.
  - eapply image_connected; eauto.
  - rewrite S2. auto.
  - eapply image_parents; eauto; [apply Wb|apply A].
Qed.
Theorem C70_cid : forall fuel o drs n nd nu recall density mx k m, valid_order o -> 2 <= n -> random_cid fuel o drs n nd nu recall density mx k = Ok m ->
  as_requested [nd] [nu] m /\ valid m /\
  agent_decisions m = [(zero, map (fun i => ("D" ++ str_of i)%string) (seq 0 nd))] /\ agent_utilities m = [(zero, map (fun i => ("U" ++ str_of i)%string) (seq 0 nu))] /\
  length (nodes (mgraph m)) = n /\ connected (mgraph m) /\ (wanted_edges n density <= Z.of_nat (length (edges (mgraph m))))%Z /\
  forall v, at_most_parents (mgraph m) (if recall then mx else Nat.max 4 mx) v.
Proof. intros fuel o drs n nd nu recall density mx k m Ho L H. destruct (cid_requested _ _ _ _ _ _ _ _ _ _ _ Ho L H) as (H1 & H2 & _ & H3 & H4 & H5). auto. Qed.
Print Assumptions C70_cid.

(* random_macid is random_macidbase with another class *)
Lemma macid_same : forall fuel o drs n dnum unum recall density mx k m, valid_order o -> 2 <= n -> random_macid fuel o drs n dnum unum recall density mx k = Ok m ->
  exists mb, random_macidbase fuel o drs n dnum unum recall density mx k = Ok mb /\ image (fun x => x) (mgraph mb) (mgraph m) /\ valid m /\ agent_decisions m = agent_decisions mb /\ agent_utilities m = agent_utilities mb /\
    decision_agent m = owner_dict (agent_decisions mb) /\ utility_agent m = owner_dict (agent_utilities mb).
Proof.
  intros fuel o drs n dnum unum recall density mx k m Ho L H. unfold random_macid in H. destruct (random_macidbase fuel o drs n dnum unum recall density mx k) as [mb|] eqn:Eb; [|discriminate]. cbn [bind] in H.
  assert (A := random_result _ _ _ _ _ _ _ _ _ _ _ Ho Eb). destruct A as [_ A]. destruct (at_all _ _ _ _ _ _ _ _ _ A L) as (V & N & C & _).
  destruct V as (Wd & Co & Pr).
  destruct (image_load (fun x => x) (mgraph mb) (mgraph mb) Wd (proj1 Wd) (image_same _) C) as (En & Wl & Il); [lia|].
  assert (Ei := H). unfold macid_init in H. rewrite En in H. cbn [bind] in H. injection H as <-. exists mb. split; auto. split; auto. split; [|auto].
  apply (valid_init _ _ _ _ Ei).
  - destruct Co as (C1 & C2 & C3 & C4 & C5 & C6). split; auto. split; auto. apply NoDup_app'.
    + apply roles_apart; auto; [intros a l K; apply (C5 a l); auto|]. intros a b x K1 K2. destruct (C6 x) as (r & R & _). assert (RDecision a = r) by (apply R; auto). assert (RDecision b = r) by (apply R; auto). congruence.
    + apply roles_apart; auto; [intros a l K; apply (C5 a l); auto|]. intros a b x K1 K2. destruct (C6 x) as (r & R & _). assert (RUtility a = r) by (apply R; auto). assert (RUtility b = r) by (apply R; auto). congruence.
    + intros x K1 K2. apply in_concat in K1, K2. destruct K1 as (l1 & K1 & I1), K2 as (l2 & K2 & I2). apply in_map_iff in K1, K2. destruct K1 as ([a l] & E1 & K1), K2 as ([b l'] & E2 & K2). cbn in E1, E2. subst l l'. destruct (C6 x) as (r & R & _). assert (RDecision a = r) by (apply R; exists l1; auto). assert (RUtility b = r) by (apply R; exists l2; auto). congruence.
  - intros a x K. cbn [mgraph]. apply (i_nodes _ _ _ Il). exists x. split; auto. apply (Pr a x K).
Qed.
Theorem C70_macid : forall fuel o drs n dnum unum recall density mx k m, valid_order o -> 2 <= n -> random_macid fuel o drs n dnum unum recall density mx k = Ok m ->
  as_requested dnum unum m /\ valid m /\ length (nodes (mgraph m)) = n /\ connected (mgraph m) /\ (wanted_edges n density <= Z.of_nat (length (edges (mgraph m))))%Z /\
  forall v, at_most_parents (mgraph m) (if recall then mx else Nat.max 4 mx) v.
Proof.
  intros fuel o drs n dnum unum recall density mx k m Ho L H. apply macid_same in H; auto. destruct H as (mb & Hb & Im & Vm & Ed & Eu & _).
  destruct (C53_partial _ _ _ _ _ _ _ _ _ _ _ Ho L Hb) as (Rq & V & N & C & E & P). assert (Wb := proj1 V). destruct (image_sizes _ _ _ (proj1 Wb) (proj1 (proj1 Vm)) Im) as [S1 S2].
  assert (Eg : forall u v, edge (mgraph m) u v <-> edge (mgraph mb) u v) by (intros u v; rewrite (i_edges _ _ _ Im); split; [intros (u' & v' & K & -> & ->); auto|eauto]).
  split; [|split; [auto|split; [congruence|split; [eapply image_connected; eauto|split; [rewrite S2; auto|eapply image_parents; eauto; apply Wb]]]]].
  destruct Rq as [R1 R2 R3 R4 R5 R6 R7]. constructor; rewrite ?Ed, ?Eu; auto.
  - apply Vm.
  - intros a u v K Ev. cbn [has_role] in K. rewrite Eu in K. apply Eg in Ev. apply (R6 a u v K Ev).
  - intros a d K. cbn [has_role] in K. rewrite Ed in K. destruct (R7 a d K) as (u & Hu & De). exists u. split; [cbn [has_role]; rewrite Eu; auto|]. apply (image_descends (fun x => x) _ _ Im u d De).
Qed.
Print Assumptions C70_macid.

(* ---- many diagrams ---- *)
Lemma randint_range : forall raw lo hi x, randint_in raw lo hi = Ok x -> lo <= x <= hi.
Proof. intros raw lo hi x H. unfold randint_in in H. destruct (Nat.ltb_spec hi lo) as [L|L]; [discriminate|]. injection H as <-. assert (K := Nat.mod_upper_bound raw (hi - lo + 1)). lia. Qed.
Lemma randint_both : forall lo hi x, lo <= x <= hi -> exists raw, randint_in raw lo hi = Ok x.
Proof. intros lo hi x H. exists (x - lo). unfold randint_in. destruct (Nat.ltb_spec hi lo) as [L|L]; [lia|]. rewrite Nat.mod_small by lia. f_equal. lia. Qed.
Lemma choices_range : forall rnd lo hi k l, choices rnd lo hi k = Ok l -> length l = k /\ forall x, In x l -> lo <= x < hi.
Proof.
  intros rnd lo hi k. induction k as [|k IH]; intros l H; cbn [choices] in H; [injection H as <-; split; auto; intros x []|]. destruct (Nat.leb_spec hi lo) as [L|L]; [discriminate|]. destruct (choices rnd lo hi k) as [l'|] eqn:E; [|discriminate]. cbn [bind] in H. injection H as <-. destruct (IH l' eq_refl) as [L1 L2]. split; [cbn; congruence|]. intros x [<-|K]; auto. assert (K := Nat.mod_upper_bound (rnd k) (hi - lo)). lia.
Qed.
Lemma accepted_recalls : forall dnum unum m, length dnum = length unum -> as_requested dnum unum m -> valid m -> no_clash (mgraph m) -> (sufficient_recall m None = Ok true <-> recalls m).
Proof.
  intros dnum unum m L R V N. destruct (requested_complete _ _ _ L R) as [U D]. destruct (C18_sufficient_recall_partial m V N U D) as (_ & _ & b & E & S). rewrite E. split; [intro K; injection K as ->; exact (proj1 S eq_refl)|]. intro K. f_equal. exact (proj2 S K).
Qed.
(* a diagram random_cids can return *)
Definition good_cid (nodes_range decs_range utils_range : nat * nat) (density : Q) (m : macid) : Prop :=
  exists n nd nu, fst nodes_range <= n <= snd nodes_range /\ fst decs_range <= nd <= snd decs_range /\ fst utils_range <= nu <= snd utils_range /\
    as_requested [nd] [nu] m /\ valid m /\ length (nodes (mgraph m)) = n /\ connected (mgraph m) /\ (wanted_edges n density <= Z.of_nat (length (edges (mgraph m))))%Z /\
    (forall v, at_most_parents (mgraph m) 4 v) /\ recalls m.
Lemma cids_loop_good : forall fuel o rs nr dr ur recall density count found l, valid_order o -> 2 <= fst nr -> length found <= count -> (forall m, In m found -> good_cid nr dr ur density m) ->
  cids_loop fuel o rs nr dr ur recall density count found = Ok l -> length l = count /\ forall m, In m l -> good_cid nr dr ur density m.
Proof.
  induction fuel as [|fuel IH]; intros o rs nr dr ur recall density count found l Ho L Lc G H; cbn [cids_loop] in H; destruct (Nat.leb_spec count (length found)) as [Le|Le]; try (injection H as <-; split; [lia|auto]); [discriminate|].
  destruct (randint_in (ro_nodes (rs fuel)) (fst nr) (snd nr)) as [n|] eqn:E1; [|discriminate]. cbn [bind] in H. destruct (randint_in (ro_decs (rs fuel)) (fst dr) (snd dr)) as [nd|] eqn:E2; [|discriminate]. cbn [bind] in H. destruct (randint_in (ro_utils (rs fuel)) (fst ur) (snd ur)) as [nu|] eqn:E3; [|discriminate]. cbn [bind] in H.
  destruct (random_cid (S fuel) o (ro_draws (rs fuel)) n nd nu recall density 4 1000) as [m|] eqn:E4; [|discriminate]. cbn [bind] in H. destruct (sufficient_recall m None) as [b|] eqn:E5; [|discriminate]. cbn [bind] in H.
  apply randint_range in E1, E2, E3. apply IH in H; auto.
  - destruct b; [rewrite app_length; cbn; lia|lia].
  - destruct b; auto. intros m' K. apply in_app_iff in K. destruct K as [K|[<-|[]]]; auto. assert (Ln : 2 <= n) by lia. destruct (cid_requested _ _ _ _ _ _ _ _ _ _ _ Ho Ln E4) as (R & V & N & _ & _ & S & C & W & P).
    exists n, nd, nu. repeat (split; [auto; fail|]). split; [intro v; specialize (P v); destruct recall; exact P|]. apply (accepted_recalls [nd] [nu] m eq_refl R V N). auto.
Qed.
(* the number asked for, each within the ranges, ends included, and each with sufficient recall, whether or not it was asked for *)
Theorem C70_cids : forall fuel o rs nr dr ur recall density count l, valid_order o -> 2 <= fst nr -> random_cids fuel o rs nr dr ur recall density count = Ok l ->
  length l = count /\ forall m, In m l -> good_cid nr dr ur density m.
Proof. intros fuel o rs nr dr ur recall density count l Ho L H. eapply cids_loop_good; eauto; [cbn; lia|intros m []]. Qed.
Print Assumptions C70_cids.
(* the same for random_macids: one to three agents; but the upper ends of the ranges for decisions and utilities are never drawn *)
Definition good_macid (nodes_range decs_range utils_range : nat * nat) (density : Q) (m : macid) : Prop :=
  exists n dnum unum, fst nodes_range <= n <= snd nodes_range /\ 1 <= length dnum <= 3 /\ length unum = length dnum /\
    (forall x, In x dnum -> fst decs_range <= x < snd decs_range) /\ (forall x, In x unum -> fst utils_range <= x < snd utils_range) /\
    as_requested dnum unum m /\ valid m /\ length (nodes (mgraph m)) = n /\ connected (mgraph m) /\ (wanted_edges n density <= Z.of_nat (length (edges (mgraph m))))%Z /\
    (forall v, at_most_parents (mgraph m) 4 v) /\ recalls m.
Lemma macid_plain : forall fuel o drs n dnum unum recall density mx k m, valid_order o -> 2 <= n -> random_macid fuel o drs n dnum unum recall density mx k = Ok m -> no_clash (mgraph m).
Proof.
  intros fuel o drs n dnum unum recall density mx k m Ho L H. apply macid_same in H; auto. destruct H as (mb & Hb & Im & _). apply random_result in Hb; auto. destruct Hb as [_ A]. apply plain_no_clash. intros x K. apply (i_nodes _ _ _ Im) in K. destruct K as (u & K & ->). apply (at_plain _ _ _ _ _ _ _ _ _ A); auto.
Qed.
Lemma macids_loop_good : forall fuel o rs nr dr ur recall density count found l, valid_order o -> 2 <= fst nr -> length found <= count -> (forall m, In m found -> good_macid nr dr ur density m) ->
  macids_loop fuel o rs nr dr ur recall density count found = Ok l -> length l = count /\ forall m, In m l -> good_macid nr dr ur density m.
Proof.
  induction fuel as [|fuel IH]; intros o rs nr dr ur recall density count found l Ho L Lc G H; cbn [macids_loop] in H; destruct (Nat.leb_spec count (length found)) as [Le|Le]; try (injection H as <-; split; [lia|auto]); [discriminate|].
  destruct (randint_in (ro_nodes (rs fuel)) (fst nr) (snd nr)) as [n|] eqn:E1; [|discriminate]. cbn [bind] in H. destruct (randint_in (ro_decs (rs fuel)) 1 3) as [k|] eqn:E2; [|discriminate]. cbn [bind] in H.
  destruct (choices (ro_dec_list (rs fuel)) (fst dr) (snd dr) k) as [dnum|] eqn:E3; [|discriminate]. cbn [bind] in H. destruct (choices (ro_util_list (rs fuel)) (fst ur) (snd ur) k) as [unum|] eqn:E3'; [|discriminate]. cbn [bind] in H.
  destruct (random_macid (S fuel) o (ro_draws (rs fuel)) n dnum unum recall density 4 5000) as [m|] eqn:E4; [|discriminate]. cbn [bind] in H. destruct (sufficient_recall m None) as [b|] eqn:E5; [|discriminate]. cbn [bind] in H.
  apply randint_range in E1, E2. apply choices_range in E3, E3'. destruct E3 as [L1 R1], E3' as [L2 R2]. apply IH in H; auto.
  - destruct b; [rewrite app_length; cbn; lia|lia].
  - destruct b; auto. intros m' K. apply in_app_iff in K. destruct K as [K|[<-|[]]]; auto. assert (Ln : 2 <= n) by lia. assert (N := macid_plain _ _ _ _ _ _ _ _ _ _ _ Ho Ln E4). destruct (C70_macid _ _ _ _ _ _ _ _ _ _ _ Ho Ln E4) as (R & V & S & C & W & P).
    exists n, dnum, unum. split; auto. split; [lia|]. split; [lia|]. repeat (split; [auto; fail|]). split; [intro v; specialize (P v); destruct recall; exact P|]. apply (accepted_recalls dnum unum m ltac:(lia) R V N). auto.
Qed.
Theorem C70_macids : forall fuel o rs nr dr ur recall density count l, valid_order o -> 2 <= fst nr -> random_macids fuel o rs nr dr ur recall density count = Ok l ->
  length l = count /\ forall m, In m l -> good_macid nr dr ur density m.
Proof. intros fuel o rs nr dr ur recall density count l Ho L H. eapply macids_loop_good; eauto; [cbn; lia|intros m []]. Qed.
Print Assumptions C70_macids.
(* with equal ends, which random_cids accepts, random_macids always raises IndexError *)
Theorem C70_equal_ends_refuted : forall fuel o rs nr k ur recall density count, fst nr <= snd nr -> random_macids (S fuel) o rs nr (k, k) ur recall density (S count) = Err IndexError.
Proof.
  intros fuel o rs nr k ur recall density count L. unfold random_macids. cbn [macids_loop length Nat.leb]. unfold randint_in at 1. destruct (Nat.ltb_spec (snd nr) (fst nr)) as [K|K]; [lia|]. cbn [bind].
  destruct (randint_in (ro_decs (rs fuel)) 1 3) as [j|] eqn:E; [|cbv in E; discriminate]. apply randint_range in E. cbn [bind fst snd]. destruct j as [|j]; [lia|]. cbn [choices]. rewrite Nat.leb_refl. reflexivity.
Qed.
Print Assumptions C70_equal_ends_refuted.
(* asking random_cid for sufficient recall does not give it *)
Theorem C70_recall_refuted : exists fuel o drs n nd nu density mx k m, valid_order o /\ random_cid fuel o drs n nd nu true density mx k = Ok m /\
  valid m /\ sufficient_recall m None = Ok false /\ ~ recalls m.
Proof.
  assert (X : exists m, random_cid 20 id_order (fun _ => ex_draws) 7 2 2 true (1 # 3) 4 1 = Ok m /\ sufficient_recall m None = Ok false) by (vm_compute; eexists; split; reflexivity). destruct X as (m & X1 & X2).
  exists 20, id_order, (fun _ => ex_draws), 7, 2, 2, (1 # 3), 4, 1, m. split; [apply id_order_valid|]. split; [exact X1|]. assert (L7 : 2 <= 7) by lia. destruct (cid_requested _ _ _ _ _ _ _ _ _ _ _ id_order_valid L7 X1) as (R & V & N & _). split; auto. split; auto. intro K. apply (accepted_recalls [2] [2] m eq_refl R V N) in K. congruence.
Qed.
Print Assumptions C70_recall_refuted.

(* ---- CPDs ---- *)
(* what the documentation of numpy says: randint(0, k) is in 0 .. k - 1; a Dirichlet draw is a vector of probabilities *)
Record np_sound {S} (np : numpy S) : Prop := {
  nps_randint : forall st k, (0 < k)%Z -> (0 <= fst (randint np st k) < k)%Z;
  nps_dirichlet : forall st al, al <> [] -> exists l st', dirichlet np st al = (Ok l, st') /\ length l = length al /\ (forall p, In p l -> 0 <= p)%Qc /\ fold_right Qcplus (Q2Qc 0) l = Q2Qc 1 }.
Definition coin_dist (p q : Qc) : dist := [(Q2Qc 0, Some p); (Q2Qc 1, Some q)].
Lemma random_fn_spec : forall (S : Type) (np : numpy S) hash st0 st pv, np_sound np -> (forall s w, fst (randint np s 10000) + hash w mod 2 ^ 31 <> 0)%Z ->
  let c := fst (new_random_cpd np st0 None (Q2Qc 1) None) in
  exists p q, (0 <= p /\ 0 <= q /\ p + q = 1)%Qc /\ body (random_fn np hash st c) pv = Ok (VDist (coin_dist p q)).
Proof.
  intros S np hash st0 st pv N Z. unfold new_random_cpd. destruct (randint np st0 10000) as [r st1] eqn:Er. cbn [fst]. assert (R := nps_randint np N st0 10000 eq_refl). rewrite Er in R. cbn [fst] in R. assert (R0 := Z st0 pv). rewrite Er in R0. cbn [fst] in R0.
  assert (M := Z.mod_pos_bound (hash pv) (2 ^ 31) eq_refl). cbn [random_fn body]. unfold call_random_cpd, np_seed. cbn [rc_seed rc_smoothness rc_domain].
  replace ((0 <=? r + hash pv mod 2 ^ 31 - 1) && (r + hash pv mod 2 ^ 31 - 1 <? 2 ^ 32))%Z with true.
  2: { symmetry. apply andb_true_iff. split; [apply Z.leb_le; lia|apply Z.ltb_lt]. change (2 ^ 32)%Z with (2 * 2 ^ 31)%Z. change (2 ^ 31)%Z with 2147483648%Z in *. lia. }
  destruct (nps_dirichlet np N (seeded np (r + hash pv mod 2 ^ 31 - 1)) (map (fun _ : outcome => Q2Qc 1) [Q2Qc 0; Q2Qc 1])) as (l & st' & E & L & P & S1); [discriminate|]. rewrite E. cbn [fst bind]. destruct l as [|p [|q [|? ?]]]; try discriminate. exists p, q. split; [|reflexivity]. split; [apply P; left; auto|]. split; [apply P; right; left; auto|]. cbn in S1. rewrite <- S1. ring.
Qed.
Lemma random_rels_in : forall (S : Type) (np : numpy S) hash ds vs st v r, In (v, r) (random_rels np hash st ds vs) -> In v vs /\ ((In v ds /\ r = RDom [Q2Qc 0; Q2Qc 1]) \/ (~ In v ds /\ exists st0 st1, r = RFun (random_fn np hash st1 (fst (new_random_cpd np st0 None (Q2Qc 1) None))))).
Proof.
  intros S np hash ds vs. induction vs as [|u vs IH]; intros st v r H; [destruct H|]. cbn [random_rels] in H. destruct (mem u ds) eqn:M.
  - apply mem_In in M. destruct H as [H|H]; [injection H as <- <-; split; [left; auto|left; auto]|]. destruct (IH _ _ _ H) as [I1 I2]. split; [right; auto|auto].
  - apply mem_nIn in M. destruct (new_random_cpd np st None (Q2Qc 1) None) as [c st'] eqn:En. destruct H as [H|H]; [injection H as <- <-; split; [left; auto|right; split; auto; exists st, st'; rewrite En; auto]|]. destruct (IH _ _ _ H) as [I1 I2]. split; [right; auto|auto].
Qed.
Lemma random_rels_keys : forall (S : Type) (np : numpy S) hash ds vs st, map fst (random_rels np hash st ds vs) = vs.
Proof. intros S np hash ds vs. induction vs as [|u vs IH]; intro st; cbn [random_rels]; auto. destruct (mem u ds); [cbn; rewrite IH; auto|]. destruct (new_random_cpd np st None (Q2Qc 1) None) as [c st']. cbn. rewrite IH. auto. Qed.
Lemma zero_one_increasing : forall d, increasing d -> (forall x, In x d <-> x = Q2Qc 0 \/ x = Q2Qc 1) -> d = [Q2Qc 0; Q2Qc 1].
Proof.
  intros d I H. unfold increasing in I. destruct d as [|a d]; [destruct (proj2 (H (Q2Qc 0))); auto|]. inversion I as [|? ? I1 F1]; subst. rewrite Forall_forall in F1. destruct d as [|b d].
  - exfalso. assert (K0 := proj2 (H (Q2Qc 0)) (or_introl eq_refl)). assert (K1 := proj2 (H (Q2Qc 1)) (or_intror eq_refl)). destruct K0 as [K0|[]], K1 as [K1|[]]. rewrite K1 in K0. discriminate K0.
  - inversion I1 as [|? ? I2 F2]; subst. rewrite Forall_forall in F2. assert (A := proj1 (H a) (or_introl eq_refl)). assert (B := proj1 (H b) (or_intror (or_introl eq_refl))). assert (AB := F1 b (or_introl eq_refl)).
    destruct A as [-> | ->], B as [-> | ->]; try (exfalso; revert AB; clear; cbv; discriminate). f_equal. f_equal. destruct d as [|c d]; auto. exfalso. assert (C := proj1 (H c) (or_intror (or_intror (or_introl eq_refl)))). assert (BC := F2 c (or_introl eq_refl)). destruct C as [-> | ->]; revert BC; clear; cbv; discriminate.
Qed.
(* with the seeds drawn the call of a RandomCPD is always within numpy's range, so: nothing raises, the diagram gets a joint
   distribution, and every variable has the outcomes 0 and 1 *)
Theorem C70_cpds : forall (S : Type) (np : numpy S) hash st m, np_sound np -> set_hash hash -> (forall s w, fst (randint np s 10000) + hash w mod 2 ^ 31 <> 0)%Z -> wf_dag (mgraph m) ->
  exists n, add_random_cpds np hash st m = (n, None) /\ ngraph n = mgraph m /\ built n /\ distribution n /\ forall v, In v (nodes (mgraph m)) -> has_domain n v [Q2Qc 0; Q2Qc 1].
Proof.
  intros S np hash st m N Hh Z W. unfold add_random_cpds. set (l := random_rels np hash st (decisions m) (nodes (mgraph m))).
  assert (Kl : map fst l = nodes (mgraph m)) by apply random_rels_keys.
  assert (Ok_ : forall v r, In (v, r) l -> admissible v r /\ sane (mgraph m) bit v r).
  { intros v r K. apply random_rels_in in K. destruct K as [Hv [[_ ->]|[_ (st0 & st1 & ->)]]].
    - split; [split; exact I|]. split; auto. split; [discriminate|]. split; [repeat constructor; cbn; intuition discriminate|]. intros x [<-|[<-|[]]]; unfold bit; auto.
    - split; [split|split; auto].
      + intros pv K. destruct (random_fn_spec S np hash st0 st1 pv N Z) as (p & q & _ & E). rewrite E in K. discriminate.
      + split.
        * intros pv pv' _ P. cbn [random_fn body]. unfold call_random_cpd. rewrite (Hh pv pv' P). reflexivity.
        * intros pv d K. destruct (random_fn_spec S np hash st0 st1 pv N Z) as (p & q & _ & E). rewrite E in K. injection K as <-. repeat constructor; cbn; intuition discriminate.
      + intros pv _ _. destruct (random_fn_spec S np hash st0 st1 pv N Z) as (p & q & (P1 & P2 & P3) & E). exists (VDist (coin_dist p q)). split; [exact E|]. cbn [dist_of]. split.
        * split; [repeat constructor; cbn; intuition discriminate|]. split; [intros x y [K|[K|[]]]; injection K as <- <-; auto|]. left. unfold mass, coin_dist. cbn. rewrite <- P3. ring.
        * intros x [<-|[<-|[]]]; unfold bit; auto. }
  destruct (C71_total (mgraph m) bit l W Ok_) as (n & E & B & _ & D). exists n. split; auto.
  assert (All : forall v, In v (nodes (mgraph m)) -> In v (map fst l)) by (intros v Hv; rewrite Kl; auto).
  assert (Dn := D All). assert (Gn : ngraph n = mgraph m) by (destruct (LSane.fine_run (mgraph m) bit W l (bare (mgraph m))) as (n' & E' & F & _); [apply LSane.fine_bare; auto|intros u s K; destruct (Ok_ u s K) as [[P _] Sn]; auto|]; rewrite E in E'; injection E' as <-; apply F).
  split; auto. split; auto. split; auto. intros v Hv. assert (Hl := All v Hv). apply in_map_iff in Hl. destruct Hl as ([v' r] & E1 & Hl). cbn in E1. subst v'.
  assert (ND : NoDup (map fst l)) by (rewrite Kl; apply wf_nodes, W).
  destruct (C71_tables (mgraph m) bit l n W Ok_ ND All E v r Hl) as (t & Ht & Dt & T).
  assert (Cx : exists pv, context_of (doms n) (parents (mgraph m) v) pv).
  { apply LSane.some_context. intros p Hp. apply in_parents in Hp. destruct Dn as (_ & _ & Ex & Fi). destruct (Fi p) as (tp & Hp1 & Hp2 & _); [rewrite Gn; eapply wf_edge_l; [apply W|eauto]|]. unfold dom_of. rewrite Hp2.
    assert (Hlp : In p (map fst l)) by (apply All; eapply wf_edge_l; [apply W|eauto]). apply in_map_iff in Hlp. destruct Hlp as ([p' rp] & E1 & Hlp). cbn in E1. subst p'. destruct (C71_tables (mgraph m) bit l n W Ok_ ND All E p rp Hlp) as (t' & _ & Dt' & T'). unfold has_domain in *. rewrite Hp2 in Dt'. injection Dt' as Dt'.
    assert (Ne : tdom tp <> []) by (rewrite Dt'; destruct rp; [apply T'|apply T'|apply T'|destruct T']). destruct (tdom tp) as [|x dd]; [congruence|exists x; left; auto]. }
  apply random_rels_in in Hl. destruct Hl as [_ [[_ ->]|[_ (st0 & st1 & ->)]]].
  - destruct T as (_ & _ & _ & _ & T & _). rewrite T in Dt by discriminate. auto.
  - destruct T as (_ & _ & _ & _ & _ & T & _). destruct (T eq_refl) as [I T']. rewrite (zero_one_increasing (tdom t)) in Dt; auto. intro x. rewrite T'. split.
    + intros (pv & w & _ & K1 & K2). destruct (random_fn_spec S np hash st0 st1 pv N Z) as (p & q & _ & E2). change (call (random_fn np hash st1 (fst (new_random_cpd np st0 None (Q2Qc 1) None))) pv) with (body (random_fn np hash st1 (fst (new_random_cpd np st0 None (Q2Qc 1) None))) pv) in K1. rewrite E2 in K1. injection K1 as <-. cbn in K2. destruct K2 as [<-|[<-|[]]]; auto.
    + intro K. destruct Cx as (pv & Cx). destruct (random_fn_spec S np hash st0 st1 pv N Z) as (p & q & _ & E2). exists pv, (VDist (coin_dist p q)). split; auto. split; [exact E2|]. cbn. destruct K as [-> | ->]; auto.
Qed.
Print Assumptions C70_cpds.
(* a generator that meets what the documentation says: every draw is concentrated on one outcome, depending on the seed *)
Definition one_hot (i : nat) (al : list Qc) : list Qc := map (fun j => if j =? i then Q2Qc 1 else Q2Qc 0) (seq 0 (length al)).
Definition sharp : numpy Z := mkNumpy Z (fun s => s) (fun st al => (Ok (one_hot (Z.to_nat (st mod Z.of_nat (length al))) al), st + 1)%Z) (fun st k => (st mod k, st + 1)%Z).
Lemma one_hot_sum : forall n a i, fold_right Qcplus (Q2Qc 0) (map (fun j => if j =? i then Q2Qc 1 else Q2Qc 0) (seq a n)) = if (a <=? i) && (i <? a + n) then Q2Qc 1 else Q2Qc 0.
Proof.
  induction n as [|n IH]; intros a i; cbn [seq map fold_right].
  - destruct (Nat.leb_spec a i), (Nat.ltb_spec i (a + 0)); cbn; auto; lia.
  - rewrite IH. destruct (Nat.eqb_spec a i) as [->|Ne].
    + destruct (Nat.leb_spec (S i) i); [lia|]. destruct (Nat.leb_spec i i); [|lia]. destruct (Nat.ltb_spec i (i + S n)); [|lia]. cbn [andb]. ring.
    + destruct (Nat.leb_spec (S a) i), (Nat.leb_spec a i), (Nat.ltb_spec i (S a + n)), (Nat.ltb_spec i (a + S n)); cbn [andb]; try lia; ring.
Qed.
Lemma sharp_sound : np_sound sharp.
Proof.
  constructor.
  - intros st k K. cbn. apply Z.mod_pos_bound; auto.
  - intros st al Ne. eexists _, _. split; [reflexivity|]. assert (L : (0 < length al)%nat) by (destruct al; [congruence|cbn; lia]). unfold one_hot. split; [rewrite map_length, seq_length; auto|]. split.
    + intros p K. apply in_map_iff in K. destruct K as (j & <- & _). destruct (_ =? _); cbv; discriminate.
    + rewrite one_hot_sum. assert (M := Z.mod_pos_bound st (Z.of_nat (length al)) ltac:(lia)). destruct (Nat.leb_spec 0 (Z.to_nat (st mod Z.of_nat (length al)))); [|lia]. destruct (Nat.ltb_spec (Z.to_nat (st mod Z.of_nat (length al))) (0 + length al)); [|lia]. reflexivity.
Qed.
(* a seed of 0 can be drawn; together with a hash divisible by 2^31 the seed for numpy is -1 and adding the CPDs raises ValueError *)
Theorem C70_cpds_refuted : exists (S : Type) (np : numpy S) hash st m n, np_sound np /\ set_hash hash /\ valid m /\ add_random_cpds np hash st m = (n, Some ValueError).
Proof.
  exists Z, sharp, (fun _ => 2 ^ 31)%Z, 0%Z. eexists (mkM (mkG ["X"; "D"; "U"] [("X", "D"); ("D", "U")]) [("0", ["D"])] [("0", ["U"])] [("D", "0")] [("U", "0")]), _. split; [apply sharp_sound|]. split; [intros l l' _; reflexivity|]. split; [|vm_compute; reflexivity].
  apply (valid_init [("X", "D"); ("D", "U")] [("0", ["D"])] [("0", ["U"])]); [reflexivity| |].
  - split; [repeat constructor; cbn; tauto|]. split; [repeat constructor; cbn; tauto|]. repeat constructor; cbn; intuition discriminate.
  - intros a x [(l & [K|[]] & K2)|(l & [K|[]] & K2)]; injection K as <- <-; destruct K2 as [<-|[]]; cbn; auto.
Qed.
Print Assumptions C70_cpds_refuted.
(* a generator that never draws 0 *)
Definition sharp1 : numpy Z := mkNumpy Z (fun s => s) (fun st al => (Ok (one_hot (Z.to_nat (st mod Z.of_nat (length al))) al), st + 1)%Z) (fun st k => (Z.max (Z.min 1 (k - 1)) (st mod k), st + 1)%Z).
Example C70_cpds_used : np_sound sharp1 /\ set_hash (fun l => Z.of_nat (length l)) /\ (forall s w, fst (randint sharp1 s 10000) + Z.of_nat (@length (node * outcome) w) mod 2 ^ 31 <> 0)%Z.
Proof.
  split; [|split].
  - constructor; [|apply (nps_dirichlet _ sharp_sound)]. intros st k K. cbn. assert (M := Z.mod_pos_bound st k K). lia.
  - intros l l' P. rewrite (Permutation_length P). auto.
  - intros s w. cbn [sharp1 randint fst]. assert (M := Z.mod_pos_bound (Z.of_nat (length w)) (2 ^ 31) eq_refl). assert (K := Z.le_max_l (Z.min 1 (10000 - 1)) (s mod 10000)). change (Z.min 1 (10000 - 1)) with 1%Z in *. lia.
Qed.

(* runs *)
Example C70_cid_used : match random_cid 20 id_order (fun _ => ex_draws1) 6 2 1 true (1 # 3) 4 1 with Ok m => Ok (agent_decisions m, agent_utilities m, edges (mgraph m)) | Err e => Err e end =
  Ok ([("0", ["D0"; "D1"])], [("0", ["U0"])], [("D1", "X_0"); ("D1", "D0"); ("X_0", "X_1"); ("D0", "X_0"); ("X_1", "X_2"); ("X_2", "U0")]).
Proof. vm_compute. reflexivity. Qed.
Definition ex_round : round := mkRound 0 0 0 (fun _ => 0) (fun _ => 0) (fun _ => ex_draws1).
Example C70_cids_used : match random_cids 12 id_order (fun _ => ex_round) (6, 8) (1, 2) (1, 1) false (1 # 3) 2 with Ok l => Ok (map (fun m => length (nodes (mgraph m))) l) | Err e => Err e end = Ok [6; 6].
Proof. vm_compute. reflexivity. Qed.
Example C70_macids_used : match random_macids 12 id_order (fun _ => ex_round) (6, 8) (1, 3) (1, 2) false (1 # 3) 2 with Ok l => Ok (map (fun m => (agent_decisions m, agent_utilities m)) l) | Err e => Err e end
  = Ok [([("0", ["D^0_0"])], [("0", ["U^0_0"])]); ([("0", ["D^0_0"])], [("0", ["U^0_0"])])].
Proof. vm_compute. reflexivity. Qed.
