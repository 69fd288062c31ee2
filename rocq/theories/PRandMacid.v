(* C53: random diagrams have the requested roles.  C59: and sufficient recall, if asked. *)
From Coq Require Import String Ascii List Bool Arith ZArith QArith Lia Permutation.
Import ListNotations.
From Verif Require Import MBase MGraph MPaths MMacid MRandDag MRandMacid Spec SpecM SpecQ SpecI SpecRand LBase LGraph LRoles LMech LRandDag LRandMacid PMacid PRandDag.
Local Open Scope string_scope.
Local Open Scope list_scope.
Local Open Scope nat_scope.

Lemma attempts_some : forall fuel o drs k n dnum unum recall density mx m, attempts fuel o drs k n dnum unum recall density mx = Ok m ->
  exists j, j < k /\ attempt fuel o (drs j) n dnum unum recall density mx = Ok (Some m).
Proof.
  intros fuel o drs k. induction k as [|k IH]; intros n dnum unum recall density mx m H; cbn [attempts] in H; [discriminate|]. destruct (attempt fuel o (drs k) n dnum unum recall density mx) as [[m'|]|] eqn:E; cbn [bind] in H; [injection H as <-; eauto| |discriminate]. apply IH in H. destruct H as (j & L & H). eauto.
Qed.
Lemma random_result : forall fuel o drs n dnum unum recall density mx k m, valid_order o -> random_macidbase fuel o drs n dnum unum recall density mx k = Ok m ->
  length dnum = length unum /\ attempt_result fuel o n dnum unum recall density mx m.
Proof.
  intros fuel o drs n dnum unum recall density mx k m Ho H. unfold random_macidbase in H. destruct (length dnum =? length unum) eqn:E; [|discriminate]. apply Nat.eqb_eq in E. split; auto. cbn [negb] in H. apply attempts_some in H. destruct H as (j & _ & H). apply attempt_ok in H; auto.
Qed.

(* whatever is drawn, a diagram with at least two nodes is well formed, connected and dense enough, and has the requested roles:
   the right numbers of decisions and utilities per agent, in different nodes, utilities without children, decisions above a utility of their owner *)
Theorem C53_partial : forall fuel o drs n dnum unum recall density mx k m, valid_order o -> 2 <= n -> random_macidbase fuel o drs n dnum unum recall density mx k = Ok m ->
  as_requested dnum unum m /\ valid m /\ length (nodes (mgraph m)) = n /\ connected (mgraph m) /\ (wanted_edges n density <= Z.of_nat (length (edges (mgraph m))))%Z /\
  forall v, at_most_parents (mgraph m) (if recall then mx else Nat.max 4 mx) v.
Proof.
  intros fuel o drs n dnum unum recall density mx k m Ho L H. apply random_result in H; auto. destruct H as [_ A]. destruct (at_all _ _ _ _ _ _ _ _ _ A L) as (V & N & C & E). split; [apply A|]. split; [auto|]. split; [auto|]. split; [auto|]. split; [auto|]. apply A.
Qed.
Print Assumptions C53_partial.
(* a request for different numbers of agents is refused, and nothing else but giving up is *)
Theorem C53_mismatch : forall fuel o drs n dnum unum recall density mx k, length dnum <> length unum -> random_macidbase fuel o drs n dnum unum recall density mx k = Err ValueError.
Proof. intros fuel o drs n dnum unum recall density mx k H. unfold random_macidbase. apply Nat.eqb_neq in H. rewrite H. reflexivity. Qed.
Print Assumptions C53_mismatch.

(* with one node, the utility is listed but the diagram has no nodes at all: edges are the only thing passed on *)
Theorem C53_one_node_refuted : exists fuel o drs n dnum unum k m, valid_order o /\ random_macidbase fuel o drs n dnum unum false (2 # 5) 4 k = Ok m /\
  (exists u, has_role m u (RUtility "0") /\ ~ In u (nodes (mgraph m))) /\ length (nodes (mgraph m)) <> n.
Proof.
  exists 5, id_order, (fun _ => mkDraws (fun _ => 0) (fun _ => 0) (fun _ _ => 0) (fun _ => 0)), 1, [0], [1], 1. eexists. split; [apply id_order_valid|]. split; [vm_compute; reflexivity|]. split; [|cbn; discriminate]. exists "U^0_0". split; [|cbn; tauto]. exists ["U^0_0"]. split; [vm_compute; auto|left; auto].
Qed.
Print Assumptions C53_one_node_refuted.

(* ---- sufficient recall ---- *)
Definition st (l : list nat) : nat -> nat := fun i => nth i l 0.
Definition ex_draws : draws := mkDraws (st [0; 1;0; 0;1; 0;1; 2;3; 0;4; 0;5; 1;4]) (st [0; 1]) (fun _ => st [1; 0]) (st [2; 2; 2; 2]).
Definition ex_run : result macid := random_macidbase 20 id_order (fun _ => ex_draws) 7 [2] [2] true (1 # 3) 4 1.

Lemma requested_complete : forall dnum unum m, length dnum = length unum -> as_requested dnum unum m -> utilities_complete m /\ decisions_complete m.
Proof.
  intros dnum unum m L R. assert (K : keys (agent_decisions m) = keys (agent_utilities m)) by (rewrite (ar_dec_agents _ _ _ R), (ar_util_agents _ _ _ R), L; auto). split.
  - intros a d (l & H & _). rewrite <- K. apply in_map_iff. exists (a, l). auto.
  - intros a H. rewrite K. auto.
Qed.
(* asking for sufficient recall does not give it: the edges added for one utility can undo what was done for another *)
Theorem C59_refuted : exists fuel o drs n dnum unum density mx k m, valid_order o /\ random_macidbase fuel o drs n dnum unum true density mx k = Ok m /\
  valid m /\ sufficient_recall m None = Ok false /\ ~ recalls m.
Proof.
  assert (X : exists m, ex_run = Ok m /\ sufficient_recall m None = Ok false) by (vm_compute; eexists; split; reflexivity). destruct X as (m & X1 & X2).
  exists 20, id_order, (fun _ => ex_draws), 7, [2], [2], (1 # 3), 4, 1, m. split; [apply id_order_valid|]. split; [exact X1|]. assert (Y := random_result _ _ _ _ _ _ _ _ _ _ _ id_order_valid X1). destruct Y as [L A]. destruct (at_all _ _ _ _ _ _ _ _ _ A ltac:(lia)) as (V & _). split; [exact V|]. split; [exact X2|].
  destruct (requested_complete _ _ _ L (at_roles _ _ _ _ _ _ _ _ _ A)) as [U D]. assert (N : no_clash (mgraph m)) by (apply plain_no_clash; apply A). destruct (C18_sufficient_recall_partial m V N U D) as (_ & _ & b & E & S). rewrite X2 in E. injection E as <-. intro R. apply S in R. discriminate.
Qed.
Print Assumptions C59_refuted.

Lemma no_cycle_two : forall m x y, ~ r_relevant m x y \/ ~ r_relevant m y x -> ~ recall_cycle m [x; y].
Proof.
  intros m x y H (d & p & C). assert (S : exists q, p ++ [d] = q /\ last q d = d) by (exists (p ++ [d]); split; auto; apply last_last). destruct p as [|a p].
  - cbn [app] in C. inversion C as [|? ? ? K1 K2]; subst. apply (proj1 K1). auto.
  - cbn [app] in C. inversion C as [|? ? ? (N1 & I1 & J1 & R1) K2]; subst. inversion K2 as [|? b l (N2 & I2 & J2 & R2) K3 E]; [destruct p; discriminate|]. cbn [In] in *.
    destruct I1 as [<-|[<-|[]]], J1 as [<-|[<-|[]]]; try congruence; destruct J2 as [<-|[<-|[]]]; try congruence; tauto.
Qed.
Lemma no_cycle_short : forall m ds, length ds <= 1 -> ~ recall_cycle m ds.
Proof.
  intros m ds L (d & p & C). destruct p as [|a p]; cbn [app] in C; inversion C as [|? ? ? (N1 & I1 & J1 & R1) K2]; subst; [auto|]. destruct ds as [|x [|z ds]]; cbn in *; [tauto| |lia]. destruct I1 as [<-|[]], J1 as [<-|[]]. auto.
Qed.
(* It does when no agent has two decisions, and when the only agent has two decisions and one utility *)
Theorem C59_partial : forall fuel o drs n dnum unum density mx k m, valid_order o -> 2 <= n -> random_macidbase fuel o drs n dnum unum true density mx k = Ok m ->
  (forall x, In x dnum -> x <= 1) \/ (dnum = [2] /\ unum = [1]) -> recalls m /\ sufficient_recall m None = Ok true.
Proof.
  intros fuel o drs n dnum unum density mx k m Ho L2 H Hyp. apply random_result in H; auto. destruct H as [L A].
  assert (R : recalls m).
  { intros a ds Hin. assert (R := at_roles _ _ _ _ _ _ _ _ _ A). destruct Hyp as [Hyp|[-> ->]].
    - apply no_cycle_short. apply Hyp. rewrite <- (ar_decs _ _ _ R). apply in_map_iff. exists (a, ds). auto.
    - destruct (at_recalled _ _ _ _ _ _ _ _ _ A eq_refl) as (m0 & rnd & W0 & N0 & P0 & E1 & E2 & E3).
      assert (Da := ar_decs _ _ _ R). assert (Ua := ar_utils _ _ _ R). assert (Dk := ar_dec_agents _ _ _ R). assert (Uk := ar_util_agents _ _ _ R). assert (Co := ar_roles _ _ _ R).
      destruct (agent_decisions m) as [|[b [|x [|y [|z ds']]]] [|q ads]] eqn:Ed; try discriminate. destruct Hin as [Hin|[]]. injection Hin as -> <-.
      destruct (agent_utilities m) as [|[c [|u [|v us]]] [|q' aus]] eqn:Eu; try discriminate.
      cbn [keys map fst length seq] in Dk, Uk. assert (a = str_of 0) by congruence. assert (c = str_of 0) by congruence. subst a c.
      assert (Gr := add_recalls_ok _ _ _ _ _ Ho W0 N0 P0 E3). destruct Gr as (g' & Eg & Gr).
      apply no_cycle_two. unfold add_sufficient_recalls, agents in E3. rewrite E2 in E3. cbn [keys map fst fold_r] in E3. unfold dict_get in E3. cbn [fst] in E3. rewrite E1, E2 in E3. cbn [lookup] in E3. rewrite String.eqb_refl in E3. cbn [bind fold_r later_pairs map app fst snd] in E3.
      destruct (recall_pair fuel o rnd (m0, 0) u x y) as [[m1 k1]|] eqn:E4; cbn in E3; [|discriminate]. injection E3 as <-.
      eapply recall_pair_breaks in E4; eauto.
      + apply (P0 (str_of 0)). rewrite E1. exists [x; y]. split; left; auto.
      + apply (P0 (str_of 0)). rewrite E1. exists [x; y]. split; [left; auto|right; left; auto].
      + apply (gr_nodes _ _ Gr). replace g' with (mgraph m1) by (rewrite Eg; reflexivity). destruct (at_all _ _ _ _ _ _ _ _ _ A L2) as ((_ & _ & P) & _). apply (P (str_of 0)). right. rewrite Eu. exists [u]. split; left; auto.
      + intros ->. destruct Co as (_ & _ & _ & _ & Co & _). specialize (Co (str_of 0) [y; y]). rewrite Ed in Co. specialize (Co (or_introl (or_introl eq_refl))). inversion Co as [|? ? K1 K2]. apply K1. left. auto.
      + rewrite E2. intros a u' (l & [K|[]] & K'). injection K as <- <-. destruct K' as [<-|[]]. auto. }
  split; auto. destruct (at_all _ _ _ _ _ _ _ _ _ A L2) as (V & _). destruct (requested_complete _ _ _ L (at_roles _ _ _ _ _ _ _ _ _ A)) as [U D]. assert (N : no_clash (mgraph m)) by (apply plain_no_clash; apply A). destruct (C18_sufficient_recall_partial m V N U D) as (_ & _ & b & E & S). rewrite E. f_equal. apply S. auto.
Qed.
Print Assumptions C59_partial.

(* a run of each kind *)
Definition ex_draws1 : draws := mkDraws (st [0; 1;0; 0;1; 0;1; 2;3; 0;4]) (st [0; 1]) (fun _ => st [0; 0]) (st [2; 2; 2; 2]).
(* without the request the two decisions rely on each other; with it one edge is added *)
Example C59_used :
  match random_macidbase 20 id_order (fun _ => ex_draws1) 6 [2] [1] false (1 # 3) 4 1 with Ok m => sufficient_recall m None | Err e => Err e end = Ok false /\
  match random_macidbase 20 id_order (fun _ => ex_draws1) 6 [2] [1] true (1 # 3) 4 1 with Ok m => Ok (edges (mgraph m)) | Err e => Err e end =
    Ok [("D^0_1", "X_0"); ("X_0", "X_1"); ("D^0_0", "X_0"); ("X_1", "X_2"); ("X_2", "U^0_0"); ("D^0_1", "D^0_0")].
Proof. vm_compute. split; reflexivity. Qed.
Example C53_used :
  match random_macidbase 20 id_order (fun _ => ex_draws) 7 [1; 1] [1; 1] true (1 # 3) 4 1 with Ok m => Ok (agent_decisions m, agent_utilities m, length (nodes (mgraph m))) | Err e => Err e end =
    Ok ([("0", ["D^0_0"]); ("1", ["D^1_0"])], [("0", ["U^0_0"]); ("1", ["U^1_0"])], 7).
Proof. vm_compute. reflexivity. Qed.
