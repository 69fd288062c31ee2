(* Property C52: random graphs. *)
From Coq Require Import String List Bool Arith ZArith QArith Qround Lia Permutation DecimalString DecimalNat DecimalFacts.
Import ListNotations.
From Verif Require Import MBase MGraph MRandDag Spec SpecM SpecQ SpecRand LBase LGraph LRandDag.
Local Open Scope nat_scope.

Lemma str_of_inj : forall i j, str_of i = str_of j -> i = j.
Proof.
  intros i j H. apply DecimalNat.Unsigned.to_uint_inj. assert (K : forall n, NilZero.uint_of_string (NilZero.string_of_uint (Nat.to_uint n)) = Some (Nat.to_uint n)).
  { intro n. apply NilZero.usu. rewrite <- (DecimalNat.Unsigned.of_to n) at 1. rewrite DecimalNat.Unsigned.to_of. apply unorm_nonnil. }
  assert (E := K i). unfold str_of in H. rewrite H, K in E. congruence.
Qed.
Lemma names_NoDup : forall n, NoDup (names n).
Proof.
  intro n. unfold names. apply NoDup_map_inj; [|apply seq_NoDup]. intros i j _ _ H. unfold xname in H. apply str_of_inj. cbn [String.append] in H. congruence.
Qed.
Lemma names_length : forall n, length (names n) = n.
Proof. intro n. unfold names. rewrite map_length, seq_length. auto. Qed.
Lemma joining_start : forall order x, In x order -> joining order (add_node empty_graph x) [x] (remove_first x order).
Proof.
  intros order x H. assert (NE : forall u v, ~ edge (add_node empty_graph x) u v) by (intros u v; unfold edge; rewrite edges_add_node; intros []). constructor.
  - apply wf_add_node. split; [constructor|]. split; [constructor|]. intros u v [].
  - intro y. rewrite in_add_node. cbn. intuition auto.
  - apply Permutation_sym, remove_first_perm; auto.
  - intros u v E. destruct (NE u v E).
  - intros u v [<-|[]] [<-|[]]. constructor.
  - discriminate.
Qed.
Lemma start_degree : forall x v, in_degree (add_node empty_graph x) v = 0.
Proof. intros x v. unfold in_degree, parents. rewrite edges_add_node. reflexivity. Qed.
Lemma joined_drawn : forall order mx g vis, joining order g vis [] -> (forall v, in_degree g v <= Nat.max 1 mx) -> drawn order (Nat.max 4 mx) g.
Proof.
  intros order mx g vis [W Nd P U C S] D. rewrite List.app_nil_r in P. constructor; auto.
  - intro x. rewrite Nd. split; intro K; [apply (Permutation_in _ P K)|apply (Permutation_in _ (Permutation_sym P) K)].
  - intros u v Hu Hv. apply C; apply Nd; auto.
  - intro v. specialize (D v). lia.
Qed.
Lemma random_drawn : forall fuel rnd n density mx g, random_dag fuel rnd n density mx = Ok g -> drawn (names n) (Nat.max 4 mx) g /\ (wanted_edges n density <= Z.of_nat (length (edges g)))%Z.
Proof.
  intros fuel rnd n density mx g H. unfold random_dag in H. destruct (choice rnd 0 (names n)) as [x|] eqn:Ex; [|discriminate]. cbn [bind] in H. apply choice_In in Ex.
  destruct (connect _ _ _ _ _ _ _ _) as [[g1 k1]|] eqn:Ec; [|discriminate]. cbn [bind fst snd] in H.
  apply (connect_ok _ _ _ _ _ _ _ _ _ _ (names_NoDup n) (joining_start _ _ Ex)) in Ec; [|intro v; rewrite start_degree; lia]. destruct Ec as [[vis J] D].
  apply (densify_ok _ _ _ _ _ (Nat.max 4 mx) _ _ (names_NoDup n)) in H; [auto|lia|eapply joined_drawn; eauto].
Qed.

(* ---- C52 ---- *)
(* whenever random_dag returns, the graph is acyclic, on exactly the requested nodes, connected, with at least the requested
   number of edges; but the bound on the parents is kept only when it is 4 or more *)
Theorem C52_partial : forall fuel rnd n density max_in_degree g, random_dag fuel rnd n density max_in_degree = Ok g ->
  wf_dag g /\ Permutation (nodes g) (names n) /\ connected g /\ (wanted_edges n density <= Z.of_nat (length (edges g)))%Z /\
  forall v, at_most_parents g (Nat.max 4 max_in_degree) v.
Proof.
  intros fuel rnd n density mx g H. apply random_drawn in H. destruct H as [[W Nd U C D] E]. split; [split; [auto|eapply upward_acyclic; eauto]|]. split; [apply NoDup_Permutation; [apply wf_nodes; auto|apply names_NoDup|auto]|]. split; auto. split; auto.
  intro v. apply at_most_degree; auto.
Qed.
Print Assumptions C52_partial.
(* the only way not to return a graph, for at least one node, is to run on *)
Theorem C52_no_error : forall fuel rnd n density max_in_degree, 1 <= n ->
  (exists g, random_dag fuel rnd n density max_in_degree = Ok g) \/ random_dag fuel rnd n density max_in_degree = Err OutOfFuel.
Proof.
  intros fuel rnd n density mx Hn. unfold random_dag. destruct (choice_some _ rnd 0 (names n)) as (x & Ex); [intro K; assert (L := names_length n); rewrite K in L; cbn in L; lia|]. rewrite Ex. cbn [bind]. apply choice_In in Ex.
  assert (Hc : forall f k g vis unv, vis <> [] -> (exists r, connect f rnd k (names n) mx g vis unv = Ok r) \/ connect f rnd k (names n) mx g vis unv = Err OutOfFuel).
  { induction f as [|f IH]; intros k g vis unv Hv; [destruct unv; [left; eexists; reflexivity|right; reflexivity]|]. destruct (list_eq_dec string_dec unv []) as [->|Hu]; [left; eexists; reflexivity|]. rewrite connect_S by auto.
    destruct (choice_some _ rnd k unv Hu) as (a & ->). destruct (choice_some _ rnd (k + 1) vis Hv) as (b & ->). cbn [bind]. destruct ((index a (names n) <? index b (names n)) && (in_degree g b <? mx)); [apply IH; destruct vis; discriminate|].
    destruct (index b (names n) <? index a (names n)); apply IH; auto. destruct vis; discriminate. }
  destruct (Hc fuel 1 (add_node empty_graph x) [x] (remove_first x (names n))) as [[r Er]|Er]; [discriminate| |rewrite Er; right; reflexivity]. rewrite Er. destruct r as [g k]. cbn [bind fst snd]. clear Hc Er.
  destruct (Nat.le_gt_cases 2 n) as [L|L].
  - revert k g. induction fuel as [|fuel IH]; intros k g; cbn [densify]; (destruct (Z.of_nat (length (edges g)) <? wanted_edges n density)%Z; [|eauto]); [right; reflexivity|].
    destruct (add_random_ok rnd k g (names n) (names_NoDup n)) as (g' & -> & _); [rewrite names_length; auto|]. cbn [bind]. apply IH.
  - left. exists g. assert (n = 1) as -> by lia. assert (W : (wanted_edges 1 density <= 0)%Z).
    { unfold wanted_edges. change 0%Z with (Qfloor 0). apply Qfloor_resp_le. cbn. unfold Qdiv. rewrite Qmult_0_l, Qmult_0_r. apply Qle_refl. }
    destruct fuel; cbn [densify]; destruct (Z.ltb_spec (Z.of_nat (length (edges g))) (wanted_edges 1 density)); auto; lia.
Qed.
Print Assumptions C52_no_error.
(* whatever the first choices were, later choices exist with which random_dag returns, if the requested number of edges is
   possible with four parents at most per node *)
Theorem C52_returns_partial : forall n density max_in_degree, 1 <= n -> 1 <= max_in_degree -> (wanted_edges n density <= Z.of_nat (most_edges n 4))%Z ->
  forall rnd k, exists rnd' fuel g, (forall i, i < k -> rnd' i = rnd i) /\ random_dag fuel rnd' n density max_in_degree = Ok g.
Proof.
  intros n density mx Hn Hm B rnd k. destruct (choice_some _ rnd 0 (names n)) as (x & Ex); [intro K; assert (L := names_length n); rewrite K in L; cbn in L; lia|]. assert (Hx := choice_In _ _ _ _ _ Ex).
  destruct (connect_any k (names n) mx (add_node empty_graph x) [x] (remove_first x (names n)) rnd 1 Hm (names_NoDup n) (joining_start _ _ Hx)) as (r1 & S1 & (f1 & g1 & k1 & L1 & H1)); [intro v; rewrite start_degree; lia|].
  assert (E1 := H1 r1 (fun i _ => eq_refl)). destruct (connect_ok _ _ _ _ _ _ _ _ _ _ (names_NoDup n) (joining_start _ _ Hx) (fun v => eq_ind_r (fun z => z <= Nat.max 1 mx) (Nat.le_0_l _) (start_degree x v)) E1) as [[vis J] D].
  destruct (densify_any k (names n) (wanted_edges n density) (Nat.max 4 mx) g1 r1 k1 (names_NoDup n)) as (r2 & S2 & (f2 & g2 & H2)).
  - rewrite names_length. destruct (Nat.le_gt_cases 2 n) as [L|L]; [auto|right]. assert (n = 1) as -> by lia. unfold wanted_edges. change 0%Z with (Qfloor 0). apply Qfloor_resp_le. cbn. unfold Qdiv. rewrite Qmult_0_l, Qmult_0_r. apply Qle_refl.
  - lia.
  - eapply joined_drawn; eauto.
  - rewrite names_length. auto.
  - exists r2, (f1 + f2), g2. split; [intros i Hi; rewrite S2 by lia; apply S1; lia|]. unfold random_dag. rewrite (choice_ext _ r2 rnd) by (rewrite S2 by lia; apply S1; lia). rewrite Ex. cbn [bind].
    rewrite (connect_fuel f1 f2 _ _ _ _ _ _ _ _ (H1 r2 (fun i Hi => S2 i ltac:(lia)))). cbn [bind fst snd]. rewrite Nat.add_comm. apply densify_fuel. auto.
Qed.
Print Assumptions C52_returns_partial.
(* when more edges are requested than the bounds allow, no sequence of random choices makes random_dag return *)
Theorem C52_never_returns : forall n density max_in_degree, 1 <= n -> (Z.of_nat (most_edges n (Nat.max 4 max_in_degree)) < wanted_edges n density)%Z ->
  forall fuel rnd, random_dag fuel rnd n density max_in_degree = Err OutOfFuel.
Proof.
  intros n density mx Hn B fuel rnd. destruct (C52_no_error fuel rnd n density mx Hn) as [[g H]|H]; auto. exfalso. apply random_drawn in H. destruct H as [[W Nd U C D] E].
  assert (K := upward_most (names n) g (Nat.max 4 mx) (names_NoDup n) W U (fun v _ => D v)). rewrite names_length in K. lia.
Qed.
Print Assumptions C52_never_returns.
(* a complete graph on six nodes, with the default bound: the call never returns *)
Theorem C52_stuck_refuted : exists n density, 1 <= n /\ (0 <= density <= 1)%Q /\ forall fuel rnd, random_dag fuel rnd n density 4 = Err OutOfFuel.
Proof. exists 6, 1%Q. split; [lia|]. split; [split; discriminate|]. apply C52_never_returns; [lia|reflexivity]. Qed.
Print Assumptions C52_stuck_refuted.
(* the requested bound on the parents is not passed on to the second loop *)
Theorem C52_in_degree_refuted : exists fuel rnd n density max_in_degree g v, 1 <= max_in_degree /\ random_dag fuel rnd n density max_in_degree = Ok g /\ ~ at_most_parents g max_in_degree v.
Proof.
  exists 20, (fun i => match i with 0 => 0 | 1 => 0 | 2 => 0 | 3 => 0 | 4 => 1 | 5 => 0 | 6 => 1 | _ => i end), 3, 1%Q, 1.
  destruct (random_dag 20 (fun i => match i with 0 => 0 | 1 => 0 | 2 => 0 | 3 => 0 | 4 => 1 | 5 => 0 | 6 => 1 | _ => i end) 3 1 1) as [g|] eqn:E; [|vm_compute in E; discriminate]. exists g, "X2"%string. split; [lia|]. split; auto.
  vm_compute in E. injection E as <-. intro K. specialize (K ["X0"; "X1"]%string). cbn in K. assert (2 <= 1); [apply K|lia].
  - repeat constructor; cbn; intuition discriminate.
  - intros p [<-|[<-|[]]]; vm_compute; tauto.
Qed.
Print Assumptions C52_in_degree_refuted.
(* and bound 0 gives parents all the same *)
Theorem C52_zero_degree_refuted : exists fuel rnd n g v, random_dag fuel rnd n 0 0 = Ok g /\ ~ at_most_parents g 0 v.
Proof.
  exists 5, (fun _ => 0), 2. destruct (random_dag 5 (fun _ => 0) 2 0 0) as [g|] eqn:E; [|vm_compute in E; discriminate]. exists g, "X1"%string. split; auto. vm_compute in E. injection E as <-.
  intro K. specialize (K ["X0"]%string). assert (1 <= 0); [apply K|lia]; [repeat constructor; intros []|intros p [<-|[]]; vm_compute; tauto].
Qed.
Print Assumptions C52_zero_degree_refuted.
Example C52_example : 1 <= 5 /\ 1 <= 4 /\ (wanted_edges 5 1 <= Z.of_nat (most_edges 5 4))%Z /\ wanted_edges 5 1 = 10%Z /\
  is_ok (random_dag 40 (fun i => i * i + i / 3) 5 (4 # 10) 4) = true /\ (Z.of_nat (most_edges 6 (Nat.max 4 4)) < wanted_edges 6 1)%Z.
Proof. vm_compute. repeat split; try lia; discriminate. Qed.
(* no nodes: IndexError *)
Example C52_empty : forall fuel rnd d m, random_dag fuel rnd 0 d m = Err IndexError.
Proof. reflexivity. Qed.
