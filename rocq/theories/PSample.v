(* C82: sample draws from the joint distribution. *)
From Coq Require Import String List Bool Arith QArith Qcanon Lia Permutation.
Import ListNotations.
From Verif Require Import MBase MGraph MCpd MNet MProb MQuery MSample Spec SpecC SpecN SpecQ SpecPol SpecSample LBase LGraph LQc LQcArith LSum LBayes LQuery LDo LCond LSearch LTotal LSample PQuery.
Local Open Scope string_scope.
Local Open Scope list_scope.
Local Open Scope Qc_scope.

Lemma qcmult_pos : forall a b : Qc, 0 < a -> 0 < b -> 0 < a * b.
Proof. intros a b A B. assert (X := Qcmult_lt_compat_r 0 a b B A). rewrite Qcmult_0_l in X. auto. Qed.
Lemma full_prob : forall n c, distribution n -> world n c -> do_prob n [] c = joint n (given c (fun _ => 0)).
Proof.
  intros n c Hd [Kc Dc]. assert (C := kernel_cond n Hd). assert (NN : NoDup (nodes (ngraph n))) by apply Hd. rewrite prob_total. rewrite (total_dom_perm _ (ndom n)) by (intros v Hv; rewrite ndom_in by auto; apply Permutation_refl).
  rewrite (collapse (ndom n) (fun v => ndom_nodup n v Hd) c (nodes (ngraph n)) (joint n) (fun _ => 0)); auto.
  - replace (filter (fun v => negb (mem v (keys c))) (nodes (ngraph n))) with (@nil node); [reflexivity|]. rewrite Kc. symmetry. assert (X : forall l l' : list node, incl l l' -> filter (fun v => negb (mem v l')) l = []). { induction l as [|x l IH]; intros l' I; auto. simpl. rewrite (proj2 (mem_In x l')) by (apply I; left; auto). simpl. apply IH. intros y Hy. apply I. right; auto. } apply X. apply incl_refl.
  - rewrite Kc. auto.
  - rewrite Kc. apply incl_refl.
  - intros v x H. assert (Hv : In v (nodes (ngraph n))) by (rewrite <- Kc; apply in_map_iff; exists (v, x); auto). rewrite ndom_in by auto. destruct (Dc v x H) as (d & L & Hx). unfold has_domain in L. unfold dom_of. rewrite L. auto.
  - intros a b E. apply (weight_ext (ngraph n) (dom_of (doms n)) (kernel n) _ C (incl_refl _) a b E).
Qed.
Lemma world_given : forall n c, NoDup (nodes (ngraph n)) -> world n c -> within n (given c (fun _ => 0)) /\ c = map (fun v => (v, given c (fun _ => 0) v)) (nodes (ngraph n)).
Proof.
  intros n c NN [Kc Dc]. assert (Nc : NoDup (keys c)) by (rewrite Kc; auto). split.
  - intros v Hv. rewrite <- Kc in Hv. apply in_map_iff in Hv. destruct Hv as ((v' & x) & <- & H). cbn [fst]. rewrite (given_in c _ v' x) by auto. destruct (Dc v' x H) as (d & L & Hx). unfold has_domain in L. unfold dom_of. rewrite L. auto.
  - rewrite <- Kc. unfold keys. rewrite map_map. rewrite <- (map_id c) at 1. apply map_ext_in. intros (v, x) H. cbn [fst]. rewrite (given_in c _ v x); auto.
Qed.
Lemma sample_ok : forall o n, valid_order o -> distribution n -> exists vs, Permutation vs (nodes (ngraph n)) /\ (forall l1 x l2, vs = l1 ++ x :: l2 -> forall p, edge (ngraph n) p x -> In p l1) /\
  forall u, sample o n u = Ok (map (fun v => (v, forward_loop n u vs (fun _ => 0) v)) (nodes (ngraph n))).
Proof.
  intros o n O Hd. assert (W : wf_dag (ngraph n)) by apply Hd. destruct (toposort_spec o (ngraph n) O (proj1 W) (proj2 W)) as (vs & E & P & B). exists vs. split; auto. split; auto. intro u. unfold sample. rewrite check_model_ok; auto; [cbn [bind]; rewrite E; reflexivity|]. intros v Hv. apply dist_table; auto.
Qed.
(* the numbers that lead to a given world form a box, whose volume is the probability of the world *)
Theorem C82_exact : forall n c, distribution n -> world n c ->
  exists lo hi, (forall v, In v (nodes (ngraph n)) -> 0 <= lo v /\ lo v <= hi v /\ hi v <= 1) /\ volume n lo hi = do_prob n [] c /\
    forall o u, valid_order o -> draws n u -> (sample o n u = Ok c <-> in_box n lo hi u).
Proof.
  intros n c Hd Wc. assert (C := kernel_cond n Hd). assert (NN : NoDup (nodes (ngraph n))) by apply Hd. set (w := given c (fun _ => 0)). destruct (world_given n c NN Wc) as [Ww Ec]. fold w in Ww, Ec.
  exists (low n w), (fun v => low n w v + kernel n v w). split; [|split].
  - intros v Hv. assert (P : forall y, In y (dom_of (doms n) v) -> 0 <= kernel n v (upd w v y)) by (intros y _; apply (k_nonneg _ _ _ C); auto). assert (K0 := k_nonneg _ _ _ C v w Hv).
    assert (B1 := before_nonneg (fun x => kernel n v (upd w v x)) (w v) _ P). assert (B2 := before_le (fun x => kernel n v (upd w v x)) (w v) _ P (Ww v Hv)). fold (low n w v) in B1, B2. cbv beta in B2.
    rewrite (k_normal _ _ _ C v w Hv) in B2 by (intros p Hp; apply Ww; apply (proj1 Hd) in Hp; tauto). assert (Ek : kernel n v (upd w v (w v)) = kernel n v w) by (apply (k_local _ _ _ C v Hv); intros z _; unfold upd; destruct (String.eqb_spec z v) as [->|]; auto). rewrite Ek in B2.
    split; [auto|]. split; [qclra|auto].
  - rewrite (full_prob n c Hd Wc). fold w. unfold volume, joint, qprod. f_equal. apply map_ext. intro v. ring.
  - intros o u O Du. destruct (sample_ok o n O Hd) as (vs & Pm & B & E). rewrite E.
    destruct (forward_spec n u w Hd Du Ww vs [] (fun _ => 0)) as [_ F]; [cbn; eapply Permutation_NoDup; [apply Permutation_sym; eauto|auto]|intros x Hx; eapply Permutation_in; eauto|exact B|intros p []|]. specialize (F (fun p (K : In p []) => match K with end)).
    assert (X : Ok (map (fun v => (v, forward_loop n u vs (fun _ => 0) v)) (nodes (ngraph n))) = Ok c <-> forall v, In v vs -> forward_loop n u vs (fun _ => 0) v = w v).
    { split.
      - intros K v Hv. injection K as K. rewrite Ec in K. assert (Hv' : In v (nodes (ngraph n))) by (eapply Permutation_in; eauto). clear - K Hv'. induction (nodes (ngraph n)) as [|x l IH]; [destruct Hv'|]. simpl in K. injection K as K1 K2. destruct Hv' as [<-|H]; auto.
      - intro K. f_equal. rewrite Ec. apply map_ext_in. intros v Hv. f_equal. apply K. eapply Permutation_in; [apply Permutation_sym; eauto|auto]. }
    rewrite X, F. unfold in_box. split; intros K v Hv; apply K; [eapply Permutation_in; [apply Permutation_sym; eauto|auto]|eapply Permutation_in; eauto].
Qed.
Print Assumptions C82_exact.
(* sample always returns a possible world *)
Theorem C82_possible : forall o n u, valid_order o -> distribution n -> draws n u -> exists c, sample o n u = Ok c /\ world n c /\ 0 < do_prob n [] c.
Proof.
  intros o n u O Hd Du. assert (C := kernel_cond n Hd). assert (NN : NoDup (nodes (ngraph n))) by apply Hd. destruct (sample_ok o n O Hd) as (vs & Pm & B & E). set (c := map (fun v => (v, forward_loop n u vs (fun _ => 0) v)) (nodes (ngraph n))) in *.
  assert (Ne : forall v, In v (nodes (ngraph n)) -> exists x, In x (dom_of (doms n) v)). { intros v Hv. destruct (dist_lookup n v Hd Hv) as [_ Nn]. destruct (dom_of (doms n) v) as [|x l]; [congruence|exists x; left; auto]. }
  set (w0 := fun v => hd 0 (dom_of (doms n) v)). assert (W0 : within n w0). { intros v Hv. destruct (Ne v Hv) as [x Hx]. unfold w0. destruct (dom_of (doms n) v); [destruct Hx|left; auto]. }
  destruct (forward_spec n u w0 Hd Du W0 vs [] (fun _ => 0)) as [F _]; [cbn; eapply Permutation_NoDup; [apply Permutation_sym; eauto|auto]|intros x Hx; eapply Permutation_in; eauto|exact B|intros p []|].
  assert (Wc : world n c). { split; [unfold c, keys; rewrite map_map; apply map_id|]. intros v x H. unfold c in H. apply in_map_iff in H. destruct H as (v' & H & Hv). injection H as -> <-. destruct (dist_lookup n v Hd Hv) as [L _]. exists (dom_of (doms n) v). split; auto. apply F. eapply Permutation_in; [apply Permutation_sym; eauto|auto]. }
  assert (Eu : sample o n u = Ok c) by (exact (E u)). exists c. split; [exact Eu|]. split; [exact Wc|]. destruct (C82_exact n c Hd Wc) as (lo & hi & Bd & Vo & H). rewrite <- Vo. assert (Ib := proj1 (H o u O Du) Eu). unfold volume. clear - Ib. unfold in_box in Ib. induction (nodes (ngraph n)) as [|v l IH]; simpl; [reflexivity|].
  apply qcmult_pos; [|apply IH; intros z Hz; apply Ib; right; auto]. destruct (Ib v (or_introl eq_refl)) as [K1 K2]. qclra.
Qed.
Print Assumptions C82_possible.
(* the way ties in the topological order are broken does not matter *)
Theorem C82_order : forall o o' n u, valid_order o -> valid_order o' -> distribution n -> draws n u -> sample o n u = sample o' n u.
Proof.
  intros o o' n u O O' Hd Du. destruct (C82_possible o n u O Hd Du) as (c & E & Wc & _). rewrite E. symmetry. destruct (C82_exact n c Hd Wc) as (lo & hi & _ & _ & H). apply (H o' u O' Du). apply (H o u O Du). auto.
Qed.
Print Assumptions C82_order.
(* the chain A -> B -> C: two samples, one with a number on the boundary of two intervals *)
Definition shown (r : result (list (node * outcome))) : list (node * Q) := match r with Ok c => map (fun vx => (fst vx, this (snd vx))) c | Err _ => [] end.
Definition drawn (x y z : Qc) (v : node) : Qc := if String.eqb v "A" then x else if String.eqb v "B" then y else z.
Example C82_example : distribution ex_chain /\ draws ex_chain (drawn (Q2Qc (1 # 3)) (Q2Qc (3 # 4)) (Q2Qc (1 # 2))) /\
  shown (sample MBase.id_order ex_chain (drawn (Q2Qc (1 # 3)) (Q2Qc (3 # 4)) (Q2Qc (1 # 2)))) = [("A", 0%Q); ("B", 1%Q); ("C", 1%Q)] /\
  shown (sample MBase.id_order ex_chain (drawn (Q2Qc (1 # 2)) (Q2Qc (0 # 1)) (Q2Qc (9 # 10)))) = [("A", 1%Q); ("B", 0%Q); ("C", 1%Q)] /\
  oeqb (do_prob ex_chain [] [("A", 0); ("B", 1); ("C", 1)]) (Q2Qc (1 # 12)) = true.
Proof.
  split; [exact (proj2 ex_chain_built)|]. split; [|split; [|split]; vm_compute; reflexivity].
  assert (N : nodes (ngraph ex_chain) = ["A"; "B"; "C"]) by (vm_compute; reflexivity). intros v Hv. rewrite N in Hv. destruct Hv as [<-|[<-|[<-|[]]]]; split; vm_compute; (reflexivity || discriminate).
Qed.
