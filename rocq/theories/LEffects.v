(* Interventions on variables that are not ancestors of the context have no effect. *)
From Coq Require Import String List Bool Arith QArith Qcanon Lia Permutation.
Import ListNotations.
From Verif Require Import MBase MGraph MMacid MCpd MNet MProb MQuery Spec SpecM SpecC SpecN SpecQ LBase LGraph LQc LCpd LNet LSum LBayes LSep LQuery LDo LInter LFactor LBuilt LTotal.
Local Open Scope Qc_scope.

Lemma do_prob_barren : forall n (iv c : list (node * outcome)) A, distribution n -> NoDup (keys iv) -> incl (keys iv) (nodes (ngraph n)) -> in_domains n iv ->
  incl A (nodes (ngraph n)) -> NoDup A -> (forall u v, edge (ngraph n) u v -> ~ In v (keys iv) -> In v A -> In u A) -> incl (keys c) A ->
  do_prob n iv c = total (ndom n) A (fun b => (if agrees c b then 1 else 0) * weight (do_kernel n iv) A b) (fun _ => 0).
Proof.
  intros n iv c A Hd Ni Ii Di IA NA Cl Ic. assert (W : wf_dag (ngraph n)) by apply Hd. rewrite do_prob_P by auto.
  apply (P_barren _ (ndom n) (do_kernel n iv) (cut_dag _ _ W)); auto.
  - apply do_kernel_cond; auto. intros v x L. eapply lookup_in_domains; eauto.
  - intros u v E. apply edge_cut in E. apply Cl; tauto.
Qed.
Lemma do_prob_nil : forall n (iv : list (node * outcome)), distribution n -> NoDup (keys iv) -> incl (keys iv) (nodes (ngraph n)) -> in_domains n iv -> do_prob n iv [] = 1.
Proof.
  intros n iv Hd Ni Ii Di. rewrite (do_prob_barren n iv [] []); auto; try (intros ? []); try constructor; try (intros u v _ _ []).
Qed.
(* c is about variables that are not reached from the intervened variables *)
Lemma do_prob_unaffected : forall n (iv c : list (node * outcome)), distribution n -> NoDup (keys iv) -> incl (keys iv) (nodes (ngraph n)) -> in_domains n iv ->
  incl (keys c) (nodes (ngraph n)) -> (forall a v, In a (keys iv) -> In v (keys c) -> ~ reach (ngraph n) a v) -> do_prob n iv c = do_prob n [] c.
Proof.
  intros n iv c Hd Ni Ii Di Ic H. assert (W : wf_dag (ngraph n)) by apply Hd.
  set (A := filter (fun u => existsb (has_path (ngraph n) u) (keys c)) (nodes (ngraph n))).
  assert (KA : forall u, In u A <-> In u (nodes (ngraph n)) /\ exists v, In v (keys c) /\ reach (ngraph n) u v).
  { intro u. unfold A. rewrite filter_In, existsb_exists. split; intros [Hu (v & Hv & R)]; (split; [auto|]); exists v; (split; [auto|]); apply (has_path_iff _ (proj1 W)) in R || apply (has_path_iff _ (proj1 W)); auto. }
  assert (Cl : forall u v, edge (ngraph n) u v -> In v A -> In u A).
  { intros u v E Hv. apply KA in Hv. destruct Hv as [_ (w & Hw & R)]. apply KA. split; [apply W in E; tauto|]. exists w. split; auto. eapply reach_step; eauto. }
  assert (IA : incl A (nodes (ngraph n))) by (intros u Hu; apply KA in Hu; tauto). assert (NA : NoDup A) by (apply NoDup_filter, W).
  assert (Ic' : incl (keys c) A) by (intros v Hv; apply KA; split; [auto|exists v; split; [auto|constructor]]).
  rewrite (do_prob_barren n iv c A) by (auto; intros u v E _; apply Cl; auto).
  rewrite (do_prob_barren n [] c A Hd); [|constructor|intros x Hx; destruct Hx|intros x y Hx; destruct Hx|auto|auto|intros u v E _; apply Cl; auto|auto].
  apply total_ext. intro b. f_equal. unfold weight. apply qprod_ext. intros v Hv. unfold do_kernel. cbn [lookup].
  rewrite (proj1 (lookup_None_keys _ _ _)); auto. intro K. apply KA in Hv. destruct Hv as [_ (w & Hw & R)]. apply (H v w K Hw R).
Qed.
