(* Lemmas about the value of policies. *)
From Coq Require Import String List Bool Arith QArith Qcanon Lia Permutation Setoid.
Import ListNotations.
From Verif Require Import MBase MGraph MMacid MCpd MNet MProb MQuery MPolicy Spec SpecM SpecC SpecN SpecQ SpecPol LBase LGraph LCopy LQc LCpd LNet LSum LBayes LSep LQuery LDo LInter LFactor LEdit LBuilt LTotal LCheckN LEffects.
Local Open Scope Qc_scope.

Lemma follow_cond : forall n ds b, distribution n -> policy n ds b -> cond (ngraph n) (dom_of (doms n)) (follow n ds b).
Proof.
  intros n ds b Hd Hp. destruct (kernel_cond n Hd) as [k1 k2 k3]. constructor; intros v; unfold follow.
  - intro Hv. destruct (in_dec String.string_dec v ds) as [K|K]; [|apply k1; auto]. intros a a' E. apply (Hp v K); [apply E; left; auto|intros p Hp'; apply E; right; auto].
  - intros a Hv Ha. destruct (in_dec String.string_dec v ds) as [K|K]; [|apply k2; auto]. apply (Hp v K); auto.
  - intros a Hv. destruct (in_dec String.string_dec v ds) as [K|K]; [|apply k3; auto]. apply (Hp v K).
Qed.
Lemma sum_on : forall us (X : node -> Prop), (forall u, In u us -> X u) -> on X (fun a : asg => qsum (map a us)).
Proof. intros us X H a b E. apply qsum_ext. intros u Hu. apply E, H; auto. Qed.
Lemma value_weight : forall n ds b us, value n ds b us = total (dom_of (doms n)) (nodes (ngraph n)) (fun a => weight (follow n ds b) (nodes (ngraph n)) a * qsum (map a us)) (fun _ => 0).
Proof. intros. unfold value. apply total_ext. intro a. unfold weight, qprod, qsum. ring. Qed.
(* only the ancestors matter *)
Lemma value_barren : forall n ds b us A, distribution n -> policy n ds b -> incl A (nodes (ngraph n)) -> NoDup A -> closed (ngraph n) A -> incl us A ->
  value n ds b us = total (dom_of (doms n)) A (fun a => weight (follow n ds b) A a * qsum (map a us)) (fun _ => 0).
Proof.
  intros n ds b us A Hd Hp IA NA Cl Iu. rewrite value_weight. apply (barren (ngraph n) (dom_of (doms n)) (proj1 Hd) (follow n ds b) A); auto.
  - apply follow_cond; auto.
  - apply sum_on. auto.
Qed.
Lemma value_ext : forall n ds b b' us, (forall d a, In d ds -> within n a -> b d a = b' d a) -> value n ds b us = value n ds b' us.
Proof.
  intros n ds b b' us H. unfold value. apply total_ext_in. intros a Ha _. f_equal. apply qprod_ext. intros v Hv. unfold follow. destruct (in_dec String.string_dec v ds); auto.
Qed.
(* the expectation as a sum *)
Lemma div_one : forall p : Qc, p / 1 = p.
Proof. intro p. field. discriminate. Qed.
Lemma expectation_total : forall n u, distribution n -> In u (nodes (ngraph n)) ->
  expectation n [] [] u = total (dom_of (doms n)) (nodes (ngraph n)) (fun a => weight (kernel n) (nodes (ngraph n)) a * a u) (fun _ => 0).
Proof.
  intros n u Hd Hu. unfold expectation. change (fold_right Qcplus 0) with qsum.
  assert (E1 : do_prob n [] [] = 1) by (apply do_prob_nil; [exact Hd|constructor|intros ? []|intros ? ? []]).
  assert (Pd : forall c, do_prob n [] c = total (dom_of (doms n)) (nodes (ngraph n)) (fun b => (if agrees c b then 1 else 0) * weight (kernel n) (nodes (ngraph n)) b) (fun _ => 0)).
  { intro c. unfold do_prob. apply total_ext. intro b. unfold do_joint. cbn [agrees forallb keys map]. destruct (agrees c b); [|ring]. rewrite Qcmult_1_l. unfold weight. apply qprod_ext. intros v Hv.
    destruct (in_dec String.string_dec v []) as [[]|]; auto. }
  rewrite (qsum_ext _ _ (fun x => total (dom_of (doms n)) (nodes (ngraph n)) (fun b => x * ((if agrees [(u, x)] b then 1 else 0) * weight (kernel n) (nodes (ngraph n)) b)) (fun _ => 0))).
  2:{ intros x _. rewrite total_scale, <- Pd, E1. apply f_equal. apply div_one. }
  rewrite <- total_qsum. apply total_ext_in. intros b Hb _. rewrite (qsum_single _ Qc_eq_dec _ _ (b u)); auto.
  - cbn [agrees forallb fst snd]. replace (oeqb (b u) (b u)) with true by (symmetry; apply oeqb_iff; auto). cbn [andb]. ring.
  - apply dom_nodup; auto.
  - intros y Hy Ne. cbn [agrees forallb fst snd]. destruct (oeqb_spec (b u) y); [congruence|]. cbn [andb]. ring.
Qed.
Lemma expectations_sum : forall n us, distribution n -> incl us (nodes (ngraph n)) ->
  qsum (map (expectation n [] []) us) = total (dom_of (doms n)) (nodes (ngraph n)) (fun a => weight (kernel n) (nodes (ngraph n)) a * qsum (map a us)) (fun _ => 0).
Proof.
  intros n us Hd Iu. rewrite (qsum_ext _ _ (fun u => total (dom_of (doms n)) (nodes (ngraph n)) (fun a => weight (kernel n) (nodes (ngraph n)) a * a u) (fun _ => 0))) by (intros u Hu; apply expectation_total; auto).
  rewrite <- total_qsum. apply total_ext. intro a. apply qsum_scale.
Qed.

(* ---- a part of a network with other rules for some decisions ---- *)
Record variant (n : net) (ds : list node) (n' : net) : Prop := {
  v_built : built n';
  v_dist : distribution n';
  v_nodes : incl (nodes (ngraph n')) (nodes (ngraph n));
  v_closed : forall u v, edge (ngraph n) u v -> (In u (nodes (ngraph n')) <-> In v (nodes (ngraph n')));
  v_edges : forall u v, edge (ngraph n') u v <-> edge (ngraph n) u v /\ In u (nodes (ngraph n'));
  v_doms : forall v, lookup v (doms n') = lookup v (doms n);
  v_tables : forall v, In v (nodes (ngraph n')) -> ~ In v ds -> cpd_of n' v = cpd_of n v }.
Lemma variant_self : forall n ds, built n -> distribution n -> variant n ds n.
Proof.
  intros n ds B Hd. assert (W : wf_dag (ngraph n)) by apply Hd. assert (E : forall u v, edge (ngraph n) u v -> In u (nodes (ngraph n)) /\ In v (nodes (ngraph n))) by (intros u v; apply W).
  constructor; auto; try (intros u v H; apply E in H; tauto).
  - apply incl_refl.
  - intros u v. split; [|tauto]. intro H. split; auto. apply E in H. tauto.
Qed.
Lemma variant_dom : forall n ds n' v, variant n ds n' -> dom_of (doms n') v = dom_of (doms n) v.
Proof. intros n ds n' v V. unfold dom_of. rewrite (v_doms _ _ _ V). auto. Qed.
(* its expectations are those of the whole network *)
Lemma variant_value : forall n ds n' b us, distribution n -> policy n ds b -> variant n ds n' -> incl us (nodes (ngraph n')) ->
  (forall d a, In d ds -> In d (nodes (ngraph n')) -> within n a -> kernel n' d a = b d a) -> qsum (map (expectation n' [] []) us) = value n ds b us.
Proof.
  intros n ds n' b us Hd Hp V Iu Hb. assert (In' := v_nodes _ _ _ V).
  rewrite expectations_sum; auto; [|apply (v_dist _ _ _ V)]. rewrite (value_barren n ds b us (nodes (ngraph n'))); auto.
  - rewrite (total_dom_perm (dom_of (doms n')) (dom_of (doms n))) by (intros v _; rewrite (variant_dom _ _ _ v V); auto).
    assert (Dm : forall v, In v (nodes (ngraph n)) -> exists x, In x (dom_of (doms n) v)).
    { intros v Hv. assert (X := dist_inhabited n Hd v Hv). destruct (dom_of (doms n) v) as [|x l]; [congruence|exists x; left; auto]. }
    apply total_ext_in. intros a Ha _. f_equal. unfold weight. apply qprod_ext. intros v Hv. unfold follow. destruct (in_dec String.string_dec v ds) as [K|K].
    + destruct (kernel_cond n' (v_dist _ _ _ V)) as [k1 _ _]. set (a' := fun u => if mem u (nodes (ngraph n')) then a u else hd 0 (dom_of (doms n) u)).
      assert (Wa : within n a'). { intros u Hu. unfold a'. destruct (mem_spec u (nodes (ngraph n'))) as [K'|K']; [apply Ha; auto|]. destruct (Dm u Hu) as [x Hx]. destruct (dom_of (doms n) u); [destruct Hx|left; auto]. }
      rewrite (k1 v Hv a a').
      2:{ intros u Hu. unfold a'. replace (mem u (nodes (ngraph n'))) with true; auto. symmetry. apply mem_In. destruct Hu as [->|Hu]; auto. apply (v_edges _ _ _ V) in Hu. tauto. }
      rewrite (Hb v a' K Hv Wa). apply (Hp v K).
      * unfold a'. rewrite (proj2 (mem_In _ _) Hv). auto.
      * intros p Hpv. unfold a'. replace (mem p (nodes (ngraph n'))) with true; auto. symmetry. apply mem_In. apply (v_closed _ _ _ V p v Hpv). auto.
    + unfold kernel. rewrite (v_tables _ _ _ V v Hv K). destruct (cpd_of n v) as [t|]; auto. apply entry_doms. intro w. apply (variant_dom _ _ _ w V).
  - apply (v_dist _ _ _ V).
  - intros u v E Hv. apply (v_closed _ _ _ V u v E). auto.
Qed.
