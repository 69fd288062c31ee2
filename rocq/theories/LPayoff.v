(* The expected payoffs of the exported game. *)
From Coq Require Import String List Bool Arith QArith Qcanon Lia Permutation.
Import ListNotations.
From Verif Require Import MBase MGraph MMacid MCpd MNet MProb MQuery MGame Spec SpecM SpecC SpecN SpecQ SpecPol SpecGame LBase LGraph LRoles LQc LCpd LNet LCheck LSum LBayes LQuery LDo LInter LFactor LBuilt LTotal LValue LSearch LPolicy LQcArith LLike LOptimal LOptDec LBest LEffects PMacid PQuery LGame LGrow LTree LLevels LShape.
Local Open Scope Qc_scope.

(* the positions of full depth *)
Definition leaves (n : net) (vs : list node) : list (list nat) := product (map (fun v => seq 0 (length (dom_of (doms n) v))) vs).
Lemma in_leaves : forall n vs p, In p (leaves n vs) <-> length p = length vs /\ position n vs p.
Proof.
  intros n vs p. transitivity (In (0%nat :: p) (indices (map (fun v => length (dom_of (doms n) v)) vs))).
  - unfold indices, leaves. cbn [product flat_map]. rewrite app_nil_r, map_map. split; [apply in_map|]. intro H. apply in_map_iff in H. destruct H as (q & E & H). injection E as <-. exact H.
  - rewrite indices_spec. split; [intros (q & E & K); injection E as <-; auto|eauto].
Qed.
Lemma leaves_nodup : forall n vs, NoDup (leaves n vs).
Proof. intros n vs. apply NoDup_product. intros l H. apply in_map_iff in H. destruct H as (v & <- & _). apply seq_NoDup. Qed.
Lemma qsum_nth : forall (f : outcome -> Qc) l, qsum (map f l) = qsum (map (fun i => f (nth i l 0)) (seq 0 (length l))).
Proof.
  intros f l. f_equal. transitivity (map f (map (fun i => nth i l 0) (seq 0 (length l)))); [|rewrite map_map; auto]. f_equal.
  induction l as [|x l IH]; auto. cbn [length seq map nth]. f_equal. rewrite <- seq_shift, map_map. exact IH.
Qed.
Lemma history_cons_given : forall n v vs i p a u, ~ In v vs -> given (history n (v :: vs) (i :: p)) a u = given (history n vs p) (upd a v (nth i (dom_of (doms n) v) 0)) u.
Proof.
  intros n v vs i p a u Nv. cbn [history given fold_right fst snd]. fold (given (history n vs p) a). assert (Nk : ~ In v (keys (history n vs p))).
  { intro K. apply Nv. clear - K. revert p K. induction vs as [|w vs IH]; intros [|j p]; cbn; try tauto. intros [->|K]; eauto. }
  destruct (String.string_dec u v) as [->|N].
  - rewrite upd_same, given_other by auto. rewrite upd_same. reflexivity.
  - rewrite upd_other by auto. destruct (in_dec String.string_dec u (keys (history n vs p))) as [K|K].
    + assert (X : forall c (a b : asg), In u (keys c) -> given c a u = given c b u).
      { clear. induction c as [|[w x] c IH]; intros a b K; [destruct K|]. cbn [given fold_right fst snd]. fold (given c a). fold (given c b). destruct (String.string_dec u w) as [->|N]; [rewrite !upd_same; auto|]. rewrite !upd_other by auto. apply IH. destruct K as [K|K]; [exfalso; apply N; symmetry; exact K|exact K]. }
      apply X. auto.
    + rewrite !given_other by auto. rewrite upd_other; auto.
Qed.
(* a sum over the values of vs is a sum over the leaves *)
Lemma total_leaves : forall n vs (f : asg -> Qc) a, NoDup vs -> ext f -> total (dom_of (doms n)) vs f a = qsum (map (fun p => f (given (history n vs p) a)) (leaves n vs)).
Proof.
  intros n vs f. induction vs as [|v vs IH]; intros a N X.
  - cbn. ring.
  - apply NoDup_cons_iff in N. destruct N as [N1 N2]. cbn [total]. unfold leaves. cbn [map product]. rewrite (qsum_flat _ _ (fun x => map (cons x) (product (map (fun v => seq 0 (length (dom_of (doms n) v))) vs)))).
    change (fold_right Qcplus 0) with qsum. rewrite qsum_nth. apply qsum_ext. intros i _. rewrite IH by auto. fold (leaves n vs). rewrite map_map. apply qsum_ext. intros p _. apply X. intros u _. symmetry. apply history_cons_given. auto.
Qed.

(* ---- probabilities ---- *)
(* the table of v says how likely its values are given its parents *)
Lemma kernel_given : forall n v x pv a, distribution n -> In v (nodes (ngraph n)) -> In x (dom_of (doms n) v) -> keys pv = parents (ngraph n) v -> agrees ((v, x) :: pv) a = true ->
  do_prob n [] ((v, x) :: pv) = kernel n v a * do_prob n [] pv.
Proof.
  intros n v x pv a Hd Hv Hx Ek A. rewrite <- (do_prob_parents n v x pv Hd Hv Hx) by (intros u K; rewrite Ek in K; apply edge_parents; auto).
  rewrite do_prob_others, <- total_scale. assert (NN : NoDup (nodes (ngraph n))) by apply (proj1 Hd). unfold do_prob. apply total_ext. intro b.
  match goal with |- _ = _ * ((if ?t then _ else _) * _) => replace t with (agrees ((v, x) :: pv) b) by (apply agrees_perm; exact (Permutation_cons_append pv (v, x))) end.
  destruct (agrees ((v, x) :: pv) b) eqn:B; [|ring]. rewrite Qcmult_1_l. unfold do_joint. cbn [agrees forallb keys map].
  assert (E : kernel n v a = kernel n v b).
  { apply (k_local _ _ _ (kernel_cond n Hd) v Hv). intros u Hu. unfold agrees in A, B. rewrite forallb_forall in A, B. assert (Ku : exists y, In (u, y) ((v, x) :: pv)).
    { destruct Hu as [->|Hu]; [exists x; left; auto|]. apply edge_parents in Hu. rewrite <- Ek in Hu. apply in_map_iff in Hu. destruct Hu as ([w y] & <- & K). exists y. right. auto. }
    destruct Ku as (y & Ku). pose proof (A _ Ku) as A1. pose proof (B _ Ku) as B1. cbn in A1, B1. apply oeqb_iff in A1, B1. congruence. }
  rewrite E. transitivity (qprod (map (fun u => kernel n u b) (nodes (ngraph n)))).
  - apply qprod_ext. intros u _. destruct (in_dec String.string_dec u []) as [[]|]; auto.
  - apply (qprod_one (fun u => kernel n u b) v (nodes (ngraph n)) NN Hv).
Qed.

Lemma history_domains : forall n vs p v x, position n vs p -> In (v, x) (history n vs p) -> In x (dom_of (doms n) v).
Proof.
  intros n vs. induction vs as [|w vs IH]; intros [|i p] v x H K; cbn in *; try tauto. destruct H as [H1 H2]. destruct K as [K|K]; [|eauto]. injection K as -> <-. apply nth_In. auto.
Qed.
Lemma history_full : forall n vs p, length p = length vs -> keys (history n vs p) = vs.
Proof. intros n vs p E. rewrite history_keys by lia. rewrite E. apply firstn_all. Qed.

Section core.
Variables (n : net) (vs : list node).
Hypothesis Hd : distribution n.
Hypothesis Nv : NoDup vs.
Hypothesis Iv : incl vs (nodes (ngraph n)).
Hypothesis Cl : closed (ngraph n) vs.
Local Notation D := (dom_of (doms n)).
Local Notation z := (fun _ : node => 0%Qc).
Definition remaining : list node := filter (fun v => negb (mem v vs)) (nodes (ngraph n)).
Lemma in_remaining : forall v, In v remaining <-> In v (nodes (ngraph n)) /\ ~ In v vs.
Proof. intro v. unfold remaining. rewrite filter_In, negb_true_iff, mem_nIn. tauto. Qed.
Lemma split_nodes : Permutation (nodes (ngraph n)) (vs ++ remaining).
Proof.
  assert (N : NoDup (nodes (ngraph n))) by apply (proj1 Hd). apply NoDup_Permutation; auto.
  - apply NoDup_app'; auto; [apply NoDup_filter; auto|]. intros v K K'. apply in_remaining in K'. tauto.
  - intro v. rewrite in_app_iff, in_remaining. split; [intro K; destruct (in_dec String.string_dec v vs); auto|]. intros [K|K]; [auto|tauto].
Qed.
Lemma weight_split : forall K a, weight K (nodes (ngraph n)) a = weight K vs a * weight K remaining a.
Proof. intros K a. rewrite (weight_perm K _ _ a split_nodes). apply weight_app. Qed.
(* a sum over all variables *)
Lemma total_nodes : forall f a, ext f -> total D (nodes (ngraph n)) f a = total D vs (total D remaining f) a.
Proof. intros f a X. rewrite (total_perm _ _ _ _ _ split_nodes X). apply total_app. Qed.
Lemma weight_vs_on : forall K, cond (ngraph n) D K -> on (fun v => ~ In v remaining) (weight K vs).
Proof.
  intros K C. apply (weight_on (ngraph n) D K vs _ C Iv). intros v u Hv Hu Hr. apply in_remaining in Hr. destruct Hr as [_ Hr]. apply Hr. destruct Hu as [->|Hu]; auto. eapply Cl; eauto.
Qed.
Definition ahead (us : list node) (a : asg) : Qc := total D remaining (fun b => weight (kernel n) remaining b * qsum (map b us)) a.
Lemma remaining_in : incl remaining (nodes (ngraph n)).
Proof. intros v K. apply in_remaining in K. tauto. Qed.
Lemma ahead_ext : forall us, ext (ahead us).
Proof.
  intros us. apply total_ext_fun. intros a b E. f_equal; [apply (weight_ext (ngraph n) D (kernel n) remaining (kernel_cond n Hd) remaining_in a b E)|]. apply qsum_ext. intros u _. apply E. exact I.
Qed.
Lemma pull_vs : forall K us a, cond (ngraph n) D K -> (forall v b, In v remaining -> K v b = kernel n v b) ->
  total D remaining (fun b => weight K (nodes (ngraph n)) b * qsum (map b us)) a = weight K vs a * ahead us a.
Proof.
  intros K us a C E. unfold ahead. rewrite <- total_pull by (apply weight_vs_on; auto). apply total_ext. intro b. rewrite weight_split. rewrite <- Qcmult_assoc. f_equal. f_equal. unfold weight. apply qprod_ext. intros v Hv. apply E. auto.
Qed.
(* the expected sum of us, by leaves *)
Lemma value_leaves : forall sg b us, policy n sg b -> incl sg vs ->
  value n sg b us = qsum (map (fun p => weight (follow n sg b) vs (given (history n vs p) z) * ahead us (given (history n vs p) z)) (leaves n vs)).
Proof.
  intros sg b us Hp Is. assert (C := follow_cond n sg b Hd Hp). rewrite value_weight, total_nodes.
  - rewrite (total_ext D vs _ (fun a => weight (follow n sg b) vs a * ahead us a)).
    + apply total_leaves; auto. intros x y E. f_equal; [apply (weight_ext (ngraph n) D _ vs C Iv x y E)|]. apply ahead_ext. exact E.
    + intro a. apply pull_vs; auto. intros v c Hv. unfold follow. destruct (in_dec String.string_dec v sg) as [K|]; auto. exfalso. apply in_remaining in Hv. apply (proj2 Hv). auto.
  - intros x y E. f_equal; [apply (weight_ext (ngraph n) D _ (nodes (ngraph n)) C (incl_refl _) x y E)|]. apply qsum_ext. intros u _. apply E. exact I.
Qed.
Lemma filter_none : forall (A : Type) (f : A -> bool) l, (forall x, In x l -> f x = false) -> filter f l = [].
Proof. intros A f l H. induction l as [|x l IH]; auto. cbn. rewrite (H x) by (left; auto). apply IH. intros; apply H; right; auto. Qed.
Lemma leaf_in_ndom : forall p v x, position n vs p -> In (v, x) (history n vs p) -> In x (ndom n v).
Proof. intros p v x P K. assert (Kv : In v (keys (history n vs p))) by (apply in_map_iff; exists (v, x); auto). rewrite history_keys in Kv by (eapply position_length; eauto). rewrite ndom_in by (apply Iv; rewrite <- (firstn_skipn (length p) vs); apply in_or_app; left; exact Kv). eapply history_domains; eauto. Qed.
Lemma leaf_prob : forall p, In p (leaves n vs) -> do_prob n [] (history n vs p) = weight (kernel n) vs (given (history n vs p) z).
Proof.
  intros p Hp. apply in_leaves in Hp. destruct Hp as [Lp Pp]. assert (Ek := history_full n vs p Lp).
  rewrite (do_prob_barren n [] (history n vs p) vs); auto; try apply NoDup_nil; try solve [intros ? []|intros ? ? []|rewrite Ek; apply incl_refl].
  - rewrite (collapse (ndom n) (fun v => ndom_nodup n v Hd) (history n vs p) vs (weight (do_kernel n []) vs)); rewrite ?Ek; auto.
    + rewrite filter_none; [reflexivity|]. intros v K. apply negb_false_iff. apply mem_In. auto.
    + apply incl_refl.
    + intros v x. apply leaf_in_ndom. auto.
    + exact (weight_ext (ngraph n) D (kernel n) vs (kernel_cond n Hd) Iv).
  - intros u v E _. apply Cl. auto.
Qed.
Lemma expectations_context : forall c us, incl us (nodes (ngraph n)) -> do_prob n [] c <> 0 ->
  qsum (map (expectation n [] c) us) * do_prob n [] c = total D (nodes (ngraph n)) (fun b => (if agrees c b then 1 else 0) * (weight (kernel n) (nodes (ngraph n)) b * qsum (map b us))) z.
Proof.
  intros c us Iu Z. assert (Pd : forall c, do_prob n [] c = total D (nodes (ngraph n)) (fun b => (if agrees c b then 1 else 0) * weight (kernel n) (nodes (ngraph n)) b) z).
  { intro c0. unfold do_prob. apply total_ext. intro b. unfold do_joint. cbn [agrees forallb keys map]. destruct (agrees c0 b); [|ring]. rewrite Qcmult_1_l. unfold weight. apply qprod_ext. intros v Hv. destruct (in_dec String.string_dec v []) as [[]|]; auto. }
  rewrite Qcmult_comm, <- qsum_scale. rewrite (qsum_ext _ _ (fun u => total D (nodes (ngraph n)) (fun b => (if agrees c b then 1 else 0) * (weight (kernel n) (nodes (ngraph n)) b * b u)) z)).
  - rewrite <- total_qsum. apply total_ext. intro b. rewrite qsum_scale. f_equal. apply qsum_scale.
  - intros u Hu. unfold expectation. change (fold_right Qcplus 0) with qsum. rewrite <- qsum_scale.
    rewrite (qsum_ext _ _ (fun x => total D (nodes (ngraph n)) (fun b => x * ((if agrees ((u, x) :: c) b then 1 else 0) * weight (kernel n) (nodes (ngraph n)) b)) z)).
    2:{ intros x _. rewrite total_scale, <- Pd. field. exact Z. }
    rewrite <- total_qsum. apply total_ext_in. intros b Hb _. rewrite (qsum_single _ Qc_eq_dec _ _ (b u)); auto.
    + change (agrees ((u, b u) :: c) b) with (oeqb (b u) (b u) && agrees c b). replace (oeqb (b u) (b u)) with true by (symmetry; apply oeqb_iff; auto). cbn [andb]. destruct (agrees c b); ring.
    + apply dom_nodup; auto.
    + intros y Hy Ne. change (agrees ((u, y) :: c) b) with (oeqb (b u) y && agrees c b). destruct (oeqb_spec (b u) y); [congruence|]. cbn [andb]. ring.
Qed.
(* the expected sum of us at a leaf *)
Lemma leaf_expectation : forall p us, In p (leaves n vs) -> incl us (nodes (ngraph n)) -> do_prob n [] (history n vs p) <> 0 ->
  qsum (map (expectation n [] (history n vs p)) us) = ahead us (given (history n vs p) z).
Proof.
  intros p us Hp Iu Z. assert (H := expectations_context _ us Iu Z). assert (L := leaf_prob p Hp). apply in_leaves in Hp. destruct Hp as [Lp Pp]. assert (Ek := history_full n vs p Lp).
  rewrite (total_dom_perm D (ndom n) (nodes (ngraph n))) in H by (intros v Hv; rewrite ndom_in by auto; apply Permutation_refl).
  rewrite (collapse (ndom n) (fun v => ndom_nodup n v Hd) (history n vs p) (nodes (ngraph n)) (fun b : asg => weight (kernel n) (nodes (ngraph n)) b * qsum (map b us))) in H; rewrite ?Ek; auto; try apply (proj1 Hd).
  - rewrite Ek in H. fold remaining in H. rewrite (total_dom_perm (ndom n) D remaining) in H by (intros v Hv; apply in_remaining in Hv; rewrite ndom_in by tauto; apply Permutation_refl).
    rewrite pull_vs in H by (auto; apply kernel_cond; auto). rewrite <- L in H. rewrite Qcmult_comm in H.
    assert (X : forall q x y : Qc, q <> 0 -> q * x = q * y -> x = y). { intros q x y Nq E. transitivity (/ q * (q * x)); [field; auto|]. rewrite E. field. auto. }
    apply (X _ _ _ Z H).
  - intros v x. apply leaf_in_ndom. auto.
  - intros x y E. f_equal; [apply (weight_ext (ngraph n) D _ (nodes (ngraph n)) (kernel_cond n Hd) (incl_refl _) x y E)|]. apply qsum_ext. intros u _. apply E. exact I.
Qed.
End core.
