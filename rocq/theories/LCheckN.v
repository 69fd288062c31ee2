(* Boolean tests for the hypotheses of the theorems about networks, used for the concrete examples. *)
From Coq Require Import String List Bool Arith QArith Qcanon Lia Permutation.
Import ListNotations.
From Verif Require Import MBase MGraph MMacid MCpd MNet MProb MQuery Spec SpecC SpecN SpecQ LBase LGraph LQc LCpd LNet LCheck LQuery LInter LBuilt.
Local Open Scope Qc_scope.

Definition decb {P Q} (d : {P} + {Q}) : bool := if d then true else false.
Lemma decb_true : forall P Q (d : {P} + {Q}), decb d = true -> P.
Proof. intros P Q [p|q] H; auto. discriminate. Qed.
Fixpoint nodupo (l : list outcome) : bool := match l with [] => true | x :: l' => negb (omem x l') && nodupo l' end.
Lemma nodupo_ok : forall l, nodupo l = true -> NoDup l.
Proof.
  induction l as [|x l IH]; simpl; intros H; constructor; apply andb_true_iff in H; destruct H as [A B]; auto.
  intro K. apply omem_In in K. rewrite K in A. discriminate.
Qed.
Definition column_check (t : tab) (col : list Qc) : bool :=
  (length col =? length (tdom t))%nat && forallb (qleb 0) col && oeqb (qsum col) 1.
Definition table_check (n : net) (v : node) (t : tab) : bool :=
  decb (list_eq_dec String.string_dec (tev t) (parents (ngraph n) v)) &&
  match lookup v (doms n) with Some d => olist_eqb d (tdom t) | None => false end && nodupb (tev t) && nodupo (tdom t) &&
  decb (list_eq_dec Nat.eq_dec (tcards t) (map (fun p => length (dom_of (doms n) p)) (tev t))) &&
  (length (tcols t) =? fold_right Nat.mul 1%nat (tcards t))%nat && forallb (column_check t) (tcols t).
Definition dist_check (n : net) : bool :=
  graph_ok (ngraph n) && nodupb (map tvar (cpds n)) && forallb (fun t => mem (tvar t) (nodes (ngraph n))) (cpds n) &&
  forallb (fun v => match cpd_of n v with Some t => table_check n v t | None => false end) (nodes (ngraph n)).

Lemma nodup_tables : forall n, NoDup (map tvar (cpds n)) -> single_tables n.
Proof.
  intros n. unfold single_tables, has_table. induction (cpds n) as [|s l IH]; simpl; intros N v t t' [H1 H2] [H3 H4]; [destruct H1|].
  inversion N as [|? ? N1 N2]. assert (X : tvar t = tvar t') by congruence. destruct H1 as [H1|H1], H3 as [H3|H3].
  - congruence.
  - exfalso. apply N1. rewrite H1, X. apply in_map; auto.
  - exfalso. apply N1. rewrite H3, <- X. apply in_map; auto.
  - eapply (IH N2); split; eauto.
Qed.
Lemma dist_check_ok : forall n, dist_check n = true -> distribution n.
Proof.
  intros n H. unfold dist_check in H. rewrite !andb_true_iff in H. destruct H as [[[A B] C] D].
  apply graph_ok_wf in A. apply nodupb_iff, nodup_tables in B. rewrite forallb_forall in C, D.
  assert (T : forall v, In v (nodes (ngraph n)) -> exists t, cpd_of n v = Some t /\ table_check n v t = true).
  { intros v Hv. specialize (D v Hv). destruct (cpd_of n v) as [t|]; [eauto|discriminate]. }
  split; auto. split; auto. split.
  - intros v t Ht. assert (Hv : In v (nodes (ngraph n))).
    { destruct Ht as [H1 <-]. apply mem_In. apply C; auto. }
    destruct (T v Hv) as (t' & E & K). apply single_cpd in Ht; auto. rewrite Ht in E. injection E as <-.
    unfold table_check in K. rewrite !andb_true_iff in K. destruct K as [[[[[[K1 K2] K3] K4] K5] K6] K7].
    split; [apply nodupb_iff; auto|]. split; [apply nodupo_ok; auto|].
    split; [apply decb_true in K5; rewrite K5, map_length; auto|]. split; [apply Nat.eqb_eq; auto|].
    intros col Hc. rewrite forallb_forall in K7. specialize (K7 col Hc). unfold column_check in K7. rewrite !andb_true_iff in K7. destruct K7 as [[L1 L2] L3].
    split; [apply Nat.eqb_eq; auto|]. split; [|apply oeqb_iff in L3; exact L3]. intros q Hq. rewrite forallb_forall in L2. apply qleb_iff. auto.
  - intros v Hv. destruct (T v Hv) as (t & E & K). exists t. split; [apply single_cpd; auto|].
    unfold table_check in K. rewrite !andb_true_iff in K. destruct K as [[[[[[K1 K2] K3] K4] K5] K6] K7]. apply decb_true in K1, K5.
    split; [|split; auto].
    + unfold has_domain. destruct (lookup v (doms n)) as [d|]; [|discriminate]. apply olist_eqb_iff in K2. congruence.
    + intro p. rewrite K1. apply in_parents.
Qed.
(* additions of relationships to a new network *)
Lemma built_run : forall os n n', built n -> (forall v r, In (OAdd v r) os -> admissible v r) -> run n os = (n', None) -> built n'.
Proof.
  induction os as [|o os IH]; intros n n' B A R; simpl in R; [injection R as <-; auto|].
  destruct (step n o) as [n1 [e|]] eqn:E; [discriminate|]. apply (IH n1); auto.
  - eapply built_step; eauto. intros v r ->. apply A. left; auto.
  - intros v r H. apply A. right; auto.
Qed.
