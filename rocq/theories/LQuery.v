(* Lemmas about queries. *)
From Coq Require Import String List Bool Arith QArith Qcanon Lia Permutation Setoid.
Import ListNotations.
From Verif Require Import MBase MGraph MMacid MCpd MNet MProb MQuery Spec SpecM SpecC SpecN SpecQ LBase LGraph LDfs LPaths LActive LMoral LMech LQc LCpd LNet LSum LBayes LSep.
Local Open Scope Qc_scope.

(* ---- positions and columns ---- *)
Lemma name_pos : forall x l, name_to_no x l = pos x l.
Proof. intros x l. induction l as [|y l IH]; simpl; auto. destruct (oeqb_spec x y), (Qc_eq_dec x y); congruence. Qed.
Lemma states_dom : forall ds v, states ds v = dom_of ds v. Proof. reflexivity. Qed.
Lemma column_no_context : forall ds ev a i,
  fold_left (fun i p => i * length (states ds p) + name_to_no (a p) (states ds p))%nat ev i =
  (i * contexts_count ds ev + context_index ds (map (fun p => (p, a p)) ev))%nat.
Proof.
  intros ds ev a. induction ev as [|p ev IH]; intro i; simpl; [lia|]. rewrite IH. rewrite name_pos. rewrite states_dom.
  rewrite map_map. simpl. rewrite map_id. fold (contexts_count ds ev). lia.
Qed.
Lemma column_context : forall ds ev a, column_no ds ev a = context_index ds (map (fun p => (p, a p)) ev).
Proof. intros. unfold column_no. rewrite column_no_context. lia. Qed.
Lemma context_index_lt : forall ds ev (a : asg), (forall p, In p ev -> In (a p) (dom_of ds p)) ->
  (context_index ds (map (fun p => (p, a p)) ev) < contexts_count ds ev)%nat.
Proof.
  intros ds ev a. induction ev as [|p ev IH]; intro H; simpl; [lia|]. rewrite map_map. simpl. rewrite map_id. fold (contexts_count ds ev).
  assert (H1 : (pos (a p) (dom_of ds p) < length (dom_of ds p))%nat) by (apply pos_lt; apply H; left; auto).
  assert (H2 := IH (fun q Hq => H q (or_intror Hq))). nia.
Qed.
Lemma contexts_cards : forall ds ev, contexts_count ds ev = fold_right Nat.mul 1%nat (map (fun p => length (dom_of ds p)) ev).
Proof. intros ds ev. induction ev as [|p ev IH]; simpl; auto. Qed.
Lemma sum_by_position : forall l col, NoDup l -> length col = length l -> qsum (map (fun x => nth (pos x l) col 0) l) = qsum col.
Proof.
  intros l. induction l as [|y l IH]; intros col N H; [destruct col; [reflexivity|discriminate]|]. destruct col as [|q col]; [discriminate|]. inversion N as [|? ? N1 N2]; subst.
  simpl map. change (qsum (?a :: ?b)) with (a + qsum b). simpl pos. destruct (Qc_eq_dec y y) as [_|]; [|congruence]. cbn [nth]. f_equal.
  rewrite <- (IH col N2) by (simpl in H; lia). apply qsum_ext. intros x Hx. destruct (Qc_eq_dec x y) as [->|]; [contradiction|]. reflexivity.
Qed.

(* ---- a distribution gives conditional probabilities ---- *)
Lemma single_cpd : forall n v t, single_tables n -> (has_table n v t <-> cpd_of n v = Some t).
Proof.
  intros n v t S. split.
  - intro H. destruct (cpd_of n v) as [t'|] eqn:E.
    + apply find_tab_in in E. f_equal. apply (S v); auto.
    + exfalso. apply find_tab_none in E. apply E. destruct H as [H <-]. apply in_map; auto.
  - intro H. apply find_tab_in in H. auto.
Qed.
Record table_ok (n : net) (v : node) (t : tab) : Prop := {
  ok_var : tvar t = v;
  ok_exact : exact_table t;
  ok_dom : dom_of (doms n) v = tdom t;
  ok_ev : forall p, In p (tev t) <-> edge (ngraph n) p v;
  ok_cards : tcards t = map (fun p => length (dom_of (doms n) p)) (tev t) }.
Lemma dist_table : forall n v, distribution n -> In v (nodes (ngraph n)) -> exists t, cpd_of n v = Some t /\ table_ok n v t.
Proof.
  intros n v (W & S & E & F) Hv. destruct (F v Hv) as (t & H1 & H2 & H3 & H4). exists t. split; [apply single_cpd; auto|].
  constructor; auto; [apply H1|apply (E v t H1)|unfold dom_of; unfold has_domain in H2; rewrite H2; auto].
Qed.
Lemma entry_on : forall ds t, on (fun u => u = tvar t \/ In u (tev t)) (entry ds t).
Proof.
  intros ds t a b H. unfold entry. rewrite (H (tvar t)) by auto. f_equal. f_equal. rewrite !column_context. f_equal. apply map_ext_in. intros p Hp. rewrite H by auto. auto.
Qed.
Lemma entry_nonneg : forall ds t a, exact_table t -> 0 <= entry ds t a.
Proof.
  intros ds t a (_ & _ & _ & _ & H). unfold entry. set (i := column_no ds (tev t) a). destruct (Nat.lt_ge_cases i (length (tcols t))) as [L|L].
  - set (j := name_to_no _ _). assert (Hc := nth_In (tcols t) [] L). destruct (H _ Hc) as (_ & Hn & _).
    destruct (Nat.lt_ge_cases j (length (nth i (tcols t) []))) as [L2|L2]; [apply Hn, nth_In; auto|]. rewrite nth_overflow by auto. apply Qcle_refl.
  - rewrite (nth_overflow (tcols t)) by auto. destruct (name_to_no _ _); apply Qcle_refl.
Qed.
Lemma entry_sum : forall n v t a, table_ok n v t -> wf_dag (ngraph n) -> (forall p, edge (ngraph n) p v -> In (a p) (dom_of (doms n) p)) ->
  qsum (map (fun x => entry (doms n) t (upd a v x)) (dom_of (doms n) v)) = 1.
Proof.
  intros n v t a T W H. destruct (ok_exact n v t T) as (N1 & N2 & L1 & L2 & C).
  set (i := column_no (doms n) (tev t) a).
  assert (Li : (i < length (tcols t))%nat).
  { rewrite L2, (ok_cards n v t T), <- contexts_cards. unfold i. rewrite column_context. apply context_index_lt. intros p Hp. apply H. apply (ok_ev n v t T); auto. }
  destruct (C _ (nth_In (tcols t) [] Li)) as (C1 & _ & C3).
  rewrite (qsum_ext _ _ (fun x => nth (pos x (tdom t)) (nth i (tcols t) []) 0)).
  - rewrite (ok_dom n v t T). rewrite sum_by_position; auto.
  - intros x Hx. unfold entry. rewrite (ok_var n v t T), upd_same. rewrite name_pos, states_dom, (ok_dom n v t T). f_equal. f_equal. unfold i. rewrite !column_context. f_equal.
    apply map_ext_in. intros p Hp. rewrite upd_other; auto. intro; subst. apply (ok_ev n v t T) in Hp. apply (proj2 W v). exists v. split; [auto|constructor].
Qed.
Lemma kernel_cond : forall n, distribution n -> cond (ngraph n) (dom_of (doms n)) (kernel n).
Proof.
  intros n Hd. assert (W : wf_dag (ngraph n)) by apply Hd. constructor.
  - intros v Hv. destruct (dist_table n v Hd Hv) as (t & Ct & T). intros a b H. unfold kernel. rewrite Ct. apply entry_on. intros u [Hu|Hu]; apply H.
    + left. rewrite Hu. apply (ok_var n v t T). + right. apply (ok_ev n v t T); auto.
  - intros v a Hv H. destruct (dist_table n v Hd Hv) as (t & Ct & T). rewrite (qsum_ext _ _ (fun x => entry (doms n) t (upd a v x))); [apply entry_sum; auto|].
    intros x Hx. unfold kernel. rewrite Ct. auto.
  - intros v a Hv. destruct (dist_table n v Hd Hv) as (t & Ct & T). unfold kernel. rewrite Ct. apply entry_nonneg. apply T.
Qed.
Lemma dom_nodup : forall n v, distribution n -> In v (nodes (ngraph n)) -> NoDup (dom_of (doms n) v).
Proof.
  intros n v Hd Hv. destruct (dist_table n v Hd Hv) as (t & Ct & T). rewrite (ok_dom n v t T). apply (ok_exact n v t T).
Qed.
