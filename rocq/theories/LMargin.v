(* Lemmas: the marginal of a table over its parents is the average of its columns. *)
From Coq Require Import String List Bool Arith QArith Qcanon Lia Permutation.
Import ListNotations.
From Verif Require Import MBase MGraph MMacid MCpd MNet MProb MQuery MSub Spec SpecM SpecC SpecN SpecQ LBase LGraph LQc LCpd LNet LSum LBayes LSep LQuery LQcArith.
Local Open Scope Qc_scope.

Lemma qsum_seq_shift : forall (F : nat -> Qc) k n, qsum (map F (seq k n)) = qsum (map (fun j => F (k + j)%nat) (seq 0 n)).
Proof. intros F k n. f_equal. revert k. induction n as [|n IH]; intro k; auto. cbn [seq map]. f_equal; [f_equal; lia|]. rewrite IH, <- seq_shift, map_map. apply map_ext. intro. f_equal. lia. Qed.
Lemma qsum_blocks : forall (F : nat -> Qc) c n, qsum (map F (seq 0 (n * c))) = qsum (map (fun i => qsum (map (fun j => F (i * c + j)%nat) (seq 0 c))) (seq 0 n)).
Proof.
  intros F c n. revert F. induction n as [|n IH]; intro F; auto. cbn [Nat.mul]. rewrite seq_app, map_app, qsum_app. cbn [seq map]. change (qsum (?x :: ?l)) with (x + qsum l). f_equal.
  rewrite qsum_seq_shift, IH. rewrite (qsum_seq_shift _ 1%nat n). apply qsum_ext. intros i _. apply qsum_ext. intros j _. f_equal. lia.
Qed.
Lemma qsum_positions : forall (F : nat -> Qc) l, NoDup l -> qsum (map (fun x => F (pos x l)) l) = qsum (map F (seq 0 (length l))).
Proof.
  intros F l. revert F. induction l as [|y l IH]; intros F N; auto. inversion N as [|? ? N1 N2]; subst. cbn [length seq map]. change (qsum (?x :: ?l)) with (x + qsum l). f_equal.
  - f_equal. simpl. destruct (Qc_eq_dec y y); congruence.
  - rewrite qsum_seq_shift, <- (IH (fun j => F (1 + j)%nat) N2). apply qsum_ext. intros x Hx. simpl. destruct (Qc_eq_dec x y) as [->|]; [contradiction|auto].
Qed.
Lemma column_total : forall ds ev (F : nat -> Qc) a, NoDup ev -> (forall p, In p ev -> NoDup (dom_of ds p)) ->
  total (dom_of ds) ev (fun b => F (column_no ds ev b)) a = qsum (map F (seq 0 (contexts_count ds ev))).
Proof.
  intros ds ev. induction ev as [|p ev IH]; intros F a N Hn.
  - cbn. ring.
  - inversion N as [|? ? N1 N2]; subst. cbn [total].
    rewrite (qsum_ext _ _ (fun x => qsum (map (fun j => F (pos x (dom_of ds p) * contexts_count ds ev + j)%nat) (seq 0 (contexts_count ds ev))))).
    + rewrite (qsum_positions (fun i => qsum (map (fun j => F (i * contexts_count ds ev + j)%nat) (seq 0 (contexts_count ds ev))))) by (apply Hn; left; auto). symmetry. apply (qsum_blocks F (contexts_count ds ev) (length (dom_of ds p))).
    + intros x Hx. rewrite <- (IH (fun j => F (pos x (dom_of ds p) * contexts_count ds ev + j)%nat) (upd a p x)); auto; [|intros q Hq; apply Hn; right; auto].
      apply total_ext_in. intros b _ Eb. f_equal. rewrite !column_context. cbn [map context_index]. rewrite Eb by auto. rewrite upd_same. rewrite map_map. cbn [fst]. rewrite map_id. auto.
Qed.
Lemma sums_count : forall t, exact_table t -> qsum (map (fun i => qsum (map (fun col => nth i col 0) (tcols t))) (seq 0 (length (tdom t)))) = Qc_of_nat (length (tcols t)).
Proof.
  intros t (_ & _ & _ & _ & H). rewrite qsum_swap. rewrite (qsum_ext _ _ (fun _ => 1)); [rewrite qsum_const; ring|].
  intros col Hc. destruct (H col Hc) as (L & _ & S). rewrite <- L. change (fold_right Qcplus 0 col) with (qsum col) in S. rewrite <- S. clear. f_equal.
  assert (X : forall k l, map (fun i => nth i (k ++ l) 0) (seq (length k) (length l)) = l). { intros k l. revert k. induction l as [|x l IH]; intro k; auto. cbn [length seq map]. f_equal; [rewrite app_nth2, Nat.sub_diag; auto|]. replace (k ++ x :: l) with ((k ++ [x]) ++ l) by (rewrite <- app_assoc; auto). replace (S (length k)) with (length (k ++ [x])) by (rewrite app_length; cbn; lia). apply IH. }
  apply (X [] col).
Qed.
(* the i-th entry of the marginal *)
Lemma marginal_nth : forall t i, exact_table t -> (i < length (tdom t))%nat -> nth i (marginal t) 0 = qsum (map (fun col => nth i col 0) (tcols t)) / Qc_of_nat (length (tcols t)).
Proof.
  intros t i E L. unfold marginal. cbv zeta. rewrite sums_count by auto. rewrite map_map.
  rewrite (nth_indep _ 0 ((fun x => qsum (map (fun col => nth x col 0) (tcols t)) / Qc_of_nat (length (tcols t))) 0%nat)) by (rewrite map_length, seq_length; auto).
  rewrite (map_nth (fun x => qsum (map (fun col => nth x col 0) (tcols t)) / Qc_of_nat (length (tcols t))) (seq 0 (length (tdom t))) 0%nat). rewrite seq_nth by auto. auto.
Qed.
Lemma marginal_length : forall t, length (marginal t) = length (tdom t).
Proof. intro t. unfold marginal. rewrite !map_length, seq_length. auto. Qed.
Lemma marginal_nonneg : forall t q, exact_table t -> In q (marginal t) -> 0 <= q.
Proof.
  intros t q E H. apply (In_nth _ _ 0) in H. destruct H as (i & L & <-). rewrite marginal_length in L. rewrite marginal_nth by auto.
  assert (P : 0 <= qsum (map (fun col => nth i col 0) (tcols t))). { apply qsum_nonneg. intros x Hx. apply in_map_iff in Hx. destruct Hx as (col & <- & Hc). destruct E as (_ & _ & _ & _ & E). destruct (E col Hc) as (Lc & Nc & _). apply Nc. apply nth_In. lia. }
  unfold Qcdiv. apply Qc_mul_nonneg; auto. destruct (length (tcols t)) as [|k] eqn:K; [vm_compute; discriminate|]. assert (X := Qc_of_nat_pos (S k) ltac:(lia)). apply Qclt_le_weak. 
  assert (Y : 0 < / Qc_of_nat (S k)). { apply Qcnot_le_lt. intro Z. assert (W : Qc_of_nat (S k) * / Qc_of_nat (S k) <= Qc_of_nat (S k) * 0). { rewrite !(Qcmult_comm (Qc_of_nat (S k))). apply Qcmult_le_compat_r; auto. apply Qclt_le_weak; auto. } rewrite Qcmult_inv_r, Qcmult_0_r in W; [exact (Qclt_not_le _ _ Qc_0_lt_1 W)|]. intro Q. rewrite Q in X. exact (Qclt_not_eq _ _ X eq_refl). } exact Y.
Qed.
Lemma marginal_sum : forall t, exact_table t -> tcols t <> [] -> qsum (marginal t) = 1.
Proof.
  intros t E N. unfold marginal. cbv zeta. rewrite sums_count by auto. set (c := Qc_of_nat (length (tcols t))). assert (Hc : c <> 0) by (apply Qc_of_nat_nz; destruct (tcols t); [congruence|cbn; lia]).
  rewrite (map_ext _ (fun p => / c * p)) by (intro; unfold Qcdiv; ring). rewrite (qsum_scale _ (/ c) (fun p => p)). rewrite map_id. rewrite sums_count by auto. fold c. rewrite Qcmult_comm. apply Qcmult_inv_r; auto.
Qed.
(* in terms of the entries of the table *)
Lemma marginal_total : forall n v t a, distribution n -> table_ok n v t -> In (a v) (dom_of (doms n) v) -> ~ In v (tev t) ->
  nth (pos (a v) (tdom t)) (marginal t) 0 = total (dom_of (doms n)) (tev t) (entry (doms n) t) a / Qc_of_nat (contexts_count (doms n) (tev t)).
Proof.
  intros n v t a Hd T Hv Nv. destruct (ok_exact _ _ _ T) as (E1 & E2 & E3 & E4 & E5). rewrite (ok_dom _ _ _ T) in Hv. assert (Lt := pos_lt _ _ Hv).
  assert (Ec : length (tcols t) = contexts_count (doms n) (tev t)) by (rewrite E4, (ok_cards _ _ _ T), contexts_cards; auto).
  rewrite marginal_nth, Ec by (auto; apply (ok_exact _ _ _ T)). f_equal.
  transitivity (qsum (map (fun j => nth (pos (a v) (tdom t)) (nth j (tcols t) []) 0) (seq 0 (contexts_count (doms n) (tev t))))).
  - rewrite <- Ec. f_equal. clear. assert (X : forall (f : list Qc -> Qc) k l, map (fun j => f (nth j (k ++ l) [])) (seq (length k) (length l)) = map f l). { intros f k l. revert k. induction l as [|x l IH]; intro k; auto. cbn [length seq map]. f_equal; [rewrite app_nth2, Nat.sub_diag; auto|]. replace (k ++ x :: l) with ((k ++ [x]) ++ l) by (rewrite <- app_assoc; auto). replace (S (length k)) with (length (k ++ [x])) by (rewrite app_length; cbn; lia). apply IH. }
    symmetry. apply (X (fun col => nth (pos (a v) (tdom t)) col 0) []).
  - rewrite <- (column_total (doms n) (tev t) (fun j => nth (pos (a v) (tdom t)) (nth j (tcols t) []) 0) a); auto.
    + apply total_ext_in. intros b _ Eb. unfold entry. rewrite (ok_var _ _ _ T), states_dom, (ok_dom _ _ _ T), name_pos, Eb; auto.
    + intros p Hp. apply dom_nodup; auto. apply (ok_ev _ _ _ T) in Hp. apply (proj1 Hd) in Hp. tauto.
Qed.
