(* Lemmas about exact rationals, their lists and sums. *)
From Coq Require Import String List Bool Arith QArith Qcanon Sorted Lia Permutation.
Import ListNotations.
From Verif Require Import MBase MCpd.
Local Open Scope Qc_scope.

Lemma oeqb_iff : forall x y, oeqb x y = true <-> x = y.
Proof.
  intros x y. unfold oeqb. split; [apply Qc_eq_bool_correct|]. intros ->. unfold Qc_eq_bool. destruct (Qc_eq_dec y y); auto.
Qed.
Lemma oeqb_spec : forall x y, reflect (x = y) (oeqb x y).
Proof. intros x y. apply iff_reflect. symmetry. apply oeqb_iff. Qed.
Lemma qleb_iff : forall x y, qleb x y = true <-> x <= y.
Proof. intros x y. unfold qleb, Qcle. apply Qle_bool_iff. Qed.
Lemma qleb_false : forall x y, qleb x y = false <-> y < x.
Proof.
  intros x y. split; intro H.
  - apply Qcnot_le_lt. intro K. apply qleb_iff in K. congruence.
  - destruct (qleb x y) eqn:E; auto. apply qleb_iff in E. exfalso. eapply Qclt_not_le; eauto.
Qed.
Lemma omem_In : forall x l, omem x l = true <-> In x l.
Proof.
  intros x l. unfold omem. rewrite existsb_exists. split.
  - intros (y & H & E). apply oeqb_iff in E. subst; auto.
  - intro H. exists x. split; auto. apply oeqb_iff; auto.
Qed.
Lemma omem_nIn : forall x l, omem x l = false <-> ~ In x l.
Proof. intros x l. rewrite <- omem_In. destruct (omem x l); split; congruence. Qed.
Lemma in_oinsert : forall x y l, In y (oinsert x l) <-> y = x \/ In y l.
Proof.
  intros x y l. induction l as [|z l IH]; simpl; [intuition|].
  destruct (oeqb_spec x z) as [->|Hn]; simpl; [intuition|]. destruct (qleb x z); simpl; [intuition|]. rewrite IH. intuition.
Qed.
Lemma in_sorted_set : forall y l, In y (sorted_set l) <-> In y l.
Proof. intros y l. induction l as [|x l IH]; simpl; [tauto|]. rewrite in_oinsert, IH. intuition. Qed.
Lemma oinsert_sorted : forall x l, StronglySorted Qclt l -> StronglySorted Qclt (oinsert x l).
Proof.
  intros x l. induction l as [|z l IH]; intro S; simpl; [repeat constructor|].
  inversion S as [|? ? S1 S2]; subst. destruct (oeqb_spec x z) as [->|Hn]; auto. destruct (qleb x z) eqn:E.
  - constructor; auto. apply qleb_iff in E. assert (Lt : x < z) by (destruct (Qcle_lt_or_eq _ _ E); [auto|congruence]).
    constructor; auto. eapply Forall_impl; [|exact S2]. intros a Ha. simpl in Ha. eapply Qclt_trans; eauto.
  - apply qleb_false in E. constructor; auto. apply Forall_forall. intros y Hy. apply in_oinsert in Hy. destruct Hy as [->|Hy]; auto.
    rewrite Forall_forall in S2. auto.
Qed.
Lemma sorted_set_sorted : forall l, StronglySorted Qclt (sorted_set l).
Proof. induction l; simpl; [constructor|apply oinsert_sorted; auto]. Qed.
Lemma sorted_NoDup : forall l, StronglySorted Qclt l -> NoDup l.
Proof.
  induction l as [|x l IH]; intro S; inversion S as [|? ? S1 S2]; subst; constructor; auto.
  intro H. rewrite Forall_forall in S2. apply S2 in H. apply (Qclt_not_eq _ _ H); auto.
Qed.
(* strictly sorted lists with the same members are equal *)
Lemma sorted_unique : forall l l', StronglySorted Qclt l -> StronglySorted Qclt l' -> (forall x, In x l <-> In x l') -> l = l'.
Proof.
  induction l as [|x l IH]; intros l' S S' H.
  - destruct l' as [|y l']; auto. destruct (H y) as [_ K]. destruct K; simpl; auto.
  - destruct l' as [|y l']; [destruct (H x) as [K _]; destruct K; simpl; auto|].
    inversion S as [|? ? S1 S2]; subst. inversion S' as [|? ? S1' S2']; subst. rewrite Forall_forall in S2, S2'.
    assert (x = y).
    { destruct (proj1 (H x) (or_introl eq_refl)) as [K|K]; auto. destruct (proj2 (H y) (or_introl eq_refl)) as [K2|K2]; auto.
      exfalso. eapply (Qclt_not_le x y); auto. apply Qclt_le_weak; auto. }
    subst y. f_equal. apply IH; auto. intro z. split; intro Hz.
    + destruct (proj1 (H z) (or_intror Hz)) as [->|K]; auto. exfalso. apply S2 in Hz. apply (Qclt_not_eq _ _ Hz); auto.
    + destruct (proj2 (H z) (or_intror Hz)) as [->|K]; auto. exfalso. apply S2' in Hz. apply (Qclt_not_eq _ _ Hz); auto.
Qed.

(* ---- order facts ---- *)
Lemma Qc_mul_nonneg : forall a b, 0 <= a -> 0 <= b -> 0 <= a * b.
Proof. intros a b Ha Hb. replace 0 with (0 * b) by ring. apply Qcmult_le_compat_r; auto. Qed.
Lemma Qc_le_sub : forall a b, a <= b -> 0 <= b - a.
Proof. intros a b H. apply Qcle_minus_iff in H. exact H. Qed.
Lemma Qc_sub_le : forall a b, 0 <= b - a -> a <= b.
Proof. intros a b H. apply Qcle_minus_iff. exact H. Qed.
Lemma Qc_add_nonneg : forall a b, 0 <= a -> 0 <= b -> 0 <= a + b.
Proof. intros a b Ha Hb. replace 0 with (0 + 0) by ring. apply Qcplus_le_compat; auto. Qed.
Lemma Qc_add_pos : forall a b, 0 < a -> 0 <= b -> 0 < a + b.
Proof.
  intros a b Ha Hb. apply Qclt_le_trans with a; auto. replace a with (a + 0) at 1 by ring.
  apply Qcplus_le_compat; auto. apply Qcle_refl.
Qed.
Lemma Qc_0_lt_1 : 0 < 1.
Proof. reflexivity. Qed.
Lemma Qc_of_nat_0 : Qc_of_nat 0 = 0.
Proof. apply Qc_is_canon. reflexivity. Qed.
Lemma Qc_of_nat_S : forall n, Qc_of_nat (S n) = 1 + Qc_of_nat n.
Proof.
  intro n. unfold Qc_of_nat. apply Qc_is_canon. unfold Qcplus, Q2Qc, this. rewrite !Qred_correct.
  unfold Qeq, inject_Z, Qplus. cbn [Qnum Qden]. lia.
Qed.
Lemma Qc_of_nat_nonneg : forall n, 0 <= Qc_of_nat n.
Proof.
  induction n as [|n IH]; [discriminate|]. rewrite Qc_of_nat_S. apply Qc_add_nonneg; auto. discriminate.
Qed.
Lemma Qc_of_nat_pos : forall n, (0 < n)%nat -> 0 < Qc_of_nat n.
Proof.
  intros [|n] H; [inversion H|]. rewrite Qc_of_nat_S. apply Qc_add_pos; [reflexivity|apply Qc_of_nat_nonneg].
Qed.
Lemma Qc_of_nat_nz : forall n, (0 < n)%nat -> Qc_of_nat n <> 0.
Proof. intros n H E. apply Qc_of_nat_pos in H. rewrite E in H. discriminate. Qed.

(* ---- sums ---- *)
Lemma qsum_app : forall l l', qsum (l ++ l') = qsum l + qsum l'.
Proof. intros l l'. induction l as [|x l IH]; simpl; [ring|]. unfold qsum in *. rewrite IH. ring. Qed.
Lemma qsum_perm : forall l l', Permutation l l' -> qsum l = qsum l'.
Proof.
  intros l l' P. induction P; simpl; auto.
  - unfold qsum in *. rewrite IHP. auto.
  - ring.
  - congruence.
Qed.
Lemma qsum_const : forall (A : Type) (l : list A) c, qsum (map (fun _ => c) l) = Qc_of_nat (length l) * c.
Proof.
  intros A l c. induction l as [|x l IH]; cbn [map length qsum fold_right]; [rewrite Qc_of_nat_0; ring|].
  rewrite Qc_of_nat_S. unfold qsum in IH. rewrite IH. ring.
Qed.
Lemma qsum_nonneg : forall l, (forall x, In x l -> 0 <= x) -> 0 <= qsum l.
Proof.
  induction l as [|x l IH]; intro H; [apply Qcle_refl|]. simpl. apply Qc_add_nonneg; [apply H; simpl; auto|].
  apply IH. intros; apply H; simpl; auto.
Qed.
Lemma qsum_ext : forall (A : Type) (f h : A -> Qc) l, (forall x, In x l -> f x = h x) -> qsum (map f l) = qsum (map h l).
Proof. intros A f h l H. f_equal. apply map_ext_in. auto. Qed.
