(* Lemmas: replacing the outcomes of a variable by those that have the same places in another domain. *)
From Coq Require Import String List Bool Arith QArith Qcanon Permutation Lia.
Import ListNotations.
From Verif Require Import MBase MGraph MMacid MCpd MNet MProb MQuery Spec SpecM SpecC SpecN SpecQ SpecPol SpecGame LBase LQc LGraph LCpd LSum LQuery LPolicy LLike SpecSub.
Local Open Scope Qc_scope.

Definition shift (l l' : list outcome) (x : outcome) : outcome := match nth_error l' (pos x l) with Some y => y | None => x end.
(* a with every outcome replaced *)
Definition carry (D E : node -> list outcome) (a : asg) : asg := fun v => shift (D v) (E v) (a v).
Lemma place_pos : forall l x l' y, NoDup l -> NoDup l' -> same_place l x l' y -> pos x l = pos y l'.
Proof.
  intros l x l' y N N' (i & H & H'). assert (P : forall l x, NoDup l -> nth_error l i = Some x -> pos x l = i).
  { clear. intros l x N H. assert (Hx : In x l) by (eapply nth_error_In; eauto). apply (proj1 (NoDup_nth_error l) N); [apply pos_lt; auto|]. rewrite H. apply pos_nth; auto. }
  rewrite (P l x), (P l' y); auto.
Qed.
Lemma pos_of : forall l i x, NoDup l -> nth_error l i = Some x -> pos x l = i.
Proof. intros l i x N H. assert (Hx : In x l) by (eapply nth_error_In; eauto). apply (proj1 (NoDup_nth_error l) N); [apply pos_lt; auto|]. rewrite H. apply pos_nth; auto. Qed.
Lemma shift_place : forall l l' x, length l = length l' -> In x l -> same_place l x l' (shift l l' x).
Proof.
  intros l l' x L H. exists (pos x l). split; [apply pos_nth; auto|]. unfold shift. destruct (nth_error l' (pos x l)) eqn:E; auto. exfalso. apply nth_error_None in E. apply pos_lt in H. lia.
Qed.
Lemma shift_in : forall l l' x, length l = length l' -> In x l -> In (shift l l' x) l'.
Proof. intros l l' x L H. destruct (shift_place l l' x L H) as (i & _ & K). eapply nth_error_In; eauto. Qed.
Lemma pos_out : forall l x, ~ In x l -> pos x l = length l.
Proof. induction l as [|y l IH]; intros x H; auto. cbn [pos]. destruct (Qc_eq_dec x y) as [->|N]; [exfalso; apply H; left; auto|]. cbn [length]. f_equal. apply IH. intro K. apply H. right. auto. Qed.
Lemma shift_same : forall l x, shift l l x = x.
Proof.
  intros l x. unfold shift. destruct (in_dec Qc_eq_dec x l) as [H|H]; [rewrite pos_nth; auto|]. rewrite pos_out by auto. destruct (nth_error l (length l)) eqn:E; auto. exfalso. assert (K : nth_error l (length l) <> None) by congruence. apply nth_error_Some in K. lia.
Qed.
Lemma shift_back : forall l l' x, length l = length l' -> NoDup l' -> In x l -> shift l' l (shift l l' x) = x.
Proof.
  intros l l' x L N H. destruct (shift_place l l' x L H) as (i & K1 & K2). unfold shift at 1. rewrite (pos_of l' i _ N K2), K1. auto.
Qed.
Lemma list_ext : forall (A : Type) (l l' : list A), (forall i, nth_error l i = nth_error l' i) -> l = l'.
Proof. intros A. induction l as [|x l IH]; intros [|y l'] H; auto; [discriminate (H 0%nat)|discriminate (H 0%nat)|]. assert (E := H 0%nat). cbn in E. injection E as ->. f_equal. apply IH. intro i. apply (H (S i)). Qed.
Lemma map_shift : forall l l', length l = length l' -> NoDup l -> map (shift l l') l = l'.
Proof.
  intros l l' L N. apply list_ext. intro i. rewrite nth_error_map. destruct (nth_error l i) as [x|] eqn:E; cbn [option_map].
  - unfold shift. rewrite (pos_of l i x N E). destruct (nth_error l' i) eqn:E'; auto. exfalso. apply nth_error_None in E'. assert (K : nth_error l i <> None) by congruence. apply nth_error_Some in K. lia.
  - symmetry. apply nth_error_None. apply nth_error_None in E. lia.
Qed.
Lemma carry_upd : forall D E a v x w, carry D E (upd a v x) w = upd (carry D E a) v (shift (D v) (E v) x) w.
Proof. intros D E a v x w. unfold carry. destruct (String.string_dec w v) as [->|N]; [rewrite !upd_same; auto|rewrite !upd_other; auto]. Qed.
Lemma carry_same : forall D E a v, D v = E v -> carry D E a v = a v.
Proof. intros D E a v H. unfold carry. rewrite H. apply shift_same. Qed.
(* change of variables in a sum *)
Lemma total_carry : forall D E vs f a, ext f -> (forall v, In v vs -> length (D v) = length (E v) /\ NoDup (D v)) -> total D vs (fun b => f (carry D E b)) a = total E vs f (carry D E a).
Proof.
  intros D E. induction vs as [|v vs IH]; intros f a Ef H; auto. cbn [total]. destruct (H v (or_introl eq_refl)) as [L N].
  rewrite <- (map_shift (D v) (E v) L N) at 1. rewrite map_map. apply qsum_ext. intros x Hx. rewrite IH; auto; [|intros; apply H; right; auto]. apply total_ext_fun; auto. intros w _. apply carry_upd.
Qed.
Lemma entry_place : forall ds ds' t a b, (forall v, v = tvar t \/ In v (tev t) -> length (dom_of ds v) = length (dom_of ds' v) /\ pos (a v) (dom_of ds v) = pos (b v) (dom_of ds' v)) -> entry ds' t b = entry ds t a.
Proof.
  intros ds ds' t a b H. unfold entry. rewrite !name_pos, !(states_dom ds), !(states_dom ds'). rewrite (proj2 (H (tvar t) (or_introl eq_refl))). f_equal. f_equal. unfold column_no. generalize 0%nat as i. assert (H' : forall v, In v (tev t) -> length (dom_of ds v) = length (dom_of ds' v) /\ pos (a v) (dom_of ds v) = pos (b v) (dom_of ds' v)) by auto. clear H. induction (tev t) as [|p l IH]; intro i; cbn [fold_left]; auto.
  destruct (H' p (or_introl eq_refl)) as [E1 E2]. rewrite !name_pos, !(states_dom ds), !(states_dom ds'), E1, E2. apply IH. intros v K. apply H'. right. auto.
Qed.
