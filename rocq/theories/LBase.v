(* Lemmas about the basic vocabulary. *)
From Coq Require Import String List Bool Arith Permutation Lia.
Import ListNotations.
From Verif Require Import MBase.

Lemma mem_In : forall x l, mem x l = true <-> In x l.
Proof.
  intros x l. unfold mem. rewrite existsb_exists. split.
  - intros [y [Hy He]]. apply String.eqb_eq in He. subst; auto.
  - intros H. exists x. split; auto. apply String.eqb_refl.
Qed.
Lemma mem_nIn : forall x l, mem x l = false <-> ~ In x l.
Proof.
  intros x l. rewrite <- mem_In. destruct (mem x l); split; congruence.
Qed.
Lemma mem_spec : forall x l, reflect (In x l) (mem x l).
Proof.
  intros x l. destruct (mem x l) eqn:E; constructor.
  - apply mem_In; auto.
  - apply mem_nIn; auto.
Qed.
Lemma mem_ext : forall x l l', (In x l <-> In x l') -> mem x l = mem x l'.
Proof.
  intros x l l' H. destruct (mem_spec x l), (mem_spec x l'); tauto.
Qed.
Lemma forallb_mem : forall l l', forallb (fun n => mem n l') l = true <-> incl l l'.
Proof.
  intros. rewrite forallb_forall. unfold incl. split; intros H x Hx.
  - apply mem_In; auto.
  - apply mem_In; auto.
Qed.

Lemma in_to_set : forall x l, In x (to_set l) <-> In x l.
Proof. intros. unfold to_set. apply nodup_In. Qed.
Lemma NoDup_to_set : forall l, NoDup (to_set l).
Proof. intros. apply NoDup_nodup. Qed.
Lemma in_set_diff : forall x a b, In x (set_diff a b) <-> In x a /\ ~ In x b.
Proof.
  intros. unfold set_diff. rewrite filter_In, in_to_set, negb_true_iff, mem_nIn. tauto.
Qed.
Lemma in_set_union : forall x a b, In x (set_union a b) <-> In x a \/ In x b.
Proof. intros. unfold set_union. rewrite in_to_set, in_app_iff. tauto. Qed.
Lemma in_set_inter : forall x a b, In x (set_inter a b) <-> In x a /\ In x b.
Proof. intros. unfold set_inter. rewrite filter_In, in_to_set, mem_In. tauto. Qed.
Lemma NoDup_filter' : forall (A : Type) (f : A -> bool) l, NoDup l -> NoDup (filter f l).
Proof. intros. apply NoDup_filter; auto. Qed.
Lemma NoDup_set_diff : forall a b, NoDup (set_diff a b).
Proof. intros. apply NoDup_filter, NoDup_to_set. Qed.

Lemma valid_order_in : forall o k l x, valid_order o -> (In x (o k l) <-> In x l).
Proof.
  intros o k l x H. split; intro Hi.
  - eapply Permutation_in; [apply H|exact Hi].
  - eapply Permutation_in; [apply Permutation_sym, H|exact Hi].
Qed.
Lemma valid_order_NoDup : forall o k l, valid_order o -> NoDup l -> NoDup (o k l).
Proof. intros o k l H Hn. eapply Permutation_NoDup; [apply Permutation_sym, H|exact Hn]. Qed.
Lemma id_order_valid : valid_order id_order.
Proof. intros k l. apply Permutation_refl. Qed.
Lemma rev_order_valid : valid_order rev_order.
Proof. intros k l. unfold rev_order. apply Permutation_sym, Permutation_rev. Qed.

(* dictionaries *)
Lemma lookup_dset : forall A k k' (v : A) d,
  lookup k (dset k' v d) = if String.eqb k k' then Some v else lookup k d.
Proof.
  intros A k k' v d. induction d as [|[a b] d IH]; simpl.
  - reflexivity.
  - destruct (String.eqb_spec k' a).
    + subst. simpl. destruct (String.eqb_spec k a); auto.
    + simpl. rewrite IH. destruct (String.eqb_spec k a); auto.
      subst. destruct (String.eqb_spec a k'); congruence.
Qed.
Lemma lookup_ddel : forall A k k' (d : list (string * A)),
  lookup k (ddel k' d) = if String.eqb k k' then None else lookup k d.
Proof.
  intros A k k' d. induction d as [|[a b] d IH]; simpl.
  - destruct (String.eqb k k'); auto.
  - destruct (String.eqb_spec k' a); simpl.
    + subst. rewrite IH. destruct (String.eqb_spec k a); auto.
    + rewrite IH. destruct (String.eqb_spec k a); auto.
      subst. destruct (String.eqb_spec a k'); congruence.
Qed.
Lemma lookup_In_keys : forall A k (d : list (string * A)),
  In k (keys d) <-> exists v, lookup k d = Some v.
Proof.
  intros A k d. induction d as [|[a b] d IH]; simpl.
  - split; [tauto|intros [v H]; discriminate].
  - destruct (String.eqb_spec k a).
    + subst. split; eauto.
    + rewrite <- IH. split; intros; [destruct H; [congruence|auto]|auto].
Qed.
Lemma lookup_None_keys : forall A k (d : list (string * A)),
  ~ In k (keys d) <-> lookup k d = None.
Proof.
  intros A k d. rewrite lookup_In_keys. destruct (lookup k d); split; intros; auto.
  - exfalso; eauto.
  - discriminate.
  - intros [v Hv]; discriminate.
Qed.
Lemma lookup_In : forall A k (v : A) d, lookup k d = Some v -> In (k, v) d.
Proof.
  intros A k v d. induction d as [|[a b] d IH]; simpl; [discriminate|].
  destruct (String.eqb_spec k a); intro H.
  - inversion H; subst; auto.
  - auto.
Qed.
Lemma In_lookup : forall A k (v : A) d, NoDup (keys d) -> In (k, v) d -> lookup k d = Some v.
Proof.
  intros A k v d. induction d as [|[a b] d IH]; simpl; [tauto|].
  intros Hn Hi. inversion Hn; subst. destruct Hi as [Hi|Hi].
  - inversion Hi; subst. rewrite String.eqb_refl; auto.
  - destruct (String.eqb_spec k a); auto. subst. exfalso. apply H1.
    apply in_map_iff. exists (a, v); auto.
Qed.
Lemma keys_dset : forall A k (v : A) d,
  keys (dset k v d) = if mem k (keys d) then keys d else keys d ++ [k].
Proof.
  intros A k v d. induction d as [|[a b] d IH]; simpl; auto.
  destruct (String.eqb_spec k a); simpl.
  - subst; auto.
  - rewrite IH. unfold mem. simpl. destruct (String.eqb_spec k a); [congruence|]. simpl.
    destruct (existsb (String.eqb k) (keys d)); auto.
Qed.
Lemma NoDup_snoc : forall (A : Type) (l : list A) x, NoDup l -> ~ In x l -> NoDup (l ++ [x]).
Proof.
  intros A l x Hn Hx. eapply Permutation_NoDup; [apply Permutation_cons_append|].
  constructor; auto.
Qed.
Lemma NoDup_keys_dset : forall A k (v : A) d, NoDup (keys d) -> NoDup (keys (dset k v d)).
Proof.
  intros. rewrite keys_dset. destruct (mem_spec k (keys d)); auto.
  apply NoDup_snoc; auto.
Qed.
Lemma keys_ddel : forall A k (d : list (string * A)),
  keys (ddel k d) = filter (fun k' => negb (String.eqb k k')) (keys d).
Proof.
  intros. unfold keys, ddel. induction d as [|[a b] d IH]; simpl; auto.
  destruct (String.eqb k a); simpl; rewrite IH; auto.
Qed.
Lemma NoDup_keys_ddel : forall A k (d : list (string * A)), NoDup (keys d) -> NoDup (keys (ddel k d)).
Proof. intros. rewrite keys_ddel. apply NoDup_filter; auto. Qed.

(* list.remove *)
Lemma remove_first_NoDup_in : forall x y l, NoDup l -> (In y (remove_first x l) <-> In y l /\ y <> x).
Proof.
  intros x y l. induction l as [|a l IH]; simpl; intros Hn; [tauto|].
  inversion Hn; subst. destruct (String.eqb_spec x a).
  - subst. split.
    + intro H. split; auto. intro; subst; auto.
    + intros [[H|H] Hne]; congruence.
  - simpl. rewrite IH by auto. split.
    + intros [H|H]; subst; intuition congruence.
    + tauto.
Qed.
Lemma remove_first_NoDup : forall x l, NoDup l -> NoDup (remove_first x l).
Proof.
  intros x l Hn. induction l as [|a l IH]; simpl; auto.
  inversion Hn; subst. destruct (String.eqb_spec x a); auto.
  constructor; auto. rewrite remove_first_NoDup_in by auto. tauto.
Qed.

Lemma index_of_nth : forall x l i d, index_of x l = Some i -> i < length l /\ nth i l d = x.
Proof.
  intros x l. induction l as [|a l IH]; simpl; intros i d H; [discriminate|].
  destruct (String.eqb_spec x a).
  - inversion H; subst. split; [lia|auto].
  - destruct (index_of x l) eqn:E; simpl in H; [|discriminate].
    inversion H; subst. destruct (IH _ d eq_refl). split; [lia|auto].
Qed.
Lemma index_of_In : forall x l, In x l -> exists i, index_of x l = Some i.
Proof.
  intros x l. induction l as [|a l IH]; simpl; [tauto|]. intros H.
  destruct (String.eqb_spec x a); eauto.
  destruct H; [congruence|]. destruct (IH H) as [i Hi]. rewrite Hi. simpl; eauto.
Qed.
Lemma index_of_app : forall x l r, ~ In x l -> index_of x (l ++ x :: r) = Some (length l).
Proof.
  intros x l r. induction l as [|a l IH]; simpl; intros H.
  - rewrite String.eqb_refl; auto.
  - destruct (String.eqb_spec x a); [subst; tauto|]. rewrite IH by tauto. auto.
Qed.

(* ---- closure ---- *)
Inductive clos {A} (step : A -> list A) : A -> A -> Prop :=
| clos_refl : forall x, clos step x x
| clos_step : forall x y z, In y (step x) -> clos step y z -> clos step x z.

Lemma clos_trans : forall A (step : A -> list A) x y z, clos step x y -> clos step y z -> clos step x z.
Proof. intros A step x y z H. induction H; auto. intros. econstructor; eauto. Qed.
Lemma clos_snoc : forall A (step : A -> list A) x y z, clos step x y -> In z (step y) -> clos step x z.
Proof. intros. eapply clos_trans; eauto. econstructor; [eauto|constructor]. Qed.

Section ClosureSpec.
  Context {A : Type} (eqb : A -> A -> bool) (step : A -> list A).
  Hypothesis eqb_ok : forall x y, eqb x y = true <-> x = y.

  Lemma memA_In : forall x l, existsb (eqb x) l = true <-> In x l.
  Proof.
    intros. rewrite existsb_exists. split.
    - intros [y [H1 H2]]. apply eqb_ok in H2; subst; auto.
    - intros; exists x; split; auto. apply eqb_ok; auto.
  Qed.
  Definition weight (visited u : list A) :=
    fold_right (fun x n => (if existsb (eqb x) visited then 0 else length (step x)) + n) 0 u.

  Lemma weight_mono : forall x v u, weight (x :: v) u <= weight v u.
  Proof.
    intros x v u. induction u as [|y u IH]; simpl; auto.
    simpl in IH. destruct (eqb y x); simpl; destruct (existsb (eqb y) v); lia.
  Qed.
  Lemma weight_cons : forall x v u, In x u -> existsb (eqb x) v = false ->
    weight (x :: v) u + length (step x) <= weight v u.
  Proof.
    intros x v u Hx Hv. induction u as [|y u IH]; [destruct Hx|].
    destruct Hx as [Hx|Hx].
    - subst y. assert (E : eqb x x = true) by (apply eqb_ok; auto).
      simpl. rewrite E, Hv. simpl. assert (H := weight_mono x v u). simpl in H. lia.
    - specialize (IH Hx). simpl in IH. simpl.
      destruct (eqb y x); simpl; destruct (existsb (eqb y) v); lia.
  Qed.

  Lemma worklist_spec : forall universe,
    (forall x y, In x universe -> In y (step x) -> In y universe) ->
    forall fuel visited todo,
    incl todo universe ->
    (forall x y, In x visited -> In y (step x) -> In y visited \/ In y todo) ->
    length todo + weight visited universe < fuel ->
    let r := worklist eqb step fuel visited todo in
    incl visited r /\ incl todo r /\
    (forall x y, In x r -> In y (step x) -> In y r) /\
    (forall x, In x r -> In x visited \/ exists t, In t todo /\ clos step t x).
  Proof.
    intros universe Hu fuel. induction fuel as [|fuel IH]; intros visited todo Ht Hv Hf; [lia|].
    simpl. destruct todo as [|x todo].
    - simpl. repeat split; auto using incl_refl.
      + intros x [].
      + intros x y Hx Hy. destruct (Hv x y Hx Hy) as [H|[]]; auto.
    - destruct (existsb (eqb x) visited) eqn:E.
      + apply memA_In in E.
        destruct (IH visited todo) as (H1 & H2 & H3 & H4).
        * intros y Hy; apply Ht; simpl; auto.
        * intros a b Ha Hb. destruct (Hv a b Ha Hb) as [H|[H|H]]; subst; auto.
        * simpl in Hf; lia.
        * repeat split; auto.
          -- intros y [Hy|Hy]; subst; auto.
          -- intros y Hy. destruct (H4 y Hy) as [H|[t [Hti Htc]]]; auto.
             right; exists t; simpl; auto.
      + assert (Hxu : In x universe) by (apply Ht; simpl; auto).
        destruct (IH (x :: visited) (step x ++ todo)) as (H1 & H2 & H3 & H4).
        * intros y Hy. apply in_app_or in Hy. destruct Hy as [Hy|Hy]; eauto.
          apply Ht; simpl; auto.
        * intros a b [Ha|Ha] Hb.
          -- subst. right. apply in_or_app; auto.
          -- destruct (Hv a b Ha Hb) as [H|[H|H]]; subst; simpl; auto.
             right; apply in_or_app; auto.
        * rewrite app_length. simpl in Hf. pose proof (weight_cons x visited universe Hxu E). lia.
        * repeat split; auto.
          -- intros y Hy; apply H1; simpl; auto.
          -- intros y [Hy|Hy]; [subst; apply H1; simpl; auto|].
             apply H2, in_or_app; auto.
          -- intros y Hy. destruct (H4 y Hy) as [[H|H]|[t [Hti Htc]]]; auto.
             ++ subst. right; exists y; simpl; split; auto. constructor.
             ++ apply in_app_or in Hti. destruct Hti as [Hti|Hti].
                ** right; exists x; split; simpl; auto. econstructor; eauto.
                ** right; exists t; simpl; auto.
  Qed.

  Lemma closure_iff : forall universe todo,
    (forall x y, In x universe -> In y (step x) -> In y universe) ->
    incl todo universe ->
    forall x, In x (closure eqb step universe todo) <-> exists t, In t todo /\ clos step t x.
  Proof.
    intros universe todo Hu Ht x. unfold closure.
    destruct (worklist_spec universe Hu (closure_fuel step universe todo) [] todo) as (H1 & H2 & H3 & H4);
      [exact Ht | intros a b Ha; destruct Ha | unfold closure_fuel, weight; simpl; lia |].
    split.
    - intro Hx. destruct (H4 x Hx) as [[]|H]; auto.
    - intros [t [Hti Htc]]. assert (Hr := H2 t Hti). clear Hti.
      induction Htc; auto. apply IHHtc. eapply H3; eauto.
  Qed.
End ClosureSpec.
