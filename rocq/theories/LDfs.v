(* The depth-first search generator: the stack machine halts and yields exactly the list
   computed by the recursion; membership in that list. *)
From Coq Require Import String List Bool Arith Lia.
Import ListNotations.
From Verif Require Import MBase MGraph MPaths Spec LBase.

Lemma end_of_snoc : forall l x, end_of (l ++ [x]) = x.
Proof. intros. unfold end_of. apply last_last. Qed.
Lemma flat_map_length_0 : forall (A B : Type) (f : A -> list B) l, (forall x, In x l -> f x = []) -> flat_map f l = [].
Proof. induction l; simpl; intros; auto. rewrite H by auto. simpl. apply IHl; auto. Qed.

Section Dfs.
  Variables (succ : list node -> list node) (t : node).

  (* the paths the search visits below [p] *)
  Inductive grows (p : list node) : list node -> Prop :=
  | grows_refl : grows p p
  | grows_snoc : forall q x, grows p q -> In x (succ q) -> x <> t -> grows p (q ++ [x]).

  Lemma grows_length : forall p q, grows p q -> length p <= length q.
  Proof. induction 1; auto. rewrite app_length; simpl; lia. Qed.
  Lemma grows_prefix : forall p q, grows p q -> exists r, q = p ++ r.
  Proof.
    induction 1.
    - exists []. rewrite app_nil_r; auto.
    - destruct IHgrows as [r Hr]. exists (r ++ [x]). rewrite Hr, app_assoc; auto.
  Qed.
  Lemma grows_cons : forall p x q, In x (succ p) -> x <> t -> grows (p ++ [x]) q -> grows p q.
  Proof.
    intros p x q Hx Ht H. induction H.
    - apply grows_snoc; auto. constructor.
    - apply grows_snoc; auto.
  Qed.
  Lemma grows_inv : forall p q, grows p q -> q = p \/ exists x, In x (succ p) /\ x <> t /\ grows (p ++ [x]) q.
  Proof.
    intros p q H. induction H; auto. right.
    destruct IHgrows as [E|[y (H2 & H3 & H4)]].
    - subst. exists x. repeat split; auto. constructor.
    - exists y. repeat split; auto. apply grows_snoc; auto.
  Qed.

  (* [d] bounds how much deeper the search can get below [p] *)
  Definition bounded (d : nat) (p : list node) : Prop := forall q, grows p q -> length q <= length p + d.

  Lemma bounded_0 : forall p x, bounded 0 p -> In x (succ p) -> x = t.
  Proof.
    intros p x H Hx. destruct (string_dec x t); auto. exfalso.
    assert (grows p (p ++ [x])) by (apply grows_snoc; auto; constructor).
    apply H in H0. rewrite app_length in H0. simpl in H0. lia.
  Qed.
  Lemma bounded_S : forall d p x, bounded (S d) p -> In x (succ p) -> x <> t -> bounded d (p ++ [x]).
  Proof.
    intros d p x H Hx Ht q Hq. rewrite app_length; simpl.
    apply grows_cons in Hq; auto. apply H in Hq. lia.
  Qed.

  (* running the machine on one stack frame *)
  Lemma frame : forall d path, path <> [] -> bounded d path -> forall xs, incl xs (succ path) ->
    forall stk out, exists k, forall fuel,
      dfs_run succ t (k + fuel) (mkDfs path (xs :: stk) out) =
      dfs_run succ t fuel (mkDfs (removelast path) stk
        (out ++ flat_map (fun x => if String.eqb x t then [path ++ [x]]
                                   else dfs_from succ t d (path ++ [x])) xs)).
  Proof.
    induction d as [|d IHd]; intros path Hne Hb xs; induction xs as [|x xs IHxs]; intros Hi stk out.
    - exists 1. intro fuel. simpl. rewrite app_nil_r. reflexivity.
    - destruct (IHxs (fun y Hy => Hi y (or_intror Hy)) stk (out ++ [path ++ [x]])) as [k Hk].
      assert (x = t) by (eapply bounded_0; eauto; apply Hi; left; auto). subst x.
      exists (S k). intro fuel. simpl. unfold dfs_step; simpl. rewrite String.eqb_refl.
      rewrite Hk. f_equal. f_equal. simpl. rewrite <- app_assoc. reflexivity.
    - exists 1. intro fuel. simpl. rewrite app_nil_r. reflexivity.
    - destruct (String.eqb_spec x t) as [E|E].
      + destruct (IHxs (fun y Hy => Hi y (or_intror Hy)) stk (out ++ [path ++ [x]])) as [k Hk].
        subst x. exists (S k). intro fuel. cbn [dfs_run Nat.add]. unfold dfs_step. cbn [dstack].
        rewrite String.eqb_refl. cbn [dpath dout].
        rewrite Hk. f_equal. f_equal. cbn [flat_map]. rewrite String.eqb_refl, <- app_assoc. reflexivity.
      + assert (Hx : In x (succ path)) by (apply Hi; left; auto).
        assert (Hne' : path ++ [x] <> []) by (destruct path; discriminate).
        destruct (IHd (path ++ [x]) Hne' (bounded_S _ _ _ Hb Hx E) (succ (path ++ [x])) (incl_refl _)
                      (xs :: stk) out) as [k1 Hk1].
        set (sub := dfs_from succ t (S d) (path ++ [x])).
        destruct (IHxs (fun y Hy => Hi y (or_intror Hy)) stk (out ++ sub)) as [k2 Hk2].
        exists (S (k1 + k2)). intro fuel.
        change (S (k1 + k2) + fuel) with (S (k1 + k2 + fuel)).
        cbn [dfs_run]. unfold dfs_step. cbn [dstack dpath dout].
        apply String.eqb_neq in E. rewrite E.
        rewrite <- Nat.add_assoc, Hk1, removelast_last.
        fold (dfs_from succ t (S d) (path ++ [x])).
        change (flat_map (fun x0 => if String.eqb x0 t then [(path ++ [x]) ++ [x0]]
                                    else dfs_from succ t d ((path ++ [x]) ++ [x0])) (succ (path ++ [x])))
          with sub.
        rewrite Hk2. f_equal. f_equal. cbn [flat_map]. rewrite E, <- app_assoc. reflexivity.
  Qed.

  Lemma dfs_machine_halts : forall s d, bounded d [s] ->
    exists fuel, forall n, dfs_machine succ s t (fuel + n) = Some (dfs_paths succ s t (S d)).
  Proof.
    intros s d Hb. unfold dfs_machine, dfs_paths. destruct (String.eqb s t); [exists 0; auto|].
    assert (Hne : [s] <> []) by discriminate.
    destruct (frame d [s] Hne Hb (succ [s]) (incl_refl _) [] []) as [k Hk].
    exists (k + 1). intro n. rewrite <- Nat.add_assoc, Hk. reflexivity.
  Qed.

  Lemma in_dfs_from : forall d path p, bounded d path ->
    (In p (dfs_from succ t (S d) path) <-> exists q, grows path q /\ In t (succ q) /\ p = q ++ [t]).
  Proof.
    induction d as [|d IH]; intros path p Hb.
    - cbn [dfs_from]. rewrite in_flat_map. split.
      + intros [x [Hx Hp]]. assert (x = t) by (eapply bounded_0; eauto). subst.
        rewrite String.eqb_refl in Hp. destruct Hp as [Hp|[]].
        exists path. repeat split; auto. constructor.
      + intros [q (H1 & H2 & H3)]. apply grows_inv in H1. destruct H1 as [H1|[x (H4 & H5 & H6)]].
        * subst. exists t. rewrite String.eqb_refl. split; auto. left; auto.
        * exfalso. apply H5. eapply bounded_0; eauto.
    - change (dfs_from succ t (S (S d)) path) with
        (flat_map (fun x => if String.eqb x t then [path ++ [x]] else dfs_from succ t (S d) (path ++ [x])) (succ path)).
      rewrite in_flat_map. split.
      + intros [x [Hx Hp]]. destruct (String.eqb_spec x t) as [E|E].
        * subst. destruct Hp as [Hp|[]]. exists path. repeat split; auto. constructor.
        * apply IH in Hp; [|apply bounded_S; auto]. destruct Hp as [q (H1 & H2 & H3)].
          exists q. repeat split; auto. eapply grows_cons; eauto.
      + intros [q (H1 & H2 & H3)]. apply grows_inv in H1. destruct H1 as [H1|[x (H4 & H5 & H6)]].
        * subst. exists t. rewrite String.eqb_refl. split; auto. left; auto.
        * exists x. split; auto. destruct (String.eqb_spec x t); [congruence|].
          apply IH; [apply bounded_S; auto|]. exists q; auto.
  Qed.

  Lemma dfs_from_prefix : forall d path p, In p (dfs_from succ t d path) -> exists y r, p = path ++ y :: r.
  Proof.
    induction d as [|d IH]; simpl; intros path p H; [destruct H|].
    apply in_flat_map in H. destruct H as [x [Hx Hp]]. destruct (String.eqb x t).
    - destruct Hp as [Hp|[]]. exists x, []. auto.
    - apply IH in Hp. destruct Hp as [y [r Hp]]. exists x, (y :: r).
      rewrite Hp, <- app_assoc. reflexivity.
  Qed.
  Lemma NoDup_app_intro : forall (A : Type) (l r : list A), NoDup l -> NoDup r ->
    (forall x, In x l -> ~ In x r) -> NoDup (l ++ r).
  Proof.
    induction l as [|a l IH]; simpl; intros r Hl Hr Hd; auto. inversion Hl; subst.
    constructor; [|apply IH; auto]. rewrite in_app_iff. intros [H|H]; auto. eapply Hd; eauto.
  Qed.
  Lemma NoDup_dfs_from : (forall q, NoDup (succ q)) -> forall d path, NoDup (dfs_from succ t d path).
  Proof.
    intro Hs. induction d as [|d IH]; simpl; intros path; [constructor|].
    specialize (Hs path). induction Hs as [|x l Hx Hl IHl]; simpl; [constructor|].
    apply NoDup_app_intro; auto.
    - destruct (String.eqb x t); auto. constructor; auto. constructor.
    - intros p Hp Hq. apply in_flat_map in Hq. destruct Hq as [y [Hy Hq]].
      assert (exists r, p = path ++ x :: r) as [r1 E1].
      { destruct (String.eqb x t); [destruct Hp as [Hp|[]]; exists []; auto|].
        apply dfs_from_prefix in Hp. destruct Hp as [z [r Hp]]. exists (z :: r).
        rewrite Hp, <- app_assoc; auto. }
      assert (exists r, p = path ++ y :: r) as [r2 E2].
      { destruct (String.eqb y t); [destruct Hq as [Hq|[]]; exists []; auto|].
        apply dfs_from_prefix in Hq. destruct Hq as [z [r Hq]]. exists (z :: r).
        rewrite Hq, <- app_assoc; auto. }
      rewrite E1 in E2. apply app_inv_head in E2. inversion E2; subst. auto.
  Qed.
  Lemma NoDup_dfs_paths : (forall q, NoDup (succ q)) -> forall s d, NoDup (dfs_paths succ s t d).
  Proof.
    intros Hs s d. unfold dfs_paths. destruct (String.eqb s t); [|apply NoDup_dfs_from; auto].
    constructor; auto. constructor.
  Qed.
End Dfs.
