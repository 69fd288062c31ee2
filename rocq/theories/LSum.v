(* Finite sums over assignments. *)
From Coq Require Import String List Bool Arith QArith Qcanon Lia Permutation Setoid.
Import ListNotations.
From Verif Require Import MBase MGraph MMacid MCpd MNet MProb Spec SpecC LBase LQc LCpd.
Local Open Scope Qc_scope.

(* f depends only on the variables in X *)
Definition on (X : node -> Prop) (f : asg -> Qc) : Prop := forall a b, (forall v, X v -> a v = b v) -> f a = f b.
Definition ext (f : asg -> Qc) : Prop := on (fun _ => True) f.
Lemma on_ext : forall X f, on X f -> ext f.
Proof. intros X f H a b E. apply H. intros; apply E; auto. Qed.
Lemma on_mono : forall (X Y : node -> Prop) f, (forall v, X v -> Y v) -> on X f -> on Y f.
Proof. intros X Y f S H a b E. apply H. auto. Qed.
Lemma upd_same : forall a v x, upd a v x v = x.
Proof. intros. unfold upd. rewrite String.eqb_refl. auto. Qed.
Lemma upd_other : forall a v x u, u <> v -> upd a v x u = a u.
Proof. intros. unfold upd. destruct (String.eqb_spec u v); congruence. Qed.

(* ---- sums of lists ---- *)
Lemma qsum_plus : forall (A : Type) (f h : A -> Qc) l, qsum (map (fun x => f x + h x) l) = qsum (map f l) + qsum (map h l).
Proof. intros A f h l. induction l as [|x l IH]; simpl; [ring|]. unfold qsum in *. simpl. rewrite IH. ring. Qed.
Lemma qsum_scale : forall (A : Type) c (f : A -> Qc) l, qsum (map (fun x => c * f x) l) = c * qsum (map f l).
Proof. intros A c f l. induction l as [|x l IH]; simpl; [ring|]. unfold qsum in *. simpl. rewrite IH. ring. Qed.
Lemma qsum_zero : forall (A : Type) (l : list A), qsum (map (fun _ => 0) l) = 0.
Proof. intros A l. induction l as [|x l IH]; simpl; auto. unfold qsum in *. simpl. rewrite IH. ring. Qed.
Lemma qsum_swap : forall (A B : Type) (f : A -> B -> Qc) l m,
  qsum (map (fun x => qsum (map (f x) m)) l) = qsum (map (fun y => qsum (map (fun x => f x y) l)) m).
Proof.
  intros A B f l m. induction l as [|x l IH].
  - simpl. rewrite qsum_zero. reflexivity.
  - simpl map at 1. change (qsum (?a :: ?b)) with (a + qsum b). rewrite IH. rewrite <- qsum_plus. apply qsum_ext. intros; reflexivity.
Qed.
Lemma Qc_le_refl' : forall x : Qc, x <= x. Proof. intro; apply Qcle_refl. Qed.
Lemma qsum_le : forall (A : Type) (f h : A -> Qc) l, (forall x, In x l -> f x <= h x) -> qsum (map f l) <= qsum (map h l).
Proof.
  intros A f h l. induction l as [|x l IH]; intro H; simpl; [apply Qcle_refl|]. unfold qsum in *. simpl. apply Qcplus_le_compat; auto.
  - apply H. left; auto. - apply IH. intros y Hy. apply H. right; auto.
Qed.
(* a sum with a single non-zero term *)
Lemma qsum_single : forall (A : Type) (dec : forall x y : A, {x = y} + {x <> y}) (f : A -> Qc) l x, NoDup l -> In x l ->
  (forall y, In y l -> y <> x -> f y = 0) -> qsum (map f l) = f x.
Proof.
  intros A dec f l x N. induction N as [|z l Hz N IH]; intros Hx H; [destruct Hx|]. simpl map. change (qsum (?a :: ?b)) with (a + qsum b).
  destruct (dec z x) as [->|E].
  - rewrite (qsum_ext _ f (fun _ => 0)); [rewrite qsum_zero; ring|]. intros y Hy. apply H; [right; auto|]. intro; subst; auto.
  - destruct Hx as [|Hx]; [congruence|]. rewrite IH; auto; [|intros; apply H; auto; right; auto]. rewrite (H z); [ring|left; auto|auto].
Qed.

(* ---- products of lists ---- *)
Lemma qprod_app : forall l l', qprod (l ++ l') = qprod l * qprod l'.
Proof. intros l l'. induction l as [|x l IH]; simpl; [ring|]. rewrite IH. ring. Qed.
Lemma qprod_perm : forall l l', Permutation l l' -> qprod l = qprod l'.
Proof. intros l l' P. induction P; simpl; try congruence; ring. Qed.
Lemma qprod_ext : forall (A : Type) (f h : A -> Qc) l, (forall x, In x l -> f x = h x) -> qprod (map f l) = qprod (map h l).
Proof. intros A f h l H. f_equal. apply map_ext_in. auto. Qed.
Lemma qprod_nonneg : forall l, (forall x, In x l -> 0 <= x) -> 0 <= qprod l.
Proof.
  intro l. induction l as [|x l IH]; intro H; simpl; [apply Qclt_le_weak, Qc_0_lt_1|]. apply Qc_mul_nonneg; [apply H; left; auto|]. apply IH. intros; apply H; right; auto.
Qed.
Lemma qprod_zero : forall (A : Type) (f : A -> Qc) l x, In x l -> f x = 0 -> qprod (map f l) = 0.
Proof. intros A f l x H E. induction l as [|y l IH]; [destruct H|]. simpl. destruct H as [->|H]; [rewrite E; ring|]. rewrite IH by auto. ring. Qed.
Lemma qprod_mult : forall (A : Type) (f h : A -> Qc) l, qprod (map (fun x => f x * h x) l) = qprod (map f l) * qprod (map h l).
Proof. intros A f h l. induction l as [|x l IH]; simpl; [ring|]. rewrite IH. ring. Qed.
Lemma qprod_on : forall (A : Type) (f : A -> asg -> Qc) l X, (forall x, In x l -> on X (f x)) -> on X (fun a => qprod (map (fun x => f x a) l)).
Proof. intros A f l X H a b E. apply qprod_ext. intros x Hx. apply (H x Hx a b E). Qed.

Section Total.
  Variable D : node -> list outcome.
  Lemma total_ext : forall vs f h a, (forall b, f b = h b) -> total D vs f a = total D vs h a.
  Proof. induction vs as [|v vs IH]; intros f h a E; simpl; auto. apply qsum_ext. intros x Hx. apply IH. auto. Qed.
  (* only assignments within the domains matter *)
  Lemma total_ext_in : forall vs f h a, (forall b, (forall v, In v vs -> In (b v) (D v)) -> (forall v, ~ In v vs -> b v = a v) -> f b = h b) ->
    total D vs f a = total D vs h a.
  Proof.
    induction vs as [|v vs IH]; intros f h a E; simpl; [apply E; auto; intros ? []|]. apply qsum_ext. intros x Hx. apply IH.
    intros b H1 H2. apply E.
    - intros u [<-|Hu]; auto. destruct (in_dec String.string_dec v vs) as [|Hn]; auto. rewrite H2 by auto. rewrite upd_same. auto.
    - intros u Hu. rewrite H2 by (intro; apply Hu; right; auto). apply upd_other. intro; subst; apply Hu; left; auto.
  Qed.
  Lemma total_app : forall vs ws f a, total D (vs ++ ws) f a = total D vs (fun b => total D ws f b) a.
  Proof. induction vs as [|v vs IH]; intros ws f a; simpl; auto. apply qsum_ext. intros; apply IH. Qed.
  Lemma total_plus : forall vs f h a, total D vs (fun b => f b + h b) a = total D vs f a + total D vs h a.
  Proof.
    induction vs as [|v vs IH]; intros f h a; simpl; auto. rewrite <- qsum_plus. apply qsum_ext. intros; apply IH.
  Qed.
  Lemma total_scale : forall vs c f a, total D vs (fun b => c * f b) a = c * total D vs f a.
  Proof. induction vs as [|v vs IH]; intros c f a; simpl; auto. rewrite <- qsum_scale. apply qsum_ext. intros; apply IH. Qed.
  Lemma total_zero : forall vs a, total D vs (fun _ => 0) a = 0.
  Proof. induction vs as [|v vs IH]; intro a; simpl; auto. transitivity (qsum (map (fun _ => 0) (D v))); [|apply qsum_zero]. apply qsum_ext. intros; apply IH. Qed.
  Lemma total_qsum : forall (A : Type) vs (f : A -> asg -> Qc) l a,
    total D vs (fun b => qsum (map (fun i => f i b) l)) a = qsum (map (fun i => total D vs (f i) a) l).
  Proof.
    intros A vs f l a. induction l as [|x l IH]; simpl; [apply total_zero|].
    transitivity (total D vs (fun b => f x b + qsum (map (fun i => f i b) l)) a); [reflexivity|].
    rewrite total_plus, IH. reflexivity.
  Qed.
  Lemma total_le : forall vs f h a, (forall b, (forall v, In v vs -> In (b v) (D v)) -> (forall v, ~ In v vs -> b v = a v) -> f b <= h b) ->
    total D vs f a <= total D vs h a.
  Proof.
    induction vs as [|v vs IH]; intros f h a E; simpl; [apply E; auto; intros ? []|]. apply qsum_le. intros x Hx. apply IH.
    intros b H1 H2. apply E.
    - intros u [<-|Hu]; auto. destruct (in_dec String.string_dec v vs) as [|Hn]; auto. rewrite H2 by auto. rewrite upd_same. auto.
    - intros u Hu. rewrite H2 by (intro; apply Hu; right; auto). apply upd_other. intro; subst; apply Hu; left; auto.
  Qed.
  Lemma total_nonneg : forall vs f a, (forall b, (forall v, In v vs -> In (b v) (D v)) -> (forall v, ~ In v vs -> b v = a v) -> 0 <= f b) -> 0 <= total D vs f a.
  Proof. intros vs f a H. assert (X := total_zero vs a). rewrite <- X at 1. apply total_le. auto. Qed.
  (* the sum no longer depends on the variables summed over *)
  Lemma total_on : forall vs X f, on X f -> on (fun v => X v /\ ~ In v vs) (total D vs f).
  Proof.
    induction vs as [|v vs IH]; intros X f H a b E; simpl; [apply H; intros; apply E; auto|].
    apply qsum_ext. intros x Hx. apply (IH X f H). intros u [H1 H2]. unfold upd. destruct (String.eqb_spec u v) as [->|N]; auto.
    apply E. split; auto. intros [->|K]; auto.
  Qed.
  Lemma total_base : forall vs f a b, ext f -> (forall v, ~ In v vs -> a v = b v) -> total D vs f a = total D vs f b.
  Proof. intros vs f a b H E. apply (total_on vs (fun _ => True) f H). intros v [_ Hv]. auto. Qed.
  Lemma total_ext_fun : forall vs f, ext f -> ext (total D vs f).
  Proof. intros vs f H. eapply on_ext. apply (total_on vs _ f H). Qed.
  (* a factor without the summed variables can be taken out *)
  Lemma total_pull : forall vs f h a, on (fun v => ~ In v vs) f -> total D vs (fun b => f b * h b) a = f a * total D vs h a.
  Proof.
    induction vs as [|v vs IH]; intros f h a H; simpl; auto.
    rewrite <- qsum_scale. apply qsum_ext. intros x Hx. rewrite IH.
    - f_equal. apply H. intros u Hu. apply upd_other. intro; subst; apply Hu; left; auto.
    - eapply on_mono; [|exact H]. intros u Hu K. apply Hu. right; auto.
  Qed.
  Lemma total_split : forall vs ws f h a, on (fun v => ~ In v ws) f -> on (fun v => ~ In v vs) h ->
    total D (vs ++ ws) (fun b => f b * h b) a = total D vs f a * total D ws h a.
  Proof.
    intros vs ws f h a Hf Hh. rewrite total_app.
    rewrite (total_ext vs _ (fun b => total D ws h b * f b)).
    - rewrite total_pull; [ring|]. eapply on_mono; [|apply (total_on ws _ h Hh)]. intros v [K _]; exact K.
    - intro b. rewrite total_pull by auto. ring.
  Qed.
  Lemma total_swap : forall v w vs f a, ext f -> total D (v :: w :: vs) f a = total D (w :: v :: vs) f a.
  Proof.
    intros v w vs f a H. destruct (String.string_dec v w) as [->|N]; auto. simpl. rewrite qsum_swap. apply qsum_ext. intros y Hy.
    apply qsum_ext. intros x Hx. apply total_ext_fun; auto. intros u _. unfold upd.
    destruct (String.eqb_spec u w), (String.eqb_spec u v); congruence.
  Qed.
  Lemma total_perm : forall vs ws f a, Permutation vs ws -> ext f -> total D vs f a = total D ws f a.
  Proof.
    intros vs ws f a P H. revert a. induction P; intro a; auto.
    - simpl. apply qsum_ext. intros; auto.
    - apply total_swap; auto.
    - rewrite IHP1. auto.
  Qed.
  (* variables on which f is concentrated *)
  Lemma total_point : forall v x vs f a, NoDup (D v) -> In x (D v) -> ~ In v vs ->
    (forall b, b v <> x -> f b = 0) -> total D (v :: vs) f a = total D vs f (upd a v x).
  Proof.
    intros v x vs f a N Hx Hv H. simpl. apply (qsum_single _ Qc_eq_dec (fun x0 => total D vs f (upd a v x0))); auto.
    intros y Hy E. transitivity (total D vs (fun _ => 0) (upd a v y)); [|apply total_zero]. apply total_ext_in. intros b _ Hb. apply H. rewrite Hb by auto. rewrite upd_same. auto.
  Qed.
End Total.
Lemma total_dom_perm : forall D D' vs f a, (forall v, In v vs -> Permutation (D v) (D' v)) -> total D vs f a = total D' vs f a.
Proof.
  intros D D' vs. induction vs as [|v vs IH]; intros f a H; simpl; auto.
  rewrite (qsum_perm _ (map (fun x => total D vs f (upd a v x)) (D' v))).
  - apply qsum_ext. intros x Hx. apply IH. intros; apply H; right; auto.
  - apply Permutation_map. apply H. left; auto.
Qed.
