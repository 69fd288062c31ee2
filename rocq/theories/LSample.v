(* Lemmas about choosing by partial sums and about forward sampling. *)
From Coq Require Import String List Bool Arith QArith Qcanon Lia Permutation.
Import ListNotations.
From Verif Require Import MBase MGraph MCpd MNet MProb MSample Spec SpecC SpecN SpecQ SpecPol SpecSample LBase LGraph LQc LQcArith LSum LBayes LQuery LSearch.
Local Open Scope Qc_scope.

(* the sum of the weights before x *)
Fixpoint before (f : outcome -> Qc) (x : outcome) (xs : list outcome) : Qc :=
  match xs with [] => 0 | y :: xs' => if oeqb x y then 0 else f y + before f x xs' end.
Lemma before_nonneg : forall f x xs, (forall y, In y xs -> 0 <= f y) -> 0 <= before f x xs.
Proof.
  intros f x xs. induction xs as [|y xs IH]; intro H; simpl; [apply Qcle_refl|]. destruct (oeqb x y); [apply Qcle_refl|]. assert (A := H y (or_introl eq_refl)). assert (B := IH (fun z Hz => H z (or_intror Hz))). qclra.
Qed.
Lemma before_le : forall f x xs, (forall y, In y xs -> 0 <= f y) -> In x xs -> before f x xs + f x <= qsum (map f xs).
Proof.
  intros f x xs. induction xs as [|y xs IH]; intros H Hx; [destruct Hx|]. simpl. destruct (oeqb x y) eqn:E.
  - apply oeqb_iff in E. subst y. assert (A : 0 <= qsum (map f xs)) by (apply qsum_nonneg; intros q Hq; apply in_map_iff in Hq; destruct Hq as (z & <- & Hz); apply H; right; auto). qclra.
  - destruct Hx as [->|Hx]; [rewrite (proj2 (oeqb_iff x x) eq_refl) in E; discriminate|]. assert (B := IH (fun z Hz => H z (or_intror Hz)) Hx). qclra.
Qed.
Lemma choice_spec : forall f u xs acc, NoDup xs -> (forall y, In y xs -> 0 <= f y) -> acc <= u -> u < acc + qsum (map f xs) ->
  In (nth (choice_index u acc (map f xs)) xs 0) xs /\
  forall x, In x xs -> (nth (choice_index u acc (map f xs)) xs 0 = x <-> acc + before f x xs <= u /\ u < acc + before f x xs + f x).
Proof.
  intros f u xs. induction xs as [|y xs IH]; intros acc N P L H; [exfalso; simpl in H; qclra|]. inversion N as [|? ? Ny N']; subst. simpl. destruct (Qclt_le_dec u (acc + f y)) as [K|K].
  - split; [left; auto|]. intros x Hx. split.
    + intros <-. rewrite (proj2 (oeqb_iff y y) eq_refl). split; qclra.
    + intros [K1 K2]. destruct (oeqb x y) eqn:E; [apply oeqb_iff in E; auto|]. exfalso. assert (B := before_nonneg f x xs (fun z Hz => P z (or_intror Hz))). qclra.
  - destruct (IH (acc + f y)) as [I1 I2]; auto; [intros z Hz; apply P; right; auto|simpl in H; qclra|]. split; [right; auto|]. intros x Hx. destruct (oeqb x y) eqn:E.
    + apply oeqb_iff in E. subst x. split; [intros E2; exfalso; rewrite E2 in I1; auto|]. intros [K1 K2]. exfalso. qclra.
    + destruct Hx as [->|Hx]; [rewrite (proj2 (oeqb_iff x x) eq_refl) in E; discriminate|]. rewrite (I2 x Hx). split; intros [K1 K2]; split; qclra.
Qed.
Lemma forward_other : forall n u vs a v, ~ In v vs -> forward_loop n u vs a v = a v.
Proof.
  intros n u vs. induction vs as [|x vs IH]; intros a v H; auto. simpl. rewrite IH; [|intro K; apply H; right; auto]. unfold upd. destruct (String.eqb_spec v x) as [->|]; auto. exfalso. apply H. left; auto.
Qed.
(* where the interval of the value of v begins *)
Definition low (n : net) (w : asg) (v : node) : Qc := before (fun x => kernel n v (upd w v x)) (w v) (dom_of (doms n) v).
Lemma forward_spec : forall n u w, distribution n -> draws n u -> within n w -> forall vs done a, NoDup (done ++ vs) -> incl (done ++ vs) (nodes (ngraph n)) ->
  (forall l1 x l2, done ++ vs = l1 ++ x :: l2 -> forall p, edge (ngraph n) p x -> In p l1) -> (forall p, In p done -> In (a p) (dom_of (doms n) p)) ->
  (forall v, In v vs -> In (forward_loop n u vs a v) (dom_of (doms n) v)) /\
  ((forall p, In p done -> a p = w p) -> ((forall v, In v vs -> forward_loop n u vs a v = w v) <-> (forall v, In v vs -> low n w v <= u v /\ u v < low n w v + kernel n v w))).
Proof.
  intros n u w Hd Du Ww. assert (C := kernel_cond n Hd). induction vs as [|v vs IH]; intros done a N I P Da; [split; [intros v []|]; intros _; split; intros _ v []|].
  assert (Hv : In v (nodes (ngraph n))) by (apply I; apply in_or_app; right; left; auto). assert (Nv : NoDup (dom_of (doms n) v)) by (apply dom_nodup; auto).
  assert (Pv : forall p, edge (ngraph n) p v -> In p done) by (intros p Hp; eapply P; eauto).
  assert (Nvd : ~ In v done) by (intro K; apply NoDup_remove_2 in N; apply N; apply in_or_app; auto).
  assert (Nvv : ~ In v vs) by (intro K; apply NoDup_remove_2 in N; apply N; apply in_or_app; auto).
  set (f := fun x => kernel n v (upd a v x)). set (D := dom_of (doms n) v) in *. set (x := nth (choice_index (u v) 0 (map f D)) D 0).
  assert (Sum : qsum (map f D) = 1) by (apply (k_normal _ _ _ C); auto).
  assert (Ch := choice_spec f (u v) D 0 Nv). assert (Lt : u v < 0 + qsum (map f D)) by (rewrite Sum, Qcplus_0_l; apply Du; auto). destruct (Ch (fun y _ => k_nonneg _ _ _ C v (upd a v y) Hv) (proj1 (Du v Hv)) Lt) as [Cx Ci]. fold x in Cx, Ci.
  assert (St : forward_loop n u (v :: vs) a = forward_loop n u vs (upd a v x)) by reflexivity. rewrite St.
  assert (App : done ++ v :: vs = (done ++ [v]) ++ vs) by (rewrite <- app_assoc; reflexivity). rewrite App in N, I, P.
  destruct (IH (done ++ [v]) (upd a v x) N I P) as [I1 I2].
  { intros p Hp. unfold upd. destruct (String.eqb_spec p v) as [->|Ne]; auto. apply in_app_or in Hp. destruct Hp as [Hp|[Hp|[]]]; [auto|congruence]. }
  assert (Fv : forward_loop n u vs (upd a v x) v = x) by (rewrite forward_other by auto; unfold upd; rewrite String.eqb_refl; auto).
  split; [intros z [<-|Hz]; [rewrite Fv; auto|auto]|]. intro Aw.
  assert (Ef : forall y, f y = kernel n v (upd w v y)). { intro y. apply (k_local _ _ _ C v Hv). intros z Hz. unfold upd. destruct (String.eqb_spec z v) as [->|Ne]; auto. destruct Hz as [Hz|Hz]; [congruence|]. apply Aw. apply Pv. auto. }
  assert (Eb : before f (w v) D = low n w v). { unfold low. fold D. clear - Ef. induction D as [|y D IHD]; simpl; auto. rewrite Ef, IHD. auto. }
  assert (Ek : f (w v) = kernel n v w). { rewrite Ef. apply (k_local _ _ _ C v Hv). intros z _. unfold upd. destruct (String.eqb_spec z v) as [->|]; auto. }
  assert (Xv : x = w v <-> low n w v <= u v /\ u v < low n w v + kernel n v w). { assert (Y := Ci (w v) (Ww v Hv)). rewrite Eb, Ek in Y. change (x = w v <-> 0 + low n w v <= u v /\ u v < 0 + low n w v + kernel n v w) in Y. rewrite Y. rewrite Qcplus_0_l. tauto. }
  split.
  - intros H. assert (E : x = w v) by (rewrite <- Fv; apply H; left; auto). intros z [<-|Hz]; [apply Xv; auto|]. apply I2; auto.
    + intros p Hp. unfold upd. destruct (String.eqb_spec p v) as [->|Ne]; auto. apply in_app_or in Hp. destruct Hp as [Hp|[Hp|[]]]; [auto|congruence].
    + intros y Hy. apply H. right; auto.
  - intros H. assert (E : x = w v) by (apply Xv; apply H; left; auto). intros z [<-|Hz]; [rewrite Fv; auto|]. apply I2; auto.
    + intros p Hp. unfold upd. destruct (String.eqb_spec p v) as [->|Ne]; auto. apply in_app_or in Hp. destruct Hp as [Hp|[Hp|[]]]; [auto|congruence].
    + intros y Hy. apply H. right; auto.
Qed.
