(* Linear arithmetic for canonical rationals. *)
From Coq Require Import List Bool QArith Qcanon Lqa Psatz.
Local Open Scope Qc_scope.

Lemma this_add : forall a b : Qc, (this (a + b) == this a + this b)%Q.
Proof. intros a b. apply Qred_correct. Qed.
Lemma this_mul : forall a b : Qc, (this (a * b) == this a * this b)%Q.
Proof. intros a b. apply Qred_correct. Qed.
Lemma this_opp : forall a : Qc, (this (- a) == - this a)%Q.
Proof. intros a. apply Qred_correct. Qed.
Lemma this_sub : forall a b : Qc, (this (a - b) == this a - this b)%Q.
Proof. intros a b. unfold Qcminus. rewrite this_add, this_opp. reflexivity. Qed.
Lemma Qc_eq_this : forall a b : Qc, a = b -> (this a == this b)%Q.
Proof. intros a b ->. reflexivity. Qed.
Lemma Qc_neq_this : forall a b : Qc, a <> b -> ~ (this a == this b)%Q.
Proof. intros a b H E. apply H, Qc_is_canon, E. Qed.
Ltac qcq :=
  repeat match goal with
         | H : @eq Qc _ _ |- _ => apply Qc_eq_this in H
         end;
  try (apply Qc_is_canon);
  unfold Qcle, Qclt in *;
  repeat match goal with
         | H : context [this (_ + _)] |- _ => rewrite this_add in H
         | H : context [this (_ - _)] |- _ => rewrite this_sub in H
         | H : context [this (_ * _)] |- _ => rewrite this_mul in H
         | H : context [this (- _)] |- _ => rewrite this_opp in H
         end;
  rewrite ?this_add, ?this_sub, ?this_mul, ?this_opp;
  repeat match goal with
         | |- context [this (_ + _)] => rewrite this_add
         | |- context [this (_ - _)] => rewrite this_sub
         | |- context [this (_ * _)] => rewrite this_mul
         | |- context [this (- _)] => rewrite this_opp
         end;
  change (this 0) with 0%Q in *; change (this 1) with 1%Q in *.
Ltac qclra := qcq; lra.
Ltac qcnra := qcq; nra.
Example qclra_test : forall a b c : Qc, a < b -> b <= c + 1 -> a - 1 < c.
Proof. intros. qclra. Qed.
Example qclra_test2 : forall a b c : Qc, a <= b -> b <= a -> c = b -> a = c.
Proof. intros. qclra. Qed.
Example qcnra_test : forall a b c : Qc, 0 <= a -> b <= c -> a * b <= a * c.
Proof. intros. qcnra. Qed.
