(* A utility that pays for a correct guess, and something less for no guess. *)
From Coq Require Import String List Bool Arith QArith Qcanon Lia Permutation.
Import ListNotations.
From Verif Require Import MBase MGraph MMacid MCpd MNet MProb MQuery Spec LBase LGraph LQc LSum LBayes LQcArith LWire.
Local Open Scope string_scope.
Local Open Scope list_scope.
Local Open Scope Qc_scope.

Definition six : Qc := Q2Qc (6 # 1).
Definition eight : Qc := Q2Qc (8 # 1).
(* f is to be guessed, e is the guess; if z there is none *)
Definition pay (f e z : bool) : Qc := if z then six else if Bool.eqb f e then eight else 0.
Definition vals : list outcome := [0; six; eight].
Definition other (q : outcome) : outcome := if Qc_eq_dec q six then six else eight - q.
Lemma pay_in : forall f e z, In (pay f e z) vals.
Proof. intros [] [] []; unfold vals; cbn; auto. Qed.
Lemma other_pay : forall f e z, other (pay f e z) = pay (negb f) e z.
Proof. intros [] [] []; unfold other; cbn [pay Bool.eqb negb]; destruct (Qc_eq_dec _ six) as [E|E]; try reflexivity; try congruence; try discriminate E; apply Qc_is_canon; reflexivity. Qed.
Lemma other_twice : forall q, In q vals -> other (other q) = q.
Proof. intros q [<-|[<-|[<-|[]]]]; unfold other; repeat destruct (Qc_eq_dec _ _) as [E|E]; try reflexivity; try congruence; try discriminate E; apply Qc_is_canon; reflexivity. Qed.
Lemma vals_nodup : NoDup vals.
Proof. unfold vals. repeat constructor; cbn; intuition discriminate. Qed.
Lemma other_perm : Permutation (map other vals) vals.
Proof.
  unfold vals. cbn [map]. replace (other 0) with eight by (unfold other; destruct (Qc_eq_dec 0 six) as [E|E]; [discriminate E|apply Qc_is_canon; reflexivity]). replace (other six) with six by (unfold other; destruct (Qc_eq_dec six six); congruence).
  replace (other eight) with 0 by (unfold other; destruct (Qc_eq_dec eight six) as [E|E]; [discriminate E|apply Qc_is_canon; reflexivity]). apply perm_trans with [eight; 0; six]; [apply perm_skip; apply perm_swap|]. apply perm_trans with [0; eight; six]; [apply perm_swap|]. apply perm_skip. apply perm_swap.
Qed.

Section Pay.
  Variables (h : graph) (C : list (node * source)) (u : node) (jp jd ja : nat) (enc : list bool -> Qc).
  Hypothesis W : wf_dag h.
  Hypothesis EI : forall l l', length l = length C -> length l' = length C -> enc l = enc l' -> l = l'.
  Hypothesis HC : forall j v i, nth_error C j = Some (v, Copy i) -> (i < length C)%nat /\ edge h (loc C i) v.
  Hypothesis HX : forall j v i i', nth_error C j = Some (v, Xor i i') -> ((i < length C)%nat /\ edge h (loc C i) v) /\ ((i' < length C)%nat /\ edge h (loc C i') v).
  Hypothesis HN : forall j, (j < length C)%nat -> In (loc C j) (nodes h) /\ loc C j <> u.
  Hypothesis Hjp : (jp < length C)%nat /\ edge h (loc C jp) u.
  Hypothesis Hjd : (jd < length C)%nat /\ edge h (loc C jd) u.
  Hypothesis Hja : (ja < length C)%nat /\ edge h (loc C ja) u.
  Definition D2 (v : node) : list outcome := if String.string_dec v u then vals else codes C enc.
  Definition due (a : asg) : Qc := pay (bit C enc (a (loc C jp)) jp) (bit C enc (a (loc C jd)) jd) (bit C enc (a (loc C ja)) ja).
  Definition kern2 (v : node) (a : asg) : Qc := if String.string_dec v u then (if Qc_eq_dec (a u) (due a) then 1 else 0) else kern C u jp jd enc v a.
  Lemma due_local : forall a a', (forall p, edge h p u -> a p = a' p) -> due a = due a'.
  Proof. intros a a' H. unfold due. rewrite !H; auto; [apply Hja|apply Hjd|apply Hjp]. Qed.
  Lemma no_self : forall v, ~ edge h v v.
  Proof. intros v E. apply (proj2 W v). exists v. split; [auto|constructor]. Qed.
  Lemma kern_free : forall v a q, v <> u -> kern C u jp jd enc v (upd a u q) = kern C u jp jd enc v a.
  Proof.
    intros v a q N. unfold kern. destruct (String.string_dec v u); [contradiction|]. rewrite upd_other by auto. apply prodl_ext. intros j b _. f_equal. unfold asked. destruct (nth_error C j) as [[w [|i|i i'|c]]|] eqn:E; auto; destruct (String.string_dec w v); auto.
    - apply HC in E. rewrite upd_other by (apply HN; apply E). auto.
    - apply HX in E. destruct E as [[E1 _] [E2 _]]. rewrite !upd_other by (apply HN; auto). auto.
  Qed.
  Lemma D2_nodup : forall v, NoDup (D2 v).
  Proof. intro v. unfold D2. destruct (String.string_dec v u); [apply vals_nodup|apply (codes_nodup C enc EI)]. Qed.
  Lemma D2_other : forall v, v <> u -> D2 v = Dm C u enc v.
  Proof. intros v N. unfold D2, Dm. destruct (String.string_dec v u); [contradiction|auto]. Qed.
  Lemma low : forall a, (forall v, In v (nodes h) -> In (a v) (D2 v)) -> forall v, In v (nodes h) -> In (upd a u 0 v) (Dm C u enc v).
  Proof.
    intros a Wa v Hv. destruct (String.string_dec v u) as [->|N]; [rewrite upd_same; unfold Dm; destruct (String.string_dec u u); [left; auto|congruence]|]. rewrite upd_other by auto. rewrite <- D2_other by auto. auto.
  Qed.
  Lemma kern2_cond : cond h D2 kern2.
  Proof.
    destruct (kern_cond h C u jp jd enc W EI HC HX Hjp Hjd) as [K1 K2 K3]. constructor.
    - intros v Hv a a' H. unfold kern2. destruct (String.string_dec v u) as [->|N]; [|apply K1; auto]. rewrite (H u) by (left; auto). rewrite (due_local a a'); auto. intros p Hp. apply H. right; auto.
    - intros v a Hv H. destruct (String.string_dec v u) as [->|N].
      + assert (Hd : In (due a) (D2 u)) by (unfold D2; destruct (String.string_dec u u); [apply pay_in|congruence]). rewrite (qsum_single _ Qc_eq_dec _ _ (due a)); auto; [|apply D2_nodup|].
        * unfold kern2. destruct (String.string_dec u u); [|congruence]. rewrite upd_same. destruct (Qc_eq_dec _ _) as [|Nq]; auto. exfalso. apply Nq. apply due_local. intros p Hp. symmetry. apply upd_other. intros ->. exact (no_self u Hp).
        * intros q _ Nq. unfold kern2. destruct (String.string_dec u u); [|congruence]. rewrite upd_same. destruct (Qc_eq_dec _ _) as [Eq|]; auto. exfalso. apply Nq. rewrite Eq. apply due_local. intros p Hp. apply upd_other. intros ->. exact (no_self u Hp).
      + rewrite (qsum_ext _ _ (fun q => kern C u jp jd enc v (upd (upd a u 0) v q))).
        * rewrite (D2_other v N). apply K2; auto. intros p Hp. destruct (String.string_dec p u) as [->|Np]; [rewrite upd_same; unfold Dm; destruct (String.string_dec u u); [left; auto|congruence]|]. rewrite upd_other by auto. rewrite <- D2_other by auto. auto.
        * intros q _. unfold kern2. destruct (String.string_dec v u); [contradiction|]. rewrite <- (kern_free v (upd a v q) 0 N). apply K1; auto. intros p _. destruct (String.string_dec p u) as [->|Nu]; [rewrite upd_same, upd_other, upd_same; auto|]. destruct (String.string_dec p v) as [->|Nv]; [rewrite (upd_other (upd a v q)), !upd_same by auto; auto|]. rewrite !upd_other by auto. auto.
    - intros v a Hv. unfold kern2. destruct (String.string_dec v u); [destruct (Qc_eq_dec _ _); discriminate|apply K3; auto].
  Qed.
  Lemma kern2_carries : forall a, (forall v, In v (nodes h) -> In (a v) (D2 v)) ->
    (forall v, In v (nodes h) -> v <> u -> (exists j i, nth_error C j = Some (v, i) /\ i <> Open) -> kern C u jp jd enc v a <> 0) -> carries C (fun j => bit C enc (a (loc C j)) j).
  Proof.
    intros a Wa Nz. assert (X : carries C (fun j => bit C enc (upd a u 0 (loc C j)) j)).
    { apply (kern_carries h C u jp jd enc EI HN Hjp Hjd); [apply low; auto|]. intros v Hv E. assert (Nv : v <> u) by (destruct E as (j & i & E & _); intros ->; assert (Hj : (j < length C)%nat) by (apply nth_error_Some; congruence); apply (HN j Hj); unfold loc; rewrite E; auto). rewrite kern_free by auto. auto. }
    assert (B : forall j, (j < length C)%nat -> upd a u 0 (loc C j) = a (loc C j)) by (intros j Hj; apply upd_other; apply HN; auto).
    intro j. specialize (X j). destruct (nth_error C j) as [[v [|i|i i'|c]]|] eqn:E; auto; assert (Hj : (j < length C)%nat) by (apply nth_error_Some; congruence).
    - assert (Hi := proj1 (HC _ _ _ E)). rewrite !B in X by auto. auto.
    - destruct (HX _ _ _ _ E) as [[Hi _] [Hi' _]]. rewrite !B in X by auto. auto.
    - rewrite !B in X by auto. auto.
  Qed.
  Lemma paid : forall a, kern2 u a <> 0 -> a u = due a.
  Proof. intros a H. unfold kern2 in H. destruct (String.string_dec u u); [|congruence]. destruct (Qc_eq_dec _ _); congruence. Qed.
  Variable F : nat -> bool.
  Hypothesis FC : forall j v i, nth_error C j = Some (v, Copy i) -> F j = F i.
  Hypothesis FX : forall j v i i', nth_error C j = Some (v, Xor i i') -> F j = xorb (F i) (F i').
  Hypothesis FK : forall j v b, nth_error C j = Some (v, Const b) -> F j = false.
  Hypothesis Fp : F jp = true.
  Hypothesis Fd : F jd = false.
  Hypothesis Fa : F ja = false.
  Definition turn2 (v : node) (q : outcome) : outcome := if String.string_dec v u then other q else turn C u enc F v q.
  Lemma turn2_perm : forall v, Permutation (map (turn2 v) (D2 v)) (D2 v).
  Proof.
    intro v. destruct (String.string_dec v u) as [->|N].
    - unfold D2. rewrite (map_ext (turn2 u) other) by (intro q; unfold turn2; destruct (String.string_dec u u); congruence). destruct (String.string_dec u u); [apply other_perm|congruence].
    - rewrite D2_other by auto. rewrite (map_ext (turn2 v) (turn C u enc F v)) by (intro q; unfold turn2; destruct (String.string_dec v u); congruence). apply turn_perm; auto.
  Qed.
  Lemma turn2_bit : forall a a', (forall v, In v (nodes h) -> In (a v) (D2 v)) -> (forall v, In v (nodes h) -> a' v = turn2 v (a v)) -> forall j, (j < length C)%nat -> bit C enc (a' (loc C j)) j = xorb (bit C enc (a (loc C j)) j) (F j).
  Proof.
    intros a a' Wa Ea j Hj. destruct (HN j Hj) as [N1 N2]. rewrite Ea by auto. unfold turn2. destruct (String.string_dec (loc C j) u); [contradiction|]. apply (turn_bit h C u jp jd enc EI HN Hjp Hjd F a j Hj). rewrite <- D2_other by auto. auto.
  Qed.
  Lemma kern2_turn : forall a a', (forall v, In v (nodes h) -> In (a v) (D2 v)) -> (forall v, In v (nodes h) -> a' v = turn2 v (a v)) -> forall v, In v (nodes h) -> kern2 v a' = kern2 v a.
  Proof.
    intros a a' Wa Ea v Hv. assert (Bt := turn2_bit a a' Wa Ea). unfold kern2. destruct (String.string_dec v u) as [->|N].
    - assert (Eu : a' u = other (a u)) by (rewrite Ea by auto; unfold turn2; destruct (String.string_dec u u); congruence). assert (Ed : due a' = other (due a)). { unfold due. rewrite !Bt by (apply Hjp || apply Hjd || apply Hja). rewrite Fp, Fd, Fa, !xorb_false_r, xorb_true_r. symmetry. apply other_pay. }
      rewrite Eu, Ed. assert (Wu := Wa u Hv). unfold D2 in Wu. destruct (String.string_dec u u); [|congruence]. destruct (Qc_eq_dec (a u) (due a)) as [E|E]; destruct (Qc_eq_dec (other (a u)) (other (due a))) as [E'|E']; auto; [congruence|].
      exfalso. apply E. rewrite <- (other_twice (a u) Wu), E'. apply other_twice. apply pay_in.
    - rewrite <- (kern_free v a 0 N), <- (kern_free v a' 1 N). assert (Hu : In u (nodes h)) by (destruct Hjp as [_ E]; apply (proj1 W) in E; tauto). assert (Hus : NoDup [u] /\ In u [u] /\ incl [u] (nodes h)) by (split; [repeat constructor; intros []|split; [left; auto|intros w [<-|[]]; auto]]). apply (kern_turn h C u jp jd enc EI HC HX HN Hjp Hjd v [u] (conj Hv N) Hus F FC FX FK Fp Fd (upd a u 0) (upd a' u 1)); auto; [apply low; auto|].
      intros w Hw. destruct (String.string_dec w u) as [->|Nw]; [rewrite !upd_same; unfold turn; destruct (String.string_dec u u); [apply Qc_is_canon; reflexivity|congruence]|]. rewrite !upd_other by auto. rewrite Ea by auto. unfold turn2. destruct (String.string_dec w u); [contradiction|auto].
  Qed.
End Pay.
