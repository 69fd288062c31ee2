(* Property C68: the test for structural causal models. *)
From Coq Require Import String List Bool Arith QArith Qcanon Lia Permutation.
Import ListNotations.
From Verif Require Import PQuery PPolicy LCheckN LCheck PCpd.
From Verif Require Import MBase MGraph MMacid MCpd MNet MProb MQuery MPolicy MScm Spec SpecM SpecC SpecN SpecQ SpecPol SpecScm LBase LGraph LQc LCpd LNet LSum LBayes LQuery LQcArith LPolicy LSearch LOptimal.
Local Open Scope string_scope.
Local Open Scope list_scope.
Local Open Scope Qc_scope.

(* ---- the entries of a table are the conditional probabilities ---- *)
Lemma context_onto : forall ds ps (a0 : asg) k, NoDup ps -> (forall p, In p ps -> NoDup (dom_of ds p)) -> (k < contexts_count ds ps)%nat ->
  exists a : asg, (forall p, In p ps -> In (a p) (dom_of ds p)) /\ (forall v, ~ In v ps -> a v = a0 v) /\ context_index ds (map (fun p => (p, a p)) ps) = k.
Proof.
  intros ds ps a0. induction ps as [|p ps IH]; intros k N D Hk.
  - exists a0. split; [intros p []|]. split; auto. cbn in Hk |- *. lia.
  - inversion N as [|? ? N1 N2]; subst. change (contexts_count ds (p :: ps)) with (length (dom_of ds p) * contexts_count ds ps)%nat in Hk.
    assert (C0 : contexts_count ds ps <> 0%nat) by nia. set (c := contexts_count ds ps) in *.
    destruct (IH (k mod c)%nat N2 ltac:(intros; apply D; right; auto) ltac:(apply Nat.mod_upper_bound; auto)) as (a & A1 & A2 & A3).
    assert (L : (k / c < length (dom_of ds p))%nat) by (apply Nat.div_lt_upper_bound; auto; nia).
    destruct (nth_error (dom_of ds p) (k / c)) as [x|] eqn:Ex; [|apply nth_error_None in Ex; lia].
    exists (upd a p x). assert (Er : map (fun q => (q, upd a p x q)) ps = map (fun q => (q, a q)) ps).
    { apply map_ext_in. intros q Hq. rewrite upd_other; auto. intro; subst; contradiction. }
    split; [|split].
    + intros q [<-|Hq]; [rewrite upd_same; eapply nth_error_In; eauto|]. rewrite upd_other by (intro; subst; contradiction). auto.
    + intros v Hv. rewrite upd_other by (intro; subst; apply Hv; left; auto). apply A2. intro K; apply Hv; right; auto.
    + cbn [map context_index]. rewrite Er, upd_same. rewrite map_map. cbn [fst]. rewrite map_id. fold c. rewrite A3.
      assert (P : pos x (dom_of ds p) = (k / c)%nat).
      { assert (Hx : In x (dom_of ds p)) by (eapply nth_error_In; eauto).
        assert (Ep : nth_error (dom_of ds p) (pos x (dom_of ds p)) = Some x) by (apply pos_nth; auto).
        apply (proj1 (NoDup_nth_error (dom_of ds p)) (D p (or_introl eq_refl))); [apply pos_lt; auto|]. congruence. }
      rewrite P. rewrite (Nat.div_mod k c C0) at 3. lia.
Qed.
Lemma entries_all : forall n v t (P : Qc -> Prop), distribution n -> In v (nodes (ngraph n)) -> cpd_of n v = Some t ->
  (forall q, In q (concat (tcols t)) -> P q) <-> (forall a, within n a -> P (kernel n v a)).
Proof.
  intros n v t P Hd Hv Ct. destruct (dist_table n v Hd Hv) as (t' & Ct' & T). rewrite Ct in Ct'. injection Ct' as <-. destruct (ok_exact n v t T) as (N1 & N2 & L1 & L2 & C).
  assert (Ec : length (tcols t) = contexts_count (doms n) (tev t)) by (rewrite L2, (ok_cards n v t T), <- contexts_cards; auto).
  assert (Pn : forall p, In p (tev t) -> In p (nodes (ngraph n))) by (intros p Hp; apply (ok_ev n v t T) in Hp; eapply wf_edge_l; [apply Hd|eauto]).
  split.
  - intros H a Wa. unfold kernel. rewrite Ct. apply H. apply in_concat. exists (nth (column_no (doms n) (tev t) a) (tcols t) []).
    assert (Li : (column_no (doms n) (tev t) a < length (tcols t))%nat) by (rewrite Ec, column_context; apply context_index_lt; intros; apply Wa; auto).
    split; [apply nth_In; auto|]. apply nth_In. rewrite (proj1 (C _ (nth_In _ [] Li))), name_pos, (ok_var n v t T), states_dom, (ok_dom n v t T). apply pos_lt. rewrite <- (ok_dom n v t T). apply Wa; auto.
  - intros H q Hq. apply in_concat in Hq. destruct Hq as (col & Hc & Hq). destruct (C col Hc) as (Lc & _ & _).
    destruct (In_nth _ _ [] Hc) as (i & Li & Ei). destruct (In_nth _ _ 0 Hq) as (j & Lj & Ej).
    destruct (some_within n Hd) as [a0 W0].
    destruct (context_onto (doms n) (tev t) a0 i N1) as (a & A1 & A2 & A3); [intros; apply dom_nodup; auto|lia|].
    assert (Nv : ~ In v (tev t)). { intro K. apply (ok_ev n v t T) in K. exact (no_self_edge (ngraph n) v (proj2 (proj1 Hd)) K). }
    destruct (nth_error (tdom t) j) as [x|] eqn:Ex; [|apply nth_error_None in Ex; lia]. assert (Hx : In x (tdom t)) by (eapply nth_error_In; eauto).
    replace q with (kernel n v (upd a v x)).
    + apply H. intros u Hu. destruct (String.string_dec u v) as [->|Ne]; [rewrite upd_same, (ok_dom n v t T); auto|]. rewrite upd_other by auto.
      destruct (in_dec String.string_dec u (tev t)); [apply A1; auto|rewrite A2 by auto; apply W0; auto].
    + unfold kernel. rewrite Ct. unfold entry. rewrite (ok_var n v t T), upd_same, name_pos, states_dom, (ok_dom n v t T), column_context.
      replace (map (fun p => (p, upd a v x p)) (tev t)) with (map (fun p => (p, a p)) (tev t)) by (apply map_ext_in; intros p Hp; rewrite upd_other; auto; intro; subst; contradiction).
      rewrite A3, Ei. assert (Ep : nth_error (tdom t) (pos x (tdom t)) = Some x) by (apply pos_nth; auto).
      replace (pos x (tdom t)) with j; auto. apply (proj1 (NoDup_nth_error (tdom t)) N2); [apply nth_error_Some; congruence|congruence].
Qed.

Lemma degenerate_iff : forall p, degenerate p = true <-> near_zero p \/ near_one p.
Proof.
  intro p. unfold degenerate, np_isclose, near_zero, near_one. rewrite orb_true_iff, !qleb_iff, !absolute_qabs.
  replace (p - 0) with p by ring. replace (np_atol + np_rtol * qabs 0) with (Q2Qc (1 # 100000000)) by (apply oeqb_iff; vm_compute; reflexivity).
  replace (np_atol + np_rtol * qabs 1) with (Q2Qc (1001 # 100000000)) by (apply oeqb_iff; vm_compute; reflexivity). tauto.
Qed.
Lemma parents_none : forall g v, parents g v = [] <-> ~ exists p, edge g p v.
Proof.
  intros g v. split.
  - intros E (p & H). apply edge_parents in H. rewrite E in H. destruct H.
  - intro H. destruct (parents g v) as [|p l] eqn:E; auto. exfalso. apply H. exists p. apply edge_parents. rewrite E. left; auto.
Qed.
Lemma scm_loop_ok : forall n vs, distribution n -> incl vs (nodes (ngraph n)) -> exists b, scm_loop n vs = Ok b /\
  (b = true <-> forall v, In v vs -> endogenous n v -> forall a, within n a -> near_zero (kernel n v a) \/ near_one (kernel n v a)).
Proof.
  intros n vs Hd. induction vs as [|v vs IH]; intro I; [exists true; split; [reflexivity|split; auto; intros _ v []]|].
  destruct (IH ltac:(intros x Hx; apply I; right; auto)) as (b & E & Hb). assert (Hv : In v (nodes (ngraph n))) by (apply I; left; auto). cbn [scm_loop].
  destruct (parents (ngraph n) v) as [|p ps] eqn:Ep.
  - exists b. split; auto. rewrite Hb. apply parents_none in Ep. split.
    + intros H u [<-|Hu]; [intros [_ K]; contradiction|auto].
    + intros H u Hu. apply H. right; auto.
  - destruct (dist_table n v Hd Hv) as (t & Ct & T). unfold get_cpds. rewrite (proj2 (mem_In v _) Hv), Ct. cbn [bind].
    assert (En : endogenous n v). { split; auto. exists p. apply edge_parents. rewrite Ep. left; auto. }
    assert (X : forallb degenerate (concat (tcols t)) = true <-> forall a, within n a -> near_zero (kernel n v a) \/ near_one (kernel n v a)).
    { rewrite forallb_forall. rewrite <- (entries_all n v t (fun q => near_zero q \/ near_one q) Hd Hv Ct). split; intros H q Hq; apply degenerate_iff; auto. }
    destruct (forallb degenerate (concat (tcols t))).
    + exists b. split; auto. rewrite Hb. split; [|intros H u Hu; apply H; right; auto]. intros H u [<-|Hu]; [intros _; apply X; auto|auto].
    + exists false. split; auto. split; [discriminate|]. intro H. apply X. apply H; [left; auto|exact En].
Qed.

(* the test accepts exactly the networks all of whose variables with parents have conditional probabilities near 0 or 1 *)
Theorem C68_scm : forall n, distribution n -> exists b, is_structural_causal_model n = Ok b /\
  (b = true <-> forall v, endogenous n v -> forall a, within n a -> near_zero (kernel n v a) \/ near_one (kernel n v a)).
Proof.
  intros n Hd. destruct (scm_loop_ok n (nodes (ngraph n)) Hd (fun x H => H)) as (b & E & Hb). exists b. split; [exact E|]. rewrite Hb. split.
  - intros H v En. apply H; auto. apply En.
  - intros H v _ En. apply H; auto.
Qed.

(* it never rejects a structural causal model *)
Theorem C68_accepts : forall n, distribution n -> (forall v, endogenous n v -> determined n v) -> is_structural_causal_model n = Ok true.
Proof.
  intros n Hd H. destruct (C68_scm n Hd) as (b & E & Hb). rewrite E. f_equal. apply Hb. intros v En a Wa. destruct (H v En) as (h & _ & K). rewrite (K a Wa).
  destruct (Qc_eq_dec (a v) (h a)); [right|left]; unfold near_one, near_zero; rewrite absolute_qabs; [replace (1 - 1) with (0 : Qc) by ring|]; vm_compute; discriminate.
Qed.

(* ---- what an accepted network is ---- *)
Lemma sum_two : forall (A : Type) (f : A -> Qc) l x y, (forall z, In z l -> 0 <= f z) -> In x l -> In y l -> x <> y -> f x + f y <= qsum (map f l).
Proof.
  assert (Pos : forall (A : Type) (f : A -> Qc) l, (forall z, In z l -> 0 <= f z) -> 0 <= qsum (map f l)).
  { intros A f l. induction l as [|z l IH]; intro H; [apply Qcle_refl|]. change (qsum (map f (z :: l))) with (f z + qsum (map f l)).
    assert (H1 := H z (or_introl eq_refl)). assert (H2 := IH (fun w Hw => H w (or_intror Hw))). qclra. }
  assert (One : forall (A : Type) (f : A -> Qc) l x, (forall z, In z l -> 0 <= f z) -> In x l -> f x <= qsum (map f l)).
  { intros A f l x. induction l as [|z l IH]; intros H Hx; [destruct Hx|]. change (qsum (map f (z :: l))) with (f z + qsum (map f l)).
    assert (H1 := H z (or_introl eq_refl)). assert (Hl : forall w, In w l -> 0 <= f w) by (intros; apply H; right; auto). destruct Hx as [->|Hx].
    - assert (H2 := Pos A f l Hl). qclra.
    - assert (H2 := IH Hl Hx). qclra. }
  intros A f l x y. induction l as [|z l IH]; intros H Hx Hy Ne; [destruct Hx|]. change (qsum (map f (z :: l))) with (f z + qsum (map f l)).
  assert (H1 := H z (or_introl eq_refl)). assert (Hl : forall w, In w l -> 0 <= f w) by (intros; apply H; right; auto). destruct Hx as [->|Hx], Hy as [E|Hy].
  - congruence.
  - assert (H2 := One A f l y Hl Hy). qclra.
  - subst z. assert (H2 := One A f l x Hl Hx). qclra.
  - assert (H2 := IH Hl Hx Hy Ne). qclra.
Qed.
Lemma sum_small : forall (A : Type) (f : A -> Qc) e l, (forall z, In z l -> f z <= e) -> qsum (map f l) <= Qc_of_nat (length l) * e.
Proof.
  intros A f e l H. rewrite <- (qsum_const A l e). induction l as [|z l IH]; [apply Qcle_refl|]. cbn [map]. change (qsum (?a :: ?b)) with (a + qsum b).
  assert (H1 := H z (or_introl eq_refl)). assert (H2 := IH (fun w Hw => H w (or_intror Hw))). qclra.
Qed.
(* the value of v that has the property, if there is one, as a function of the parents *)
Definition pick (n : net) (v : node) (f : Qc -> bool) (a : asg) : outcome :=
  match find (fun x => f (kernel n v (upd a v x))) (dom_of (doms n) v) with Some x => x | None => 0 end.
Lemma kernel_parents : forall n v a a', distribution n -> In v (nodes (ngraph n)) -> a v = a' v -> (forall p, edge (ngraph n) p v -> a p = a' p) -> kernel n v a = kernel n v a'.
Proof. intros n v a a' Hd Hv E H. apply (k_local _ _ _ (kernel_cond n Hd) v Hv). intros u [->|Hu]; auto. Qed.
Lemma pick_structural : forall n v f, distribution n -> In v (nodes (ngraph n)) ->
  (forall a, within n a -> exists x, In x (dom_of (doms n) v) /\ f (kernel n v (upd a v x)) = true) ->
  structural n v (pick n v f) /\ forall a, within n a -> f (kernel n v (upd a v (pick n v f a))) = true.
Proof.
  intros n v f Hd Hv H. assert (Ne : forall p, edge (ngraph n) p v -> p <> v) by (intros p E ->; exact (no_self_edge (ngraph n) v (proj2 (proj1 Hd)) E)). split; [split|].
  - intros a a' E. unfold pick. replace (find (fun x => f (kernel n v (upd a' v x))) (dom_of (doms n) v)) with (find (fun x => f (kernel n v (upd a v x))) (dom_of (doms n) v)); auto.
    clear H. induction (dom_of (doms n) v) as [|x l IH]; auto. cbn [find]. rewrite (kernel_parents n v (upd a v x) (upd a' v x)); auto; [rewrite IH; auto|rewrite !upd_same; auto|].
    intros p Ep. rewrite !upd_other by (apply Ne; auto). auto.
  - intros a Wa. destruct (H a Wa) as (x & Hx & Ex). unfold pick. destruct (find _ (dom_of (doms n) v)) as [y|] eqn:E; [apply find_some in E; apply E|].
    exfalso. assert (K := find_none _ _ E x Hx). cbn beta in K. congruence.
  - intros a Wa. destruct (H a Wa) as (x & Hx & Ex). unfold pick. destruct (find _ (dom_of (doms n) v)) as [y|] eqn:E; [apply find_some in E; apply E|].
    exfalso. assert (K := find_none _ _ E x Hx). cbn beta in K. congruence.
Qed.
Lemma within_upd : forall n a v x, within n a -> In x (dom_of (doms n) v) -> within n (upd a v x).
Proof. intros n a v x W Hx u Hu. destruct (String.string_dec u v) as [->|Ne]; [rewrite upd_same; auto|rewrite upd_other; auto]. Qed.
Lemma kernel_at : forall n v a x, distribution n -> In v (nodes (ngraph n)) -> a v = x -> kernel n v (upd a v x) = kernel n v a.
Proof.
  intros n v a x Hd Hv E. apply kernel_parents; auto; [rewrite upd_same; auto|]. intros p Ep. apply upd_other. intros ->. exact (no_self_edge (ngraph n) v (proj2 (proj1 Hd)) Ep).
Qed.
Lemma parents_within : forall n v a, distribution n -> within n a -> forall p, edge (ngraph n) p v -> In (a p) (dom_of (doms n) p).
Proof. intros n v a Hd Wa p E. apply Wa. eapply wf_edge_l; [apply Hd|eauto]. Qed.

(* what an accepted network is: every variable with parents is a function of them, except with probability 0.00001001 (its
   domain has to have fewer than a hundred million elements) *)
Theorem C68_nearly : forall n, distribution n -> is_structural_causal_model n = Ok true ->
  (forall v, endogenous n v -> Qc_of_nat (length (dom_of (doms n) v)) * Q2Qc (1 # 100000000) < 1) ->
  forall v, endogenous n v -> determined_but (Q2Qc (1001 # 100000000)) n v.
Proof.
  intros n Hd E Small v En. destruct (C68_scm n Hd) as (b & E' & Hb). rewrite E in E'. injection E' as <-. assert (H := proj1 Hb eq_refl v En). clear Hb. assert (Hv := proj1 En).
  set (f := fun q => qleb (qabs (q - 1)) (Q2Qc (1001 # 100000000))).
  destruct (pick_structural n v f Hd Hv) as [P1 P2].
  - intros a Wa. destruct (existsb (fun x => f (kernel n v (upd a v x))) (dom_of (doms n) v)) eqn:Ex.
    + apply existsb_exists in Ex. destruct Ex as (x & Hx & Ex). exists x. auto.
    + exfalso. assert (S := sum_small _ (fun x => kernel n v (upd a v x)) (Q2Qc (1 # 100000000)) (dom_of (doms n) v)).
      rewrite (k_normal _ _ _ (kernel_cond n Hd) v a Hv (parents_within n v a Hd Wa)) in S. assert (Sm := Small v En).
      assert (K : 1 <= Qc_of_nat (length (dom_of (doms n) v)) * Q2Qc (1 # 100000000)).
      { apply S. intros x Hx. destruct (H (upd a v x) (within_upd n a v x Wa Hx)) as [Z|Z].
        - unfold near_zero in Z. rewrite absolute_qabs in Z. destruct (qabs_cases (kernel n v (upd a v x))) as [[_ Q]|[Q _]]; [rewrite Q in Z; auto|].
          exfalso. assert (Nn := k_nonneg _ _ _ (kernel_cond n Hd) v (upd a v x) Hv). qclra.
        - exfalso. unfold near_one in Z. rewrite absolute_qabs in Z. assert (Y : existsb (fun x => f (kernel n v (upd a v x))) (dom_of (doms n) v) = true); [|congruence].
          apply existsb_exists. exists x. split; auto. apply qleb_iff. auto. }
      exact (Qclt_not_le _ _ Sm K).
  - exists (pick n v f). split; [exact P1|]. intros a Wa Ea. assert (K := P2 a Wa). rewrite kernel_at in K by auto. apply qleb_iff in K.
    destruct (qabs_cases (kernel n v a - 1)) as [[Q1 Q2]|[Q1 Q2]]; rewrite Q2 in K.
    + assert (Z : 0 <= Q2Qc (1001 # 100000000)) by (vm_compute; discriminate). set (e := Q2Qc (1001 # 100000000)) in *. clearbody e. qclra.
    + set (e := Q2Qc (1001 # 100000000)) in *. clearbody e. qclra.
Qed.
(* the test is exact when no conditional probability lies strictly between the tolerances and 0 or 1 *)
Theorem C68_exact_partial : forall n, distribution n ->
  (forall v a, endogenous n v -> within n a -> near_zero (kernel n v a) -> kernel n v a = 0) ->
  (forall v a, endogenous n v -> within n a -> near_one (kernel n v a) -> kernel n v a = 1) ->
  exists b, is_structural_causal_model n = Ok b /\ (b = true <-> forall v, endogenous n v -> determined n v).
Proof.
  intros n Hd Z0 Z1. destruct (C68_scm n Hd) as (b & E & Hb). exists b. split; auto. split.
  2:{ intro H. assert (X := C68_accepts n Hd H). congruence. }
  intros Eb v En. assert (Hv := proj1 En). assert (H := proj1 Hb Eb v En). clear Hb.
  assert (H01 : forall a, within n a -> kernel n v a = 0 \/ kernel n v a = 1) by (intros a Wa; destruct (H a Wa); auto).
  set (f := fun q => oeqb q 1). destruct (pick_structural n v f Hd Hv) as [P1 P2].
  - intros a Wa. destruct (existsb (fun x => f (kernel n v (upd a v x))) (dom_of (doms n) v)) eqn:Ex.
    + apply existsb_exists in Ex. destruct Ex as (x & Hx & Ex). exists x. auto.
    + exfalso. assert (S := k_normal _ _ _ (kernel_cond n Hd) v a Hv (parents_within n v a Hd Wa)).
      rewrite (qsum_ext _ _ (fun _ => 0)) in S; [rewrite qsum_const, Qcmult_0_r in S; discriminate|]. intros x Hx. destruct (H01 (upd a v x) (within_upd n a v x Wa Hx)) as [K|K]; auto.
      exfalso. assert (Y : existsb (fun x => f (kernel n v (upd a v x))) (dom_of (doms n) v) = true); [|congruence]. apply existsb_exists. exists x. split; auto. apply oeqb_iff; auto.
  - exists (pick n v f). split; [exact P1|]. intros a Wa. assert (K := P2 a Wa). apply oeqb_iff in K. destruct (Qc_eq_dec (a v) (pick n v f a)) as [Ea|Na]; [rewrite kernel_at in K; auto|].
    destruct (H01 a Wa) as [X|X]; auto. exfalso. assert (S := sum_two _ (fun x => kernel n v (upd a v x)) (dom_of (doms n) v) (a v) (pick n v f a)).
    cbn beta in S. rewrite (k_normal _ _ _ (kernel_cond n Hd) v a Hv (parents_within n v a Hd Wa)), K, (kernel_at n v a (a v)), X in S by auto.
    assert (L : 1 + 1 <= 1); [|apply L; reflexivity]. apply S; auto; [|apply P1; auto]. intros x Hx. apply (k_nonneg _ _ _ (kernel_cond n Hd) v _ Hv).
Qed.

(* in a structural causal model the exogenous variables determine all others *)
Theorem C68_exogenous : forall n a a', distribution n -> (forall v, endogenous n v -> determined n v) -> within n a -> within n a' -> joint n a <> 0 -> joint n a' <> 0 ->
  (forall v, In v (nodes (ngraph n)) -> ~ endogenous n v -> a v = a' v) -> forall v, In v (nodes (ngraph n)) -> a v = a' v.
Proof.
  intros n a a' Hd D Wa Wa' J J' E. apply (dag_parents_ind (ngraph n) (fun v => a v = a' v) (proj1 Hd)). intros v Hv IH.
  destruct (parents (ngraph n) v) as [|p ps] eqn:Ep; [apply E; auto; intros [_ K]; apply (proj1 (parents_none _ _) Ep); auto|].
  assert (En : endogenous n v). { split; auto. exists p. apply edge_parents. rewrite Ep. left; auto. }
  destruct (D v En) as (h & [L _] & K).
  assert (X : forall b, within n b -> joint n b <> 0 -> b v = h b).
  { intros b Wb Jb. destruct (Qc_eq_dec (b v) (h b)) as [|Ne]; auto. exfalso. apply Jb. apply (qprod_zero _ (fun v => kernel n v b) _ v Hv). rewrite (K b Wb). destruct (Qc_eq_dec (b v) (h b)); [contradiction|auto]. }
  rewrite (X a Wa J), (X a' Wa' J'). apply L. auto.
Qed.

(* the only exception is an AttributeError, for a variable that has parents and no table *)
Theorem C68_error : forall n e, is_structural_causal_model n = Err e ->
  e = AttributeError /\ exists v, endogenous n v /\ forall t, ~ has_table n v t.
Proof.
  intros n e. unfold is_structural_causal_model. assert (I : incl (nodes (ngraph n)) (nodes (ngraph n))) by (intros x Hx; auto). revert I. generalize (nodes (ngraph n)) at 1 3. intros l I H. induction l as [|v vs IH]; cbn [scm_loop] in H; [discriminate|].
  assert (Hv : In v (nodes (ngraph n))) by (apply I; left; auto). assert (IH' := IH ltac:(intros x Hx; apply I; right; auto)). destruct (parents (ngraph n) v) as [|p ps] eqn:Ep; [auto|].
  unfold get_cpds in H. rewrite (proj2 (mem_In v _) Hv) in H. cbn [bind] in H. destruct (cpd_of n v) as [t|] eqn:Ct.
  - destruct (forallb degenerate (concat (tcols t))); [auto|discriminate].
  - injection H as <-. split; auto. exists v. split; [split; auto; exists p; apply edge_parents; rewrite Ep; left; auto|]. intros t Ht. unfold cpd_of in Ct. apply find_tab_none in Ct. apply Ct. destruct Ht as [Ht <-]. apply in_map; auto.
Qed.

(* ---- the tolerance: a variable that is random, but nearly certain, is accepted ---- *)
Definition rare (x : outcome) : MCpd.value := if oeqb x 0 then VDist [(0, Some (1 - q 1 1000000000)); (1, Some (q 1 1000000000))] else VOut 1.
Definition copies (x : outcome) : MCpd.value := VOut x.
Definition ex_rare : net := made (mkG ["A"; "B"] [("A", "B")]) [("A", RDist coin); ("B", RFun (fn1 "A" rare))].
Definition ex_scm : net := made (mkG ["A"; "B"; "C"] [("A", "B"); ("B", "C")]) [("A", RDist coin); ("B", RFun (fn1 "A" copies)); ("C", RFun (fn1 "B" copies))].
Lemma ex_rare_ok : built ex_rare /\ distribution ex_rare.
Proof.
  split; [apply made_built|apply dist_check_ok]; [vm_compute; reflexivity| |vm_compute; reflexivity|vm_compute; reflexivity].
  rels_ok; [split; [exact I|exact coin_dict]|apply fn1_admissible]. intros x d. unfold rare. destruct (oeqb x 0); intro E; [injection E as <-; apply nodupo_ok; vm_compute; reflexivity|discriminate].
Qed.
Lemma ex_scm_ok : built ex_scm /\ distribution ex_scm.
Proof.
  split; [apply made_built|apply dist_check_ok]; [vm_compute; reflexivity| |vm_compute; reflexivity|vm_compute; reflexivity].
  rels_ok; [split; [exact I|exact coin_dict]|apply fn1_admissible|apply fn1_admissible]; intros x d E; discriminate.
Qed.
Lemma scm_of : forall n b, match is_structural_causal_model n with Ok c => Bool.eqb c b | Err _ => false end = true -> is_structural_causal_model n = Ok b.
Proof. intros n b H. destruct (is_structural_causal_model n); [f_equal; apply eqb_prop; auto|discriminate]. Qed.
Theorem C68_exact_refuted : exists n, built n /\ distribution n /\ is_structural_causal_model n = Ok true /\ exists v, endogenous n v /\ ~ determined n v.
Proof.
  exists ex_rare. split; [exact (proj1 ex_rare_ok)|]. split; [exact (proj2 ex_rare_ok)|]. split; [apply scm_of; vm_compute; reflexivity|].
  exists "B". split; [split; [vm_compute; auto|]; exists "A"; vm_compute; auto|]. intros (h & _ & K).
  assert (W : within ex_rare (fun v => if String.eqb v "B" then 1 else 0)).
  { intros v Hv. assert (X : forallb (fun v => omem ((fun v => if String.eqb v "B" then 1 else 0) v) (dom_of (doms ex_rare) v)) (nodes (ngraph ex_rare)) = true) by (vm_compute; reflexivity).
    rewrite forallb_forall in X. apply omem_In. apply X; auto. }
  specialize (K _ W). assert (Y : oeqb (kernel ex_rare "B" (fun v => if String.eqb v "B" then 1 else 0)) (q 1 1000000000) = true) by (vm_compute; reflexivity).
  apply oeqb_iff in Y. rewrite Y in K. clear Y W. apply oeqb_iff in K. match type of K with context [if ?c then _ else _] => revert K; generalize c end. intros [E|E] K; vm_compute in K; discriminate.
Qed.
Example C68_example : built ex_scm /\ distribution ex_scm /\ is_structural_causal_model ex_scm = Ok true /\ endogenous ex_scm "B" /\
  (forall v, endogenous ex_scm v -> Qc_of_nat (length (dom_of (doms ex_scm) v)) * Q2Qc (1 # 100000000) < 1) /\
  is_structural_causal_model ex_chain = Ok false /\ is_structural_causal_model (bare (mkG ["A"; "B"] [("A", "B")])) = Err AttributeError.
Proof.
  split; [exact (proj1 ex_scm_ok)|]. split; [exact (proj2 ex_scm_ok)|]. split; [apply scm_of; vm_compute; reflexivity|]. split; [split; [vm_compute; auto|]; exists "A"; vm_compute; auto|].
  split; [|split; [apply scm_of; vm_compute; reflexivity|vm_compute; reflexivity]]. intros v [Hv _].
  assert (X : forallb (fun v => Nat.eqb (length (dom_of (doms ex_scm) v)) 2) (nodes (ngraph ex_scm)) = true) by (vm_compute; reflexivity).
  rewrite forallb_forall in X. apply X in Hv. apply Nat.eqb_eq in Hv. rewrite Hv. vm_compute. reflexivity.
Qed.
(* the hypotheses of the exact theorem hold of it *)
Example C68_exact_example : forall v, endogenous ex_scm v -> determined ex_scm v.
Proof.
  assert (Hd := proj2 ex_scm_ok).
  assert (X : forallb (fun v => match cpd_of ex_scm v with Some t => String.eqb v "A" || forallb (fun q => oeqb q 0 || oeqb q 1) (concat (tcols t)) | None => false end) (nodes (ngraph ex_scm)) = true) by (vm_compute; reflexivity).
  assert (NA : ~ endogenous ex_scm "A"). { intros [_ (p & E)]. assert (Y : parents (ngraph ex_scm) "A" = []) by (vm_compute; reflexivity). apply (proj1 (parents_none _ _) Y). exists p. exact E. }
  assert (H : forall v a, endogenous ex_scm v -> within ex_scm a -> kernel ex_scm v a = 0 \/ kernel ex_scm v a = 1).
  { intros v a En Wa. rewrite forallb_forall in X. assert (Xv := X v (proj1 En)). destruct (dist_table ex_scm v Hd (proj1 En)) as (t & Ct & T). rewrite Ct in Xv.
    apply orb_true_iff in Xv. destruct Xv as [Xv|Xv]; [apply String.eqb_eq in Xv; subst; contradiction|].
    revert a Wa. apply (entries_all ex_scm v t (fun q => q = 0 \/ q = 1) Hd (proj1 En) Ct). rewrite forallb_forall in Xv. intros q Hq. apply Xv in Hq. apply orb_true_iff in Hq. rewrite !oeqb_iff in Hq. auto. }
  destruct (C68_exact_partial ex_scm Hd) as (b & E & Hb).
  - intros v a En Wa Z. destruct (H v a En Wa) as [K|K]; auto. rewrite K in Z. exfalso. vm_compute in Z. apply Z. reflexivity.
  - intros v a En Wa Z. destruct (H v a En Wa) as [K|K]; auto. rewrite K in Z. exfalso. vm_compute in Z. apply Z. reflexivity.
  - apply Hb. assert (E1 : is_structural_causal_model ex_scm = Ok true) by (apply scm_of; vm_compute; reflexivity). congruence.
Qed.
Print Assumptions C68_scm.
Print Assumptions C68_accepts.
Print Assumptions C68_nearly.
Print Assumptions C68_exact_partial.
Print Assumptions C68_exact_refuted.
Print Assumptions C68_exogenous.
Print Assumptions C68_error.
