(* Property C90: expected values are averages. *)
From Coq Require Import String List Bool Arith QArith Qcanon Lia Permutation.
Import ListNotations.
From Verif Require Import MBase MGraph MMacid MCpd MNet MProb MQuery MEffects Spec SpecM SpecC SpecN SpecQ LBase LGraph LQc LCpd LNet LSum LBayes LQuery LDo LBuilt LTotal LCheckN LEffects PQuery PEffects.
From Verif Require PDoor POptDec.
Local Open Scope string_scope.
Local Open Scope list_scope.
Local Open Scope Qc_scope.

(* all values of v are at least lo and at most hi *)
Definition ranges (n : net) (v : node) (lo hi : Qc) : Prop := forall x, In x (dom_of (doms n) v) -> lo <= x /\ x <= hi.

Lemma qc_scale_le : forall p a b : Qc, 0 <= p -> a <= b -> a * p <= b * p.
Proof. intros p a b P H. apply Qcmult_le_compat_r; auto. Qed.
Lemma inv_nonneg : forall p : Qc, 0 <= p -> 0 <= / p.
Proof.
  intros p P. unfold Qcle. assert (K : (this (/ p) == / this p)%Q) by (cbn [this Qcinv Q2Qc]; apply Qred_correct). rewrite K. change (this 0) with 0%Q. apply Qinv_le_0_compat. exact P.
Qed.
Lemma share_sum : forall n iv c v, distribution n -> In v (nodes (ngraph n)) -> do_prob n iv c <> 0 ->
  qsum (map (fun x => do_prob n iv ((v, x) :: c) / do_prob n iv c) (dom_of (doms n) v)) = 1.
Proof.
  intros n iv c v Hd Hv Nz. transitivity (/ do_prob n iv c * qsum (map (fun x => do_prob n iv ((v, x) :: c)) (dom_of (doms n) v))).
  - rewrite <- qsum_scale. apply qsum_ext. intros x _. unfold Qcdiv. ring.
  - rewrite PDoor.by_value by auto. rewrite Qcmult_comm. apply Qcmult_inv_r. exact Nz.
Qed.
Lemma share_nonneg : forall n iv c v x, distribution n -> NoDup (keys iv) -> incl (keys iv) (nodes (ngraph n)) -> in_domains n iv -> 0 <= do_prob n iv ((v, x) :: c) / do_prob n iv c.
Proof.
  intros n iv c v x Hd Ni Ii Di. unfold Qcdiv. rewrite <- (Qcmult_0_l (/ do_prob n iv c)). apply qc_scale_le; [apply inv_nonneg|]; apply POptDec.do_prob_nonneg; auto.
Qed.
Lemma expectation_between : forall n iv c v lo hi, distribution n -> NoDup (keys iv) -> incl (keys iv) (nodes (ngraph n)) -> in_domains n iv -> In v (nodes (ngraph n)) -> do_prob n iv c <> 0 ->
  ranges n v lo hi -> lo <= expectation n iv c v /\ expectation n iv c v <= hi.
Proof.
  intros n iv c v lo hi Hd Ni Ii Di Hv Nz R. assert (S := share_sum n iv c v Hd Hv Nz). set (s := fun x => do_prob n iv ((v, x) :: c) / do_prob n iv c) in S.
  change (expectation n iv c v) with (qsum (map (fun x => x * s x) (dom_of (doms n) v))).
  assert (P : forall x, 0 <= s x) by (intro x; apply share_nonneg; auto).
  assert (K : forall k : Qc, qsum (map (fun x => k * s x) (dom_of (doms n) v)) = k) by (intro k; rewrite qsum_scale, S; apply Qcmult_1_r).
  split.
  - rewrite <- (K lo) at 1. apply qsum_le. intros x Hx. apply qc_scale_le; [apply P|apply R; auto].
  - rewrite <- (K hi). apply qsum_le. intros x Hx. apply qc_scale_le; [apply P|apply R; auto].
Qed.
(* an expected value lies between the least and the greatest value *)
Theorem C90_between : forall o roles n qs c iv n' l lo hi, valid_order o -> built n -> distribution n -> NoDup (keys c) -> incl (keys c) (nodes (ngraph n)) ->
  NoDup (keys iv) -> in_domains n iv -> tables_sorted n iv -> do_prob n iv c <> 0 -> (forall v, In v qs -> ranges n v lo hi) ->
  expected_value o roles n qs c iv = (n', Ok l) -> forall e, In e l -> lo <= e /\ e <= hi.
Proof.
  intros o roles n qs c iv n' l lo hi O B Hd Nc Ic Ni Di Ts Nz R H e He.
  destruct (C41_expectations_partial o roles n qs c iv n' l O B Hd Nc Ic Ni Di Ts Nz H) as (vs & _ & I & ->).
  destruct (expected_value_inv _ _ _ _ _ _ _ _ H) as (f & Q & _). destruct (query_exact o roles n qs c iv n' f O B Hd Nc Ic Ni Di Ts Q) as (_ & Iq & Ii & _).
  apply in_map_iff in He. destruct He as (v & <- & Hv). apply I in Hv. apply expectation_between; auto.
Qed.
Print Assumptions C90_between.
(* and an expected utility between the sums of these *)
Theorem C90_utility : forall o m n c iv a us n' u lo hi, valid_order o -> built n -> distribution n -> NoDup (keys c) -> NoDup (keys iv) -> in_domains n iv -> tables_sorted n iv ->
  do_prob n iv c <> 0 -> lookup a (agent_utilities m) = Some us -> NoDup us -> (forall v, In v us -> ranges n v (lo v) (hi v)) ->
  expected_utility o m n c iv a = (n', Ok u) -> fold_right Qcplus 0 (map lo us) <= u /\ u <= fold_right Qcplus 0 (map hi us).
Proof.
  intros o m n c iv a us n' u lo hi O B Hd Nc Ni Di Ts Nz L Nu R H. assert (X := C41_expected_utility o m n c iv a us n' u O B Hd Nc Ni Di Ts Nz L Nu H).
  unfold expected_utility, dict_get in H. rewrite L in H. unfold macid_expected_value in H. destruct (macid_query o m n us c iv) as [n1 [f|e]] eqn:E; [|discriminate].
  destruct (macid_query_inv _ _ _ _ _ _ _ _ E) as (Ic & _ & _ & Q). destruct (query_exact o _ n us c iv n1 f O B Hd Nc Ic Ni Di Ts Q) as (_ & Iq & Ii & _).
  rewrite X. split; apply qsum_le; intros v Hv; apply (expectation_between n iv c v (lo v) (hi v)); auto.
Qed.
Print Assumptions C90_utility.
(* an effect is at most the width of the range *)
Theorem C90_effect : forall o m n a x a0 a1 n' r lo hi, valid_order o -> built n -> distribution n -> In a (nodes (ngraph n)) ->
  in_domains n [(a, a0); (a, a1)] -> tables_sorted n [(a, a1)] -> ranges n x lo hi -> total_effect o m n a x a0 a1 = (n', Ok r) -> lo - hi <= r /\ r <= hi - lo.
Proof.
  intros o m n a x a0 a1 n' r lo hi O B Hd Ha Di Ts R H. destruct (total_effect_inv _ _ _ _ _ _ _ _ _ H) as (e1 & e0 & -> & E1 & E0 & ->).
  assert (D1 : in_domains n [(a, a1)]) by (intros v y [X|[]]; injection X as <- <-; apply Di; right; left; auto).
  assert (D0 : in_domains n [(a, a0)]) by (intros v y [X|[]]; injection X as <- <-; apply Di; left; auto).
  assert (T0 : tables_sorted n [(a, a0)]) by (intros v u t Hv; apply (Ts v u t); exact Hv).
  destruct (effect_value o m n a x a1 e1 O B Hd Ha D1 Ts E1) as [-> Hx]. destruct (effect_value o m n a x a0 e0 O B Hd Ha D0 T0 E0) as [-> _].
  assert (Ii : forall y : outcome, incl (keys [(a, y)]) (nodes (ngraph n))) by (intros y u [<-|[]]; auto).
  assert (Nk : forall y : outcome, NoDup (keys [(a, y)])) by (intro y; repeat constructor; auto).
  assert (One : forall y : outcome, in_domains n [(a, y)] -> do_prob n [(a, y)] [] <> 0) by (intros y Dy; rewrite do_prob_nil by auto; discriminate).
  destruct (expectation_between n [(a, a1)] [] x lo hi Hd (Nk a1) (Ii a1) D1 Hx (One a1 D1) R) as [L1 U1].
  destruct (expectation_between n [(a, a0)] [] x lo hi Hd (Nk a0) (Ii a0) D0 Hx (One a0 D0) R) as [L0 U0].
  unfold Qcminus. split; apply Qcplus_le_compat; auto; apply Qcopp_le_compat; auto.
Qed.
Print Assumptions C90_effect.
(* effects add up along a sequence of values, whatever the values are *)
Theorem C90_additive : forall o m n a x a0 a1 a2 n1 n2 r1 r2, total_effect o m n a x a0 a1 = (n1, Ok r1) -> total_effect o m n a x a1 a2 = (n2, Ok r2) -> total_effect o m n a x a0 a2 = (n, Ok (r1 + r2)).
Proof.
  intros o m n a x a0 a1 a2 n1 n2 r1 r2 H1 H2. destruct (total_effect_inv _ _ _ _ _ _ _ _ _ H1) as (e1 & e0 & _ & E1 & E0 & ->). destruct (total_effect_inv _ _ _ _ _ _ _ _ _ H2) as (f2 & f1 & _ & F2 & F1 & ->).
  rewrite E1 in F1. injection F1 as <-. unfold total_effect. rewrite F2, E0. cbn [bind]. do 2 f_equal. ring.
Qed.
Print Assumptions C90_additive.
Theorem C90_no_change : forall o m n a x a0 n' r, total_effect o m n a x a0 a0 = (n', Ok r) -> r = 0.
Proof. intros o m n a x a0 n' r H. destruct (total_effect_inv _ _ _ _ _ _ _ _ _ H) as (e1 & e0 & _ & E1 & E0 & ->). rewrite E1 in E0. injection E0 as <-. ring. Qed.
Print Assumptions C90_no_change.
(* the expected value is the average of the expected values given the values of another variable *)
Theorem C90_average : forall o roles n v z c iv n' e E, valid_order o -> built n -> distribution n -> NoDup (keys c) -> incl (keys c) (nodes (ngraph n)) -> ~ In z (keys c) -> In z (nodes (ngraph n)) ->
  NoDup (keys iv) -> in_domains n iv -> tables_sorted n iv -> do_prob n iv c <> 0 ->
  expected_value o roles n [v] c iv = (n', Ok [e]) ->
  (forall q, In q (dom_of (doms n) z) -> do_prob n iv ((z, q) :: c) <> 0 -> exists n2, expected_value o roles n [v] ((z, q) :: c) iv = (n2, Ok [E q])) ->
  e = fold_right Qcplus 0 (map (fun q => do_prob n iv ((z, q) :: c) / do_prob n iv c * E q) (dom_of (doms n) z)).
Proof.
  intros o roles n v z c iv n' e E O B Hd Nc Ic Nz Iz Ni Di Ts P H HE.
  assert (X := C41_single o roles n v c iv n' [e] O B Hd Nc Ic Ni Di Ts P H). injection X as ->.
  destruct (expected_value_inv _ _ _ _ _ _ _ _ H) as (f & Q & _). destruct (query_exact o roles n [v] c iv n' f O B Hd Nc Ic Ni Di Ts Q) as (_ & Iq & Ii & _).
  assert (Iv : In v (nodes (ngraph n))) by (apply Iq; left; auto).
  assert (Nn : forall cc, 0 <= do_prob n iv cc) by (intro cc; apply POptDec.do_prob_nonneg; auto).
  assert (T : forall q, In q (dom_of (doms n) z) -> do_prob n iv ((z, q) :: c) / do_prob n iv c * E q = qsum (map (fun x => x * (do_prob n iv ((z, q) :: (v, x) :: c) / do_prob n iv c)) (dom_of (doms n) v))).
  { intros q Hq. destruct (Qc_eq_dec (do_prob n iv ((z, q) :: c)) 0) as [Z|N].
    - rewrite Z. transitivity (qsum (map (fun _ : outcome => 0) (dom_of (doms n) v))); [rewrite qsum_zero; unfold Qcdiv; ring|]. apply qsum_ext. intros x Hx.
      assert (K : do_prob n iv ((z, q) :: (v, x) :: c) = 0).
      { apply Qcle_antisym; [|apply Nn]. rewrite (do_prob_perm n iv _ ((v, x) :: (z, q) :: c)) by apply perm_swap. rewrite <- Z. apply LBest.do_prob_more; auto. }
      rewrite K. unfold Qcdiv. ring.
    - destruct (HE q Hq N) as (n2 & H2). assert (Nc2 : NoDup (keys ((z, q) :: c))) by (constructor; auto). assert (Ic2 : incl (keys ((z, q) :: c)) (nodes (ngraph n))) by (intros w [<-|Hw]; auto).
      assert (Y := C41_single o roles n v ((z, q) :: c) iv n2 [E q] O B Hd Nc2 Ic2 Ni Di Ts N H2). injection Y as ->.
      unfold expectation. change (fold_right Qcplus 0) with qsum. rewrite <- qsum_scale. apply qsum_ext. intros x Hx.
      rewrite (do_prob_perm n iv ((z, q) :: (v, x) :: c) ((v, x) :: (z, q) :: c)) by apply perm_swap. field. split; auto. }
  change (fold_right Qcplus 0) with qsum. rewrite (qsum_ext _ _ _ _ T). rewrite qsum_swap. unfold expectation. change (fold_right Qcplus 0) with qsum. apply qsum_ext. intros x Hx.
  rewrite qsum_scale. f_equal. transitivity (/ do_prob n iv c * qsum (map (fun q => do_prob n iv ((z, q) :: (v, x) :: c)) (dom_of (doms n) z))).
  - rewrite PDoor.by_value by auto. unfold Qcdiv. ring.
  - rewrite <- qsum_scale. apply qsum_ext. intros q _. apply Qcmult_comm.
Qed.
Print Assumptions C90_average.
(* the hypotheses, for the chain A -> B -> C: C has values 0 and 1, and its expected value is the average over the values of A, that all are possible *)
Lemma possible_values : forall n z c, forallb (fun q => negb (oeqb (do_prob n [] ((z, q) :: c)) 0)) (dom_of (doms n) z) = true -> forall q, In q (dom_of (doms n) z) -> do_prob n [] ((z, q) :: c) <> 0.
Proof. intros n z c H q Hq K. rewrite forallb_forall in H. specialize (H q Hq). cbn beta in H. rewrite K in H. discriminate H. Qed.
Lemma range_check : forall n v lo hi, forallb (fun x => qleb lo x && qleb x hi) (dom_of (doms n) v) = true -> ranges n v lo hi.
Proof. intros n v lo hi H x Hx. rewrite forallb_forall in H. specialize (H x Hx). cbn beta in H. apply andb_true_iff in H. destruct H as [H1 H2]. split; apply qleb_iff; auto. Qed.
Example C90_example : built ex_chain /\ distribution ex_chain /\ ranges ex_chain "C" 0 1 /\ (forall q, In q (dom_of (doms ex_chain) "A") -> do_prob ex_chain [] [("A", q)] <> 0) /\
  (exists n' e, expected_value (fun _ l => l) (Ok tt) ex_chain ["C"] [] [] = (n', Ok [e]) /\ 0 < e /\ e < 1).
Proof.
  split; [exact (proj1 ex_chain_built)|]. split; [exact (proj2 ex_chain_built)|]. split; [apply range_check; vm_compute; reflexivity|]. split; [apply possible_values; vm_compute; reflexivity|].
  assert (X : match snd (expected_value (fun _ l => l) (Ok tt) ex_chain ["C"] [] []) with Ok [y] => negb (qleb y 0) && negb (qleb 1 y) | _ => false end = true) by (vm_compute; reflexivity).
  destruct (expected_value (fun _ l => l) (Ok tt) ex_chain ["C"] [] []) as [n' [[|y [|? ?]]|?]]; try discriminate X. exists n', y. split; [reflexivity|]. cbn [snd] in X. apply andb_true_iff in X. destruct X as [X1 X2].
  apply negb_true_iff in X1, X2. split; apply qleb_false; auto.
Qed.

(* the same for expected utilities *)
Lemma expectation_average : forall n iv c v z, distribution n -> NoDup (keys iv) -> incl (keys iv) (nodes (ngraph n)) -> in_domains n iv -> In z (nodes (ngraph n)) -> do_prob n iv c <> 0 ->
  expectation n iv c v = qsum (map (fun q => do_prob n iv ((z, q) :: c) / do_prob n iv c * expectation n iv ((z, q) :: c) v) (dom_of (doms n) z)).
Proof.
  intros n iv c v z Hd Ni Ii Di Iz P. assert (Nn : forall cc, 0 <= do_prob n iv cc) by (intro cc; apply POptDec.do_prob_nonneg; auto).
  assert (T : forall q, In q (dom_of (doms n) z) -> do_prob n iv ((z, q) :: c) / do_prob n iv c * expectation n iv ((z, q) :: c) v = qsum (map (fun x => x * (do_prob n iv ((z, q) :: (v, x) :: c) / do_prob n iv c)) (dom_of (doms n) v))).
  { intros q Hq. unfold expectation. change (fold_right Qcplus 0) with qsum. rewrite <- qsum_scale. apply qsum_ext. intros x Hx.
    rewrite (do_prob_perm n iv ((z, q) :: (v, x) :: c) ((v, x) :: (z, q) :: c)) by apply perm_swap. destruct (Qc_eq_dec (do_prob n iv ((z, q) :: c)) 0) as [Z|N]; [|field; split; auto].
    assert (K : do_prob n iv ((v, x) :: (z, q) :: c) = 0) by (apply Qcle_antisym; [rewrite <- Z; apply LBest.do_prob_more; auto|apply Nn]). rewrite K, Z. unfold Qcdiv. ring. }
  rewrite (qsum_ext _ _ _ _ T). rewrite qsum_swap. unfold expectation. change (fold_right Qcplus 0) with qsum. apply qsum_ext. intros x Hx.
  rewrite qsum_scale. f_equal. transitivity (/ do_prob n iv c * qsum (map (fun q => do_prob n iv ((z, q) :: (v, x) :: c)) (dom_of (doms n) z))).
  - rewrite PDoor.by_value by auto. unfold Qcdiv. ring.
  - rewrite <- qsum_scale. apply qsum_ext. intros q _. apply Qcmult_comm.
Qed.
Theorem C90_utility_average : forall o m n z c iv a us n' u E, valid_order o -> built n -> distribution n -> NoDup (keys c) -> ~ In z (keys c) -> In z (nodes (ngraph n)) ->
  NoDup (keys iv) -> in_domains n iv -> tables_sorted n iv -> do_prob n iv c <> 0 -> lookup a (agent_utilities m) = Some us -> NoDup us ->
  expected_utility o m n c iv a = (n', Ok u) ->
  (forall q, In q (dom_of (doms n) z) -> do_prob n iv ((z, q) :: c) <> 0 -> exists n2, expected_utility o m n ((z, q) :: c) iv a = (n2, Ok (E q))) ->
  u = fold_right Qcplus 0 (map (fun q => do_prob n iv ((z, q) :: c) / do_prob n iv c * E q) (dom_of (doms n) z)).
Proof.
  intros o m n z c iv a us n' u E O B Hd Nc Nz Iz Ni Di Ts P L Nu H HE. assert (X := C41_expected_utility o m n c iv a us n' u O B Hd Nc Ni Di Ts P L Nu H). subst u.
  assert (Ii : incl (keys iv) (nodes (ngraph n))).
  { unfold expected_utility, dict_get in H. rewrite L in H. unfold macid_expected_value in H. destruct (macid_query o m n us c iv) as [n1 [f|e]] eqn:Q; [|discriminate].
    destruct (macid_query_inv _ _ _ _ _ _ _ _ Q) as (Ic & _ & _ & Q'). destruct (query_exact o _ n us c iv n1 f O B Hd Nc Ic Ni Di Ts Q') as (_ & _ & Ii & _). exact Ii. }
  change (fold_right Qcplus 0) with qsum.
  rewrite (qsum_ext _ (expectation n iv c) (fun v => qsum (map (fun q => do_prob n iv ((z, q) :: c) / do_prob n iv c * expectation n iv ((z, q) :: c) v) (dom_of (doms n) z))) us) by (intros v _; apply expectation_average; auto).
  rewrite qsum_swap. apply qsum_ext. intros q Hq. rewrite qsum_scale. destruct (Qc_eq_dec (do_prob n iv ((z, q) :: c)) 0) as [Z|N]; [rewrite Z; unfold Qcdiv; ring|].
  destruct (HE q Hq N) as (n2 & H2). assert (Nc2 : NoDup (keys ((z, q) :: c))) by (constructor; auto).
  rewrite (C41_expected_utility o m n ((z, q) :: c) iv a us n2 (E q) O B Hd Nc2 Ni Di Ts N L Nu H2). reflexivity.
Qed.
Print Assumptions C90_utility_average.
