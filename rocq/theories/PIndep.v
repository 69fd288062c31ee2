(* Property C58: what is d-separated from the question does not matter for the answer. *)
From Coq Require Import String List Bool Arith QArith Qcanon Lia Permutation.
Import ListNotations.
From Verif Require Import MBase MGraph MPaths MMacid MCpd MNet MProb MQuery Spec SpecM SpecC SpecN SpecQ LBase LGraph LDfs LQc LCpd LNet LSum LBayes LSep LQuery LDo LInter LFactor LEdit LBuilt LTotal LCheckN LCheck PMacid PQuery PCpd LRoles LReach LTrim LActive LMech LQcArith LBest LIndep.
From Verif Require PPaths POptDec LSearch.
Local Open Scope string_scope.
Local Open Scope list_scope.
Local Open Scope Qc_scope.

(* ---- C58 ---- *)
Lemma combine_map : forall (a : asg) (l : list node), combine l (map a l) = map (fun v => (v, a v)) l.
Proof. intros a l. induction l as [|v l IH]; cbn; [auto|f_equal; auto]. Qed.
(* the answer to a query is the same with and without the observation s = z, entry by entry, when is_dconnected says that
   s is separated from every queried variable by the other observations and the targets of the intervention *)
Theorem C58_screened_off : forall o1 o2 roles n qs c iv s z n1 f1 n2 f2, valid_order o1 -> valid_order o2 -> built n -> distribution n ->
  NoDup (s :: keys c) -> incl (s :: keys c) (nodes (ngraph n)) -> NoDup (keys iv) -> ~ In s (keys iv) -> in_domains n iv -> tables_sorted n iv ->
  (forall q, In q qs -> is_dconnected (ngraph n) s q (keys c ++ keys iv) = Ok false) -> do_prob n iv ((s, z) :: c) <> 0 ->
  query o1 roles n qs c iv = (n1, Ok f1) -> query o2 roles n qs ((s, z) :: c) iv = (n2, Ok f2) ->
  forall a p1, In (map a (fvars f1), p1) (fentries f1) ->
    exists p2, In (map a (fvars f2), p2) (fentries f2) /\ p2 = p1.
Proof.
  intros o1 o2 roles n qs c iv s z n1 f1 n2 f2 O1 O2 B Hd Nsc Isc Ni Si Di Ts Sep Nz Q1 Q2 a p1 Hp1.
  assert (Nc : NoDup (keys c)) by (inversion Nsc; auto). assert (Sc : ~ In s (keys c)) by (inversion Nsc; auto). assert (Ic : incl (keys c) (nodes (ngraph n))) by (intros v K; apply Isc; right; auto).
  assert (Hs : In s (nodes (ngraph n))) by (apply Isc; left; auto). assert (W : wf_dag (ngraph n)) by apply Hd.
  destruct (query_exact _ _ _ _ _ _ _ _ O1 B Hd Nc Ic Ni Di Ts Q1) as (Pf1 & Iq & Ii & Dq & _).
  destruct (C55_query_conditional _ _ _ _ _ _ _ _ O1 B Hd Nc Ic Ni Di Ts Q1) as (Nf1 & Vf1 & Ne1 & Fe1 & X1 & _).
  destruct (C55_query_conditional o2 roles n qs ((s, z) :: c) iv n2 f2 O2 B Hd Nsc Isc Ni Di Ts Q2) as (Nf2 & Vf2 & Ne2 & Fe2 & X2 & _).
  assert (Z1 : do_prob n iv c <> 0). { intro K. apply Nz. assert (L := do_prob_more n iv c (s, z) Hd Ni Ii Di). rewrite K in L. apply Qcle_antisym; auto. apply (POptDec.do_prob_nonneg n iv _ Hd Ni Ii Di). }
  assert (Id2 : in_domains n ((s, z) :: c)) by (unfold query in Q2; destruct (check_context (doms n) ((s, z) :: c)) as [[]|e] eqn:Ck; [|discriminate]; apply check_context_ok; auto).
  destruct (X1 Z1) as [S1 E1]. destruct (X2 Nz) as [S2 E2]. clear X1 X2.
  assert (F1 : forall v, In v qs -> In (a v) (dom_of (doms n) v)). { intros v K. apply Vf1 in K. assert (F := proj1 (Fe1 _) (ex_intro _ p1 Hp1)). clear - F K. induction (fvars f1) as [|w l IH]; [destruct K|]. cbn [map] in F. inversion F; subst. destruct K as [->|K]; auto. }
  assert (exists p2, In (map a (fvars f2), p2) (fentries f2)) as [p2 Hp2]. { apply Fe2. assert (G : forall v, In v (fvars f2) -> In (a v) (dom_of (doms n) v)) by (intros v K; apply F1, Vf2; auto). clear - G. induction (fvars f2) as [|w l IH]; constructor; [apply G; left; auto|apply IH; intros; apply G; right; auto]. }
  exists p2. split; auto. rewrite (E1 _ _ Hp1), (E2 _ _ Hp2). clear E1 E2.
  set (x := map (fun v => (v, a v)) (fvars f1)). assert (Px : Permutation (combine (fvars f2) (map a (fvars f2))) x). { rewrite combine_map. unfold x. apply Permutation_map. apply NoDup_Permutation; auto. intro v. rewrite Vf1, Vf2. tauto. }
  rewrite (combine_map a (fvars f1)). fold x. assert (Kx : keys x = fvars f1) by (unfold x, keys; rewrite map_map; cbn; apply map_id).
  rewrite (do_prob_perm n iv (combine (fvars f2) (map a (fvars f2)) ++ (s, z) :: c) ((s, z) :: x ++ c)).
  2:{ eapply Permutation_trans; [apply Permutation_app; [exact Px|apply Permutation_refl]|]. apply Permutation_sym, Permutation_middle. }
  assert (Hz : In z (dom_of (doms n) s)) by (destruct (Id2 s z) as (l & Hl & Hz); [left; auto|]; unfold dom_of; rewrite Hl; auto).
  assert (In_c : in_domains n c) by (intros v y K; apply Id2; right; auto).
  assert (I := do_indep n iv s z x c Hd Hs Si Sc). 
  assert (Q : do_prob n iv ((s, z) :: x ++ c) * do_prob n iv c = do_prob n iv ((s, z) :: c) * do_prob n iv (x ++ c)).
  { apply I; auto; try (rewrite Kx; auto).
    - intros q Hq Dc. apply Vf1 in Hq. assert (Sq := Sep q Hq). destruct (PPaths.C05_is_dconnected (ngraph n) s q (keys c ++ keys iv) W) as (b & Eb & Kb); auto; [apply incl_app; auto|]. rewrite Sq in Eb. injection Eb as <-. apply Kb in Dc. discriminate.
    - intros v Hv. apply Iq, Vf1; auto.
    - intros v Hv. apply Dq, Vf1. auto.
    - intros v y K. unfold x in K. apply in_map_iff in K. destruct K as (w & K & Hw). injection K as <- <-. apply Vf1 in Hw. assert (Hd' := Hd). destruct (LSearch.dist_lookup n w Hd (Iq w Hw)) as [L _]. exists (dom_of (doms n) w). split; [exact L|apply F1; auto]. }
  field_simplify_eq; [|split; auto]. rewrite Qcmult_comm, <- Q. ring.
Qed.
Print Assumptions C58_screened_off.

(* so are the expected values of one variable *)
Theorem C58_expected_value : forall o1 o2 roles n q c iv s z n1 l1 n2 l2, valid_order o1 -> valid_order o2 -> built n -> distribution n ->
  NoDup (s :: keys c) -> incl (s :: keys c) (nodes (ngraph n)) -> NoDup (keys iv) -> ~ In s (keys iv) -> in_domains n iv -> tables_sorted n iv ->
  is_dconnected (ngraph n) s q (keys c ++ keys iv) = Ok false -> do_prob n iv ((s, z) :: c) <> 0 ->
  expected_value o1 roles n [q] c iv = (n1, Ok l1) -> expected_value o2 roles n [q] ((s, z) :: c) iv = (n2, Ok l2) -> l1 = l2.
Proof.
  intros o1 o2 roles n q c iv s z n1 l1 n2 l2 O1 O2 B Hd Nsc Isc Ni Si Di Ts Sep Nz V1 V2.
  assert (Nc : NoDup (keys c)) by (inversion Nsc; auto). assert (Sc : ~ In s (keys c)) by (inversion Nsc; auto). assert (Ic : incl (keys c) (nodes (ngraph n))) by (intros v K; apply Isc; right; auto).
  assert (Hs : In s (nodes (ngraph n))) by (apply Isc; left; auto). assert (W : wf_dag (ngraph n)) by apply Hd.
  destruct (expected_value_inv _ _ _ _ _ _ _ _ V1) as (f1 & Q1 & _). destruct (expected_value_inv _ _ _ _ _ _ _ _ V2) as (f2 & Q2 & _).
  destruct (query_exact _ _ _ _ _ _ _ _ O1 B Hd Nc Ic Ni Di Ts Q1) as (_ & Iq & Ii & Dq & _).
  assert (Z1 : do_prob n iv c <> 0). { intro K. apply Nz. assert (L := do_prob_more n iv c (s, z) Hd Ni Ii Di). rewrite K in L. apply Qcle_antisym; auto. apply (POptDec.do_prob_nonneg n iv _ Hd Ni Ii Di). }
  assert (Id2 : in_domains n ((s, z) :: c)) by (unfold query in Q2; destruct (check_context (doms n) ((s, z) :: c)) as [[]|e] eqn:Ck; [|discriminate]; apply check_context_ok; auto).
  assert (Hz : In z (dom_of (doms n) s)) by (destruct (Id2 s z) as (l & Hl & Hz); [left; auto|]; unfold dom_of; rewrite Hl; auto).
  destruct (C41_expectations_partial o1 roles n [q] c iv n1 l1 O1 B Hd Nc Ic Ni Di Ts Z1 V1) as (vs1 & N1 & K1 & ->).
  destruct (C41_expectations_partial o2 roles n [q] ((s, z) :: c) iv n2 l2 O2 B Hd Nsc Isc Ni Di Ts Nz V2) as (vs2 & N2 & K2 & ->).
  assert (One : forall vs, NoDup vs -> (forall v : node, In v vs <-> In v [q]) -> vs = [q]). { clear. intros [|v [|w vs]] N K; [destruct (proj2 (K q)); left; auto|destruct (proj1 (K v)) as [->|[]]; [left|]; auto|]. exfalso. destruct (proj1 (K v)) as [Ev|[]]; [left; auto|]. destruct (proj1 (K w)) as [Ew|[]]; [right; left; auto|]. inversion N; subst. apply H1. left. congruence. }
  rewrite (One vs1 N1 K1), (One vs2 N2 K2). cbn [map]. f_equal. unfold expectation. change (fold_right Qcplus 0) with qsum. f_equal. apply map_ext_in. intros y Hy. f_equal.
  assert (Iqn : In q (nodes (ngraph n))) by (apply Iq; left; auto). destruct (LSearch.dist_lookup n q Hd Iqn) as [L _].
  assert (Q : do_prob n iv ((s, z) :: [(q, y)] ++ c) * do_prob n iv c = do_prob n iv ((s, z) :: c) * do_prob n iv ([(q, y)] ++ c)).
  { apply do_indep; auto.
    - intros q' [<-|[]] Dc. destruct (PPaths.C05_is_dconnected (ngraph n) s q (keys c ++ keys iv) W) as (b & Eb & Kb); auto; [apply incl_app; auto|]. rewrite Sep in Eb. injection Eb as <-. apply Kb in Dc. discriminate.
    - repeat constructor. intros [].
    - intros v x K. apply Id2. right; auto.
    - intros v x [K|[]]. injection K as <- <-. exists (dom_of (doms n) q). split; auto. }
  cbn [app] in Q. rewrite (do_prob_perm n iv ((q, y) :: (s, z) :: c) ((s, z) :: (q, y) :: c)) by apply perm_swap.
  field_simplify_eq; [|split; auto]. rewrite Qcmult_comm, <- Q. ring.
Qed.
Print Assumptions C58_expected_value.

(* in the chain A -> B -> C, observing B makes A irrelevant for C; without B it is not *)
Example C58_example : built ex_chain /\ distribution ex_chain /\ is_dconnected (ngraph ex_chain) "A" "C" ["B"] = Ok false /\ oeqb (do_prob ex_chain [] [("A", 1); ("B", 1)]) 0 = false /\
  (exists n1 l1, expected_value (fun _ l => l) (Ok tt) ex_chain ["C"] [("B", 1)] [] = (n1, Ok l1)) /\
  (exists n2 l2, expected_value (fun _ l => l) (Ok tt) ex_chain ["C"] [("A", 1); ("B", 1)] [] = (n2, Ok l2)) /\
  is_dconnected (ngraph ex_chain) "A" "C" [] = Ok true.
Proof.
  split; [exact (proj1 ex_chain_built)|]. split; [exact (proj2 ex_chain_built)|]. split; [vm_compute; reflexivity|]. split; [vm_compute; reflexivity|].
  assert (X : forall (r : net * result (list Qc)), (match snd r with Ok _ => true | _ => false end = true) -> exists n l, r = (n, Ok l)) by (intros [n [l|e]] K; [eauto|discriminate]).
  split; [apply X; vm_compute; reflexivity|]. split; [apply X; vm_compute; reflexivity|vm_compute; reflexivity].
Qed.
