(* Property C90, continued: bounds for policies, and for the values of information and control. *)
From Coq Require Import String List Bool Arith QArith Qcanon Lia Permutation.
Import ListNotations.
From Verif Require Import MIncent SpecI LIncent.
From Verif Require Import MBase MGraph MMacid MCpd MNet MProb MQuery MPolicy MVoi Spec SpecM SpecC SpecN SpecQ SpecPol SpecVoi LBase LGraph LQc LSum LQuery LDo LEffects LRoles LValue LBest LSolve LVoi LVoc PSolve PVoi PVoc PBounds.
Local Open Scope string_scope.
Local Open Scope list_scope.
Local Open Scope Qc_scope.

(* whatever the policy, the expected utility lies between the sums of the least and of the greatest values *)
Theorem C90_policy : forall n ds b us lo hi, distribution n -> incl ds (nodes (ngraph n)) -> incl us (nodes (ngraph n)) -> policy n ds b -> (forall u, In u us -> ranges n u (lo u) (hi u)) ->
  fold_right Qcplus 0 (map lo us) <= value n ds b us /\ value n ds b us <= fold_right Qcplus 0 (map hi us).
Proof.
  intros n ds b us lo hi Hd Ids Ius Po R. destruct (follow_net_ok n ds b Hd Ids Po) as (Hd' & Df & Hk).
  rewrite <- (follow_value n (follow_net n ds b) ds b us Hd Hd' Df (fun d a Kd _ Wa => Hk d a Kd Wa) Ius). unfold eu.
  assert (G : ngraph (follow_net n ds b) = ngraph n) by apply Df. assert (Ed := same_dom_of n _ (proj1 (proj2 Df))).
  assert (X : forall u, In u us -> lo u <= expectation (follow_net n ds b) [] [] u /\ expectation (follow_net n ds b) [] [] u <= hi u).
  { intros u Hu. apply expectation_between; [exact Hd'|constructor|intros v []|intros v y []|rewrite G; apply Ius; exact Hu| |intros x Hx; rewrite Ed in Hx; exact (R u Hu x Hx)].
    rewrite do_prob_nil; [discriminate|exact Hd'|constructor|intros v []|intros v y []]. }
  split; apply qsum_le; intros u Hu; apply X; exact Hu.
Qed.
Print Assumptions C90_policy.
Lemma gap : forall v w l h : Qc, l <= w -> v <= h -> v - w <= h - l.
Proof. intros v w l h Hw Hv. unfold Qcminus. apply Qcplus_le_compat; [exact Hv|]. apply Qcopp_le_compat. exact Hw. Qed.
(* no observation is worth more than the difference of the two *)
Theorem C90_voi : forall o choose m n d us x q lo hi, valid_order o -> valid m -> mgraph m = ngraph n -> no_clash (ngraph n) ->
  agent_decisions m = [(zero, [d])] -> agent_utilities m = [(zero, us)] -> built n -> distribution n -> plain_decision n d -> (forall u, In u us -> ranges n u (lo u) (hi u)) ->
  quantitative_voi o choose m n d x = Ok q -> q <= fold_right Qcplus 0 (map hi us) - fold_right Qcplus 0 (map lo us).
Proof.
  intros o choose m n d us x q lo hi O V Eg NC Ea Eu B Hd Pl R H. destruct (voi_core o choose m n d us x q O V Eg NC Ea Eu B Hd Pl H) as (v & w & [(b1 & R1 & <-) _] & [(b2 & R2 & <-) _] & -> & n1 & Hd1 & Lk & _ & _ & Val & Dm & Po).
  destruct (solo m zero [d] us (proj1 (proj2 V)) Ea Eu) as (_ & _ & Iu & Idd & _).
  assert (Hn : In d (nodes (ngraph n))) by (rewrite <- Eg; apply (proj2 (proj2 V) zero d); left; apply Idd; left; auto).
  assert (Ius : incl us (nodes (ngraph n))) by (intros u K; rewrite <- Eg; apply (proj2 (proj2 V) zero u); right; apply Iu; auto).
  assert (I1 : forall u, In u (nodes (ngraph n)) -> In u (nodes (ngraph n1))) by (intros u K; apply (proj1 (proj2 Lk)); exact K).
  assert (R' : forall u, In u us -> ranges n1 u (lo u) (hi u)) by (intros u Hu y Hy; rewrite Dm in Hy by (apply Ius; exact Hu); exact (R u Hu y Hy)).
  assert (Id1 : incl [d] (nodes (ngraph n1))) by (intros e [<-|[]]; apply I1; exact Hn). assert (Iu1 : incl us (nodes (ngraph n1))) by (intros u K; apply I1, Ius; exact K).
  assert (P1 : policy n1 [d] b1) by (apply Po; exact R1).
  assert (P2 : policy n1 [d] b2) by (apply Po; apply (seeing_more n d (fun p => edge (ngraph n) p d /\ p <> x)); [tauto|exact R2]).
  rewrite <- !Val. apply gap; [exact (proj1 (C90_policy n1 [d] b2 us lo hi Hd1 Id1 Iu1 P2 R'))|exact (proj2 (C90_policy n1 [d] b1 us lo hi Hd1 Id1 Iu1 P1 R'))].
Qed.
Print Assumptions C90_voi.
(* nor is control over a variable *)
Theorem C90_voc : forall o choose m n ds us x mx mn q lo hi, valid_order o -> valid m -> mgraph m = ngraph n -> no_clash (ngraph n) ->
  agent_decisions m = [(zero, ds)] -> agent_utilities m = [(zero, us)] -> built n -> distribution n -> ~ In x us ->
  sufficient_recall m None = Ok true -> make_decision m x zero = (mx, None) -> sufficient_recall mx None = Ok true -> (forall u, In u us -> ranges n u (lo u) (hi u)) ->
  quantitative_voc o choose m n x = (mn, Ok q) -> q <= fold_right Qcplus 0 (map hi us) - fold_right Qcplus 0 (map lo us).
Proof.
  intros o choose m n ds us x mx mn q lo hi O V Eg NC Ea Eu B Hd Nx Sr Em Srx R H.
  destruct (C62_voc o choose m n ds us x mx mn q O V Eg NC Ea Eu B Hd Nx Sr Em Srx H) as (v & w & [(b1 & P1 & <-) _] & [(b2 & P2 & <-) _] & ->).
  destruct (made_decision m x ds us mx (proj1 (proj2 V)) Ea Eu Nx Em) as (Hx & _). rewrite Eg in Hx. destruct (solo m zero ds us (proj1 (proj2 V)) Ea Eu) as (_ & _ & Iu & Idd & _).
  assert (Ids : incl ds (nodes (ngraph n))) by (intros e K; rewrite <- Eg; apply (proj2 (proj2 V) zero e); left; apply Idd; auto).
  assert (Ius : incl us (nodes (ngraph n))) by (intros u K; rewrite <- Eg; apply (proj2 (proj2 V) zero u); right; apply Iu; auto).
  assert (Ixs : incl (x :: ds) (nodes (ngraph n))) by (intros e [<-|K]; auto).
  apply gap; [exact (proj1 (C90_policy n ds b1 us lo hi Hd Ids Ius P1 R))|exact (proj2 (C90_policy n (x :: ds) b2 us lo hi Hd Ixs Ius P2 R))].
Qed.
Print Assumptions C90_voc.
(* the diagrams of C47_example and C62_example meet the hypotheses: a value of 1/2 for utilities between 0 and 1 *)
Example C90_values_example : ranges ex_blind_net "U" 0 1 /\ quantitative_voi (fun _ l => l) first_of ex_blind ex_blind_net "D" "X" = Ok (Q2Qc (1 # 2)) /\ (forall u, In u ["U"; "V"] -> ranges ex_ctrl_net u 0 1).
Proof.
  split; [apply range_check; vm_compute; reflexivity|]. split; [exact (proj1 (proj2 (proj2 (proj2 (proj2 (proj2 (proj2 (proj2 C47_example))))))))|].
  intros u [<-|[<-|[]]]; apply range_check; vm_compute; reflexivity.
Qed.
