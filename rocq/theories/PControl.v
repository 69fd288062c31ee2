(* C75: the graphical test for the value of control is complete for one decision. *)
From Coq Require Import String List Bool Arith QArith Qcanon Lia Permutation.
Import ListNotations.
From Verif Require Import MBase MGraph MPaths MMacid MIncent MCpd MNet MProb MQuery Spec SpecM SpecI SpecC SpecN SpecQ SpecPol SpecVoi SpecGen LBase LGraph LQc LQcArith LSum LBayes LQuery LValue LWire LTrek LGate LSwitch PComplete LControl LIncent LTrim PMacid PIncent PGen PSolve PVoc LVoc MVoi LCheck.
Local Open Scope string_scope.
Local Open Scope list_scope.
Local Open Scope Qc_scope.

Lemma le_eq : forall p q : Qc, p = q -> p <= q.
Proof. intros p q ->. apply Qcle_refl. Qed.
Lemma off_dec : forall g d x u, wf_dag g -> x <> d -> u <> d -> off g d x u \/ ~ off g d x u.
Proof.
  intros g d x u W Nx Nu. destruct (reach_dec (mute g d) (proj1 (mute_wf g d W)) x u) as [R|R].
  - left. induction R as [x|x y u E R IH]; [constructor; auto|]. apply mute_edge in E. destruct E as [E _]. destruct (string_dec y d) as [->|Ny].
    + exfalso. inversion R as [|? z ? E' _]; subst; [congruence|]. apply mute_edge in E'. tauto.
    + eapply off_step; eauto.
  - right. intro K. apply R. clear R Nu. induction K as [a Na|a b c Na E K IH]; [constructor|]. econstructor; [apply mute_edge; split; eauto|]. apply IH. intros ->. inversion K; congruence.
Qed.
Lemma off_or_through : forall g d x u, reach g x u -> u <> d -> off g d x u \/ reach g x d.
Proof.
  intros g d x u R Nu. induction R as [x|x y u E R IH]; [left; constructor; auto|]. destruct (IH Nu) as [K|K]; [|right; econstructor; eauto]. destruct (string_dec x d) as [->|Nx]; [right; constructor|]. left. eapply off_step; eauto.
Qed.
Lemma last_link : forall g x d, reach g x d -> x <> d -> exists y, edge g y d /\ reach g x y.
Proof.
  intros g x d R N. induction R as [x|x y d Exy Hr IH]; [congruence|]. destruct (string_dec y d) as [->|Hyd]; [exists x; split; auto; constructor|].
  destruct (IH Hyd) as (z & Z1 & Z2). exists z. split; auto. econstructor; eauto.
Qed.

(* ---- C75 ---- *)
(* wherever the test says yes there are conditional probabilities, entered with add_cpds, under which choosing x as well as d is worth at least 1/4 *)
Theorem C75_voc : forall k o m a d us x, valid_order o -> askable k m -> agent_decisions m = [(a, [d])] -> agent_utilities m = [(a, us)] ->
  In x (nodes (mgraph m)) -> admits_voc k o m x = Ok true ->
  exists l n b, (forall v r, In (v, r) l -> admissible v r) /\ add_cpds (bare (mgraph m)) l = (n, None) /\ built n /\ distribution n /\ ngraph n = mgraph m /\
    policy n [x; d] b /\ forall b', policy n [d] b' -> value n [d] b' us + Q2Qc (1 # 4) <= value n [x; d] b us.
Proof.
  intros k o m ag d us x O A Ea Eu Hx Av. assert (A0 := A). destruct A0 as (V & Pr & Sa & NC). destruct (solo m ag [d] us (proj1 (proj2 V)) Ea Eu) as (_ & Nus & Iu & Idd & Dj & _). assert (W : wf_dag (mgraph m)) by apply V.
  assert (Hr : has_role m d (RDecision ag)) by (apply Idd; left; auto). assert (Hd : In d (nodes (mgraph m))) by (apply (proj2 (proj2 V) ag d); left; auto). assert (Ius : incl us (nodes (mgraph m))) by (intros u K; apply (proj2 (proj2 V) ag u); right; apply Iu; auto).
  assert (Du : ~ In d us). { intro K. apply Iu in K. destruct (proj2 (proj2 (proj2 (proj2 (proj2 (proj1 (proj2 V)))))) d) as (rl & Rl & _). assert (E1 := proj1 (Rl _) K). assert (E2 := proj1 (Rl _) Hr). congruence. }
  assert (Rc := one_recalls m ag d Ea). destruct (ask k o m A Rc O) as (_ & _ & r & Er & Vr & Nr & Ir). destruct (C25_voc k o m x A Rc O Hx) as (r' & b0 & Er' & _ & Eb & Kb). rewrite Er in Er'. injection Er' as <-. rewrite Av in Eb. injection Eb as <-.
  destruct (proj1 Kb eq_refl) as (Ndx & u0 & (ag0 & Hu0) & Ru0). assert (Nxd : x <> d) by (intros ->; apply Ndx; exists ag; auto).
  assert (Ua : forall b v, has_role m v (RUtility b) -> b = ag /\ In v us). { intros b v (l & K & Hl). rewrite Eu in K. destruct K as [K|[]]. injection K as <- <-. auto. }
  destruct (Ua ag0 u0 Hu0) as [-> Iu0]. assert (Wr : wf_dag (mgraph r)) by apply Vr. destruct Ir as (_ & h & [Rd Ih] & Sm). destruct (reduces_wf m _ _ W Rd) as (Wh & Nh & Sb).
  assert (Sub : forall p q, edge (mgraph r) p q -> edge (mgraph m) p q) by (intros p q E; apply Sb, Sm; auto). assert (Iur : incl us (nodes (mgraph r))) by (rewrite Nr; auto).
  assert (Ct : controllable (mgraph r) d x us).
  { destruct (off_or_through (mgraph r) d x u0 Ru0) as [K|K]; [intros ->; contradiction|apply (control_direct _ d x u0); auto|].
    destruct (last_link _ x d K Nxd) as (y & Ey & Ry). assert (Rq : requisite_in m (mgraph r) d y). { eapply requisite_in_ext; [apply same_edges_sym; exact Sm|apply Wr|]. apply Ih; [exists ag; auto|]. apply Sm; auto. }
    destruct Rq as (b & u & _ & Hu & Dsc & Z & Hz & Cn). destruct (Ua b u Hu) as [-> Iu']. assert (Nu : u <> d) by (intros ->; contradiction). destruct (off_dec (mgraph r) d x u Wr Nxd Nu) as [Of|Of]; [apply (control_direct _ d x u); auto|].
    destruct (gate (mgraph r) d x y u Z Wr Hz Ey Ry Dsc Cn Of) as (c & Zc & G1 & G2 & G3 & G4 & G5). apply (control_gated (mgraph r) d x c u us Zc); auto. }
  destruct Ct as (D & K & K' & Vl & Cd & Cd' & Same & Hi & Lo). set (g := mgraph m) in *.
  assert (Vg : value_lists g D) by (intros v Hv; apply Vl; rewrite Nr; auto).
  assert (Up : forall J, conditionals (mgraph r) D J -> conditionals g D J). { intros J (J1 & J2 & J3). rewrite Nr in *. split; [|split]; auto. }
  assert (Cg := Up K Cd). assert (Cg' := Up K' Cd'). destruct (C73 g D K [d] W Vg Cg) as (l & n & Hl & El & Bn & Dn & Eg & Pm & Kn & Rn).
  assert (Val : forall ds b, (In d ds) -> value n ds b us = pays (mgraph r) us D (fun v a0 => if in_dec string_dec v ds then b v a0 else K v a0)).
  { intros ds b Hds. unfold pays. rewrite value_weight, Eg, Nr. fold g. rewrite (total_dom_perm _ D) by auto. apply total_ext_in. intros a Wa _. f_equal. unfold weight. apply qprod_ext. intros v Hv. unfold follow. destruct (in_dec String.string_dec v ds) as [K1|K1]; destruct (in_dec string_dec v ds) as [K2|K2]; auto; try contradiction.
    apply Kn; auto; [intros [<-|[]]; auto|]. intros w Hw. rewrite Eg in Hw. eapply Permutation_in; [apply Permutation_sym; apply Pm; auto|auto]. }
  exists l, n, K'. split; auto. split; auto. split; auto. split; auto. split; auto. split.
  - intros v Hv. assert (Hvn : In v (nodes g)) by (destruct Hv as [<-|[<-|[]]]; auto). apply (dom_ruled n g D v (fun p => edge (ngraph n) p v) K' Eg Hvn Pm); [intros p E; rewrite Eg in E; apply (proj1 W) in E; tauto|]. rewrite Eg. destruct Cg' as (J1 & J2 & J3). split; [|split]; auto.
  - intros b Pb. destruct (C66_requisite k o m n ag [d] us r O V Pr (eq_sym Eg) Ea Eu Dn Er b Pb) as (b' & Pb' & Lb & Sb'). specialize (Sb' d). 
    assert (Rb : rules (mgraph r) d D b').
    { assert (R := Pb' d (or_introl eq_refl)). apply (dom_ruled n g D d (fun p => edge (ngraph n) p d) b' Eg Hd Pm) in R; [|intros p E; rewrite Eg in E; apply (proj1 W) in E; tauto]. destruct R as (R1 & R2 & R3). split; [|split; auto].
      - intros a a' E H. apply Sb'; [left; auto|auto|auto].
      - intros a H. set (a' := fun p => if in_dec Qc_eq_dec (a p) (D p) then a p else hd 0 (D p)). rewrite <- (R3 a').
        + apply qsum_ext. intros y _. apply Sb'; [left; auto|rewrite !upd_same; auto|]. intros p Hp. assert (Np : p <> d) by (intros ->; apply (proj2 Wr d); exists d; split; [auto|constructor]). rewrite !upd_other by auto. unfold a'. destruct (in_dec Qc_eq_dec (a p) (D p)) as [|N]; auto. exfalso. apply N, H; auto.
        + intros p Hp. unfold a'. destruct (in_dec Qc_eq_dec (a p) (D p)); auto. rewrite Eg in Hp. destruct (Vg p) as [_ Ne]; [apply (proj1 W) in Hp; tauto|]. destruct (D p) as [|z q]; [congruence|left; auto]. }
    assert (L := Lo b' Rb). apply Qcle_trans with (Q2Qc (3 # 4) + Q2Qc (1 # 4)).
    + apply Qcplus_le_compat; [|apply Qcle_refl]. eapply Qcle_trans; [exact Lb|]. eapply Qcle_trans; [|exact L]. rewrite (Val [d] b' (or_introl eq_refl)). unfold pays. apply le_eq. apply total_ext. intro a. f_equal. unfold weight. apply qprod_ext. intros v _. unfold with_rule.
      destruct (String.string_dec v d) as [->|E]; destruct (in_dec string_dec _ [d]) as [N|N]; auto; exfalso; [apply N; left; auto|destruct N as [N|[]]; congruence].
    + replace (Q2Qc (3 # 4) + Q2Qc (1 # 4)) with 1 by (apply Qc_is_canon; reflexivity). eapply Qcle_trans; [exact Hi|]. rewrite (Val [x; d] K' (or_intror (or_introl eq_refl))). unfold pays. apply le_eq. apply total_ext. intro a. f_equal. unfold weight. apply qprod_ext. intros v _.
      destruct (in_dec string_dec v [x; d]) as [|N]; auto. apply Same; intros ->; apply N; [left; auto|right; left; auto].
Qed.
Print Assumptions C75_voc.

(* soundness and completeness: the test says yes exactly if for some parametrisation choosing x is worth something *)
Theorem C75_exact : forall k o m a d us x, valid_order o -> askable k m -> agent_decisions m = [(a, [d])] -> agent_utilities m = [(a, us)] -> In x (nodes (mgraph m)) ->
  (admits_voc k o m x = Ok true <->
   exists n b, distribution n /\ ngraph n = mgraph m /\ policy n [x; d] b /\ forall b', policy n [d] b' -> value n [d] b' us < value n [x; d] b us).
Proof.
  intros k o m ag d us x O A Ea Eu Hx. split.
  - intro Av. destruct (C75_voc k o m ag d us x O A Ea Eu Hx Av) as (l & n & b & _ & _ & _ & Dn & Eg & Pb & Ub). exists n, b. split; auto. split; auto. split; auto. intros b' Pb'. specialize (Ub b' Pb').
    apply Qclt_le_trans with (value n [d] b' us + Q2Qc (1 # 4)); auto. generalize (value n [d] b' us). intro q. apply Qclt_minus_iff. replace (q + Q2Qc (1 # 4) + - q) with (Q2Qc (1 # 4)) by ring. reflexivity.
  - intros (n & b & Dn & Eg & Pb & Ub). assert (V : valid m) by apply A. destruct (solo m ag [d] us (proj1 (proj2 V)) Ea Eu) as (_ & _ & Iu & Idd & _). assert (Rc := one_recalls m ag d Ea).
    destruct (C25_voc k o m x A Rc O Hx) as (r & b0 & Er & (Nr & h & [Rd _] & Sm) & Eb & Kb). destruct b0; auto. exfalso. destruct (string_dec x d) as [->|Nxd].
    + assert (Pd : policy n [d] b) by (intros e [<-|[]]; apply Pb; left; auto). specialize (Ub b Pd). replace (value n [d; d] b us) with (value n [d] b us) in Ub; [apply (Qclt_not_eq _ _ Ub); auto|].
      rewrite !value_weight. apply total_ext. intro a. f_equal. unfold weight. apply qprod_ext. intros u _. unfold follow. destruct (in_dec String.string_dec u [d]) as [K1|K1]; destruct (in_dec String.string_dec u [d; d]) as [K2|K2]; auto; exfalso; [apply K2; right; auto|apply K1; destruct K2 as [K2|K2]; [left; auto|auto]].
    + assert (Ids : incl [d] (nodes (ngraph n))) by (intros e [<-|[]]; rewrite Eg; apply (proj2 (proj2 V) ag d); left; apply Idd; left; auto). assert (Ius : incl us (nodes (ngraph n))) by (intros u K; rewrite Eg; apply (proj2 (proj2 V) ag u); right; apply Iu; auto).
      destruct (match_policy m ag n [d] us x h b) as (b' & Pb' & L); auto; [apply V|rewrite Eg; auto|rewrite Eg; auto| |intros [K|[]]; auto|apply (Qclt_not_le _ _ (Ub b' Pb')); exact L].
      intros u Ku Re. assert (false = true); [|discriminate]. apply Kb. split; [intros [c (l & K1 & K2)]; rewrite Ea in K1; destruct K1 as [K1|[]]; injection K1 as _ <-; destruct K2 as [K2|[]]; congruence|]. exists u. split; [exists ag; apply Iu; auto|].
      clear - Re Sm. induction Re; [constructor|]. econstructor; [apply Sm; eassumption|auto].
Qed.
Print Assumptions C75_exact.
(* the quantitative function then returns at least a quarter *)
Theorem C75_quantitative : forall o m d us x mx, valid_order o -> askable IsCID m -> agent_decisions m = [(zero, [d])] -> agent_utilities m = [(zero, us)] -> ~ In x us ->
  make_decision m x zero = (mx, None) -> sufficient_recall mx None = Ok true -> admits_voc IsCID o m x = Ok true ->
  exists l n, (forall v r, In (v, r) l -> admissible v r) /\ add_cpds (bare (mgraph m)) l = (n, None) /\ distribution n /\ ngraph n = mgraph m /\
    forall choose mn q, quantitative_voc o choose m n x = (mn, Ok q) -> Q2Qc (1 # 4) <= q.
Proof.
  intros o m d us x mx O A Ea Eu Nx Em Sx Av. assert (V : valid m) by apply A. destruct (made_decision m x [d] us mx (proj1 (proj2 V)) Ea Eu Nx Em) as (Hx & _).
  destruct (C75_voc IsCID o m zero d us x O A Ea Eu Hx Av) as (l & n & b & Hl & El & Bn & Dn & Eg & Pb & Ub). exists l, n. split; auto. split; auto. split; auto. split; auto. intros choose mn q H.
  destruct (ask IsCID o m A (one_recalls m zero d Ea) O) as (Sr & _). assert (NC : no_clash (ngraph n)) by (rewrite Eg; apply A).
  destruct (C62_voc o choose m n [d] us x mx mn q O V (eq_sym Eg) NC Ea Eu Bn Dn Nx Sr Em Sx H) as (v & w & [(b' & Pb' & <-) _] & [_ U] & ->).
  assert (K1 := U b Pb). assert (K2 := Ub b' Pb'). assert (K3 : value n [d] b' us + Q2Qc (1 # 4) <= w) by (eapply Qcle_trans; eauto).
  apply Qcle_minus_iff. apply Qcle_minus_iff in K3. replace (w - value n [d] b' us + - Q2Qc (1 # 4)) with (w + - (value n [d] b' us + Q2Qc (1 # 4))) by ring. exact K3.
Qed.
Print Assumptions C75_quantitative.
(* in ex25 the variable X is only an observation of the decision: controlling it is worth something because it can be made to tell more;
   in ex24 the descendant W of the decision has no value of control *)
Example C75_example : valid_order (fun _ l => l) /\ askable IsCID ex25 /\ agent_decisions ex25 = [(zero, ["D"])] /\ agent_utilities ex25 = [(zero, ["U"])] /\
  In "X" (nodes (mgraph ex25)) /\ ~ In "X" ["U"] /\ admits_voc IsCID (fun _ l => l) ex25 "X" = Ok true /\ admits_voc IsCID (fun _ l => l) ex24 "W" = Ok false /\
  exists mx, make_decision ex22 "X" zero = (mx, None) /\ sufficient_recall mx None = Ok true /\ admits_voc IsCID (fun _ l => l) ex22 "X" = Ok true.
Proof.
  split; [exact id_order_valid|]. split; [apply C25_example|]. split; [reflexivity|]. split; [reflexivity|]. split; [right; left; auto|]. split; [intros [K|[]]; discriminate|]. split; [vm_compute; reflexivity|]. split; [vm_compute; reflexivity|].
  eexists. split; [vm_compute; reflexivity|]. split; vm_compute; reflexivity.
Qed.
