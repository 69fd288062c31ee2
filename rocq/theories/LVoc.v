(* Lemmas for the value of control: the diagram left by a query, and a variable turned into a decision. *)
From Coq Require Import String List Bool Arith QArith Qcanon Lia Permutation.
Import ListNotations.
From Verif Require Import MBase MGraph MMacid MCpd MNet MProb MQuery MPolicy MVoi Spec SpecM SpecC SpecN SpecQ SpecPol SpecVoi LBase LGraph LDfs LPaths LQc LCpd LNet LSum LBayes LSep LQuery LDo LInter LEdit LBuilt LTotal LRoles LReach LTrim LActive LMech LPolicy LValue LQcArith LSearch LLike LOptimal LOptDec LBest LSolve LIndep PMacid PPolicy POptDec PSolve LVoi.
Local Open Scope string_scope.
Local Open Scope list_scope.
Local Open Scope Qc_scope.

(* k is a union of connected components of g *)
Record piece (g k : graph) : Prop := {
  pi_nodes : incl (nodes k) (nodes g);
  pi_closed : forall u v, edge g u v -> (In u (nodes k) <-> In v (nodes k));
  pi_edges : forall u v, edge k u v <-> edge g u v /\ In u (nodes k) }.
Lemma variant_piece : forall n ds n', variant n ds n' -> piece (ngraph n) (ngraph n').
Proof. intros n ds n' V. constructor; apply V. Qed.
Section Piece.
Variables (g k : graph).
Hypothesis P : piece g k.
Lemma piece_reach : forall u v, reach k u v -> reach g u v.
Proof. intros u v H. induction H; [constructor|]. econstructor; [|eassumption]. apply (pi_edges _ _ P). auto. Qed.
Lemma piece_descends : forall u v, descends k u v -> descends g u v.
Proof. intros u v (w & E & R). exists w. split; [apply (pi_edges _ _ P); auto|apply piece_reach; auto]. Qed.
Lemma piece_edge : forall u v, In u (nodes k) \/ In v (nodes k) -> (edge g u v <-> edge k u v).
Proof. intros u v H. rewrite (pi_edges _ _ P). split; [|tauto]. intro E. split; auto. destruct H; auto. apply (pi_closed _ _ P u v); auto. Qed.
Lemma piece_clash : no_clash g -> no_clash k.
Proof. intros C v Hv. destruct (C v (pi_nodes _ _ P v Hv)) as [C1 C2]. split; auto. intro K. apply C1, (pi_nodes _ _ P); auto. Qed.
Lemma piece_pend : forall Z Z' v u, wf_graph k -> (forall x, In x Z <-> In x Z') -> In v (nodes k) -> pend_conn k Z v u -> pend_conn g Z' v u.
Proof.
  intros Z Z' v u W HZ Hv (Hu & q & (Hc & Hn & Hf) & Ha & Hh). split; [rewrite <- HZ; auto|].
  assert (I : incl q (nodes k)). { destruct (from_to_cons_inv _ _ _ Hf) as [r ->]. apply (chain_nodes k (adjacent k) r v); auto. }
  assert (Rc : forall b, (exists d, reach k b d /\ In d Z) -> exists d, reach g b d /\ In d Z') by (intros b (d & K1 & K2); exists d; split; [apply piece_reach|apply HZ]; auto).
  exists q. split; [split; [|auto]|split].
  - eapply chain_impl; [|exact Hc]. intros a b [X|X]; [left|right]; apply (pi_edges _ _ P) in X; tauto.
  - intros a b c T. destruct (triple_in _ _ _ _ T) as (Ta & Tb & Tc). destruct (Ha a b c T) as [A1 A2]. split.
    + intros [K1 K2]. apply Rc, A1. split; apply piece_edge; auto.
    + intros K K'. apply HZ in K'. apply A2; auto. intros [K1 K2]. apply K. split; apply piece_edge; auto.
  - destruct q as [|a [|b q]]; auto. destruct Hh as [H1 H2]. assert (Ib : In b (nodes k)) by (apply I; right; left; auto). split; intro K.
    + apply Rc, H1. apply piece_edge; auto.
    + rewrite <- HZ. apply H2. intro K'. apply K. apply piece_edge; auto.
Qed.
End Piece.
Lemma piece_relevant : forall m k d v, valid m -> wf_dag k -> no_clash (mgraph m) -> piece (mgraph m) k -> In d (nodes k) -> In v (nodes k) -> r_relevant (with_graph m k) d v -> r_relevant m d v.
Proof.
  intros m k d v V W NC P Hd Hv H. apply r_relevant_char in H; auto; [|eapply piece_clash; eauto]. destruct H as (a & u & L1 & L2 & D & C). cbn [with_graph mgraph] in *.
  apply r_relevant_char; auto; [apply V|apply (pi_nodes _ _ P); auto|apply (pi_nodes _ _ P); auto|]. exists a, u. split; auto. split; auto. split; [eapply piece_descends; eauto|]. eapply (piece_pend _ _ P); [apply W| | |exact C]; auto.
  intro x. rewrite !in_family. rewrite (piece_edge _ _ P) by auto. tauto.
Qed.
Lemma piece_recall : forall m k, valid m -> wf_dag k -> no_clash (mgraph m) -> piece (mgraph m) k -> role_nodes_present (with_graph m k) -> utilities_complete m -> decisions_complete m ->
  sufficient_recall m None = Ok true -> sufficient_recall (with_graph m k) None = Ok true.
Proof.
  intros m k V W NC P R UC DC S. destruct (C18_sufficient_recall_partial m V NC UC DC) as (_ & _ & b & Eb & Hb). rewrite S in Eb. injection Eb as <-.
  assert (V' : valid (with_graph m k)). { split; [exact W|]. split; [apply V|]. intros a v K. apply (R a v). exact K. }
  destruct (C18_sufficient_recall_partial (with_graph m k) V' (piece_clash _ _ P NC) UC DC) as (_ & _ & c & Ec & Hc). rewrite Ec. f_equal. apply Hc. intros a ds K (d & p & Hp). apply (proj1 Hb eq_refl a ds K). exists d, p.
  eapply chain_impl; [|exact Hp]. intros x y (N & Ix & Iy & Rxy). split; auto. split; auto. split; auto. apply (piece_relevant m k); auto; apply (R a); left; exists ds; split; auto.
Qed.
Lemma random_nodes : forall l n n', built n -> distribution n -> loop_net impute_random_decision n l = (n', None) -> incl l (nodes (ngraph n)).
Proof.
  induction l as [|d l IH]; intros n n' B Hd H; [intros d []|]. cbn [loop_net] in H. destruct (impute_random_decision n d) as [n1 [e|]] eqn:E; [discriminate|].
  assert (Hn := random_inv n d n1 Hd B E). destruct (random_set n d B Hd Hn) as (n1' & X & B1 & Hd1 & G1 & _). rewrite E in X. injection X as <-. intros v [<-|K]; auto. rewrite <- G1. apply (IH n1 n'); auto.
Qed.
(* one call of impute_optimal_policy and expected_utility *)
Lemma optimal_kinds : forall o m (S : node -> Prop) l n n', valid_order o -> valid m -> built n -> distribution n -> loop_net (fun n d => impute_optimal_decision o m n d) n l = (n', None) ->
  (forall d t, S d -> has_table n d t -> tkind t = KStoch) -> forall d t, S d -> has_table n' d t -> tkind t = KStoch.
Proof.
  intros o m S. induction l as [|e l IH]; intros n n' O V B Hd H K; cbn [loop_net] in H; [injection H as <-; auto|].
  destruct (impute_optimal_decision o m n e) as [n1 [x|]] eqn:E; [discriminate|]. destruct (optimal_rule o m n e n1 O V B Hd E) as (a & us & h & t0 & _ & _ & _ & B1 & Hd1 & Df & Ht & Kt & _).
  apply (IH n1 n'); auto. intros d t Sd Hdt. destruct (string_dec e d) as [<-|N]; [rewrite (proj1 (proj2 Hd1) e t t0); auto|]. apply (K d t Sd). apply Df; auto.
Qed.
Lemma solved : forall o choose m n ds us n' ev, valid_order o -> valid m -> mgraph m = ngraph n -> no_clash (ngraph n) ->
  agent_decisions m = [(zero, ds)] -> agent_utilities m = [(zero, us)] -> built n -> distribution n -> sufficient_recall m None = Ok true ->
  optimal_utility o choose m n = (n', Ok ev) ->
  best_value n ds us ev /\ exists n1, distribution n1 /\ differ_in (fun v => In v ds) n n1 /\ variant n1 [] n' /\ incl us (nodes (ngraph n')) /\ forall d t, In d ds -> has_table n1 d t -> tkind t = KStoch.
Proof.
  intros o choose m n ds us n' ev O V Eg NC Ea Eu B Hd Sr H. unfold optimal_utility in H. rewrite (with_graph_eq m (ngraph n) Eg) in H. destruct (impute_optimal_policy o choose m n) as [n1 [e|]] eqn:E; [discriminate|].
  destruct (C57_recall_optimal o choose m n zero ds us n1 O V Eg NC Ea Eu B Hd Sr E) as (B1 & Hd1 & Df & H1 & Ch & _ & Ev & Mx). destruct (solo m zero ds us (proj1 (proj2 V)) Ea Eu) as (Nds & Nus & Iu & Id & _).
  assert (Lu : lookup zero (agent_utilities m) = Some us) by (rewrite Eu; reflexivity). destruct (eu_query o m zero us n1 n' ev O B1 Hd1 Lu Nus H) as (Eq & V2 & Iu2 & _).
  assert (Kn : forall d t, In d ds -> has_table n1 d t -> tkind t = KStoch).
  { unfold impute_optimal_policy in E. destruct (impute_random_policy m n) as [n0 [e|]] eqn:E0; [discriminate|]. destruct (random_loop (decisions m) n n0 B Hd E0) as (B0 & Hd0 & Df0 & _ & Kd). rewrite (with_graph_eq m (ngraph n0)) in E by (rewrite Eg; symmetry; apply Df0). rewrite Sr in E.
    destruct (get_valid_order o m (Some (decisions m))) as [l|e] eqn:El; [|discriminate]. destruct (solo m zero ds us (proj1 (proj2 V)) Ea Eu) as (_ & _ & _ & _ & Dm & _). apply (optimal_kinds o m (fun d => In d ds) (rev l) n0 n1); auto. intros d t K. apply Kd, Dm; auto. }
  split; [|exists n1; auto 6]. subst ev. change (eu n1 us) with (fold_right Qcplus 0 (map (expectation n1 [] []) us)). rewrite Ev. split; auto. exists (pure H1). split; auto. apply pure_policy; auto.
  intros d K. rewrite <- Eg. apply (proj2 (proj2 V) zero d). left. apply Id. auto.
Qed.
Lemma variant_value : forall n n' ds b us, distribution n -> policy n ds b -> variant n [] n' -> incl us (nodes (ngraph n')) -> value n' ds b us = value n ds b us.
Proof.
  intros n n' ds b us Hd Po V Iu. assert (Hd' := v_dist _ _ _ V). rewrite (value_barren n ds b us (nodes (ngraph n'))); auto.
  - rewrite value_weight. rewrite (total_dom_perm (dom_of (doms n')) (dom_of (doms n))) by (intros v _; rewrite (variant_dom _ _ _ v V); auto). apply total_ext. intro a. f_equal. unfold weight. apply qprod_ext. intros v Hv. unfold follow. destruct (in_dec String.string_dec v ds); auto.
    unfold kernel. rewrite (v_tables _ _ _ V) by auto. destruct (cpd_of n v); auto. apply entry_doms_in; intros; apply (variant_dom _ _ _ _ V).
  - apply V.
  - apply Hd'.
  - intros u v E Hv. apply (v_closed _ _ _ V u v E). auto.
Qed.
Lemma policy_same : forall n n' ds ds' b, (forall d, In d ds <-> In d ds') -> (forall p d, In d ds -> (edge (ngraph n) p d <-> edge (ngraph n') p d)) -> (forall v, dom_of (doms n) v = dom_of (doms n') v) ->
  policy n ds b -> policy n' ds' b.
Proof.
  intros n n' ds ds' b Hds He Hv Po d K. apply Hds in K. destruct (Po d K) as (P1 & P2 & P3). split; [|split; [auto|]].
  - intros a a' E1 E2. apply P1; auto. intros p Kp. apply E2. apply (He p d K). auto.
  - intros a Ka. rewrite <- (Hv d). apply P3. intros p Kp. rewrite (Hv p). apply Ka. apply (He p d K). auto.
Qed.
Lemma best_unique : forall n ds us v w, best_value n ds us v -> best_value n ds us w -> v = w.
Proof. intros n ds us v w [(b & Pb & Eb) Mb] [(c & Pc & Ec) Mc]. apply Qcle_antisym; [rewrite <- Eb; auto|rewrite <- Ec; auto]. Qed.
(* an owner of decisions who gets one more *)
Lemma made_decision : forall m x ds us mx, consistent m -> agent_decisions m = [(zero, ds)] -> agent_utilities m = [(zero, us)] -> ~ In x us -> make_decision m x zero = (mx, None) ->
  In x (nodes (mgraph m)) /\ mgraph mx = mgraph m /\ consistent mx /\ agent_utilities mx = [(zero, us)] /\ exists ds', agent_decisions mx = [(zero, ds')] /\ forall d, In d ds' <-> d = x \/ In d ds.
Proof.
  intros m x ds us mx C Ea Eu Nx H. assert (Gm := proj2 (good_consistent m) C). assert (S := apply_call_spec m (MakeDecision x zero) Gm). cbn [call_node apply_call] in S. destruct (mem x (nodes (mgraph m))) eqn:Mx; [|rewrite S in H; discriminate].
  apply mem_In in Mx. destruct S as (m' & E' & G' & Eg & _). rewrite H in E'. injection E' as <-. split; auto. split; auto. split; [apply good_consistent; auto|].
  destruct (solo m zero ds us C Ea Eu) as (Nds & Nus & Iu & Id & Dm & _). unfold make_decision, make_chance in H. apply mem_In in Mx. rewrite Mx in H. cbn [negb] in H. destruct (mem x (decisions m)) eqn:Dx.
  - apply mem_In, Dm in Dx. destruct (lookup x (decision_agent m)) as [a|] eqn:La; [|discriminate]. apply (good_listed_decision m a x Gm) in La. destruct La as (l & K & Kl). rewrite Ea in K. destruct K as [K|[]]. injection K as <- <-.
    unfold dict_list_remove in H. cbn [agent_decisions] in H. rewrite Ea in H. cbn [lookup] in H. rewrite String.eqb_refl in H. assert (Mx2 : mem x ds = true) by (apply mem_In; auto). rewrite Mx2 in H. cbn [agent_decisions agent_utilities mgraph decision_agent utility_agent] in H. injection H as <-. cbn [agent_decisions agent_utilities]. split; auto.
    unfold dict_list_append. cbn [dset lookup]. rewrite !String.eqb_refl. cbn [lookup]. rewrite ?String.eqb_refl. cbn [dset]. rewrite ?String.eqb_refl. eexists. split; [reflexivity|]. intro d. rewrite in_app_iff. cbn [In]. 
    rewrite (remove_first_NoDup_in x d ds Nds). split; [intros [[K _]|[K|[]]]; auto|]. intros [->|K]; [auto|]. destruct (string_dec d x) as [->|N]; auto.
  - destruct (mem x (utilities m)) eqn:Ux.
    + exfalso. apply Nx. apply mem_In in Ux. unfold utilities in Ux. apply in_keys_lookup in Ux. destruct Ux as [a La]. apply (good_listed_utility m a x Gm) in La. destruct La as (l & K & Kl). rewrite Eu in K. destruct K as [K|[]]. injection K as <- <-. auto.
    + injection H as <-. cbn [agent_decisions agent_utilities]. split; auto. rewrite Ea. unfold dict_list_append. cbn [lookup]. rewrite String.eqb_refl. cbn [dset]. rewrite String.eqb_refl. eexists. split; [reflexivity|]. intro d. rewrite in_app_iff. cbn [In]. intuition.
Qed.
