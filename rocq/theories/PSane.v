(* C71: relationships that make sense are accepted, in any order and number, and define a joint distribution once every variable has one. *)
From Coq Require Import String List Bool Arith QArith Qcanon Lia Permutation.
Import ListNotations.
From Verif Require Import PQuery PPolicy LCheckN LCheck PCpd PNet.
From Verif Require Import MBase MGraph MMacid MCpd MNet MProb MQuery Spec SpecM SpecC SpecN SpecQ SpecSane LBase LGraph LQc LCpd LNet LInter LBuilt LSane.
Local Open Scope string_scope.
Local Open Scope list_scope.
Local Open Scope Qc_scope.

(* Whatever is assigned, replaced or still missing on the way, no assignment raises, domains stay in their ranges,
   and when every variable has been given a relationship the tables are complete and exact. *)
Theorem C71_total : forall g range l, wf_dag g -> (forall v r, In (v, r) l -> admissible v r /\ sane g range v r) ->
  exists n, add_cpds (bare g) l = (n, None) /\ built n /\ (forall v d, has_domain n v d -> d <> [] /\ forall x, In x d -> range v x) /\
    ((forall v, In v (nodes g) -> In v (map fst l)) -> distribution n).
Proof.
  intros g range l W H. destruct (fine_run g range W l (bare g)) as (n & E & F & R); [apply fine_bare; auto|intros v r K; destruct (H v r K) as [[P _] S]; auto|].
  assert (B : built n) by (eapply built_run; [apply built_new; exact W| |exact E]; intros v r K; apply in_map_iff in K; destruct K as ([u s] & K1 & K2); cbn in K1; injection K1 as -> ->; apply H; auto).
  exists n. split; auto. split; auto. split; [intros v d K; apply (fi_dom _ _ _ F v d K)|]. intro All.
  destruct F as [FG FI FD FT FR FL]. assert (St := s_settled n (proj1 (built_sound n B))).
  assert (Rel : forall v, In v (nodes g) -> exists r, lookup v (rels n) = Some r).
  { intros v Hv. apply All in Hv. rewrite R. cbn [bare rels lookup]. clear - Hv. generalize (@None rel). induction l as [|[u s] l IH]; intro cur; [destruct Hv|]. cbn [map fst snd fold_left effect]. destruct (in_dec string_dec v (map fst l)) as [K|K]; [apply IH; auto|]. destruct Hv as [Hv|Hv]; [|contradiction]. cbn in Hv. subst u. rewrite String.eqb_refl. exists s. apply (adds_none l v); auto. }
  assert (Tab : forall v, In v (nodes g) -> exists t r, lookup v (rels n) = Some r /\ table_of g (doms n) v r = Ok t /\ cpd_of n v = Some t).
  { apply (dag_parents_ind g _ W). intros v Hv IH. destruct (Rel v Hv) as (r & Hr). assert (Sv := St v r Hr). unfold settled in Sv. rewrite FG in Sv.
    destruct (table_sane g range W (doms n) v r FD (proj2 (FL v r Hr))) as (t & T & _).
    - intros p Hp K. destruct (IH p Hp) as (t & _ & _ & _ & C). rewrite (inv_dom n FI p t C) in K. discriminate.
    - rewrite T in Sv. eauto. }
  assert (Ex : forall v t, has_table n v t -> exists r, exact_table t /\ tdom t <> [] /\ tev t = parents g v /\ tcards t = map (fun p => length (dom_of (doms n) p)) (parents g v) /\ lookup v (rels n) = Some r).
  { intros v t Ht. apply has_table_iff in Ht; auto. assert (Hv : In v (nodes g)) by (rewrite <- FG; apply (inv_rel n FI v t Ht)). destruct (Tab v Hv) as (t' & r & Hr & T & C). assert (t' = t) by congruence. subst t'.
    destruct (table_sane g range W (doms n) v r FD (proj2 (FL v r Hr))) as (t' & T' & X1 & X2 & X3 & X4 & X5).
    - intros p Hp K. destruct (Tab p) as (s & _ & _ & _ & C'); [eapply wf_edge_l; [apply W|eauto]|]. rewrite (inv_dom n FI p s C') in K. discriminate.
    - assert (t' = t) by congruence. subst t'. exists r. auto. }
  split; [rewrite FG; auto|]. split; [|split].
  - intros v t t' H1 H2. apply has_table_iff in H1, H2; auto. congruence.
  - intros v t Ht. destruct (Ex v t Ht) as (r & X & _). auto.
  - intros v Hv. rewrite FG in Hv. destruct (Tab v Hv) as (t & r & _ & _ & C). exists t. assert (Ht : has_table n v t) by (apply has_table_iff; auto). destruct (Ex v t Ht) as (r' & _ & _ & X1 & X2 & _). split; auto. split; [apply (inv_dom n FI v t C)|]. rewrite FG, X1, X2. split; [intro p; apply in_parents|auto].
Qed.
Print Assumptions C71_total.
(* every table is the one the relationship describes, for the domains the parents end up with *)
Theorem C71_tables : forall g range l n, wf_dag g -> (forall v r, In (v, r) l -> admissible v r /\ sane g range v r) -> NoDup (map fst l) -> (forall v, In v (nodes g) -> In v (map fst l)) ->
  add_cpds (bare g) l = (n, None) -> forall v r, In (v, r) l -> exists t, has_table n v t /\ has_domain n v (tdom t) /\
    match r with RFun f => tabulates g (doms n) v f [] t | RDist d => tabulates g (doms n) v (const_fn d) [] t | RDom l => tabulates g (doms n) v (const_fn []) l t | RTab _ => False end.
Proof.
  intros g range l n W H ND All E v r Hin. destruct (C71_total g range l W H) as (n' & E' & B & _ & D). rewrite E in E'. injection E' as <-. specialize (D All).
  destruct (fine_run g range W l (bare g)) as (n' & E' & F & R); [apply fine_bare; auto|intros u s K; destruct (H u s K) as [[P _] S]; auto|]. rewrite E in E'. injection E' as <-.
  assert (Hr : lookup v (rels n) = Some r) by (rewrite R; apply (adds_last l v r); auto). assert (Hv : In v (nodes g)) by (apply (H v r Hin)).
  assert (St := s_settled n (proj1 (built_sound n B)) v r Hr). unfold settled in St. rewrite (fi_graph _ _ _ F) in St.
  destruct D as (_ & _ & _ & Fi). rewrite <- (fi_graph _ _ _ F) in Hv. destruct (Fi v Hv) as (t & Ht & Dt & _). rewrite (fi_graph _ _ _ F) in Hv. exists t. split; auto. split; auto. apply has_table_iff in Ht; [|apply F].
  destruct (table_of g (doms n) v r) as [t'|e] eqn:T; [|destruct e; congruence || destruct St]. assert (t' = t) by congruence. subst t'. unfold table_of, table_from in T.
  destruct r as [f|d|lo|t']; [apply C32_sound in T; auto; tauto|apply C32_sound in T; auto; tauto|apply C32_sound in T; auto; tauto|]. destruct (H v (RTab t') Hin) as [_ [_ []]].
Qed.
Print Assumptions C71_tables.
(* any number of calls, in any order, with variables given again *)
Theorem C71_again : forall g range l v r n, wf_dag g -> (forall u s, In (u, s) l -> admissible u s /\ sane g range u s) -> admissible v r -> sane g range v r ->
  add_cpds (bare g) l = (n, None) -> exists n', set_rel n v r = (n', None) /\ lookup v (rels n') = Some r /\ forall u, u <> v -> lookup u (rels n') = lookup u (rels n).
Proof.
  intros g range l v r n W H A S E. destruct (fine_run g range W l (bare g)) as (n1 & E1 & F & _); [apply fine_bare; auto|intros u s K; destruct (H u s K) as [[P _] Sn]; auto|]. rewrite E in E1. injection E1 as <-.
  destruct (fine_set g range W (Datatypes.S (length (nodes (ngraph n)))) n v r F (proj1 A) S) as (n' & E' & _ & R); [rewrite (fi_graph _ _ _ F); assert (X := reach_set_le g v); lia|]. exists n'. split; auto. split; [rewrite R, String.eqb_refl; auto|]. intros u Hu. rewrite R. apply String.eqb_neq in Hu. rewrite Hu. auto.
Qed.
Print Assumptions C71_again.

(* ---- examples ---- *)
Definition bit (v : node) (x : outcome) : Prop := x = 0 \/ x = 1.
Definition ex_pair : graph := mkG ["A"; "B"] [("A", "B")].
Definition copy_of_a : fn := mkFn [("A", false)] false (fun pv => match lookup "A" pv with Some x => Ok (VDist [(x, Some (Q2Qc (3 # 4))); (1 - x, None)]) | None => Err TypeError end).
Lemma ex_pair_sane : sane ex_pair bit "A" (RDist [(0, Some (Q2Qc (1 # 3))); (1, None)]) /\ sane ex_pair bit "B" (RFun copy_of_a) /\ sane ex_pair bit "A" (RDom [0; 1]).
Proof.
  split; [|split].
  - split; [left; auto|]. split; [|intros x [<-|[<-|[]]]; unfold bit; auto]. split; [repeat constructor; cbn; intuition discriminate|]. split; [intros x p [K|[K|[]]]; [injection K as <- <-; cbv; discriminate|discriminate]|]. right. split; [cbv; discriminate|]. exists 1. right. left. auto.
  - split; [right; left; auto|]. intros pv K R. cbn in K. destruct pv as [|[a x] [|? ?]]; cbn in K; try discriminate. injection K as ->. specialize (R "A" x (or_introl eq_refl)). exists (VDist [(x, Some (Q2Qc (3 # 4))); (1 - x, None)]). split; [reflexivity|]. cbn [dist_of]. split.
    + split; [destruct R as [-> | ->]; repeat constructor; cbn; intuition discriminate|]. split; [intros y p [K|[K|[]]]; [injection K as <- <-; cbv; discriminate|discriminate]|]. right. split; [cbv; discriminate|]. exists (1 - x). right. left. auto.
    + intros y [<-|[<-|[]]]; unfold bit; cbn [fst]; auto. destruct R as [-> | ->]; [right|left]; apply Qc_is_canon; reflexivity.
  - split; [left; auto|]. split; [discriminate|]. split; [repeat constructor; cbn; intuition discriminate|]. intros x [<-|[<-|[]]]; unfold bit; auto.
Qed.
(* the child is given first, and the parent's relationship is replaced *)
Example C71_used : match add_cpds (bare ex_pair) [("B", RFun copy_of_a); ("A", RDom [0; 1]); ("A", RDist [(0, Some (Q2Qc (1 # 3))); (1, None)])] with
  | (n, None) => map (fun t => (tvar t, tcols t)) (cpds n) | _ => [] end = [("B", [[Q2Qc (3 # 4); Q2Qc (1 # 4)]; [Q2Qc (1 # 4); Q2Qc (3 # 4)]]); ("A", [[Q2Qc (1 # 3); Q2Qc (2 # 3)]])].
Proof. vm_compute. reflexivity. Qed.
(* after the removal of a parent's relationship a sensible one is refused *)
Theorem C71_after_removal_refuted : exists g range v r n n', wf_dag g /\ built n /\ admissible v r /\ sane g range v r /\
  (forall u s, lookup u (rels n) = Some s -> sane g range u s) /\ set_rel n v r = (n', Some AttributeError).
Proof.
  exists ex_pair, bit, "B", (RDist [(0, Some (Q2Qc (1 # 3))); (1, None)]), (fst (run (bare ex_pair) [OAdd "A" (RDom [0; 1]); ODel "A"])). eexists.
  split; [apply graph_ok_wf; vm_compute; reflexivity|]. split.
  { eapply (built_run [OAdd "A" (RDom [0; 1]); ODel "A"] (bare ex_pair)); [apply built_new, graph_ok_wf; vm_compute; reflexivity| |vm_compute; reflexivity]. intros v r [K|[K|[]]]; [|discriminate]. injection K as <- <-. split; exact I. }
  split; [split; [exact I|]; cbn; repeat constructor; cbn; intuition discriminate|]. split; [|split; [|vm_compute; reflexivity]].
  - destruct (proj1 ex_pair_sane) as [_ [S _]]. split; [right; left; auto|]. split; auto. intros x [<-|[<-|[]]]; unfold bit; auto.
  - intros u s K. vm_compute in K. discriminate.
Qed.
Print Assumptions C71_after_removal_refuted.
