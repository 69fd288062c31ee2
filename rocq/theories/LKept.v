(* Lemmas: the nodes that a subgame keeps hang together. *)
From Coq Require Import String List Bool Arith Permutation Lia.
Import ListNotations.
From Verif Require Import MBase MGraph MMacid MCpd MNet MProb MQuery Spec SpecM SpecQ LBase LGraph LDfs LPaths LActive LRoles LCopy LMech LReach.

Lemma pend_tail : forall g Z v y q, adjacent g v y -> pend_active g Z (v :: y :: q) -> pend_active g Z (y :: q).
Proof.
  intros g Z v y q Ad [A [P1 P2]]. split; [apply (active_app_r g Z [v]); auto|]. destruct q as [|c q]; [exact I|].
  destruct (A v y c) as [O1 O2]; [exists [], q; auto|]. split.
  - intro E. destruct Ad as [K|K]; [apply O1; split; auto|]. destruct (P1 K) as (z & R & Hz). exists z. split; auto. econstructor; eauto.
  - intros N. apply O2. intros [_ K]. auto.
Qed.
Lemma tail_path : forall g v y q u, simple_path g v u (v :: y :: q) -> adjacent g v y /\ simple_path g y u (y :: q).
Proof.
  intros g v y q u (C & N & _ & T). inversion C; subst. inversion N; subst. split; auto. split; auto. split; auto. split; auto.
  cbn [rev] in *. rewrite <- T. destruct (rev q ++ [y]) eqn:E; [destruct (rev q); discriminate|]. auto.
Qed.
Lemma pend_joined : forall g g' Z u, ~ In u Z -> (forall x y, edge g x y -> pend_conn g Z y u -> edge g' x y) -> forall v, pend_conn g Z v u -> joined g' [] v u.
Proof.
  intros g g' Z u Nu E v (_ & q & P & A). revert v P A. induction q as [|v0 q IH]; intros v P A; [destruct P as (C & _); inversion C|].
  assert (Ev : v0 = v) by (destruct P as (_ & _ & H & _); cbn in H; congruence). subst v0. destruct q as [|y q].
  - destruct P as (_ & _ & _ & T). cbn in T. injection T as ->. constructor.
  - assert (Cv : pend_conn g Z v u) by (split; eauto). destruct (tail_path _ _ _ _ _ P) as [Ad P']. assert (A' := pend_tail _ _ _ _ _ Ad A). assert (Cy : pend_conn g Z y u) by (split; eauto).
    apply joined_step with y; [|apply IH; auto]. destruct Ad as [K|K]; [left|right]; split; auto.
Qed.
(* what lies between a decision and a utility of its owner is relevant *)
Lemma between_relevant : forall m a d u y, valid m -> no_clash (mgraph m) -> listed (agent_decisions m) a d -> listed (agent_utilities m) a u ->
  descends (mgraph m) y d -> reach (mgraph m) y u -> r_relevant m d y.
Proof.
  intros m a d u y V NC Ld Lu De R. assert (W : wf_dag (mgraph m)) by apply V. assert (Hd : In d (nodes (mgraph m))) by (apply (proj2 (proj2 V) a d); auto).
  assert (Hy : In y (nodes (mgraph m))) by (eapply wf_reach; [apply W|apply descends_reach; eauto|auto]).
  apply r_relevant_char; auto. exists a, u. split; auto. split; auto. split.
  - destruct De as (w & E & K). exists w. split; auto. eapply reach_trans; eauto.
  - apply directed_pend; auto; [apply W|]. intros x Rx Hx. apply in_family in Hx. apply (proj2 W d). destruct De as (w & E & K). exists w. split; auto. eapply reach_trans; [exact K|]. eapply reach_trans; [exact Rx|].
    destruct Hx as [->|Hx]; [constructor|]. econstructor; [exact Hx|constructor].
Qed.
(* the nodes relevant for d are joined with it by edges into relevant nodes *)
Lemma relevant_joined : forall m g' d v, valid m -> no_clash (mgraph m) -> (forall x y, edge (mgraph m) x y -> r_relevant m d y -> edge g' x y) -> In v (nodes (mgraph m)) -> r_relevant m d v -> joined g' [] v d.
Proof.
  intros m g' d v V NC E Hv R. assert (W : wf_dag (mgraph m)) by apply V.
  assert (Hd : In d (nodes (mgraph m))). { destruct R as (a & _ & _ & L & _). apply (proj2 (proj2 V) a d); auto. }
  apply r_relevant_char in R; auto. destruct R as (a & u & Ld & Lu & De & Pc).
  assert (J1 : joined g' [] v u). { apply (pend_joined (mgraph m) g' (family (mgraph m) d)); auto; [apply Pc|]. intros x y K K'. apply E; auto. apply r_relevant_char; auto; [apply W in K; tauto|]. exists a, u. auto. }
  assert (J2 : forall x, reach (mgraph m) x u -> reach (mgraph m) d x -> joined g' [] u x).
  { intros x Rx. induction Rx as [x|x y z K Rx IH]; intro R; [constructor|].
    assert (J : joined g' [] z y) by (apply IH; auto; eapply reach_snoc; eauto).
    assert (X : edge g' x y). { apply E; auto. apply (between_relevant m a d z); auto. destruct R as [|w' w0 w'' K' R]; [exists y; split; auto; constructor|exists w0; split; auto; eapply reach_snoc; eauto]. }
    clear - J X. induction J as [z|z w0 y K J IH]; [apply joined_step with x; [right; split; auto|constructor]|]. eapply joined_step; [exact K|]. apply IH; auto. }
  assert (J3 := J2 d (descends_reach _ _ _ De) (reach_refl _ _)). clear - J1 J3. induction J1 as [v|v y u K J IH]; auto. eapply joined_step; [exact K|auto].
Qed.
(* a parent of a node that is connected is connected, unless it is in Z *)
Lemma pend_suffix : forall g Z u q v x, pend_active g Z q -> simple_path g v u q -> In x q -> exists q', simple_path g x u q' /\ pend_active g Z q'.
Proof.
  intros g Z u. induction q as [|v0 q IH]; intros v x A P Hx; [destruct Hx|]. assert (Ev : v0 = v) by (destruct P as (_ & _ & H & _); cbn in H; congruence). subst v0.
  destruct Hx as [<-|Hx]; [eauto|]. destruct q as [|y q]; [destruct Hx|]. destruct (tail_path _ _ _ _ _ P) as [Ad P']. assert (A' := pend_tail _ _ _ _ _ Ad A). apply (IH y x); auto.
Qed.
Lemma pend_parent : forall g Z v w u, acyclic g -> edge g v w -> ~ In v Z -> pend_conn g Z w u -> pend_conn g Z v u.
Proof.
  intros g Z v w u Ac E Nv (Nu & q & P & A). split; auto. destruct (in_dec String.string_dec v q) as [K|K]; [eapply pend_suffix; eauto|].
  assert (Nwv : ~ edge g w v). { intro K'. apply (Ac v). exists w. split; auto. econstructor; [exact K'|constructor]. }
  exists (v :: q). destruct q as [|w0 q]; [destruct P as (C & _); inversion C|]. assert (Ew : w0 = w) by (destruct P as (_ & _ & H & _); cbn in H; congruence). subst w0. destruct P as (C & N & Hh & T). destruct A as [A1 A2]. split; [|split].
  - split; [constructor; [left; auto|auto]|]. split; [constructor; auto|]. split; [reflexivity|]. cbn [rev] in *. destruct (rev q ++ [w]) eqn:Eq; [destruct (rev q); discriminate|]. cbn in *. auto.
  - destruct q as [|c q]; [apply active_short; cbn; lia|]. intros x y z T3. apply triple_cons_inv in T3. destruct T3 as [T3|T3]; [apply A1; auto|]. destruct T3 as (-> & r & Er). injection Er as <- <- ->.
    destruct A2 as [B1 B2]. split; [intros [_ K']; apply B1; auto|]. intro Nc. apply B2. intro K'. apply Nc. split; auto.
  - split; [intro K'; contradiction|auto].
Qed.
(* a parent of something relevant for d is relevant or observed *)
Lemma parent_relevant : forall m d v w, valid m -> no_clash (mgraph m) -> edge (mgraph m) v w -> r_relevant m d w -> ~ r_relevant m d v -> v = d \/ edge (mgraph m) v d.
Proof.
  intros m d v w V NC E R N. assert (W : wf_dag (mgraph m)) by apply V. assert (Hd : In d (nodes (mgraph m))). { destruct R as (a & _ & _ & L & _). apply (proj2 (proj2 V) a d); auto. }
  assert (Hv : In v (nodes (mgraph m)) /\ In w (nodes (mgraph m))) by (apply W in E; auto). destruct (in_dec String.string_dec v (family (mgraph m) d)) as [K|K]; [apply in_family in K; auto|]. exfalso. apply N.
  apply r_relevant_char in R; try tauto. destruct R as (a & u & Ld & Lu & De & Pc). apply r_relevant_char; try tauto. exists a, u. split; auto. split; auto. split; auto. apply (pend_parent _ _ v w); auto. apply W.
Qed.
