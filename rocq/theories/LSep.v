(* d-separation is sound for products of conditional probabilities. *)
From Coq Require Import String List Bool Arith QArith Qcanon Lia Permutation Setoid.
Import ListNotations.
From Verif Require Import MBase MGraph MMacid MCpd MNet MProb Spec SpecM SpecC LBase LGraph LDfs LPaths LActive LMoral LMech LQc LCpd LSum LBayes.
Local Open Scope Qc_scope.

Section Colour.
  (* h extends g by parentless nodes *)
  Variables (g h : graph) (T Q Z : list node).
  Hypothesis Wg : wf_dag g.
  Hypothesis Wh : wf_dag h.
  Hypothesis Sub : forall u v, edge g u v -> edge h u v.
  Hypothesis Inn : incl (nodes g) (nodes h).
  Hypothesis HZ : incl Z (nodes g).
  Hypothesis HQ : incl Q (nodes g).
  Hypothesis QZ : forall q, In q Q -> ~ In q Z.
  Hypothesis HT : incl T (nodes h).
  Hypothesis TZ : forall t, In t T -> ~ In t Z.
  Hypothesis Sep : forall t q, In t T -> In q Q -> ~ dconn h Z t q.
  Let ball (t u : node) (d : direction) : Prop := clos (trail_step h Z (ancestors_of h Z)) (t, Up) (u, d).
  Definition ancs : list node := filter (fun v => mem v (ancestors_of g (Q ++ Z))) (nodes g).
  Lemma in_ancs : forall v, In v ancs <-> In v (nodes g) /\ exists d, reach g v d /\ In d (Q ++ Z).
  Proof.
    intro v. unfold ancs. rewrite filter_In. assert (I : incl (Q ++ Z) (nodes g)) by (apply incl_app; auto).
    rewrite (in_anc g (Q ++ Z) Wg I). tauto.
  Qed.
  Lemma ancs_closed : closed g ancs.
  Proof.
    intros u v E Hv. apply in_ancs in Hv. destruct Hv as (H1 & d & H2 & H3). apply in_ancs. split; [apply (proj2 (proj2 (proj1 Wg)) u v E)|].
    exists d. split; auto. econstructor; eauto.
  Qed.
  Lemma reach_up : forall u v, reach g u v -> reach h u v.
  Proof. intros u v H. induction H; [constructor|econstructor; eauto]. Qed.
  Lemma incl_h : incl Z (nodes h). Proof. intros z Hz. auto. Qed.
  Definition coloured : list node := filter (fun u => existsb (fun t => dconnected_b h t u Z) T) (nodes g).
  Lemma in_coloured : forall u, In u coloured <-> In u (nodes g) /\ exists t, In t T /\ dconn h Z t u.
  Proof.
    intro u. unfold coloured. rewrite filter_In, existsb_exists. split; intros [H1 (t & H2 & H3)]; (split; [auto|]); exists t; (split; [auto|]).
    - apply dconnected_b_iff; auto using incl_h. - apply dconnected_b_iff; auto using incl_h.
  Qed.
  Lemma ball_coloured : forall t u d, In t T -> In u (nodes g) -> ~ In u Z -> ball t u d -> In u coloured.
  Proof. intros t u d Ht Hu Hz B. apply in_coloured. split; auto. exists t. split; auto. eapply ball_dconn; eauto using incl_h. Qed.
  (* what arrives at an ancestor of Q and Z goes on to its parents *)
  Lemma bounce : forall t v p, In t T -> In v ancs -> ball t v Down -> edge g p v -> ball t p Up.
  Proof.
    intros t v p Ht Hv B E. apply in_ancs in Hv. destruct Hv as (H1 & d & H2 & H3).
    assert (R : exists a, reach h v a /\ In a Z).
    { destruct (anc_dec_Z h Z Wh incl_h v) as [|Hn]; auto. exfalso. apply in_app_or in H3. destruct H3 as [H3|H3].
      - destruct (ball_down h Z t Wh incl_h v d (reach_up _ _ H2) Hn Down B) as [d' B']. apply (Sep t d Ht H3). eapply ball_dconn; eauto using incl_h.
      - apply Hn. exists d. split; auto. apply reach_up; auto. }
    eapply clos_snoc; [exact B|]. apply (stepi h Z Wh incl_h). split; [apply Sub; auto|]. split; [discriminate|auto].
  Qed.
  Lemma fall : forall t u v d, ball t u d -> ~ In u Z -> edge h u v -> ball t v Down.
  Proof. intros t u v d B Hz E. eapply clos_snoc; [exact B|]. apply (stepi h Z Wh incl_h). split; auto. Qed.
  Lemma climb : forall t v p, ball t v Up -> ~ In v Z -> edge g p v -> ball t p Up.
  Proof. intros t v p B Hz E. eapply clos_snoc; [exact B|]. apply (stepi h Z Wh incl_h). split; [apply Sub; auto|]. split; [auto|discriminate]. Qed.
  Lemma colour_families : forall v u w, In v ancs -> fam g v u -> fam g v w -> ~ In u Z -> ~ In w Z -> In u coloured -> In w coloured.
  Proof.
    intros v u w Hv Fu Fw Zu Zw Cu. apply in_coloured in Cu. destruct Cu as (Hu & t & Ht & Du).
    destruct (dconn_ball h Z t u Wh incl_h Du) as [d B]. fold (ball t u d) in B.
    assert (Hw : In w (nodes g)). { destruct Fw as [->|Fw]; [apply in_ancs in Hv; tauto|apply (proj2 (proj2 (proj1 Wg)) w v Fw)]. }
    assert (X : exists d', ball t w d').
    { destruct Fu as [->|Fu], Fw as [->|Fw].
      - eauto.
      - destruct d; [exists Up; eapply climb; eauto|exists Up; eapply bounce; eauto].
      - exists Down. eapply fall; eauto.
      - exists Up. eapply bounce; eauto. eapply fall; eauto. }
    destruct X as [d' B']. eapply ball_coloured; eauto.
  Qed.
  Lemma query_uncoloured : forall q, In q Q -> ~ In q coloured.
  Proof. intros q Hq K. apply in_coloured in K. destruct K as (_ & t & Ht & Dt). apply (Sep t q Ht Hq Dt). Qed.
  Lemma colour_child : forall t s u, In t T -> edge h t s -> In s ancs -> fam g s u -> ~ In u Z -> In u coloured.
  Proof.
    intros t s u Ht E Hs Fu Zu. assert (B : ball t s Down) by (eapply fall; [constructor|auto|auto]).
    destruct Fu as [->|Fu].
    - eapply ball_coloured; eauto. apply in_ancs in Hs. tauto.
    - eapply ball_coloured; [eauto|apply (proj2 (proj2 (proj1 Wg)) u s Fu)|auto|]. eapply bounce; eauto.
  Qed.
  Lemma source_coloured : forall t, In t T -> In t (nodes g) -> In t coloured.
  Proof. intros t Ht Hg. eapply ball_coloured; [eauto|auto|auto|constructor]. Qed.
End Colour.

(* conditional probabilities whose mechanism variable is d-separated from the queried variables do not matter *)
Theorem mech_sep : forall g h D K K' S Q Z x c, wf_dag g -> no_clash g -> is_mech_graph g h -> (forall v, NoDup (D v)) -> cond g D K -> cond g D K' ->
  incl S (nodes g) -> incl Q (nodes g) -> incl Z (nodes g) -> (forall q, In q Q -> ~ In q Z) ->
  (forall v a, In v (nodes g) -> ~ In v S -> K v a = K' v a) ->
  (forall s q, In s S -> In q Q -> ~ dconn h Z (mec s) q) ->
  NoDup (keys (x ++ c)) -> (forall v, In v (keys x) <-> In v Q) -> (forall v, In v (keys c) <-> In v Z) ->
  (forall v y, In (v, y) (x ++ c) -> In y (D v)) ->
  P g D K (x ++ c) * P g D K' c = P g D K' (x ++ c) * P g D K c.
Proof.
  intros g h D K K' S Q Z x c W NC (Wh & Eh & Nh) DN CK CK' IS IQ IZ QZ Same Sep N Kx Kc Dx.
  set (T := map mec S).
  assert (Sub : forall u v, edge g u v -> edge h u v) by (intros; apply Eh; auto).
  assert (Inn : incl (nodes g) (nodes h)) by (intros z Hz; apply Nh; auto).
  assert (HT : incl T (nodes h)).
  { intros t Ht. apply in_map_iff in Ht. destruct Ht as (s & <- & Hs). apply Nh. right. eauto. }
  assert (TZ : forall t, In t T -> ~ In t Z).
  { intros t Ht Hz. apply in_map_iff in Ht. destruct Ht as (s & <- & Hs). exact (proj1 (NC s (IS s Hs)) (IZ _ Hz)). }
  assert (Sp : forall t q, In t T -> In q Q -> ~ dconn h Z t q).
  { intros t q Ht. apply in_map_iff in Ht. destruct Ht as (s & <- & Hs). apply Sep; auto. }
  apply (split_sep g D W DN K K' (ancs g Q Z) Z S (coloured g h T Z)); auto.
  - intros v Hv. apply in_ancs in Hv; auto. tauto.
  - apply NoDup_filter, W.
  - apply ancs_closed; auto.
  - intros v a Hv. apply Same. apply in_ancs in Hv; auto. tauto.
  - intros v u w. apply (colour_families g h T Q Z); auto.
  - intros v u Hv HS Fu Zu. apply (colour_child g h T Q Z W Wh Sub Inn IZ IQ QZ HT TZ Sp (mec v) v u); auto.
    + apply in_map; auto. + apply Eh. right. split; auto.
  - intros z Hz. apply in_ancs; auto. split; auto. exists z. split; [constructor|apply in_or_app; auto].
  - intros z Hz. apply Kx in Hz. apply in_ancs; auto. split; auto. exists z. split; [constructor|apply in_or_app; auto].
  - intros v Hv. apply Kx in Hv. apply (query_uncoloured g h T Q Z); auto.
Qed.
