(* d-separation is sound: separated variables are conditionally independent. *)
From Coq Require Import String List Bool Arith QArith Qcanon Lia Permutation Setoid.
Import ListNotations.
From Verif Require LTrim.
From Verif Require Import MBase MGraph MMacid MCpd MNet MProb Spec SpecM SpecC SpecN SpecQ LBase LGraph LDfs LPaths LActive LMoral LMech LQc LCpd LSum LBayes LSep LQuery LDo.
Local Open Scope Qc_scope.

Lemma given_mid : forall x y c a v, ~ In v (keys y) -> given (x ++ y ++ c) a v = given (x ++ c) a v.
Proof.
  induction x as [|[u z] x IH]; intros y c a v H; cbn [app]; [rewrite given_app; apply given_other; auto|].
  change (given ((u, z) :: x ++ y ++ c) a) with (upd (given (x ++ y ++ c) a) u z). change (given ((u, z) :: x ++ c) a) with (upd (given (x ++ c) a) u z). unfold upd. destruct (String.eqb v u); auto.
Qed.
(* values of both colours *)
Section Both.
  Variables (g : graph) (D : node -> list outcome) (K : node -> asg -> Qc) (A Z C : list node).
  Hypothesis W : wf_dag g.
  Hypothesis DN : forall v, NoDup (D v).
  Hypothesis CK : cond g D K.
  Hypothesis IA : incl A (nodes g).
  Hypothesis NA : NoDup A.
  Hypothesis ClA : closed g A.
  Hypothesis Col : forall v u w, In v A -> fam g v u -> fam g v w -> ~ In u Z -> ~ In w Z -> In u C -> In w C.
  Let Col0 : forall v u, In v A -> In v (@nil node) -> fam g v u -> ~ In u Z -> In u C := fun v u _ (H : In v []) => match H with end.
  Let G1 := F1 g A Z [] C K.
  Let G2 := F2 g A Z [] C K.
  Lemma both_P : forall x y c, NoDup (keys (x ++ y ++ c)) -> (forall v, In v (keys c) <-> In v Z) -> incl Z A -> incl (keys x) A -> incl (keys y) A ->
    (forall v, In v (keys x) -> In v C) -> (forall v, In v (keys y) -> ~ In v C) -> (forall v z, In (v, z) (x ++ y ++ c) -> In z (D v)) ->
    P g D K (x ++ y ++ c) = total D (filter (fun v => negb (mem v (keys x))) (A1 A Z C)) G1 (given (x ++ c) (fun _ => 0)) * total D (filter (fun v => negb (mem v (keys y))) (A2 A Z C)) G2 (given (y ++ c) (fun _ => 0)).
  Proof.
    intros x y c N Kc IZ Ix Iy Cx Cy Dx.
    assert (Kxc : forall v, In v (keys (x ++ y ++ c)) <-> In v (keys x) \/ In v (keys y) \/ In v Z).
    { intro v. unfold keys. rewrite !map_app, !in_app_iff. rewrite <- Kc. tauto. }
    assert (N' : NoDup (keys x ++ keys y ++ keys c)) by (unfold keys in *; rewrite !map_app in N; auto).
    assert (Dj1 : forall v, In v (keys x) -> ~ In v (keys y) /\ ~ In v Z).
    { intros v H1. rewrite <- Kc. clear - N' H1. induction (keys x) as [|z l IH]; [destruct H1|]. simpl in N'. inversion N'; subst. destruct H1 as [->|H1]; [|auto]. split; intro K1; apply H2; rewrite !in_app_iff; auto. }
    assert (Dj2 : forall v, In v (keys y) -> ~ In v Z).
    { intros v H1. rewrite <- Kc. assert (N2 : NoDup (keys y ++ keys c)) by (clear - N'; induction (keys x); auto; inversion N'; auto). clear - N2 H1. induction (keys y) as [|z l IH]; [destruct H1|]. simpl in N2. inversion N2; subst. destruct H1 as [->|H1]; [|auto]. intro K1; apply H2; rewrite !in_app_iff; auto. }
    rewrite (P_on g D W DN K A); auto; [|intros v Hv; apply Kxc in Hv; destruct Hv as [|[|]]; auto].
    set (B1 := filter (fun v => negb (mem v (keys x))) (A1 A Z C)). set (B2 := filter (fun v => negb (mem v (keys y))) (A2 A Z C)).
    transitivity (total D (B1 ++ B2) (fun b => G1 b * G2 b) (given (x ++ y ++ c) (fun _ => 0))).
    - rewrite (total_perm D _ (B1 ++ B2)).
      + apply total_ext. intro b. apply split_weight.
      + apply NoDup_Permutation.
        * apply NoDup_filter; auto.
        * apply NoDup_app'; try (unfold B1, B2, A1, A2; repeat apply NoDup_filter; auto).
          intros z H1 H2. unfold B1, A1 in H1. unfold B2, A2 in H2. rewrite !filter_In in *. rewrite !negb_true_iff in *. destruct H1 as [[_ H1] _]. destruct H2 as [[_ H2] _]. congruence.
        * intro z. rewrite in_app_iff. unfold B1, B2, A1, A2. rewrite !filter_In, !negb_true_iff, !mem_nIn, !mem_In. rewrite Kxc. specialize (Cx z). specialize (Cy z).
          destruct (in_dec String.string_dec z C); tauto.
      + apply weight_ext with (1 := CK); auto.
    - assert (O1 : on (fun v => In v Z \/ In v C) G1) by (apply (F1_on g D A Z [] C); auto). assert (O2 : on (fun v => In v Z \/ ~ In v C) G2) by (apply (F2_on g D A Z [] C); auto).
      rewrite total_split.
      + f_equal.
        * assert (X := total_on D B1 _ _ O1). apply X. intros v [[Hv|Hv] _]; apply given_mid; intro K1; [apply (Dj2 v); auto|apply (Cy v); auto].
        * assert (X := total_on D B2 _ _ O2). apply X. intros v [[Hv|Hv] _]; rewrite (given_app x (y ++ c)); apply given_other; intro K1; [apply (Dj1 v); auto|apply Hv, Cx; auto].
      + eapply on_mono; [|exact O1]. intros v Hv K1. cbv beta in Hv. unfold B2, A2 in K1. rewrite !filter_In, !negb_true_iff, !mem_nIn in K1. tauto.
      + eapply on_mono; [|exact O2]. intros v Hv K1. cbv beta in Hv. unfold B1, A1 in K1. rewrite !filter_In, !negb_true_iff, !mem_nIn, mem_In in K1. tauto.
  Qed.
  Theorem both_indep : forall x y c, NoDup (keys (x ++ y ++ c)) -> (forall v, In v (keys c) <-> In v Z) -> incl Z A -> incl (keys x) A -> incl (keys y) A ->
    (forall v, In v (keys x) -> In v C) -> (forall v, In v (keys y) -> ~ In v C) -> (forall v z, In (v, z) (x ++ y ++ c) -> In z (D v)) ->
    P g D K (x ++ y ++ c) * P g D K c = P g D K (x ++ c) * P g D K (y ++ c).
  Proof.
    intros x y c N Kc IZ Ix Iy Cx Cy Dx. assert (N' : NoDup (keys x ++ keys y ++ keys c)) by (unfold keys in *; rewrite !map_app in N; auto).
    assert (Nyc : NoDup (keys (y ++ c))) by (unfold keys in *; rewrite map_app; clear - N'; induction (map fst x); auto; inversion N'; auto).
    assert (Nc : NoDup (keys c)) by (unfold keys in *; rewrite map_app in Nyc; clear - Nyc; induction (map fst y); auto; inversion Nyc; auto).
    assert (Nxc : NoDup (keys (x ++ c))).
    { unfold keys in *. rewrite map_app. clear - N'. induction (map fst x) as [|z l IH]; simpl in *; [clear - N'; induction (map fst y); auto; inversion N'; auto|]. inversion N'; subst. constructor; auto. intro K1. apply H1. rewrite !in_app_iff in *. tauto. }
    assert (D1 : forall v z, In (v, z) (x ++ c) -> In z (D v)) by (intros v z H; apply Dx; rewrite !in_app_iff in *; tauto).
    assert (D2 : forall v z, In (v, z) (y ++ c) -> In z (D v)) by (intros v z H; apply Dx; rewrite !in_app_iff in *; tauto).
    assert (D3 : forall v z, In (v, z) c -> In z (D v)) by (intros v z H; apply Dx; rewrite !in_app_iff in *; tauto).
    assert (I0 : incl (@keys outcome []) A) by (intros v []).
    assert (E1 := both_P x y c N Kc IZ Ix Iy Cx Cy Dx). assert (E2 := both_P x [] c Nxc Kc IZ Ix I0 Cx (fun v (H : In v (@keys outcome [])) => match H with end) D1).
    assert (E3 := both_P [] y c Nyc Kc IZ I0 Iy (fun v (H : In v (@keys outcome [])) => match H with end) Cy D2). assert (E4 := both_P [] [] c Nc Kc IZ I0 I0 (fun v (H : In v (@keys outcome [])) => match H with end) (fun v (H : In v (@keys outcome [])) => match H with end) D3).
    cbn [app] in E2, E3, E4. rewrite E1, E2, E3, E4. ring.
  Qed.
End Both.

Section Separated.
  Variables (g : graph) (s : node) (Q Z : list node).
  Hypothesis W : wf_dag g.
  Hypothesis Hs : In s (nodes g).
  Hypothesis HQ : incl Q (nodes g).
  Hypothesis HZ : incl Z (nodes g).
  Hypothesis QZ : forall q, In q Q -> ~ In q Z.
  Hypothesis SZ : ~ In s Z.
  Hypothesis Sep : forall q, In q Q -> ~ dconn g Z s q.
  Let ball (u : node) (d : direction) : Prop := clos (trail_step g Z (ancestors_of g Z)) (s, Up) (u, d).
  Lemma fallen : forall u v d, ball u d -> ~ In u Z -> edge g u v -> ball v Down.
  Proof. intros u v d B Hz E. eapply clos_snoc; [exact B|]. apply (stepi g Z W HZ). split; auto. Qed.
  Lemma climbed : forall v p, ball v Up -> ~ In v Z -> edge g p v -> ball p Up.
  Proof. intros v p B Hz E. eapply clos_snoc; [exact B|]. apply (stepi g Z W HZ). split; auto. split; [auto|discriminate]. Qed.
  Lemma risen : forall v, reach g v s -> ~ (exists a, reach g v a /\ In a Z) -> ball v Up.
  Proof.
    assert (X : forall v e, reach g v e -> e = s -> ~ (exists a, reach g v a /\ In a Z) -> ball v Up).
    { intros v e R. induction R as [u|u w v E R IH]; intros Ee Hn; [subst; constructor|]. assert (Hw : ~ (exists a, reach g w a /\ In a Z)) by (intros (a & K1 & K2); apply Hn; exists a; split; auto; econstructor; eauto).
      apply (climbed w); auto. intro K. apply Hw. exists w. split; [constructor|auto]. }
    intros v R. apply (X v s); auto.
  Qed.
  Lemma bounced : forall v p, In v (ancs g (s :: Q) Z) -> ball v Down -> edge g p v -> ball p Up.
  Proof.
    intros v p Hv B E. assert (I : incl (s :: Q) (nodes g)) by (intros y [<-|Hy]; auto). apply in_ancs in Hv; auto. destruct Hv as (H1 & d & H2 & H3).
    destruct (anc_dec_Z g Z W HZ v) as [R|Hn].
    - eapply clos_snoc; [exact B|]. apply (stepi g Z W HZ). split; auto. split; [discriminate|auto].
    - apply in_app_or in H3. destruct H3 as [[<-|H3]|H3].
      + apply (climbed v); [apply risen; auto| |auto]. intro K. apply Hn. exists v. split; [constructor|auto].
      + exfalso. destruct (ball_down g Z s W HZ v d H2 Hn Down B) as [d' B']. apply (Sep d H3). eapply ball_dconn; eauto.
      + exfalso. apply Hn. exists d. auto.
  Qed.
  Lemma separated_families : forall v u w, In v (ancs g (s :: Q) Z) -> fam g v u -> fam g v w -> ~ In u Z -> ~ In w Z -> In u (coloured g g [s] Z) -> In w (coloured g g [s] Z).
  Proof.
    assert (I : incl (s :: Q) (nodes g)) by (intros y [<-|Hy]; auto). assert (IT : incl [s] (nodes g)) by (intros y [<-|[]]; auto). assert (TZ : forall t, In t [s] -> ~ In t Z) by (intros y [<-|[]]; auto).
    intros v u w Hv Fu Fw Zu Zw Cu. apply in_coloured in Cu; auto; [|apply incl_refl]. destruct Cu as (Hu & t & [<-|[]] & Du).
    destruct (dconn_ball g Z s u W HZ Du) as [d B]. fold (ball u d) in B.
    assert (Hw : In w (nodes g)). { destruct Fw as [->|Fw]; [apply in_ancs in Hv; auto; tauto|apply (proj2 (proj2 (proj1 W)) w v Fw)]. }
    assert (X : exists d', ball w d').
    { destruct Fu as [->|Fu], Fw as [->|Fw].
      - eauto.
      - destruct d; [exists Up; eapply climbed; eauto|exists Up; eapply bounced; eauto].
      - exists Down. eapply fallen; eauto.
      - exists Up. eapply bounced; eauto. eapply fallen; eauto. }
    destruct X as [d' B']. apply in_coloured; auto; [apply incl_refl|]. split; auto. exists s. split; [left; auto|]. eapply ball_dconn; eauto.
  Qed.
End Separated.
(* if s is d-separated from Q by Z then they are independent given Z *)
Theorem d_sep_sound : forall g D K s Q Z x y c, wf_dag g -> (forall v, NoDup (D v)) -> cond g D K -> In s (nodes g) -> incl Q (nodes g) -> incl Z (nodes g) -> (forall q, In q Q -> ~ In q Z) -> ~ In s Z ->
  (forall q, In q Q -> ~ dconn g Z s q) -> NoDup (keys (y ++ c)) -> (forall v, In v (keys y) <-> In v Q) -> (forall v, In v (keys c) <-> In v Z) -> (forall v z, In (v, z) (y ++ c) -> In z (D v)) -> In x (D s) ->
  P g D K ((s, x) :: y ++ c) * P g D K c = P g D K ((s, x) :: c) * P g D K (y ++ c).
Proof.
  intros g D K s Q Z x y c W DN CK Hs HQ HZ QZ SZ Sep N Ky Kc Dy Dx.
  assert (I : incl (s :: Q) (nodes g)) by (intros z [<-|Hz]; auto). assert (IT : incl [s] (nodes g)) by (intros z [<-|[]]; auto). assert (TZ : forall t, In t [s] -> ~ In t Z) by (intros z [<-|[]]; auto).
  assert (Sc : In s (coloured g g [s] Z)). { apply in_coloured; auto; [apply incl_refl|]. split; auto. exists s. split; [left; auto|]. apply (ball_dconn g Z s s W HZ) with (d := Up); auto. constructor. }
  assert (Sq : ~ In s Q). { intro Kq. apply (Sep s Kq). apply in_coloured in Sc; auto; [|apply incl_refl]. destruct Sc as (_ & t & [<-|[]] & Dc). exact Dc. }
  apply (both_indep g D K (ancs g (s :: Q) Z) Z (coloured g g [s] Z) W DN CK) with (x := [(s, x)]); auto.
  - intros v Hv. apply in_ancs in Hv; auto. tauto.
  - apply NoDup_filter, W.
  - apply ancs_closed; auto.
  - apply separated_families; auto.
  - cbn [app keys map fst]. constructor; auto. change (~ In s (keys (y ++ c))). unfold keys. rewrite map_app, in_app_iff. intros [H|H]; [apply Sq, Ky; auto|apply SZ, Kc; auto].
  - intros z Hz. apply in_ancs; auto. split; auto. exists z. split; [constructor|apply in_or_app; auto].
  - intros z [<-|[]]. apply in_ancs; auto. split; auto. exists s. split; [constructor|left; auto].
  - intros z Hz. apply Ky in Hz. apply in_ancs; auto. split; auto. exists z. split; [constructor|apply in_or_app; left; right; auto].
  - intros v [<-|[]]. auto.
  - intros v Hv Kv. apply Ky in Hv. apply in_coloured in Kv; auto; [|apply incl_refl]. destruct Kv as (_ & t & [<-|[]] & Dc). apply (Sep v Hv Dc).
  - intros v z [H|H]; [injection H as <- <-; auto|auto].
Qed.
(* the same for the probabilities of a network under interventions *)
Theorem do_indep : forall n iv s z x c, distribution n -> In s (nodes (ngraph n)) -> ~ In s (keys iv) -> ~ In s (keys c) -> (forall q, In q (keys x) -> ~ dconn (ngraph n) (keys c ++ keys iv) s q) ->
  NoDup (keys c) -> NoDup (keys iv) -> NoDup (keys x) -> incl (keys c) (nodes (ngraph n)) -> incl (keys iv) (nodes (ngraph n)) -> incl (keys x) (nodes (ngraph n)) ->
  (forall v, In v (keys x) -> ~ In v (keys c)) -> in_domains n c -> in_domains n iv -> in_domains n x -> In z (dom_of (doms n) s) ->
  do_prob n iv ((s, z) :: x ++ c) * do_prob n iv c = do_prob n iv ((s, z) :: c) * do_prob n iv (x ++ c).
Proof.
  intros n iv s z x c Hd Hs Si Sc Sep Nc Ni Nx Ic Ii Ix Dj Dc Di Dx Hz. assert (W : wf_dag (ngraph n)) by apply Hd.
  rewrite (do_prob_reduce n iv ((s, z) :: x ++ c)), (do_prob_reduce n iv c), (do_prob_reduce n iv ((s, z) :: c)), (do_prob_reduce n iv (x ++ c)) by auto.
  assert (Cs : forall l, clash iv ((s, z) :: l) = clash iv l). { intro l. unfold clash. cbn [existsb fst snd]. apply lookup_None_keys in Si. rewrite Si. auto. }
  assert (Rs : forall l, rest iv ((s, z) :: l) = (s, z) :: rest iv l). { intro l. unfold rest. cbn [filter fst]. apply mem_nIn in Si. rewrite Si. auto. }
  rewrite !Cs, !Rs. rewrite clash_app. destruct (clash iv x); [cbn [orb]; ring|]. destruct (clash iv c); [cbn [orb]; ring|]. cbn [orb].
  rewrite rest_app. cbn [app]. rewrite <- app_assoc. set (x' := rest iv x). set (c' := rest iv c ++ iv). rewrite !(do_prob_P n iv) by auto.
  assert (CK := do_kernel_cond n iv Hd (fun v y => lookup_in_domains n iv v y Di)).
  apply (d_sep_sound (cut (ngraph n) (keys iv)) (ndom n) (do_kernel n iv) s (keys x') (keys c ++ keys iv) z x' c'); auto.
  - apply cut_dag; auto.
  - intro v. apply ndom_nodup; auto.
  - intros v Hv. apply keys_rest in Hv. apply Ix. tauto.
  - apply incl_app; auto.
  - intros v Hv K. apply keys_rest in Hv. apply in_app_or in K. destruct K as [K|K]; [apply (Dj v); tauto|tauto].
  - intro K. apply in_app_or in K. tauto.
  - intros q Hq K. apply keys_rest in Hq. apply (Sep q (proj1 Hq)). apply LTrim.dconn_more with (cut (ngraph n) (keys iv)); auto; [apply W|]. intros u v E. apply edge_cut in E. tauto.
  - unfold keys. rewrite map_app. fold (keys x') (keys c'). apply NoDup_app'.
    + apply rest_nodup; auto.
    + unfold c', keys. rewrite map_app. apply NoDup_app'; auto; [apply rest_nodup; auto|]. intros v H1 H2. apply keys_rest in H1. tauto.
    + intros v H1 H2. apply keys_rest in H1. unfold c', keys in H2. rewrite map_app, in_app_iff in H2. destruct H2 as [H2|H2]; [apply keys_rest in H2; apply (Dj v); tauto|tauto].
  - tauto.
  - intro v. assert (R := keys_rest iv c v). unfold c', keys in *. rewrite map_app, !in_app_iff, R. destruct (in_dec String.string_dec v (map fst iv)); tauto.
  - assert (R : forall l v y, in_domains n l -> incl (keys l) (nodes (ngraph n)) -> In (v, y) l -> In y (ndom n v)).
    { intros l v y Hl Il Hi. rewrite ndom_in; [|apply Il; apply (in_map fst) in Hi; auto]. destruct (Hl v y Hi) as (d & H1 & H2). unfold dom_of. unfold has_domain in H1. rewrite H1. auto. }
    intros v y Hi. apply in_app_or in Hi. destruct Hi as [Hi|Hi]; [apply in_rest in Hi; apply (R x v y); auto; tauto|].
    apply in_app_or in Hi. destruct Hi as [Hi|Hi]; [apply in_rest in Hi; apply (R c v y); auto; tauto|apply (R iv v y); auto].
  - rewrite ndom_in; auto.
Qed.
