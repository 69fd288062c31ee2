(* Motifs, is_active_path, front- and backdoor trails, decision-free paths. *)
From Coq Require Import String List Bool Arith Permutation Lia.
Import ListNotations.
From Verif Require Import MBase MGraph MPaths Spec LBase LGraph LDfs LPaths LActive.

Lemma motif_of_fun : forall g a b c m m', acyclic g -> motif_of g a b c m -> motif_of g a b c m' -> m = m'.
Proof.
  intros g a b c m m' Ha H1 H2. destruct m, m'; simpl in *; auto; try tauto; destruct H1, H2; asym.
Qed.
Lemma get_motif_mid : forall g l a b c r, acyclic g -> incl (l ++ a :: b :: c :: r) (nodes g) ->
  adjacent g a b -> adjacent g b c ->
  exists m, get_motif g (l ++ a :: b :: c :: r) (S (length l)) = Ok m /\ motif_of g a b c m.
Proof.
  intros g l a b c r Ha Hi H1 H2. unfold get_motif.
  rewrite (proj2 (forallb_mem _ _) Hi). cbn [negb].
  assert (L : length (l ++ a :: b :: c :: r) = length l + 3 + length r) by (rewrite app_length; simpl; lia).
  assert (Na : nth_prev (l ++ a :: b :: c :: r) (S (length l)) = a).
  { simpl. apply nth_app_mid. }
  assert (Nb : nth (S (length l)) (l ++ a :: b :: c :: r) EmptyString = b).
  { replace (l ++ a :: b :: c :: r) with ((l ++ [a]) ++ b :: c :: r) by (rewrite <- app_assoc; auto).
    replace (S (length l)) with (length (l ++ [a])) by (rewrite app_length; simpl; lia). apply nth_app_mid. }
  assert (Nc : nth (S (S (length l))) (l ++ a :: b :: c :: r) EmptyString = c).
  { replace (l ++ a :: b :: c :: r) with ((l ++ [a; b]) ++ c :: r) by (rewrite <- app_assoc; auto).
    replace (S (S (length l))) with (length (l ++ [a; b])) by (rewrite app_length; simpl; lia). apply nth_app_mid. }
  rewrite L.
  destruct (Nat.leb_spec (length l + 3 + length r) (S (length l))); [lia|].
  destruct (Nat.eqb_spec (length l + 3 + length r) (S (S (length l)))); [lia|].
  rewrite Na, Nb, Nc.
  destruct H1 as [H1|H1]; destruct H2 as [H2|H2]; apply has_edge_iff in H1 as E1; apply has_edge_iff in H2 as E2.
  - rewrite E1, E2. exists Forward. split; auto. split; auto.
  - assert (E3 : has_edge g b c = false) by (apply has_edge_false; intro; asym).
    assert (E4 : has_edge g b a = false) by (apply has_edge_false; intro; asym).
    rewrite E1, E2, E3, E4. simpl. exists Collider. split; auto. split; auto.
  - assert (E3 : has_edge g c b = false) by (apply has_edge_false; intro; asym).
    assert (E4 : has_edge g a b = false) by (apply has_edge_false; intro; asym).
    rewrite E1, E2, E3, E4. simpl. exists Fork. split; auto. split; auto.
  - assert (E4 : has_edge g a b = false) by (apply has_edge_false; intro; asym).
    rewrite E1, E2, E4. simpl. exists Backward. split; auto. split; auto.
Qed.
Lemma get_motif_last : forall g l a, incl (l ++ [a]) (nodes g) ->
  get_motif g (l ++ [a]) (length l) = Ok Endpoint.
Proof.
  intros g l a Hi. unfold get_motif. rewrite (proj2 (forallb_mem _ _) Hi). cbn [negb].
  rewrite app_length. simpl.
  destruct (Nat.leb_spec (length l + 1) (length l)); [lia|].
  destruct (Nat.eqb_spec (length l + 1) (S (length l))); [auto|lia].
Qed.
Lemma get_motif_out_of_range : forall g p i, incl p (nodes g) -> length p <= i ->
  get_motif g p i = Err IndexError.
Proof.
  intros g p i Hi Hl. unfold get_motif. rewrite (proj2 (forallb_mem _ _) Hi). cbn [negb].
  destruct (Nat.leb_spec (length p) i); [auto|lia].
Qed.

(* the descendant test of is_active_path *)
Lemma collider_test : forall g Z b, wf_dag g -> In b (nodes g) ->
  (existsb (fun d => mem d Z) (b :: descendants g b) = true <-> exists d, reach g b d /\ In d Z).
Proof.
  intros g Z b Hd Hb. rewrite existsb_exists. split.
  - intros [d [H1 H2]]. apply mem_In in H2. exists d. split; auto. destruct H1 as [H1|H1].
    + subst; constructor.
    + apply descendants_neq in H1; auto; [apply H1|apply Hd].
  - intros [d [H1 H2]]. exists d. split; [|apply mem_In; auto].
    destruct (string_dec b d); [left; auto|]. right. apply descendants_neq; auto. apply Hd.
Qed.
Lemma active_loop_spec : forall g Z pre a b post, wf_dag g ->
  chain (adjacent g) (pre ++ a :: b :: post) -> NoDup (pre ++ a :: b :: post) ->
  incl (pre ++ a :: b :: post) (nodes g) ->
  exists r, active_loop g (pre ++ a :: b :: post) Z (removelast (b :: post)) = Ok r /\
    (r = true <-> active g Z (a :: b :: post)).
Proof.
  intros g Z pre a b post Hd. assert (Ha : acyclic g) by apply Hd. revert pre a b.
  induction post as [|c post IH]; intros pre a b Hc Hnd Hi.
  - simpl. exists true. split; auto. split; auto. intros _. apply active_short. simpl; lia.
  - change (removelast (b :: c :: post)) with (b :: removelast (c :: post)).
    assert (Hib : index_of b (pre ++ a :: b :: c :: post) = Some (S (length pre))).
    { replace (pre ++ a :: b :: c :: post) with ((pre ++ [a]) ++ b :: c :: post) in * by (rewrite <- app_assoc; auto).
      rewrite index_of_app; [rewrite app_length; simpl; f_equal; lia|].
      apply NoDup_remove_2 in Hnd. intro Hx. apply Hnd. apply in_or_app; auto. }
    cbn [active_loop]. rewrite Hib.
    assert (Hab : adjacent g a b /\ adjacent g b c).
    { eapply triple_adj; eauto. exists pre, post; auto. }
    destruct Hab as [Hab Hbc].
    destruct (get_motif_mid g pre a b c post Ha Hi Hab Hbc) as [m [Hm1 Hm2]].
    rewrite Hm1. cbn [bind].
    assert (Eq : pre ++ a :: b :: c :: post = (pre ++ [a]) ++ b :: c :: post) by (rewrite <- app_assoc; auto).
    destruct (IH (pre ++ [a]) b c) as [r [Hr1 Hr2]]; try (rewrite <- Eq; auto).
    rewrite <- Eq in Hr1.
    assert (Hbn : In b (nodes g)) by (apply Hi; apply in_or_app; simpl; auto).
    assert (Hact : active g Z (a :: b :: c :: post) <-> active g Z (b :: c :: post) /\ open_at g Z a b c)
      by apply active_cons2.
    assert (Hnc : m <> Collider -> (open_at g Z a b c <-> ~ In b Z)).
    { intro Hne. assert (~ is_collider g a b c).
      { intros [X1 X2]. apply Hne. eapply motif_of_fun; eauto. split; auto. }
      unfold open_at. tauto. }
    assert (Hcc : m = Collider -> (open_at g Z a b c <-> exists d, reach g b d /\ In d Z)).
    { intros ->. unfold open_at. simpl in Hm2. assert (is_collider g a b c) by (split; tauto). tauto. }
    destruct m; simpl in Hm2; try tauto.
    + specialize (Hnc ltac:(discriminate)). destruct (mem_spec b Z) as [Hz|Hz].
      * exists false. split; auto. split; [discriminate|]. tauto.
      * exists r. split; auto. tauto.
    + specialize (Hnc ltac:(discriminate)). destruct (mem_spec b Z) as [Hz|Hz].
      * exists false. split; auto. split; [discriminate|]. tauto.
      * exists r. split; auto. tauto.
    + specialize (Hnc ltac:(discriminate)). destruct (mem_spec b Z) as [Hz|Hz].
      * exists false. split; auto. split; [discriminate|]. tauto.
      * exists r. split; auto. tauto.
    + specialize (Hcc eq_refl). pose proof (collider_test g Z b Hd Hbn) as Ht.
      destruct (existsb (fun d => mem d Z) (b :: descendants g b)).
      * exists r. split; auto. tauto.
      * exists false. split; auto. split; [discriminate|]. intro H. apply Ht. tauto.
Qed.
Lemma is_active_path_spec : forall g Z p, wf_dag g -> chain (adjacent g) p -> NoDup p ->
  incl (p ++ Z) (nodes g) ->
  exists r, is_active_path g p Z = Ok r /\ (r = true <-> active g Z p).
Proof.
  intros g Z p Hd Hc Hnd Hi. unfold is_active_path.
  rewrite (proj2 (forallb_mem _ _) Hi). cbn [negb].
  destruct (Nat.ltb_spec (length p) 3).
  - exists true. split; auto. split; auto. intros _. apply active_short; auto.
  - destruct p as [|a [|b post]]; simpl in H; try lia.
    change (tl (a :: b :: post)) with (b :: post).
    apply (active_loop_spec g Z [] a b post); auto.
    intros x Hx. apply Hi. apply in_or_app; auto.
Qed.

(* ---- get_motifs ---- *)
Lemma motifs_from_S : forall g p i n, motifs_from g p (S i) (S n) =
  bind (get_motif g p (S i)) (fun m => bind (motifs_from g p (S (S i)) n) (fun ms => Ok (m :: ms))).
Proof. reflexivity. Qed.
Lemma motifs_from_spec : forall g r l x, acyclic g -> chain (adjacent g) (l ++ x :: r) -> l <> [] ->
  incl (l ++ x :: r) (nodes g) ->
  exists ms, motifs_from g (l ++ x :: r) (length l) (length (x :: r)) = Ok ms /\
    forall l' a b c r', l ++ x :: r = l' ++ a :: b :: c :: r' -> length l <= S (length l') ->
      exists m, nth_error ms (S (length l') - length l) = Some m /\ motif_of g a b c m.
Proof.
  intros g r. induction r as [|y r IH]; intros l x Ha Hc Hl Hi.
  - cbn [length motifs_from]. destruct l as [|l0 l]; [congruence|].
    cbn [length]. change (S (length l)) with (length (l0 :: l)). rewrite get_motif_last by auto. cbn [bind motifs_from].
    eexists. split; [reflexivity|]. intros l' a b c r' E Hlen. exfalso.
    apply (f_equal (@length _)) in E. rewrite !app_length in E. simpl in E. simpl in Hlen. lia.
  - destruct (list_snoc _ l) as [E|[l0 [w E]]]; [congruence|]. 
    change (length (x :: y :: r)) with (S (length (y :: r))).
    assert (Eq : l ++ x :: y :: r = l0 ++ w :: x :: y :: r) by (subst; rewrite <- app_assoc; auto).
    assert (Hadj : adjacent g w x /\ adjacent g x y).
    { eapply triple_adj; eauto. rewrite Eq. exists l0, r; auto. }
    destruct Hadj as [A1 A2].
    destruct (get_motif_mid g l0 w x y r Ha) as [m [Hm1 Hm2]]; auto; [rewrite <- Eq; auto|].
    assert (Ll : length l = S (length l0)) by (subst; rewrite app_length; simpl; lia).
    assert (Eq2 : l ++ x :: y :: r = (l ++ [x]) ++ y :: r) by (rewrite <- app_assoc; auto).
    assert (Hne : l ++ [x] <> []) by (destruct l; discriminate).
    pose proof Hc as Hc'. pose proof Hi as Hi'. rewrite Eq2 in Hc', Hi'.
    destruct (IH (l ++ [x]) y Ha Hc' Hne Hi') as [ms [H1 H2]].
    rewrite <- Eq2 in H1. rewrite app_length in H1. cbn [length] in H1. rewrite Nat.add_1_r in H1.
    exists (m :: ms). split.
    { cbn [length]. rewrite Ll in *. rewrite motifs_from_S, H1, Eq, Hm1. reflexivity. }
    intros l' a b c r' E' Hlen.
    destruct (Nat.eq_dec (length l) (S (length l'))) as [El|El].
    + rewrite El, Nat.sub_diag. simpl. exists m. split; auto.
      assert (l0 = l' /\ w :: x :: y :: r = a :: b :: c :: r') as [_ E2].
      { rewrite Eq in E'. assert (length l0 = length l') by lia.
        clear - E' H. revert l' E' H. induction l0; destruct l'; simpl; intros; try discriminate; auto.
        inversion E'; subst. destruct (IHl0 _ H2) as [H3 H4]; [lia|]. split; auto. congruence. }
      inversion E2; subst; auto.
    + assert (Hlen' : length (l ++ [x]) <= S (length l')) by (rewrite app_length; simpl; lia).
      rewrite Eq2 in E'. destruct (H2 l' a b c r' E' Hlen') as [m' [H3 H4]].
      exists m'. split; auto. rewrite app_length in H3. simpl length in H3.
      replace (S (length l') - length l) with (S (S (length l') - (length l + 1))) by lia.
      simpl. exact H3.
Qed.
Lemma motifs_len : forall g p n i ms, motifs_from g p i n = Ok ms -> length ms = n.
Proof.
  intros g p n. induction n as [|n IH]; intros i ms H; cbn [motifs_from] in H.
  - inversion H; auto.
  - match type of H with bind ?m _ = _ => destruct m as [m0|]; cbn [bind] in H; [|discriminate] end.
    destruct (motifs_from g p (S i) n) as [ms'|] eqn:E; cbn [bind] in H; [|discriminate].
    inversion H; subst. simpl. f_equal. eapply IH; eauto.
Qed.
Lemma get_motifs_spec : forall g a b r, acyclic g -> chain (adjacent g) (a :: b :: r) -> incl (a :: b :: r) (nodes g) ->
  exists ms, get_motifs g (a :: b :: r) = Ok ms /\ length ms = length (a :: b :: r) /\
    (edge g a b -> nth_error ms 0 = Some Forward) /\
    (edge g b a -> nth_error ms 0 = Some Backward) /\
    (forall l x y z r', a :: b :: r = l ++ x :: y :: z :: r' ->
       exists m, nth_error ms (S (length l)) = Some m /\ motif_of g x y z m) /\
    nth_error ms (S (length r)) = Some Endpoint.
Proof.
  intros g a b r Ha Hc Hi. unfold get_motifs. rewrite (proj2 (forallb_mem _ _) Hi). cbn [negb].
  destruct (motifs_from_spec g r [a] b Ha Hc) as [ms [H1 H2]]; auto; [discriminate|].
  cbn [length] in *. simpl app in H1.
  assert (HM : motifs_from g (a :: b :: r) 0 (S (S (length r))) =
               Ok ((if mem a (parents g b) then Forward else Backward) :: ms)).
  { remember (S (length r)) as n. cbn [motifs_from bind]. rewrite H1. reflexivity. }
  rewrite HM. eexists. split; [reflexivity|]. split; [|split; [|split; [|split]]].
  - simpl. f_equal. apply motifs_len in H1. auto.
  - intro He. simpl. rewrite mem_parents. apply has_edge_iff in He. rewrite He. auto.
  - intro He. simpl. rewrite mem_parents.
    assert (has_edge g a b = false) by (apply has_edge_false; intro; asym). rewrite H. auto.
  - intros l x y z r' E. destruct (H2 l x y z r' E) as [m [H3 H4]]; [simpl; lia|].
    exists m. split; auto. simpl in *. rewrite Nat.sub_0_r in H3. exact H3.
  - simpl. clear H2 Hc. 
    assert (Hg : forall n i ms, i > 0 -> i + S n = S (S (length r)) -> motifs_from g (a :: b :: r) i (S n) = Ok ms ->
               nth_error ms n = Some Endpoint).
    { induction n as [|n IH]; intros i ms' Hi0 Hs H.
      - cbn [motifs_from bind] in H. destruct i; [lia|].
        assert (i = length r) by lia. subst i.
        destruct (list_snoc _ (b :: r)) as [E|[q [e E]]]; [discriminate|].
        rewrite E in H. assert (Lq : S (length r) = length (a :: q)).
        { apply (f_equal (@length _)) in E. rewrite app_length in E. simpl in *. lia. }
        rewrite Lq in H. change (a :: q ++ [e]) with ((a :: q) ++ [e]) in H.
        rewrite get_motif_last in H; [inversion H; auto|].
        simpl. rewrite <- E. auto.
      - remember (S n) as n'. cbn [motifs_from] in H.
        destruct i; [lia|]. destruct (get_motif g (a :: b :: r) (S i)) as [m|]; cbn [bind] in H; [|discriminate].
        destruct (motifs_from g (a :: b :: r) (S (S i)) n') as [ms2|] eqn:E2; cbn [bind] in H; [|discriminate].
        inversion H; subst. simpl. eapply (IH (S (S i))); eauto; lia. }
    apply (Hg (length r) 1 ms); auto.
Qed.

(* a collider among the motifs = a collider on the path *)
Lemma motifs_collider : forall g a b r ms, acyclic g -> chain (adjacent g) (a :: b :: r) ->
  incl (a :: b :: r) (nodes g) -> get_motifs g (a :: b :: r) = Ok ms ->
  (existsb (eqb_motif Collider) ms = true <-> has_collider g (a :: b :: r)).
Proof.
  intros g a b r ms Ha Hc Hi H.
  destruct (get_motifs_spec g a b r Ha Hc Hi) as (ms' & H1 & Hlen & Hf & Hb & Hm & He).
  rewrite H in H1. inversion H1; subst ms'. clear H1.
  rewrite existsb_exists. split.
  - intros [m [Hin Hcol]]. destruct m; try discriminate.
    apply In_nth_error in Hin. destruct Hin as [i Hi0].
    assert (Hlt : i < length ms) by (apply nth_error_Some; congruence).
    rewrite Hlen in Hlt. simpl in Hlt.
    destruct i as [|i].
    + assert (adjacent g a b) by (inversion Hc; auto). destruct H0 as [H0|H0].
      * apply Hf in H0. congruence.
      * apply Hb in H0. congruence.
    + destruct (Nat.eq_dec i (length r)); [subst; congruence|].
      assert (exists l x y z r', a :: b :: r = l ++ x :: y :: z :: r' /\ length l = i) as (l & x & y & z & r' & E & El).
      { assert (Hn : i + 3 <= length (a :: b :: r)) by (simpl; lia).
        clear - Hn. revert i Hn. generalize (a :: b :: r). induction l as [|w l IH]; simpl; intros; [lia|].
        destruct i as [|i].
        - destruct l as [|x [|y l]]; simpl in Hn; try lia. exists [], w, x, y, l. auto.
        - destruct (IH i) as (l' & x & y & z & r' & E & El); [lia|].
          exists (w :: l'), x, y, z, r'. subst. auto. }
      destruct (Hm l x y z r' E) as [m [M1 M2]]. rewrite El in M1. rewrite Hi0 in M1. inversion M1; subst.
      exists x, y, z. split; [exists l, r'; auto|]. split; apply M2.
  - intros (x & y & z & (l & r' & E) & C1 & C2).
    destruct (Hm l x y z r' E) as [m [M1 M2]].
    assert (m = Collider) by (eapply motif_of_fun; eauto; split; auto). subst.
    exists Collider. split; auto. eapply nth_error_In; eauto.
Qed.

(* ---- backdoor and frontdoor trails ---- *)
Section Trails.
  Variables (o : order) (g : graph) (Z : list node).
  Hypothesis Ho : valid_order o.
  Hypothesis Hd : wf_dag g.
  Hypothesis HZ : incl Z (nodes g).

  Lemma path_in_nodes : forall s t p, In s (nodes g) -> simple_path g s t p -> incl p (nodes g).
  Proof.
    intros s t p Hs (H1 & H2 & H3). destruct (from_to_cons_inv _ _ _ H3) as [q E]. subst.
    apply (chain_nodes g (adjacent g)); auto. apply Hd.
  Qed.
  Lemma active_test : forall s t p, In s (nodes g) -> simple_path g s t p ->
    exists r, is_active_path g p Z = Ok r /\ (r = true <-> active g Z p).
  Proof.
    intros s t p Hs Hp. apply is_active_path_spec; auto; try apply Hp.
    intros x Hx. apply in_app_or in Hx. destruct Hx; auto. eapply path_in_nodes; eauto.
  Qed.
  Lemma backdoor_loop_spec : forall s t, In s (nodes g) -> forall ps,
    (forall p, In p ps -> simple_path g s t p) ->
    exists r, backdoor_loop g Z ps = Ok r /\
      (r = true <-> exists p, In p ps /\ backdoor_path g Z s t p).
  Proof.
    intros s t Hs. induction ps as [|p ps IH]; intro Hps; simpl.
    - exists false. split; auto. split; [discriminate|]. intros [p [[] _]].
    - destruct IH as [r [Hr1 Hr2]]; [intros; apply Hps; simpl; auto|].
      assert (Hp : simple_path g s t p) by (apply Hps; simpl; auto).
      destruct (from_to_cons_inv _ _ _ (proj2 (proj2 Hp))) as [q Eq].
      destruct (active_test s t p Hs Hp) as [ra [Ha1 Ha2]].
      destruct q as [|b q]; subst p.
      + exists r. split; auto. rewrite Hr2. split.
        * intros [p [H1 H2]]; eauto.
        * intros [p [[H1|H1] H2]]; eauto. subst p. destruct H2 as (_ & _ & x & r' & E & _). discriminate.
      + rewrite Ha1. cbn [bind]. rewrite mem_parents.
        destruct (has_edge_spec g b s) as [He|He]; destruct ra; cbn [andb].
        * exists true. split; auto. split; auto. intros _. exists (s :: b :: q). split; auto.
          split; auto. split; [apply Ha2; auto|]. eauto.
        * exists r. split; auto. rewrite Hr2. split; [intros [p [H1 H2]]; eauto|].
          intros [p [[H1|H1] H2]]; eauto. subst p. exfalso.
          assert (false = true) by (apply Ha2, H2). discriminate.
        * exists r. split; auto. rewrite Hr2. split; [intros [p [H1 H2]]; eauto|].
          intros [p [[H1|H1] H2]]; eauto. subst p. exfalso.
          destruct H2 as (_ & _ & x & r' & E & Hx). inversion E; subst. auto.
        * exists r. split; auto. rewrite Hr2. split; [intros [p [H1 H2]]; eauto|].
          intros [p [[H1|H1] H2]]; eauto. subst p. exfalso.
          destruct H2 as (_ & _ & x & r' & E & Hx). inversion E; subst. auto.
  Qed.
  Lemma frontdoor_loop_spec : forall s t, s <> t -> In s (nodes g) -> forall ps,
    (forall p, In p ps -> simple_path g s t p) ->
    exists r, frontdoor_loop g Z ps = Ok r /\
      (r = true <-> exists p, In p ps /\ frontdoor_indirect_path g Z s t p).
  Proof.
    intros s t Hst Hs. induction ps as [|p ps IH]; intro Hps; simpl.
    - exists false. split; auto. split; [discriminate|]. intros [p [[] _]].
    - destruct IH as [r [Hr1 Hr2]]; [intros; apply Hps; simpl; auto|].
      assert (Hp : simple_path g s t p) by (apply Hps; simpl; auto).
      destruct (from_to_cons_inv _ _ _ (proj2 (proj2 Hp))) as [q Eq].
      destruct (active_test s t p Hs Hp) as [ra [Ha1 Ha2]].
      destruct q as [|b q]; subst p.
      + exfalso. destruct Hp as (_ & _ & _ & Hp). simpl in Hp. congruence.
      + rewrite Ha1. cbn [bind]. rewrite mem_parents.
        assert (Hi : incl (s :: b :: q) (nodes g)) by (eapply path_in_nodes; eauto).
        destruct (get_motifs_spec g s b q (proj2 Hd) (proj1 Hp) Hi) as [ms [Hms _]].
        pose proof (motifs_collider g s b q ms (proj2 Hd) (proj1 Hp) Hi Hms) as Hcol.
        rewrite Hms. cbn [bind].
        destruct (has_edge g s b && ra && existsb (eqb_motif Collider) ms) eqn:E.
        * apply andb_true_iff in E. destruct E as [E E3]. apply andb_true_iff in E. destruct E as [E1 E2].
          exists true. split; auto. split; auto. intros _. exists (s :: b :: q). split; auto.
          split; auto. split; [apply Ha2; auto|]. split; [apply Hcol; auto|].
          exists b, q. split; auto. apply has_edge_iff; auto.
        * exists r. split; auto. rewrite Hr2. split; [intros [p [H1 H2]]; eauto|].
          intros [p [[H1|H1] H2]]; eauto. subst p. exfalso.
          destruct H2 as (_ & X1 & X2 & x & r' & Ex & Hx). inversion Ex; subst.
          apply has_edge_iff in Hx. apply Ha2 in X1. apply Hcol in X2.
          rewrite Hx, X1, X2 in E. discriminate.
  Qed.
  Lemma check_nodes : forall s t, In s (nodes g) -> In t (nodes g) ->
    forallb (fun n => mem n (nodes g)) (Z ++ [s; t]) = true.
  Proof.
    intros. apply forallb_mem. intros x Hx. apply in_app_or in Hx.
    destruct Hx as [Hx|[Hx|[Hx|[]]]]; subst; auto.
  Qed.
  Lemma is_active_backdoor_trail_spec : forall s t, In s (nodes g) -> In t (nodes g) ->
    exists r, is_active_backdoor_trail o g s t Z = Ok r /\
      (r = true <-> exists p, backdoor_path g Z s t p).
  Proof.
    intros s t Hs Ht. unfold is_active_backdoor_trail. rewrite check_nodes by auto. cbn [negb].
    destruct (find_all_undir_paths_spec o g s t Ho (proj1 Hd) Hs Ht) as (ps & H1 & _ & H2).
    rewrite H1. cbn [bind].
    destruct (backdoor_loop_spec s t Hs ps) as [r [H3 H4]]; [intros; apply H2; auto|].
    exists r. split; auto. rewrite H4. split.
    - intros [p [_ H]]; eauto.
    - intros [p H]. exists p. split; auto. apply H2. apply H.
  Qed.
  Lemma is_active_indirect_frontdoor_trail_spec : forall s t, s <> t -> In s (nodes g) -> In t (nodes g) ->
    exists r, is_active_indirect_frontdoor_trail o g s t Z = Ok r /\
      (r = true <-> exists p, frontdoor_indirect_path g Z s t p).
  Proof.
    intros s t Hst Hs Ht. unfold is_active_indirect_frontdoor_trail. rewrite check_nodes by auto. cbn [negb].
    destruct (find_all_undir_paths_spec o g s t Ho (proj1 Hd) Hs Ht) as (ps & H1 & _ & H2).
    rewrite H1. cbn [bind].
    destruct (frontdoor_loop_spec s t Hst Hs ps) as [r [H3 H4]]; [intros; apply H2; auto|].
    exists r. split; auto. rewrite H4. split.
    - intros [p [_ H]]; eauto.
    - intros [p H]. exists p. split; auto. apply H2. apply H.
  Qed.
End Trails.

(* ---- C09 ---- *)
Lemma directed_decision_free_path_spec : forall g D s t, wf_dag g -> In s (nodes g) -> In t (nodes g) ->
  exists b, directed_decision_free_path g D s t = Ok b /\
    (b = true <-> exists p, directed_path g s t p /\ forall x, between p x -> ~ In x D).
Proof.
  intros g D s t Hd Hs Ht. unfold directed_decision_free_path.
  destruct (find_all_dir_paths_spec g s t Hd Hs Ht) as (ps & H1 & _ & H2).
  rewrite H1. cbn [bind]. eexists. split; [reflexivity|].
  rewrite existsb_exists. split.
  - intros [p [Hp Hn]]. exists p. split; [apply H2; auto|]. intros x Hx HD.
    apply negb_true_iff in Hn. assert (existsb (fun n => mem n D) (interior p) = true); [|congruence].
    apply existsb_exists. exists x. split; [apply in_interior; auto|apply mem_In; auto].
  - intros [p [Hp Hn]]. exists p. split; [apply H2; auto|]. apply negb_true_iff, not_true_is_false.
    intro H. apply existsb_exists in H. destruct H as [x [Hx HD]]. apply mem_In in HD.
    apply in_interior in Hx. eapply Hn; eauto.
Qed.
