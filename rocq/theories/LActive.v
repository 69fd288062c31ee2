(* Active paths, d-connection and the Bayes-ball search. *)
From Coq Require Import String List Bool Arith Permutation Lia.
Import ListNotations.
From Verif Require Import MBase MGraph MPaths Spec LBase LGraph LDfs LPaths.

Ltac asym := exfalso;
  match goal with
  | Ha : acyclic ?g, H1 : edge ?g ?u ?v, H2 : edge ?g ?v ?u |- _ => exact (acyclic_edge_asym _ _ _ Ha H1 H2)
  end.

(* ---- consecutive triples ---- *)
Lemma triple_snoc : forall l p e x a b c, triple_on (l ++ [p; e; x]) a b c ->
  triple_on (l ++ [p; e]) a b c \/ (a = p /\ b = e /\ c = x).
Proof.
  intros l p e x a b c (l' & r & H). destruct (list_snoc _ r) as [E|[r' [y E]]]; subst.
  - right. replace (l ++ [p; e; x]) with (((l ++ [p]) ++ [e]) ++ [x]) in H by (rewrite <- !app_assoc; auto).
    replace (l' ++ [a; b; c]) with (((l' ++ [a]) ++ [b]) ++ [c]) in H by (rewrite <- !app_assoc; auto).
    apply app_inj_tail in H. destruct H as [H ?]. apply app_inj_tail in H. destruct H as [H ?].
    apply app_inj_tail in H. destruct H; subst; auto.
  - left. replace (l ++ [p; e; x]) with ((l ++ [p; e]) ++ [x]) in H by (rewrite <- !app_assoc; auto).
    replace (l' ++ a :: b :: c :: r' ++ [y]) with ((l' ++ a :: b :: c :: r') ++ [y]) in H
      by (rewrite <- !app_assoc; auto).
    apply app_inj_tail in H. destruct H; subst. exists l', r'; auto.
Qed.
Lemma triple_app_l : forall l r a b c, triple_on l a b c -> triple_on (l ++ r) a b c.
Proof. intros l r a b c (x & y & H). subst. exists x, (y ++ r). rewrite <- app_assoc; auto. Qed.
Lemma triple_app_r : forall l r a b c, triple_on r a b c -> triple_on (l ++ r) a b c.
Proof. intros l r a b c (x & y & H). subst. exists (l ++ x), y. rewrite <- app_assoc; auto. Qed.
Lemma triple_cons : forall x l a b c, triple_on l a b c -> triple_on (x :: l) a b c.
Proof. intros. apply (triple_app_r [x]); auto. Qed.
Lemma triple_length : forall l a b c, triple_on l a b c -> 3 <= length l.
Proof. intros l a b c (x & y & H). subst. rewrite app_length. simpl. lia. Qed.
Lemma triple_cons_inv : forall x l a b c, triple_on (x :: l) a b c ->
  triple_on l a b c \/ (x = a /\ exists r, l = b :: c :: r).
Proof.
  intros x l a b c (p & r & H). destruct p as [|y p]; simpl in H; inversion H; subst.
  - right; eauto.
  - left. exists p, r; auto.
Qed.
Lemma triple_rev : forall l a b c, triple_on (rev l) a b c <-> triple_on l c b a.
Proof.
  assert (H : forall l a b c, triple_on l c b a -> triple_on (rev l) a b c).
  { intros l a b c (x & y & H). subst. exists (rev y), (rev x).
    rewrite rev_app_distr. simpl. rewrite <- !app_assoc. reflexivity. }
  intros l a b c; split; auto. intro H'. apply H in H'. rewrite rev_involutive in H'; auto.
Qed.

(* the condition on one triple *)
Definition open_at (g : graph) (Z : list node) (a b c : node) : Prop :=
  (is_collider g a b c -> exists d, reach g b d /\ In d Z) /\ (~ is_collider g a b c -> ~ In b Z).
Lemma active_def : forall g Z p, active g Z p <-> forall a b c, triple_on p a b c -> open_at g Z a b c.
Proof. reflexivity. Qed.
Lemma active_app_l : forall g Z l r, active g Z (l ++ r) -> active g Z l.
Proof. intros g Z l r H a b c Ht. apply H, triple_app_l; auto. Qed.
Lemma active_app_r : forall g Z l r, active g Z (l ++ r) -> active g Z r.
Proof. intros g Z l r H a b c Ht. apply H, triple_app_r; auto. Qed.
Lemma active_short : forall g Z p, length p < 3 -> active g Z p.
Proof. intros g Z p H a b c Ht. apply triple_length in Ht. lia. Qed.
Lemma active_snoc : forall g Z l p e x,
  active g Z (l ++ [p; e; x]) <-> active g Z (l ++ [p; e]) /\ open_at g Z p e x.
Proof.
  intros. split.
  - intro H. split.
    + replace (l ++ [p; e; x]) with ((l ++ [p; e]) ++ [x]) in H by (rewrite <- app_assoc; auto).
      eapply active_app_l; eauto.
    + apply H. exists l, []. auto.
  - intros [H1 H2] a b c Ht. apply triple_snoc in Ht. destruct Ht as [Ht|(E1 & E2 & E3)]; subst; auto.
Qed.
Lemma active_cons2 : forall g Z a b c r,
  active g Z (a :: b :: c :: r) <-> active g Z (b :: c :: r) /\ open_at g Z a b c.
Proof.
  intros. split.
  - intro H. split.
    + apply (active_app_r g Z [a]); auto.
    + apply H. exists [], r. auto.
  - intros [H1 H2] x y z Ht. apply triple_cons_inv in Ht. destruct Ht as [Ht|(E & k & Hk)]; auto.
    inversion Hk; subst; auto.
Qed.
Lemma is_collider_sym : forall g a b c, is_collider g a b c <-> is_collider g c b a.
Proof. unfold is_collider; tauto. Qed.
Lemma open_at_sym : forall g Z a b c, open_at g Z a b c <-> open_at g Z c b a.
Proof. intros. unfold open_at. rewrite (is_collider_sym g a b c). tauto. Qed.
Lemma active_rev : forall g Z p, active g Z p -> active g Z (rev p).
Proof. intros g Z p H a b c Ht. apply (proj1 (triple_rev _ _ _ _)) in Ht. apply H in Ht. apply open_at_sym; auto. Qed.
Lemma simple_path_rev : forall g s t p, simple_path g s t p -> simple_path g t s (rev p).
Proof.
  intros g s t p (H1 & H2 & H3 & H4). repeat split; auto.
  - apply chain_rev; auto. intros; apply adjacent_sym; auto.
  - apply NoDup_rev; auto.
  - rewrite rev_involutive; auto.
Qed.
Lemma dconn_sym : forall g Z x y, dconn g Z x y -> dconn g Z y x.
Proof.
  intros g Z x y (H1 & H2 & p & H3 & H4). repeat split; auto. exists (rev p).
  split; [apply simple_path_rev|apply active_rev]; auto.
Qed.
Lemma active_ext : forall g Z Z' p, (forall x, In x Z <-> In x Z') -> active g Z p -> active g Z' p.
Proof.
  intros g Z Z' p H Ha a b c Ht. destruct (Ha a b c Ht) as [H1 H2]. split.
  - intro Hc. destruct (H1 Hc) as [d [Hd1 Hd2]]. exists d. split; auto. apply H; auto.
  - intros Hc Hz. apply (H2 Hc). apply H; auto.
Qed.
Lemma dconn_ext : forall g Z Z' x y, (forall a, In a Z <-> In a Z') -> dconn g Z x y -> dconn g Z' x y.
Proof.
  intros g Z Z' x y H (H1 & H2 & p & H3 & H4). repeat split.
  - rewrite <- H; auto.
  - rewrite <- H; auto.
  - exists p; split; auto. eapply active_ext; eauto.
Qed.

(* in an acyclic graph a non-collider has an outgoing edge on the path and conversely *)
Lemma noncollider_child : forall g a b c, acyclic g -> edge g b c -> ~ is_collider g a b c.
Proof. intros g a b c Ha H [_ H']. eapply acyclic_edge_asym; eauto. Qed.
Lemma noncollider_child_l : forall g a b c, acyclic g -> edge g b a -> ~ is_collider g a b c.
Proof. intros g a b c Ha H [H' _]. eapply acyclic_edge_asym; eauto. Qed.
Lemma triple_adj : forall g p a b c, chain (adjacent g) p -> triple_on p a b c -> adjacent g a b /\ adjacent g b c.
Proof.
  intros g p a b c Hc (l & r & E). subst. split.
  - eapply chain_mid; eauto.
  - change (l ++ a :: b :: c :: r) with (l ++ [a] ++ b :: c :: r) in Hc. rewrite app_assoc in Hc.
    eapply chain_mid; eauto.
Qed.
Lemma not_collider_iff : forall g a b c, acyclic g -> adjacent g a b -> adjacent g b c ->
  (~ is_collider g a b c <-> edge g b a \/ edge g b c).
Proof.
  intros g a b c Ha H1 H2. split.
  - intro H. destruct H1 as [H1|H1]; auto. destruct H2 as [H2|H2]; auto. exfalso. apply H. split; auto.
  - intros [H|H]; [apply noncollider_child_l|apply noncollider_child]; auto.
Qed.
Lemma is_collider_dec : forall g a b c, is_collider g a b c \/ ~ is_collider g a b c.
Proof.
  intros. unfold is_collider. destruct (has_edge_spec g a b); destruct (has_edge_spec g c b); tauto.
Qed.

(* ---- walks: cutting a loop keeps a walk active ---- *)
Lemma forward_run : forall g Z rest v m, chain (adjacent g) (v :: m :: rest) -> edge g v m ->
  active g Z (v :: m :: rest) ->
  reach g m (last rest m) \/ exists d, reach g m d /\ In d Z.
Proof.
  intros g Z rest. induction rest as [|x rest IH]; intros v m Hc He Ha; simpl.
  - left. constructor.
  - inversion Hc; subst. inversion H3; subst.
    apply active_cons2 in Ha. destruct Ha as [Ha Ho].
    destruct (has_edge_spec g m x) as [Hmx|Hmx].
    + destruct (IH m x H3 Hmx Ha) as [Hr|[d [Hd1 Hd2]]].
      * left. econstructor; eauto. destruct rest; auto. 
        replace (last (n :: rest) m) with (last (n :: rest) x); auto.
        clear. revert n. induction rest; simpl; auto. intros. apply IHrest.
      * right. exists d; split; auto. econstructor; eauto.
    + destruct H2 as [H2|H2]; [contradiction|].
      right. apply Ho. split; auto.
Qed.
Lemma chain_irrefl_mid : forall g l v m r, acyclic g -> chain (adjacent g) (l ++ v :: m ++ v :: r) -> m <> [].
Proof.
  intros g l v m r Ha H E. subst. simpl in H. apply chain_mid in H.
  destruct H; eapply acyclic_edge_irrefl; eauto.
Qed.
Lemma cut_loop : forall g Z l v m r, acyclic g ->
  chain (adjacent g) (l ++ v :: m ++ v :: r) -> active g Z (l ++ v :: m ++ v :: r) ->
  chain (adjacent g) (l ++ v :: r) /\ active g Z (l ++ v :: r).
Proof.
  intros g Z l v m r Ha Hc Hact.
  assert (Hm : m <> []) by (eapply chain_irrefl_mid; eauto).
  assert (Hl : chain (adjacent g) (l ++ [v])).
  { apply (chain_app_l _ _ (m ++ v :: r)); [destruct l; discriminate|].
    rewrite <- app_assoc. exact Hc. }
  assert (Hr : chain (adjacent g) (v :: r)).
  { apply (chain_app_r _ (l ++ v :: m)); [discriminate|]. rewrite <- app_assoc. exact Hc. }
  split; [apply chain_app; auto|].
  assert (Hal : active g Z (l ++ [v])).
  { apply (active_app_l _ _ _ (m ++ v :: r)). rewrite <- app_assoc. exact Hact. }
  assert (Har : active g Z (v :: r)).
  { apply (active_app_r _ _ (l ++ v :: m)). rewrite <- app_assoc. exact Hact. }
  (* a triple of the shortened walk is old or the junction *)
  intros a b c (k1 & k2 & E).
  assert (Hcase : triple_on (l ++ [v]) a b c \/ triple_on (v :: r) a b c \/
                  (exists l' r', l = l' ++ [a] /\ b = v /\ r = c :: r')).
  { clear - E. revert k1 E. induction l as [|y l IH]; intros k1 E; simpl in *.
    - right. left. exists k1, k2; auto.
    - destruct k1 as [|z k1]; simpl in E; inversion E; subst.
      + destruct l as [|y2 l]; simpl in H1; inversion H1; subst.
        * right. right. exists [], k2. auto.
        * destruct l as [|y3 l]; simpl in H2; inversion H2; subst.
          -- left. exists [], []. auto.
          -- left. exists [], (l ++ [v]). auto.
      + destruct (IH k1 H1) as [H|[H|(l' & r' & H2 & H3 & H4)]]; auto.
        * left. apply triple_cons; auto.
        * right. right. subst. exists (z :: l'), r'. auto. }
  destruct Hcase as [H|[H|(l' & r' & E1 & E2 & E3)]]; [apply Hal; auto|apply Har; auto|].
  subst l b r. clear E.
  destruct m as [|m1 mt]; [congruence|].
  destruct (exists_last Hm) as [ms [mk Emk]].
  assert (T1 : open_at g Z a v m1).
  { apply Hact. exists l', (mt ++ v :: c :: r'). rewrite <- app_assoc. reflexivity. }
  assert (T2 : open_at g Z mk v c).
  { apply Hact. rewrite Emk. exists ((l' ++ [a]) ++ v :: ms), r'. repeat (simpl; rewrite <- app_assoc). reflexivity. }
  assert (A1 : adjacent g a v).
  { apply (chain_mid _ l' a v []). rewrite <- app_assoc in Hl. exact Hl. }
  assert (A2 : adjacent g v c) by (inversion Hr; auto).
  split.
  - intros [C1 C2].
    destruct (has_edge_spec g m1 v) as [Hv|Hv].
    + apply T1. split; auto.
    + assert (Hc2 : chain (adjacent g) (v :: m1 :: mt ++ [v])).
      { apply (chain_app_l _ _ (c :: r')); [discriminate|].
        apply (chain_app_r _ (l' ++ [a])); [discriminate|].
        replace ((v :: m1 :: mt ++ [v]) ++ c :: r') with (v :: (m1 :: mt) ++ v :: c :: r')
          by (simpl; rewrite <- app_assoc; auto).
        exact Hc. }
      assert (Ha2 : active g Z (v :: m1 :: mt ++ [v])).
      { apply (active_app_l _ _ _ (c :: r')).
        apply (active_app_r _ _ (l' ++ [a])).
        replace ((v :: m1 :: mt ++ [v]) ++ c :: r') with (v :: (m1 :: mt) ++ v :: c :: r')
          by (simpl; rewrite <- app_assoc; auto).
        exact Hact. }
      assert (Hvm : edge g v m1).
      { inversion Hc2; subst. destruct H1; auto; contradiction. }
      destruct (forward_run g Z _ _ _ Hc2 Hvm Ha2) as [Hreach|[d [Hd1 Hd2]]].
      * rewrite last_last in Hreach. exfalso. apply (Ha v). exists m1. split; auto.
      * exists d. split; auto. econstructor; eauto.
  - intro Hnc. apply not_collider_iff in Hnc; auto. destruct Hnc as [Hv|Hv].
    + apply T1. apply noncollider_child_l; auto.
    + apply T2. apply noncollider_child; auto.
Qed.

(* an active walk contains an active simple path *)
Lemma not_NoDup_split : forall l : list node, NoDup l \/ exists a v b c, l = a ++ v :: b ++ v :: c.
Proof.
  induction l as [|x l IH]; [left; constructor|].
  destruct (in_dec string_dec x l) as [H|H].
  - right. apply in_split in H. destruct H as [b [c H]]. subst. exists [], x, b, c. auto.
  - destruct IH as [IH|(a & v & b & c & E)].
    + left. constructor; auto.
    + right. subst. exists (x :: a), v, b, c. auto.
Qed.
Lemma walk_to_path : forall g Z n p s t, acyclic g -> length p <= n ->
  chain (adjacent g) p -> active g Z p -> from_to p s t ->
  exists q, simple_path g s t q /\ active g Z q.
Proof.
  intros g Z n. induction n as [|n IH]; intros p s t Ha Hn Hc Hact Hft.
  - destruct p; [inversion Hc|simpl in Hn; lia].
  - destruct (not_NoDup_split p) as [Hd|(a & v & b & c & E)].
    + exists p. split; auto. split; auto.
    + subst. destruct (cut_loop g Z a v b c Ha Hc Hact) as [H1 H2].
      apply (IH (a ++ v :: c)); auto.
      * rewrite app_length in *. simpl in *. rewrite app_length in Hn. simpl in Hn. lia.
      * destruct Hft as [F1 F2]. split.
        -- destruct a; auto.
        -- rewrite !rev_app_distr in *. simpl in *. rewrite !rev_app_distr in F2. simpl in F2.
           rewrite <- !app_assoc in *. simpl in *. destruct (rev c); auto.
Qed.

(* ---- the Bayes-ball search ---- *)
Lemma clos_ind_r : forall A (step : A -> list A) x (P : A -> Prop), P x ->
  (forall y z, clos step x y -> P y -> In z (step y) -> P z) -> forall y, clos step x y -> P y.
Proof.
  intros A step x P H0 HS y H.
  assert (Hgen : forall z, clos step z y -> clos step x z -> P z -> P y).
  { clear H. intros z Hz. induction Hz; auto. intros Hx HP. apply IHHz.
    - eapply clos_snoc; eauto.
    - eapply HS; eauto. }
  apply (Hgen x); auto. constructor.
Qed.

Section Ball.
  Variables (g : graph) (Z : list node) (s : node).
  Hypothesis Hd : wf_dag g.
  Hypothesis HZ : incl Z (nodes g).
  Hypothesis Hs : In s (nodes g).
  Let step := trail_step g Z (ancestors_of g Z).

  Lemma in_anc : forall n, mem n (ancestors_of g Z) = true <-> exists d, reach g n d /\ In d Z.
  Proof.
    intro n. rewrite mem_In, ancestors_of_iff; [|apply Hd|auto].
    split; intros [d [H1 H2]]; exists d; auto.
  Qed.

  (* how the walk arrives at its last node *)
  Definition arrives (l : list node) (n : node) (d : direction) : Prop :=
    match d with
    | Up => l = [] \/ exists l' c, l = l' ++ [c] /\ edge g n c
    | Down => exists l' p, l = l' ++ [p] /\ edge g p n
    end.
  Definition ball_walk (n : node) (d : direction) : Prop :=
    exists l, chain (adjacent g) (l ++ [n]) /\ active g Z (l ++ [n]) /\
      hd_error (l ++ [n]) = Some s /\ arrives l n d.

  Lemma in_step : forall n d m d', In (m, d') (step (n, d)) <->
    match d' with
    | Up => edge g m n /\ (d = Up -> ~ In n Z) /\ (d = Down -> exists x, reach g n x /\ In x Z)
    | Down => edge g n m /\ ~ In n Z
    end.
  Proof.
    intros n d m d'. unfold step, trail_step. destruct d.
    - destruct (mem_spec n Z) as [Hz|Hz].
      + split; [intros []|]. destruct d'; intros [H1 H2]; [|contradiction]. destruct H2 as [H2 _].
        exfalso. apply H2; auto.
      + rewrite in_app_iff, !in_map_iff. destruct d'; split.
        * intros [[x [E Hx]]|[x [E Hx]]]; inversion E; subst. apply in_parents in Hx.
          repeat split; auto. discriminate.
        * intros [H1 H2]. left. exists m. split; auto. apply in_parents; auto.
        * intros [[x [E Hx]]|[x [E Hx]]]; inversion E; subst. apply in_children in Hx. auto.
        * intros [H1 H2]. right. exists m. split; auto. apply in_children; auto.
    - rewrite in_app_iff. destruct d'; split.
      + intros [H|H].
        * destruct (mem n Z); [destruct H|]. apply in_map_iff in H. destruct H as [x [E _]]. inversion E.
        * destruct (mem n (ancestors_of g Z)) eqn:Ea; [|destruct H].
          apply in_map_iff in H. destruct H as [x [E Hx]]. inversion E; subst.
          apply in_parents in Hx. repeat split; auto; [discriminate|]. intros _. apply in_anc; auto.
      + intros (H1 & H2 & H3). right. assert (mem n (ancestors_of g Z) = true) by (apply in_anc; auto).
        rewrite H. apply in_map_iff. exists m. split; auto. apply in_parents; auto.
      + intros [H|H].
        * destruct (mem_spec n Z) as [Hz|Hz]; [destruct H|]. apply in_map_iff in H. destruct H as [x [E Hx]].
          inversion E; subst. apply in_children in Hx. auto.
        * destruct (mem n (ancestors_of g Z)); [|destruct H].
          apply in_map_iff in H. destruct H as [x [E Hx]]. inversion E.
      + intros [H1 H2]. left. destruct (mem_spec n Z) as [Hz|Hz]; [contradiction|].
        apply in_map_iff. exists m. split; auto. apply in_children; auto.
  Qed.

  Lemma ball_sound : forall n d, clos step (s, Up) (n, d) -> ball_walk n d.
  Proof.
    assert (Ha : acyclic g) by apply Hd.
    intros n d H.
    apply (clos_ind_r _ step (s, Up) (fun y => ball_walk (fst y) (snd y))) in H; auto.
    - simpl. exists []. simpl. split; [constructor|]. split; [apply active_short; simpl; lia|].
      simpl; auto.
    - intros [y dy] [z dz] _ (l & H1 & H2 & H3 & H4) Hin. simpl in *.
      apply in_step in Hin.
      assert (Hhd : hd_error ((l ++ [y]) ++ [z]) = Some s).
      { rewrite hd_error_app_l; auto. destruct l; discriminate. }
      destruct dz.
      + destruct Hin as (He & Hu & Hdn).
        exists (l ++ [y]). split; [|split; [|split; [auto|]]].
        * apply chain_snoc; auto. right; auto.
        * destruct (list_snoc _ l) as [E|[l' [p E]]]; subst; [apply active_short; simpl; lia|].
          rewrite <- !app_assoc in *. simpl in *. apply active_snoc. split; auto.
          destruct dy; simpl in H4.
          -- destruct H4 as [H4|(l2 & c & E & Hc)]; [destruct l'; discriminate|].
             apply app_inj_tail in E. destruct E; subst. split.
             ++ intros [C1 C2]. asym.
             ++ intros _. auto.
          -- destruct H4 as (l2 & c & E & Hc). apply app_inj_tail in E. destruct E; subst. split.
             ++ intros _. auto.
             ++ intro Hn. exfalso. apply Hn. split; auto.
        * right. exists l, y. auto.
      + destruct Hin as [He Hz].
        exists (l ++ [y]). split; [|split; [|split; [auto|]]].
        * apply chain_snoc; auto. left; auto.
        * destruct (list_snoc _ l) as [E|[l' [p E]]]; subst; [apply active_short; simpl; lia|].
          rewrite <- !app_assoc in *. simpl in *. apply active_snoc. split; auto.
          split.
          -- intros [C1 C2]. asym.
          -- auto.
        * exists l, y. auto.
  Qed.

  Lemma ball_complete : ~ In s Z -> forall l n, chain (adjacent g) (l ++ [n]) -> active g Z (l ++ [n]) ->
    hd_error (l ++ [n]) = Some s -> exists d, clos step (s, Up) (n, d) /\ arrives l n d.
  Proof.
    assert (Ha : acyclic g) by apply Hd.
    intros HsZ l. induction l as [|y l IH] using rev_ind; intros n H1 H2 H3.
    - simpl in H3. inversion H3; subst. exists Up. split; [constructor|left; auto].
    - apply chain_snoc_inv in H1. destruct H1 as [H1 Hadj].
      destruct (IH y H1) as [dy [Hcl Harr]].
      { eapply active_app_l; eauto. }
      { rewrite hd_error_app_l in H3; auto. destruct l; discriminate. }
      assert (Hopen : l = [] \/ exists l' p, l = l' ++ [p] /\ open_at g Z p y n).
      { destruct (list_snoc _ l) as [E|[l' [p E]]]; auto. right. exists l', p. split; auto. subst.
        rewrite <- !app_assoc in H2. simpl in H2. apply active_snoc in H2. apply H2. }
      destruct Hadj as [He|He].
      + exists Down. split.
        * eapply clos_snoc; eauto. apply in_step. split; auto.
          destruct Hopen as [E|(l' & p & E & Hopen)].
          -- subst. simpl in H3. inversion H3; subst; auto.
          -- apply Hopen. apply noncollider_child; auto.
        * exists l, y. auto.
      + exists Up. split.
        * eapply clos_snoc; eauto. apply in_step. repeat split; auto.
          -- intros ->. simpl in Harr. destruct Harr as [E|(l' & c & E & Hc)].
             ++ subst. simpl in H3. inversion H3; subst; auto.
             ++ destruct Hopen as [E'|(l2 & p & E2 & Hopen)]; [subst; destruct l'; discriminate|].
                subst l. apply app_inj_tail in E2. destruct E2; subst. apply Hopen.
                apply noncollider_child_l; auto.
          -- intros ->. simpl in Harr. destruct Harr as (l' & c & E & Hc).
             destruct Hopen as [E'|(l2 & p & E2 & Hopen)]; [subst; destruct l'; discriminate|].
             subst l. apply app_inj_tail in E2. destruct E2; subst. apply Hopen. split; auto.
        * right. exists l, y. auto.
  Qed.

  Lemma ball_start_observed : In s Z -> forall n d, clos step (s, Up) (n, d) -> n = s /\ d = Up.
  Proof.
    intros HsZ n d H. inversion H; subst; auto. destruct y as [y dy].
    apply in_step in H0. destruct dy; [destruct H0 as (_ & H0 & _); exfalso; apply H0; auto|destruct H0; contradiction].
  Qed.

  Lemma visited_iff : forall n d,
    In (n, d) (closure eqb_state step (trail_universe g) [(s, Up)]) <-> clos step (s, Up) (n, d).
  Proof.
    intros n d. rewrite closure_iff.
    - split; [intros [x [[E|[]] H]]; subst; auto|]. intro H. exists (s, Up). split; auto. left; auto.
    - intros [a da] [b db]. unfold eqb_state. simpl. rewrite andb_true_iff, String.eqb_eq.
      split; [intros [E1 E2]|intro E; inversion E; subst].
      + subst. destruct da, db; simpl in E2; congruence.
      + split; auto. destruct db; auto.
    - intros [a da] [b db] _ H. apply in_step in H.
      unfold trail_universe. rewrite in_app_iff, !in_map_iff.
      destruct db.
      + left. exists b. split; auto. eapply wf_edge_l; [apply Hd|apply H].
      + right. exists b. split; auto. eapply wf_edge_r; [apply Hd|apply H].
    - intros x [E|[]]. subst. unfold trail_universe. rewrite in_app_iff. left.
      apply in_map_iff. eauto.
  Qed.
End Ball.

Lemma active_trail_nodes_spec : forall g s Z, wf_dag g -> incl Z (nodes g) -> In s (nodes g) ->
  exists l, active_trail_nodes g s Z = Ok l /\ forall t, In t l <-> dconn g Z s t.
Proof.
  intros g s Z Hd HZ Hs. unfold active_trail_nodes.
  rewrite (proj2 (forallb_mem Z (nodes g)) HZ).
  apply mem_In in Hs as Hs'. rewrite Hs'.
  eexists. split; [reflexivity|]. intro t. rewrite filter_In, in_map_iff, negb_true_iff, mem_nIn.
  split.
  - intros [[[t' d] [E H]] HtZ]. simpl in E. subst t'.
    apply visited_iff in H; auto.
    destruct (in_dec string_dec s Z) as [HsZ|HsZ].
    + destruct (ball_start_observed g Z s Hd HZ Hs HsZ t d H). subst. contradiction.
    + apply ball_sound in H; auto. destruct H as (l & H1 & H2 & H3 & H4).
      repeat split; auto.
      eapply walk_to_path; eauto; [apply Hd|]. apply from_to_snoc; auto.
  - intros (HsZ & HtZ & p & (H1 & H2 & H3) & H4).
    destruct (from_to_inv _ _ _ H3) as [q [E1 E2]]. subst p.
    destruct (ball_complete g Z s Hd HZ HsZ q t H1 H4 E2) as [d [Hcl _]].
    split; auto. exists (t, d). split; auto. apply visited_iff; auto.
Qed.
Lemma is_dconnected_spec : forall g s t Z, wf_dag g -> incl Z (nodes g) -> In s (nodes g) ->
  exists b, is_dconnected g s t Z = Ok b /\ (b = true <-> dconn g Z s t).
Proof.
  intros g s t Z Hd HZ Hs. destruct (active_trail_nodes_spec g s Z Hd HZ Hs) as [l [H1 H2]].
  unfold is_dconnected. rewrite H1. simpl. eexists. split; [reflexivity|]. rewrite mem_In. apply H2.
Qed.
Lemma dconnected_b_iff : forall g s t Z, wf_dag g -> incl Z (nodes g) -> In s (nodes g) ->
  (dconnected_b g s t Z = true <-> dconn g Z s t).
Proof.
  intros g s t Z Hd HZ Hs. destruct (is_dconnected_spec g s t Z Hd HZ Hs) as [b [H1 H2]].
  unfold dconnected_b. rewrite H1. auto.
Qed.
Lemma dconn_dec : forall g s t Z, wf_dag g -> incl Z (nodes g) -> In s (nodes g) ->
  dconn g Z s t \/ ~ dconn g Z s t.
Proof.
  intros g s t Z Hd HZ Hs. rewrite <- (dconnected_b_iff g s t Z Hd HZ Hs).
  destruct (dconnected_b g s t Z); [left; auto|right; congruence].
Qed.
Lemma is_dconnected_errors : forall g s t Z,
  (~ incl Z (nodes g) -> is_dconnected g s t Z = Err ValueError) /\
  (incl Z (nodes g) -> ~ In s (nodes g) -> is_dconnected g s t Z = Err NetworkXError).
Proof.
  intros. unfold is_dconnected, active_trail_nodes.
  assert (E : forall b, forallb (fun z => mem z (nodes g)) Z = b -> (b = true <-> incl Z (nodes g)))
    by (intros; subst; apply forallb_mem).
  destruct (forallb (fun z => mem z (nodes g)) Z); specialize (E _ eq_refl); split; intros.
  - exfalso. apply H, E; auto.
  - apply mem_nIn in H0. rewrite H0. reflexivity.
  - reflexivity.
  - exfalso. assert (false = true) by (apply E; auto). discriminate.
Qed.

(* ---- find_active_path ---- *)
Section Find.
  Variables (o : order) (g : graph) (Z : list node).
  Hypothesis Ho : valid_order o.
  Hypothesis Hd : wf_dag g.
  Hypothesis HZ : incl Z (nodes g).

  Lemma last_forward_snoc : forall l p e, last_forward g ((l ++ [p]) ++ [e]) = has_edge g p e.
  Proof.
    intros. unfold last_forward. rewrite !rev_app_distr. simpl. apply mem_children.
  Qed.

  Lemma in_active_succ : forall q e x, In x (active_succ o g Z (q ++ [e])) <->
    ~ In x (q ++ [e]) /\
    ((edge g x e /\ ~ In x Z /\
        (last_forward g (q ++ [e]) = true -> exists d, reach g e d /\ In d Z)) \/
     (edge g e x /\ ~ In e Z)).
  Proof.
    intros. unfold active_succ, active_neighbours. rewrite end_of_snoc, valid_order_in by auto.
    rewrite in_set_diff, in_set_union.
    assert (HA : In x (if negb (last_forward g (q ++ [e])) || mem e (ancestors_of g Z)
                   then set_diff (parents g e) Z else []) <->
                 edge g x e /\ ~ In x Z /\
                 (last_forward g (q ++ [e]) = true -> exists d, reach g e d /\ In d Z)).
    { destruct (last_forward g (q ++ [e])); simpl.
      - destruct (mem e (ancestors_of g Z)) eqn:Em.
        + rewrite in_set_diff, in_parents. apply (in_anc g Z Hd HZ) in Em. tauto.
        + split; [intros []|]. intros (_ & _ & H). specialize (H eq_refl).
          apply (in_anc g Z Hd HZ) in H. congruence.
      - rewrite in_set_diff, in_parents. intuition discriminate. }
    assert (HB : In x (if mem e Z then [] else to_set (children g e)) <-> edge g e x /\ ~ In e Z).
    { destruct (mem_spec e Z); [simpl; tauto|]. rewrite in_to_set, in_children. tauto. }
    rewrite HA, HB. tauto.
  Qed.

  (* the prefixes explored by the search *)
  Definition first_ok (s : node) (q : list node) : Prop :=
    In s Z -> forall x r, q = s :: x :: r -> edge g x s.
  Definition end_ok (q : list node) : Prop :=
    forall l p e, q = l ++ [p; e] -> edge g e p -> ~ In e Z.

  Lemma grows_active : forall s t q, s <> t ->
    (grows (active_succ o g Z) t [s] q <->
     chain (adjacent g) q /\ NoDup q /\ hd_error q = Some s /\ ~ In t q /\
     active g Z q /\ first_ok s q /\ end_ok q).
  Proof.
    assert (Ha : acyclic g) by apply Hd.
    intros s t q Hst. split.
    - intro H. induction H as [|q x H IH Hx Ht].
      + repeat split; try constructor; auto; try (simpl; intros [E|[]]; congruence).
        * constructor.
        * intros _. exfalso. apply triple_length in H. simpl in H. lia.
        * intros _. exfalso. apply triple_length in H. simpl in H. lia.
        * intros _ x r E. discriminate.
        * intros l p e E. exfalso. apply (f_equal (@length _)) in E. rewrite app_length in E. simpl in E. lia.
      + destruct IH as (H1 & Hnd & H2 & H3 & H4 & H5 & H6).
        destruct (list_snoc _ q) as [E|[q' [e E]]]; subst; [inversion H1|].
        apply in_active_succ in Hx. destruct Hx as [Hx1 Hx2].
        assert (Hadj : adjacent g e x) by (unfold adjacent; tauto).
        split; [apply chain_snoc; auto|]. split; [apply NoDup_snoc; auto|].
        split; [rewrite hd_error_app_l; auto; destruct q'; discriminate|].
        split; [rewrite in_app_iff; simpl; intros [Hc|[Hc|[]]]; congruence|].
        split; [|split].
        * destruct (list_snoc _ q') as [E|[l' [p E]]]; subst; [apply active_short; simpl; lia|].
          rewrite <- !app_assoc. simpl. apply active_snoc. split.
          { rewrite <- app_assoc in H4. exact H4. }
          rewrite last_forward_snoc in Hx2. split.
          -- intros [C1 C2]. destruct Hx2 as [(X1 & X2 & X3)|[X1 X2]].
             ++ apply X3. apply has_edge_iff; auto.
             ++ asym.
          -- intro Hnc. destruct Hx2 as [(X1 & X2 & X3)|[X1 X2]]; auto.
             destruct (has_edge_spec g p e) as [Hpe|Hpe].
             ++ exfalso. apply Hnc. split; auto.
             ++ apply (H6 l' p e); [rewrite <- app_assoc; auto|].
                rewrite <- app_assoc in H1. simpl in H1. apply chain_mid in H1.
                destruct H1; auto; contradiction.
        * intros HsZ y r E. destruct q' as [|y0 q'].
          -- simpl in E. inversion E; subst. destruct Hx2 as [(X1 & _)|[X1 X2]]; auto. contradiction.
          -- simpl in E. injection E as E1 E2. subst y0.
             destruct q' as [|y1 q']; simpl in E2; injection E2 as E2 E3; subst.
             ++ apply (H5 HsZ y []). auto.
             ++ apply (H5 HsZ y (q' ++ [e])). auto.
        * intros l p e' E He. change (l ++ [p; e']) with (l ++ [p] ++ [e']) in E. rewrite app_assoc in E.
          apply app_inj_tail in E. destruct E as [E ?]. subst e'. apply app_inj_tail in E.
          destruct E; subst. destruct Hx2 as [(X1 & X2 & X3)|[X1 X2]]; auto.
          asym.
    - induction q as [|x q IH] using rev_ind; intros (H1 & Hn & H2 & H3 & H4 & H5 & H6); [inversion H1|].
      destruct (list_snoc _ q) as [E|[q' [e E]]]; subst.
      + simpl in H2. inversion H2; subst. constructor.
      + apply chain_snoc_inv in H1. destruct H1 as [H1 H1'].
        apply NoDup_remove in Hn as Hn'. rewrite app_nil_r in Hn'. destruct Hn' as [Hn1 Hn2].
        assert (H2' : hd_error (q' ++ [e]) = Some s).
        { rewrite hd_error_app_l in H2; auto. destruct q'; discriminate. }
        assert (Hfo : first_ok s (q' ++ [e])).
        { intros HsZ y r E. apply (H5 HsZ y (r ++ [x])). rewrite E. auto. }
        assert (Hopen : q' = [] \/ exists l' p, q' = l' ++ [p] /\ open_at g Z p e x).
        { destruct (list_snoc _ q') as [E|[l' [p E]]]; auto. right. exists l', p. split; auto. subst.
          rewrite <- !app_assoc in H4. simpl in H4. apply active_snoc in H4. apply H4. }
        apply grows_snoc.
        * apply IH. split; auto. split; auto. split; auto. split.
          { intro Hc. apply H3. apply in_or_app; auto. }
          split; [eapply active_app_l; eauto|]. split; auto.
          intros l p e' E He. change (l ++ [p; e']) with (l ++ [p] ++ [e']) in E. rewrite app_assoc in E.
          apply app_inj_tail in E. destruct E; subst.
          destruct Hopen as [E|(l' & p' & E & Hopen)]; [destruct l; discriminate|].
          apply app_inj_tail in E. destruct E; subst. apply Hopen. apply noncollider_child_l; auto.
        * apply in_active_succ. split; auto. destruct H1' as [He|He].
          -- right. split; auto. destruct Hopen as [E|(l' & p & E & Hopen)].
             ++ subst. simpl in H2'. inversion H2'; subst. intro HsZ.
                assert (edge g x s) by (apply (H5 HsZ x []); auto). asym.
             ++ apply Hopen. apply noncollider_child; auto.
          -- left. split; auto. split.
             ++ apply (H6 q' e x); auto. rewrite <- app_assoc. auto.
             ++ intro Hlf. destruct Hopen as [E|(l' & p & E & Hopen)].
                ** subst. discriminate.
                ** subst. rewrite last_forward_snoc in Hlf. apply has_edge_iff in Hlf. apply Hopen. split; auto.
        * intro; subst. apply H3. apply in_or_app; simpl; auto.
  Qed.
  Lemma bounded_active : forall s t n, In s (nodes g) -> s <> t ->
    length (nodes g) = S n -> bounded (active_succ o g Z) t n [s].
  Proof.
    intros s t n Hs Hst Hn. eapply bounded_simple; eauto; [apply Hd|].
    intros q Hq. apply grows_active in Hq; auto. destruct Hq as (H1 & Hnd & H2 & H3 & _). split; auto.
    destruct q; simpl in H2; inversion H2; subst. apply (chain_nodes g (adjacent g)); auto. apply Hd.
  Qed.
  Lemma in_active_paths : forall s t p, In s (nodes g) -> ~ In t Z ->
    (In p (dfs_paths (active_succ o g Z) s t (length (nodes g))) <->
     simple_path g s t p /\ active g Z p /\ first_ok s p).
  Proof.
    assert (Ha : acyclic g) by apply Hd.
    intros s t p Hs HtZ. unfold dfs_paths. destruct (String.eqb_spec s t) as [E|E].
    - subst. simpl. split.
      + intros [Hp|[]]. subst. split; [apply simple_path_one|]. split; [apply active_short; simpl; lia|].
        intros _ x r Ex. discriminate.
      + intros [H _]. left. symmetry. eapply simple_path_same; eauto.
    - destruct (in_nodes_pos _ _ Hs) as [n Hn]. rewrite Hn.
      rewrite in_dfs_from by (apply bounded_active; auto). split.
      + intros [q (H1 & H2 & H3)].
        apply grows_active in H1; auto. destruct H1 as (H1 & Hnd & H4 & H5 & H6 & H7 & H8).
        destruct (list_snoc _ q) as [Eq|[q' [e Eq]]]; subst; [inversion H1|].
        apply in_active_succ in H2. destruct H2 as [X1 X2].
        assert (Hadj : adjacent g e t) by (unfold adjacent; tauto).
        split; [|split].
        * repeat split.
          -- apply chain_snoc; auto.
          -- apply NoDup_snoc; auto.
          -- rewrite hd_error_app_l; auto. destruct q'; discriminate.
          -- rewrite rev_app_distr. reflexivity.
        * destruct (list_snoc _ q') as [E'|[l' [p E']]]; subst; [apply active_short; simpl; lia|].
          rewrite <- !app_assoc. simpl. apply active_snoc. split.
          { rewrite <- app_assoc in H6. exact H6. }
          rewrite last_forward_snoc in X2. split.
          -- intros [C1 C2]. destruct X2 as [(Y1 & Y2 & Y3)|[Y1 Y2]].
             ++ apply Y3. apply has_edge_iff; auto.
             ++ asym.
          -- intro Hnc. destruct X2 as [(Y1 & Y2 & Y3)|[Y1 Y2]]; auto.
             destruct (has_edge_spec g p e) as [Hpe|Hpe].
             ++ exfalso. apply Hnc. split; auto.
             ++ apply (H8 l' p e); [rewrite <- app_assoc; auto|].
                rewrite <- app_assoc in H1. simpl in H1. apply chain_mid in H1.
                destruct H1; auto; contradiction.
        * intros HsZ y r Ey. destruct q' as [|y0 q'].
          -- simpl in Ey. inversion Ey; subst. destruct X2 as [(Y1 & _)|[Y1 Y2]]; auto. contradiction.
          -- simpl in Ey. injection Ey as E1 E2. subst y0.
             destruct q' as [|y1 q']; simpl in E2; injection E2 as E2 E3; subst.
             ++ apply (H7 HsZ y []). auto.
             ++ apply (H7 HsZ y (q' ++ [e])). auto.
      + intros ((H1 & Hnd & H2) & H4 & H5). destruct (from_to_inv _ _ _ H2) as [q [E1 E2]]. subst p.
        destruct (list_snoc _ q) as [Eq|[q' [e Eq]]]; subst; [simpl in E2; congruence|].
        apply chain_snoc_inv in H1 as H1'. destruct H1' as [H3 H3'].
        apply NoDup_remove in Hnd. rewrite app_nil_r in Hnd. destruct Hnd as [Hn1 Hn2].
        assert (H2' : hd_error (q' ++ [e]) = Some s).
        { rewrite hd_error_app_l in E2; auto. destruct q'; discriminate. }
        assert (Hopen : q' = [] \/ exists l' p, q' = l' ++ [p] /\ open_at g Z p e t).
        { destruct (list_snoc _ q') as [Eq|[l' [p Eq]]]; auto. right. exists l', p. split; auto. subst.
          rewrite <- !app_assoc in H4. simpl in H4. apply active_snoc in H4. apply H4. }
        exists (q' ++ [e]). split; [|split; auto].
        * apply grows_active; auto. split; auto. split; auto. split; auto. split; auto.
          split; [eapply active_app_l; eauto|]. split.
          -- intros HsZ y r Ey. apply (H5 HsZ y (r ++ [t])). rewrite Ey. auto.
          -- intros l p e' Ey He. change (l ++ [p; e']) with (l ++ [p] ++ [e']) in Ey. rewrite app_assoc in Ey.
             apply app_inj_tail in Ey. destruct Ey; subst.
             destruct Hopen as [E'|(l' & p' & E' & Hopen)]; [destruct l; discriminate|].
             apply app_inj_tail in E'. destruct E'; subst. apply Hopen. apply noncollider_child_l; auto.
        * apply in_active_succ. split; auto. destruct H3' as [He|He].
          -- right. split; auto. destruct Hopen as [E'|(l' & p & E' & Hopen)].
             ++ subst. simpl in H2'. inversion H2'; subst. intro HsZ.
                assert (edge g t s) by (apply (H5 HsZ t []); auto). asym.
             ++ apply Hopen. apply noncollider_child; auto.
          -- left. split; auto. split; auto.
             intro Hlf. destruct Hopen as [E'|(l' & p & E' & Hopen)].
             ++ subst. discriminate.
             ++ subst. rewrite last_forward_snoc in Hlf. apply has_edge_iff in Hlf. apply Hopen. split; auto.
  Qed.

  Lemma find_active_path_cases : forall s t, In s (nodes g) -> In t (nodes g) ->
    match find_active_path o g s t Z with
    | Ok p => simple_path g s t p /\ active g Z p /\ first_ok s p /\ ~ In t Z
    | Err e => e = ValueError /\
        (In t Z \/ forall p, simple_path g s t p -> active g Z p -> first_ok s p -> False)
    end.
  Proof.
    intros s t Hs Ht. unfold find_active_path.
    assert (E : forallb (fun n => mem n (nodes g)) (Z ++ [s; t]) = true).
    { apply forallb_mem. intros x Hx. apply in_app_or in Hx. destruct Hx as [Hx|[Hx|[Hx|[]]]]; subst; auto. }
    rewrite E. destruct (mem_spec t Z) as [HtZ|HtZ]; [auto|].
    destruct (dfs_paths (active_succ o g Z) s t (length (nodes g))) as [|p ps] eqn:Ed.
    - split; auto. right. intros p H1 H2 H3.
      assert (In p (dfs_paths (active_succ o g Z) s t (length (nodes g)))) by (apply in_active_paths; auto).
      rewrite Ed in H. destruct H.
    - assert (In p (dfs_paths (active_succ o g Z) s t (length (nodes g)))) by (rewrite Ed; left; auto).
      apply in_active_paths in H; auto. tauto.
  Qed.

  Lemma find_active_path_machine : forall s t, In s (nodes g) ->
    exists fuel, forall n, dfs_machine (active_succ o g Z) s t (fuel + n) =
      Some (dfs_paths (active_succ o g Z) s t (length (nodes g))).
  Proof.
    intros s t Hs. destruct (string_dec s t) as [E|E].
    - exists 0. intro n. unfold dfs_machine, dfs_paths. subst. rewrite String.eqb_refl; auto.
    - destruct (in_nodes_pos _ _ Hs) as [n Hn].
      destruct (dfs_machine_halts _ _ _ _ (bounded_active s t n Hs E Hn)) as [f Hf].
      exists f. intro m. rewrite Hf, Hn. auto.
  Qed.
End Find.

(* ---- motifs ---- *)
Lemma nth_app_mid : forall (A : Type) (l r : list A) x d, nth (length l) (l ++ x :: r) d = x.
Proof. induction l; simpl; auto. Qed.
