(* Path enumeration (get_paths.py) against the textbook notions. *)
From Coq Require Import String List Bool Arith Permutation Lia.
Import ListNotations.
From Verif Require Import MBase MGraph MPaths Spec LBase LGraph LDfs.

(* ---- lists ---- *)
Lemma list_snoc : forall (A : Type) (l : list A), l = [] \/ exists l' x, l = l' ++ [x].
Proof.
  intros A l. destruct l as [|a l]; auto. right.
  destruct (exists_last (l := a :: l)) as [l' [x H]]; [discriminate|]. eauto.
Qed.
Lemma from_to_snoc : forall q x s t, from_to (q ++ [x]) s t <-> (hd_error (q ++ [x]) = Some s /\ x = t).
Proof.
  intros. unfold from_to. rewrite rev_app_distr. simpl. split; intros [H1 H2]; split; auto; congruence.
Qed.
Lemma from_to_inv : forall p s t, from_to p s t -> exists q, p = q ++ [t] /\ hd_error p = Some s.
Proof.
  intros p s t H. destruct (list_snoc _ p) as [E|[q [x E]]]; subst.
  - destruct H; discriminate.
  - apply from_to_snoc in H. destruct H; subst. eauto.
Qed.
Lemma from_to_cons_inv : forall p s t, from_to p s t -> exists q, p = s :: q.
Proof. intros p s t [H _]. destruct p; simpl in H; inversion H; eauto. Qed.
Lemma from_to_one : forall s, from_to [s] s s.
Proof. split; reflexivity. Qed.
Lemma hd_error_app : forall (A : Type) (q r : list A) x, hd_error (q ++ [x]) = hd_error (q ++ x :: r).
Proof. destruct q; reflexivity. Qed.
Lemma hd_error_app_l : forall (A : Type) (q r : list A), q <> [] -> hd_error (q ++ r) = hd_error q.
Proof. destruct q; simpl; congruence. Qed.

Lemma chain_nonempty : forall R p, chain R p -> p <> [].
Proof. intros R p H. destruct H; discriminate. Qed.
Lemma chain_snoc : forall R q e x, chain R (q ++ [e]) -> R e x -> chain R ((q ++ [e]) ++ [x]).
Proof.
  intros R q. induction q as [|a q IH]; simpl; intros e x H Hr.
  - constructor; auto. constructor.
  - destruct q as [|b q]; simpl in *.
    + inversion H; subst. constructor; auto.
    + inversion H; subst. constructor; auto.
Qed.
Lemma chain_app_l : forall R q r, q <> [] -> chain R (q ++ r) -> chain R q.
Proof.
  intros R q. induction q as [|a q IH]; simpl; intros r Hn H; [congruence|].
  destruct q as [|b q]; [constructor|]. simpl in *. inversion H; subst. constructor; auto.
  eapply IH; eauto. discriminate.
Qed.
Lemma chain_app_r : forall R q r, r <> [] -> chain R (q ++ r) -> chain R r.
Proof.
  intros R q. induction q as [|a q IH]; simpl; intros r Hn H; auto.
  apply IH; auto. inversion H; subst; auto. destruct q; [|discriminate]. simpl in *. congruence.
Qed.
Lemma chain_mid : forall R q a b r, chain R (q ++ a :: b :: r) -> R a b.
Proof.
  intros R q a b r H. apply chain_app_r in H; [|discriminate]. inversion H; auto.
Qed.
Lemma chain_snoc_inv : forall R q e x, chain R ((q ++ [e]) ++ [x]) -> chain R (q ++ [e]) /\ R e x.
Proof.
  intros R q e x H. split.
  - eapply chain_app_l; [|exact H]. destruct q; discriminate.
  - rewrite <- app_assoc in H. simpl in H. eapply chain_mid; eauto.
Qed.
Lemma chain_app : forall R q e r, chain R (q ++ [e]) -> chain R (e :: r) -> chain R (q ++ e :: r).
Proof.
  intros R q. induction q as [|a q IH]; simpl; intros e r H1 H2; auto.
  destruct q as [|b q]; simpl in *; inversion H1; subst; constructor; auto.
Qed.
Lemma chain_impl : forall (R S : node -> node -> Prop) p, (forall a b, R a b -> S a b) -> chain R p -> chain S p.
Proof. intros R S p H Hc. induction Hc; constructor; auto. Qed.
Lemma chain_rev : forall (R : node -> node -> Prop) p, (forall a b, R a b -> R b a) -> chain R p -> chain R (rev p).
Proof.
  intros R p Hs H. induction H; simpl; [constructor|].
  simpl in IHchain. apply chain_snoc; auto.
Qed.

(* ---- directed chains ---- *)
Lemma chain_edge_reach : forall g q e, chain (edge g) (q ++ [e]) -> forall x, In x (q ++ [e]) -> reach g x e.
Proof.
  intros g q. induction q as [|a q IH]; simpl; intros e H x Hx.
  - destruct Hx as [Hx|[]]; subst; constructor.
  - assert (Hc : chain (edge g) (q ++ [e])).
    { inversion H; subst; auto. destruct q; discriminate. }
    destruct Hx as [Hx|Hx]; [|apply IH; auto]. subst x.
    destruct q as [|b q]; simpl in *; inversion H; subst.
    + apply reach_edge; auto.
    + econstructor; eauto.
Qed.
Lemma chain_edge_reach_hd : forall g p s, chain (edge g) (s :: p) -> forall x, In x (s :: p) -> reach g s x.
Proof.
  intros g p. induction p as [|a p IH]; intros s H x Hx.
  - destruct Hx as [Hx|[]]; subst; constructor.
  - inversion H; subst. destruct Hx as [Hx|Hx]; [subst; constructor|].
    econstructor; eauto.
Qed.
Lemma chain_edge_NoDup : forall g p, acyclic g -> chain (edge g) p -> NoDup p.
Proof.
  intros g p Ha H. induction H.
  - constructor; auto. constructor.
  - constructor; auto. intro Hx. apply (Ha x). exists y; split; auto.
    eapply chain_edge_reach_hd; eauto.
Qed.
Lemma chain_nodes : forall g (R : node -> node -> Prop) p s, wf_graph g -> (forall a b, R a b -> adjacent g a b) ->
  chain R (s :: p) -> In s (nodes g) -> incl (s :: p) (nodes g).
Proof.
  intros g R p. induction p as [|a p IH]; intros s Hw HR H Hs x Hx.
  - destruct Hx as [Hx|[]]; subst; auto.
  - inversion H; subst. destruct Hx as [Hx|Hx]; [subst; auto|].
    apply (IH a); auto. apply HR in H2. destruct H2 as [H2|H2]; [eapply wf_edge_r|eapply wf_edge_l]; eauto.
Qed.

(* ---- C01 ---- *)
Lemma in_dir_succ : forall g q e x, In x (dir_succ g (q ++ [e])) <-> edge g e x.
Proof. intros. unfold dir_succ. rewrite end_of_snoc. apply in_children. Qed.

Lemma grows_dir : forall g s t q, s <> t ->
  (grows (dir_succ g) t [s] q <-> chain (edge g) q /\ hd_error q = Some s /\ ~ In t q).
Proof.
  intros g s t q Hst. split.
  - intro H. induction H as [|q x H IH Hx Ht].
    + repeat split; [constructor|]. simpl. intros [E|[]]; congruence.
    + destruct IH as (H1 & H2 & H3). destruct (list_snoc _ q) as [E|[q' [e E]]]; subst; [inversion H1|].
      apply in_dir_succ in Hx. repeat split.
      * apply chain_snoc; auto.
      * rewrite hd_error_app_l; auto. destruct q'; discriminate.
      * rewrite in_app_iff. simpl. intros [Hc|[Hc|[]]]; congruence.
  - induction q as [|x q IH] using rev_ind; intros (H1 & H2 & H3); [inversion H1|].
    destruct (list_snoc _ q) as [E|[q' [e E]]]; subst.
    + simpl in H2. inversion H2; subst. constructor.
    + apply chain_snoc_inv in H1. destruct H1 as [H1 H1'].
      apply grows_snoc.
      * apply IH. repeat split; auto.
        -- rewrite hd_error_app_l in H2; auto. destruct q'; discriminate.
        -- intro Hc. apply H3. apply in_or_app; auto.
      * apply in_dir_succ; auto.
      * intro; subst. apply H3. apply in_or_app; simpl; auto.
Qed.
Lemma in_nodes_pos : forall g s, In s (nodes g) -> exists n, length (nodes g) = S n.
Proof. intros g s H. destruct (nodes g); [destruct H|simpl; eauto]. Qed.

Lemma bounded_simple : forall g succ s t n, wf_graph g -> In s (nodes g) -> length (nodes g) = S n ->
  (forall q, grows succ t [s] q -> NoDup q /\ incl q (nodes g)) -> bounded succ t n [s].
Proof.
  intros g succ s t n Hw Hs Hn H q Hq. destruct (H q Hq) as [H1 H2].
  pose proof (NoDup_incl_length H1 H2). simpl. lia.
Qed.
Lemma bounded_dir : forall g s t n, wf_dag g -> In s (nodes g) -> s <> t -> length (nodes g) = S n ->
  bounded (dir_succ g) t n [s].
Proof.
  intros g s t n [Hw Ha] Hs Hst Hn. eapply bounded_simple; eauto.
  intros q Hq. apply grows_dir in Hq; auto. destruct Hq as (H1 & H2 & H3). split.
  - eapply chain_edge_NoDup; eauto.
  - destruct q; simpl in H2; inversion H2; subst.
    apply (chain_nodes g (edge g)); auto. intros; left; auto.
Qed.

Lemma find_all_dir_paths_spec : forall g s t, wf_dag g -> In s (nodes g) -> In t (nodes g) ->
  exists ps, find_all_dir_paths g s t = Ok ps /\ NoDup ps /\
    forall p, In p ps <-> directed_path g s t p.
Proof.
  intros g s t Hd Hs Ht. unfold find_all_dir_paths.
  apply mem_In in Hs as Hs'. apply mem_In in Ht as Ht'. rewrite Hs', Ht'. simpl.
  eexists. split; [reflexivity|]. split.
  { apply NoDup_dfs_paths. intros q. apply NoDup_children, Hd. }
  intro p. unfold dfs_paths. destruct (String.eqb_spec s t) as [E|E].
  - subst. simpl. split.
    + intros [Hp|[]]. subst. split; [constructor|apply from_to_one].
    + intros [H1 H2]. left. destruct (from_to_inv _ _ _ H2) as [q [E1 E2]]. subst p.
      destruct q as [|a q]; auto. exfalso. simpl in E2. inversion E2; subst.
      assert (Hnd : NoDup (t :: q ++ [t])) by (eapply chain_edge_NoDup; [apply Hd|exact H1]).
      inversion Hnd; subst. apply H3. apply in_or_app; simpl; auto.
  - destruct (in_nodes_pos _ _ Hs) as [n Hn]. rewrite Hn.
    rewrite in_dfs_from by (apply bounded_dir; auto). split.
    + intros [q (H1 & H2 & H3)]. apply grows_dir in H1; auto. destruct H1 as (H1 & H4 & H5).
      destruct (list_snoc _ q) as [Eq|[q' [e Eq]]]; subst; [inversion H1|].
      apply in_dir_succ in H2. split; [apply chain_snoc; auto|].
      apply from_to_snoc. split; auto. rewrite hd_error_app_l; auto. destruct q'; discriminate.
    + intros [H1 H2]. destruct (from_to_inv _ _ _ H2) as [q [E1 E2]]. subst p.
      destruct (list_snoc _ q) as [Eq|[q' [e Eq]]]; subst; [simpl in E2; congruence|].
      apply chain_snoc_inv in H1 as H1'. destruct H1' as [H3 H4].
      exists (q' ++ [e]). repeat split; auto.
      * apply grows_dir; auto. repeat split; auto.
        -- rewrite hd_error_app_l in E2; auto. destruct q'; discriminate.
        -- intro Hc. pose proof (chain_edge_NoDup g _ (proj2 Hd) H1) as Hnd.
           apply NoDup_remove_2 in Hnd. rewrite app_nil_r in Hnd. auto.
      * apply in_dir_succ; auto.
Qed.

(* the generator itself stops and yields that list *)
Lemma find_all_dir_paths_machine : forall g s t, wf_dag g -> In s (nodes g) -> In t (nodes g) ->
  exists fuel, forall n ps, find_all_dir_paths g s t = Ok ps ->
    dfs_machine (dir_succ g) s t (fuel + n) = Some ps.
Proof.
  intros g s t Hd Hs Ht. unfold find_all_dir_paths.
  apply mem_In in Hs as Hs'. apply mem_In in Ht as Ht'. rewrite Hs', Ht'. simpl.
  destruct (string_dec s t) as [E|E].
  - exists 0. intros n ps H. inversion H; subst. unfold dfs_machine, dfs_paths. rewrite String.eqb_refl; auto.
  - destruct (in_nodes_pos _ _ Hs) as [n Hn].
    destruct (dfs_machine_halts _ _ _ _ (bounded_dir g s t n Hd Hs E Hn)) as [f Hf].
    exists f. intros m ps H. inversion H; subst. rewrite Hf, Hn. auto.
Qed.

(* ---- C02 ---- *)
Lemma in_undir_succ : forall o g q e x, valid_order o ->
  (In x (undir_succ o g (q ++ [e])) <-> adjacent g e x /\ ~ In x (q ++ [e])).
Proof.
  intros. unfold undir_succ. rewrite end_of_snoc, valid_order_in by auto.
  rewrite in_set_diff, in_app_iff, in_children, in_parents. unfold adjacent. tauto.
Qed.
Lemma grows_undir : forall o g s t q, valid_order o -> s <> t ->
  (grows (undir_succ o g) t [s] q <-> chain (adjacent g) q /\ NoDup q /\ hd_error q = Some s /\ ~ In t q).
Proof.
  intros o g s t q Ho Hst. split.
  - intro H. induction H as [|q x H IH Hx Ht].
    + repeat split; [constructor| |]. { constructor; auto. constructor. } simpl. intros [E|[]]; congruence.
    + destruct IH as (H1 & Hn & H2 & H3). destruct (list_snoc _ q) as [E|[q' [e E]]]; subst; [inversion H1|].
      apply in_undir_succ in Hx; auto. destruct Hx as [Hx1 Hx2]. repeat split.
      * apply chain_snoc; auto.
      * apply NoDup_snoc; auto.
      * rewrite hd_error_app_l; auto. destruct q'; discriminate.
      * rewrite in_app_iff. simpl. intros [Hc|[Hc|[]]]; congruence.
  - induction q as [|x q IH] using rev_ind; intros (H1 & Hn & H2 & H3); [inversion H1|].
    destruct (list_snoc _ q) as [E|[q' [e E]]]; subst.
    + simpl in H2. inversion H2; subst. constructor.
    + apply chain_snoc_inv in H1. destruct H1 as [H1 H1'].
      apply NoDup_remove in Hn as Hn'. rewrite app_nil_r in Hn'. destruct Hn' as [Hn1 Hn2].
      apply grows_snoc.
      * apply IH. repeat split; auto.
        -- rewrite hd_error_app_l in H2; auto. destruct q'; discriminate.
        -- intro Hc. apply H3. apply in_or_app; auto.
      * apply in_undir_succ; auto.
      * intro; subst. apply H3. apply in_or_app; simpl; auto.
Qed.
Lemma bounded_undir : forall o g s t n, valid_order o -> wf_graph g -> In s (nodes g) -> s <> t ->
  length (nodes g) = S n -> bounded (undir_succ o g) t n [s].
Proof.
  intros o g s t n Ho Hw Hs Hst Hn. eapply bounded_simple; eauto.
  intros q Hq. apply grows_undir in Hq; auto. destruct Hq as (H1 & Hd & H2 & H3). split; auto.
  destruct q; simpl in H2; inversion H2; subst.
  eapply chain_nodes; eauto.
Qed.
Lemma simple_path_same : forall g s p, simple_path g s s p -> p = [s].
Proof.
  intros g s p (H1 & H2 & H3). destruct (from_to_inv _ _ _ H3) as [q [E1 E2]]. subst p.
  destruct q as [|a q]; auto. exfalso. simpl in E2. inversion E2; subst.
  inversion H2; subst. apply H4. apply in_or_app; simpl; auto.
Qed.
Lemma simple_path_one : forall g s, simple_path g s s [s].
Proof. intros. repeat split; try constructor; auto. constructor. Qed.
Lemma NoDup_undir_succ : forall o g q, valid_order o -> NoDup (undir_succ o g q).
Proof. intros. apply valid_order_NoDup; auto. apply NoDup_set_diff. Qed.

Lemma find_all_undir_paths_spec : forall o g s t, valid_order o -> wf_graph g -> In s (nodes g) -> In t (nodes g) ->
  exists ps, find_all_undir_paths o g s t = Ok ps /\ NoDup ps /\
    forall p, In p ps <-> simple_path g s t p.
Proof.
  intros o g s t Ho Hd Hs Ht. unfold find_all_undir_paths.
  apply mem_In in Hs as Hs'. apply mem_In in Ht as Ht'. rewrite Hs', Ht'. simpl.
  eexists. split; [reflexivity|]. split.
  { apply NoDup_dfs_paths. intros q. apply NoDup_undir_succ; auto. }
  intro p. unfold dfs_paths. destruct (String.eqb_spec s t) as [E|E].
  - subst. simpl. split.
    + intros [Hp|[]]. subst. apply simple_path_one.
    + intro H. left. symmetry. eapply simple_path_same; eauto.
  - destruct (in_nodes_pos _ _ Hs) as [n Hn]. rewrite Hn.
    rewrite in_dfs_from by (apply bounded_undir; auto). split.
    + intros [q (H1 & H2 & H3)]. apply grows_undir in H1; auto. destruct H1 as (H1 & Hnd & H4 & H5).
      destruct (list_snoc _ q) as [Eq|[q' [e Eq]]]; subst; [inversion H1|].
      apply in_undir_succ in H2; auto. destruct H2 as [H2 H2']. repeat split.
      * apply chain_snoc; auto.
      * apply NoDup_snoc; auto.
      * rewrite hd_error_app_l; auto. destruct q'; discriminate.
      * rewrite rev_app_distr. reflexivity.
    + intros (H1 & Hnd & H2). destruct (from_to_inv _ _ _ H2) as [q [E1 E2]]. subst p.
      destruct (list_snoc _ q) as [Eq|[q' [e Eq]]]; subst; [simpl in E2; congruence|].
      apply chain_snoc_inv in H1 as H1'. destruct H1' as [H3 H4].
      apply NoDup_remove in Hnd. rewrite app_nil_r in Hnd. destruct Hnd as [Hn1 Hn2].
      exists (q' ++ [e]). repeat split; auto.
      * apply grows_undir; auto. repeat split; auto.
        rewrite hd_error_app_l in E2; auto. destruct q'; discriminate.
      * apply in_undir_succ; auto.
Qed.
Lemma find_all_undir_paths_machine : forall o g s t, valid_order o -> wf_graph g -> In s (nodes g) -> In t (nodes g) ->
  exists fuel, forall n ps, find_all_undir_paths o g s t = Ok ps ->
    dfs_machine (undir_succ o g) s t (fuel + n) = Some ps.
Proof.
  intros o g s t Ho Hd Hs Ht. unfold find_all_undir_paths.
  apply mem_In in Hs as Hs'. apply mem_In in Ht as Ht'. rewrite Hs', Ht'. simpl.
  destruct (string_dec s t) as [E|E].
  - exists 0. intros n ps H. inversion H; subst. unfold dfs_machine, dfs_paths. rewrite String.eqb_refl; auto.
  - destruct (in_nodes_pos _ _ Hs) as [n Hn].
    destruct (dfs_machine_halts _ _ _ _ (bounded_undir o g s t n Ho Hd Hs E Hn)) as [f Hf].
    exists f. intros m ps H. inversion H; subst. rewrite Hf, Hn. auto.
Qed.

(* ---- C09 ---- *)
Lemma in_interior : forall p x, In x (interior p) <-> exists a l r b, p = a :: l ++ x :: r ++ [b].
Proof.
  intros p x. unfold interior. destruct p as [|a p]; simpl.
  - split; [intros []|]. intros (a & l & r & b & H). discriminate.
  - destruct (list_snoc _ p) as [E|[q [b E]]]; subst.
    + simpl. split; [intros []|]. intros (a' & l & r & b & H). inversion H. destruct l; discriminate.
    + rewrite removelast_last. split.
      * intro H. apply in_split in H. destruct H as [l [r H]]. subst. exists a, l, r, b.
        rewrite <- app_assoc. reflexivity.
      * intros (a' & l & r & b' & H). inversion H; subst.
        change (x :: r ++ [b']) with ((x :: r) ++ [b']) in H2. rewrite app_assoc in H2.
        apply app_inj_tail in H2. destruct H2; subst. apply in_or_app; simpl; auto.
Qed.
