(* The mechanism graph and pendant parents. *)
From Coq Require Import String List Bool Arith Permutation Lia.
Import ListNotations.
From Verif Require Import MBase MGraph MMacid Spec SpecM LBase LGraph LDfs LPaths LActive LRoles LCopy.
Local Open Scope list_scope.

(* --- strings ---------------------------------------------------------------------------- *)
Lemma append_assoc : forall a b c : string, ((a ++ b) ++ c = a ++ (b ++ c))%string.
Proof. induction a as [|x a IH]; intros b c; simpl; auto. f_equal. auto. Qed.
Lemma length_append : forall a b : string, String.length (a ++ b)%string = String.length a + String.length b.
Proof. induction a as [|x a IH]; intro b; simpl; auto. Qed.
Lemma append_inj_l : forall a b c : string, (a ++ c = b ++ c)%string -> a = b.
Proof.
  induction a as [|x a IH]; intros [|y b] c H; simpl in *; auto.
  - exfalso. assert (E := f_equal String.length H). simpl in E. rewrite length_append in E. lia.
  - exfalso. assert (E := f_equal String.length H). simpl in E. rewrite length_append in E. lia.
  - inversion H; subst. f_equal. eauto.
Qed.
Lemma mec_inj : forall a b, mec a = mec b -> a = b.
Proof. unfold mec. intros. eapply append_inj_l; eauto. Qed.
Lemma mec_neq : forall a, mec a <> a.
Proof. unfold mec. intros a H. assert (E := f_equal String.length H). rewrite length_append in E. simpl in E. lia. Qed.
Lemma substring_prefix : forall s k, k <= String.length s ->
  exists t, s = (substring 0 k s ++ t)%string /\ String.length t = String.length s - k /\
            String.length (substring 0 k s) = k.
Proof.
  induction s as [|x s IH]; intros k H; simpl in *.
  - destruct k; [|lia]. exists ""%string. simpl. auto.
  - destruct k as [|k]; simpl.
    + exists (String x s). auto.
    + destruct (IH k) as [t (E1 & E2 & E3)]; [lia|]. exists t. simpl. rewrite <- E1. auto.
Qed.
Lemma drop_last3_mec : forall n, drop_last3 n = "mec"%string -> exists s, String.length s = 3 /\ n = ("mec" ++ s)%string.
Proof.
  intros n H. unfold drop_last3 in H.
  destruct (substring_prefix n (String.length n - 3)) as [t (E1 & E2 & E3)]; [lia|].
  rewrite H in *. simpl in E3. exists t. split; [lia|auto].
Qed.
Lemma drop_last3_mec_conv : forall s, String.length s = 3 -> drop_last3 ("mec" ++ s)%string = "mec"%string.
Proof.
  intros s H. unfold drop_last3. rewrite length_append, H. destruct s; reflexivity.
Qed.

(* --- building the mechanism graph -------------------------------------------------------- *)
Lemma no_in_reach : forall g u v, (forall a, ~ edge g a v) -> reach g u v -> u = v.
Proof.
  intros g u v H R. destruct (reach_descends _ _ _ R) as [|D]; auto.
  apply descends_last in D. destruct D as [w [_ E]]. exfalso. eapply H; eauto.
Qed.
Lemma add_mechanisms_spec : forall g todo h done, wf_dag g -> no_clash g -> incl (done ++ todo) (nodes g) ->
  wf_dag h -> (forall u v, edge h u v <-> edge g u v \/ (In v done /\ u = mec v)) ->
  (forall x, In x (nodes h) <-> (exists y, adjacent g x y) \/ exists n, In n done /\ (x = n \/ x = mec n)) ->
  exists h', add_mechanisms h todo = Ok h' /\ wf_dag h' /\
    (forall u v, edge h' u v <-> edge g u v \/ (In v (done ++ todo) /\ u = mec v)) /\
    (forall x, In x (nodes h') <-> (exists y, adjacent g x y) \/ exists n, In n (done ++ todo) /\ (x = n \/ x = mec n)).
Proof.
  intros g todo. induction todo as [|n todo IH]; intros h done W C I Wh He Hn; simpl.
  - exists h. rewrite app_nil_r. auto.
  - assert (Hng : In n (nodes g)) by (apply I; apply in_or_app; simpl; auto).
    destruct (C n Hng) as [C1 C2].
    destruct (String.eqb_spec (drop_last3 n) "mec") as [E|E].
    { exfalso. apply C2. apply drop_last3_mec; auto. }
    assert (Hin : forall a, ~ edge (add_node h (mec n)) a (mec n)).
    { intros a Ha. unfold edge in Ha. rewrite edges_add_node in Ha. apply He in Ha.
      apply C1. destruct Ha as [Ha|[Ha _]].
      - destruct W as [[_ [_ W]] _]. apply (W _ _ Ha).
      - apply I. apply in_or_app; auto. }
    assert (Wa : wf_dag (add_node h (mec n))).
    { destruct Wh as [Wh Ah]. split; [apply wf_add_node; auto|]. eapply acyclic_sub; [|apply Ah].
      intros a b. unfold edge. rewrite edges_add_node. auto. }
    assert (Hb : bn_add_edge (add_node h (mec n)) (mec n) n = Ok (nx_add_edge (add_node h (mec n)) (mec n) n)).
    { unfold bn_add_edge. destruct (String.eqb_spec (mec n) n) as [E'|E']; [exfalso; eapply mec_neq; eauto|].
      match goal with |- (if ?c then _ else _) = _ => destruct c eqn:Ep; auto end.
      exfalso. apply andb_true_iff in Ep. destruct Ep as [Ep1 Ep]. apply andb_true_iff in Ep1. destruct Ep1 as [_ Ep1].
      apply mem_In in Ep1. apply has_path_iff in Ep; [|apply Wa|auto].
      assert (X := no_in_reach _ _ _ Hin Ep). apply (mec_neq n). auto. }
    rewrite Hb. cbn [bind].
    assert (Wb := bn_add_edge_ok _ _ _ _ Wa Hb). destruct Wb as [Wb _].
    destruct (IH (nx_add_edge (add_node h (mec n)) (mec n) n) (done ++ [n])) as [h' (E1 & E2 & E3 & E4)]; auto.
    + rewrite <- app_assoc. auto.
    + intros u v. rewrite edge_nx_add_edge. unfold edge at 1. rewrite edges_add_node. fold (edge h u v). rewrite He.
      rewrite in_app_iff. simpl. split.
      * intros [[H|[H1 H2]]|[H1 H2]]; subst; auto.
      * intros [H|[[H1|[H1|[]]] H2]]; subst; auto.
    + intros x. rewrite nodes_nx_add_edge, in_add_node, Hn. setoid_rewrite in_app_iff. simpl. split.
      * intros [[[H|[y [H1 H2]]]|H]|[H|H]]; subst; eauto 8.
      * intros [H|[y [[H1|[H1|[]]] [H2|H2]]]]; subst; eauto 8.
    + exists h'. rewrite <- app_assoc in E3, E4. auto.
Qed.
(* specification of the result *)
Definition is_mech_graph (g h : graph) : Prop :=
  wf_dag h /\
  (forall u v, edge h u v <-> edge g u v \/ (In v (nodes g) /\ u = mec v)) /\
  (forall x, In x (nodes h) <-> In x (nodes g) \/ exists n, In n (nodes g) /\ x = mec n).
Lemma edges_view_nodes : forall g x, wf_graph g ->
  (In x (nodes (load_edges (edges_view g))) <-> exists y, adjacent g x y).
Proof.
  intros g x W. rewrite load_edges_nodes. split.
  - intros [e [H1 H2]]. destruct e as [a b]. simpl in H2. apply in_edges_view in H1; auto. unfold adjacent.
    destruct H2; subst; eauto.
  - intros [y [H|H]]; apply in_edges_view in H; auto; eexists; split; eauto; simpl; auto.
Qed.
Lemma load_view_wf : forall g, wf_dag g -> wf_dag (load_edges (edges_view g)) /\
  forall u v, edge (load_edges (edges_view g)) u v <-> edge g u v.
Proof.
  intros g [W A]. assert (E : forall u v, edge (load_edges (edges_view g)) u v <-> edge g u v).
  { intros. rewrite load_edges_edge. apply in_edges_view; auto. }
  split; auto. split; [apply load_edges_wf|]. eapply acyclic_sub; [|apply A]. intros a b H. apply E; auto.
Qed.
Lemma new_graph_view : forall g, wf_dag g -> new_graph (edges_view g) = Ok (load_edges (edges_view g)).
Proof.
  intros g W. destruct (load_view_wf g W) as [[W1 A1] E]. unfold new_graph.
  destruct (has_cycle (load_edges (edges_view g))) eqn:Ec; auto.
  apply has_cycle_iff in A1; auto. congruence.
Qed.
Lemma mechanism_graph_ok : forall m, wf_dag (mgraph m) -> no_clash (mgraph m) ->
  exists h, mechanism_graph m = Ok (mkM h (agent_decisions m) (agent_utilities m)
      (owner_dict (agent_decisions m)) (owner_dict (agent_utilities m))) /\ is_mech_graph (mgraph m) h.
Proof.
  intros m W C. unfold mechanism_graph. rewrite new_graph_view by auto. cbn [bind].
  destruct (load_view_wf _ W) as [W1 E].
  destruct (add_mechanisms_spec (mgraph m) (nodes (mgraph m)) (load_edges (edges_view (mgraph m))) [])
    as [h (E1 & E2 & E3 & E4)]; auto.
  - apply incl_refl.
  - intros u v. rewrite E. simpl. tauto.
  - intro x. rewrite edges_view_nodes by apply W. split; [auto|]. intros [|[n [[] _]]]; auto.
  - exists h. rewrite E1. cbn [bind]. split; auto. split; [auto|]. split; [apply E3|].
    intro x. rewrite E4. simpl. split.
    + intros [[y [H|H]]|[n [H1 [H2|H2]]]]; subst; eauto; left; destruct W as [[_ [_ W]] _]; apply (W _ _ H).
    + intros [H|[n [H1 H2]]]; right; eauto.
Qed.

(* --- d-connection from a pendant parent --------------------------------------------------- *)
(* h extends g by parentless nodes with one child each; w is the one above v *)
Record pendant (h g : graph) (w v : node) : Prop := {
  pd_wf : wf_graph g;
  pd_in : In v (nodes g);
  pd_fresh : ~ In w (nodes g);
  pd_sub : forall a b, edge g a b -> edge h a b;
  pd_old : forall a b, edge h a b -> edge g a b \/ (~ In a (nodes g) /\ In b (nodes g));
  pd_w : edge h w v;
  pd_uniq : forall a b c, ~ In a (nodes g) -> edge h a b -> edge h a c -> b = c }.

(* activity of a path seen from a new parent of its first node *)
Definition pend_active (g : graph) (Z : list node) (q : list node) : Prop :=
  active g Z q /\
  match q with
  | v :: c :: _ => (edge g c v -> exists d, reach g v d /\ In d Z) /\ (~ edge g c v -> ~ In v Z)
  | _ => True
  end.
Definition pend_conn (g : graph) (Z : list node) (v u : node) : Prop :=
  ~ In u Z /\ exists q, simple_path g v u q /\ pend_active g Z q.

Lemma pd_edge_old : forall h g w v a b, pendant h g w v -> In a (nodes g) -> (edge h a b <-> edge g a b).
Proof.
  intros h g w v a b P Ha. split; [|apply (pd_sub _ _ _ _ P)]. intro H. apply (pd_old _ _ _ _ P) in H. tauto.
Qed.
Lemma pd_edge_in : forall h g w v a b, pendant h g w v -> edge h a b -> In b (nodes g).
Proof.
  intros h g w v a b P H. apply (pd_old _ _ _ _ P) in H. destruct H as [H|[_ H]]; auto.
  destruct (pd_wf _ _ _ _ P) as [_ [_ W]]. apply (W _ _ H).
Qed.
Lemma pd_reach : forall h g w v a b, pendant h g w v -> In a (nodes g) -> (reach h a b <-> reach g a b).
Proof.
  intros h g w v a b P Ha. split; intro H.
  - revert Ha. induction H as [a|a c b E H IH]; intro Ha; [constructor|].
    econstructor; [|apply IH; eapply pd_edge_in; eauto]. apply (pd_edge_old _ _ _ _ _ _ P Ha); auto.
  - eapply reach_sub; [|apply H]. apply (pd_sub _ _ _ _ P).
Qed.
Lemma pd_adj : forall h g w v a b, pendant h g w v -> In a (nodes g) -> In b (nodes g) -> (adjacent h a b <-> adjacent g a b).
Proof. intros. unfold adjacent. rewrite !(pd_edge_old h g w v) by auto. tauto. Qed.
Lemma pd_inside : forall h g w v, pendant h g w v -> forall q x u, chain (adjacent h) (x :: q) -> NoDup (x :: q) ->
  In x (nodes g) -> hd_error (rev (x :: q)) = Some u -> In u (nodes g) -> incl (x :: q) (nodes g) /\ chain (adjacent g) (x :: q).
Proof.
  intros h g w v P. induction q as [|y q IH]; intros x u Hc Hn Hx Hu Hug.
  - split; [intros z [<-|[]]; auto|constructor].
  - inversion Hc as [|? ? ? Hxy Hc']; subst. inversion Hn as [|? ? Hx' Hn']; subst.
    assert (Hy : In y (nodes g)).
    { destruct (in_dec string_dec y (nodes g)) as [|Hy]; auto. exfalso.
      assert (Hyx : edge h y x).
      { destruct Hxy as [H|H]; auto. exfalso. apply Hy. eapply pd_edge_in; eauto. }
      destruct q as [|z q].
      - simpl in Hu. inversion Hu; subst. contradiction.
      - inversion Hc' as [|? ? ? Hyz _]; subst. assert (Hyz' : edge h y z).
        { destruct Hyz as [H|H]; auto. exfalso. apply Hy. eapply pd_edge_in; eauto. }
        assert (x = z) by (eapply (pd_uniq _ _ _ _ P); eauto). subst z. apply Hx'. simpl; auto. }
    assert (Hu' : hd_error (rev (y :: q)) = Some u).
    { change (x :: y :: q) with ([x] ++ (y :: q)) in Hu. rewrite rev_app_distr in Hu. rewrite hd_error_app_l in Hu; auto.
      simpl. intro E. apply app_eq_nil in E. destruct E; discriminate. }
    destruct (IH y u Hc' Hn' Hy Hu' Hug) as [I1 I2]. split.
    + intros z [<-|Hz]; auto.
    + constructor; auto. apply (pd_adj h g w v); auto.
Qed.
Lemma pd_collider : forall h g w v a b c, pendant h g w v -> In a (nodes g) -> In c (nodes g) ->
  (is_collider h a b c <-> is_collider g a b c).
Proof. intros. unfold is_collider. rewrite !(pd_edge_old h g w v) by auto. tauto. Qed.
Lemma triple_in : forall p a b c, triple_on p a b c -> In a p /\ In b p /\ In c p.
Proof.
  intros p a b c (l & r & ->). repeat split; apply in_or_app; right; simpl; auto.
Qed.
Lemma pd_active : forall h g w v Z q, pendant h g w v -> incl q (nodes g) -> (active h Z q <-> active g Z q).
Proof.
  intros h g w v Z q P I. unfold active. split; intros H a b c T; destruct (triple_in _ _ _ _ T) as (Ta & Tb & Tc);
    apply I in Ta; apply I in Tb; apply I in Tc; specialize (H a b c T);
    assert (X := pd_collider h g w v a b c P Ta Tc); destruct H as [H1 H2]; split; intro K.
  - destruct H1 as [d [H1 H3]]; [apply X; auto|]. exists d. split; auto. apply (pd_reach h g w v); auto.
  - apply H2. rewrite X. auto.
  - destruct H1 as [d [H1 H3]]; [apply X; auto|]. exists d. split; auto. apply (pd_reach h g w v); auto.
  - apply H2. rewrite <- X. auto.
Qed.
Lemma pendant_dconn : forall h g w v Z u, pendant h g w v -> acyclic g -> incl Z (nodes g) -> In u (nodes g) ->
  (dconn h Z w u <-> pend_conn g Z v u).
Proof.
  intros h g w v Z u P A IZ Hu. split.
  - intros (Hw & HuZ & p & (Hc & Hn & Hf) & Ha). split; auto.
    destruct (from_to_cons_inv _ _ _ Hf) as [q ->]. destruct q as [|y q].
    { destruct Hf as [_ Hf]. simpl in Hf. inversion Hf; subst. exfalso. apply (pd_fresh _ _ _ _ P); auto. }
    inversion Hc as [|? ? ? Hwy Hc']; subst. inversion Hn as [|? ? Hn1 Hn2]; subst.
    assert (Ey : y = v).
    { destruct Hwy as [H|H].
      - eapply (pd_uniq _ _ _ _ P); eauto; [apply (pd_fresh _ _ _ _ P)|apply (pd_w _ _ _ _ P)].
      - exfalso. apply (pd_fresh _ _ _ _ P). eapply pd_edge_in; eauto. }
    subst y. assert (Hu' : hd_error (rev (v :: q)) = Some u).
    { destruct Hf as [_ Hf]. change (w :: v :: q) with ([w] ++ (v :: q)) in Hf. rewrite rev_app_distr in Hf. rewrite hd_error_app_l in Hf; auto.
      simpl. intro E. apply app_eq_nil in E. destruct E; discriminate. }
    destruct (pd_inside _ _ _ _ P q v u Hc' Hn2 (pd_in _ _ _ _ P) Hu' Hu) as [I C].
    exists (v :: q). split; [split; [auto|split; [auto|split; auto]]|]. split.
    + apply (pd_active h g w v); auto. apply (active_app_r h Z [w] (v :: q)). auto.
    + destruct q as [|c q]; auto.
      assert (T : triple_on (w :: v :: c :: q) w v c) by (exists [], q; auto).
      specialize (Ha w v c T). destruct Ha as [H1 H2].
      assert (Hcn : In c (nodes g)) by (apply I; simpl; auto). split; intro K.
      * destruct H1 as [d [H1 H3]]; [split; [apply (pd_w _ _ _ _ P)|apply (pd_sub _ _ _ _ P); auto]|].
        exists d. split; auto. apply (pd_reach h g w v); auto. apply (pd_in _ _ _ _ P).
      * apply H2. intros [_ X]. apply K. apply (pd_edge_old _ _ _ _ _ _ P Hcn); auto.
  - intros (HuZ & q & (Hc & Hn & Hf) & Ha & Hh). split; [intro X; apply (pd_fresh _ _ _ _ P); auto|]. split; auto.
    destruct (from_to_cons_inv _ _ _ Hf) as [r E]. subst q.
    assert (I : incl (v :: r) (nodes g)).
    { apply (chain_nodes g (adjacent g) r v); auto. apply (pd_wf _ _ _ _ P). apply (pd_in _ _ _ _ P). }
    exists (w :: v :: r). split; [split; [|split]|].
    + constructor; [left; apply (pd_w _ _ _ _ P)|]. eapply chain_impl; [|apply Hc]. intros a b [X|X]; [left|right]; apply (pd_sub _ _ _ _ P); auto.
    + constructor; auto. intro X. apply (pd_fresh _ _ _ _ P); auto.
    + destruct Hf as [_ Hf]. split; auto. change (w :: v :: r) with ([w] ++ (v :: r)). rewrite rev_app_distr, hd_error_app_l; auto.
      simpl. intro E. apply app_eq_nil in E. destruct E; discriminate.
    + intros a b c T. apply triple_cons_inv in T. destruct T as [T|T].
      2:{ destruct T as [Ew [r' E]]. inversion E; subst a. subst b r. destruct Hh as [H1 H2].
        assert (Hcn : In c (nodes g)) by (apply I; simpl; auto). split; intro K.
        - destruct K as [_ K]. apply (pd_edge_old _ _ _ _ _ _ P Hcn) in K. destruct (H1 K) as [d [X Y]].
           exists d. split; auto. apply (pd_reach h g w v); auto. apply (pd_in _ _ _ _ P).
        - apply H2. intro X. apply K. split; [apply (pd_w _ _ _ _ P)|apply (pd_sub _ _ _ _ P); auto]. }
      apply (pd_active h g w v Z (v :: r) P I); auto.
Qed.
Lemma pendant_extend : forall g w v, wf_graph g -> In v (nodes g) -> ~ In w (nodes g) -> pendant (extend g w v) g w v.
Proof.
  intros g w v W Hv Hw. constructor; auto; unfold edge, extend; simpl.
  - auto.
  - intros a b [E|E]; auto. inversion E; subst. auto.
  - auto.
  - intros a b c Ha [E1|E1] [E2|E2]; try (inversion E1; inversion E2; subst; auto; fail);
      destruct W as [_ [_ W]]; exfalso.
    + apply Ha. apply (W _ _ E2).
    + apply Ha. apply (W _ _ E1).
    + apply Ha. apply (W _ _ E1).
Qed.
Lemma pendant_mech : forall g h v, wf_graph g -> no_clash g -> is_mech_graph g h -> In v (nodes g) -> pendant h g (mec v) v.
Proof.
  intros g h v W C (H1 & H2 & H3) Hv. constructor; auto.
  - apply C; auto.
  - intros. apply H2; auto.
  - intros a b H. apply H2 in H. destruct H as [H|[H ->]]; auto. right. split; auto. apply C; auto.
  - apply H2; auto.
  - intros a b c Ha Hb Hc. apply H2 in Hb. apply H2 in Hc. destruct W as [_ [_ W]].
    destruct Hb as [Hb|[Hb ->]]; [exfalso; apply Ha; apply (W _ _ Hb)|].
    destruct Hc as [Hc|[Hc E]]; [exfalso; apply Ha; apply (W _ _ Hc)|]. apply mec_inj; auto.
Qed.
