(* Dropping non-requisite information links: confluence and the one-pass argument. *)
From Coq Require Import String List Bool Arith Lia.
Import ListNotations.
From Verif Require Import MBase MGraph MPaths MMacid Spec SpecM SpecI LBase LGraph LDfs LPaths LActive LMoral.

Lemma edge_without : forall g x d a b, edge (without g x d) a b <-> edge g a b /\ (a, b) <> (x, d).
Proof.
  intros. unfold edge, without; simpl. rewrite filter_In, negb_true_iff. split; intros [H1 H2]; (split; [auto|]).
  - intro E. rewrite E in H2. assert (eqb_edge (x, d) (x, d) = true) by (apply eqb_edge_eq; auto). congruence.
  - destruct (eqb_edge (x, d) (a, b)) eqn:E; auto. apply eqb_edge_eq in E. congruence.
Qed.
Lemma without_sub : forall g x d a b, edge (without g x d) a b -> edge g a b.
Proof. intros. apply edge_without in H. tauto. Qed.
Lemma wf_without : forall g x d, wf_dag g -> wf_dag (without g x d).
Proof.
  intros g x d [(W1 & W2 & W3) A]. split.
  - split; [auto|]. split; [apply NoDup_filter; auto|]. intros u v H. apply without_sub in H. apply W3 in H. auto.
  - eapply acyclic_sub; [|exact A]. apply without_sub.
Qed.
Lemma without_comm : forall g x d y e, without (without g x d) y e = without (without g y e) x d.
Proof.
  intros. unfold without; simpl. f_equal. induction (edges g) as [|p l IH]; simpl; auto.
  destruct (eqb_edge (x, d) p) eqn:E1; destruct (eqb_edge (y, e) p) eqn:E2; simpl; rewrite ?E1, ?E2; simpl;
    try rewrite E1; try rewrite E2; simpl; rewrite ?IH; auto.
Qed.

(* conditioning sets are only used through their members *)
Definition fam (g : graph) (d : node) : list node := d :: parents g d.
Definition cond (g : graph) (d x : node) : list node := filter (fun z => negb (String.eqb z x)) (fam g d).
Lemma in_fam : forall g d z, In z (fam g d) <-> z = d \/ edge g z d.
Proof. intros. unfold fam; simpl. rewrite in_parents. intuition. Qed.
Lemma in_cond : forall g d x z, In z (cond g d x) <-> (z = d \/ edge g z d) /\ z <> x.
Proof.
  intros. unfold cond. rewrite filter_In, in_fam, negb_true_iff. split; intros [H1 H2]; (split; [auto|]).
  - apply String.eqb_neq; auto.
  - apply String.eqb_neq; auto.
Qed.
Lemma requisite_cond : forall m g d x, requisite_in m g d x <->
  exists a u, has_role m d (RDecision a) /\ has_role m u (RUtility a) /\ descends g u d /\ dconn g (cond g d x) x u.
Proof.
  intros m g d x. split.
  - intros (a & u & H1 & H2 & H3 & Z & HZ & H4). exists a, u. split; [auto|]. split; [auto|]. split; [auto|].
    eapply dconn_ext; [|exact H4]. intro z. rewrite in_cond. apply HZ.
  - intros (a & u & H1 & H2 & H3 & H4). exists a, u. split; [auto|]. split; [auto|]. split; [auto|].
    exists (cond g d x). split; [|auto]. intro z. apply in_cond.
Qed.
Lemma fam_nodes : forall g d, wf_dag g -> In d (nodes g) -> incl (fam g d) (nodes g).
Proof. intros g d W Hd z Hz. apply in_fam in Hz. destruct Hz as [->|Hz]; auto. eapply wf_edge_l; [apply W|eauto]. Qed.
Lemma cond_nodes : forall g d x, wf_dag g -> In d (nodes g) -> incl (cond g d x) (nodes g).
Proof. intros g d x W Hd z Hz. apply filter_In in Hz. apply fam_nodes with (d := d); tauto. Qed.

(* more edges, more connections *)
Lemma dconn_more : forall g g' Z x y, acyclic g' -> (forall a b, edge g a b -> edge g' a b) -> dconn g Z x y -> dconn g' Z x y.
Proof.
  intros g g' Z x y Ac Hs (H1 & H2 & p & (P1 & P2 & P3) & P4). split; [auto|]. split; [auto|]. exists p.
  assert (Adj : forall a b, adjacent g a b -> adjacent g' a b) by (intros a b [H|H]; [left|right]; auto).
  split; [split; [|split; auto]|].
  - clear - P1 Adj. induction P1; constructor; auto.
  - intros a b c T. destruct (P4 a b c T) as [C1 C2]. destruct (triple_adj g p a b c P1 T) as [A1 A2].
    split.
    + intros H. destruct (is_collider_dec g a b c) as [K|K].
      * destruct (C1 K) as (d & D1 & D2). exists d. split; auto. eapply reach_sub; eauto.
      * exfalso.
        assert (Ag : acyclic g) by (eapply acyclic_sub; eauto).
        apply (not_collider_iff g a b c Ag A1 A2) in K. destruct H as [K1 K2].
        destruct K as [K|K]; apply Hs in K; [exact (acyclic_edge_asym _ _ _ Ac K K1)|exact (acyclic_edge_asym _ _ _ Ac K K2)].
    + intros K. apply C2. intros [K1 K2]. apply K. split; auto.
Qed.

Lemma mconn_A : forall g (A A' : node -> Prop) Z x y, (forall v, A v <-> A' v) -> mconn g A Z x y -> mconn g A' Z x y.
Proof. intros g A A' Z x y H. apply mconn_mono; auto. intros a. apply H. Qed.

(* everything on a connecting path between x and u is an ancestor of u *)
Definition below (g : graph) (u v : node) : Prop := reach g v u.
Lemma moral_below : forall g Z x u, wf_dag g -> incl Z (nodes g) -> In u (nodes g) ->
  reach g x u -> (forall z, In z Z -> reach g z u) ->
  (dconn g Z x u <-> mconn g (below g u) Z x u).
Proof.
  intros g Z x u W HZ Hu Hx HZu. rewrite moral_dconn; auto; [|eapply wf_reach_back; [apply W|exact Hx|auto]].
  assert (E : forall v, anc g (x :: u :: Z) v <-> below g u v).
  { intro v. split.
    - intros (s & [<-|[<-|Hs]] & Hr); unfold below; auto; eapply reach_trans; eauto.
    - intro H. exists u. split; simpl; auto. }
  split; apply mconn_A; intro v; rewrite E; tauto.
Qed.
Lemma cond_below : forall g d x u, descends g u d -> forall z, In z (cond g d x) -> reach g z u.
Proof.
  intros g d x u Hu z Hz. apply in_cond in Hz. destruct Hz as [[->|Hz] _]; [apply descends_reach; auto|].
  econstructor; [eauto|apply descends_reach; auto].
Qed.
Lemma moral_cond : forall g d x u, wf_dag g -> In d (nodes g) -> edge g x d -> descends g u d ->
  (dconn g (cond g d x) x u <-> mconn g (below g u) (cond g d x) x u).
Proof.
  intros g d x u W Hd He Hu. apply moral_below; auto.
  - apply cond_nodes; auto.
  - eapply wf_reach; [apply W|apply descends_reach; eauto|auto].
  - econstructor; [eauto|apply descends_reach; auto].
  - apply cond_below; auto.
Qed.
Lemma descends_not_fam : forall g d u, acyclic g -> descends g u d -> ~ In u (fam g d).
Proof.
  intros g d u Ha Hu Hi. apply in_fam in Hi. destruct Hi as [->|Hi]; [apply (Ha d); auto|].
  apply (Ha u). exists d. split; auto. apply descends_reach; auto.
Qed.

(* ---- dropping one non-requisite link leaves the other non-requisite links non-requisite ---- *)
Lemma last_of_two : forall g d x y u Z', acyclic g -> descends g u d ->
  (forall z, In z Z' <-> In z (fam g d) /\ z <> x /\ z <> y) ->
  forall v t, mconn g (below g u) Z' v t -> t = u ->
  mconn g (below g u) (fam g d) v u \/ mconn g (below g u) (cond g d y) y u \/ mconn g (below g u) (cond g d x) x u.
Proof.
  intros g d x y u Z' Ha Hu HZ v t H. induction H as [v Hv|v w t Hv Hs Hc IH]; intro E; subst.
  - left. constructor. apply descends_not_fam; auto.
  - destruct (IH eq_refl) as [H|H]; auto.
    assert (K : forall q, v = q -> mconn g (below g u) (cond g d q) q u).
    { intros q <-. eapply mconn_step; [|exact Hs|].
      - rewrite in_cond. tauto.
      - eapply mconn_mono; [| |  |exact H]; auto. intros a Hi. apply filter_In in Hi. tauto. }
    destruct (string_dec v y) as [E|E]; [subst y; auto|].
    destruct (string_dec v x) as [E2|E2]; [subst x; auto|].
    left. eapply mconn_step; eauto. intro Hi. apply Hv. apply HZ. auto.
Qed.

Lemma drop_keeps_nonrequisite : forall m g d x e y, wf_dag g -> In d (nodes g) ->
  edge g y d -> edge g x e -> (x, e) <> (y, d) ->
  ~ requisite_in m g e x -> ~ requisite_in m g d y -> ~ requisite_in m (without g x e) d y.
Proof.
  intros m g d x e y W Hd Ey Ex Hne Nx Ny H. apply requisite_cond in H. destruct H as (a & u & R1 & R2 & D & C).
  assert (W' := wf_without g x e W).
  assert (D' : descends g u d) by (eapply descends_sub; [|exact D]; apply without_sub).
  destruct (string_dec e d) as [E|E].
  - subst e. assert (Hxy : x <> y) by (intro; subst; auto).
    assert (E' : edge (without g x d) y d) by (apply edge_without; split; auto; congruence).
    apply moral_cond in C; auto.
    assert (M : mconn g (below g u) (cond (without g x d) d y) y u).
    { eapply mconn_mono; [| | |exact C]; auto.
      - intros p q Hpq _ _. eapply without_sub; eauto.
      - intros p Hp. eapply reach_sub; [|exact Hp]. apply without_sub. }
    destruct (last_of_two g d x y u (cond (without g x d) d y) (proj2 W) D') with (v := y) (t := u) as [H|[H|H]]; auto.
    { intro z. rewrite in_cond, edge_without, in_fam. split.
      - intros [[->|[H1 H2]] H3]; (split; [auto|]); (split; [|auto]).
        + intro; subst x. eapply acyclic_edge_irrefl; [apply W|eauto].
        + intro; subst; auto.
      - intros [[->|H1] [H2 H3]]; split; auto. right. split; auto. intro K; inversion K; subst; auto. }
    + apply mconn_l in H. apply H. apply in_fam. auto.
    + apply Ny. apply requisite_cond. exists a, u. split; [auto|]. split; [auto|]. split; [auto|]. apply moral_cond; auto.
    + apply Nx. apply requisite_cond. exists a, u. split; [auto|]. split; [auto|]. split; [auto|]. apply moral_cond; auto.
  - apply Ny. apply requisite_cond. exists a, u. split; [auto|]. split; [auto|]. split; [auto|].
    eapply dconn_ext; [|eapply dconn_more; [| |exact C]; [apply W|apply without_sub]].
    intro z. rewrite !in_cond, edge_without. split; intros [H1 H2]; (split; [|auto]).
    + tauto.
    + destruct H1 as [H1|H1]; auto. right. split; auto. congruence.
Qed.

(* ---- unique minimal reduction ---- *)
Lemma drops_wf : forall m g g', wf_dag g -> drops m g g' -> wf_dag g' /\ nodes g' = nodes g.
Proof. intros m g g' W (d & x & _ & _ & _ & ->). split; [apply wf_without; auto|auto]. Qed.
Lemma reduces_wf : forall m g h, wf_dag g -> reduces m g h -> wf_dag h /\ nodes h = nodes g /\ forall a b, edge h a b -> edge g a b.
Proof.
  intros m g h W H. induction H as [g|g g' h Hd Hr IH]; auto.
  destruct (drops_wf m g g' W Hd) as [W' N]. destruct (IH W') as (I1 & I2 & I3).
  split; [auto|]. split; [congruence|]. intros a b Hab. destruct Hd as (d & x & _ & _ & _ & ->).
  eapply without_sub; eauto.
Qed.
Lemma reduces_trans : forall m g h k, reduces m g h -> reduces m h k -> reduces m g k.
Proof. induction 1; auto. intros. econstructor; eauto. Qed.
Lemma diamond : forall m g g1 g2, wf_dag g -> drops m g g1 -> drops m g g2 ->
  g1 = g2 \/ exists h, drops m g1 h /\ drops m g2 h.
Proof.
  intros m g g1 g2 W (d & x & D1 & E1 & N1 & ->) (e & y & D2 & E2 & N2 & ->).
  destruct (string_dec x y) as [Ex|Ex]; [destruct (string_dec d e) as [Ed|Ed]; [subst; auto|]|]; right;
  exists (without (without g x d) y e);
  (assert (P : (x, d) <> (y, e)) by congruence);
  (assert (Q : (y, e) <> (x, d)) by congruence);
  (assert (Hd : In d (nodes g)) by (eapply wf_edge_r; [apply W|exact E1]));
  (assert (He : In e (nodes g)) by (eapply wf_edge_r; [apply W|exact E2])).
  all: split; [exists e, y|exists d, x; rewrite without_comm]; (split; [auto|]); (split; [apply edge_without; auto|]);
    (split; [|auto]); apply drop_keeps_nonrequisite; auto.
Qed.
Lemma strip : forall m g h, reduces m g h -> wf_dag g -> forall g1, drops m g g1 ->
  exists k, reduces m g1 k /\ (h = k \/ drops m h k).
Proof.
  intros m g h H. induction H as [g|g g' h Hd Hr IH]; intros W g1 H1.
  - exists g1. split; [constructor|auto].
  - destruct (diamond m g g' g1 W Hd H1) as [->|(k & K1 & K2)].
    + exists h. auto.
    + destruct (drops_wf m g g' W Hd) as [W' _]. destruct (IH W' k K1) as (q & Q1 & Q2).
      exists q. split; auto. econstructor; eauto.
Qed.
Lemma irreducible_no_drop : forall m g h, irreducible m g -> ~ drops m g h.
Proof. intros m g h Hi (d & x & D & E & N & _). apply N, Hi; auto. Qed.
Lemma reduction_unique : forall m g h1 h2, wf_dag g -> minimal_reduction m g h1 -> minimal_reduction m g h2 -> h1 = h2.
Proof.
  intros m g h1 h2 W [R1 I1] [R2 I2]. revert h2 R2 I2. induction R1 as [g|g g' h Hd Hr IH]; intros h2 R2 I2.
  - destruct R2 as [g|g g' h Hd Hr]; auto. exfalso. exact (irreducible_no_drop m g g' I1 Hd).
  - destruct (drops_wf m g g' W Hd) as [W' _]. destruct (strip m g h2 R2 W g' Hd) as (k & K1 & [->|K2]).
    + apply IH; auto.
    + exfalso. exact (irreducible_no_drop _ _ _ I2 K2).
Qed.

(* ---- dropping a non-requisite link leaves requisite links requisite ---- *)
Section Trim.
  Variables (g : graph) (d y u : node).
  Hypothesis W : wf_dag g.
  Hypothesis Ey : edge g y d.
  Hypothesis Du : descends g u d.
  Hypothesis Ny : ~ dconn g (cond g d y) y u.
  Let g' := without g y d.
  Let R := cond g d y.
  Let A := below g u.
  Let A' := below g' u.

  Lemma trim_d : In d (nodes g).
  Proof. eapply wf_edge_r; [apply W|exact Ey]. Qed.
  Lemma trim_u : In u (nodes g).
  Proof. eapply wf_reach; [apply W|apply descends_reach; exact Du|exact trim_d]. Qed.
  Lemma A_nodes : forall v, A v -> In v (nodes g).
  Proof. intros v H. eapply wf_reach_back; [apply W|exact H|exact trim_u]. Qed.

  Definition mstepb (v w : node) : bool :=
    has_path g v u && has_path g w u &&
    (has_edge g v w || has_edge g w v || existsb (fun c => has_path g c u && has_edge g v c && has_edge g w c) (nodes g)).
  Lemma mstepb_iff : forall v w, In v (nodes g) -> In w (nodes g) -> (mstepb v w = true <-> mstep g A v w).
  Proof.
    intros v w Hv Hw. unfold mstepb, mstep. rewrite !andb_true_iff, !orb_true_iff.
    rewrite !(has_path_iff g (proj1 W)) by auto. rewrite !has_edge_iff, existsb_exists.
    assert (E : (exists c, In c (nodes g) /\ has_path g c u && has_edge g v c && has_edge g w c = true) <->
                (exists c, A c /\ edge g v c /\ edge g w c)).
    { split.
      - intros (c & H1 & H2). rewrite !andb_true_iff, !has_edge_iff in H2. rewrite (has_path_iff g (proj1 W)) in H2 by auto.
        exists c. unfold A, below. tauto.
      - intros (c & H1 & H2 & H3). exists c. split; [apply A_nodes; auto|].
        rewrite !andb_true_iff, !has_edge_iff. rewrite (has_path_iff g (proj1 W)) by (apply A_nodes; auto).
        unfold A, below in H1. tauto. }
    rewrite E. unfold A, below. tauto.
  Qed.
  Definition mnext (v : node) : list node := filter (fun w => mstepb v w && negb (mem w R)) (nodes g).
  Definition comp (v : node) : Prop := mconn g A R y v.
  Lemma yA : A y.
  Proof. econstructor; [exact Ey|apply descends_reach; exact Du]. Qed.
  Lemma yR : ~ In y R.
  Proof. unfold R. rewrite in_cond. tauto. Qed.
  Lemma clos_mconn : forall v w, clos mnext v w -> A v -> ~ In v R -> mconn g A R v w.
  Proof.
    induction 1 as [v|v x w Hin Hc IH]; intros Hv Hn; [constructor; auto|].
    unfold mnext in Hin. apply filter_In in Hin. rewrite andb_true_iff, negb_true_iff, mem_nIn in Hin.
    destruct Hin as (H1 & H2 & H3). apply mstepb_iff in H2; auto; [|apply A_nodes; auto].
    assert (A x) by apply H2. econstructor; eauto.
  Qed.
  Lemma mconn_clos : forall v w, mconn g A R v w -> clos mnext v w.
  Proof.
    induction 1 as [v Hv|v x w Hv Hs Hc IH]; [constructor|]. econstructor; [|exact IH].
    unfold mnext. apply filter_In. assert (A x) by apply Hs. assert (A v) by apply Hs.
    split; [apply A_nodes; auto|]. rewrite andb_true_iff, negb_true_iff, mem_nIn.
    split; [apply mstepb_iff; auto; apply A_nodes; auto|]. eapply mconn_l; eauto.
  Qed.
  Lemma comp_dec : forall v, comp v \/ ~ comp v.
  Proof.
    intro v. assert (E : In v (closure String.eqb mnext (nodes g) [y]) <-> comp v).
    { rewrite closure_iff.
      - split.
        + intros (t & [<-|[]] & H). apply clos_mconn; auto; [apply yA|apply yR].
        + intro H. exists y. split; [simpl; auto|]. apply mconn_clos; auto.
      - intros a b. apply String.eqb_eq.
      - intros a b _ H. unfold mnext in H. apply filter_In in H. tauto.
      - intros a [<-|[]]. apply A_nodes, yA. }
    rewrite <- E. destruct (in_dec string_dec v (closure String.eqb mnext (nodes g) [y])); auto.
  Qed.
  Lemma comp_y : comp y.
  Proof. constructor. apply yR. Qed.
  Lemma comp_u : ~ comp u.
  Proof. intro H. apply Ny. apply moral_cond; auto. apply trim_d. Qed.
  (* the component of y is bounded by the family of d *)
  Lemma comp_border : forall v w, comp v -> mstep g A v w -> ~ comp w -> In w R.
  Proof.
    intros v w Hv Hs Hw. destruct (in_dec string_dec w R) as [H|H]; auto. exfalso. apply Hw.
    eapply mconn_trans; [exact Hv|]. eapply mconn_step; [eapply mconn_r; exact Hv|exact Hs|constructor; auto].
  Qed.
  Lemma kept_edge : forall a b, edge g a b -> ~ comp a -> edge g' a b.
  Proof. intros a b E H. apply edge_without. split; auto. intro K. inversion K; subst. apply H, comp_y. Qed.
  (* paths leaving d never come back to d *)
  Lemma reach_avoid : forall a b, reach g a b -> ~ reach g a d -> reach g' a b.
  Proof.
    induction 1 as [a|a c b E Hr IH]; intro H; [constructor|]. econstructor; [|apply IH].
    - apply edge_without. split; auto. intro K. inversion K; subst. apply H. apply reach_edge; auto.
    - intro K. apply H. econstructor; eauto.
  Qed.
  Lemma desc_avoid : forall e, ~ reach g e d \/ e = d -> forall b, descends g b e -> descends g' b e.
  Proof.
    intros e He b (c & E & Hr).
    assert (Hn : ~ reach g c d).
    { intro K. destruct He as [He| ->]; [apply He; econstructor; eauto|]. apply (proj2 W d). exists c. auto. }
    exists c. split.
    - apply edge_without. split; auto. intro K. inversion K; subst. apply Hn. constructor.
    - apply reach_avoid; auto.
  Qed.
  Lemma A'd : A' d.
  Proof. apply descends_reach. apply desc_avoid; auto. Qed.
  Lemma R_edge : forall r, In r R -> r = d \/ edge g' r d.
  Proof.
    intros r Hr. unfold R in Hr. apply in_cond in Hr. destruct Hr as [[H|H] Hn]; auto. right.
    apply edge_without. split; auto. congruence.
  Qed.
  Lemma A'R : forall r, In r R -> A' r.
  Proof.
    intros r Hr. destruct (R_edge r Hr) as [->|H]; [apply A'd|]. econstructor; [exact H|apply A'd].
  Qed.
  Lemma A'_kept0 : forall v t, reach g v t -> t = u -> ~ comp v -> reach g' v u.
  Proof.
    intros v t H. induction H as [v|v w t E Hr IH]; intros Et Hn.
    - subst v. constructor.
    - specialize (IH Et). rewrite Et in Hr. destruct (comp_dec w) as [C|C].
      + apply A'R. eapply comp_border; [exact C| |exact Hn].
        split; [exact Hr|]. split; [econstructor; eauto|auto].
      + econstructor; [apply kept_edge; eauto|]. apply IH; auto.
  Qed.
  Lemma A'_kept : forall v, A v -> ~ comp v -> A' v.
  Proof. intros v H Hn. exact (A'_kept0 v u H eq_refl Hn). Qed.
  Lemma clique : forall Z r s t, ~ In r Z -> In r R -> In s R -> mconn g' A' Z s t -> mconn g' A' Z r t.
  Proof.
    intros Z r s t Hz Hr Hs H. destruct (string_dec r s) as [E|E]; [subst; auto|].
    eapply mconn_step; [auto| |exact H].
    split; [apply A'R; auto|]. split; [apply A'R; auto|].
    destruct (R_edge r Hr) as [->|Er]; destruct (R_edge s Hs) as [->|Es]; auto; try congruence.
    right; right. exists d. split; [apply A'd|auto].
  Qed.
  Lemma reroute : forall Z v t, mconn g A Z v t -> t = u ->
    (~ comp v -> mconn g' A' Z v u) /\ (comp v -> forall r, In r R -> ~ In r Z -> mconn g' A' Z r u).
  Proof.
    intros Z v t H. induction H as [v Hv|v w t Hv Hs Hc IH]; intro Et.
    - subst v. split; [intros _; constructor; auto|]. intro C. exfalso. apply comp_u; auto.
    - destruct (IH Et) as [I1 I2]. clear IH. destruct (comp_dec w) as [Cw|Cw].
      + split.
        * intro Cv. apply I2; auto. eapply comp_border; [exact Cw|apply mstep_sym; exact Hs|exact Cv].
        * intros Cv r Hr Hz. apply I2; auto.
      + specialize (I1 Cw). split.
        * intro Cv. assert (Hs' := Hs). destruct Hs as (Av & Aw & Hs).
          assert (Bv := A'_kept v Av Cv). assert (Bw := A'_kept w Aw Cw).
          destruct Hs as [E|[E|(c & Ac & E1 & E2)]].
          -- eapply mconn_step; [auto| |exact I1]. split; [auto|]. split; [auto|]. left. apply kept_edge; auto.
          -- eapply mconn_step; [auto| |exact I1]. split; [auto|]. split; [auto|]. right; left. apply kept_edge; auto.
          -- destruct (comp_dec c) as [Cc|Cc].
             ++ assert (Mv : mstep g A c v) by (split; auto). assert (Mw : mstep g A c w) by (split; auto).
                apply (clique Z v w u Hv); [exact (comp_border c v Cc Mv Cv)|exact (comp_border c w Cc Mw Cw)|exact I1].
             ++ eapply mconn_step; [auto| |exact I1]. split; [auto|]. split; [auto|]. right; right. exists c.
                split; [apply A'_kept; auto|]. split; apply kept_edge; auto.
        * intros Cv r Hr Hz. apply (clique Z r w u Hz Hr); [|exact I1]. eapply comp_border; eauto.
  Qed.
  Lemma down_avoid : forall a b, reach g a b -> b = u -> ~ reach g a d -> mconn g A R a u.
  Proof.
    assert (Q : forall a, ~ reach g a d -> ~ In a R).
    { intros a Ha K. unfold R in K. apply in_cond in K. destruct K as [[->|K] _]; apply Ha; [constructor|apply reach_edge; auto]. }
    intros a b H. induction H as [a|a c b E Hr IH]; intros Eb Ha.
    - subst a. constructor. apply Q; auto.
    - assert (Hc : ~ reach g c d) by (intro K; apply Ha; econstructor; eauto).
      assert (Ac : reach g c u) by (rewrite <- Eb; auto).
      eapply mconn_step; [apply Q; auto| |apply IH; auto].
      split; [econstructor; eauto|]. split; [auto|]. auto.
  Qed.
  (* requisite links into another decision e that does not precede d *)
  Lemma trim_other : forall e x, In e (nodes g) -> e <> d -> edge g x e -> ~ reach g e d -> descends g u e ->
    dconn g (cond g e x) x u -> dconn g' (cond g' e x) x u.
  Proof.
    intros e x He Hed Ex Hn Due H.
    assert (W' : wf_dag g') by (apply wf_without; exact W).
    assert (E' : edge g' x e) by (apply edge_without; split; auto; congruence).
    assert (D' : descends g' u e) by (apply desc_avoid; auto).
    apply moral_cond; auto. apply moral_cond in H; auto.
    assert (Cx : ~ comp x).
    { intro C. apply comp_u. eapply mconn_trans; [exact C|].
      (* x -> e -> ... -> u avoids the family of d *)
      assert (Av := down_avoid).
      assert (Ae : reach g e u) by (apply descends_reach; auto).
      eapply mconn_step; [eapply mconn_r; exact C| |eapply Av; [exact Ae|auto|auto]].
      split; [econstructor; eauto|]. split; auto. }
    assert (M := proj1 (reroute (cond g e x) x u H eq_refl) Cx).
    eapply mconn_mono; [| | |exact M]; auto.
    intros a Ha. apply in_cond in Ha. apply in_cond. destruct Ha as [[->|Ha] Hx]; split; auto.
    right. eapply without_sub; eauto.
  Qed.
  (* the other requisite links into d itself *)
  Lemma trim_same : forall x, x <> y -> edge g x d ->
    dconn g (cond g d x) x u -> dconn g' (cond g' d x) x u.
  Proof.
    intros x Hxy Ex H.
    assert (W' : wf_dag g') by (apply wf_without; exact W).
    assert (E' : edge g' x d) by (apply edge_without; split; auto; congruence).
    assert (D' : descends g' u d) by (apply desc_avoid; auto).
    assert (Hd := trim_d). apply moral_cond; auto. apply moral_cond in H; auto.
    assert (Cx : ~ comp x).
    { intro C. apply mconn_r in C. apply C. unfold R. apply in_cond. auto. }
    assert (M := proj1 (reroute (cond g d x) x u H eq_refl) Cx).
    eapply mconn_mono; [| | |exact M]; auto.
    intros a Ha. apply in_cond in Ha. apply in_cond. destruct Ha as [[->|Ha] Hx]; split; auto.
    right. eapply without_sub; eauto.
  Qed.
End Trim.

(* links into e are not affected when u does not descend from d *)
Lemma trim_unrelated : forall g d y u e x, wf_dag g -> ~ reach g d u -> In e (nodes g) -> edge g x e -> descends g u e ->
  dconn g (cond g e x) x u -> dconn (without g y d) (cond (without g y d) e x) x u /\ descends (without g y d) u e.
Proof.
  intros g d y u e x W Hn He Ex Due H.
  assert (K : forall a b, edge g a b -> reach g b u -> edge (without g y d) a b).
  { intros a b E Hr. apply edge_without. split; auto. intro Q. inversion Q; subst; auto. }
  assert (KR : forall a b, reach g a b -> b = u -> reach (without g y d) a b).
  { induction 1 as [a|a c b E Hr IH]; intros Eb; [constructor|]. subst b. apply reach_step with (v := c); [apply K; auto|auto]. }
  assert (D' : descends (without g y d) u e).
  { destruct Due as (c & E & Hr). exists c. split; [apply K; auto|apply KR; auto]. }
  split; [|exact D'].
  assert (W' : wf_dag (without g y d)) by (apply wf_without; exact W).
  assert (E' : edge (without g y d) x e) by (apply K; auto; apply descends_reach; auto).
  apply moral_cond; auto. apply moral_cond in H; auto.
  eapply mconn_mono; [| | |exact H].
  - intros a b E Ha Hb. apply K; auto.
  - intros a Ha. apply KR; auto.
  - intros a Ha. apply in_cond in Ha. apply in_cond. destruct Ha as [[->|Ha] Hx]; split; auto.
    right. eapply without_sub; eauto.
Qed.
