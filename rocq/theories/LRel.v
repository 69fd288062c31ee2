(* Lemmas about the condensed relevance graph and the enumeration of subgames. *)
From Coq Require Import String List Bool Arith Permutation Lia.
Import ListNotations.
From Verif Require Import MBase MGraph MMacid MRel Spec SpecM SpecR LBase LGraph LDfs LRoles LCopy LReach.

Lemma length_label : forall i, String.length (label i) = i.
Proof. induction i; simpl; auto. Qed.
Lemma label_inj : forall i j, label i = label j -> i = j.
Proof. intros i j H. rewrite <- (length_label i), <- (length_label j), H. reflexivity. Qed.

(* ---- components ---- *)
Definition mutual (g : graph) (x y : node) : Prop := reach g x y /\ reach g y x.
Lemma mutual_trans : forall g x y z, mutual g x y -> mutual g y z -> mutual g x z.
Proof. intros g x y z [A B] [C D]. split; eapply reach_trans; eauto. Qed.
Lemma mutual_sym : forall g x y, mutual g x y -> mutual g y x.
Proof. intros g x y [A B]; split; auto. Qed.
Definition components (g : graph) (cs : list (list node)) : Prop :=
  NoDup (concat cs) /\ (forall x, In x (concat cs) <-> In x (nodes g)) /\
  forall c, In c cs -> c <> [] /\ forall x y, In x c -> (In y c <-> mutual g x y).

Lemma in_scc_of : forall g x y, wf_graph g -> In x (nodes g) -> (In y (scc_of g x) <-> mutual g x y).
Proof.
  intros g x y W Hx. unfold scc_of. rewrite filter_In, andb_true_iff. unfold mutual. split.
  - intros [H1 [H2 H3]]. apply (has_path_iff g W) in H2; auto. apply (has_path_iff g W) in H3; auto.
  - intros [H1 H2]. assert (In y (nodes g)) by (eapply wf_reach; eauto).
    split; auto. split; apply has_path_iff; auto.
Qed.
Lemma scc_loop_spec : forall g, wf_graph g -> forall todo covered, incl todo (nodes g) ->
  (forall x y, In x covered -> mutual g x y -> In y covered) ->
  NoDup (concat (scc_loop g covered todo)) /\
  (forall x, In x (concat (scc_loop g covered todo)) <-> ~ In x covered /\ exists t, In t todo /\ mutual g t x) /\
  forall c, In c (scc_loop g covered todo) -> c <> [] /\ forall x y, In x c -> (In y c <-> mutual g x y).
Proof.
  intros g W. induction todo as [|t todo IH]; intros covered Hi Hc.
  - simpl. split; [constructor|]. split; [|tauto]. intro x. split; [tauto|]. intros [_ [t [[] _]]].
  - simpl. destruct (mem_spec t covered) as [Ht|Ht].
    + destruct (IH covered) as (A & B & C); auto. { intros x Hx; apply Hi; simpl; auto. }
      split; auto. split; auto. intro x. rewrite B. split.
      * intros [H1 [t' [H2 H3]]]. split; auto. exists t'. auto.
      * intros [H1 [t' [[E|H2] H3]]]; [|eauto]. subst t'. exfalso. apply H1. eapply Hc; eauto.
    + assert (Hin : In t (nodes g)) by (apply Hi; simpl; auto).
      destruct (IH (covered ++ scc_of g t)) as (A & B & C).
      { intros x Hx; apply Hi; simpl; auto. }
      { intros x y Hx Hm. apply in_app_or in Hx. apply in_or_app. destruct Hx as [Hx|Hx]; [left; eauto|right].
        apply in_scc_of in Hx; auto. apply in_scc_of; auto. eapply mutual_trans; eauto. }
      simpl. split; [|split].
      * apply NoDup_app_intro; auto; [unfold scc_of; apply NoDup_filter, W|].
        intros x Hx Hx2. apply B in Hx2. apply (proj1 Hx2). apply in_or_app; auto.
      * intro x. rewrite in_app_iff, B, in_scc_of by auto. split.
        -- intros [H|[H1 [t' [H2 H3]]]].
           ++ split; [|exists t; auto]. intro Hx. apply Ht. eapply Hc; eauto. apply mutual_sym; auto.
           ++ split; [intro; apply H1; apply in_or_app; auto|]. exists t'; auto.
        -- intros [H1 [t' [[E|H2] H3]]]; [subst; auto|].
           destruct (reach_dec g W t x) as [R1|R1]; [destruct (reach_dec g W x t) as [R2|R2]; [left; split; auto|]|];
             right; (split; [|eauto]); rewrite in_app_iff, in_scc_of by auto; intros [K|[K1 K2]]; tauto.
      * intros c [E|Hcc]; [|apply C; auto]. subst c. split.
        -- intro E. assert (In t []) as []. rewrite <- E. apply in_scc_of; auto. split; constructor.
        -- intros x y Hx. apply in_scc_of in Hx; auto. rewrite in_scc_of by auto. split; intro H.
           ++ eapply mutual_trans; [apply mutual_sym; eauto|auto].
           ++ eapply mutual_trans; eauto.
Qed.
Lemma sccs_components : forall g, wf_graph g -> components g (sccs g).
Proof.
  intros g W. destruct (scc_loop_spec g W (nodes g) []) as (A & B & C); [apply incl_refl|simpl; tauto|].
  split; auto. split; auto. intro x. unfold sccs. rewrite B. split.
  - intros [_ [t [H1 H2]]]. eapply wf_reach; [exact W|apply H2|auto].
  - intro H. split; [simpl; tauto|]. exists x. split; auto. split; constructor.
Qed.
Lemma Forall2_concat_perm : forall (l l' : list (list node)), Forall2 (@Permutation node) l l' ->
  Permutation (concat l) (concat l').
Proof. induction 1; simpl; auto. apply Permutation_app; auto. Qed.
Lemma Permutation_concat : forall (l l' : list (list node)), Permutation l l' -> Permutation (concat l) (concat l').
Proof.
  induction 1; simpl; auto.
  - apply Permutation_app_head; auto.
  - rewrite !app_assoc. apply Permutation_app_tail, Permutation_app_comm.
  - eapply perm_trans; eauto.
Qed.
Lemma Forall2_in_r : forall (A B : Type) (R : A -> B -> Prop) l l' y, Forall2 R l l' -> In y l' -> exists x, In x l /\ R x y.
Proof. induction 1; simpl; [tauto|]. intros [E|H1]; [subst; eauto|]. destruct (IHForall2 H1) as [z [? ?]]; eauto. Qed.
Lemma components_perm : forall g so cs, valid_components so -> components g cs -> components g (so cs).
Proof.
  intros g so cs V (A & B & C). destruct (V cs) as [cs' [P F]].
  assert (Q : Permutation (concat cs) (concat (so cs))).
  { eapply perm_trans; [apply Permutation_concat; eauto|apply Forall2_concat_perm; auto]. }
  split; [eapply Permutation_NoDup; eauto|]. split.
  - intro x. rewrite <- B. split; apply Permutation_in; auto. apply Permutation_sym; auto.
  - intros c Hc. destruct (Forall2_in_r _ _ _ _ _ _ F Hc) as [c' [Hc' Pc]].
    destruct (C c') as [C1 C2]; [eapply Permutation_in; [apply Permutation_sym; eauto|auto]|].
    split.
    + intro E. subst. apply Permutation_sym, Permutation_nil in Pc. auto.
    + intros x y Hx. rewrite <- (C2 x y); [|eapply Permutation_in; [apply Permutation_sym; eauto|auto]].
      split; apply Permutation_in; auto. apply Permutation_sym; auto.
Qed.

(* ---- numbering ---- *)
Definition comp (cs : list (list node)) (i : nat) (n : node) : Prop := exists c, nth_error cs i = Some c /\ In n c.
Lemma in_number_from : forall (A : Type) (cs : list A) i k c,
  In (k, c) (number_from i cs) <-> exists j, k = label (i + j) /\ nth_error cs j = Some c.
Proof.
  induction cs as [|d cs IH]; intros i k c; simpl.
  - split; [tauto|]. intros [j [_ H]]. destruct j; discriminate.
  - rewrite IH. split.
    + intros [E|[j [E1 E2]]].
      * inversion E; subst. exists 0. rewrite Nat.add_0_r. auto.
      * exists (S j). rewrite Nat.add_succ_r. auto.
    + intros [[|j] [E1 E2]].
      * left. simpl in E2. inversion E2. rewrite Nat.add_0_r in E1. subst. auto.
      * right. exists j. rewrite Nat.add_succ_r in E1. auto.
Qed.
Lemma keys_number_from : forall (A : Type) (cs : list A) i, keys (number_from i cs) = map label (seq i (length cs)).
Proof. induction cs; intros; simpl; auto. unfold keys in *. simpl. rewrite IHcs. reflexivity. Qed.
Lemma snd_number_from : forall (A : Type) (cs : list A) i, map snd (number_from i cs) = cs.
Proof. induction cs; intros; simpl; auto. rewrite IHcs. reflexivity. Qed.
Lemma listed_number : forall cs k n, listed (number_from 0 cs) k n <-> exists i, k = label i /\ comp cs i n.
Proof.
  intros. unfold listed, comp. split.
  - intros [l [H1 H2]]. apply in_number_from in H1. destruct H1 as [j [E1 E2]]. exists j. simpl in E1. eauto.
  - intros [i [E [c [H1 H2]]]]. exists c. split; auto. apply in_number_from. exists i. auto.
Qed.
Lemma lookup_mapping : forall cs n k, NoDup (concat cs) ->
  (lookup n (owner_dict (number_from 0 cs)) = Some k <-> exists i, k = label i /\ comp cs i n).
Proof.
  intros cs n k H. rewrite lookup_owner_dict by (rewrite snd_number_from; auto). apply listed_number.
Qed.
Lemma in_concat_comp : forall cs n, In n (concat cs) <-> exists i, comp cs i n.
Proof.
  intros. rewrite in_concat. unfold comp. split.
  - intros [c [H1 H2]]. apply In_nth_error in H1. destruct H1 as [i Hi]. eauto.
  - intros [i [c [H1 H2]]]. exists c. split; auto. eapply nth_error_In; eauto.
Qed.
Lemma comp_unique : forall cs n i j, NoDup (concat cs) -> comp cs i n -> comp cs j n -> i = j.
Proof.
  intros cs n i j H Hi Hj. apply label_inj.
  assert (A : lookup n (owner_dict (number_from 0 cs)) = Some (label i)) by (apply lookup_mapping; eauto).
  assert (B : lookup n (owner_dict (number_from 0 cs)) = Some (label j)) by (apply lookup_mapping; eauto).
  congruence.
Qed.
Lemma comp_mutual : forall g cs i x y, components g cs -> comp cs i x -> (comp cs i y <-> mutual g x y).
Proof.
  intros g cs i x y (A & B & C) [c [H1 H2]]. destruct (C c) as [_ D]; [eapply nth_error_In; eauto|].
  rewrite <- (D x y H2). unfold comp. split.
  - intros [c' [H3 H4]]. congruence.
  - eauto.
Qed.
Lemma comp_lt : forall cs i n, comp cs i n -> i < length cs.
Proof. intros cs i n [c [H _]]. apply nth_error_Some. congruence. Qed.
Lemma comp_inhabited : forall g cs i, components g cs -> i < length cs -> exists n, comp cs i n.
Proof.
  intros g cs i (A & B & C) H. apply nth_error_Some in H. destruct (nth_error cs i) as [c|] eqn:E; [|congruence].
  destruct (C c) as [D _]; [eapply nth_error_In; eauto|]. destruct c as [|n c]; [congruence|].
  exists n, (n :: c). simpl. auto.
Qed.

(* ---- the condensed graph ---- *)
Lemma nodes_nx_add_edge_present : forall g u v, In u (nodes g) -> In v (nodes g) -> nodes (nx_add_edge g u v) = nodes g.
Proof.
  intros g u v Hu Hv. unfold nx_add_edge. rewrite (add_node_present g u Hu), (add_node_present g v Hv).
  destruct (has_edge g u v); reflexivity.
Qed.
Lemma condensation_edges_spec : forall mp es c, wf_graph c ->
  (forall u v, In (u, v) es -> exists i j, lookup u mp = Some i /\ lookup v mp = Some j /\ In i (nodes c) /\ In j (nodes c)) ->
  exists c', condensation_edges mp c es = Ok c' /\ wf_graph c' /\ nodes c' = nodes c /\
    forall a b, edge c' a b <-> edge c a b \/ (a <> b /\ exists u v, In (u, v) es /\ lookup u mp = Some a /\ lookup v mp = Some b).
Proof.
  intros mp. induction es as [|[u v] es IH]; intros c W H.
  - exists c. simpl. split; auto. split; auto. split; auto. intros a b. split; auto.
    intros [K|[_ [u [v [[] _]]]]]; auto.
  - destruct (H u v) as [i [j (H1 & H2 & H3 & H4)]]; [simpl; auto|].
    simpl. unfold dict_get. rewrite H1, H2. simpl.
    set (c1 := if String.eqb i j then c else nx_add_edge c i j).
    assert (W1 : wf_graph c1) by (unfold c1; destruct (String.eqb i j); auto; apply wf_nx_add_edge; auto).
    assert (N1 : nodes c1 = nodes c) by (unfold c1; destruct (String.eqb i j); auto; apply nodes_nx_add_edge_present; auto).
    assert (E1 : forall a b, edge c1 a b <-> edge c a b \/ (a <> b /\ a = i /\ b = j)).
    { intros a b. unfold c1. destruct (String.eqb i j) eqn:E.
      - apply String.eqb_eq in E. split; [tauto|]. intros [K|(K1 & K2 & K3)]; auto. congruence.
      - apply String.eqb_neq in E. rewrite edge_nx_add_edge. split; intros [K|K]; auto; right; try tauto.
        destruct K; subst; auto. }
    destruct (IH c1 W1) as [c' (R1 & R2 & R3 & R4)].
    { intros u' v' Hin. rewrite N1. apply H. simpl; auto. }
    exists c'. split; auto. split; auto. split; [congruence|]. intros a b. rewrite R4, E1. split.
    + intros [[K|(K1 & K2 & K3)]|(K1 & u' & v' & K2 & K3 & K4)]; auto; right.
      * subst. split; auto. exists u, v. simpl; auto.
      * split; auto. exists u', v'. simpl; auto.
    + intros [K|(K1 & u' & v' & [K2|K2] & K3 & K4)]; auto.
      * inversion K2; subst. rewrite H1 in K3. rewrite H2 in K4. inversion K3; inversion K4; subst. auto.
      * right. split; auto. exists u', v'. auto.
Qed.
Definition is_condensation (g : graph) (cs : list (list node)) (c : graph) : Prop :=
  wf_graph c /\ nodes c = map label (seq 0 (length cs)) /\
  forall a b, edge c a b <-> exists i j u v, a = label i /\ b = label j /\ i <> j /\ comp cs i u /\ comp cs j v /\ edge g u v.
Lemma NoDup_labels : forall n i, NoDup (map label (seq i n)).
Proof. intros. apply NoDup_map_inj; [|apply seq_NoDup]. intros x y _ _. apply label_inj. Qed.
Lemma add_nodes_empty : forall ns, NoDup ns -> add_nodes_from empty_graph ns = mkG ns [].
Proof. intros ns H. rewrite add_nodes_from_snoc; simpl; auto. Qed.
Lemma condensation_spec : forall so g, wf_graph g -> valid_components so ->
  exists c, condensation so g = Ok (mkC c (owner_dict (number_from 0 (so (sccs g))))) /\
    components g (so (sccs g)) /\ is_condensation g (so (sccs g)) c.
Proof.
  intros so g W V. assert (Cs := components_perm g so _ V (sccs_components g W)).
  set (cs := so (sccs g)) in *. unfold condensation. fold cs.
  rewrite keys_number_from, add_nodes_empty by apply NoDup_labels.
  assert (K : forall u, In u (nodes g) -> exists i, comp cs i u /\ lookup u (owner_dict (number_from 0 cs)) = Some (label i) /\ In (label i) (map label (seq 0 (length cs)))).
  { intros u Hu. apply (proj1 (proj2 Cs)) in Hu. apply in_concat_comp in Hu. destruct Hu as [i Hi].
    exists i. split; auto. split; [apply lookup_mapping; [apply Cs|eauto]|].
    apply in_map, in_seq. apply comp_lt in Hi. lia. }
  destruct (condensation_edges_spec (owner_dict (number_from 0 cs)) (edges_view g) (mkG (map label (seq 0 (length cs))) []))
    as [c (E & Wc & Nc & Ec)].
  - split; [apply NoDup_labels|]. split; [constructor|]. intros u v [].
  - intros u v H. apply in_edges_view in H; auto.
    destruct (K u) as [i (A1 & A2 & A3)]; [eapply wf_edge_l; eauto|].
    destruct (K v) as [j (B1 & B2 & B3)]; [eapply wf_edge_r; eauto|].
    exists (label i), (label j). auto.
  - exists c. rewrite E. simpl. split; auto. split; auto. split; auto. split; auto.
    intros a b. rewrite Ec. split.
    + intros [[]|(H1 & u & v & H2 & H3 & H4)]. apply in_edges_view in H2; auto.
      apply lookup_mapping in H3; [|apply Cs]. apply lookup_mapping in H4; [|apply Cs].
      destruct H3 as [i [E1 H3]], H4 as [j [E2 H4]]. exists i, j, u, v. repeat split; auto. congruence.
    + intros (i & j & u & v & E1 & E2 & N & H1 & H2 & H3). right. split.
      * subst. intro F. apply label_inj in F. auto.
      * exists u, v. split; [apply in_edges_view; auto|]. split; apply lookup_mapping; try apply Cs; eauto.
Qed.
Lemma nx_copy_spec : forall c, wf_graph c ->
  let c' := nx_add_edges_from (add_nodes_from empty_graph (nodes c)) (edges_view c) in
  wf_graph c' /\ nodes c' = nodes c /\ forall a b, edge c' a b <-> edge c a b.
Proof.
  intros c W c'. unfold c'. rewrite add_nodes_empty by apply W. unfold nx_add_edges_from.
  assert (W0 : wf_graph (mkG (nodes c) [])) by (split; [apply W|split; [constructor|intros u v []]]).
  split; [apply fold_edges_wf; auto|]. split.
  - assert (H : forall es g, (forall u v, In (u, v) es -> In u (nodes g) /\ In v (nodes g)) ->
      nodes (fold_left (fun g e => nx_add_edge g (fst e) (snd e)) es g) = nodes g).
    { induction es as [|[u v] es IH]; intros g H; simpl; auto. destruct (H u v) as [A B]; [simpl; auto|].
      rewrite IH; rewrite nodes_nx_add_edge_present by auto; auto. intros; apply H; simpl; auto. }
    rewrite H; auto. intros u v Hin. apply in_edges_view in Hin; auto. simpl. apply W; auto.
  - intros a b. rewrite fold_edges_edge, in_edges_view by auto. unfold edge; simpl. tauto.
Qed.

(* reachability in the condensation is reachability in the graph *)
Lemma condensation_reach : forall g cs c, wf_graph g -> components g cs -> is_condensation g cs c ->
  forall a b, reach c a b -> forall i x, a = label i -> comp cs i x -> exists j y, b = label j /\ comp cs j y /\ reach g x y.
Proof.
  intros g cs c W Cs (Wc & Nc & Ec) a b H. induction H; intros i x Ea Hi.
  - exists i, x. split; auto. split; auto. constructor.
  - apply Ec in H. destruct H as (i' & j & u' & v' & E1 & E2 & N & H1 & H2 & H3). rewrite Ea in E1.
    apply label_inj in E1. subst i'. destruct (IHreach j v' E2 H2) as (j' & y & E3 & H4 & H5).
    exists j', y. split; auto. split; auto. apply (comp_mutual g cs i x u' Cs Hi) in H1.
    eapply reach_trans; [apply H1|]. econstructor; eauto.
Qed.
Lemma reach_condensation : forall g cs c, wf_graph g -> components g cs -> is_condensation g cs c ->
  forall x y, reach g x y -> forall i j, comp cs i x -> comp cs j y -> reach c (label i) (label j).
Proof.
  intros g cs c W Cs Ic x y H. induction H; intros i j Hi Hj.
  - rewrite (comp_unique cs u i j (proj1 Cs) Hi Hj). constructor.
  - assert (Hv : In v (concat cs)). { apply Cs. eapply wf_edge_r; eauto. }
    apply in_concat_comp in Hv. destruct Hv as [k Hk].
    destruct (Nat.eq_dec i k) as [E|N]; [subst; eauto|].
    econstructor; [|apply (IHreach k j Hk Hj)]. apply (proj2 (proj2 Ic)). exists i, k, u, v. repeat split; auto.
Qed.
Lemma condensation_acyclic : forall g cs c, wf_graph g -> components g cs -> is_condensation g cs c -> acyclic c.
Proof.
  intros g cs c W Cs Ic a [b [H1 H2]]. assert (H1' := H1). apply (proj2 (proj2 Ic)) in H1.
  destruct H1 as (i & j & u & v & E1 & E2 & N & Hu & Hv & He). subst.
  destruct (condensation_reach g cs c W Cs Ic _ _ H2 j v eq_refl Hv) as (i' & y & E & Hy & R).
  apply label_inj in E. subst i'. apply N.
  apply (comp_unique cs v); [apply Cs| |auto]. apply (comp_mutual g cs i y v Cs Hy). split; auto.
  apply (comp_mutual g cs i y u Cs Hy) in Hu. eapply reach_trans; [apply Hu|apply reach_edge; auto].
Qed.

(* ---- members of a component ---- *)
Definition decs_of (mp : list (node * node)) (k : node) : list node :=
  map fst (filter (fun kv => String.eqb (snd kv) k) mp).
Lemma decisions_in_scc_fold : forall mp acc k,
  lookup k (fold_left (fun acc kv =>
    dset (snd kv) (match lookup (snd kv) acc with Some l => l | None => [] end ++ [fst kv]) acc) mp acc) =
  match decs_of mp k with
  | [] => lookup k acc
  | l => Some (match lookup k acc with Some l0 => l0 | None => [] end ++ l)
  end.
Proof.
  induction mp as [|[n i] mp IH]; intros acc k; auto.
  unfold decs_of in *. simpl. rewrite IH. rewrite !lookup_dset. rewrite (String.eqb_sym k i).
  destruct (String.eqb i k) eqn:E; simpl.
  - apply String.eqb_eq in E. subst i.
    destruct (map fst (filter (fun kv => String.eqb (snd kv) k) mp)); auto.
    rewrite <- app_assoc. reflexivity.
  - reflexivity.
Qed.
Lemma in_decs_of : forall mp k n, NoDup (keys mp) -> (In n (decs_of mp k) <-> lookup n mp = Some k).
Proof.
  intros mp k n H. unfold decs_of. rewrite in_map_iff. split.
  - intros [[a b] [E H1]]. simpl in E. subst a. apply filter_In in H1. destruct H1 as [H1 H2].
    simpl in H2. apply String.eqb_eq in H2. subst. apply In_lookup; auto.
  - intro E. exists (n, k). split; auto. apply filter_In. split; [apply lookup_In; auto|]. simpl. apply String.eqb_refl.
Qed.
Lemma NoDup_decs_of : forall mp k, NoDup (keys mp) -> NoDup (decs_of mp k).
Proof.
  intros mp k H. unfold decs_of. induction mp as [|[a b] mp IH]; simpl; [constructor|].
  inversion H; subst. destruct (String.eqb b k); simpl; auto. constructor; auto.
  intro K. apply H2. apply in_map_iff in K. destruct K as [[x y] [E K]]. apply filter_In in K.
  unfold keys. apply in_map_iff. exists (x, y). tauto.
Qed.
Lemma lookup_decisions_in_scc : forall c mp k, NoDup (keys mp) -> (exists n, lookup n mp = Some k) ->
  lookup k (get_decisions_in_scc (mkC c mp)) = Some (decs_of mp k).
Proof.
  intros c mp k H [n Hn]. unfold get_decisions_in_scc. simpl. rewrite decisions_in_scc_fold. simpl.
  apply in_decs_of in Hn; auto. destruct (decs_of mp k); [destruct Hn|reflexivity].
Qed.
Lemma get_all_spec : forall (A : Type) (d : list (string * A)) f ks, (forall k, In k ks -> lookup k d = Some (f k)) ->
  get_all d ks = Ok (map f ks).
Proof.
  intros A d f. induction ks as [|k ks IH]; intros H; auto. simpl. unfold dict_get. rewrite (H k) by (simpl; auto).
  simpl. rewrite IH; auto. intros; apply H; simpl; auto.
Qed.
Lemma get_all_lists_spec : forall (A : Type) (d : list (string * A)) f kss,
  (forall ks k, In ks kss -> In k ks -> lookup k d = Some (f k)) ->
  get_all_lists d kss = Ok (map (map f) kss).
Proof.
  intros A d f. induction kss as [|ks kss IH]; intros H; auto. simpl. rewrite (get_all_spec A d f).
  - simpl. rewrite IH; auto. intros; eapply H; simpl; eauto.
  - intros k Hk. eapply H; simpl; eauto.
Qed.

(* ---- the condensed relevance graph of a diagram ---- *)
Definition ready (m : macid) : Prop := usable m /\ forall d, In d (decisions m) -> strategic m d.
Lemma is_decision_in : forall m d, good_roles m -> (is_decision m d <-> In d (decisions m)).
Proof.
  intros m d G. unfold is_decision, decisions. simpl. split.
  - intros [a H]. apply good_listed_decision in H; auto. apply in_keys_lookup. eauto.
  - intro H. apply in_keys_lookup in H. destruct H as [a H]. exists a. apply good_listed_decision; auto.
Qed.
Lemma relies_reach : forall m g, good_roles m -> wf_graph g -> nodes g = decisions m ->
  (forall x y, edge g x y <-> In x (decisions m) /\ In y (decisions m) /\ x <> y /\ r_relevant m x y) ->
  forall x y, In x (decisions m) -> (relies_on m x y <-> reach g x y).
Proof.
  intros m g G W N E x y Hx. split; intro H.
  - induction H; [constructor|]. apply is_decision_in in H; auto. apply is_decision_in in H0; auto.
    destruct (string_dec x y) as [->|D]; [auto|]. econstructor; [|auto]. apply E. auto.
  - induction H; [constructor|]. apply E in H. destruct H as (A & B & C & D).
    econstructor; [apply is_decision_in; eauto|apply is_decision_in; eauto|eauto|auto].
Qed.
Lemma NoDup_owner_keys : forall d, NoDup (keys (owner_dict d)).
Proof. intros d. apply keys_owner_fold. constructor. Qed.
Lemma condensed_relevance_spec : forall so m, ready m -> NoDup (decisions m) -> valid_components so ->
  exists g cs c, relevance_graph m (decisions m) = Ok g /\ wf_graph g /\ nodes g = decisions m /\
    (forall x y, In x (decisions m) -> (relies_on m x y <-> reach g x y)) /\
    components g cs /\ is_condensation g cs c /\
    condensed_relevance_graph so m = Ok (mkC c (owner_dict (number_from 0 cs))).
Proof.
  intros so m [U S] N V.
  destruct (relevance_graph_spec m (decisions m) U N S) as [g (E & W & Ng & Eg)].
  destruct (condensation_spec so g W V) as [c0 (E0 & Cs & Ic)].
  destruct (nx_copy_spec c0 (proj1 Ic)) as (Wc & Nc & Ec).
  exists g, (so (sccs g)), (nx_add_edges_from (add_nodes_from empty_graph (nodes c0)) (edges_view c0)).
  split; auto. split; auto. split; auto.
  split; [apply relies_reach; auto; apply U|]. split; auto. split.
  - split; auto. split; [rewrite Nc; apply Ic|]. intros a b. rewrite Ec. apply Ic.
  - unfold condensed_relevance_graph. rewrite E. simpl. rewrite E0. reflexivity.
Qed.
Lemma in_decs_comp : forall cs k n, NoDup (concat cs) ->
  (In n (decs_of (owner_dict (number_from 0 cs)) k) <-> exists i, k = label i /\ comp cs i n).
Proof. intros. rewrite in_decs_of by apply NoDup_owner_keys. apply lookup_mapping; auto. Qed.
Lemma lookup_members : forall g cs c k, components g cs -> is_condensation g cs c -> In k (nodes c) ->
  let mp := owner_dict (number_from 0 cs) in
  lookup k (get_decisions_in_scc (mkC c mp)) = Some (decs_of mp k) /\ exists i n, k = label i /\ comp cs i n.
Proof.
  intros g cs c k Cs Ic H mp. rewrite (proj1 (proj2 Ic)) in H. apply in_map_iff in H.
  destruct H as [i [E H]]. apply in_seq in H. destruct (comp_inhabited g cs i Cs) as [n Hn]; [lia|].
  split; [|eauto]. apply lookup_decisions_in_scc; [apply NoDup_owner_keys|].
  exists n. apply lookup_mapping; [apply Cs|eauto].
Qed.
Lemma NoDup_concat_map : forall (A B : Type) (f : A -> list B) l, NoDup l -> (forall x, In x l -> NoDup (f x)) ->
  (forall x y z, In x l -> In y l -> In z (f x) -> In z (f y) -> x = y) -> NoDup (concat (map f l)).
Proof.
  induction l as [|a l IH]; intros N H1 H2; simpl; [constructor|]. inversion N; subst.
  apply NoDup_app_intro.
  - apply H1; simpl; auto.
  - apply IH; auto; [intros; apply H1; simpl; auto|]. intros x y z Hx Hy. apply H2; simpl; auto.
  - intros z Hz Hz'. apply in_concat in Hz'. destruct Hz' as [fl [K1 K2]]. apply in_map_iff in K1.
    destruct K1 as [y [E K1]]. subst fl. rewrite (H2 a y z) in H3; simpl; auto.
Qed.
Lemma map_eq_app_cons : forall (A B : Type) (f : A -> B) l pre x post, map f l = pre ++ x :: post ->
  exists l1 k l2, l = l1 ++ k :: l2 /\ pre = map f l1 /\ x = f k /\ post = map f l2.
Proof.
  intros A B f l pre x post H. apply map_eq_app in H. destruct H as (l1 & r & E1 & E2 & E3).
  apply map_eq_cons in E3. destruct E3 as (k & l2 & E4 & E5 & E6). subst. eauto 8.
Qed.
Lemma scc_ordering_spec : forall so o m, ready m -> NoDup (decisions m) -> valid_components so -> valid_order o ->
  exists c ls, condensed_relevance_graph so m = Ok c /\ get_scc_topological_ordering o c = Ok ls /\
    NoDup (concat ls) /\ ~ In [] ls /\ (forall d, In d (concat ls) <-> is_decision m d) /\
    (forall x y, is_decision m x -> ((exists l, In l ls /\ In x l /\ In y l) <-> relies_on m x y /\ relies_on m y x)) /\
    (forall pre l post x y, ls = pre ++ l :: post -> In x l -> In y (concat post) -> ~ relies_on m y x).
Proof.
  intros so o m R N V O. destruct (condensed_relevance_spec so m R N V) as (g & cs & c & Eg & W & Ng & Rel & Cs & Ic & E).
  set (mp := owner_dict (number_from 0 cs)) in *.
  assert (A := condensation_acyclic g cs c W Cs Ic).
  destruct (toposort_spec o c O (proj1 Ic) A) as [l (T & P & B)].
  assert (Nl : NoDup l) by (eapply Permutation_NoDup; [apply Permutation_sym; eauto|apply (proj1 Ic)]).
  assert (Tl := preds_before_topological c l Nl B).
  assert (L : forall k, In k l -> lookup k (get_decisions_in_scc (mkC c mp)) = Some (decs_of mp k) /\ exists i n, k = label i /\ comp cs i n).
  { intros k Hk. apply (lookup_members g cs c k Cs Ic). eapply Permutation_in; eauto. }
  exists (mkC c mp), (map (decs_of mp) l). split; auto. split.
  { unfold get_scc_topological_ordering. simpl. rewrite T. apply get_all_spec. intros k Hk. apply L; auto. }
  assert (Nc : NoDup (concat cs)) by apply Cs.
  assert (Hin : forall k n, In n (decs_of mp k) <-> exists i, k = label i /\ comp cs i n) by (intros; apply in_decs_comp; auto).
  assert (Lab : forall i n, comp cs i n -> In (label i) l).
  { intros i n Hc. eapply Permutation_in; [apply Permutation_sym; eauto|]. rewrite (proj1 (proj2 Ic)).
    apply in_map, in_seq. apply comp_lt in Hc. lia. }
  assert (Dc : forall d, is_decision m d <-> exists i, comp cs i d).
  { intro d. rewrite (is_decision_in m d); [|apply R]. rewrite <- Ng, <- (proj1 (proj2 Cs)). apply in_concat_comp. }
  split; [|split; [|split; [|split]]].
  - apply NoDup_concat_map; auto.
    + intros k _. apply NoDup_decs_of, NoDup_owner_keys.
    + intros k k' n _ _ H1 H2. apply Hin in H1, H2. destruct H1 as [i [-> H1]], H2 as [j [-> H2]].
      rewrite (comp_unique cs n i j); auto.
  - intro H. apply in_map_iff in H. destruct H as [k [H1 H2]]. destruct (L k H2) as [_ [i [n [E1 Hn]]]].
    assert (In n (decs_of mp k)) as K by (apply Hin; eauto). rewrite H1 in K. destruct K.
  - intro d. rewrite Dc, in_concat. split.
    + intros [ns [H1 H2]]. apply in_map_iff in H1. destruct H1 as [k [<- H1]]. apply Hin in H2.
      destruct H2 as [i [_ H2]]. eauto.
    + intros [i Hi]. exists (decs_of mp (label i)). split; [apply in_map; eauto|]. apply Hin. eauto.
  - intros x y Dx. assert (Hx : In x (decisions m)) by (apply is_decision_in; auto; apply R).
    assert (M : forall y, (relies_on m x y /\ relies_on m y x) <-> mutual g x y).
    { intro z. split.
      - intros [H1 H2]. assert (reach g x z) by (apply Rel; auto). split; auto.
        apply Rel; auto. rewrite <- Ng. eapply wf_reach; eauto. rewrite Ng; auto.
      - intros [H1 H2]. split; apply Rel; auto. rewrite <- Ng. eapply wf_reach; eauto. rewrite Ng; auto. }
    rewrite M. split.
    + intros [ns [H1 [H2 H3]]]. apply in_map_iff in H1. destruct H1 as [k [<- H1]]. apply Hin in H2, H3.
      destruct H2 as [i [E1 H2]], H3 as [j [E2 H3]]. assert (i = j) by (apply label_inj; congruence). subst j.
      apply (comp_mutual g cs i); auto.
    + intro H. apply Dc in Dx. destruct Dx as [i Hi]. exists (decs_of mp (label i)).
      split; [apply in_map; eauto|]. split; apply Hin; [eauto|]. exists i. split; auto.
      apply (comp_mutual g cs i x y Cs Hi); auto.
  - intros pre ns post x y H Hx Hy Hr. apply map_eq_app_cons in H. destruct H as (l1 & k & l2 & El & _ & -> & ->).
    apply in_concat in Hy. destruct Hy as [ns [H1 H2]]. apply in_map_iff in H1. destruct H1 as [k' [<- H1]].
    apply Hin in Hx, H2. destruct Hx as [i [-> Hi]], H2 as [j [-> Hj]].
    assert (Hy : In y (decisions m)). { apply (is_decision_in m y); [apply R|]. apply Dc; eauto. }
    apply Rel in Hr; auto. assert (Hc := reach_condensation g cs c W Cs Ic y x Hr j i Hj Hi).
    apply reach_descends in Hc. destruct Hc as [Hc|Hc].
    + apply label_inj in Hc. subst j. rewrite El in Nl. apply NoDup_remove_2 in Nl. apply Nl. apply in_or_app; auto.
    + apply (Tl l1 (label i) l2 (label j) El H1 Hc).
Qed.

(* ---- subsets ---- *)
Lemma combinations_spec : forall (l : list node) r s, In s (combinations l r) ->
  incl s l /\ length s = r /\ (NoDup l -> s = filter (fun x => mem x s) l).
Proof.
  induction l as [|x l IH]; intros r s H; destruct r as [|r]; simpl in H.
  - destruct H as [<-|[]]. split; [intros y []|]. auto.
  - destruct H.
  - destruct H as [<-|[]]. split; [intros y []|]. split; auto. intros _. clear. induction (x :: l); simpl; auto.
  - apply in_app_or in H. destruct H as [H|H].
    + apply in_map_iff in H. destruct H as [s' [<- H]]. destruct (IH r s' H) as (A & B & C). split; [|split].
      * intros y [Hy|Hy]; simpl; auto.
      * simpl; auto.
      * intro N. inversion N; subst. simpl. rewrite String.eqb_refl. simpl. f_equal.
        rewrite (C H3) at 1. apply filter_ext_in. intros y Hy. destruct (String.eqb_spec y x); auto. subst. contradiction.
    + destruct (IH (S r) s H) as (A & B & C). split; [|split].
      * intros y Hy; simpl; auto.
      * auto.
      * intro N. inversion N; subst. simpl. destruct (mem_spec x s) as [K|K]; [exfalso; apply H2, A; auto|auto].
Qed.
Lemma in_combinations : forall (f : node -> bool) l, In (filter f l) (combinations l (length (filter f l))).
Proof.
  intros f. induction l as [|x l IH]; simpl; auto. destruct (f x); simpl.
  - apply in_or_app. left. apply in_map. auto.
  - destruct (length (filter f l)) eqn:E.
    + destruct (filter f l); [simpl; auto|discriminate].
    + apply in_or_app. right. auto.
Qed.
Lemma NoDup_combinations : forall (l : list node) r, NoDup l -> NoDup (combinations l r).
Proof.
  induction l as [|x l IH]; intros r N; destruct r as [|r]; simpl; try (repeat constructor; simpl; tauto).
  inversion N; subst. apply NoDup_app_intro; auto.
  - apply NoDup_map_inj; auto. intros a b _ _ E. inversion E; auto.
  - intros s Hs Hs'. apply in_map_iff in Hs. destruct Hs as [s' [<- _]]. apply combinations_spec in Hs'.
    apply H1. apply (proj1 Hs'). simpl; auto.
Qed.
Lemma filter_len : forall (A : Type) (f : A -> bool) l, length (filter f l) <= length l.
Proof. induction l; simpl; auto. destruct (f a); simpl; lia. Qed.
Lemma in_powerset : forall ns s, NoDup ns ->
  (In s (powerset ns) <-> s <> [] /\ s = filter (fun x => mem x s) ns).
Proof.
  intros ns s N. unfold powerset. rewrite in_flat_map. split.
  - intros [r [H1 H2]]. apply in_seq in H1. apply combinations_spec in H2. destruct H2 as (A & B & C). split.
    + intro E. subst. simpl in H1. lia.
    + auto.
  - intros [H1 H2]. exists (length s). split.
    + apply in_seq. split; [destruct s; [congruence|simpl; lia]|].
      rewrite H2. assert (K := filter_len _ (fun x => mem x s) ns). lia.
    + assert (K := in_combinations (fun x => mem x s) ns). rewrite <- H2 in K. exact K.
Qed.
Lemma NoDup_flat_map : forall (A B : Type) (f : A -> list B) l, NoDup l -> (forall x, In x l -> NoDup (f x)) ->
  (forall x y z, In x l -> In y l -> In z (f x) -> In z (f y) -> x = y) -> NoDup (flat_map f l).
Proof. intros. rewrite flat_map_concat_map. apply NoDup_concat_map; auto. Qed.
Lemma NoDup_powerset : forall ns, NoDup ns -> NoDup (powerset ns).
Proof.
  intros ns N. unfold powerset. apply NoDup_flat_map.
  - apply seq_NoDup.
  - intros r _. apply NoDup_combinations; auto.
  - intros x y s _ _ H1 H2. apply combinations_spec in H1, H2. destruct H1 as (_ & <- & _), H2 as (_ & <- & _). auto.
Qed.

(* ---- the filter loop ---- *)
Lemma eqb_list_eq : forall a b, eqb_list a b = true <-> a = b.
Proof. intros. unfold eqb_list. destruct (list_eq_dec string_dec a b); split; congruence. Qed.
Lemma in_remove_tuple : forall x l y, NoDup l -> (In y (remove_tuple x l) <-> In y l /\ y <> x) .
Proof.
  intros x l y N. induction l as [|z l IH]; simpl; [tauto|]. inversion N; subst.
  destruct (eqb_list x z) eqn:E.
  - apply eqb_list_eq in E. subst z. split; [intro H; split; auto; congruence|]. intros [[H|H] K]; [congruence|auto].
  - simpl. rewrite IH by auto. split; [|tauto]. intros [H|H]; [|tauto]. subst z. split; auto. intro; subst.
    assert (eqb_list x x = true) by (apply eqb_list_eq; auto). congruence.
Qed.
Lemma NoDup_remove_tuple : forall x l, NoDup l -> NoDup (remove_tuple x l).
Proof.
  intros x l N. induction N as [|z l Hz N IH]; simpl; [constructor|]. destruct (eqb_list x z); auto.
  constructor; auto. intro H. apply in_remove_tuple in H; tauto.
Qed.
Definition closed_in (g : graph) (s : list node) (n : node) : bool := forallb (fun d => mem d s) (descendants g n).
Lemma filter_inner : forall g subset ns sub, NoDup sub ->
  let r := fold_left (fun subgames' n =>
      if negb (forallb (fun d => mem d subset) (descendants g n)) && existsb (eqb_list subset) subgames'
      then remove_tuple subset subgames' else subgames') ns sub in
  NoDup r /\ forall s, In s r <-> In s sub /\ (s = subset -> forall n, In n ns -> closed_in g subset n = true).
Proof.
  intros g subset. induction ns as [|n ns IH]; intros sub N; simpl.
  - split; [exact N|]. intro s. tauto.
  - fold (closed_in g subset n).
    set (sub1 := if negb (closed_in g subset n) && existsb (eqb_list subset) sub then remove_tuple subset sub else sub).
    assert (H : NoDup sub1 /\ forall s, In s sub1 <-> In s sub /\ (s = subset -> closed_in g subset n = true)).
    { unfold sub1. destruct (closed_in g subset n); simpl.
      - split; auto. intro s. tauto.
      - destruct (existsb (eqb_list subset) sub) eqn:E.
        + split; [apply NoDup_remove_tuple; auto|]. intro s. rewrite in_remove_tuple by auto.
          split; intros [A B]; (split; [exact A|]); intro K; [destruct (B K)|specialize (B K); discriminate].
        + split; auto. intro s. split; [|tauto]. intro Hs. split; auto. intro; subst s.
          assert (existsb (eqb_list subset) sub = true); [|congruence]. apply existsb_exists.
          exists subset. split; auto. apply eqb_list_eq; auto. }
    destruct H as [N1 H]. destruct (IH sub1 N1) as [A B]. split; auto. intro s. rewrite B, H. split.
    + intros [[H1 H2] H3]. split; auto. intros E n' [->|Hn]; auto.
    + intros [H1 H2]. split; [split; auto; intro; apply H2; simpl; auto|]. intros E n' Hn. apply H2; simpl; auto.
Qed.
Lemma filter_subgames_spec : forall g ps, NoDup ps ->
  NoDup (filter_subgames g ps) /\
  forall s, In s (filter_subgames g ps) <-> In s ps /\ forall n, In n s -> closed_in g s n = true.
Proof.
  intros g ps N. unfold filter_subgames.
  assert (H : forall qs sub, NoDup sub ->
    let r := fold_left (fun subgames subset =>
    fold_left (fun subgames' n =>
      if negb (forallb (fun d => mem d subset) (descendants g n)) && existsb (eqb_list subset) subgames'
      then remove_tuple subset subgames' else subgames') subset subgames) qs sub in
    NoDup r /\ forall s, In s r <-> In s sub /\ (In s qs -> forall n, In n s -> closed_in g s n = true)).
  { induction qs as [|q qs IH]; intros sub Ns; cbn [fold_left]; cbv zeta.
    - split; auto. intro s. simpl. tauto.
    - destruct (filter_inner g q q sub Ns) as [N1 I1].
      destruct (IH _ N1) as [N2 I2]. split; [exact N2|]. intro s. rewrite I2, I1. simpl. split.
      + intros [[A B] C]. split; auto. intros [D|D]; auto. intros n Hn. rewrite <- D at 1. apply B; auto. subst; auto.
      + intros [A B]. split; [split; auto; intros E; subst; auto|]. auto. }
  destruct (H ps ps N) as [A B]. split; auto. intro s. rewrite B. tauto.
Qed.

Lemma ForallOrdPairs_map : forall (A B : Type) (f : A -> B) (R : B -> B -> Prop) l, NoDup l ->
  (forall x y, In x l -> In y l -> R (f x) (f y) -> x = y) -> ForallOrdPairs (fun a b => ~ R a b) (map f l).
Proof.
  intros A B f R l N H. induction N as [|x l Hx N IH]; simpl; constructor.
  - apply Forall_forall. intros b Hb K. apply in_map_iff in Hb. destruct Hb as [y [<- Hy]].
    apply Hx. rewrite (H x y); simpl; auto.
  - apply IH. intros a b Ha Hb. apply H; simpl; auto.
Qed.
Lemma subgames_spec : forall so m, ready m -> NoDup (decisions m) -> valid_components so ->
  exists ss, decs_in_each_maid_subgame so m = Ok ss /\
    (forall s, In s ss -> NoDup s /\ subgame_set m s) /\
    (forall s, subgame_set m s -> exists s', In s' ss /\ same_members s' s) /\
    ForallOrdPairs (fun a b => ~ same_members a b) ss.
Proof.
  intros so m R N V. destruct (condensed_relevance_spec so m R N V) as (g & cs & c & Eg & W & Ng & Rel & Cs & Ic & E).
  set (mp := owner_dict (number_from 0 cs)) in *.
  assert (A := condensation_acyclic g cs c W Cs Ic).
  assert (Nc : NoDup (nodes c)) by apply (proj1 Ic).
  assert (Ncs : NoDup (concat cs)) by apply Cs.
  set (subs := filter_subgames c (powerset (nodes c))).
  destruct (filter_subgames_spec c (powerset (nodes c)) (NoDup_powerset _ Nc)) as [Ns Is]. fold subs in Ns, Is.
  assert (Sub : forall s, In s subs <-> s <> [] /\ s = filter (fun x => mem x s) (nodes c) /\
                 forall k, In k s -> forall k', reach c k k' -> In k' s).
  { intro s. rewrite Is, in_powerset by auto. split.
    - intros [[H1 H2] H3]. split; auto. split; auto. intros k Hk k' Hr.
      apply reach_descends in Hr. destruct Hr as [<-|Hr]; auto.
      specialize (H3 k Hk). unfold closed_in in H3. apply forallb_mem in H3. apply H3.
      apply descendants_iff; auto; [apply Ic|]. rewrite H2 in Hk. apply filter_In in Hk. tauto.
    - intros (H1 & H2 & H3). split; auto. intros k Hk. apply forallb_mem. intros k' Hk'.
      apply descendants_iff in Hk'; auto; [|apply Ic|rewrite H2 in Hk; apply filter_In in Hk; tauto].
      apply (H3 k Hk). apply descends_reach; auto. }
  assert (Nod : forall s k, In s subs -> In k s -> In k (nodes c)).
  { intros s k Hs Hk. apply Sub in Hs. destruct Hs as (_ & H & _). rewrite H in Hk. apply filter_In in Hk. tauto. }
  assert (Hin : forall k n, In n (decs_of mp k) <-> exists i, k = label i /\ comp cs i n) by (intros; apply in_decs_comp; auto).
  assert (Lab : forall i n, comp cs i n -> In (label i) (nodes c)).
  { intros i n Hc. rewrite (proj1 (proj2 Ic)). apply in_map, in_seq. apply comp_lt in Hc. lia. }
  assert (Dc : forall d, is_decision m d <-> exists i, comp cs i d).
  { intro d. rewrite (is_decision_in m d); [|apply R]. rewrite <- Ng, <- (proj1 (proj2 Cs)). apply in_concat_comp. }
  set (decs := fun s => to_set (concat (map (decs_of mp) s))).
  assert (Mem : forall s n, In n (decs s) <-> exists i, In (label i) s /\ comp cs i n).
  { intros s n. unfold decs. rewrite in_to_set, in_concat. split.
    - intros [l [H1 H2]]. apply in_map_iff in H1. destruct H1 as [k [<- H1]]. apply Hin in H2.
      destruct H2 as [i [-> H2]]. eauto.
    - intros [i [H1 H2]]. exists (decs_of mp (label i)). split; [apply in_map; auto|]. apply Hin; eauto. }
  exists (map decs subs). split.
  { unfold decs_in_each_maid_subgame. rewrite E. cbn [bind cgraph]. fold subs.
    rewrite (get_all_lists_spec _ _ (decs_of mp)).
    - cbn [bind]. rewrite map_map. reflexivity.
    - intros ks k H1 H2. apply (lookup_members g cs c k Cs Ic). eapply Nod; eauto. }
  split; [|split].
  - intros s Hs. apply in_map_iff in Hs. destruct Hs as [ks [<- Hs]]. split; [apply NoDup_to_set|].
    assert (Hs' := proj1 (Sub ks) Hs). destruct Hs' as (H1 & _ & H3). split; [|split].
    + intro K. destruct ks as [|k ks]; [congruence|].
      destruct (lookup_members g cs c k Cs Ic) as [_ (i & n & -> & Hn)]; [eapply Nod; eauto; simpl; auto|].
      assert (In n (decs (label i :: ks))) as Q by (apply Mem; exists i; simpl; auto). rewrite K in Q. destruct Q.
    + intros d Hd. apply Mem in Hd. destruct Hd as [i [_ Hd]]. apply Dc; eauto.
    + intros d d' Hd Hr. apply Mem in Hd. destruct Hd as [i [Hi Hd]].
      assert (Hdm : In d (decisions m)) by (apply (is_decision_in m d); [apply R|apply Dc; eauto]).
      apply Rel in Hr; auto.
      assert (Hd' : exists j, comp cs j d').
      { apply Dc. apply is_decision_in; [apply R|]. rewrite <- Ng. eapply wf_reach; eauto. rewrite Ng; auto. }
      destruct Hd' as [j Hj]. apply Mem. exists j. split; auto. apply (H3 (label i) Hi).
      eapply reach_condensation; eauto.
  - intros S (S1 & S2 & S3).
    set (f := fun k => existsb (fun d => match lookup d mp with Some k' => String.eqb k k' | None => false end) S).
    assert (Hf : forall k, f k = true <-> exists d i, In d S /\ k = label i /\ comp cs i d).
    { intro k. unfold f. rewrite existsb_exists. split.
      - intros [d [H1 H2]]. destruct (lookup d mp) as [k'|] eqn:L; [|discriminate]. apply String.eqb_eq in H2. subst k'.
        apply lookup_mapping in L; auto. destruct L as [i [-> L]]. eauto.
      - intros (d & i & H1 & -> & H2). exists d. split; auto.
        replace (lookup d mp) with (Some (label i)); [apply String.eqb_refl|]. symmetry. apply lookup_mapping; eauto. }
    exists (decs (filter f (nodes c))).
    assert (Hk : forall i n, comp cs i n -> (In (label i) (filter f (nodes c)) <-> In n S)).
    { intros i n Hn. rewrite filter_In, Hf. split.
      - intros [_ (d & j & H1 & H2 & H3)]. apply label_inj in H2. subst j.
        apply (S3 d n H1). assert (Hm := proj1 (comp_mutual g cs i d n Cs H3) Hn).
        apply Rel; [|apply Hm]. apply (is_decision_in m d); [apply R|auto].
      - intro H. split; [eapply Lab; eauto|]. exists n, i. auto. }
    assert (SM : same_members (decs (filter f (nodes c))) S).
    { intro n. rewrite Mem. split.
      - intros [i [H1 H2]]. apply (Hk i n H2); auto.
      - intro H. assert (Hd := S2 n H). apply Dc in Hd. destruct Hd as [i Hi]. exists i. split; auto. apply (Hk i n Hi); auto. }
    split; auto. apply in_map. apply Sub. split; [|split].
    + intro K. destruct S as [|d S]; [congruence|]. assert (Hd : In d (d :: S)) by (simpl; auto).
      apply SM in Hd. rewrite K in Hd. simpl in Hd. auto.
    + apply filter_ext_in. intros k Hkn. destruct (f k) eqn:Fk; symmetry.
      * apply mem_In. apply filter_In. auto.
      * apply mem_nIn. intro K. apply filter_In in K. destruct K; congruence.
    + intros k Hkin k' Hr. assert (Hkn := Hkin). apply filter_In in Hkn. destruct Hkn as [_ Hkf].
      apply Hf in Hkf. destruct Hkf as (d & i & H1 & -> & H2).
      destruct (condensation_reach g cs c W Cs Ic _ _ Hr i d eq_refl H2) as (j & y & -> & Hy & Rdy).
      apply (Hk j y Hy). apply (S3 d y H1). apply Rel; auto. apply (is_decision_in m d); [apply R|auto].
  - apply ForallOrdPairs_map; auto. intros s s' Hs Hs' SM.
    assert (H : (forall k, In k s -> In k s') /\ (forall k, In k s' -> In k s)).
    { split; intros k Hk.
      - destruct (lookup_members g cs c k Cs Ic) as [_ (i & n & -> & Hn)]; [exact (Nod s k Hs Hk)|].
        assert (In n (decs s')) as Q by (apply SM, Mem; eauto). apply Mem in Q. destruct Q as [j [Q1 Q2]].
        rewrite (comp_unique cs n i j); auto.
      - destruct (lookup_members g cs c k Cs Ic) as [_ (i & n & -> & Hn)]; [exact (Nod s' k Hs' Hk)|].
        assert (In n (decs s)) as Q by (apply SM, Mem; eauto). apply Mem in Q. destruct Q as [j [Q1 Q2]].
        rewrite (comp_unique cs n i j); auto. }
    apply Sub in Hs, Hs'. destruct Hs as (_ & E1 & _), Hs' as (_ & E2 & _). rewrite E1, E2.
    apply filter_ext_in. intros k _. apply mem_ext. split; apply H.
Qed.

Lemma valid_ready : forall m, valid m -> no_clash (mgraph m) -> utilities_complete m -> ready m /\ NoDup (decisions m).
Proof.
  intros m (W & G & P) C U. apply good_consistent in G. split; [split|].
  - unfold usable. auto.
  - intros d Hd. apply in_keys_lookup in Hd. destruct Hd as [a Ha]. exists a. split; auto.
    apply (U a d). apply good_listed_decision; auto.
  - apply (proj1 G).
Qed.
Lemma scc_ordering_valid : forall so o m, valid m -> no_clash (mgraph m) -> utilities_complete m ->
  valid_components so -> valid_order o ->
  exists c ls, condensed_relevance_graph so m = Ok c /\ get_scc_topological_ordering o c = Ok ls /\
    NoDup (concat ls) /\ ~ In [] ls /\ (forall d, In d (concat ls) <-> is_decision m d) /\
    (forall x y, is_decision m x -> ((exists l, In l ls /\ In x l /\ In y l) <-> relies_on m x y /\ relies_on m y x)) /\
    (forall pre l post x y, ls = pre ++ l :: post -> In x l -> In y (concat post) -> ~ relies_on m y x).
Proof. intros so o m V C U S O. destruct (valid_ready m V C U). apply scc_ordering_spec; auto. Qed.
Lemma subgames_valid : forall so m, valid m -> no_clash (mgraph m) -> utilities_complete m -> valid_components so ->
  exists ss, decs_in_each_maid_subgame so m = Ok ss /\
    (forall s, In s ss -> NoDup s /\ subgame_set m s) /\
    (forall s, subgame_set m s -> exists s', In s' ss /\ same_members s' s) /\
    ForallOrdPairs (fun a b => ~ same_members a b) ss.
Proof. intros so m V C U S. destruct (valid_ready m V C U). apply subgames_spec; auto. Qed.
Lemma rev_components_valid : valid_components (@rev (list node)).
Proof.
  intro cs. exists (rev cs). split; [apply Permutation_rev|]. induction (rev cs); constructor; auto.
Qed.
