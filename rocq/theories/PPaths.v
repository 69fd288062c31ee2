(* Properties C01-C09: paths and d-separation (pycid/core/get_paths.py and the pgmpy
   d-separation test it is used with). *)
From Coq Require Import String List Bool Arith.
Import ListNotations.
From Verif Require Import MBase MGraph MPaths Spec LBase LGraph LDfs LPaths LActive LMotif.
Local Open Scope string_scope.
Local Open Scope list_scope.

(* The network used in the examples:  X -> A -> Y,  X -> C <- Y,  C -> D,  W -> X *)
Definition ex_g : graph :=
  load_edges [("X","A"); ("A","Y"); ("X","C"); ("Y","C"); ("C","D"); ("W","X")].
Example ex_g_wf : wf_dag ex_g.
Proof. apply wf_dag_load. reflexivity. Qed.
(* a diamond with two directed paths *)
Definition ex_dia : graph := load_edges [("S","A"); ("S","B"); ("A","T"); ("B","T")].
Example ex_dia_wf : wf_dag ex_dia.
Proof. apply wf_dag_load. reflexivity. Qed.

(* C01: the generator stops, and what it has yielded by then is an enumeration without
   repetition of the directed paths from s to t. *)
Theorem C01_dir_paths_exact : forall g s t, wf_dag g -> In s (nodes g) -> In t (nodes g) ->
  exists ps, find_all_dir_paths g s t = Ok ps /\
    (exists fuel, forall n, dfs_machine (dir_succ g) s t (fuel + n) = Some ps) /\
    NoDup ps /\ forall p, In p ps <-> directed_path g s t p.
Proof.
  intros g s t Hd Hs Ht.
  destruct (find_all_dir_paths_spec g s t Hd Hs Ht) as (ps & H1 & H2 & H3).
  destruct (find_all_dir_paths_machine g s t Hd Hs Ht) as [f Hf].
  exists ps. split; [exact H1|]. split; [exists f; intro n; apply Hf; exact H1|]. split; assumption.
Qed.
Print Assumptions C01_dir_paths_exact.
Theorem C01_dir_paths_same_node : forall g s, wf_dag g -> In s (nodes g) -> find_all_dir_paths g s s = Ok [[s]].
Proof.
  intros g s _ Hs. unfold find_all_dir_paths, dfs_paths. rewrite String.eqb_refl.
  apply mem_In in Hs. rewrite Hs. reflexivity.
Qed.
Print Assumptions C01_dir_paths_same_node.
Example C01_example : find_all_dir_paths ex_dia "S" "T" = Ok [["S";"A";"T"]; ["S";"B";"T"]].
Proof. reflexivity. Qed.

(* C02 *)
Theorem C02_undir_paths_exact : forall o g s t, valid_order o -> wf_graph g -> In s (nodes g) -> In t (nodes g) ->
  exists ps, find_all_undir_paths o g s t = Ok ps /\
    (exists fuel, forall n, dfs_machine (undir_succ o g) s t (fuel + n) = Some ps) /\
    NoDup ps /\ forall p, In p ps <-> simple_path g s t p.
Proof.
  intros o g s t Ho Hd Hs Ht.
  destruct (find_all_undir_paths_spec o g s t Ho Hd Hs Ht) as (ps & H1 & H2 & H3).
  destruct (find_all_undir_paths_machine o g s t Ho Hd Hs Ht) as [f Hf].
  exists ps. split; [exact H1|]. split; [exists f; intro n; apply Hf; exact H1|]. split; assumption.
Qed.
Print Assumptions C02_undir_paths_exact.
Example C02_example : find_all_undir_paths id_order ex_g "X" "Y" = Ok [["X";"A";"Y"]; ["X";"C";"Y"]] /\
  find_all_undir_paths rev_order ex_g "X" "Y" = Ok [["X";"C";"Y"]; ["X";"A";"Y"]] /\
  valid_order id_order /\ valid_order rev_order.
Proof. repeat split; try reflexivity; [apply id_order_valid|apply rev_order_valid]. Qed.

(* C03 (any start node; the start may even be observed) *)
Theorem C03_find_active_path_sound : forall o g s t Z p, valid_order o -> wf_dag g ->
  incl Z (nodes g) -> In s (nodes g) -> In t (nodes g) ->
  find_active_path o g s t Z = Ok p ->
  simple_path g s t p /\ active g Z p /\ is_active_path g p Z = Ok true.
Proof.
  intros o g s t Z p Ho Hd HZ Hs Ht H.
  pose proof (find_active_path_cases o g Z Ho Hd HZ s t Hs Ht) as Hc. rewrite H in Hc.
  destruct Hc as (H1 & H2 & _). split; [exact H1|]. split; [exact H2|].
  destruct (active_test g Z Hd HZ s t p Hs H1) as [r [Hr1 Hr2]].
  rewrite Hr1. f_equal. apply Hr2. exact H2.
Qed.
Print Assumptions C03_find_active_path_sound.
Example C03_example : find_active_path id_order ex_g "X" "Y" ["A";"D"] = Ok ["X";"C";"Y"].
Proof. reflexivity. Qed.

(* C04 *)
Theorem C04_find_active_path_complete : forall o g s t Z, valid_order o -> wf_dag g ->
  incl Z (nodes g) -> In s (nodes g) -> In t (nodes g) -> ~ In s Z ->
  (find_active_path o g s t Z = Err ValueError <-> is_dconnected g s t Z = Ok false) /\
  ((exists p, find_active_path o g s t Z = Ok p) <-> is_dconnected g s t Z = Ok true) /\
  (is_dconnected g s t Z = Ok true <-> dconn g Z s t).
Proof.
  intros o g s t Z Ho Hd HZ Hs Ht HsZ.
  pose proof (find_active_path_cases o g Z Ho Hd HZ s t Hs Ht) as Hc.
  destruct (is_dconnected_spec g s t Z Hd HZ Hs) as [b [Hb1 Hb2]]. rewrite Hb1.
  destruct (find_active_path o g s t Z) as [p|e].
  - destruct Hc as (H1 & H2 & _ & H4).
    assert (b = true) by (apply Hb2; repeat split; auto; exists p; auto). subst b.
    split; [split; discriminate|]. split; [split; [auto|exists p; auto]|].
    rewrite <- Hb2. split; auto.
  - destruct Hc as [He Hc]. subst e.
    assert (b = false).
    { destruct b; auto. exfalso. assert (Hx : dconn g Z s t) by (apply Hb2; auto).
      destruct Hx as (_ & Hx & p & Hp1 & Hp2). destruct Hc as [Hc|Hc]; [contradiction|].
      apply (Hc p Hp1 Hp2). intro; contradiction. }
    subst b. split; [split; auto|]. split; [split; [intros [p Hp]; discriminate|discriminate]|].
    split; [discriminate|]. intro Hx. apply Hb2 in Hx. discriminate.
Qed.
Print Assumptions C04_find_active_path_complete.
(* what happens for an observed start: exactly the active paths leaving s against an edge are found,
   so the two functions may disagree there *)
Theorem C04_observed_start : forall o g s t Z, valid_order o -> wf_dag g ->
  incl Z (nodes g) -> In s (nodes g) -> In t (nodes g) -> In s Z ->
  is_dconnected g s t Z = Ok false /\
  ((exists p, find_active_path o g s t Z = Ok p) <->
   ~ In t Z /\ exists p, backdoor_path g Z s t p).
Proof.
  intros o g s t Z Ho Hd HZ Hs Ht HsZ.
  pose proof (find_active_path_cases o g Z Ho Hd HZ s t Hs Ht) as Hc.
  split.
  - destruct (is_dconnected_spec g s t Z Hd HZ Hs) as [b [Hb1 Hb2]]. rewrite Hb1. destruct b; auto.
    destruct (proj1 Hb2 eq_refl) as [Hx _]. contradiction.
  - destruct (find_active_path o g s t Z) as [p|e]; split.
    + intros _. destruct Hc as (H1 & H2 & H3 & H4). split; auto. exists p.
      split; [exact H1|]. split; [exact H2|].
      destruct (from_to_cons_inv _ _ _ (proj2 (proj2 H1))) as [q Eq]. destruct q as [|x r].
      * exfalso. subst. destruct H1 as (_ & _ & _ & H1). simpl in H1. congruence.
      * exists x, r. split; auto. eapply (H3 HsZ); eauto.
    + intros _. exists p. auto.
    + intros [p Hp]. discriminate.
    + intros [HtZ [p (H1 & H2 & x & r & E & He)]]. exfalso.
      destruct Hc as [_ [Hc|Hc]]; [contradiction|]. apply (Hc p H1 H2).
      intros _ y r' E'. rewrite E in E'. inversion E'; subst. auto.
Qed.
Print Assumptions C04_observed_start.
(* the statement without "s is not observed" is false *)
Theorem C04_observed_start_refuted : exists g s t Z, wf_dag g /\ incl Z (nodes g) /\
  In s (nodes g) /\ In t (nodes g) /\ ~ In t Z /\
  find_active_path id_order g s t Z = Ok [s; t] /\ is_dconnected g s t Z = Ok false.
Proof.
  exists ex_g, "C", "X", ["C"]. split; [exact ex_g_wf|].
  assert (M : forall x, mem x (nodes ex_g) = true -> In x (nodes ex_g)) by (intros x; apply mem_In).
  split; [intros x [E|[]]; subst; apply M; vm_compute; reflexivity|].
  split; [apply M; vm_compute; reflexivity|]. split; [apply M; vm_compute; reflexivity|].
  split; [intros [E|[]]; discriminate|]. split; vm_compute; reflexivity.
Qed.
Print Assumptions C04_observed_start_refuted.
Example C04_example :
  find_active_path id_order ex_g "W" "Y" ["X"] = Err ValueError /\ is_dconnected ex_g "W" "Y" ["X"] = Ok false /\
  find_active_path id_order ex_g "W" "Y" ["D"] = Ok ["W";"X";"A";"Y"] /\ is_dconnected ex_g "W" "Y" ["D"] = Ok true.
Proof. repeat split. Qed.

(* C05 *)
Theorem C05_is_dconnected : forall g x y Z, wf_dag g -> incl Z (nodes g) -> In x (nodes g) ->
  exists b, is_dconnected g x y Z = Ok b /\ (b = true <-> dconn g Z x y).
Proof. exact is_dconnected_spec. Qed.
Print Assumptions C05_is_dconnected.
Theorem C05_symmetric : forall g x y Z, wf_dag g -> incl Z (nodes g) -> In x (nodes g) -> In y (nodes g) ->
  is_dconnected g x y Z = is_dconnected g y x Z.
Proof.
  intros g x y Z Hd HZ Hx Hy.
  destruct (is_dconnected_spec g x y Z Hd HZ Hx) as [b [H1 H2]].
  destruct (is_dconnected_spec g y x Z Hd HZ Hy) as [c [H3 H4]].
  rewrite H1, H3. f_equal. destruct b, c; auto.
  - symmetry. apply H4. apply dconn_sym, H2. reflexivity.
  - apply H2. apply dconn_sym, H4. reflexivity.
Qed.
Print Assumptions C05_symmetric.
Theorem C05_missing_nodes : forall g s t Z,
  (~ incl Z (nodes g) -> is_dconnected g s t Z = Err ValueError) /\
  (incl Z (nodes g) -> ~ In s (nodes g) -> is_dconnected g s t Z = Err NetworkXError).
Proof. exact is_dconnected_errors. Qed.
Print Assumptions C05_missing_nodes.
Example C05_example : is_dconnected ex_g "X" "Y" ["A"] = Ok false /\ is_dconnected ex_g "X" "Y" ["A";"D"] = Ok true.
Proof. split; reflexivity. Qed.

(* C06: inner nodes and the last node *)
Theorem C06_get_motif : forall g p l a b c r, wf_dag g -> chain (adjacent g) p -> incl p (nodes g) ->
  p = l ++ a :: b :: c :: r ->
  exists m, get_motif g p (S (length l)) = Ok m /\ forall m', motif_of g a b c m' <-> m' = m.
Proof.
  intros g p l a b c r Hd Hc Hi E. subst p.
  destruct (triple_adj g _ a b c Hc) as [A1 A2]; [exists l, r; reflexivity|].
  destruct (get_motif_mid g l a b c r (proj2 Hd) Hi A1 A2) as [m [H1 H2]].
  exists m. split; [exact H1|]. intro m'. split; [|intros ->; exact H2].
  intro H. eapply motif_of_fun; eauto. apply Hd.
Qed.
Print Assumptions C06_get_motif.
Theorem C06_get_motif_last : forall g l a, incl (l ++ [a]) (nodes g) ->
  get_motif g (l ++ [a]) (length l) = Ok Endpoint.
Proof. exact get_motif_last. Qed.
Print Assumptions C06_get_motif_last.
Theorem C06_get_motif_range : forall g p i, incl p (nodes g) -> length p <= i -> get_motif g p i = Err IndexError.
Proof. exact get_motif_out_of_range. Qed.
Print Assumptions C06_get_motif_range.
(* get_motifs gives the direction of the first edge, then the motif of every inner node, then endpoint *)
Theorem C06_get_motifs_partial : forall g a b r, wf_dag g -> chain (adjacent g) (a :: b :: r) -> incl (a :: b :: r) (nodes g) ->
  exists ms, get_motifs g (a :: b :: r) = Ok ms /\ length ms = length (a :: b :: r) /\
    (edge g a b -> nth_error ms 0 = Some Forward) /\
    (edge g b a -> nth_error ms 0 = Some Backward) /\
    (forall l x y z r', a :: b :: r = l ++ x :: y :: z :: r' ->
       exists m, nth_error ms (S (length l)) = Some m /\ motif_of g x y z m) /\
    nth_error ms (S (length r)) = Some Endpoint.
Proof. intros g a b r Hd. exact (get_motifs_spec g a b r (proj2 Hd)). Qed.
Print Assumptions C06_get_motifs_partial.
(* index 0: the two paths share their first two nodes, yet one call answers and the other raises;
   with one more edge it answers fork instead *)
Theorem C06_index0_refuted : exists g g' p p', wf_dag g /\ wf_dag g' /\
  chain (adjacent g) p /\ chain (adjacent g) p' /\ chain (adjacent g') p' /\
  firstn 2 p = firstn 2 p' /\
  get_motif g p 0 = Ok Fork /\ get_motif g p' 0 = Err RuntimeError /\ get_motif g' p' 0 = Ok Fork.
Proof.
  exists (load_edges [("A","B"); ("B","C")]), (load_edges [("A","B"); ("B","C"); ("A","C")]),
    ["A";"B"], ["A";"B";"C"].
  split; [apply wf_dag_load; reflexivity|]. split; [apply wf_dag_load; reflexivity|].
  assert (H : forall g l, In ("A","B") (edges g) -> In ("B","C") (edges g) -> l = ["A";"B"] \/ l = ["A";"B";"C"] ->
              chain (adjacent g) l).
  { intros g l H1 H2 [E|E]; subst; repeat (constructor; [left; assumption|]); constructor. }
  split; [apply H; simpl; auto|]. split; [apply H; simpl; auto|]. split; [apply H; simpl; auto|].
  repeat split; reflexivity.
Qed.
Print Assumptions C06_index0_refuted.
Theorem C06_get_motifs_one_node_refuted : exists g s, wf_dag g /\ In s (nodes g) /\ get_motifs g [s] = Err IndexError.
Proof. exists ex_g, "X". split; [exact ex_g_wf|]. split; [apply mem_In; vm_compute; reflexivity|vm_compute; reflexivity]. Qed.
Print Assumptions C06_get_motifs_one_node_refuted.
Example C06_example : get_motif ex_g ["W";"X";"C";"Y";"A"] 1 = Ok Forward /\
  get_motif ex_g ["W";"X";"C";"Y";"A"] 2 = Ok Collider /\ get_motif ex_g ["W";"X";"C";"Y";"A"] 3 = Ok Backward /\
  get_motif ex_g ["C";"X";"A"] 1 = Ok Fork.
Proof. repeat split. Qed.

(* C07 *)
Theorem C07_is_active_path : forall g Z p, wf_dag g -> chain (adjacent g) p -> NoDup p ->
  incl (p ++ Z) (nodes g) ->
  exists r, is_active_path g p Z = Ok r /\ (r = true <-> active g Z p).
Proof. exact is_active_path_spec. Qed.
Print Assumptions C07_is_active_path.
Example C07_example : is_active_path ex_g ["X";"C";"Y"] ["D"] = Ok true /\ is_active_path ex_g ["X";"C";"Y"] [] = Ok false.
Proof. split; reflexivity. Qed.

(* C08 *)
Theorem C08_backdoor : forall o g s t Z, valid_order o -> wf_dag g -> incl Z (nodes g) ->
  In s (nodes g) -> In t (nodes g) ->
  exists r, is_active_backdoor_trail o g s t Z = Ok r /\ (r = true <-> exists p, backdoor_path g Z s t p).
Proof. intros o g s t Z Ho Hd HZ. exact (is_active_backdoor_trail_spec o g Z Ho Hd HZ s t). Qed.
Print Assumptions C08_backdoor.
Theorem C08_frontdoor_partial : forall o g s t Z, valid_order o -> wf_dag g -> incl Z (nodes g) -> s <> t ->
  In s (nodes g) -> In t (nodes g) ->
  exists r, is_active_indirect_frontdoor_trail o g s t Z = Ok r /\
    (r = true <-> exists p, frontdoor_indirect_path g Z s t p).
Proof. intros o g s t Z Ho Hd HZ. exact (is_active_indirect_frontdoor_trail_spec o g Z Ho Hd HZ s t). Qed.
Print Assumptions C08_frontdoor_partial.
(* for s = t the frontdoor test always raises *)
Theorem C08_frontdoor_same_node_refuted : forall o g s, In s (nodes g) ->
  is_active_indirect_frontdoor_trail o g s s [] = Err IndexError.
Proof.
  intros o g s Hs. unfold is_active_indirect_frontdoor_trail, find_all_undir_paths, dfs_paths.
  apply mem_In in Hs. simpl. rewrite Hs, String.eqb_refl. reflexivity.
Qed.
Print Assumptions C08_frontdoor_same_node_refuted.
Example C08_example :
  is_active_backdoor_trail id_order ex_g "A" "Y" ["D"] = Ok true /\
  is_active_backdoor_trail id_order ex_g "A" "Y" [] = Ok false /\
  is_active_indirect_frontdoor_trail id_order ex_g "X" "Y" ["D"] = Ok true /\
  is_active_indirect_frontdoor_trail id_order ex_g "X" "Y" [] = Ok false.
Proof. repeat split. Qed.

(* C09 *)
Theorem C09_directed_decision_free_path : forall g D s t, wf_dag g -> In s (nodes g) -> In t (nodes g) ->
  exists b, directed_decision_free_path g D s t = Ok b /\
    (b = true <-> exists p, directed_path g s t p /\ forall x, between p x -> ~ In x D).
Proof. exact directed_decision_free_path_spec. Qed.
Print Assumptions C09_directed_decision_free_path.
Example C09_example : directed_decision_free_path ex_dia ["A"] "S" "T" = Ok true /\
  directed_decision_free_path ex_dia ["A";"B";"S";"T"] "S" "T" = Ok false.
Proof. split; reflexivity. Qed.
