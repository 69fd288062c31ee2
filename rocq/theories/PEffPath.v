(* Property C89: effective paths. *)
From Coq Require Import String List Bool Arith.
Import ListNotations.
From Verif Require Import MBase MGraph MPaths MMacid MIncent MPatterns MEffPath Spec SpecM SpecI SpecP
  LBase LGraph LPaths LActive LMotif LRoles LCheck LIncent LPatterns PMacid PPatterns.
Local Open Scope string_scope.
Local Open Scope list_scope.

(* the two tests are exact *)
Theorem C89_directed : forall m s t E, valid m -> In s (nodes (mgraph m)) -> In t (nodes (mgraph m)) ->
  exists b, effective_dir_path_exists m s t E = Ok b /\ (b = true <-> exists p, directed_path (mgraph m) s t p /\ effective m E p).
Proof. exact effective_dir_path_exists_spec. Qed.
Print Assumptions C89_directed.
Theorem C89_undirected : forall o m s t E, valid_order o -> valid m -> In s (nodes (mgraph m)) -> In t (nodes (mgraph m)) ->
  exists b, effective_undir_path_exists o m s t E = Ok b /\ (b = true <-> exists p, simple_path (mgraph m) s t p /\ effective m E p).
Proof.
  intros o m s t E O V Hs Ht. unfold effective_undir_path_exists.
  destruct (find_all_undir_paths_spec o (mgraph m) s t O (proj1 (proj1 V)) Hs Ht) as (ps & P1 & _ & P2). rewrite P1. cbn [bind].
  eexists. split; [reflexivity|]. rewrite existsb_exists. split; intros (p & H1 & H2); exists p.
  - split; [apply P2; auto|apply path_is_effective_iff; auto].
  - split; [apply P2; auto|apply path_is_effective_iff; auto].
Qed.
Print Assumptions C89_undirected.
(* as is the test for directed paths that avoid a set *)
Theorem C89_avoiding : forall m s t E y, valid m -> In s (nodes (mgraph m)) -> In t (nodes (mgraph m)) ->
  exists b, effective_path_not_through m s t E y = Ok b /\
    (b = true <-> exists p, directed_path (mgraph m) s t p /\ effective m E p /\ forall x, In x p -> ~ In x y).
Proof.
  intros m s t E y V Hs Ht. unfold effective_path_not_through.
  destruct (find_all_dir_paths_spec (mgraph m) s t (proj1 V) Hs Ht) as (ps & P1 & _ & P2). rewrite P1. cbn [bind].
  eexists. split; [reflexivity|]. rewrite existsb_exists.
  assert (K : forall p, negb (existsb (fun n => mem n y) p) = true <-> forall x, In x p -> ~ In x y).
  { intro p. rewrite negb_true_iff. split.
    - intros H x Hx Hy. assert (X : existsb (fun n => mem n y) p = true) by (apply existsb_exists; exists x; split; [auto|apply mem_In; auto]). congruence.
    - intro H. destruct (existsb (fun n => mem n y) p) eqn:X; [|reflexivity]. apply existsb_exists in X. destruct X as (x & Hx & Hy). exfalso. apply (H x Hx). apply mem_In. exact Hy. }
  split.
  - intros (p & H1 & H2). exists p. apply andb_true_iff in H2. destruct H2 as [H2 H3]. split; [apply P2; auto|]. split; [apply path_is_effective_iff; auto|apply K; auto].
  - intros (p & H1 & H2 & H3). exists p. split; [apply P2; auto|]. apply andb_true_iff. split; [apply K; auto|apply path_is_effective_iff; auto].
Qed.
Print Assumptions C89_avoiding.
(* the searches return a path of the kind asked for if there is one *)
Theorem C89_backdoor : forall o m s t E w, valid_order o -> valid m -> In s (nodes (mgraph m)) -> In t (nodes (mgraph m)) -> s <> t -> incl w (nodes (mgraph m)) ->
  exists r, effective_backdoor_path o m s t E w = Ok r /\
    match r with Some p => backdoor_path (mgraph m) w s t p /\ effective m E p | None => forall p, backdoor_path (mgraph m) w s t p -> ~ effective m E p end.
Proof. intros o m s t E w O V Hs Ht N Hw. exact (backdoor_search_spec o m s t E w V O Hs Ht N Hw). Qed.
Print Assumptions C89_backdoor.
Theorem C89_active : forall o m s t E w, valid_order o -> valid m -> In s (nodes (mgraph m)) -> In t (nodes (mgraph m)) -> incl w (nodes (mgraph m)) ->
  exists r, effective_undir_path o m s t E w = Ok r /\
    match r with
    | Some p => simple_path (mgraph m) s t p /\ active (mgraph m) w p /\ effective m E p
    | None => forall p, simple_path (mgraph m) s t p -> active (mgraph m) w p -> ~ effective m E p
    end.
Proof.
  intros o m s t E w O V Hs Ht Hw. unfold effective_undir_path.
  destruct (find_all_undir_paths_spec o (mgraph m) s t O (proj1 (proj1 V)) Hs Ht) as (ps & P1 & _ & P2). rewrite P1. cbn [bind].
  match goal with |- context [first_r ?f ps] => set (F := f) end.
  destruct (first_r_spec _ F (fun p => active (mgraph m) w p /\ effective m E p) ps) as [r [R1 R2]].
  { intros p Hp. apply P2 in Hp. unfold F. destruct (active_test (mgraph m) w (proj1 V) Hw s t p Hs Hp) as [b [C1 C2]]. rewrite C1. cbn [bind].
    eexists. split; [reflexivity|]. rewrite andb_true_iff, C2, (path_is_effective_iff m E p V). tauto. }
  exists r. split; auto. destruct r as [p|].
  - split; [apply P2|]; tauto.
  - intros p Sp Ap Ep. apply (R2 p); [apply P2; auto|auto].
Qed.
Print Assumptions C89_active.
(* more effective decisions give more effective paths *)
Theorem C89_more : forall o m s t E F b b', valid_order o -> valid m -> In s (nodes (mgraph m)) -> In t (nodes (mgraph m)) -> incl E F ->
  effective_undir_path_exists o m s t E = Ok b -> effective_undir_path_exists o m s t F = Ok b' -> b = true -> b' = true.
Proof.
  intros o m s t E F b b' O V Hs Ht I H H' ->. destruct (C89_undirected o m s t E O V Hs Ht) as (c & K & X). destruct (C89_undirected o m s t F O V Hs Ht) as (c' & K' & X').
  assert (c = true) by congruence. assert (b' = c') as -> by congruence. apply X'. apply X in H0. destruct H0 as (p & Sp & Ep). exists p. split; auto. exact (effective_mono m E F p I Ep).
Qed.
Print Assumptions C89_more.
(* the start is exempt, the end is not: effective paths cannot be reversed *)
Definition ex_pair2 : macid := diagram_of (mkG ["D"; "U"] [("D", "U")]) [("0", ["D"])] [("0", ["U"])].
Theorem C89_reverse_refuted : exists o m s t E, valid_order o /\ valid m /\ In s (nodes (mgraph m)) /\ In t (nodes (mgraph m)) /\
  effective_undir_path_exists o m s t E = Ok true /\ effective_undir_path_exists o m t s E = Ok false.
Proof.
  exists (fun _ l => l), ex_pair2, "D", "U", []. split; [intros e l; apply Permutation.Permutation_refl|]. split; [apply check_ok; vm_compute; reflexivity|].
  split; [left; reflexivity|]. split; [right; left; reflexivity|]. split; vm_compute; reflexivity.
Qed.
Print Assumptions C89_reverse_refuted.
(* a start that is the end makes the back-door search raise IndexError: the path has no second node *)
Theorem C89_same_node : forall o m s E w, valid_order o -> valid m -> In s (nodes (mgraph m)) -> effective_backdoor_path o m s s E w = Err IndexError.
Proof.
  intros o m s E w O V Hs. unfold effective_backdoor_path, find_all_undir_paths, dfs_paths. rewrite String.eqb_refl. assert (X := Hs). apply mem_In in X. rewrite X. reflexivity.
Qed.
Print Assumptions C89_same_node.
Definition ex_two : macid := diagram_of (mkG ["DA"; "DB"; "UA"; "UB"] [("DA","DB"); ("DB","UA"); ("DA","UB"); ("DB","UB")]) [("A", ["DA"]); ("B", ["DB"])] [("A", ["UA"]); ("B", ["UB"])].
Example C89_example : valid ex_two /\ effective_undir_path_exists (fun _ l => l) ex_two "UB" "UA" ["DB"] = Ok true /\ effective_undir_path_exists (fun _ l => l) ex_two "UB" "UA" ["DA"] = Ok false /\
  effective_path_not_through ex_two "DA" "UB" [] ["DB"] = Ok true /\ effective_path_not_through ex_two "DA" "UA" ["DB"] ["DB"] = Ok false /\
  effective_backdoor_path (fun _ l => l) ex_two "DB" "UB" [] ["DA"] = Ok None /\ effective_backdoor_path (fun _ l => l) ex_two "DB" "UB" ["DA"] [] = Ok (Some ["DB"; "DA"; "UB"]).
Proof. split; [apply check_ok; vm_compute; reflexivity|]. repeat split; vm_compute; reflexivity. Qed.
