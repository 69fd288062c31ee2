(* Property C88: the edges of a path; and, for C44, the optimal rules of one decision. *)
From Coq Require Import String List Bool Arith QArith Qcanon Lia.
Import ListNotations.
From Verif Require MSub.
From Verif Require Import MBase MGraph MPaths MMacid MCpd MNet MProb MQuery MPolicy Spec SpecM SpecC SpecN SpecQ SpecPol LBase LGraph LCpd LDo LRoles PPaths PPolicy.
Local Open Scope string_scope.
Local Open Scope list_scope.
Local Open Scope Qc_scope.

(* ---- C88 ---- *)
(* the step between a and b is made along the edge e *)
Definition step_edge (g : graph) (a b : node) (e : node * node) : Prop := (edge g a b /\ e = (a, b)) \/ (edge g b a /\ e = (b, a)).
Lemma mem_parents : forall g a b, mem a (parents g b) = true <-> edge g a b.
Proof. intros. rewrite mem_In. apply in_parents. Qed.
Lemma path_edges_two : forall g a b l, adjacent g a b -> exists e, step_edge g a b e /\ get_path_edges g (a :: b :: l) = e :: get_path_edges g (b :: l).
Proof.
  intros g a b l A. cbn [get_path_edges]. destruct (mem a (parents g b)) eqn:E.
  - apply mem_parents in E. exists (a, b). split; [left; auto|reflexivity].
  - destruct (mem b (parents g a)) eqn:E'.
    + apply mem_parents in E'. exists (b, a). split; [right; auto|reflexivity].
    + exfalso. destruct A as [A|A]; apply mem_parents in A; congruence.
Qed.
(* one edge for each step of the path, in the order of the path, each in its own direction *)
Theorem C88_edges : forall g path, chain (adjacent g) path ->
  S (length (get_path_edges g path)) = length path /\
  forall i a b, nth_error path i = Some a -> nth_error path (S i) = Some b -> exists e, nth_error (get_path_edges g path) i = Some e /\ step_edge g a b e.
Proof.
  intros g path C. induction C as [x|x y l A C [IHl IHs]].
  - split; [reflexivity|]. intros [|i] a b _ K; [discriminate K|destruct i; discriminate K].
  - destruct (path_edges_two g x y l A) as (e & Se & E). rewrite E. split.
    + cbn [length] in *. lia.
    + intros [|i] a b Ha Hb.
      * cbn in Ha, Hb. injection Ha as <-. injection Hb as <-. exists e. split; [reflexivity|exact Se].
      * exact (IHs i a b Ha Hb).
Qed.
Print Assumptions C88_edges.
(* whatever is given, only edges of the graph are returned, and only between neighbours in the list *)
Theorem C88_only : forall g path u v, In (u, v) (get_path_edges g path) -> edge g u v /\
  exists i, (nth_error path i = Some u /\ nth_error path (S i) = Some v) \/ (nth_error path i = Some v /\ nth_error path (S i) = Some u).
Proof.
  intros g path u v. induction path as [|a [|b l] IH]; [intros []|intros []|]. intro H. change (In (u, v) ((if mem a (parents g b) then [(a, b)] else if mem b (parents g a) then [(b, a)] else []) ++ get_path_edges g (b :: l))) in H.
  apply in_app_or in H. destruct H as [H|H].
  - destruct (mem a (parents g b)) eqn:E.
    + destruct H as [H|[]]. injection H as <- <-. apply mem_parents in E. split; auto. exists 0%nat. left. auto.
    + destruct (mem b (parents g a)) eqn:E'; [|destruct H]. destruct H as [H|[]]. injection H as <- <-. apply mem_parents in E'. split; auto. exists 0%nat. right. auto.
  - destruct (IH H) as (Ed & i & K). split; auto. exists (S i). exact K.
Qed.
Print Assumptions C88_only.
(* a path is directed exactly if its edges are its steps read forwards *)
Theorem C88_directed : forall g path, wf_dag g -> chain (adjacent g) path ->
  (chain (edge g) path <-> forall i a b, nth_error path i = Some a -> nth_error path (S i) = Some b -> nth_error (get_path_edges g path) i = Some (a, b)).
Proof.
  intros g path W C. split.
  - intros D i a b Ha Hb. destruct (proj2 (C88_edges g path C) i a b Ha Hb) as (e & E & [[_ ->]|[Hba _]]); [exact E|]. exfalso.
    assert (X : edge g a b). { clear C E. revert i Ha Hb. induction D as [x|x y l R D IH]; intros [|i] Ha Hb; [discriminate Hb|destruct i; discriminate Hb| |exact (IH i Ha Hb)]. cbn in Ha, Hb. injection Ha as <-. injection Hb as <-. exact R. }
    exact (acyclic_edge_asym g a b (proj2 W) X Hba).
  - intro H. assert (X : forall i a b, nth_error path i = Some a -> nth_error path (S i) = Some b -> edge g a b).
    { intros i a b Ha Hb. assert (K := H i a b Ha Hb). apply nth_error_In in K. exact (proj1 (C88_only g path a b K)). }
    clear H. induction C as [x|x y l A C IH]; [constructor|]. constructor; [exact (X 0%nat x y eq_refl eq_refl)|]. apply IH. intros i a b Ha Hb. exact (X (S i) a b Ha Hb).
Qed.
Print Assumptions C88_directed.
(* nodes that are not joined are passed over in silence *)
Theorem C88_gap_refuted : exists g path, wf_dag g /\ (forall x, In x path -> In x (nodes g)) /\ length path = 3%nat /\ get_path_edges g path = [("X", "A")].
Proof. exists ex_g, ["X"; "A"; "D"]. split; [exact ex_g_wf|]. split; [intros x [<-|[<-|[<-|[]]]]; vm_compute; tauto|]. split; reflexivity. Qed.
Print Assumptions C88_gap_refuted.
Example C88_example : wf_dag ex_g /\ chain (adjacent ex_g) ["X"; "C"; "Y"; "A"] /\ get_path_edges ex_g ["X"; "C"; "Y"; "A"] = [("X", "C"); ("Y", "C"); ("A", "Y")].
Proof.
  split; [exact ex_g_wf|]. split; [|reflexivity].
  constructor; [left; apply mem_parents; reflexivity|]. constructor; [right; apply mem_parents; reflexivity|]. constructor; [right; apply mem_parents; reflexivity|]. constructor.
Qed.

(* ---- C44: the rules of one decision ---- *)
Lemma one_elem : forall (d : node) l, NoDup l -> (forall x, In x l <-> In x [d]) -> l = [d].
Proof.
  intros d [|x l] N H; [exfalso; apply (proj2 (H d)); left; auto|]. assert (x = d) as -> by (destruct (proj1 (H x)) as [K|[]]; [left; auto|auto]).
  destruct l as [|y l]; [reflexivity|]. exfalso. inversion N as [|? ? Nd _]; subst. apply Nd. left. destruct (proj1 (H y)) as [K|[]]; [right; left; auto|auto].
Qed.
(* distinct rules for d, all deterministic; every best deterministic rule is among them, and all are as good as one that is
   beaten by none but by the tolerance *)
Theorem C44_decision_partial : forall o m n d ts, valid_order o -> valid m -> mgraph m = ngraph n -> built n -> distribution n -> unset_uniform n ->
  optimal_pure_decision_rules o m n d = Ok ts ->
  exists a us, has_role m d (RDecision a) /\ (NoDup us /\ forall u, In u us <-> has_role m u (RUtility a)) /\ NoDup ts /\
    (forall t, In t ts -> exists H, choice n [d] H /\ acts n [d] [t] (pure H)) /\
    let V := fun H => value n [d] (pure H) us in
    exists t0 H0, In t0 ts /\ choice n [d] H0 /\ acts n [d] [t0] (pure H0) /\
      (forall t H, In t ts -> acts n [d] [t] (pure H) -> close (Q2Qc (1 # 1000000000)) (V H) (V H0)) /\
      (forall H, choice n [d] H -> V H <= V H0 \/ close (Q2Qc (1 # 1000000000)) (V H) (V H0)) /\
      (forall H, choice n [d] H -> (forall H', choice n [d] H' -> V H' <= V H) -> exists t, In t ts /\ acts n [d] [t] (pure H)).
Proof.
  intros o m n d ts O V Eg B Hd U E. unfold optimal_pure_decision_rules in E. destruct (optimal_pure_policies o m n [d] default_tol) as [ps|e] eqn:Ep; [|discriminate E]. cbn [bind] in E.
  assert (Ne : [d] <> []) by discriminate.
  destruct (C44_optimal_partial o m n [d] default_tol ps O V Eg B Hd U Ne Ep) as (a & ds' & us & [Nd Id] & Ow & Us & _ & Np & Ch & _ & p0 & H0 & I0 & C0 & A0 & Cl & Be & Al).
  assert (ds' = [d]) as -> by (exact (one_elem d ds' Nd Id)).
  assert (S1 : forall p, In p ps -> exists t, p = [t]).
  { intros p Hp. destruct (Ch p Hp) as (H & _ & [M _]). destruct p as [|t [|t' p]]; [discriminate M|exists t; reflexivity|discriminate M]. }
  assert (F := map_r_ok _ _ _ _ _ E). assert (X : ps = map (fun t => [t]) ts).
  { clear - F S1. induction F as [|p t ps ts K F IH]; [reflexivity|]. cbn [map]. rewrite <- IH by (intros p' Hp'; apply S1; right; auto). f_equal.
    destruct (S1 p (or_introl eq_refl)) as [t' ->]. injection K as ->. reflexivity. }
  assert (In1 : forall t, In t ts -> In [t] ps) by (intros t Ht; rewrite X; exact (in_map (fun t => [t]) ts t Ht)).
  assert (In2 : forall p, In p ps -> exists t, p = [t] /\ In t ts) by (intros p Hp; rewrite X in Hp; apply in_map_iff in Hp; destruct Hp as (t & <- & Ht); exists t; auto).
  exists a, us. split; [apply Ow; left; auto|]. split; [exact Us|]. split; [rewrite X in Np; exact (NoDup_map_inv _ _ Np)|]. split; [intros t Ht; exact (Ch [t] (In1 t Ht))|].
  cbv zeta. destruct (In2 p0 I0) as (t0 & -> & It0). exists t0, H0. split; [exact It0|]. split; [exact C0|]. split; [exact A0|]. split; [intros t H Ht; exact (Cl [t] H (In1 t Ht))|]. split; [exact Be|].
  intros H CH Mx. destruct (Al) with (H := H) as (p & Hp & Ap); [unfold Qcle; vm_compute; discriminate|exact CH|exact Mx|]. destruct (In2 p Hp) as (t & -> & Ht). exists t. auto.
Qed.
Print Assumptions C44_decision_partial.
(* and there is such a rule, under the conditions under which a policy is found *)
Theorem C44_decision_returns_partial : forall o m n d a, valid_order o -> valid m -> SpecI.proper MIncent.IsMACID m -> mgraph m = ngraph n -> no_clash (ngraph n) -> built n -> distribution n -> unset_uniform n ->
  has_role m d (RDecision a) -> (forall u v, In u (nodes (ngraph n)) -> In v (nodes (ngraph n)) -> joined (ngraph n) [] u v) ->
  (forall d' b, has_role m d' (RDecision b) -> d' = d \/ (exists t, has_table n d' t /\ tkind t <> KDec) \/ ~ r_relevant m d d') ->
  exists ts, optimal_pure_decision_rules o m n d = Ok ts /\ ts <> [].
Proof.
  intros o m n d a O V Pr Eg NC B Hd U Ow J Ds. destruct (C44_returns_partial o m n [d] default_tol a O V Pr Eg NC B Hd U) as (ps & Ep & Ne).
  - intros d' [<-|[]]. exact Ow.
  - unfold Qcle; vm_compute; discriminate.
  - exact J.
  - intros d' b R. destruct (Ds d' b R) as [->|[K|K]]; [left; left; auto|right; left; exact K|right; right; intros d1 [<-|[]]; exact K].
  - assert (Nd : [d] <> []) by discriminate. specialize (Ne Nd).
    destruct (C44_optimal_partial o m n [d] default_tol ps O V Eg B Hd U Nd Ep) as (? & ds' & us & [Nd' Id] & _ & _ & _ & _ & Ch & _).
    assert (ds' = [d]) as -> by (exact (one_elem d ds' Nd' Id)).
    unfold optimal_pure_decision_rules. rewrite Ep. cbn [bind].
    destruct (map_r_total _ _ (fun p : list tab => match p with t :: _ => Ok t | [] => Err IndexError end) ps) as [ts Et].
    { intros p Hp. destruct (Ch p Hp) as (H & _ & [M _]). destruct p as [|t p]; [discriminate M|exists t; reflexivity]. }
    exists ts. split; [exact Et|]. intros ->. apply map_r_ok in Et. inversion Et; subst. apply Ne. reflexivity.
Qed.
Print Assumptions C44_decision_returns_partial.
Example C44_decision_example : exists t, optimal_pure_decision_rules (fun _ l => l) ex_bet ex_bet_net "D" = Ok [t] /\ tvar t = "D".
Proof.

  assert (X : match optimal_pure_decision_rules (fun _ l => l) ex_bet ex_bet_net "D" with Ok [t] => String.eqb (tvar t) "D" | _ => false end = true) by (vm_compute; reflexivity).
  destruct (optimal_pure_decision_rules (fun _ l => l) ex_bet ex_bet_net "D") as [[|t [|t' l]]|e]; try discriminate X. exists t. split; [reflexivity|]. apply String.eqb_eq. exact X.
Qed.

(* ---- C43: the joint policies of several agents' decisions ---- *)
Theorem C43_joint : forall n ds, wf_dag (ngraph n) -> single_tables n -> (forall d, In d ds -> open_decision n d) ->
  exists ps, MSub.joint_pure_policies n ds = Ok ps /\ NoDup ps /\ (forall p, In p ps <-> Forall2 (fun d t => exists h, choice_function n d h /\ plays n d h t) ds p).
Proof. intros n ds W S H. destruct (C43_policies n ds W S H) as (ps & E & N & _ & I). exists ps. unfold MSub.joint_pure_policies. auto. Qed.
Print Assumptions C43_joint.
