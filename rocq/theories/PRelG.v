(* C81: the relevance graph shows who needs to know whose play; acyclic = solvable one decision at a time. *)
From Coq Require Import String List Bool Arith QArith Qcanon Lia Permutation.
Import ListNotations.
From Verif Require Import MBase MGraph MMacid MCpd MNet MRel MRelG Spec SpecM SpecR SpecN SpecQ SpecPol SpecVoi SpecGen SpecRelG LBase LGraph LRoles LMech LBayes LReach LRel LCheck PMacid PRely PRel.
Local Open Scope string_scope.
Local Open Scope list_scope.
Local Open Scope Qc_scope.

Lemma own_exists : forall m d a, valid m -> utilities_complete m -> has_role m d (RDecision a) -> exists us, NoDup us /\ forall u, In u us <-> has_role m u (RUtility a).
Proof.
  intros m d a (W & G & P) U Rd. assert (Ha := U a d Rd). apply in_keys_lookup in Ha. destruct Ha as [us L]. assert (Hin := lookup_In _ _ _ _ L). exists us.
  destruct G as (N1 & N2 & _ & _ & ND & _). split; [apply (ND a); auto|]. intro u. split; [intro H; exists us; auto|]. intros (l & Hl & Hu). assert (L2 := In_lookup _ _ _ _ N2 Hl). congruence.
Qed.
(* the arcs: who needs to know whose play *)
Lemma needs_exact : forall m d e, valid m -> no_clash (mgraph m) -> utilities_complete m -> is_decision m d -> is_decision m e -> e <> d -> (r_relevant m d e <-> needs_to_know m d e).
Proof.
  intros m d e V NC U [a Rd] [c Re] Ne. destruct (C17_s_reachable m [d] e V NC U) as [S _]; [intros x [<-|[]]; eauto|]. destruct (S (ex_intro _ c Re)) as (b & Eb & Rb).
  assert (X : r_relevant m d e <-> is_s_reachable m [d] e = Ok true). { rewrite Eb. split; intro K; [f_equal; apply Rb; exists d; split; [left|]; auto|]. injection K as ->. destruct (proj1 Rb eq_refl) as (x & [<-|[]] & K). auto. }
  rewrite X. split.
  - intro K. destruct (own_exists m d a V U Rd) as (us & Nu & Iu). apply (C78_strategic m a d us e c V NC U Rd Re Nu Iu Ne) in K. destruct K as (n & Dn & Eg & H). exists us, n. split; [split; eauto|]. auto.
  - intros (us & n & (Nu & a' & Rd' & Iu) & Dn & Eg & H). apply (C78_strategic m a' d us e c V NC U Rd' Re Nu Iu Ne). eauto.
Qed.
Theorem C81_arcs : forall m ds, valid m -> no_clash (mgraph m) -> utilities_complete m -> NoDup ds -> (forall d, In d ds -> is_decision m d) ->
  exists rg, relevance_graph m ds = Ok rg /\ nodes rg = ds /\ forall x y, edge rg x y <-> In x ds /\ In y ds /\ x <> y /\ needs_to_know m x y.
Proof.
  intros m ds V NC U N D. destruct (C18_relevance_graph m ds V NC U N D) as (g & E & Ng & Eg). exists g. split; auto. split; auto. intros x y. rewrite Eg. split; intros (H1 & H2 & H3 & H4); repeat (split; auto); apply (needs_exact m x y); auto.
Qed.
Print Assumptions C81_arcs.
Lemma relevance_wf : forall m ds rg, valid m -> no_clash (mgraph m) -> utilities_complete m -> NoDup ds -> (forall d, In d ds -> is_decision m d) -> relevance_graph m ds = Ok rg -> wf_graph rg.
Proof.
  intros m ds rg V C U N D E. destruct (relevance_graph_spec m ds (valid_usable m V C) N) as [g (E' & W & _)]; [intros d Hd; exact (strategic_of m d V U (D d Hd))|]. congruence.
Qed.
Lemma forward_acyclic : forall g l, wf_graph g -> Permutation l (nodes g) -> (forall x y pre post, edge g x y -> l = pre ++ y :: post -> ~ In x post /\ x <> y) -> acyclic g.
Proof.
  intros g l W Pl H. assert (Nl : NoDup l) by (eapply Permutation_NoDup; [apply Permutation_sym; exact Pl|apply W]).
  assert (St : forall x y pre post, edge g x y -> l = pre ++ x :: post -> In y post).
  { intros x y pre post E El. assert (Hy : In y l) by (eapply Permutation_in; [apply Permutation_sym; exact Pl|apply (proj2 (proj2 W)) in E; tauto]). rewrite El in Hy. apply in_app_or in Hy. destruct Hy as [Hy|[Hy|Hy]]; auto; exfalso.
    - apply in_split in Hy. destruct Hy as (p1 & p2 & ->). apply (proj1 (H x y p1 (p2 ++ x :: post) E (eq_trans El (eq_sym (app_assoc _ _ _))))). apply in_or_app. right. left; auto.
    - subst y. exact (proj2 (H x x pre post E El) eq_refl). }
  assert (Re : forall x y, reach g x y -> forall pre post, l = pre ++ x :: post -> In y (x :: post)).
  { induction 1 as [|x y z E R IH]; intros pre post El; [left; auto|]. assert (Hy := St x y pre post E El). right. apply in_split in Hy. destruct Hy as (p1 & p2 & ->). assert (K := IH (pre ++ x :: p1) p2). apply in_or_app. right. apply K. rewrite El, <- app_assoc. reflexivity. }
  intros u (v & E & R). assert (Hu : In u l) by (eapply Permutation_in; [apply Permutation_sym; exact Pl|apply (proj2 (proj2 W)) in E; tauto]).
  apply in_split in Hu. destruct Hu as (pre & post & El). assert (Hv := St u v pre post E El). apply in_split in Hv. destruct Hv as (p1 & p2 & ->). assert (K := Re v u R (pre ++ u :: p1) p2). rewrite El in Nl.
  apply NoDup_remove_2 in Nl. apply Nl. apply in_or_app. right. apply in_or_app. right. apply K. rewrite El, <- app_assoc. reflexivity.
Qed.
(* is_acyclic: the decisions can be put in an order in which nobody needs to know the play of an earlier decision *)
Theorem C81_acyclic : forall m ds, valid m -> no_clash (mgraph m) -> utilities_complete m -> NoDup ds -> (forall d, In d ds -> is_decision m d) ->
  exists rg, relevance_graph m ds = Ok rg /\ (rg_is_acyclic rg = true <-> exists l, Permutation l ds /\ solving_order m l).
Proof.
  intros m ds V NC U N D. destruct (C81_arcs m ds V NC U N D) as (g & E & Ng & Eg). exists g. split; auto. assert (W := relevance_wf m ds g V NC U N D E). unfold rg_is_acyclic. rewrite (is_dag_iff g W). split.
  - intro A. destruct (topo_exists g (conj W A)) as (l & Pl & T). exists l. rewrite Ng in Pl. split; auto. intros pre d post e El He K. assert (Nl : NoDup l) by (eapply Permutation_NoDup; [apply Permutation_sym; exact Pl|auto]).
    assert (Hd : In d ds) by (eapply Permutation_in; [exact Pl|rewrite El; apply in_or_app; right; left; auto]). assert (He' : In e ds) by (eapply Permutation_in; [exact Pl|rewrite El; apply in_or_app; left; auto]).
    apply in_split in He. destruct He as (p1 & p2 & ->). rewrite <- app_assoc in El. apply (T p1 e (p2 ++ d :: post) d El); [apply in_or_app; right; left; auto|]. exists e. split; [|constructor]. apply Eg. split; auto. split; auto. split; auto.
    intros ->. rewrite El in Nl. apply NoDup_remove_2 in Nl. apply Nl. apply in_or_app. right. apply in_or_app. right. left; auto.
  - intros (l & Pl & So). apply (forward_acyclic g l W); [rewrite Ng; auto|]. intros x y pre post Exy El. apply Eg in Exy. destruct Exy as (Hx & Hy & Ne & K). split; auto. intro Hp. apply in_split in Hp. destruct Hp as (p1 & p2 & ->). apply (So (pre ++ y :: p1) x p2 y); auto; [rewrite El, <- app_assoc; reflexivity|apply in_or_app; right; left; auto].
Qed.
Print Assumptions C81_acyclic.
(* get_sccs: the classes of decisions that need to know each other's play, directly or through a chain *)
Theorem C81_sccs : forall so m ds, valid m -> no_clash (mgraph m) -> utilities_complete m -> NoDup ds -> (forall d, In d ds -> is_decision m d) -> valid_components so ->
  exists rg, relevance_graph m ds = Ok rg /\ NoDup (concat (get_sccs so rg)) /\ ~ In [] (get_sccs so rg) /\ (forall d, In d (concat (get_sccs so rg)) <-> In d ds) /\
    (forall x y, In x ds -> ((exists c, In c (get_sccs so rg) /\ In x c /\ In y c) <-> needs_chain m ds x y /\ needs_chain m ds y x)) /\
    (rg_is_acyclic rg = true <-> forall c, In c (get_sccs so rg) -> exists d, c = [d]).
Proof.
  intros so m ds V NC U N D Vs. destruct (C81_arcs m ds V NC U N D) as (g & E & Ng & Eg). exists g. split; auto. assert (W := relevance_wf m ds g V NC U N D E).
  assert (C : components g (get_sccs so g)) by (apply components_perm; auto; apply sccs_components; auto). destruct C as (C1 & C2 & C3). rewrite Ng in C2.
  assert (R : forall x y, In x ds -> (needs_chain m ds x y <-> reach g x y)).
  { intros x y Hx. split; intro K.
    - induction K as [|x y z K1 K2 K3 K4 IH]; [constructor|]. destruct (string_dec x y) as [->|Ne]; [auto|]. apply (reach_step g x y z); [apply Eg; auto|auto].
    - induction K as [|x y z K1 K2 IH]; [constructor|]. apply Eg in K1. destruct K1 as (K3 & K4 & _ & K5). econstructor; eauto. }
  split; auto. split; [intro K; apply (proj1 (C3 [] K)); auto|]. split; auto. split.
  - intros x y Hx. split.
    + intros (c & Hc & K1 & K2). assert (Hy : In y ds) by (apply C2; apply in_concat; eauto). destruct (proj1 (proj2 (C3 c Hc) x y K1) K2) as [M1 M2]. split; apply R; auto.
    + intros [K1 K2]. assert (M1 := proj1 (R x y Hx) K1). assert (Hy : In y ds) by (rewrite <- Ng; eapply wf_reach; eauto; rewrite Ng; auto). assert (M2 := proj1 (R y x Hy) K2). apply C2 in Hx. apply in_concat in Hx. destruct Hx as (c & Hc & Hxc). exists c. split; auto. split; auto. apply (proj2 (C3 c Hc) x y Hxc). split; auto.
  - unfold rg_is_acyclic. rewrite (is_dag_iff g W). split.
    + intros A c Hc. destruct (C3 c Hc) as [Nc Mc]. destruct c as [|d c]; [congruence|]. exists d. destruct c as [|e c]; auto. exfalso.
      assert (Nde : NoDup (d :: e :: c)) by (exact (NoDup_concat_In _ _ _ C1 Hc)).
      destruct (proj1 (Mc d e (or_introl eq_refl)) (or_intror (or_introl eq_refl))) as [R1 R2]. inversion R1 as [|? y ? E1 R1']; subst; [inversion Nde as [|? ? Nx _]; apply Nx; left; auto|].
      apply (A d). exists y. split; auto. eapply reach_trans; eauto.
    + intros H u (v & E1 & R1). assert (Huv := proj1 (Eg u v) E1). destruct Huv as (Hu & Hv & Ne & _). assert (Hu' := Hu). apply C2 in Hu'. apply in_concat in Hu'. destruct Hu' as (c & Hc & Huc). destruct (H c Hc) as [d ->]. destruct Huc as [->|[]].
      assert (K : In v [u]) by (apply (proj2 (C3 [u] Hc) u v); [left; auto|]; split; [econstructor; [eauto|constructor]|auto]). destruct K as [K|[]]. congruence.
Qed.
Print Assumptions C81_sccs.
(* sufficient recall, in these terms: the decisions of every agent can be put in such an order *)
Theorem C81_recall : forall m, valid m -> no_clash (mgraph m) -> utilities_complete m -> decisions_complete m ->
  (sufficient_recall m None = Ok true <-> forall a ds, In (a, ds) (agent_decisions m) -> exists l, Permutation l ds /\ solving_order m l).
Proof.
  intros m V NC U Dc. destruct (all_recall_spec m (agents m) V NC U Dc) as (b & Eb & Rb). unfold sufficient_recall. rewrite Eb.
  assert (X : forall a ds, In (a, ds) (agent_decisions m) -> (~ recall_cycle m ds <-> exists l, Permutation l ds /\ solving_order m l)).
  { intros a ds Hin. assert (Nd : NoDup ds) by (destruct V as (_ & (_ & _ & _ & _ & ND & _) & _); apply (ND a); auto). assert (Dd : forall d, In d ds -> is_decision m d) by (intros d Hd; exists a; exists ds; auto).
    destruct (C81_acyclic m ds V NC U Nd Dd) as (g & E & A). rewrite <- A. assert (W := relevance_wf m ds g V NC U Nd Dd E). destruct (C18_relevance_graph m ds V NC U Nd Dd) as (g' & E' & _ & Eg). rewrite E in E'. injection E' as <-.
    assert (RO := recall_one m ds g E W Eg). unfold rg_is_acyclic. destruct (is_dag g) eqn:G; split; auto; intro K; [intro K2; apply RO in K2; discriminate|exfalso; apply K; apply RO; auto|discriminate]. }
  split.
  - intro K. injection K as ->. intros a ds Hin. destruct ds as [|d ds]; [exists []; split; [constructor|intros pre x post e El; destruct pre; discriminate]|]. apply (X a); auto. apply (proj1 Rb eq_refl a); auto. apply (U a d). exists (d :: ds). split; [auto|left; auto].
  - intro K. f_equal. apply Rb. intros a ds Ha Hin. apply (X a); eauto.
Qed.
Print Assumptions C81_recall.
(* in ex20, D and E need to know each other's play and no order works; F needs to know E's play but not G's *)
Example C81_example : valid ex20 /\ no_clash (mgraph ex20) /\ utilities_complete ex20 /\ NoDup ["D"; "E"; "F"; "G"] /\ (forall d, In d ["D"; "E"; "F"; "G"] -> is_decision ex20 d) /\
  (exists rg, relevance_graph ex20 ["D"; "E"; "F"; "G"] = Ok rg /\ rg_is_acyclic rg = false /\ get_sccs (@rev (list node)) rg = [["G"]; ["F"]; ["D"; "E"]]) /\
  needs_to_know ex20 "D" "E" /\ needs_to_know ex20 "E" "D" /\ needs_to_know ex20 "F" "E" /\ ~ needs_to_know ex20 "F" "G" /\
  (exists rg, relevance_graph ex20 ["D"; "F"; "G"] = Ok rg /\ rg_is_acyclic rg = true).
Proof.
  assert (V := proj1 C20_example). assert (NC := proj1 (proj2 C20_example)). assert (U := proj1 (proj2 (proj2 C20_example))).
  assert (N : NoDup ["D"; "E"; "F"; "G"]) by (constructor; [intros [K|[K|[K|[]]]]; discriminate K|]; constructor; [intros [K|[K|[]]]; discriminate K|]; constructor; [intros [K|[]]; discriminate K|]; constructor; [intros []|constructor]).
  assert (D : forall d, In d ["D"; "E"; "F"; "G"] -> is_decision ex20 d).
  { intros d [<-|[<-|[<-|[<-|[]]]]]; [exists "a", ["D"; "G"]|exists "b", ["E"]|exists "c", ["F"]|exists "a", ["D"; "G"]]; (split; [|cbn; auto]); cbn; auto. }
  split; [exact V|]. split; [exact NC|]. split; [exact U|]. split; [exact N|]. split; [exact D|].
  destruct (C81_arcs ex20 ["D"; "E"; "F"; "G"] V NC U N D) as (rg & E & Ng & Eg).
  assert (Er : relevance_graph ex20 ["D"; "E"; "F"; "G"] = Ok (mkG ["D"; "E"; "F"; "G"] [("D", "E"); ("E", "D"); ("F", "E")])) by (vm_compute; reflexivity).
  rewrite Er in E. injection E as <-. clear V NC U.
  split; [exists (mkG ["D"; "E"; "F"; "G"] [("D", "E"); ("E", "D"); ("F", "E")]); split; [exact Er|split; vm_compute; reflexivity]|].
  split; [apply (Eg "D" "E"); left; reflexivity|]. split; [apply (Eg "E" "D"); right; left; reflexivity|]. split; [apply (Eg "F" "E"); right; right; left; reflexivity|]. split.
  - intro K. assert (X : edge (mkG ["D"; "E"; "F"; "G"] [("D", "E"); ("E", "D"); ("F", "E")]) "F" "G"). { apply Eg. split; [right; right; left; reflexivity|]. split; [right; right; right; left; reflexivity|]. split; [discriminate|exact K]. }
    destruct X as [X|[X|[X|[]]]]; discriminate X.
  - exists (mkG ["D"; "F"; "G"] []). split; vm_compute; reflexivity.
Qed.
