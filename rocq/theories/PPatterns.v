(* Properties C29-C31: reasoning patterns. *)
From Coq Require Import String List Bool Arith Permutation.
Import ListNotations.
From Verif Require Import MBase MGraph MPaths MMacid MIncent MPatterns Spec SpecM SpecI SpecP
  LBase LGraph LPaths LActive LMotif LRoles LCheck LIncent LPatterns PMacid.
Local Open Scope string_scope.
Local Open Scope list_scope.

(* ---- C29 ---- *)
Theorem C29_direct_effect : forall m d, valid m -> utilities_complete m -> is_decision m d ->
  exists b, direct_effect m d = Ok b /\ (b = true <-> has_direct_effect m d).
Proof. exact direct_effect_spec. Qed.
Print Assumptions C29_direct_effect.
Theorem C29_manipulation : forall m d E, valid m -> utilities_complete m -> is_decision m d -> incl E (nodes (mgraph m)) ->
  exists b, manipulation m d E = Ok b /\ (b = true <-> manipulates m E d).
Proof. exact manipulation_spec. Qed.
Print Assumptions C29_manipulation.
Theorem C29_errors : forall o m d E, valid m ->
  (~ incl E (nodes (mgraph m)) ->
     manipulation m d E = Err KeyError /\ signaling o m d E = Err KeyError /\ revealing_or_denying o m d E = Err KeyError) /\
  (~ is_decision m d -> direct_effect m d = Err KeyError /\ manipulation m d E = Err KeyError /\
     signaling o m d E = Err KeyError /\ revealing_or_denying o m d E = Err KeyError).
Proof.
  intros o m d E V. unfold manipulation, signaling, revealing_or_denying, direct_effect, pattern_head.
  assert (X : existsb (fun n => negb (mem n (nodes (mgraph m)))) E = false -> incl E (nodes (mgraph m))).
  { intros X n Hn. destruct (mem n (nodes (mgraph m))) eqn:M; [apply mem_In; auto|].
    assert (existsb (fun n => negb (mem n (nodes (mgraph m)))) E = true); [|congruence].
    apply existsb_exists. exists n. rewrite M. auto. }
  split.
  - intro H. destruct (existsb (fun n => negb (mem n (nodes (mgraph m)))) E); [auto|tauto].
  - intro H. assert (K : dict_get d (decision_agent m) = Err KeyError).
    { unfold dict_get. destruct (lookup d (decision_agent m)) eqn:L; auto. exfalso. apply H. apply in_decisions; auto.
      unfold decisions. apply in_keys_lookup. eauto. }
    rewrite K. destruct (existsb _ E); auto.
Qed.
Print Assumptions C29_errors.
Definition ex29 : macid :=
  diagram_of (mkG ["DA"; "DB"; "UA"; "UB"] [("DA","DB"); ("DB","UA"); ("DA","UB"); ("DB","UB")])
    [("a",["DA"]); ("b",["DB"])] [("a",["UA"]); ("b",["UB"])].
Example C29_example : valid ex29 /\ utilities_complete ex29 /\
  direct_effect ex29 "DA" = Ok false /\ direct_effect ex29 "DB" = Ok true /\
  manipulation ex29 "DA" ["DA"; "DB"] = Ok true /\ manipulation ex29 "DA" ["DA"] = Ok false /\
  manipulation ex29 "DA" ["DX"] = Err KeyError.
Proof.
  split; [apply check_ok; vm_compute; reflexivity|]. split; [apply check_ok; vm_compute; reflexivity|].
  vm_compute. auto.
Qed.

(* ---- C30 ---- *)
(* the code never looks whether the front-door path is effective: this is the condition it decides *)
Theorem C30_revealing_partial : forall o m d E, valid m -> utilities_complete m -> valid_order o -> is_decision m d ->
  incl E (nodes (mgraph m)) ->
  exists b, revealing_or_denying o m d E = Ok b /\ (b = true <-> reveals m E d).
Proof. exact revealing_spec. Qed.
Print Assumptions C30_revealing_partial.
Theorem C30_revealing_order : forall o o' m d E, valid m -> utilities_complete m -> valid_order o -> valid_order o' ->
  is_decision m d -> incl E (nodes (mgraph m)) -> revealing_or_denying o m d E = revealing_or_denying o' m d E.
Proof.
  intros o o' m d E V CU O O' Hd HE.
  destruct (revealing_spec o m d E V CU O Hd HE) as [b [B1 B2]]. destruct (revealing_spec o' m d E V CU O' Hd HE) as [c [C1 C2]].
  rewrite B1, C1. f_equal. destruct b, c; auto; [symmetry|]; [apply C2, B2|apply B2, C2]; auto.
Qed.
Print Assumptions C30_revealing_order.
(* signaling: never raises and never answers True wrongly when utilities are leaves; True whenever
   every choice of the back-door path would do *)
Theorem C30_signaling_partial : forall o m d E, valid m -> utilities_complete m -> valid_order o -> is_decision m d ->
  incl E (nodes (mgraph m)) -> leaf_utilities m -> ~ In EmptyString (nodes (mgraph m)) ->
  exists b, signaling o m d E = Ok b /\ (b = true -> signals m E d) /\ (signals_always m E d -> b = true).
Proof. exact signaling_spec. Qed.
Print Assumptions C30_signaling_partial.
(* exact and independent of the order of sets where the choice of the path does not matter *)
Theorem C30_signaling_unambiguous_partial : forall m d E, valid m -> utilities_complete m -> is_decision m d ->
  incl E (nodes (mgraph m)) -> leaf_utilities m -> ~ In EmptyString (nodes (mgraph m)) ->
  (signals m E d -> signals_always m E d) ->
  exists b, (forall o, valid_order o -> signaling o m d E = Ok b) /\ (b = true <-> signals m E d).
Proof.
  intros m d E V CU Hd HE L Ne H.
  destruct (signaling_spec id_order m d E V CU id_order_valid Hd HE L Ne) as (b & B1 & B2 & B3).
  exists b. split; [|split; auto]. intros o O.
  destruct (signaling_spec o m d E V CU O Hd HE L Ne) as (c & C1 & C2 & C3). rewrite C1. f_equal.
  destruct b, c; auto; symmetry; auto.
Qed.
Print Assumptions C30_signaling_unambiguous_partial.

(* witness: two back-door paths, by C1 (informative about UA) and by C2 (not) *)
Definition ex30 : macid :=
  diagram_of (mkG ["DA"; "DB"; "C1"; "C2"; "UA"; "UB"]
    [("DA","DB"); ("DB","UA"); ("C1","DA"); ("C2","DA"); ("C1","UB"); ("C2","UB"); ("C1","UA")])
    [("a",["DA"]); ("b",["DB"])] [("a",["UA"]); ("b",["UB"])].
Lemma leaf_check : forall m, valid m ->
  forallb (fun e => negb (mem (fst e) (utilities m))) (edges (mgraph m)) = true -> leaf_utilities m.
Proof.
  intros m V H u x Hu He. rewrite forallb_forall in H. specialize (H (u, x) He). simpl in H.
  apply negb_true_iff, mem_nIn in H. apply H. apply in_utilities; auto.
Qed.
Ltac decide_in := vm_compute; tauto.
Ltac absent := let H := fresh in intro H; vm_compute in H; intuition discriminate.
Ltac valid_diagram := apply check_ok; vm_compute; reflexivity.
Theorem C30_order_refuted : exists m d E, valid m /\ utilities_complete m /\ leaf_utilities m /\ is_decision m d /\
  incl E (nodes (mgraph m)) /\ valid_order id_order /\ valid_order rev_order /\
  signaling id_order m d E = Ok true /\ signaling rev_order m d E = Ok false.
Proof.
  exists ex30, "DA", ["DA"; "DB"]. assert (V : valid ex30) by valid_diagram. split; auto. split; [valid_diagram|].
  split; [apply leaf_check; auto|]. split; [apply in_decisions; auto; decide_in|].
  split; [intros x [<-|[<-|[]]]; decide_in|]. split; [apply id_order_valid|]. split; [apply rev_order_valid|].
  vm_compute. auto.
Qed.
Print Assumptions C30_order_refuted.
(* witness: a utility with children, and a back-door path without a fork *)
Definition ex30b : macid :=
  diagram_of (mkG ["DA"; "DB"; "UA"; "UB"] [("UB","DA"); ("DA","DB"); ("DB","UA")])
    [("a",["DA"]); ("b",["DB"])] [("a",["UA"]); ("b",["UB"])].
Theorem C30_raises_refuted : exists m d E, valid m /\ utilities_complete m /\ is_decision m d /\
  incl E (nodes (mgraph m)) /\ signaling id_order m d E = Err ValueError /\ signaling rev_order m d E = Err ValueError.
Proof.
  exists ex30b, "DA", ["DA"; "DB"]. assert (V : valid ex30b) by valid_diagram. split; auto. split; [valid_diagram|].
  split; [apply in_decisions; auto; decide_in|].
  split; [intros x [<-|[<-|[]]]; decide_in|]. vm_compute. auto.
Qed.
Print Assumptions C30_raises_refuted.

(* witness: the only front-door path passes a decision X that is not effective *)
Definition ex30c : macid :=
  diagram_of (mkG ["DA"; "M"; "DB"; "UA"; "Y"; "X"; "UB"; "UX"]
    [("DA","M"); ("M","DB"); ("DB","UA"); ("Y","M"); ("Y","X"); ("X","UB")])
    [("a",["DA"]); ("b",["DB"]); ("x",["X"])] [("a",["UA"]); ("b",["UB"]); ("x",["UX"])].
Theorem C30_effective_refuted : exists m d E, valid m /\ utilities_complete m /\ leaf_utilities m /\ is_decision m d /\
  incl E (nodes (mgraph m)) /\ (forall o, valid_order o -> revealing_or_denying o m d E = Ok true) /\
  ~ reveals_documented m E d.
Proof.
  exists ex30c, "DA", ["DA"; "DB"]. assert (V : valid ex30c) by valid_diagram.
  assert (CU : utilities_complete ex30c) by valid_diagram.
  assert (Hd : is_decision ex30c "DA") by (apply in_decisions; auto; decide_in).
  assert (HE : incl ["DA"; "DB"] (nodes (mgraph ex30c))) by (intros x [<-|[<-|[]]]; decide_in).
  split; auto. split; auto. split; [apply leaf_check; auto|]. split; auto. split; auto. split.
  - intros o O. rewrite (C30_revealing_order o id_order); auto using id_order_valid.
  - intros (e & u & v & p & Z & (De & Ne & Ie & _) & Uv & _ & (Sp & _) & Ef).
    destruct Ie as [<-|[<-|[]]]; [congruence|].
    assert (v = "UB").
    { destruct (owner_utils_spec ex30c "DB" V CU De) as (us & U1 & U2).
      assert (owner_utils ex30c "DB" = Ok ["UB"]) by (vm_compute; reflexivity).
      assert (us = ["UB"]) by congruence. subst us. apply U2 in Uv. destruct Uv as [<-|[]]. reflexivity. }
    subst v.
    destruct (find_all_undir_paths_spec id_order (mgraph ex30c) "DA" "UB" id_order_valid (proj1 (proj1 V))) as (ps & P1 & _ & P2);
      [decide_in|decide_in|].
    assert (Ep : ps = [["DA"; "M"; "Y"; "X"; "UB"]]).
    { assert (find_all_undir_paths id_order (mgraph ex30c) "DA" "UB" = Ok [["DA"; "M"; "Y"; "X"; "UB"]]) by (vm_compute; reflexivity).
      congruence. }
    subst ps. apply P2 in Sp. destruct Sp as [<-|[]].
    destruct (Ef "X") as [K|(l & a' & b & r & K1 & K2)].
    + simpl; auto.
    + apply in_decisions; auto; decide_in.
    + simpl in K. intuition discriminate.
    + destruct K2 as [K2 _].
      assert (a' = "UB").
      { unfold edge in K2. simpl in K2. repeat (destruct K2 as [K2|K2]; [injection K2; intros; subst; try discriminate; auto|]). destruct K2. }
      subst a'.
      destruct l as [|x0 [|x1 [|x2 [|x3 [|x4 l]]]]]; try discriminate; simpl in K1; injection K1; intros; try discriminate;
        destruct l; discriminate.
Qed.
Print Assumptions C30_effective_refuted.

(* witness: the fork X of the back-door path is a decision that is not effective *)
Definition ex30d : macid :=
  diagram_of (mkG ["DA"; "DB"; "X"; "UA"; "UB"; "UX"] [("DA","DB"); ("DB","UA"); ("X","DA"); ("X","UB"); ("X","UA")])
    [("a",["DA"]); ("b",["DB"]); ("x",["X"])] [("a",["UA"]); ("b",["UB"]); ("x",["UX"])].
Lemma edge_in : forall g a b, has_edge g a b = true -> edge g a b.
Proof. intros g a b H. apply has_edge_iff; auto. Qed.
Lemma one_path : forall m a b E, valid m -> edge (mgraph m) a b -> a <> b -> ~ is_decision m b ->
  directed_path (mgraph m) a b [a; b] /\ effective m E [a; b].
Proof.
  intros m a b E V He Hn Nd. split.
  - split; [|split; reflexivity]. constructor; auto. constructor.
  - intros n [<-|[]] K. contradiction.
Qed.
Lemma cond_blockers : forall m e d Z, valid m -> In e (nodes (mgraph m)) -> In d (nodes (mgraph m)) ->
  MPatterns.cond_nodes m e (descendants (mgraph m) d) = Ok Z -> blockers (mgraph m) e d Z.
Proof. intros m e d Z V He Hd H. destruct (cond_nodes_spec m e d V He Hd) as (Z' & Z1 & Z2 & _). rewrite H in Z1. injection Z1 as <-. auto. Qed.
Lemma triple_three : forall a b c x y z, triple_on [a; b; c] x y z -> x = a /\ y = b /\ z = c.
Proof.
  intros a b c x y z (l & r & E). destruct l as [|w [|w' [|w'' l]]]; try discriminate.
  - injection E as -> -> -> _. auto.
  - destruct l; discriminate.
Qed.
Theorem C30_forks_refuted : exists m d E, valid m /\ utilities_complete m /\ leaf_utilities m /\ is_decision m d /\
  incl E (nodes (mgraph m)) /\ (forall o, valid_order o -> signaling o m d E = Ok false) /\
  signals_documented m E d.
Proof.
  exists ex30d, "DA", ["DA"; "DB"]. assert (V : valid ex30d) by valid_diagram.
  assert (CU : utilities_complete ex30d) by valid_diagram.
  assert (D : forall x, In x ["DA"; "DB"; "X"] -> is_decision ex30d x) by (intros x Hx; apply in_decisions; auto).
  assert (ND : forall x, In x ["UA"; "UB"; "UX"] -> ~ is_decision ex30d x).
  { intros x Hx K. apply in_decisions in K; auto. vm_compute in K, Hx. intuition (subst; discriminate). }
  assert (HE : incl ["DA"; "DB"] (nodes (mgraph ex30d))) by (intros x [<-|[<-|[]]]; decide_in).
  assert (L : leaf_utilities ex30d) by (apply leaf_check; auto).
  split; auto. split; auto. split; auto. split; [apply D; simpl; auto|]. split; auto. split.
  - intros o O. destruct (signaling_spec o ex30d "DA" ["DA"; "DB"] V CU O) as (b & B1 & B2 & _); auto.
    + apply D; simpl; auto.
    + absent.
    + rewrite B1. destruct b; auto. exfalso.
      destruct (B2 eq_refl) as (e & u & v & p & c & _ & _ & (Ef & Z & _ & (_ & _ & x & r & -> & Ex)) & _).
      assert (x = "X") by (vm_compute in Ex; intuition congruence). subst x.
      assert (K : In "X" ["DA"; "DB"]); [|simpl in K; intuition discriminate].
      apply Ef; [simpl; auto|]. apply D; simpl; auto.
  - exists "DB", "UA", "UB", ["DA"; "X"; "UB"], "X", ["DB"; "DA"], ["DA"; "X"], ["X"; "UA"].
    assert (UO : forall d u us, is_decision ex30d d -> owner_utils ex30d d = Ok us -> In u us -> utility_of ex30d d u).
    { intros d u us Hd Hu Hi. destruct (owner_utils_spec ex30d d V CU Hd) as (us' & U1 & U2). apply U2. congruence. }
    split; [|split; [|split; [|split; [|split; [|split; [|split; [|split; [|split]]]]]]]].
    + split; [apply D; simpl; auto|]. split; [discriminate|]. split; [simpl; auto|]. split.
      { exists ["DA"; "DB"]. split.
        - split; [|split; reflexivity]. constructor; [apply edge_in; reflexivity|constructor].
        - intros x (a & l & r & b & K). destruct l as [|y l]; simpl in K; [|destruct l; simpl in K]; injection K; intros; destruct r; discriminate. }
      split; [apply (UO _ _ ["UA"]); [apply D; simpl; auto|reflexivity|simpl; auto]|].
      exists ["DB"; "UA"]. apply one_path; auto; [apply edge_in; reflexivity|discriminate|apply ND; simpl; auto].
    + apply (UO _ _ ["UB"]); [apply D; simpl; auto|reflexivity|simpl; auto].
    + apply cond_blockers; auto; first [decide_in|vm_compute; reflexivity].
    + split; [|split].
      * split; [|split; [|split; reflexivity]].
        -- constructor; [right; apply edge_in; reflexivity|]. constructor; [left; apply edge_in; reflexivity|constructor].
        -- repeat constructor; simpl; intuition discriminate.
      * intros x y z T. apply triple_three in T. destruct T as (-> & -> & ->). split.
        -- intros [K _]. apply has_edge_iff in K. vm_compute in K. discriminate.
        -- intros _ K. simpl in K. intuition discriminate.
      * exists "X", ["UB"]. split; auto. apply edge_in; reflexivity.
    + intros n Hn Dn. simpl in Hn. destruct Hn as [<-|[<-|[]]].
      * right. exists [], "DA", "UB", []. split; auto. split; apply edge_in; reflexivity.
      * exfalso. revert Dn. apply ND; simpl; auto.
    + exists [], "DA", "UB", []. split; auto. split; [split; apply edge_in; reflexivity|].
      intros l' x y z r' _ K. simpl in K. inversion K.
    + apply cond_blockers; auto; first [decide_in|vm_compute; reflexivity].
    + split; [|split; [|split; reflexivity]].
      * constructor; [left; apply edge_in; reflexivity|constructor].
      * repeat constructor; simpl; intuition discriminate.
    + intros x y z (l & r & K). destruct l as [|? [|? l]]; try discriminate. destruct l; discriminate.
    + intros n [<-|[]] Dn. exfalso. revert Dn. apply ND; simpl; auto.
Qed.
Print Assumptions C30_forks_refuted.
Example C30_example : valid ex30 /\ utilities_complete ex30 /\ leaf_utilities ex30 /\
  ~ In EmptyString (nodes (mgraph ex30)) /\ signaling id_order ex30 "DA" ["DA"; "DB"] = Ok true /\
  signaling id_order ex30 "DA" ["DA"] = Ok false /\
  revealing_or_denying id_order ex30c "DA" ["DA"; "DB"] = Ok true /\ revealing_or_denying id_order ex30 "DA" ["DA"; "DB"] = Ok false.
Proof.
  assert (V : valid ex30) by valid_diagram. split; auto. split; [valid_diagram|]. split; [apply leaf_check; auto|].
  split; [absent|]. vm_compute. auto.
Qed.

(* ---- C31 ---- *)
(* [r] lists (pattern, decision) pairs; E is the set of listed decisions *)
Definition tests_total (o : order) (m : macid) : Prop :=
  forall E d, incl E (decisions m) -> is_decision m d -> exists b, signaling o m d E = Ok b.
Theorem C31_leaf_total : forall o m, valid m -> utilities_complete m -> valid_order o -> leaf_utilities m ->
  ~ In EmptyString (nodes (mgraph m)) -> tests_total o m.
Proof.
  intros o m V CU O L Ne E d HE Hd.
  destruct (signaling_spec o m d E V CU O Hd (decisions_nodes m V E HE) L Ne) as (b & B & _). eauto.
Qed.
Print Assumptions C31_leaf_total.
Definition motivated_by (o : order) (m : macid) (E : list node) (d : node) (p : pattern) : Prop :=
  match p with
  | DirEffect => has_direct_effect m d
  | Sig => signaling o m d E = Ok true
  | Manip => manipulates m E d
  | RevDen => reveals m E d
  end.
Definition earlier (p q : pattern) : Prop :=
  match p, q with
  | DirEffect, (Sig | Manip | RevDen) | Sig, (Manip | RevDen) | Manip, RevDen => True
  | _, _ => False
  end.
Lemma first_pattern_iff : forall o m E d p, tests_total o m -> incl E (decisions m) -> is_decision m d ->
  (first_pattern o m E d p <-> motivated_by o m E d p /\ forall q, earlier q p -> ~ motivated_by o m E d q).
Proof.
  intros o m E d p T HE Hd. destruct (T E d HE Hd) as [b Hb].
  assert (S : signaling o m d E = Ok false <-> ~ signaling o m d E = Ok true) by (rewrite Hb; destruct b; split; congruence).
  destruct p; simpl.
  - split; [intro H; split; auto; intros []; simpl; tauto|tauto].
  - split; [intros [H1 H2]; split; auto; intros []; simpl; tauto|intros [H1 H2]; split; auto; apply (H2 DirEffect); simpl; auto].
  - rewrite S. split; [intros (H1 & H2 & H3); split; auto; intros []; simpl; tauto|].
    intros [H1 H2]. split; [apply (H2 DirEffect); simpl; auto|]. split; auto. apply (H2 Sig); simpl; auto.
  - rewrite S. split; [intros (H1 & H2 & H3 & H4); split; auto; intros []; simpl; tauto|].
    intros [H1 H2]. split; [apply (H2 DirEffect); simpl; auto|]. split; [apply (H2 Sig); simpl; auto|].
    split; auto. apply (H2 Manip); simpl; auto.
Qed.
(* missing: an unlisted decision may still be motivated by signaling (refuted below) *)
Theorem C31_patterns_partial : forall o m, valid m -> utilities_complete m -> valid_order o -> tests_total o m ->
  exists r E, get_reasoning_patterns o m = Ok r /\ NoDup (map snd r) /\
    (forall d, In d E <-> In d (map snd r)) /\ (forall d, In d E -> is_decision m d) /\
    (forall p d, In (p, d) r <-> In d E /\ motivated_by o m E d p /\ forall q, earlier q p -> ~ motivated_by o m E d q) /\
    (forall d, In d E -> exists p, motivated_by o m E d p) /\
    (forall d, is_decision m d -> ~ In d E ->
       ~ motivated_by o m E d DirEffect /\ ~ motivated_by o m E d Manip /\ ~ motivated_by o m E d RevDen).
Proof.
  intros o m V CU O T.
  destruct (get_patterns_spec o m V CU O T (fun E d => has_direct_effect m d \/ manipulates m E d \/ reveals m E d))
    as (r & E & R1 & R2 & R3 & R4 & R5 & R6 & R7).
  { intros E F d HI _ _ [H|[H|H]]; auto; right; [left; eapply manipulates_mono; eauto|right; eapply reveals_mono; eauto]. }
  { intros E d HE Hd H. destruct (motivated_spec o m V CU O T E d HE Hd) as [b [B1 B2]]. rewrite B1. f_equal. apply B2. tauto. }
  assert (HE : incl E (decisions m)) by (intros d Hd; apply in_decisions; auto).
  exists r, E. split; auto. split; auto. split; auto. split; auto. split; [|split].
  - intros p d. rewrite R5. split; intros [H1 H2]; (split; [auto|]); eapply first_pattern_iff; eauto.
  - intros d Hd. destruct (motivated_spec o m V CU O T E d HE (R4 d Hd)) as [b [B1 B2]]. rewrite (R6 d Hd) in B1. injection B1 as <-.
    destruct (proj1 B2 eq_refl) as [H|[H|[H|H]]]; [exists DirEffect|exists Manip|exists Sig|exists RevDen]; auto.
  - intros d Hd Nd. simpl. split; [|split]; intro K; apply Nd, R7; auto.
Qed.
Print Assumptions C31_patterns_partial.
(* the whole statement, where signaling does not depend on the choice of the path *)
Theorem C31_unambiguous : forall o m, valid m -> utilities_complete m -> valid_order o -> leaf_utilities m ->
  ~ In EmptyString (nodes (mgraph m)) ->
  (forall E d, incl E (decisions m) -> is_decision m d -> signals m E d -> signals_always m E d) ->
  exists r E, get_reasoning_patterns o m = Ok r /\ NoDup (map snd r) /\
    (forall d, In d E <-> In d (map snd r)) /\
    (forall d, In d E <-> is_decision m d /\
       (has_direct_effect m d \/ manipulates m E d \/ signals m E d \/ reveals m E d)).
Proof.
  intros o m V CU O L Ne U. assert (T : tests_total o m) by (apply C31_leaf_total; auto).
  assert (S : forall E d, incl E (decisions m) -> is_decision m d -> (signaling o m d E = Ok true <-> signals m E d)).
  { intros E d HE Hd. destruct (signaling_spec o m d E V CU O Hd (decisions_nodes m V E HE) L Ne) as (b & B1 & B2 & B3).
    rewrite B1. split; [intro K; injection K as ->; auto|intro K; f_equal; auto]. }
  destruct (get_patterns_spec o m V CU O T (fun E d => has_direct_effect m d \/ manipulates m E d \/ signals m E d \/ reveals m E d))
    as (r & E & R1 & R2 & R3 & R4 & R5 & R6 & R7).
  { intros E F d HI _ _ [H|[H|[H|H]]]; auto; right; [left; eapply manipulates_mono; eauto|right; left; eapply signals_mono; eauto|
      right; right; eapply reveals_mono; eauto]. }
  { intros E d HE Hd H. destruct (motivated_spec o m V CU O T E d HE Hd) as [b [B1 B2]]. rewrite B1. f_equal. apply B2.
    rewrite S by auto. tauto. }
  assert (HE : incl E (decisions m)) by (intros d Hd; apply in_decisions; auto).
  exists r, E. split; auto. split; auto. split; auto. intro d. split.
  - intro Hd. split; auto. destruct (motivated_spec o m V CU O T E d HE (R4 d Hd)) as [b [B1 B2]]. rewrite (R6 d Hd) in B1. injection B1 as <-.
    rewrite S in B2 by auto. tauto.
  - intros [Hd H]. apply R7; auto.
Qed.
Print Assumptions C31_unambiguous.
(* witness: X is dropped in the first round together with DA, whose signal was looked for on the path through X *)
Definition ex31 : macid :=
  diagram_of (mkG ["DA"; "DB"; "X"; "C1"; "C2"; "UA"; "UB"; "UX"]
    [("DA","DB"); ("DB","UA"); ("DB","UB"); ("C2","DA"); ("C1","DA"); ("C2","X"); ("X","UB"); ("C1","UB"); ("C1","UA")])
    [("a",["DA"]); ("b",["DB"]); ("x",["X"])] [("a",["UA"]); ("b",["UB"]); ("x",["UX"])].
Theorem C31_exact_refuted : exists m r d, valid m /\ utilities_complete m /\ leaf_utilities m /\
  ~ In EmptyString (nodes (mgraph m)) /\ is_decision m d /\
  get_reasoning_patterns id_order m = Ok r /\ ~ In d (map snd r) /\ signaling id_order m d (map snd r) = Ok true /\
  exists r', get_reasoning_patterns rev_order m = Ok r' /\ In d (map snd r').
Proof.
  exists ex31, [(DirEffect, "DB")], "DA". assert (V : valid ex31) by valid_diagram. split; auto. split; [valid_diagram|].
  split; [apply leaf_check; auto|]. split; [absent|]. split; [apply in_decisions; auto; decide_in|].
  split; [vm_compute; reflexivity|]. split; [absent|]. split; [vm_compute; reflexivity|].
  exists [(Sig, "DA"); (DirEffect, "DB")]. split; [vm_compute; reflexivity|simpl; auto].
Qed.
Print Assumptions C31_exact_refuted.
(* several rounds: DA manipulates DB only while the ineffective X is kept *)
Definition ex31b : macid :=
  diagram_of (mkG ["DA"; "DB"; "X"; "UA"; "UB"; "UX"]
    [("DA","DB"); ("DB","UA"); ("DA","X"); ("X","UB"); ("DB","UB")])
    [("a",["DA"]); ("b",["DB"]); ("x",["X"])] [("a",["UA"]); ("b",["UB"]); ("x",["UX"])].
Example C31_example : valid ex31b /\ utilities_complete ex31b /\ valid_order id_order /\ tests_total id_order ex31b /\
  effective_loop id_order ex31b 3 (decisions ex31b) = Ok ["DB"] /\
  effective_loop id_order ex31b 2 (decisions ex31b) = Err OutOfFuel /\
  get_reasoning_patterns id_order ex31b = Ok [(DirEffect, "DB")] /\
  get_reasoning_patterns id_order ex29 = Ok [(Manip, "DA"); (DirEffect, "DB")].
Proof.
  assert (V : valid ex31b) by valid_diagram. split; auto. split; [valid_diagram|]. split; [apply id_order_valid|].
  split. { apply C31_leaf_total; auto using id_order_valid; [valid_diagram|apply leaf_check; auto|absent]. }
  vm_compute. auto.
Qed.
