(* C83: shapes and colours of drawn nodes tell roles and agents. *)
From Coq Require Import String List Bool Arith Lia.
Import ListNotations.
From Verif Require Import MBase MGraph MMacid MRel MRelG MDraw Spec SpecM SpecR SpecRelG LBase LRoles LRel LCheck PMacid PRel PRelG.
Local Open Scope string_scope.
Local Open Scope list_scope.

Lemma index_of_spec : forall x l, match index_of x l with Some i => nth_error l i = Some x /\ i < length l | None => ~ In x l end.
Proof.
  intros x l. induction l as [|y l IH]; simpl; [tauto|]. destruct (String.eqb_spec x y) as [->|Ne]; [simpl; split; [auto|lia]|].
  destruct (index_of x l) as [i|]; simpl; [split; [tauto|lia]|]. intros [K|K]; [congruence|auto].
Qed.
Lemma role_lookups : forall m v, consistent m -> exists r, (forall r', has_role m v r' <-> r' = r) /\
  lookup v (decision_agent m) = (match r with RDecision a => Some a | _ => None end) /\ lookup v (utility_agent m) = (match r with RUtility a => Some a | _ => None end).
Proof.
  intros m v (_ & _ & Nd & Nu & _ & One). destruct (One v) as (r & Hr & Hl). exists r. split; auto. split.
  - destruct r as [|a|a].
    + destruct (lookup v (decision_agent m)) as [a|] eqn:E; auto. exfalso. apply lookup_In in E. assert (K := proj1 (Hl (RDecision a)) E). discriminate.
    + apply In_lookup; auto. apply (Hl (RDecision a)). auto.
    + destruct (lookup v (decision_agent m)) as [b|] eqn:E; auto. exfalso. apply lookup_In in E. assert (K := proj1 (Hl (RDecision b)) E). discriminate.
  - destruct r as [|a|a].
    + destruct (lookup v (utility_agent m)) as [a|] eqn:E; auto. exfalso. apply lookup_In in E. assert (K := proj1 (Hl (RUtility a)) E). discriminate.
    + destruct (lookup v (utility_agent m)) as [b|] eqn:E; auto. exfalso. apply lookup_In in E. assert (K := proj1 (Hl (RUtility b)) E). discriminate.
    + apply In_lookup; auto. apply (Hl (RUtility a)). auto.
Qed.
(* the shape of a node is its role *)
Theorem C83_shape : forall m v, valid m ->
  (macid_shape m v = "s" <-> exists a, has_role m v (RDecision a)) /\ (macid_shape m v = "D" <-> exists a, has_role m v (RUtility a)) /\ (macid_shape m v = "o" <-> has_role m v RChance) /\
  (cid_color m v = Named "lightblue" <-> macid_shape m v = "s") /\ (cid_color m v = Named "yellow" <-> macid_shape m v = "D") /\ (cid_color m v = Named "lightgray" <-> macid_shape m v = "o").
Proof.
  intros m v (_ & C & _). destruct (role_lookups m v C) as (r & Hr & Ld & Lu).
  assert (Sh : macid_shape m v = match r with RDecision _ => "s" | RUtility _ => "D" | RChance => "o" end /\ cid_color m v = Named (match r with RDecision _ => "lightblue" | RUtility _ => "yellow" | RChance => "lightgray" end)).
  { unfold macid_shape, cid_color, decisions, utilities. destruct (mem_spec v (keys (decision_agent m))) as [K|K]; [apply in_keys_lookup in K; destruct K as [a K]|assert (X : lookup v (decision_agent m) = None) by (destruct (lookup v (decision_agent m)) as [b|] eqn:E; auto; exfalso; apply K; apply in_keys_lookup; eauto)];
      destruct (mem_spec v (keys (utility_agent m))) as [K2|K2]; try (apply in_keys_lookup in K2; destruct K2 as [b K2]); try (assert (Y : lookup v (utility_agent m) = None) by (destruct (lookup v (utility_agent m)) as [b|] eqn:E; auto; exfalso; apply K2; apply in_keys_lookup; eauto)); destruct r; try congruence; auto. }
  destruct Sh as [-> ->]. destruct r as [|a|a]; (split; [|split; [|split; [|split; [|split]]]]); split; intro K; try discriminate K; try reflexivity; try (apply Hr; reflexivity); try (exists a; apply Hr; reflexivity);
    try (apply (proj1 (Hr RChance)) in K; discriminate K); destruct K as [b K]; (apply (proj1 (Hr (RDecision b))) in K; discriminate K) || (apply (proj1 (Hr (RUtility b))) in K; discriminate K).
Qed.
Print Assumptions C83_shape.
(* the colour of a node is its agent: the same for all nodes of an agent, different for different agents, grey for chance nodes *)
Theorem C83_color : forall m v w, valid m -> utilities_complete m ->
  exists c d, macid_color m v = Ok c /\ macid_color m w = Ok d /\
    (c = Named "lightgray" <-> has_role m v RChance) /\ (forall i k, c = Rainbow i k -> i < k) /\
    (c <> Named "lightgray" -> (c = d <-> exists a, (has_role m v (RDecision a) \/ has_role m v (RUtility a)) /\ (has_role m w (RDecision a) \/ has_role m w (RUtility a)))).
Proof.
  intros m v w (_ & C & _) U.
  assert (X : forall v, exists r c, (forall r', has_role m v r' <-> r' = r) /\ macid_color m v = Ok c /\ match r with RChance => c = Named "lightgray" | RDecision a | RUtility a => exists i, c = Rainbow i (length (agents m)) /\ nth_error (agents m) i = Some a /\ i < length (agents m) end).
  { clear v w. intro v. destruct (role_lookups m v C) as (r & Hr & Ld & Lu). exists r.
    assert (Ag : forall a, r = RDecision a \/ r = RUtility a -> In a (agents m)). { intros a [->| ->]; [apply (U a v); apply (Hr (RDecision a)); auto|]. destruct (proj2 (Hr (RUtility a)) eq_refl) as (l & K & _). apply in_map_iff. exists (a, l). auto. }
    unfold macid_color. rewrite Ld. destruct r as [|a|a]; rewrite ?Lu.
    - eexists. split; auto.
    - assert (I := index_of_spec a (agents m)). destruct (index_of a (agents m)) as [i|]; [|exfalso; apply I; apply Ag; auto]. eexists. split; auto. split; eauto.
    - assert (I := index_of_spec a (agents m)). destruct (index_of a (agents m)) as [i|]; [|exfalso; apply I; apply Ag; auto]. eexists. split; auto. split; eauto. }
  destruct (X v) as (r & c & Hr & Ec & Rc). destruct (X w) as (r' & d & Hr' & Ed & Rd). exists c, d. split; auto. split; auto.
  assert (Na : NoDup (agents m)) by apply C.
  assert (Y : forall i j a, nth_error (agents m) i = Some a -> nth_error (agents m) j = Some a -> i < length (agents m) -> i = j). { intros i j a Hi Hj L. apply (proj1 (NoDup_nth_error (agents m)) Na i j L). congruence. }
  split; [|split].
  - destruct r as [|a|a]; [split; auto; intros _; apply Hr; auto|split; intro K; [destruct Rc as (i & -> & _); discriminate|apply Hr in K; discriminate]|split; intro K; [destruct Rc as (i & -> & _); discriminate|apply Hr in K; discriminate]].
  - intros i k ->. destruct r as [|a|a]; [discriminate| |]; destruct Rc as (j & K & _ & L); injection K as -> ->; auto.
  - intro Ng. assert (Pa : exists a i, (r = RDecision a \/ r = RUtility a) /\ c = Rainbow i (length (agents m)) /\ nth_error (agents m) i = Some a /\ i < length (agents m)) by (destruct r as [|a|a]; [congruence| |]; destruct Rc as (i & K); exists a, i; auto).
    destruct Pa as (a & i & Ra & -> & Ni & Li). split.
    + intros <-. exists a. split; [destruct Ra as [->| ->]; [left|right]; apply Hr; auto|]. destruct r' as [|b|b]; [discriminate| |]; destruct Rd as (j & K & Nj & Lj); injection K as ->; assert (b = a) by congruence; subst b; [left|right]; apply Hr'; auto.
    + intros (b & Hv & Hw). assert (b = a) by (destruct Hv as [K|K]; apply Hr in K; destruct Ra as [R|R]; congruence). subst b. assert (Rw : r' = RDecision a \/ r' = RUtility a) by (destruct Hw as [K|K]; apply Hr' in K; auto).
      destruct Rw as [->| ->]; destruct Rd as (j & -> & Nj & Lj); f_equal; apply (Y i j a); auto.
Qed.
Print Assumptions C83_color.
(* without an entry for the agent in the utility dictionary, drawing the decision raises *)
Theorem C83_no_utility : forall m v a, valid m -> has_role m v (RDecision a) -> ~ In a (keys (agent_utilities m)) -> macid_color m v = Err ValueError.
Proof.
  intros m v a (_ & C & _) Hv Na. destruct (role_lookups m v C) as (r & Hr & Ld & _). apply Hr in Hv. subst r. unfold macid_color. rewrite Ld. assert (I := index_of_spec a (agents m)). destruct (index_of a (agents m)) as [i|]; auto. exfalso. apply Na. destruct I as [I _]. apply nth_error_In in I. auto.
Qed.
Print Assumptions C83_no_utility.
Lemma first_holding_spec : forall v cs k, match first_holding v cs k with Some i => k <= i /\ exists c, nth_error cs (i - k) = Some c /\ In v c | None => ~ In v (concat cs) end.
Proof.
  intros v cs. induction cs as [|c cs IH]; intro k; simpl; [tauto|]. destruct (mem_spec v c) as [H|H].
  - split; auto. replace (k - k) with 0 by lia. exists c. auto.
  - specialize (IH (S k)). destruct (first_holding v cs (S k)) as [i|].
    + destruct IH as (L & c' & E & Hc). split; [lia|]. exists c'. split; auto. replace (i - k) with (S (i - S k)) by lia. auto.
    + intro K. apply in_app_or in K. tauto.
Qed.
(* draw_sccs: two decisions have the same colour exactly if they are in the same component *)
Theorem C83_components : forall so m ds, valid m -> no_clash (mgraph m) -> utilities_complete m -> NoDup ds -> (forall d, In d ds -> is_decision m d) -> valid_components so ->
  exists rg, relevance_graph m ds = Ok rg /\ forall x y, In x ds -> In y ds ->
    exists c d, set_color_scc x (get_sccs so rg) = Ok c /\ set_color_scc y (get_sccs so rg) = Ok d /\ (c = d <-> needs_chain m ds x y /\ needs_chain m ds y x).
Proof.
  intros so m ds V NC U N D Vs. destruct (C81_sccs so m ds V NC U N D Vs) as (rg & E & Nc & Ne & Ic & Sc & _). exists rg. split; auto. intros x y Hx Hy. set (cs := get_sccs so rg) in *.
  assert (X : forall z, In z ds -> exists i c, set_color_scc z cs = Ok (Rainbow i (length cs)) /\ nth_error cs i = Some c /\ In z c).
  { intros z Hz. apply Ic in Hz. unfold set_color_scc. assert (F := first_holding_spec z cs 0). destruct (first_holding z cs 0) as [i|]; [|contradiction]. destruct F as (_ & c & Ei & Hc). rewrite Nat.sub_0_r in Ei. exists i, c. split; [|auto]. destruct cs; [destruct Hz|auto]. }
  destruct (X x Hx) as (i & c & E1 & N1 & H1). destruct (X y Hy) as (j & d & E2 & N2 & H2). exists (Rainbow i (length cs)), (Rainbow j (length cs)). split; auto. split; auto. rewrite <- (Sc x y Hx). split.
  - intro K. injection K as <-. rewrite N1 in N2. injection N2 as <-. exists c. split; [eapply nth_error_In; eauto|auto].
  - intros (l & Hl & Hxl & Hyl). f_equal. apply In_nth_error in Hl. destruct Hl as (k & Hk). transitivity k; [apply (comp_unique cs x); auto|apply (comp_unique cs y); auto]; unfold comp; eauto.
Qed.
Print Assumptions C83_components.
Example C83_example : valid ex20 /\ utilities_complete ex20 /\ map (macid_shape ex20) ["D"; "U"; "Q"] = ["s"; "D"; "o"] /\ macid_color ex20 "D" = Ok (Rainbow 0 3) /\ macid_color ex20 "U" = Ok (Rainbow 0 3) /\ macid_color ex20 "E" = Ok (Rainbow 1 3) /\ macid_color ex20 "Q" = Ok (Named "lightgray").
Proof.
  split; [exact (proj1 C20_example)|]. split; [exact (proj1 (proj2 (proj2 C20_example)))|]. vm_compute. auto.
Qed.
Definition ex83 : macid := diagram_of (mkG ["D"; "X"] [("D", "X")]) [("a", ["D"])] [].
Example C83_no_utility_example : valid ex83 /\ has_role ex83 "D" (RDecision "a") /\ ~ In "a" (keys (agent_utilities ex83)) /\ macid_color ex83 "D" = Err ValueError /\ macid_color ex83 "X" = Ok (Named "lightgray").
Proof.
  split.
  { apply (valid_init [("D", "X")] [("a", ["D"])] []); [vm_compute; reflexivity| |].
    - split; [repeat constructor; intros []|]. split; [constructor|]. repeat constructor; intros [].
    - intros a n [[l [[H|[]] K]]|[l [[] K]]]. injection H as <- <-. destruct K as [<-|[]]. left. reflexivity. }
  split; [exists ["D"]; split; left; reflexivity|]. split; [intros []|]. split; vm_compute; reflexivity.
Qed.
(* draw_property: exactly the nodes with the property are highlighted, in any colour that no role has (such as the default red); the others keep the colour of their role *)
Theorem C83_property : forall m (p : node -> bool) c v,
  (~ In c ["lightblue"; "yellow"; "lightgray"] -> (property_color p c (fun w => Ok (cid_color m w)) v = Ok (Named c) <-> p v = true)) /\
  (c <> "lightgray" -> (property_color p c (macid_color m) v = Ok (Named c) <-> p v = true)) /\
  (c <> "lightgray" -> (property_color p c (fun w => Ok (cbn_color w)) v = Ok (Named c) <-> p v = true)) /\
  (forall get, p v = false -> property_color p c get v = get v).
Proof.
  intros m p c v. unfold property_color. split; [|split; [|split]].
  - intro N. destruct (p v); split; auto; try discriminate. intro K. exfalso. apply N. unfold cid_color in K. cbn. destruct (mem v (decisions m)); [|destruct (mem v (utilities m))]; injection K as <-; auto.
  - intro N. destruct (p v); split; auto; try discriminate. intro K. exfalso. apply N. unfold macid_color in K.
    destruct (match lookup v (decision_agent m) with Some a => Some a | None => lookup v (utility_agent m) end) as [a|]; [destruct (index_of a (agents m)); discriminate|]. injection K as <-. auto.
  - intro N. destruct (p v); split; auto; try discriminate. intro K. exfalso. apply N. injection K as <-. auto.
  - intros get E. rewrite E. auto.
Qed.
Print Assumptions C83_property.
(* in the colour of a role other nodes seem to be highlighted, too *)
Example C83_property_example : property_color (String.eqb "D") "red" (macid_color ex20) "D" = Ok (Named "red") /\ property_color (String.eqb "D") "red" (macid_color ex20) "Q" = Ok (Named "lightgray") /\
  property_color (String.eqb "D") "lightgray" (macid_color ex20) "D" = property_color (String.eqb "D") "lightgray" (macid_color ex20) "Q".
Proof. vm_compute. auto. Qed.
