(* Lemmas about roles: the two views of the role dictionaries agree. *)
From Coq Require Import String List Bool Arith Permutation Lia.
Import ListNotations.
From Verif Require Import MBase MGraph MMacid Spec SpecM LBase LGraph.

(* one side (decisions or utilities) of the bookkeeping *)
Definition side_ok (d : list (agent * list node)) (o : list (node * agent)) : Prop :=
  NoDup (keys d) /\ NoDup (keys o) /\
  (forall a l, lookup a d = Some l -> NoDup l) /\
  (forall n a, lookup n o = Some a <-> exists l, lookup a d = Some l /\ In n l).
Definition good_roles (m : macid) : Prop :=
  side_ok (agent_decisions m) (decision_agent m) /\ side_ok (agent_utilities m) (utility_agent m) /\
  forall n, ~ (In n (decisions m) /\ In n (utilities m)).

Lemma listed_lookup : forall d a n, NoDup (keys d) ->
  (listed d a n <-> exists l, lookup a d = Some l /\ In n l).
Proof.
  intros d a n H. unfold listed. split; intros [l [H1 H2]]; exists l; split; auto.
  - apply In_lookup; auto.
  - apply lookup_In; auto.
Qed.
Lemma side_listed : forall d o a n, side_ok d o -> (listed d a n <-> lookup n o = Some a).
Proof. intros d o a n (H1 & H2 & H3 & H4). rewrite listed_lookup, H4; tauto. Qed.
Lemma side_in : forall d o a n, side_ok d o -> (In (n, a) o <-> lookup n o = Some a).
Proof.
  intros d o a n (H1 & H2 & H3 & H4). split; [apply In_lookup|apply lookup_In]; auto.
Qed.
Lemma in_keys_lookup : forall A k (d : list (string * A)), In k (keys d) <-> exists v, lookup k d = Some v.
Proof. intros. apply lookup_In_keys. Qed.

Definition labels (m : macid) (n : node) : option agent * option agent :=
  (lookup n (decision_agent m), lookup n (utility_agent m)).
Definition role_labels (r : role) : option agent * option agent :=
  match r with RChance => (None, None) | RDecision a => (Some a, None) | RUtility a => (None, Some a) end.
Lemma no_label : forall m n a b, good_roles m -> lookup n (decision_agent m) = Some a ->
  lookup n (utility_agent m) = Some b -> False.
Proof. intros m n a b (_ & _ & H) H1 H2. apply (H n). split; apply in_keys_lookup; eauto. Qed.
Lemma has_role_labels : forall m n r, good_roles m -> (has_role m n r <-> labels m n = role_labels r).
Proof.
  intros m n r Hm. assert (Hm' := Hm). destruct Hm as (Hd & Hu & Hx). unfold labels.
  destruct r as [|a|a]; simpl.
  - assert (A : forall a, listed (agent_decisions m) a n <-> lookup n (decision_agent m) = Some a)
      by (intro; apply side_listed; auto).
    assert (B : forall a, listed (agent_utilities m) a n <-> lookup n (utility_agent m) = Some a)
      by (intro; apply side_listed; auto).
    destruct (lookup n (decision_agent m)) as [x|], (lookup n (utility_agent m)) as [y|]; split; intro H;
      try congruence; auto.
    + destruct H as [H _]. exfalso. apply (H x). apply A; auto.
    + destruct H as [H _]. exfalso. apply (H x). apply A; auto.
    + destruct H as [_ H]. exfalso. apply (H y). apply B; auto.
    + split; intros z Hz; [apply A in Hz|apply B in Hz]; discriminate.
  - rewrite (side_listed _ _ _ _ Hd). split; intro H; [|congruence]. rewrite H.
    f_equal. destruct (lookup n (utility_agent m)) eqn:E; auto. exfalso. eapply no_label; eauto.
  - rewrite (side_listed _ _ _ _ Hu). split; intro H; [|congruence]. rewrite H.
    f_equal. destruct (lookup n (decision_agent m)) eqn:E; auto. exfalso. eapply no_label; eauto.
Qed.
Lemma has_label_role : forall m n r, good_roles m -> (has_label m n r <-> has_role m n r).
Proof.
  intros m n r (Hd & Hu & Hx).
  assert (A : forall a, In (n, a) (decision_agent m) <-> listed (agent_decisions m) a n)
    by (intro; rewrite (side_listed _ _ _ _ Hd); eapply side_in; eauto).
  assert (B : forall a, In (n, a) (utility_agent m) <-> listed (agent_utilities m) a n)
    by (intro; rewrite (side_listed _ _ _ _ Hu); eapply side_in; eauto).
  destruct r as [|a|a]; simpl; auto.
  split; intros [H1 H2]; (split; intros a Ha; [apply (H1 a); apply A; auto|apply (H2 a); apply B; auto]).
Qed.
Lemma good_one_role : forall m, good_roles m -> one_role_each m.
Proof.
  intros m Hm n.
  assert (H : exists r, forall r', has_role m n r' <-> r' = r).
  { destruct (labels m n) as [x y] eqn:E. unfold labels in E.
    destruct x as [x|].
    - destruct y as [y|]; [exfalso; inversion E; eapply no_label; eauto|].
      exists (RDecision x). intro r'. rewrite has_role_labels by auto. unfold labels. rewrite E.
      destruct r'; simpl; split; congruence.
    - destruct y as [y|].
      + exists (RUtility y). intro r'. rewrite has_role_labels by auto. unfold labels. rewrite E.
        destruct r'; simpl; split; congruence.
      + exists RChance. intro r'. rewrite has_role_labels by auto. unfold labels. rewrite E.
        destruct r'; simpl; split; congruence. }
  destruct H as [r H]. exists r. split; auto. intro r'. rewrite has_label_role by auto. auto.
Qed.

(* --- the constructor ------------------------------------------------------------------ *)
Lemma lookup_fold_owner1 : forall (a : agent) l acc n,
  lookup n (fold_left (fun acc' n => dset n a acc') l acc) = if mem n l then Some a else lookup n acc.
Proof.
  intros a l. induction l as [|x l IH]; intros acc n; simpl; auto.
  rewrite IH, lookup_dset. unfold mem; simpl. fold (mem n l).
  destruct (mem n l); [rewrite orb_true_r; auto|]. rewrite orb_false_r. auto.
Qed.
Lemma keys_fold_owner1 : forall (a : agent) l acc, NoDup (keys acc) -> NoDup (keys (fold_left (fun acc' n => dset n a acc') l acc)).
Proof. intros a l. induction l as [|x l IH]; intros acc H; simpl; auto. apply IH. apply NoDup_keys_dset; auto. Qed.
Definition owner_fold (d : list (agent * list node)) acc :=
  fold_left (fun acc al => fold_left (fun acc' n => dset n (fst al) acc') (snd al) acc) d acc.
Lemma keys_owner_fold : forall d acc, NoDup (keys acc) -> NoDup (keys (owner_fold d acc)).
Proof.
  induction d as [|[a l] d IH]; intros acc H; simpl; auto. apply IH. apply keys_fold_owner1; auto.
Qed.
Lemma NoDup_app_inv : forall (A : Type) (l r : list A), NoDup (l ++ r) ->
  NoDup l /\ NoDup r /\ forall x, In x l -> ~ In x r.
Proof.
  intros A l. induction l as [|x l IH]; intros r H; simpl in *.
  - repeat split; auto. constructor.
  - inversion H; subst. destruct (IH _ H3) as (H4 & H5 & H6). repeat split; auto.
    + constructor; auto. intro. apply H2. apply in_or_app; auto.
    + intros y [->|Hy]; auto. intro. apply H2. apply in_or_app; auto.
Qed.
Lemma lookup_owner_fold : forall d acc n, NoDup (concat (map snd d)) ->
  (forall a l, In (a, l) d -> In n l -> lookup n (owner_fold d acc) = Some a) /\
  (~ In n (concat (map snd d)) -> lookup n (owner_fold d acc) = lookup n acc).
Proof.
  induction d as [|[b k] d IH]; intros acc n H.
  - split; [simpl; tauto|auto].
  - simpl in H. apply NoDup_app_inv in H. destruct H as (H1 & H2 & H3).
    set (acc1 := fold_left (fun acc' n0 => dset n0 b acc') k acc).
    change (owner_fold ((b, k) :: d) acc) with (owner_fold d acc1).
    assert (E1 : lookup n acc1 = if mem n k then Some b else lookup n acc) by apply lookup_fold_owner1.
    destruct (IH acc1 n H2) as [I1 I2]. split.
    + intros a l [E|Hi] Hn.
      * inversion E; subst. rewrite I2 by (apply H3; auto).
        rewrite E1. apply mem_In in Hn. rewrite Hn. auto.
      * eapply I1; eauto.
    + simpl. intro Hn. rewrite I2 by (intro; apply Hn; apply in_or_app; auto).
      rewrite E1. destruct (mem_spec n k); auto. exfalso. apply Hn. apply in_or_app; auto.
Qed.
Lemma lookup_owner_dict : forall d n a, NoDup (concat (map snd d)) ->
  (lookup n (owner_dict d) = Some a <-> listed d a n).
Proof.
  intros d n a H. destruct (lookup_owner_fold d [] n H) as [I1 I2]. unfold listed. split.
  - intro E. destruct (in_dec string_dec n (concat (map snd d))) as [Hi|Hi].
    + apply in_concat in Hi. destruct Hi as [l [H1 H2]]. apply in_map_iff in H1.
      destruct H1 as [[b l'] [E1 H1]]. simpl in E1. subst l'.
      assert (E2 := I1 _ _ H1 H2). unfold owner_dict in E. unfold owner_fold in E2. rewrite E2 in E.
      inversion E; subst. eauto.
    + unfold owner_dict in E. unfold owner_fold in I2. rewrite (I2 Hi) in E. discriminate.
  - intros [l [H1 H2]]. apply (I1 _ _ H1 H2).
Qed.
Lemma NoDup_concat_In : forall (A : Type) (ls : list (list A)) l, NoDup (concat ls) -> In l ls -> NoDup l.
Proof.
  intros A ls. induction ls as [|k ls IH]; intros l H Hi; simpl in *; [tauto|].
  apply NoDup_app_inv in H. destruct H as (H1 & H2 & H3). destruct Hi as [->|Hi]; auto.
Qed.
Lemma side_ok_init : forall d, NoDup (keys d) -> NoDup (concat (map snd d)) -> side_ok d (owner_dict d).
Proof.
  intros d Hk Hc. split; [auto|]. split; [apply (keys_owner_fold d []); constructor|]. split.
  - intros a l H. eapply NoDup_concat_In; eauto. apply in_map_iff. exists (a, l). split; auto. apply lookup_In; auto.
  - intros n a. rewrite lookup_owner_dict by auto. apply listed_lookup; auto.
Qed.
Lemma listed_concat : forall d n, (exists a, listed d a n) <-> In n (concat (map snd d)).
Proof.
  intros d n. unfold listed. rewrite in_concat. split.
  - intros [a [l [H1 H2]]]. exists l. split; auto. apply in_map_iff. exists (a, l); auto.
  - intros [l [H1 H2]]. apply in_map_iff in H1. destruct H1 as [[a l'] [E H1]]. simpl in E; subst. eauto.
Qed.
Lemma good_roles_init : forall g ad au, clean_lists ad au ->
  good_roles (mkM g ad au (owner_dict ad) (owner_dict au)).
Proof.
  intros g ad au (H1 & H2 & H3). apply NoDup_app_inv in H3. destruct H3 as (H3 & H4 & H5).
  split; [|split]; simpl; try apply side_ok_init; auto.
  intros n [Hd Hu]. unfold decisions, utilities in *; simpl in *.
  apply in_keys_lookup in Hd. apply in_keys_lookup in Hu. destruct Hd as [a Ha]. destruct Hu as [b Hb].
  apply lookup_owner_dict in Ha; auto. apply lookup_owner_dict in Hb; auto.
  apply (H5 n); apply listed_concat; eauto.
Qed.

(* --- one side under removal and insertion --------------------------------------------- *)
Lemma side_remove : forall d o n a, side_ok d o -> lookup n o = Some a ->
  exists l, lookup a d = Some l /\ In n l /\ side_ok (dset a (remove_first n l) d) (ddel n o).
Proof.
  intros d o n a (H1 & H2 & H3 & H4) E. destruct (proj1 (H4 n a) E) as [l [El Hl]].
  exists l. split; [auto|]. split; [auto|].
  assert (Hn := H3 _ _ El).
  split; [apply NoDup_keys_dset; auto|]. split; [apply NoDup_keys_ddel; auto|]. split.
  - intros b k. rewrite lookup_dset. destruct (String.eqb_spec b a); intro Hb.
    + inversion Hb; subst. apply remove_first_NoDup; auto.
    + eauto.
  - intros x b. rewrite lookup_ddel. destruct (String.eqb_spec x n).
    + split; [discriminate|]. subst x. intros [k [Hk Hx]]. exfalso. rewrite lookup_dset in Hk.
      destruct (String.eqb_spec b a).
      * inversion Hk; subst. apply remove_first_NoDup_in in Hx; auto. destruct Hx; congruence.
      * assert (lookup n o = Some b) by (apply H4; eauto). congruence.
    + rewrite H4. split; intros [k [Hk Hx]].
      * destruct (String.eqb_spec b a).
        -- subst b. exists (remove_first n l). rewrite lookup_dset, String.eqb_refl. split; auto.
           rewrite El in Hk. inversion Hk; subst. apply remove_first_NoDup_in; auto.
        -- exists k. rewrite lookup_dset. destruct (String.eqb_spec b a); [congruence|auto].
      * rewrite lookup_dset in Hk. destruct (String.eqb_spec b a).
        -- inversion Hk; subst. exists l. split; auto. apply remove_first_NoDup_in in Hx; tauto.
        -- eauto.
Qed.
Lemma side_append : forall d o n a, side_ok d o -> lookup n o = None ->
  side_ok (dict_list_append a n d) (dset n a o).
Proof.
  intros d o n a (H1 & H2 & H3 & H4) E.
  assert (Hno : forall b k, lookup b d = Some k -> ~ In n k).
  { intros b k Hb Hi. assert (lookup n o = Some b) by (apply H4; eauto). congruence. }
  unfold dict_list_append. destruct (lookup a d) as [l|] eqn:El.
  - split; [apply NoDup_keys_dset; auto|]. split; [apply NoDup_keys_dset; auto|]. split.
    + intros b k. rewrite lookup_dset. destruct (String.eqb_spec b a); intro Hb.
      * inversion Hb; subst. apply NoDup_snoc; eauto.
      * eauto.
    + intros x b. rewrite lookup_dset. destruct (String.eqb_spec x n).
      * subst x. split.
        -- intro Hb. inversion Hb; subst. exists (l ++ [n]). rewrite lookup_dset, String.eqb_refl. split; auto.
           apply in_or_app; simpl; auto.
        -- intros [k [Hk Hx]]. rewrite lookup_dset in Hk. destruct (String.eqb_spec b a); [congruence|].
           exfalso. eapply Hno; eauto.
      * rewrite H4. split; intros [k [Hk Hx]].
        -- destruct (String.eqb_spec b a).
           ++ subst b. exists (l ++ [n]). rewrite lookup_dset, String.eqb_refl. split; auto.
              rewrite El in Hk. inversion Hk; subst. apply in_or_app; auto.
           ++ exists k. rewrite lookup_dset. destruct (String.eqb_spec b a); [congruence|auto].
        -- rewrite lookup_dset in Hk. destruct (String.eqb_spec b a).
           ++ inversion Hk; subst. exists l. split; auto. apply in_app_or in Hx. simpl in Hx.
              destruct Hx as [|[|[]]]; auto; congruence.
           ++ eauto.
  - split; [apply NoDup_keys_dset; auto|]. split; [apply NoDup_keys_dset; auto|]. split.
    + intros b k. rewrite lookup_dset. destruct (String.eqb_spec b a); intro Hb.
      * inversion Hb; subst. constructor; [simpl; tauto|constructor].
      * eauto.
    + intros x b. rewrite lookup_dset. destruct (String.eqb_spec x n).
      * subst x. split.
        -- intro Hb. inversion Hb; subst. exists [n]. rewrite lookup_dset, String.eqb_refl. simpl; auto.
        -- intros [k [Hk Hx]]. rewrite lookup_dset in Hk. destruct (String.eqb_spec b a); [congruence|].
           exfalso. eapply Hno; eauto.
      * rewrite H4. split; intros [k [Hk Hx]].
        -- exists k. rewrite lookup_dset. destruct (String.eqb_spec b a); [congruence|auto].
        -- rewrite lookup_dset in Hk. destruct (String.eqb_spec b a).
           ++ inversion Hk; subst. simpl in Hx. destruct Hx as [|[]]; congruence.
           ++ eauto.
Qed.

(* --- the calls -------------------------------------------------------------------------- *)
Lemma mem_keys_lookup : forall A k (d : list (string * A)),
  mem k (keys d) = match lookup k d with Some _ => true | None => false end.
Proof.
  intros. destruct (lookup k d) eqn:E.
  - apply mem_In. apply in_keys_lookup; eauto.
  - apply mem_nIn. intro H. apply in_keys_lookup in H. destruct H; congruence.
Qed.
Lemma make_chance_spec : forall m n, good_roles m ->
  if mem n (nodes (mgraph m)) then
    exists m', make_chance m n = (m', None) /\ good_roles m' /\ mgraph m' = mgraph m /\
      labels m' n = (None, None) /\ forall x, x <> n -> labels m' x = labels m x
  else make_chance m n = (m, Some KeyError).
Proof.
  intros m n (Hd & Hu & Hx). unfold make_chance.
  destruct (mem n (nodes (mgraph m))) eqn:En; simpl; auto.
  unfold decisions at 1, utilities at 1. rewrite !mem_keys_lookup.
  destruct (lookup n (decision_agent m)) as [a|] eqn:Ed.
  - destruct (side_remove _ _ _ _ Hd Ed) as [l [El [Hl Hs]]].
    unfold dict_list_remove. rewrite El. apply mem_In in Hl. rewrite Hl.
    eexists. split; [reflexivity|]. split; [|split; [reflexivity|]].
    + split; [|split]; simpl; auto. intros x [H1 H2]. unfold decisions, utilities in *; simpl in *.
      apply (Hx x). split; auto. unfold decisions. apply in_keys_lookup in H1. destruct H1 as [v Hv].
      rewrite lookup_ddel in Hv. apply in_keys_lookup. destruct (String.eqb x n); [discriminate|eauto].
    + unfold labels; simpl. rewrite lookup_ddel, String.eqb_refl. split.
      * f_equal. destruct (lookup n (utility_agent m)) eqn:E; auto. exfalso. apply (Hx n).
        split; apply in_keys_lookup; eauto.
      * intros x Hxn. rewrite lookup_ddel. destruct (String.eqb_spec x n); [congruence|auto].
  - destruct (lookup n (utility_agent m)) as [a|] eqn:Eu.
    + destruct (side_remove _ _ _ _ Hu Eu) as [l [El [Hl Hs]]].
      unfold dict_list_remove. simpl. rewrite El. apply mem_In in Hl. rewrite Hl.
      eexists. split; [reflexivity|]. split; [|split; [reflexivity|]].
      * split; [|split]; simpl; auto. intros x [H1 H2]. unfold decisions, utilities in *; simpl in *.
        apply (Hx x). split; auto. unfold utilities. apply in_keys_lookup in H2. destruct H2 as [v Hv].
        rewrite lookup_ddel in Hv. apply in_keys_lookup. destruct (String.eqb x n); [discriminate|eauto].
      * unfold labels; simpl. rewrite lookup_ddel, String.eqb_refl, Ed. split; auto.
        intros x Hxn. rewrite lookup_ddel. destruct (String.eqb_spec x n); [congruence|auto].
    + exists m. unfold labels. rewrite Ed, Eu. repeat split; auto; try apply Hd; try apply Hu.
Qed.
Definition call_labels (c : role_call) : option agent * option agent :=
  match c with MakeDecision _ a => (Some a, None) | MakeUtility _ a => (None, Some a) | MakeChance _ => (None, None) end.
Lemma apply_call_spec : forall m c, good_roles m ->
  if mem (call_node c) (nodes (mgraph m)) then
    exists m', apply_call m c = (m', None) /\ good_roles m' /\ mgraph m' = mgraph m /\
      labels m' (call_node c) = call_labels c /\ forall x, x <> call_node c -> labels m' x = labels m x
  else apply_call m c = (m, Some KeyError).
Proof.
  intros m c Hm. destruct c as [n a|n a|n]; simpl; unfold make_decision, make_utility;
    assert (H := make_chance_spec m n Hm); destruct (mem n (nodes (mgraph m))) eqn:En;
    try (rewrite H; reflexivity); auto; destruct H as [m' [E (G & Eg & L & O)]]; rewrite E.
  - eexists. split; [reflexivity|]. assert (L1 : lookup n (decision_agent m') = None) by (unfold labels in L; congruence). assert (L2 : lookup n (utility_agent m') = None) by (unfold labels in L; congruence). destruct G as (Gd & Gu & Gx).
    split; [|split; [simpl; auto|]].
    + split; [|split]; simpl; auto.
      * apply side_append; auto.
      * intros x [H1 H2]. unfold decisions, utilities in *; simpl in *.
        apply in_keys_lookup in H1. destruct H1 as [v Hv]. rewrite lookup_dset in Hv.
        apply in_keys_lookup in H2. destruct H2 as [w Hw].
        destruct (String.eqb_spec x n); [congruence|]. apply (Gx x). split; apply in_keys_lookup; eauto.
    + unfold labels in *; simpl. rewrite lookup_dset, String.eqb_refl, L2. split; auto.
      intros x Hxn. rewrite lookup_dset. destruct (String.eqb_spec x n); [congruence|].
      rewrite <- O by auto. auto.
  - eexists. split; [reflexivity|]. assert (L1 : lookup n (decision_agent m') = None) by (unfold labels in L; congruence). assert (L2 : lookup n (utility_agent m') = None) by (unfold labels in L; congruence). destruct G as (Gd & Gu & Gx).
    split; [|split; [simpl; auto|]].
    + split; [|split]; simpl; auto.
      * apply side_append; auto.
      * intros x [H1 H2]. unfold decisions, utilities in *; simpl in *.
        apply in_keys_lookup in H2. destruct H2 as [v Hv]. rewrite lookup_dset in Hv.
        apply in_keys_lookup in H1. destruct H1 as [w Hw].
        destruct (String.eqb_spec x n); [congruence|]. apply (Gx x). split; apply in_keys_lookup; eauto.
    + unfold labels in *; simpl. rewrite lookup_dset, String.eqb_refl, L1. split; auto.
      intros x Hxn. rewrite lookup_dset. destruct (String.eqb_spec x n); [congruence|].
      rewrite <- O by auto. auto.
Qed.
Lemma run_calls_good : forall cs m, good_roles m -> good_roles (run_calls m cs) /\ mgraph (run_calls m cs) = mgraph m.
Proof.
  induction cs as [|c cs IH]; intros m H; simpl; auto.
  assert (S := apply_call_spec m c H). unfold run_calls. simpl. fold (run_calls (fst (apply_call m c)) cs).
  destruct (mem (call_node c) (nodes (mgraph m))).
  - destruct S as [m' [E (G & Eg & _)]]. rewrite E. simpl. destruct (IH m' G) as [A B]. split; auto. congruence.
  - rewrite S. simpl. auto.
Qed.

(* the specification's invariant is the lemma files' one *)
Lemma good_consistent : forall m, good_roles m <-> consistent m.
Proof.
  intro m. split.
  - intro G. assert (G' := G). destruct G' as (Hd & Hu & Hx). unfold consistent.
    split; [apply Hd|]. split; [apply Hu|]. split; [apply Hd|]. split; [apply Hu|]. split.
    + intros a l [H|H]; [destruct Hd as (N & _ & D & _)|destruct Hu as (N & _ & D & _)]; apply (D a); apply In_lookup; auto.
    + apply good_one_role; auto.
  - intros (N1 & N2 & N3 & N4 & D & O).
    assert (S : forall n r, has_label m n r <-> has_role m n r).
    { intros n r. destruct (O n) as [r' [H1 H2]]. rewrite H1, H2. tauto. }
    split; [|split].
    + repeat split; auto.
      * intros a l H. apply (D a). left. apply lookup_In; auto.
      * intro H. apply listed_lookup; auto. apply (S n (RDecision a)). simpl. apply lookup_In; auto.
      * intro H. apply listed_lookup in H; auto. apply (S n (RDecision a)) in H. simpl in H. apply In_lookup; auto.
    + repeat split; auto.
      * intros a l H. apply (D a). right. apply lookup_In; auto.
      * intro H. apply listed_lookup; auto. apply (S n (RUtility a)). simpl. apply lookup_In; auto.
      * intro H. apply listed_lookup in H; auto. apply (S n (RUtility a)) in H. simpl in H. apply In_lookup; auto.
    + intros n [H1 H2]. unfold decisions, utilities in *. apply in_keys_lookup in H1. apply in_keys_lookup in H2.
      destruct H1 as [a Ha]. destruct H2 as [b Hb]. apply lookup_In in Ha. apply lookup_In in Hb.
      destruct (O n) as [r [_ L]]. assert (X := proj1 (L (RDecision a)) Ha). assert (Y := proj1 (L (RUtility b)) Hb). congruence.
Qed.
