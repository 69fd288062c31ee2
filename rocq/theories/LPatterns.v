(* Lemmas about reasoning patterns. *)
From Coq Require Import String List Bool Arith Lia Permutation.
Import ListNotations.
From Verif Require Import MBase MGraph MPaths MMacid MIncent MPatterns Spec SpecM SpecI SpecP
  LBase LGraph LDfs LPaths LActive LMotif LRoles LReach LTrim LIncent.

(* ---- loops ---- *)
Lemma first_r_spec : forall (A : Type) (f : A -> result bool) (P : A -> Prop) l,
  (forall x, In x l -> exists b, f x = Ok b /\ (b = true <-> P x)) ->
  exists r, first_r f l = Ok r /\ match r with Some x => In x l /\ P x | None => forall x, In x l -> ~ P x end.
Proof.
  intros A f P l. induction l as [|x l IH]; intro H; simpl.
  - exists None. split; auto.
  - destruct (H x (or_introl eq_refl)) as [b [E1 E2]]. rewrite E1. cbn [bind]. destruct b.
    + exists (Some x). split; auto. split; [left; auto|apply E2; auto].
    + destruct IH as [r [R1 R2]]; [intros; apply H; simpl; auto|]. exists r. split; auto. destruct r as [y|].
      * destruct R2. split; [right; auto|auto].
      * intros y [<-|Hy]; [intro K; apply E2 in K; discriminate|auto].
Qed.
Lemma loop_r_spec : forall (A : Type) (f : A -> result (option bool)) (P Q : A -> Prop) l,
  (forall x, In x l -> exists v, f x = Ok v /\ v <> Some false /\ (v = Some true -> P x) /\ (Q x -> v = Some true)) ->
  exists v, loop_r f l = Ok v /\ v <> Some false /\ (v = Some true -> exists x, In x l /\ P x) /\
    ((exists x, In x l /\ Q x) -> v = Some true).
Proof.
  intros A f P Q l. induction l as [|x l IH]; intro H; simpl.
  - exists None. split; auto. split; [discriminate|]. split; [discriminate|]. intros (x & [] & _).
  - destruct (H x (or_introl eq_refl)) as (v & E1 & E2 & E3 & E4). rewrite E1. cbn [bind].
    destruct v as [[|]|]; [|congruence|].
    + exists (Some true). split; auto. split; [discriminate|]. split; auto. intros _. exists x. split; [left; auto|auto].
    + destruct IH as (v & V1 & V2 & V3 & V4); [intros; apply H; simpl; auto|]. exists v. split; auto. split; auto. split.
      * intro K. destruct (V3 K) as (y & Y1 & Y2). exists y. split; [right; auto|auto].
      * intros (y & [<-|Hy] & K); [apply E4 in K; discriminate|eauto].
Qed.

(* ---- effective paths ---- *)
Lemma path_is_effective_iff : forall m E p, valid m -> (path_is_effective m E p = true <-> effective m E p).
Proof.
  intros m E p V. unfold path_is_effective, effective. rewrite forallb_forall. split.
  - intros H n Hn Dn. apply mem_In, H, filter_In. split; auto. apply mem_In, in_decisions; auto.
  - intros H n Hn. apply filter_In in Hn. destruct Hn as [H1 H2]. apply mem_In. apply H; auto.
    apply in_decisions; auto. apply mem_In; auto.
Qed.
Lemma effective_dir_path_exists_spec : forall m s t E, valid m -> In s (nodes (mgraph m)) -> In t (nodes (mgraph m)) ->
  exists b, effective_dir_path_exists m s t E = Ok b /\
    (b = true <-> exists p, directed_path (mgraph m) s t p /\ effective m E p).
Proof.
  intros m s t E V Hs Ht. unfold effective_dir_path_exists.
  destruct (find_all_dir_paths_spec (mgraph m) s t (proj1 V) Hs Ht) as (ps & P1 & _ & P2). rewrite P1. cbn [bind].
  eexists. split; [reflexivity|]. rewrite existsb_exists. split; intros (p & H1 & H2); exists p.
  - split; [apply P2; auto|apply path_is_effective_iff; auto].
  - split; [apply P2; auto|apply path_is_effective_iff; auto].
Qed.
Lemma not_through_spec : forall m s t E e, valid m -> In s (nodes (mgraph m)) -> In t (nodes (mgraph m)) ->
  exists b, effective_path_not_through m s t E [e] = Ok b /\
    (b = true <-> exists p, directed_path (mgraph m) s t p /\ effective m E p /\ ~ In e p).
Proof.
  intros m s t E e V Hs Ht. unfold effective_path_not_through.
  destruct (find_all_dir_paths_spec (mgraph m) s t (proj1 V) Hs Ht) as (ps & P1 & _ & P2). rewrite P1. cbn [bind].
  eexists. split; [reflexivity|]. rewrite existsb_exists.
  assert (K : forall p, negb (existsb (fun n => mem n [e]) p) = true <-> ~ In e p).
  { intro p. rewrite negb_true_iff. split.
    - intros H K. assert (existsb (fun n => mem n [e]) p = true); [|congruence].
      apply existsb_exists. exists e. split; auto. apply mem_In. simpl; auto.
    - intro H. destruct (existsb (fun n => mem n [e]) p) eqn:X; auto. apply existsb_exists in X. destruct X as (n & X1 & X2).
      apply mem_In in X2. destruct X2 as [->|[]]. contradiction. }
  split; intros (p & H1 & H2); exists p.
  - apply andb_true_iff in H2. rewrite K, (path_is_effective_iff m E p V) in H2. split; [apply P2; auto|tauto].
  - split; [apply P2; auto|]. apply andb_true_iff. rewrite K, (path_is_effective_iff m E p V). tauto.
Qed.

(* ---- the common head ---- *)
Lemma in_remove_first : forall x y l, NoDup l -> (In y (remove_first x l) <-> In y l /\ y <> x).
Proof.
  intros x y l. induction l as [|z l IH]; intro N; simpl; [tauto|]. inversion N; subst.
  destruct (String.eqb_spec x z) as [->|Hn]; simpl.
  - split; [intro; split; auto; intro; subst; auto|]. intros [[->|K] K2]; [congruence|auto].
  - rewrite IH by auto. split; [intros [->|[K1 K2]]; auto|]. intros [[->|K1] K2]; auto.
Qed.
Lemma owner_utils_spec : forall m e, valid m -> utilities_complete m -> is_decision m e ->
  exists us, owner_utils m e = Ok us /\ forall u, In u us <-> utility_of m e u.
Proof.
  intros m e V CU [b Hb]. assert (V' := V). destruct V' as (_ & G & _). assert (G' := G). apply good_consistent in G.
  assert (L := proj1 (good_listed_decision m b e G) Hb). unfold owner_utils, dict_get. rewrite L. cbn [bind].
  destruct (lookup b (agent_utilities m)) as [us|] eqn:Eu; [|exfalso; apply lookup_None_keys in Eu; apply Eu, (CU b e Hb)].
  exists us. split; auto. intro u. split.
  - intro Hu. exists b. split; auto. exists us. split; auto. apply lookup_In; auto.
  - intros (c & C1 & (l & L1 & L2)). assert (c = b) by (eapply role_unique_d; eauto). subst c.
    assert (lookup b (agent_utilities m) = Some l) by (apply In_lookup; auto; apply G'). congruence.
Qed.
Lemma decision_free_test : forall m s t, valid m -> In s (nodes (mgraph m)) -> In t (nodes (mgraph m)) ->
  exists b, directed_decision_free_path (mgraph m) (decisions m) s t = Ok b /\ (b = true <-> decision_free m s t).
Proof.
  intros m s t V Hs Ht. destruct (directed_decision_free_path_spec (mgraph m) (decisions m) s t (proj1 V) Hs Ht) as [b [E1 E2]].
  exists b. split; auto. rewrite E2. unfold decision_free. split; intros (p & P1 & P2); exists p; (split; [auto|]);
    intros x Hx K; apply (P2 x Hx); apply in_decisions; auto.
Qed.
Lemma utility_of_in : forall m d u, valid m -> utility_of m d u -> In u (nodes (mgraph m)).
Proof. intros m d u V (a & _ & H). apply is_utility_in; auto. exists a; auto. Qed.
Lemma utility_not_decision : forall m d u, valid m -> is_utility m u -> is_decision m d -> d <> u.
Proof. intros m d u V [a Ha] [b Hb] ->. eapply role_disjoint; eauto. Qed.
Lemma pattern_head_spec : forall m d E, valid m -> utilities_complete m -> is_decision m d -> incl E (nodes (mgraph m)) ->
  exists us rs, pattern_head m d E = Ok (us, rs) /\ (forall u, In u us <-> utility_of m d u) /\
    (forall e, In e rs <-> is_decision m e /\ e <> d /\ In e E /\ decision_free m d e).
Proof.
  intros m d E V CU Hd HE. destruct (owner_utils_spec m d V CU Hd) as (us & U1 & U2). unfold pattern_head.
  assert (X : existsb (fun n => negb (mem n (nodes (mgraph m)))) E = false).
  { destruct (existsb _ E) eqn:X; auto. apply existsb_exists in X. destruct X as (n & X1 & X2). apply HE in X1.
    apply mem_In in X1. rewrite X1 in X2. discriminate. }
  rewrite X. unfold owner_utils in U1. destruct (dict_get d (decision_agent m)) as [a|]; cbn [bind] in *; [|discriminate].
  rewrite U1. cbn [bind].
  assert (Nd : NoDup (decisions m)) by (unfold decisions; apply V).
  destruct (filter_r_spec node (fun e => if mem e E then directed_decision_free_path (mgraph m) (decisions m) d e else Ok false)
     (fun e => In e E /\ decision_free m d e) (remove_first d (decisions m))) as (rs & R1 & R2 & _).
  { intros e He. apply in_remove_first in He; auto. destruct He as [He1 He2]. apply in_decisions in He1; auto.
    destruct (mem_spec e E) as [M|M].
    - destruct (decision_free_test m d e V) as [b [B1 B2]]; [apply is_decision_in; auto|apply is_decision_in; auto|].
      exists b. split; auto. rewrite B2. tauto.
    - exists false. split; auto. split; [discriminate|tauto]. }
  rewrite R1. cbn [bind]. exists us, rs. split; auto. split; auto. intro e. rewrite R2, in_remove_first, in_decisions by auto. tauto.
Qed.

(* ---- direct effect, manipulation, revealing or denying ---- *)
Lemma direct_effect_spec : forall m d, valid m -> utilities_complete m -> is_decision m d ->
  exists b, direct_effect m d = Ok b /\ (b = true <-> has_direct_effect m d).
Proof.
  intros m d V CU Hd. destruct (owner_utils_spec m d V CU Hd) as (us & U1 & U2). unfold direct_effect.
  unfold owner_utils in U1. destruct (dict_get d (decision_agent m)) as [a|]; cbn [bind] in *; [|discriminate].
  rewrite U1. cbn [bind].
  destruct (any_r_spec node (directed_decision_free_path (mgraph m) (decisions m) d) (decision_free m d) us) as [b [B1 B2]].
  { intros u Hu. apply U2 in Hu. apply decision_free_test; auto; [apply is_decision_in; auto|eapply utility_of_in; eauto]. }
  exists b. split; auto. rewrite B2. split; intros (u & H1 & H2); exists u; split; auto; apply U2; auto.
Qed.
Lemma manipulation_spec : forall m d E, valid m -> utilities_complete m -> is_decision m d -> incl E (nodes (mgraph m)) ->
  exists b, manipulation m d E = Ok b /\ (b = true <-> manipulates m E d).
Proof.
  intros m d E V CU Hd HE. destruct (pattern_head_spec m d E V CU Hd HE) as (us & rs & H1 & H2 & H3).
  unfold manipulation. rewrite H1. cbn [bind fst snd].
  assert (Hdn : In d (nodes (mgraph m))) by (apply is_decision_in; auto).
  match goal with |- context [any_r ?f rs] => set (F := f) end.
  destruct (any_r_spec node F (fun e => exists u, In u us /\ (exists p, directed_path (mgraph m) e u p /\ effective m E p) /\
     exists v p, utility_of m e v /\ directed_path (mgraph m) d v p /\ effective m E p /\ ~ In e p) rs) as [b [B1 B2]].
  { intros e He. apply H3 in He. destruct He as (He & _). assert (Hen : In e (nodes (mgraph m))) by (apply is_decision_in; auto).
    destruct (owner_utils_spec m e V CU He) as (ubs & U1 & U2). unfold F. rewrite U1. cbn [bind].
    apply any_r_spec. intros u Hu. apply H2 in Hu.
    destruct (effective_dir_path_exists_spec m e u E V Hen) as [p [P1 P2]]; [eapply utility_of_in; eauto|].
    rewrite P1. cbn [bind]. destruct p; cbn [negb].
    - destruct (any_r_spec node (fun ub => effective_path_not_through m d ub E [e])
        (fun v => exists p, directed_path (mgraph m) d v p /\ effective m E p /\ ~ In e p) ubs) as [c [C1 C2]].
      { intros v Hv. apply not_through_spec; auto. apply U2 in Hv. eapply utility_of_in; eauto. }
      exists c. split; auto. rewrite C2. split.
      + intros (v & V1 & p & V2). split; [apply P2; auto|]. exists v, p. split; [apply U2; auto|auto].
      + intros (_ & v & p & V1 & V2). exists v. split; [apply U2; auto|]. exists p. auto.
    - exists false. split; auto. split; [discriminate|]. intros [K _]. apply P2 in K. discriminate. }
  exists b. split; [exact B1|]. rewrite B2. unfold manipulates, reaches_through. split.
  - intros (e & He & u & Hu & Hp & v & p & K). apply H3 in He. apply H2 in Hu. exists e, u, v, p. tauto.
  - intros (e & u & v & p & K & K2). exists e. split; [apply H3; tauto|]. exists u. split; [apply H2; tauto|]. split; [tauto|].
    exists v, p. tauto.
Qed.
Lemma cond_nodes_spec : forall m e d, valid m -> In e (nodes (mgraph m)) -> In d (nodes (mgraph m)) ->
  exists Z, MPatterns.cond_nodes m e (descendants (mgraph m) d) = Ok Z /\ blockers (mgraph m) e d Z /\ incl Z (nodes (mgraph m)).
Proof.
  intros m e d V He Hd. unfold MPatterns.cond_nodes, get_parents. rewrite (proj2 (mem_In _ _) He). cbn [bind].
  eexists. split; [reflexivity|].
  assert (B : blockers (mgraph m) e d (e :: filter (fun n => negb (mem n (descendants (mgraph m) d))) (parents (mgraph m) e))).
  { intro z. simpl. rewrite filter_In, in_parents, negb_true_iff, mem_nIn.
    rewrite descendants_iff by (auto; apply V). split; [intros [->|]; auto|intros [->|]; auto]. }
  split; auto. intros z Hz. apply B in Hz. destruct Hz as [->|[Hz _]]; auto. eapply wf_edge_l; [apply V|exact Hz].
Qed.
Lemma blockers_same : forall g e d Z Z', blockers g e d Z -> blockers g e d Z' -> forall z, In z Z <-> In z Z'.
Proof. intros g e d Z Z' H1 H2 z. rewrite (H1 z), (H2 z). tauto. Qed.
Lemma revealing_spec : forall o m d E, valid m -> utilities_complete m -> valid_order o -> is_decision m d -> incl E (nodes (mgraph m)) ->
  exists b, revealing_or_denying o m d E = Ok b /\ (b = true <-> reveals m E d).
Proof.
  intros o m d E V CU O Hd HE. destruct (pattern_head_spec m d E V CU Hd HE) as (us & rs & H1 & H2 & H3).
  unfold revealing_or_denying. rewrite H1. cbn [bind fst snd].
  assert (Hdn : In d (nodes (mgraph m))) by (apply is_decision_in; auto).
  unfold nx_descendants. rewrite (proj2 (mem_In _ _) Hdn). cbn [bind].
  match goal with |- context [any_r ?f rs] => set (F := f) end.
  destruct (any_r_spec node F (fun e => exists u, In u us /\ (exists p, directed_path (mgraph m) e u p /\ effective m E p) /\
     exists v p Z, utility_of m e v /\ blockers (mgraph m) e d Z /\ frontdoor_indirect_path (mgraph m) Z d v p) rs) as [b [B1 B2]].
  { intros e He. apply H3 in He. destruct He as (He & _). assert (Hen : In e (nodes (mgraph m))) by (apply is_decision_in; auto).
    destruct (owner_utils_spec m e V CU He) as (ubs & U1 & U2). unfold F. rewrite U1. cbn [bind].
    apply any_r_spec. intros u Hu. apply H2 in Hu.
    destruct (effective_dir_path_exists_spec m e u E V Hen) as [p [P1 P2]]; [eapply utility_of_in; eauto|].
    rewrite P1. cbn [bind]. destruct p; cbn [negb].
    - destruct (cond_nodes_spec m e d V Hen Hdn) as (Z & Z1 & Z2 & Z3).
      match goal with |- context [any_r ?f ubs] => set (F2 := f) end.
      destruct (any_r_spec node F2 (fun v => exists p, frontdoor_indirect_path (mgraph m) Z d v p) ubs) as [c [C1 C2]].
      { intros v Hv. apply U2 in Hv. unfold F2. rewrite Z1. cbn [bind].
        apply is_active_indirect_frontdoor_trail_spec; auto; [apply V| |eapply utility_of_in; eauto].
        eapply utility_not_decision; eauto. destruct Hv as (a & _ & Hv). exists a; auto. }
      exists c. split; auto. rewrite C2. split.
      + intros (v & V1 & p & V2). split; [apply P2; auto|]. exists v, p, Z. split; [apply U2; auto|auto].
      + intros (_ & v & p & Z' & V1 & V2 & V3). exists v. split; [apply U2; auto|]. exists p.
        destruct V3 as (Q1 & Q2 & Q3). split; auto. split; auto. eapply active_ext; [|exact Q2]. eapply blockers_same; eauto.
    - exists false. split; auto. split; [discriminate|]. intros [K _]. apply P2 in K. discriminate. }
  exists b. split; [exact B1|]. rewrite B2. unfold reveals, reaches_through. split.
  - intros (e & He & u & Hu & Hp & v & p & Z & K). apply H3 in He. apply H2 in Hu. exists e, u, v, p, Z. tauto.
  - intros (e & u & v & p & Z & K & K2). exists e. split; [apply H3; tauto|]. exists u. split; [apply H2; tauto|]. split; [tauto|].
    exists v, p, Z. tauto.
Qed.

(* ---- the key node ---- *)
Lemma key_loop_spec : forall g pre a b post, wf_dag g ->
  chain (adjacent g) (pre ++ a :: b :: post) -> NoDup (pre ++ a :: b :: post) -> incl (pre ++ a :: b :: post) (nodes g) ->
  (forall l x y z r, pre ++ a :: b :: post = l ++ x :: y :: z :: r -> length l < length pre -> ~ motif_of g x y z Fork) ->
  match key_node_loop g (pre ++ a :: b :: post) (removelast (b :: post)) with
  | Ok c => first_fork g (pre ++ a :: b :: post) c
  | Err e => e = ValueError /\ forall l x y z r, pre ++ a :: b :: post = l ++ x :: y :: z :: r -> ~ motif_of g x y z Fork
  end.
Proof.
  intros g pre a b post Hd. assert (Ha : acyclic g) by apply Hd. revert pre a b.
  induction post as [|c post IH]; intros pre a b Hc Hnd Hi Hpre.
  - simpl. split; auto. intros l x y z r E. apply (Hpre l x y z r E).
    assert (L := f_equal (@length node) E). rewrite !app_length in L. simpl in L. lia.
  - change (removelast (b :: c :: post)) with (b :: removelast (c :: post)).
    assert (Hib : index_of b (pre ++ a :: b :: c :: post) = Some (S (length pre))).
    { replace (pre ++ a :: b :: c :: post) with ((pre ++ [a]) ++ b :: c :: post) in * by (rewrite <- app_assoc; auto).
      rewrite index_of_app; [rewrite app_length; simpl; f_equal; lia|].
      apply NoDup_remove_2 in Hnd. intro Hx. apply Hnd. apply in_or_app; auto. }
    cbn [key_node_loop]. rewrite Hib.
    assert (Hab : adjacent g a b /\ adjacent g b c) by (eapply triple_adj; eauto; exists pre, post; auto).
    destruct Hab as [Hab Hbc].
    destruct (get_motif_mid g pre a b c post Ha Hi Hab Hbc) as [m [Hm1 Hm2]].
    rewrite Hm1. cbn [bind].
    assert (Eq : pre ++ a :: b :: c :: post = (pre ++ [a]) ++ b :: c :: post) by (rewrite <- app_assoc; auto).
    assert (Next : m <> Fork -> forall l x y z r, pre ++ a :: b :: c :: post = l ++ x :: y :: z :: r -> length l < length (pre ++ [a]) -> ~ motif_of g x y z Fork).
    { intros Hm l x y z r E L. rewrite app_length in L. simpl in L.
      destruct (Nat.eq_dec (length l) (length pre)) as [El|El]; [|apply (Hpre l x y z r E); lia].
      assert (T : l = pre /\ x :: y :: z :: r = a :: b :: c :: post).
      { clear - E El. revert pre E El. induction l as [|w l IHl]; intros [|w' pre] E El; simpl in *; try discriminate; auto.
        injection E as <- E. injection El as El. destruct (IHl pre E El) as [-> ->]. auto. }
      destruct T as [-> T]. injection T as -> -> -> ->. intro K. apply Hm. eapply motif_of_fun; eauto. }
    specialize (IH (pre ++ [a]) b c). rewrite <- Eq in IH.
    destruct m; try (apply IH; auto; apply Next; discriminate).
    exists pre, a, c, post. split; auto.
Qed.
Lemma get_key_node_spec : forall g p s t, wf_dag g -> simple_path g s t p -> incl p (nodes g) ->
  match get_key_node g p with
  | Ok c => first_fork g p c
  | Err e => e = ValueError /\ forall l x y z r, p = l ++ x :: y :: z :: r -> ~ motif_of g x y z Fork
  end.
Proof.
  intros g p s t W (H1 & H2 & H3) Hi. unfold get_key_node, interior. destruct p as [|a [|b post]].
  - inversion H1.
  - simpl. split; auto. intros [|? [|? l]] x y z r E; discriminate.
  - apply (key_loop_spec g [] a b post); auto. intros l x y z r _ L. simpl in L. lia.
Qed.
Lemma first_fork_fun : forall g p c c', first_fork g p c -> first_fork g p c' -> c = c'.
Proof.
  intros g p c c' (l & a & b & r & E & F & N) (l' & a' & b' & r' & E' & F' & N').
  destruct (Nat.lt_trichotomy (length l) (length l')) as [L|[L|L]].
  - exfalso. exact (N' _ _ _ _ _ E L F).
  - assert (T : l = l' /\ a :: c :: b :: r = a' :: c' :: b' :: r').
    { rewrite E in E'. clear - E' L. revert l' E' L. induction l as [|w l IHl]; intros [|w' l'] E' L; simpl in *; try discriminate; auto.
      injection E' as <- E'. injection L as L. destruct (IHl l' E' L) as [-> ->]. auto. }
    destruct T as [_ T]. congruence.
  - exfalso. exact (N _ _ _ _ _ E' L F').
Qed.
(* a path that starts backwards and ends in a node without children has a fork *)
Lemma backward_fork : forall g r a b t, chain (adjacent g) (a :: b :: r) -> edge g b a -> hd_error (rev (a :: b :: r)) = Some t ->
  (forall x, ~ edge g t x) -> exists l x y z r', a :: b :: r = l ++ x :: y :: z :: r' /\ motif_of g x y z Fork.
Proof.
  intros g r. induction r as [|c r IH]; intros a b t Hc He Ht Hl.
  - simpl in Ht. inversion Ht; subst. exfalso. apply (Hl a); auto.
  - inversion Hc as [|? ? ? _ Hc']; subst. inversion Hc' as [|? ? ? Hbc _]; subst. destruct Hbc as [Hbc|Hbc].
    + exists [], a, b, c, r. split; auto. split; auto.
    + destruct (IH b c t Hc' Hbc) as (l & x & y & z & r' & E & F); auto.
      { change (rev (a :: b :: c :: r)) with (rev (b :: c :: r) ++ [a]) in Ht.
        destruct (rev (b :: c :: r)) eqn:R; [|exact Ht].
        apply (f_equal (@length node)) in R. rewrite rev_length in R. discriminate. }
      exists (a :: l), x, y, z, r'. rewrite E. auto.
Qed.
(* an undirected simple path from a decision to another node has two nodes at least *)
Lemma simple_two : forall g s t p, simple_path g s t p -> s <> t -> exists b r, p = s :: b :: r.
Proof.
  intros g s t p (_ & _ & F) Hn. destruct (from_to_cons_inv _ _ _ F) as [q ->]. destruct q as [|b r]; eauto.
  destruct F as [_ F]. simpl in F. congruence.
Qed.

(* ---- signaling ---- *)
Lemma backdoor_search_spec : forall o m d v E Z, valid m -> valid_order o -> In d (nodes (mgraph m)) -> In v (nodes (mgraph m)) -> d <> v ->
  incl Z (nodes (mgraph m)) ->
  exists r, effective_backdoor_path o m d v E Z = Ok r /\
    match r with Some p => backdoor_path (mgraph m) Z d v p /\ effective m E p
               | None => forall p, backdoor_path (mgraph m) Z d v p -> ~ effective m E p end.
Proof.
  intros o m d v E Z V O Hd Hv Hdv HZ. unfold effective_backdoor_path.
  destruct (find_all_undir_paths_spec o (mgraph m) d v O (proj1 (proj1 V)) Hd Hv) as (ps & P1 & _ & P2).
  rewrite P1. cbn [bind].
  match goal with |- context [first_r ?f ps] => set (F := f) end.
  destruct (first_r_spec _ F (fun p => backdoor_path (mgraph m) Z d v p /\ effective m E p) ps) as [r [R1 R2]].
  { intros p Hp. apply P2 in Hp. destruct (simple_two _ _ _ _ Hp Hdv) as (b & q & Ep). unfold F. rewrite Ep.
    unfold get_parents. rewrite (proj2 (mem_In _ _) Hd). cbn [bind]. rewrite <- Ep.
    destruct (active_test (mgraph m) Z (proj1 V) HZ d v p Hd Hp) as [c [C1 C2]]. rewrite C1. cbn [bind].
    eexists. split; [reflexivity|]. rewrite !andb_true_iff, mem_In, in_parents, C2, (path_is_effective_iff m E p V).
    unfold backdoor_path. split.
    - intros [[K1 K2] K3]. split; auto. split; auto. split; auto. exists b, q. auto.
    - intros [(K1 & K2 & b' & q' & K3 & K4) K5]. rewrite Ep in K3. injection K3 as <- <-. auto. }
  exists r. split; auto. destruct r as [p|].
  - tauto.
  - intros p K1 K2. apply (R2 p); [apply P2; apply K1|auto].
Qed.
Lemma undir_search_spec : forall o m c u E Z, valid m -> valid_order o -> In c (nodes (mgraph m)) -> In u (nodes (mgraph m)) ->
  incl Z (nodes (mgraph m)) ->
  exists r, effective_undir_path o m c u E Z = Ok r /\
    (r <> None <-> exists q, simple_path (mgraph m) c u q /\ active (mgraph m) Z q /\ effective m E q).
Proof.
  intros o m c u E Z V O Hc Hu HZ. unfold effective_undir_path.
  destruct (find_all_undir_paths_spec o (mgraph m) c u O (proj1 (proj1 V)) Hc Hu) as (ps & P1 & _ & P2).
  rewrite P1. cbn [bind].
  match goal with |- context [first_r ?f ps] => set (F := f) end.
  destruct (first_r_spec _ F (fun p => active (mgraph m) Z p /\ effective m E p) ps) as [r [R1 R2]].
  { intros p Hp. apply P2 in Hp. unfold F.
    destruct (active_test (mgraph m) Z (proj1 V) HZ c u p Hc Hp) as [b [C1 C2]]. rewrite C1. cbn [bind].
    eexists. split; [reflexivity|]. rewrite andb_true_iff, C2, (path_is_effective_iff m E p V). tauto. }
  exists r. split; auto. destruct r as [p|].
  - split; [|discriminate]. intros _. exists p. split; [apply P2|]; tauto.
  - split; [congruence|]. intros (q & Q1 & Q2 & Q3). exfalso. apply (R2 q); auto. apply P2; auto.
Qed.
Lemma signaling_spec : forall o m d E, valid m -> utilities_complete m -> valid_order o -> is_decision m d -> incl E (nodes (mgraph m)) ->
  leaf_utilities m -> ~ In EmptyString (nodes (mgraph m)) ->
  exists b, signaling o m d E = Ok b /\ (b = true -> signals m E d) /\ (signals_always m E d -> b = true).
Proof.
  intros o m d E V CU O Hd HE Leaf Ne. destruct (pattern_head_spec m d E V CU Hd HE) as (us & rs & H1 & H2 & H3).
  unfold signaling. rewrite H1. cbn [bind fst snd].
  assert (Hdn : In d (nodes (mgraph m))) by (apply is_decision_in; auto).
  unfold nx_descendants at 1. rewrite (proj2 (mem_In _ _) Hdn). cbn [bind].
  match goal with |- context [loop_r ?f rs] => set (F := f) end.
  set (one := fun e u v (Q : Prop) => utility_of m e v /\ (exists p, directed_path (mgraph m) e u p /\ effective m E p) /\ Q).
  destruct (loop_r_spec node F
    (fun e => exists u, In u us /\ exists v, one e u v (exists p c, opens m E d e v p /\ first_fork (mgraph m) p c /\ informs m E d c u))
    (fun e => exists u, In u us /\ exists v, one e u v ((exists p, opens m E d e v p) /\
        forall p c, opens m E d e v p -> first_fork (mgraph m) p c -> informs m E d c u)) rs) as (v & V1 & V2 & V3 & V4).
  { intros e He. apply H3 in He. destruct He as (He & _). assert (Hen : In e (nodes (mgraph m))) by (apply is_decision_in; auto).
    destruct (owner_utils_spec m e V CU He) as (ubs & U1 & U2). unfold F. rewrite U1. cbn [bind].
    apply loop_r_spec. intros u Hu. apply H2 in Hu. assert (Hun := utility_of_in _ _ _ V Hu).
    destruct (effective_dir_path_exists_spec m e u E V Hen Hun) as [p [P1 P2]].
    rewrite P1. cbn [bind]. destruct p; cbn [negb].
    2:{ exists None. split; auto. split; [discriminate|]. split; [discriminate|].
        intros (v & _ & K & _). apply P2 in K. discriminate. }
    destruct (cond_nodes_spec m e d V Hen Hdn) as (Z & Z1 & Z2 & Z3).
    match goal with |- context [loop_r ?f ubs] => set (F2 := f) end.
    destruct (loop_r_spec node F2
      (fun v => exists p c, opens m E d e v p /\ first_fork (mgraph m) p c /\ informs m E d c u)
      (fun v => (exists p, opens m E d e v p) /\ forall p c, opens m E d e v p -> first_fork (mgraph m) p c -> informs m E d c u) ubs)
      as (w & W1 & W2 & W3 & W4).
    { intros v Hv. apply U2 in Hv. assert (Hvn := utility_of_in _ _ _ V Hv).
      assert (Uv : is_utility m v) by (destruct Hv as (a & _ & Hv); exists a; auto).
      assert (Dv : d <> v) by (eapply utility_not_decision; eauto).
      unfold F2. rewrite Z1. cbn [bind].
      destruct (backdoor_search_spec o m d v E Z V O Hdn Hvn Dv Z3) as (r & R1 & R2). rewrite R1. cbn [bind].
      destruct r as [p|].
      2:{ exists None. split; auto. split; [discriminate|]. split; [discriminate|].
          intros [(p & Ep & Z' & Z2' & Bp) _]. exfalso. apply (R2 p); auto.
          destruct Bp as (B1 & B2 & B3). split; auto. split; auto. eapply active_ext; [|exact B2]. eapply blockers_same; eauto. }
      destruct R2 as [Bp Ep]. assert (Op : opens m E d e v p) by (split; auto; exists Z; auto).
      assert (Sp : simple_path (mgraph m) d v p) by apply Bp.
      assert (Ip : incl p (nodes (mgraph m))) by (eapply path_in_nodes; [apply V|exact Hdn|exact Sp]).
      assert (K := get_key_node_spec (mgraph m) p d v (proj1 V) Sp Ip).
      destruct (get_key_node (mgraph m) p) as [c|er].
      2:{ exfalso. destruct K as [_ K]. destruct Bp as ((S1 & S2 & S3 & S4) & _ & x & q & -> & Exd).
          destruct (backward_fork (mgraph m) q d x v S1 Exd S4) as (l & a1 & a2 & a3 & r' & E1 & E2).
          - intro y. apply Leaf; auto.
          - exact (K l a1 a2 a3 r' E1 E2). }
      cbn [bind].
      assert (Hc : In c (nodes (mgraph m))).
      { destruct K as (l & a1 & b1 & r1 & -> & _). apply Ip. apply in_or_app. simpl; auto. }
      destruct (String.eqb_spec c EmptyString) as [->|_]; [contradiction|].
      unfold nx_descendants. rewrite (proj2 (mem_In _ _) Hc). cbn [bind].
      destruct (cond_nodes_spec m d c V Hdn Hc) as (Y & Y1 & Y2 & Y3). rewrite Y1. cbn [bind].
      destruct (undir_search_spec o m c u E Y V O Hc Hun Y3) as (r & R1' & R2). rewrite R1'. cbn [bind].
      assert (Inf : r <> None <-> informs m E d c u).
      { rewrite R2. split.
        - intros (q & Q1 & Q2 & Q3). exists Y, q. auto.
        - intros (Y' & q & Q0 & Q1 & Q2 & Q3). exists q. split; auto. split; auto. eapply active_ext; [|exact Q2]. eapply blockers_same; eauto. }
      destruct r as [q|].
      - exists (Some true). split; auto. split; [discriminate|]. split; auto. intros _. exists p, c. split; [auto|]. split; [auto|].
        apply Inf. discriminate.
      - exists None. split; auto. split; [discriminate|]. split; [discriminate|]. intros [_ G].
        assert (informs m E d c u) by (eapply G; eauto). apply Inf in H. congruence. }
    exists w. split; auto. split; auto. split.
    - intro K. destruct (W3 K) as (v & X1 & X2). exists v. split; [apply U2; auto|]. split; [apply P2; auto|auto].
    - intros (v & X1 & X2 & X3). apply W4. exists v. split; [apply U2; auto|auto]. }
  rewrite V1. cbn [bind]. eexists. split; [reflexivity|]. split.
  - intro K. destruct v as [[|]|]; try discriminate. destruct (V3 eq_refl) as (e & He & u & Hu & v & O1 & O2 & p & c & O3 & O4 & O5).
    apply H3 in He. apply H2 in Hu. exists e, u, v, p, c. unfold reaches_through. tauto.
  - intros (e & u & w & R & R2 & R3 & R4). destruct R as (X1 & X2 & X3 & X4 & X5 & X6).
    rewrite V4; auto. exists e. split; [apply H3; auto|]. exists u. split; [apply H2; auto|].
    exists w. split; auto.
Qed.

(* ---- monotonicity in the effective set ---- *)
Lemma effective_mono : forall m E F p, incl E F -> effective m E p -> effective m F p.
Proof. intros m E F p HI H n Hn Dn. apply HI. apply H; auto. Qed.
Lemma reaches_mono : forall m E F d e u, incl E F -> reaches_through m E d e u -> reaches_through m F d e u.
Proof.
  intros m E F d e u HI (H1 & H2 & H3 & H4 & H5 & p & H6 & H7).
  split; auto. split; auto. split; auto. split; auto. split; auto. exists p. split; auto. eapply effective_mono; eauto.
Qed.
Lemma manipulates_mono : forall m E F d, incl E F -> manipulates m E d -> manipulates m F d.
Proof.
  intros m E F d HI (e & u & v & p & H1 & H2 & H3 & H4 & H5). exists e, u, v, p.
  split; [eapply reaches_mono; eauto|]. split; auto. split; auto. split; auto. eapply effective_mono; eauto.
Qed.
Lemma reveals_mono : forall m E F d, incl E F -> reveals m E d -> reveals m F d.
Proof.
  intros m E F d HI (e & u & v & p & Z & H1 & H2). exists e, u, v, p, Z. split; auto. eapply reaches_mono; eauto.
Qed.
Lemma signals_mono : forall m E F d, incl E F -> signals m E d -> signals m F d.
Proof.
  intros m E F d HI (e & u & v & p & c & H1 & H2 & (H3 & H3') & H4 & Z & q & H5 & H6 & H7 & H8). exists e, u, v, p, c.
  split; [eapply reaches_mono; eauto|]. split; auto. split; [split; auto; eapply effective_mono; eauto|]. split; auto.
  exists Z, q. split; auto. split; auto. split; auto. eapply effective_mono; eauto.
Qed.

(* ---- the deletion loop ---- *)
Section Loop.
  Variables (o : order) (m : macid).
  Hypothesis V : valid m.
  Hypothesis CU : utilities_complete m.
  Hypothesis O : valid_order o.
  Hypothesis SG : forall E d, incl E (decisions m) -> is_decision m d -> exists b, signaling o m d E = Ok b.
  Lemma decisions_nodes : forall E, incl E (decisions m) -> incl E (nodes (mgraph m)).
  Proof. intros E HE x Hx. apply is_decision_in; auto. apply in_decisions; auto. Qed.
  Lemma motivated_spec : forall E d, incl E (decisions m) -> is_decision m d ->
    exists b, motivated o m E d = Ok b /\
      (b = true <-> has_direct_effect m d \/ manipulates m E d \/ signaling o m d E = Ok true \/ reveals m E d).
  Proof.
    intros E d HE Hd. assert (HN := decisions_nodes E HE).
    destruct (direct_effect_spec m d V CU Hd) as [b1 [B1 C1]].
    destruct (manipulation_spec m d E V CU Hd HN) as [b2 [B2 C2]].
    destruct (SG E d HE Hd) as [b3 B3].
    destruct (revealing_spec o m d E V CU O Hd HN) as [b4 [B4 C4]].
    unfold motivated, or_r. rewrite B1, B2, B3, B4. cbn [bind].
    destruct b1; [exists true; tauto|]. destruct b2; [exists true; tauto|].
    destruct b3; [exists true; tauto|]. exists b4. split; auto.
    rewrite C4. intuition congruence.
  Qed.
  Lemma effective_loop_spec : forall (strong : list node -> node -> Prop),
    (forall E F d, incl E F -> incl F (decisions m) -> is_decision m d -> strong E d -> strong F d) ->
    (forall E d, incl E (decisions m) -> is_decision m d -> strong E d -> motivated o m E d = Ok true) ->
    forall fuel E, NoDup E -> incl E (decisions m) -> length E < fuel ->
    exists F, effective_loop o m fuel E = Ok F /\ NoDup F /\ incl F E /\
      (forall d, In d F -> motivated o m F d = Ok true) /\
      (forall d, In d E -> strong F d -> In d F).
  Proof.
    intros strong S1 S2 fuel. induction fuel as [|fuel IH]; intros E N I L; [lia|].
    simpl. assert (Pm : Permutation (o E E) E) by apply O.
    destruct (filter_r_exact (motivated o m E) (o E E)) as (E' & R1 & R2 & R3).
    { intros x Hx. apply (Permutation_in _ Pm) in Hx. destruct (motivated_spec E x) as [b [B _]]; eauto. apply in_decisions; auto. }
    { apply (Permutation_NoDup (Permutation_sym Pm)); auto. }
    rewrite R1. cbn [bind].
    assert (I' : incl E' E) by (intros x Hx; apply R3 in Hx; apply (Permutation_in _ Pm); tauto).
    assert (Lle := NoDup_incl_length R2 I').
    destruct (Nat.eqb_spec (length E') (length E)) as [El|El].
    - exists E. split; auto. split; auto. split; [apply incl_refl|]. split; auto.
      intros d Hd. assert (incl E E') by (apply NoDup_length_incl; auto; lia). apply R3; auto.
    - destruct (IH E' R2) as (F & F1 & F2 & F3 & F4 & F5); [eapply incl_tran; eauto|lia|].
      exists F. split; auto. split; auto. split; [eapply incl_tran; eauto|]. split; auto.
      intros d Hd Sd. apply F5; auto. apply R3. split; [apply (Permutation_in _ (Permutation_sym Pm)); auto|].
      assert (is_decision m d) by (apply in_decisions; auto).
      apply S2; auto. apply (S1 F); auto. eapply incl_tran; eauto.
  Qed.
  Lemma classify_spec : forall f l, NoDup l -> (forall d, In d l -> exists p, f d = Ok p) ->
    exists r, classify f l = Ok r /\ NoDup (map snd r) /\ forall p d, In (p, d) r <-> In d l /\ f d = Ok (Some p).
  Proof.
    intros f l. induction l as [|d l IH]; intros N H; simpl.
    - exists []. split; auto. split; [constructor|]. simpl. tauto.
    - inversion N as [|? ? N1 N2]; subst. destruct (H d (or_introl eq_refl)) as [p E]. rewrite E. cbn [bind].
      destruct IH as (r & R1 & R2 & R3); [auto|intros; apply H; simpl; auto|]. rewrite R1. cbn [bind].
      eexists. split; [reflexivity|]. destruct p as [p|].
      + split.
        * simpl. constructor; auto. intro K. apply in_map_iff in K. destruct K as ([q x] & K1 & K2). simpl in K1. subst x.
          apply R3 in K2. tauto.
        * intros q x. simpl. rewrite R3. split.
          -- intros [K|K]; [injection K as <- <-; auto|tauto].
          -- intros [[<-|K1] K2]; [left; congruence|right; auto].
      + split; auto. intros q x. rewrite R3. simpl. split; [tauto|]. intros [[<-|K1] K2]; [congruence|auto].
  Qed.
  Definition first_pattern (E : list node) (d : node) (p : pattern) : Prop :=
    match p with
    | DirEffect => has_direct_effect m d
    | Sig => ~ has_direct_effect m d /\ signaling o m d E = Ok true
    | Manip => ~ has_direct_effect m d /\ signaling o m d E = Ok false /\ manipulates m E d
    | RevDen => ~ has_direct_effect m d /\ signaling o m d E = Ok false /\ ~ manipulates m E d /\ reveals m E d
    end.
  Lemma pattern_of_spec : forall E d, incl E (decisions m) -> is_decision m d ->
    exists r, pattern_of o m E d = Ok r /\ (forall p, r = Some p <-> first_pattern E d p) /\
      (r = None -> motivated o m E d = Ok false).
  Proof.
    intros E d HE Hd. assert (HN := decisions_nodes E HE).
    destruct (direct_effect_spec m d V CU Hd) as [b1 [B1 C1]].
    destruct (manipulation_spec m d E V CU Hd HN) as [b2 [B2 C2]].
    destruct (SG E d HE Hd) as [b3 B3].
    destruct (revealing_spec o m d E V CU O Hd HN) as [b4 [B4 C4]].
    unfold pattern_of, motivated, or_r. rewrite B1, B2, B3, B4. cbn [bind].
    destruct b1.
    { eexists. split; [reflexivity|]. split; [|discriminate]. intro p. unfold first_pattern.
      assert (has_direct_effect m d) by tauto. destruct p; split; intro; try discriminate; try tauto. }
    assert (~ has_direct_effect m d) by (intro K; apply C1 in K; discriminate).
    destruct b3; cbn [bind].
    { eexists. split; [reflexivity|]. split; [|discriminate]. intro p. unfold first_pattern. rewrite B3.
      destruct p; split; intro K; try discriminate; try tauto; intuition congruence. }
    destruct b2; cbn [bind].
    { eexists. split; [reflexivity|]. split; [|discriminate]. intro p. unfold first_pattern. rewrite B3.
      destruct p; split; intro K; try discriminate; try tauto; intuition congruence. }
    assert (~ manipulates m E d) by (intro K; apply C2 in K; discriminate).
    destruct b4.
    { eexists. split; [reflexivity|]. split; [|discriminate]. intro p. unfold first_pattern. rewrite B3.
      destruct p; split; intro K; try discriminate; try tauto; intuition congruence. }
    assert (~ reveals m E d) by (intro K; apply C4 in K; discriminate).
    eexists. split; [reflexivity|]. split; [|auto]. intro p. unfold first_pattern. rewrite B3.
    destruct p; split; intro K; try discriminate; try tauto; intuition congruence.
  Qed.
  Lemma get_patterns_spec : forall (strong : list node -> node -> Prop),
    (forall E F d, incl E F -> incl F (decisions m) -> is_decision m d -> strong E d -> strong F d) ->
    (forall E d, incl E (decisions m) -> is_decision m d -> strong E d -> motivated o m E d = Ok true) ->
    exists r E, get_reasoning_patterns o m = Ok r /\ NoDup (map snd r) /\
      (forall d, In d E <-> In d (map snd r)) /\ (forall d, In d E -> is_decision m d) /\
      (forall p d, In (p, d) r <-> In d E /\ first_pattern E d p) /\
      (forall d, In d E -> motivated o m E d = Ok true) /\
      (forall d, is_decision m d -> strong E d -> In d E).
  Proof.
    intros strong S1 S2. unfold get_reasoning_patterns.
    destruct (effective_loop_spec strong S1 S2 (S (length (decisions m))) (decisions m)) as (E & E1 & E2 & E3 & E4 & E5).
    { unfold decisions. apply V. } { apply incl_refl. } { lia. }
    rewrite E1. cbn [bind]. assert (Pm : Permutation (o E E) E) by apply O.
    destruct (classify_spec (pattern_of o m E) (o E E)) as (r & R1 & R2 & R3).
    { apply (Permutation_NoDup (Permutation_sym Pm)); auto. }
    { intros d Hd. apply (Permutation_in _ Pm) in Hd. destruct (pattern_of_spec E d E3) as (p & P1 & _); eauto. apply in_decisions; auto. }
    assert (Ds : forall d, In d E -> is_decision m d) by (intros d Hd; apply in_decisions; auto).
    assert (R4 : forall p d, In (p, d) r <-> In d E /\ first_pattern E d p).
    { intros p d. rewrite R3. split; intros [H1 H2].
      - apply (Permutation_in _ Pm) in H1. split; auto. destruct (pattern_of_spec E d E3 (Ds d H1)) as (q & P1 & P2 & _).
        apply P2. congruence.
      - split; [apply (Permutation_in _ (Permutation_sym Pm)); auto|]. destruct (pattern_of_spec E d E3 (Ds d H1)) as (q & P1 & P2 & _).
        apply P2 in H2. congruence. }
    exists r, E. split; auto. split; auto. split; [|split; [auto|split; [auto|split; auto]]].
    - intro d. rewrite in_map_iff. split.
      + intro Hd. destruct (pattern_of_spec E d E3 (Ds d Hd)) as (q & P1 & P2 & P3). destruct q as [q|].
        * exists (q, d). split; auto. apply R4. split; auto. apply P2; auto.
        * specialize (P3 eq_refl). specialize (E4 d Hd). congruence.
      + intros ([p x] & <- & K). apply R4 in K. tauto.
    - intros d Hd Sd. apply E5; auto. apply in_decisions; auto.
  Qed.
End Loop.
