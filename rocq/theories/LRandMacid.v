(* Lemmas about random diagrams. *)
From Coq Require Import String Ascii List Bool Arith ZArith QArith Lia Permutation DecimalString.
Import ListNotations.
From Verif Require Import MBase MGraph MPaths MMacid MRandDag MRandMacid Spec SpecM SpecQ SpecRand LBase LGraph LCopy LRoles LMech LReach LOptDec LOptimal LRandDag PMacid PRandDag PPaths LBayes.
Local Open Scope string_scope.
Local Open Scope list_scope.
Local Open Scope nat_scope.

(* ---- names ---- *)
Fixpoint has_char (c : ascii) (s : string) : bool := match s with EmptyString => false | String a s' => Ascii.eqb c a || has_char c s' end.
Lemma has_char_app : forall c s t, has_char c (s ++ t)%string = has_char c s || has_char c t.
Proof. intros c s t. induction s as [|a s IH]; cbn; auto. rewrite IH, orb_assoc. reflexivity. Qed.
Definition digit (c : ascii) : bool := existsb (Ascii.eqb c) ["0"; "1"; "2"; "3"; "4"; "5"; "6"; "7"; "8"; "9"]%char.
Lemma str_of_digits : forall c i, digit c = false -> has_char c (str_of i) = false.
Proof.
  intros c i H. unfold digit in H. cbn [existsb] in H. repeat (apply orb_false_iff in H; let K := fresh "K" in destruct H as [K H]).
  assert (G : forall d, has_char c (NilEmpty.string_of_uint d) = false) by (induction d; cbn; auto; rewrite IHd, orb_false_r; auto).
  unfold str_of, NilZero.string_of_uint. destruct (Nat.to_uint i); try apply (G (_ : Decimal.uint)); cbn; rewrite ?orb_false_r; auto; try (rewrite G, orb_false_r; auto).
Qed.
Lemma sep_inj : forall s s' t t', has_char "_" s = false -> has_char "_" s' = false -> (s ++ "_" ++ t = s' ++ "_" ++ t')%string -> s = s' /\ t = t'.
Proof.
  induction s as [|a s IH]; intros s' t t' H H' E; destruct s' as [|a' s']; cbn [String.append] in E.
  - injection E as E. auto.
  - injection E as <- E. cbn in H'. discriminate.
  - injection E as -> E. cbn in H. discriminate.
  - injection E as <- E. cbn [has_char] in H, H'. apply orb_false_iff in H, H'. destruct (IH s' t t') as [-> ->]; tauto.
Qed.
Lemma uname_inj : forall i j i' j', uname i j = uname i' j' -> i = i' /\ j = j'.
Proof. intros i j i' j' H. unfold uname in H. cbn [String.append] in H. injection H as H. apply sep_inj in H; try (apply str_of_digits; reflexivity). destruct H as [H1 H2]. split; apply str_of_inj; auto. Qed.
Lemma dname_inj : forall i j i' j', dname i j = dname i' j' -> i = i' /\ j = j'.
Proof. intros i j i' j' H. unfold dname in H. cbn [String.append] in H. injection H as H. apply sep_inj in H; try (apply str_of_digits; reflexivity). destruct H as [H1 H2]. split; apply str_of_inj; auto. Qed.
Lemma cname_inj : forall j j', cname j = cname j' -> j = j'.
Proof. intros j j' H. unfold cname in H. cbn [String.append] in H. injection H as H. apply str_of_inj; auto. Qed.
Definition bare_name (x : node) : Prop := has_char "c" x = false /\ exists c s, x = String c s /\ c <> "m"%char.
Definition plain_name (x : node) : Prop := bare_name x /\ has_char "_" x = true.
Lemma uname_plain : forall i j, plain_name (uname i j).
Proof. intros i j. split; [split; [|eexists _, _; split; [reflexivity|discriminate]]|]; unfold uname; rewrite !has_char_app, !str_of_digits by reflexivity; reflexivity. Qed.
Lemma dname_plain : forall i j, plain_name (dname i j).
Proof. intros i j. split; [split; [|eexists _, _; split; [reflexivity|discriminate]]|]; unfold dname; rewrite !has_char_app, !str_of_digits by reflexivity; reflexivity. Qed.
Lemma cname_plain : forall j, plain_name (cname j).
Proof. intros j. split; [split; [|eexists _, _; split; [reflexivity|discriminate]]|]; unfold cname; rewrite !has_char_app, !str_of_digits by reflexivity; reflexivity. Qed.
Lemma bare_no_clash : forall g, (forall x, In x (nodes g) -> bare_name x) -> no_clash g.
Proof.
  intros g H n Hn. split.
  - intro K. apply H in K. destruct K as [K _]. rewrite has_char_app, orb_comm in K. discriminate.
  - intros (s & _ & E). apply H in Hn. destruct Hn as [_ (c & t & E' & Nc)]. rewrite E' in E. cbn in E. congruence.
Qed.
Lemma plain_no_clash : forall g, (forall x, In x (nodes g) -> plain_name x) -> no_clash g.
Proof. intros g H. apply bare_no_clash. intros x Hx. apply H; auto. Qed.

(* ---- choices ---- *)
Lemma pick_spec : forall rnd m l, NoDup l -> m <= length l -> NoDup (pick rnd m l) /\ length (pick rnd m l) = m /\ incl (pick rnd m l) l.
Proof.
  intros rnd. induction m as [|m IH]; intros l N L; [cbn; repeat split; [constructor|intros x []]|]. destruct l as [|x0 l']; [cbn in L; lia|]. set (l := x0 :: l') in *.
  set (x := nth (rnd m mod length l) l x0). assert (E : pick rnd (S m) l = x :: pick rnd m (remove_first x l)) by reflexivity. rewrite E. clear E. assert (Hx : In x l) by (apply nth_In, Nat.mod_upper_bound; discriminate). assert (P := remove_first_perm x l Hx). assert (N' := Permutation_NoDup P N). inversion N' as [|a b Nx Nr]; subst a b.
  assert (Len := Permutation_length P). cbn [length] in Len. destruct (IH (remove_first x l) Nr) as (I1 & I2 & I3); [unfold l in *; cbn [length] in *; lia|]. split; [constructor; auto|]. split; [cbn [length]; f_equal; exact I2|].
  intros y [<-|Hy]; auto. apply (Permutation_in _ (Permutation_sym P)). right. auto.
Qed.
Lemma deal_spec : forall nums l, fold_right Nat.add 0 nums <= length l -> map (@length node) (deal nums l) = nums /\ concat (deal nums l) = firstn (fold_right Nat.add 0 nums) l.
Proof.
  induction nums as [|k ks IH]; intros l L; cbn [deal map concat fold_right] in *; [auto|]. destruct (IH (skipn k l)) as [I1 I2]; [rewrite skipn_length; lia|]. rewrite I1, I2, firstn_length. split; [f_equal; lia|].
  rewrite <- (firstn_skipn k (firstn (k + fold_right Nat.add 0 ks) l)), firstn_firstn, skipn_firstn_comm. f_equal; [f_equal; lia|f_equal; lia].
Qed.
Lemma firstn_incl : forall (A : Type) k (l : list A), incl (firstn k l) l.
Proof. intros A k l x H. rewrite <- (firstn_skipn k l). apply in_or_app. auto. Qed.
Lemma NoDup_firstn : forall (A : Type) k (l : list A), NoDup l -> NoDup (firstn k l).
Proof. intros A k l H. rewrite <- (firstn_skipn k l) in H. apply NoDup_app_inv in H. tauto. Qed.
Lemma possible_decs_spec : forall g us used x, wf_graph g -> incl us (nodes g) -> (In x (possible_decs g us used) <-> (exists u, In u us /\ reach g x u) /\ ~ In x us /\ ~ In x used).
Proof.
  intros g us used x W I. unfold possible_decs, set_diff, to_set. rewrite filter_In, nodup_In, filter_In, nodup_In, nodup_In, in_flat_map, !negb_true_iff. rewrite !mem_nIn. split.
  - intros [[(u & Hu & K) H1] H2]. split; auto. exists u. split; auto. apply ancestors_of_iff in K; auto; [|intros y [<-|[]]; auto]. destruct K as (z & [<-|[]] & K). auto.
  - intros [(u & Hu & K) [H1 H2]]. split; auto. split; auto. exists u. split; auto. apply ancestors_of_iff; auto; [intros y [<-|[]]; auto|]. exists u. split; [left; auto|auto].
Qed.
Lemma possible_decs_NoDup : forall g us used, NoDup (possible_decs g us used).
Proof. intros. unfold possible_decs, set_diff. apply NoDup_filter, NoDup_nodup. Qed.
Lemma give_decisions_spec : forall g rnd uss i nums used dss, wf_graph g -> (forall us, In us uss -> incl us (nodes g)) -> length uss = length nums -> NoDup used -> give_decisions g rnd i uss nums used = Some dss ->
  map (@length node) dss = nums /\ NoDup (used ++ concat dss) /\
  Forall2 (fun ds us => forall d, In d ds -> ~ In d us /\ exists u, In u us /\ reach g d u) dss uss.
Proof.
  intros g rnd. induction uss as [|us uss IH]; intros i nums used dss W I L N H; destruct nums as [|num nums]; try discriminate L.
  - injection H as <-. cbn. rewrite List.app_nil_r. auto.
  - cbn [give_decisions] in H. destruct (Nat.ltb_spec (length (possible_decs g us used)) num) as [B|B]; [discriminate|]. destruct (pick_spec (rnd i) num (possible_decs g us used)) as (P1 & P2 & P3); [apply possible_decs_NoDup|auto|].
    assert (Iu : incl us (nodes g)) by (apply I; left; auto). assert (Q : forall d, In d (pick (rnd i) num (possible_decs g us used)) -> (exists u, In u us /\ reach g d u) /\ ~ In d us /\ ~ In d used) by (intros d Hd; apply P3, possible_decs_spec in Hd; auto).
    set (ds := pick (rnd i) num (possible_decs g us used)) in *.
    destruct (give_decisions g rnd (S i) uss nums (used ++ ds)) as [dss'|] eqn:E; [|discriminate]. injection H as <-.
    apply IH in E; auto; [|intros; apply I; right; auto|].
    + destruct E as (E1 & E2 & E3). cbn [map concat]. split; [f_equal; auto|]. split; [rewrite List.app_assoc; auto|]. constructor; auto. intros d Hd. destruct (Q d Hd) as (H1 & H2 & H3). auto.
    + apply LBayes.NoDup_app'; auto. intros d K1 K2. apply (Q d K2). auto.
Qed.

(* ---- renaming ---- *)
Lemma keys_combine : forall (l : list node) f, keys (combine l (new_names f l)) = l.
Proof. intros l f. unfold keys, new_names. generalize 0. induction l as [|x l IH]; intro k; cbn [combine map length seq fst]; auto. f_equal. apply IH. Qed.
Lemma vals_combine : forall (l : list node) f, map snd (combine l (new_names f l)) = new_names f l.
Proof. intros l f. unfold new_names. generalize 0. induction l as [|x l IH]; intro k; cbn [combine map length seq snd]; auto. f_equal. apply IH. Qed.
Lemma keys_role_names : forall name lss i, keys (role_names name i lss) = concat lss.
Proof. intros name lss. induction lss as [|l lss IH]; intro i; cbn [role_names concat]; auto. unfold keys in *. rewrite map_app. f_equal; [apply keys_combine|auto]. Qed.
Lemma vals_role_names : forall name lss i, map snd (role_names name i lss) = concat (map snd (role_lists name i lss)).
Proof. intros name lss. induction lss as [|l lss IH]; intro i; cbn [role_names role_lists map concat snd]; auto. rewrite map_app, vals_combine. f_equal. auto. Qed.
Lemma in_role_lists : forall name lss i x, In x (concat (map snd (role_lists name i lss))) -> exists a b, i <= a /\ x = name a b.
Proof.
  intros name lss. induction lss as [|l lss IH]; intros i x H; cbn [role_lists map concat snd] in H; [destruct H|]. apply in_app_iff in H. destruct H as [H|H].
  - unfold new_names in H. apply in_map_iff in H. destruct H as (b & <- & _). eauto.
  - apply IH in H. destruct H as (a & b & L & E). exists a, b. split; [lia|auto].
Qed.
Lemma NoDup_new_names : forall f l, (forall a b, f a = f b -> a = b) -> NoDup (new_names f l).
Proof. intros f l H. unfold new_names. apply NoDup_map_inj; [auto|apply seq_NoDup]. Qed.
Lemma NoDup_role_vals : forall name, (forall a b a' b', name a b = name a' b' -> a = a' /\ b = b') -> forall lss i, NoDup (concat (map snd (role_lists name i lss))).
Proof.
  intros name Inj lss. induction lss as [|l lss IH]; intro i; cbn [role_lists map concat snd]; [constructor|]. apply LBayes.NoDup_app'; [apply NoDup_new_names; intros a b E; apply Inj in E; tauto|auto|].
  intros x H1 H2. apply in_role_lists in H2. destruct H2 as (a & b & L & ->). unfold new_names in H1. apply in_map_iff in H1. destruct H1 as (c & E & _). apply Inj in E. lia.
Qed.
Lemma keys_role_lists : forall name lss i, keys (role_lists name i lss) = map str_of (seq i (length lss)).
Proof. intros name lss. induction lss as [|l lss IH]; intro i; cbn; auto. f_equal. apply IH. Qed.
Lemma lengths_role_lists : forall name lss i, map (fun al => length (snd al)) (role_lists name i lss) = map (@length node) lss.
Proof. intros name lss. induction lss as [|l lss IH]; intro i; cbn; auto. f_equal; [unfold new_names; rewrite map_length, seq_length; auto|apply IH]. Qed.
Lemma NoDup_labels : forall i k, NoDup (map str_of (seq i k)).
Proof. intros. apply NoDup_map_inj; [intros; apply str_of_inj; auto|apply seq_NoDup]. Qed.
Lemma lookup_val : forall (mp : list (node * node)) x, In x (keys mp) -> In (x, renamed mp x) mp.
Proof. intros mp x H. unfold renamed. destruct (lookup x mp) as [y|] eqn:E; [apply lookup_In; auto|]. apply lookup_None_keys in E. contradiction. Qed.
Lemma renamed_inj : forall mp x y, NoDup (map snd mp) -> In x (keys mp) -> In y (keys mp) -> renamed mp x = renamed mp y -> x = y.
Proof.
  intros mp x y N Hx Hy E. apply lookup_val in Hx, Hy. rewrite E in Hx. clear E. generalize dependent (renamed mp y). intros v Hx Hy. induction mp as [|[a b] mp IH]; [destruct Hx|]. cbn in N. inversion N as [|p q Nb N']; subst.
  destruct Hx as [Hx|Hx], Hy as [Hy|Hy].
  - congruence.
  - injection Hx as <- <-. exfalso. apply Nb. apply in_map_iff. exists (y, b). auto.
  - injection Hy as <- <-. exfalso. apply Nb. apply in_map_iff. exists (x, b). auto.
  - auto.
Qed.
Lemma name_changes_spec : forall g uss dss, NoDup (nodes g) -> NoDup (concat uss ++ concat dss) -> incl (concat uss ++ concat dss) (nodes g) ->
  let mp := name_changes g uss dss in
  (forall x, In x (keys mp) <-> In x (nodes g)) /\ NoDup (keys mp) /\ NoDup (map snd mp) /\ (forall x, In x (map snd mp) -> plain_name x).
Proof.
  intros g uss dss Ng N I mp. unfold mp, name_changes. set (roles := role_names uname 0 uss ++ role_names dname 0 dss). set (chance := filter (fun x => negb (mem x (keys roles))) (nodes g)).
  assert (Kr : keys roles = concat uss ++ concat dss) by (unfold roles, keys; rewrite map_app; f_equal; apply keys_role_names).
  assert (Vr : map snd roles = concat (map snd (role_lists uname 0 uss)) ++ concat (map snd (role_lists dname 0 dss))) by (unfold roles; rewrite map_app; f_equal; apply vals_role_names).
  assert (K : keys (roles ++ combine chance (new_names cname chance)) = keys roles ++ chance) by (unfold keys; rewrite map_app; f_equal; apply keys_combine).
  assert (V : map snd (roles ++ combine chance (new_names cname chance)) = map snd roles ++ new_names cname chance) by (rewrite map_app; f_equal; apply vals_combine).
  assert (Hc : forall x, In x chance <-> In x (nodes g) /\ ~ In x (keys roles)) by (intro x; unfold chance; rewrite filter_In, negb_true_iff, mem_nIn; tauto).
  rewrite K, V. split; [|split; [|split]].
  - intro x. rewrite in_app_iff, Hc. split; [intros [H|H]; [apply I; rewrite <- Kr; auto|tauto]|]. intro H. destruct (in_dec string_dec x (keys roles)); auto.
  - apply LBayes.NoDup_app'; [rewrite Kr; auto|apply NoDup_filter; auto|]. intros x H1 H2. apply Hc in H2. tauto.
  - apply LBayes.NoDup_app'; [|apply NoDup_new_names, cname_inj|].
    + rewrite Vr. apply LBayes.NoDup_app'; [apply NoDup_role_vals, uname_inj|apply NoDup_role_vals, dname_inj|]. intros x H1 H2. apply in_role_lists in H1, H2. destruct H1 as (a & b & _ & ->), H2 as (c & d & _ & E). discriminate E.
    + intros x H1 H2. unfold new_names in H2. apply in_map_iff in H2. destruct H2 as (j & <- & _). rewrite Vr in H1. apply in_app_iff in H1. destruct H1 as [H1|H1]; apply in_role_lists in H1; destruct H1 as (a & b & _ & E); discriminate E.
  - intros x H. apply in_app_iff in H. rewrite Vr in H. destruct H as [H|H].
    + apply in_app_iff in H. destruct H as [H|H]; apply in_role_lists in H; destruct H as (a & b & _ & ->); [apply uname_plain|apply dname_plain].
    + unfold new_names in H. apply in_map_iff in H. destruct H as (j & <- & _). apply cname_plain.
Qed.

(* ---- h is g with the nodes renamed by f ---- *)
Record image (f : node -> node) (g h : graph) : Prop := {
  i_inj : forall x y, In x (nodes g) -> In y (nodes g) -> f x = f y -> x = y;
  i_nodes : forall x, In x (nodes h) <-> exists u, In u (nodes g) /\ x = f u;
  i_edges : forall a b, edge h a b <-> exists u v, edge g u v /\ a = f u /\ b = f v }.
Lemma nodes_add_all : forall ns g x, In x (nodes (add_nodes_from g ns)) <-> In x (nodes g) \/ In x ns.
Proof. unfold add_nodes_from. induction ns as [|n ns IH]; intros g x; cbn [fold_left]; [cbn; tauto|]. rewrite IH, in_add_node. cbn [In]. intuition auto. Qed.
Lemma edges_add_all : forall ns g, edges (add_nodes_from g ns) = edges g.
Proof. unfold add_nodes_from. induction ns as [|n ns IH]; intros g; cbn [fold_left]; auto. rewrite IH, edges_add_node. auto. Qed.
Lemma wf_add_all : forall ns g, wf_graph g -> wf_graph (add_nodes_from g ns).
Proof. unfold add_nodes_from. induction ns as [|n ns IH]; intros g W; cbn [fold_left]; auto. apply IH, wf_add_node; auto. Qed.
Lemma relabel_fold : forall (f : node -> node) es h, wf_graph h -> let r := fold_left (fun h e => nx_add_edge h (f (fst e)) (f (snd e))) es h in
  wf_graph r /\ (forall x, In x (nodes r) <-> In x (nodes h) \/ exists e, In e es /\ (x = f (fst e) \/ x = f (snd e))) /\
  (forall a b, edge r a b <-> edge h a b \/ exists e, In e es /\ a = f (fst e) /\ b = f (snd e)).
Proof.
  intros f es. induction es as [|e es IH]; intros h W; cbn [fold_left].
  - split; auto. split; [intro x|intros a b]; (split; [auto|intros [H|(e & [] & _)]; auto]).
  - destruct (IH (nx_add_edge h (f (fst e)) (f (snd e))) (wf_nx_add_edge _ _ _ W)) as (I1 & I2 & I3). split; auto. split.
    + intro x. rewrite I2, nodes_nx_add_edge. split.
      * intros [[H|[H|H]]|(e' & He & H)]; [auto|right; exists e; split; [left; auto|auto]|right; exists e; split; [left; auto|auto]|right; exists e'; split; [right; auto|auto]].
      * intros [H|(e' & [<-|He] & H)]; [auto|destruct H; auto|right; eauto].
    + intros a b. rewrite I3, edge_nx_add_edge. split.
      * intros [[H|[-> ->]]|(e' & He & H)]; [auto|right; exists e; split; [left; auto|auto]|right; exists e'; split; [right; auto|auto]].
      * intros [H|(e' & [<-|He] & H)]; [auto|left; right; auto|right; eauto].
Qed.
Lemma relabel_image : forall g mp, wf_graph g -> NoDup (map snd mp) -> (forall x, In x (keys mp) <-> In x (nodes g)) -> wf_graph (relabel g mp) /\ image (renamed mp) g (relabel g mp).
Proof.
  intros g mp W N K. unfold relabel. set (h0 := add_nodes_from empty_graph (map (renamed mp) (nodes g))).
  assert (W0 : wf_graph h0) by (apply wf_add_all; split; [constructor|split; [constructor|intros u v []]]).
  assert (N0 : forall x, In x (nodes h0) <-> exists u, In u (nodes g) /\ x = renamed mp u) by (intro x; unfold h0; rewrite nodes_add_all, in_map_iff; cbn; split; [intros [[]|(u & <- & H)]; eauto|intros (u & H & ->); eauto]).
  assert (E0 : forall a b, ~ edge h0 a b) by (intros a b; unfold edge, h0; rewrite edges_add_all; intros []).
  destruct (relabel_fold (renamed mp) (edges_view g) h0 W0) as (I1 & I2 & I3). split; auto. constructor.
  - intros x y Hx Hy. apply renamed_inj; auto; apply K; auto.
  - intro x. rewrite I2, N0. split; [intros [H|([u v] & He & H)]; auto|auto]. apply in_edges_view in He; auto. destruct H as [->| ->]; [exists u|exists v]; split; auto; [eapply wf_edge_l|eapply wf_edge_r]; eauto.
  - intros a b. rewrite I3. split.
    + intros [H|([u v] & He & -> & ->)]; [destruct (E0 a b H)|]. apply in_edges_view in He; auto. exists u, v. auto.
    + intros (u & v & H & -> & ->). right. exists (u, v). split; auto. apply in_edges_view; auto.
Qed.
Lemma relabel_some : forall g mp, wf_graph g -> (forall x y, In x (nodes g) -> In y (nodes g) -> renamed mp x = renamed mp y -> x = y) -> wf_graph (relabel g mp) /\ image (renamed mp) g (relabel g mp).
Proof.
  intros g mp W K. unfold relabel. set (h0 := add_nodes_from empty_graph (map (renamed mp) (nodes g))).
  assert (W0 : wf_graph h0) by (apply wf_add_all; split; [constructor|split; [constructor|intros u v []]]).
  assert (N0 : forall x, In x (nodes h0) <-> exists u, In u (nodes g) /\ x = renamed mp u) by (intro x; unfold h0; rewrite nodes_add_all, in_map_iff; cbn; split; [intros [[]|(u & <- & H)]; eauto|intros (u & H & ->); eauto]).
  assert (E0 : forall a b, ~ edge h0 a b) by (intros a b; unfold edge, h0; rewrite edges_add_all; intros []).
  destruct (relabel_fold (renamed mp) (edges_view g) h0 W0) as (I1 & I2 & I3). split; auto. constructor; auto.
  - intro x. rewrite I2, N0. split; [intros [H|([u v] & He & H)]; auto|auto]. apply in_edges_view in He; auto. destruct H as [->| ->]; [exists u|exists v]; split; auto; [eapply wf_edge_l|eapply wf_edge_r]; eauto.
  - intros a b. rewrite I3. split.
    + intros [H|([u v] & He & -> & ->)]; [destruct (E0 a b H)|]. apply in_edges_view in He; auto. exists u, v. auto.
    + intros (u & v & H & -> & ->). right. exists (u, v). split; auto. apply in_edges_view; auto.
Qed.
Lemma image_reach : forall f g h, wf_graph g -> image f g h -> forall a b, reach h a b -> forall u, In u (nodes g) -> a = f u -> exists v, In v (nodes g) /\ b = f v /\ reach g u v.
Proof.
  intros f g h W I a b R. induction R as [a|a c b E R IH]; intros u Hu Ea; [exists u; split; auto; split; auto; constructor|]. apply (i_edges _ _ _ I) in E. destruct E as (u' & w & E & E1 & E2).
  assert (u' = u) by (apply (i_inj _ _ _ I); auto; [eapply wf_edge_l; eauto|congruence]). subst u'. destruct (IH w (wf_edge_r g W u w E) E2) as (v & Hv & -> & R'). exists v. split; auto. split; auto. econstructor; eauto.
Qed.
Lemma image_forward : forall f g h, image f g h -> forall u v, reach g u v -> reach h (f u) (f v).
Proof. intros f g h I u v R. induction R as [u|u w v E R IH]; [constructor|]. econstructor; [|exact IH]. apply (i_edges _ _ _ I). eauto. Qed.
Lemma image_acyclic : forall f g h, wf_dag g -> image f g h -> acyclic h.
Proof.
  intros f g h [W A] I a (b & E & R). apply (i_edges _ _ _ I) in E. destruct E as (u & v & E & -> & ->). destruct (image_reach f g h W I _ _ R v (wf_edge_r g W u v E) eq_refl) as (u' & Hu & Eq & R').
  apply (i_inj _ _ _ I) in Eq; auto; [|eapply wf_edge_l; eauto]. subst u'. apply (A u). exists v. auto.
Qed.
Lemma image_joined : forall f g h, image f g h -> forall u v, joined g [] u v -> joined h [] (f u) (f v).
Proof. intros f g h I u v J. induction J as [u|u v w E J IH]; [constructor|]. eapply joined_step; [|exact IH]. destruct E as [[E _]|[E _]]; [left|right]; (split; [apply (i_edges _ _ _ I); eauto|intros []]). Qed.
Lemma image_connected : forall f g h, image f g h -> connected g -> connected h.
Proof. intros f g h I C a b Ha Hb. apply (i_nodes _ _ _ I) in Ha, Hb. destruct Ha as (u & Hu & ->), Hb as (v & Hv & ->). apply (image_joined f g h I). auto. Qed.
Lemma image_parents : forall f g h k, wf_graph g -> image f g h -> (forall v, at_most_parents g k v) -> forall x, at_most_parents h k x.
Proof.
  intros f g h k W I B x l N H. destruct l as [|p l]; [cbn; lia|]. assert (E : edge h p x) by (apply H; left; auto). apply (i_edges _ _ _ I) in E. destruct E as (u & v & E & -> & ->). assert (Hv := wf_edge_r g W u v E).
  assert (X : exists l', map f l' = f u :: l /\ forall y, In y l' -> edge g y v).
  { remember (f u :: l) as l0 eqn:E0. clear - W I H Hv. induction l0 as [|y l0 IH]; [exists []; split; [auto|intros y []]|]. destruct IH as (l' & E1 & E2); [intros; apply H; right; auto|]. assert (E : edge h y (f v)) by (apply H; left; auto).
    apply (i_edges _ _ _ I) in E. destruct E as (a & b & E & -> & Eb). apply (i_inj _ _ _ I) in Eb; auto; [|eapply wf_edge_r; eauto]. subst b. exists (a :: l'). cbn [map]. split; [congruence|]. intros y [<-|Hy]; auto. }
  destruct X as (l' & E1 & E2). rewrite <- E1, map_length. apply (B v); auto. rewrite <- E1 in N. apply NoDup_map_inv in N. auto.
Qed.
Lemma image_sizes : forall f g h, wf_graph g -> wf_graph h -> image f g h -> length (nodes h) = length (nodes g) /\ length (edges h) = length (edges g).
Proof.
  intros f g h W Wh I. split.
  - rewrite <- (map_length f (nodes g)). apply Permutation_length, NoDup_Permutation; [apply wf_nodes; auto|apply NoDup_map_inj; [apply (i_inj _ _ _ I)|apply wf_nodes; auto]|]. intro x. rewrite (i_nodes _ _ _ I), in_map_iff. split; intros (u & H1 & H2); eauto.
  - set (f2 := fun e : node * node => (f (fst e), f (snd e))). rewrite <- (map_length f2 (edges g)). apply Permutation_length, NoDup_Permutation; [apply wf_edges; auto| |].
    + apply NoDup_map_inj; [|apply wf_edges; auto]. intros [a b] [c d] H1 H2 E. unfold f2 in E. cbn in E. injection E as E1 E2. f_equal; apply (i_inj _ _ _ I); auto; try (eapply wf_edge_l; eauto; fail); eapply wf_edge_r; eauto.
    + intros [a b]. rewrite in_map_iff. change (In (a, b) (edges h)) with (edge h a b). rewrite (i_edges _ _ _ I). split.
      * intros (u & v & E & -> & ->). exists (u, v). split; auto.
      * intros ([u v] & E & H). unfold f2 in E. cbn in E. injection E as <- <-. exists u, v. auto.
Qed.
(* reading the edges back loses nothing when the graph is connected and has two nodes *)
Lemma image_load : forall f g h, wf_dag g -> wf_graph h -> image f g h -> connected g -> 2 <= length (nodes g) ->
  new_graph (edges_view h) = Ok (load_edges (edges_view h)) /\ wf_dag (load_edges (edges_view h)) /\ image f g (load_edges (edges_view h)).
Proof.
  intros f g h Wg Wh I C L. assert (Wd : wf_dag h) by (split; [auto|eapply image_acyclic; eauto]). destruct (load_view_wf h Wd) as [W' E]. split; [apply new_graph_view; auto|]. split; auto. constructor; [apply (i_inj _ _ _ I)| |intros a b; rewrite E; apply (i_edges _ _ _ I)].
  intro x. rewrite <- (i_nodes _ _ _ I), edges_view_nodes by auto. split; [intros (y & [H|H]); [eapply wf_edge_l|eapply wf_edge_r]; eauto|]. intro Hx.
  assert (Y : exists y, In y (nodes h) /\ y <> x).
  { destruct (image_sizes f g h (proj1 Wg) Wh I) as [Ln _]. rewrite <- Ln in L. assert (N := wf_nodes h Wh). destruct (nodes h) as [|a [|b l]]; cbn in L; try lia. inversion N as [|p q Na N']; subst. destruct (string_dec a x) as [->|Ne]; [exists b|exists a]; split; cbn; auto. intros ->. apply Na. left; auto. }
  destruct Y as (y & Hy & Ne). assert (J := image_connected f g h I C x y Hx Hy). inversion J as [|a b c K]; subst; [congruence|]. exists b. unfold adjacent. tauto.
Qed.
Lemma image_load_small : forall f g h, wf_dag g -> wf_graph h -> image f g h ->
  new_graph (edges_view h) = Ok (load_edges (edges_view h)) /\ wf_dag (load_edges (edges_view h)) /\ forall a b, edge (load_edges (edges_view h)) a b <-> edge h a b.
Proof. intros f g h Wg Wh I. assert (Wd : wf_dag h) by (split; [auto|eapply image_acyclic; eauto]). destruct (load_view_wf h Wd) as [W' E]. split; [apply new_graph_view; auto|]. auto. Qed.

(* ---- adding edges for recall ---- *)
Record grown (g g' : graph) : Prop := {
  gr_wf : wf_dag g';
  gr_nodes : forall x, In x (nodes g') <-> In x (nodes g);
  gr_edges : forall u v, edge g u v -> edge g' u v;
  gr_tails : forall u v, edge g' u v -> exists w, edge g u w }.
Lemma grown_refl : forall g, wf_dag g -> grown g g.
Proof. intros g W. constructor; auto; [tauto|eauto]. Qed.
Lemma grown_trans : forall g g' g'', grown g g' -> grown g' g'' -> grown g g''.
Proof.
  intros g g' g'' [W1 N1 E1 T1] [W2 N2 E2 T2]. constructor; auto.
  - intro x. rewrite N2. auto.
  - intros u v H. apply T2 in H. destruct H as (w & H). eauto.
Qed.
Lemma get_motif_child : forall g path idx mo, get_motif g path idx = Ok mo -> mo <> Collider -> S idx < length path -> 0 < idx ->
  let a := nth (idx - 1) path EmptyString in let b := nth idx path EmptyString in let c := nth (S idx) path EmptyString in
  (edge g b c /\ edge g a b) \/ (edge g b a /\ edge g c b) \/ (edge g b a /\ edge g b c).
Proof.
  intros g path idx mo H Nc L Lp a b c. unfold get_motif in H. destruct (negb (forallb _ path)); [discriminate|]. destruct (Nat.leb_spec (length path) idx); [lia|]. destruct (Nat.eqb_spec (length path) (S idx)); [lia|].
  assert (Ea : nth_prev path idx = a) by (unfold a; destruct idx as [|i]; [lia|]; cbn [nth_prev]; f_equal; lia). rewrite Ea in H. fold b c in H.
  destruct (has_edge_spec g a b), (has_edge_spec g b c), (has_edge_spec g c b), (has_edge_spec g b a); cbn [andb] in H; try discriminate H; auto; try (injection H as <-; congruence).
Qed.
Lemma pick_on_path_ok : forall fuel rnd k mg path d2 x k', pick_on_path fuel rnd k mg path d2 = Ok (x, k') ->
  exists idx, 0 < idx /\ S idx < length path /\ x = nth idx path EmptyString /\ ~ In d2 (ancestors_of mg [x]) /\ exists mo, get_motif mg path idx = Ok mo /\ mo <> Collider.
Proof.
  induction fuel as [|fuel IH]; intros rnd k mg path d2 x k' H; [discriminate|]. cbn [pick_on_path] in H. destruct (Nat.leb_spec (length path) 2) as [L|L]; [discriminate|].
  set (idx := 1 + rnd k mod (length path - 2)) in *. assert (Li : rnd k mod (length path - 2) < length path - 2) by (apply Nat.mod_upper_bound; lia). destruct (get_motif mg path idx) as [mo|] eqn:Em; [|discriminate]. cbn [bind] in H.
  assert (Y : mo <> Collider -> (if mem d2 (ancestors_of mg [nth idx path EmptyString]) then pick_on_path fuel rnd (k + 1) mg path d2 else Ok (nth idx path EmptyString, k + 1)) = Ok (x, k') ->
    exists idx, 0 < idx /\ S idx < length path /\ x = nth idx path EmptyString /\ ~ In d2 (ancestors_of mg [x]) /\ exists mo, get_motif mg path idx = Ok mo /\ mo <> Collider).
  { intros Nc K. destruct (mem d2 (ancestors_of mg [nth idx path EmptyString])) eqn:M; [eapply IH; eauto|]. injection K as <- <-. exists idx. split; [unfold idx; lia|]. split; [unfold idx; lia|]. split; auto. split; [apply mem_nIn; auto|eauto]. }
  destruct mo; try (apply Y; [discriminate|exact H]). eapply IH; eauto.
Qed.
Lemma recall_node : forall g mg path idx mo, wf_dag g -> no_clash g -> is_mech_graph g mg -> NoDup path -> get_motif mg path idx = Ok mo -> mo <> Collider -> S idx < length path -> 0 < idx ->
  In (nth idx path EmptyString) (nodes g) /\ exists w, edge g (nth idx path EmptyString) w.
Proof.
  intros g mg path idx mo [W A] NC (M1 & M2 & M3) N Em Nc L Lp. destruct (get_motif_child mg path idx mo Em Nc L Lp) as [[H1 H2]|[[H1 H2]|[H1 H2]]]; set (x := nth idx path EmptyString) in *.
  - apply M2 in H1, H2. assert (Hx : In x (nodes g)) by (destruct H2 as [H2|[H2 _]]; [eapply wf_edge_r; eauto|auto]). split; auto. destruct H1 as [H1|[H1 E]]; [eauto|]. exfalso. rewrite E in Hx. apply NC in H1. tauto.
  - apply M2 in H1, H2. assert (Hx : In x (nodes g)) by (destruct H2 as [H2|[H2 _]]; [eapply wf_edge_r; eauto|auto]). split; auto. destruct H1 as [H1|[H1 E]]; [eauto|]. exfalso. rewrite E in Hx. apply NC in H1. tauto.
  - apply M2 in H1, H2. destruct H1 as [H1|[H1 E1]]; [split; [eapply wf_edge_l; eauto|eauto]|]. destruct H2 as [H2|[H2 E2]]; [split; [eapply wf_edge_l; eauto|eauto]|]. exfalso.
    rewrite E1 in E2. apply mec_inj in E2. apply NoDup_nth with (i := idx - 1) (j := S idx) (d := EmptyString) in E2; auto; lia.
Qed.
Lemma mech_step : forall g mg x d g1, wf_dag g -> is_mech_graph g mg -> In x (nodes g) -> In d (nodes g) -> bn_add_edge g x d = Ok g1 -> (exists w, edge g x w) -> forall mg1, bn_add_edge mg x d = Ok mg1 -> grown g g1 /\ is_mech_graph g1 mg1.
Proof.
  intros g mg x d g1 Wd (M1 & M2 & M3) Hx Hd E1 (w & Ew) mg1 E2. apply bn_add_edge_ok in E1, E2; auto. destruct E1 as [W1 ->], E2 as [W2 ->].
  assert (Nn : forall y, In y (nodes (nx_add_edge g x d)) <-> In y (nodes g)) by (intro y; rewrite nodes_nx_add_edge; intuition (subst; auto)). split.
  - constructor; auto; [intros; apply edge_nx_add_edge; auto|]. intros a b K. apply edge_nx_add_edge in K. destruct K as [K|[-> ->]]; eauto.
  - split; auto. split.
    + intros a b. rewrite !edge_nx_add_edge, M2, Nn. tauto.
    + intro y. rewrite nodes_nx_add_edge, M3, Nn. split.
      * intros [[H|(n & Hn & ->)]|[->| ->]]; auto. right. exists n. rewrite Nn. auto.
      * intros [H|(n & Hn & ->)]; auto. left. right. exists n. rewrite <- Nn. auto.
Qed.
Lemma recall_loop_ok : forall fuel o rnd k g mg d1 d2 u g' k', valid_order o -> wf_dag g -> no_clash g -> is_mech_graph g mg -> In d1 (nodes g) -> In d2 (nodes g) -> In u (nodes g) ->
  recall_loop fuel o rnd k g mg d1 d2 u = Ok (g', k') -> grown g g' /\ exists mg', is_mech_graph g' mg' /\ is_dconnected mg' (mec d1) u (parents mg' d2 ++ [d2]) = Ok false.
Proof.
  intros fuel o. induction fuel as [|fuel IH]; intros rnd k g mg d1 d2 u g' k' Ho Wd NC M H1 H2 Hu H; assert (Hm : forall x, In x (nodes g) -> In x (nodes mg)) by (intros x K; apply (proj2 (proj2 M)); auto);
    cbn [recall_loop] in H; unfold get_parents in H; rewrite (proj2 (mem_In d2 (nodes mg)) (Hm d2 H2)) in H; cbn [bind] in H;
    destruct (is_dconnected mg (mec d1) u (parents mg d2 ++ [d2])) as [b|] eqn:Eb; try discriminate H; cbn [bind] in H; destruct b; cbn [negb] in H; try discriminate H;
    try (injection H as <- <-; split; [apply grown_refl; auto|exists mg; auto]; fail).
  destruct (find_active_path o mg (mec d1) u (to_set (d2 :: parents mg d2))) as [path|] eqn:Ep; [|discriminate]. cbn [bind] in H.
  destruct (pick_on_path (S fuel) rnd k mg path d2) as [[x k1]|] eqn:Ex; [|discriminate]. cbn [bind fst snd] in H. destruct (bn_add_edge g x d2) as [g1|] eqn:E1; [|discriminate]. cbn [bind] in H. destruct (bn_add_edge mg x d2) as [mg1|] eqn:E2; [|discriminate]. cbn [bind] in H.
  assert (Wm : wf_dag mg) by apply M.
  apply C03_find_active_path_sound in Ep; auto; [|intros y Hy; unfold to_set in Hy; apply nodup_In in Hy; destruct Hy as [<-|Hy]; [auto|apply in_parents in Hy; eapply wf_edge_l; [apply Wm|eauto]]|apply (proj2 (proj2 M)); eauto].
  destruct Ep as [(_ & Np & _) _]. apply pick_on_path_ok in Ex. destruct Ex as (idx & L1 & L2 & -> & _ & mo & Em & Nc). destruct (recall_node g mg path idx mo Wd NC M Np Em Nc L2 L1) as [Hx Hw].
  destruct (mech_step g mg _ d2 g1 Wd M Hx H2 E1 Hw mg1 E2) as [Gr M']. assert (Nn := gr_nodes _ _ Gr).
  apply IH in H; auto; try (apply Nn; auto; fail); [|apply Gr|intros n Hn; apply Nn in Hn; rewrite Nn; apply NC; auto]. destruct H as [Gr' X]. split; auto. eapply grown_trans; eauto.
Qed.
Definition grown_macid (m m' : macid) : Prop := exists g', m' = with_graph m g' /\ grown (mgraph m) g'.
Lemma grown_macid_trans : forall m m' m'', grown_macid m m' -> grown_macid m' m'' -> grown_macid m m''.
Proof. intros m m' m'' (g & -> & G) (g' & -> & G'). exists g'. split; auto. eapply grown_trans; eauto. Qed.
Lemma add_recall_ok : forall fuel o rnd k m d1 d2 u m' k', valid_order o -> wf_dag (mgraph m) -> no_clash (mgraph m) -> In d1 (nodes (mgraph m)) -> In d2 (nodes (mgraph m)) -> In u (nodes (mgraph m)) ->
  add_sufficient_recall fuel o rnd k m d1 d2 u = Ok (m', k') -> grown_macid m m' /\ exists mg', is_mech_graph (mgraph m') mg' /\ is_dconnected mg' (mec d1) u (parents mg' d2 ++ [d2]) = Ok false.
Proof.
  intros fuel o rnd k m d1 d2 u m' k' Ho W NC H1 H2 Hu H. unfold add_sufficient_recall in H. destruct (mem d2 (ancestors_of (mgraph m) [d1])); [discriminate|]. destruct (mechanism_graph_ok m W NC) as (h & Eh & M). rewrite Eh in H. cbn [bind mgraph] in H.
  destruct (recall_loop fuel o rnd k (mgraph m) h d1 d2 u) as [[g' k1]|] eqn:E; [|discriminate]. cbn [bind fst snd] in H. injection H as <- <-. apply recall_loop_ok in E; auto. destruct E as [G X]. split; auto. exists g'. auto.
Qed.
Lemma fold_r_inv : forall (A B : Type) (P : B -> Prop) (f : B -> A -> result B) l b b', P b -> (forall b x b', In x l -> P b -> f b x = Ok b' -> P b') -> fold_r f b l = Ok b' -> P b'.
Proof.
  intros A B P f l. induction l as [|x l IH]; intros b b' Pb St H; cbn [fold_r] in H; [injection H as <-; auto|]. destruct (f b x) as [b1|] eqn:E; [|discriminate]. cbn [bind] in H. apply (IH b1 b'); auto; [apply (St b x); [left; auto|auto|auto]|]. intros c y c' Hy. apply St. right. auto.
Qed.
Lemma later_pairs_in : forall l x y, In (x, y) (later_pairs l) -> In x l /\ In y l.
Proof.
  induction l as [|a l IH]; intros x y H; cbn in H; [destruct H|]. apply in_app_iff in H. destruct H as [H|H]; [apply in_map_iff in H; destruct H as (z & E & H); injection E as <- <-; cbn; auto|]. apply IH in H. cbn. tauto.
Qed.
Lemma recall_pair_ok : forall fuel o rnd m k u x y m' k', valid_order o -> wf_dag (mgraph m) -> no_clash (mgraph m) -> In x (nodes (mgraph m)) -> In y (nodes (mgraph m)) ->
  recall_pair fuel o rnd (m, k) u x y = Ok (m', k') -> grown_macid m m'.
Proof.
  intros fuel o rnd m k u x y m' k' Ho W NC Hx Hy H. unfold recall_pair in H. assert (R : grown_macid m m) by (exists (mgraph m); split; [destruct m; reflexivity|apply grown_refl; auto]).
  assert (D : forall d, In u (descendants (mgraph m) d) -> In d (nodes (mgraph m)) -> In u (nodes (mgraph m))) by (intros d K Kd; apply descendants_iff in K; auto; try apply W; destruct K as (w & K & R'); clear - W K R'; apply (wf_edge_r _ (proj1 W)) in K; induction R' as [|a b c E R' IH]; auto; apply IH; eapply wf_edge_r; [apply W|eauto]).
  destruct (mem x (ancestors_of (mgraph m) [y])).
  - destruct (mem u (descendants (mgraph m) y)) eqn:Eu; [|injection H as <- <-; auto]. apply mem_In in Eu. apply add_recall_ok in H; auto; [tauto|eauto].
  - destruct (mem u (descendants (mgraph m) x)) eqn:Eu; [|injection H as <- <-; auto]. apply mem_In in Eu. apply add_recall_ok in H; auto; [tauto|eauto].
Qed.
Lemma add_recalls_ok : forall fuel o rnd m m', valid_order o -> wf_dag (mgraph m) -> no_clash (mgraph m) -> (forall a d, listed (agent_decisions m) a d -> In d (nodes (mgraph m))) ->
  add_sufficient_recalls fuel o rnd m = Ok m' -> grown_macid m m'.
Proof.
  intros fuel o rnd m m' Ho W NC P H. unfold add_sufficient_recalls in H. match type of H with bind ?x _ = _ => destruct x as [[m1 k1]|] eqn:E end; [|discriminate]. cbn [bind fst] in H. injection H as <-.
  assert (St : forall u dx dy b b', In dx (nodes (mgraph m)) -> In dy (nodes (mgraph m)) -> grown_macid m (fst b) -> recall_pair fuel o rnd b u dx dy = Ok b' -> grown_macid m (fst b')).
  { intros u dx dy [mb kb] [mb' kb'] Hx Hy G R. cbn [fst] in *. destruct G as (g' & -> & G). eapply grown_macid_trans; [exists g'; split; [reflexivity|exact G]|]. assert (Nn := gr_nodes _ _ G). eapply recall_pair_ok; [exact Ho| | | | |exact R]; cbn [mgraph with_graph].
    - apply G.
    - intros n Hn. apply Nn in Hn. rewrite Nn. apply NC. auto.
    - apply Nn. auto.
    - apply Nn. auto. }
  change (grown_macid m (fst (m1, k1))). revert E. apply (fold_r_inv _ _ (fun mk : macid * nat => grown_macid m (fst mk))).
  - cbn [fst]. exists (mgraph m). split; [destruct m; reflexivity|apply grown_refl; auto].
  - intros b a b' _ G R. assert (Ga := G). destruct Ga as (g0 & Eb & _). destruct (dict_get a (agent_decisions (fst b))) as [ds|] eqn:Ed; [|discriminate]. cbn [bind] in R. destruct (dict_get a (agent_utilities (fst b))) as [us|]; [|discriminate]. cbn [bind] in R.
    rewrite Eb in Ed. cbn [agent_decisions with_graph] in Ed. assert (Hd : forall d, In d ds -> In d (nodes (mgraph m))) by (intros d K; apply (P a); exists ds; split; auto; unfold dict_get in Ed; destruct (lookup a (agent_decisions m)) as [z|] eqn:El; [|discriminate]; injection Ed as <-; apply lookup_In; auto).
    revert R. apply (fold_r_inv _ _ (fun mk : macid * nat => grown_macid m (fst mk))); auto. intros c u c' _ Gc Rc. revert Rc. apply (fold_r_inv _ _ (fun mk : macid * nat => grown_macid m (fst mk))); auto. intros e [dx dy] e' Hp Ge Re. cbn [fst snd] in Re. apply later_pairs_in in Hp. apply (St u dx dy e e'); auto; apply Hd; tauto.
Qed.

(* ---- one attempt ---- *)
Lemma role_lists_listed : forall name lss i a x, listed (role_lists name i lss) a x <-> exists k l j y, nth_error lss k = Some l /\ nth_error l j = Some y /\ a = str_of (i + k) /\ x = name (i + k) j.
Proof.
  intros name lss. induction lss as [|l lss IH]; intros i a x.
  - split; [intros (l & [] & _)|intros (k & l & j & y & H & _); destruct k; discriminate].
  - cbn [role_lists]. split.
    + intros (l0 & [E|H] & Hx).
      * injection E as <- <-. unfold new_names in Hx. apply in_map_iff in Hx. destruct Hx as (j & <- & Hj). apply in_seq in Hj. destruct (nth_error l j) as [y|] eqn:Ey; [|apply nth_error_None in Ey; lia]. exists 0, l, j, y. rewrite Nat.add_0_r. auto.
      * destruct (proj1 (IH (S i) a x)) as (k & l1 & j & y & H1 & H2 & H3 & H4); [exists l0; auto|]. exists (S k), l1, j, y. rewrite <- Nat.add_succ_comm. auto.
    + intros (k & l0 & j & y & H1 & H2 & -> & ->). destruct k as [|k]; cbn [nth_error] in H1.
      * injection H1 as <-. rewrite Nat.add_0_r. exists (new_names (name i) l). split; [left; auto|]. unfold new_names. apply in_map, in_seq. assert (j < length l) by (apply nth_error_Some; congruence). lia.
      * destruct (proj2 (IH (S i) (str_of (S i + k)) (name (S i + k) j))) as (l1 & H3 & H4); [exists k, l0, j, y; auto|]. rewrite <- Nat.add_succ_comm. exists l1. split; [right; auto|auto].
Qed.
Lemma combine_nth_in : forall (l : list node) f j y, nth_error l j = Some y -> In (y, f j) (combine l (new_names f l)).
Proof.
  intros l f j y H. unfold new_names. assert (G : forall l b j, nth_error l j = Some y -> In (y, f (b + j)) (combine l (map f (seq b (length l))))).
  { clear. induction l as [|x l IH]; intros b j H; [destruct j; discriminate|]. destruct j as [|j]; cbn [nth_error length seq map combine] in *; [injection H as <-; left; f_equal; f_equal; lia|]. right. rewrite <- Nat.add_succ_comm. apply IH; auto. }
  apply (G l 0 j H).
Qed.
Lemma role_pairs : forall name lss i k l j y, nth_error lss k = Some l -> nth_error l j = Some y -> In (y, name (i + k) j) (role_names name i lss).
Proof.
  intros name lss. induction lss as [|l0 lss IH]; intros i k l j y H1 H2; [destruct k; discriminate|]. cbn [role_names]. apply in_or_app. destruct k as [|k]; cbn [nth_error] in H1.
  - injection H1 as ->. left. rewrite Nat.add_0_r. apply combine_nth_in; auto.
  - right. rewrite <- Nat.add_succ_comm. eapply IH; eauto.
Qed.
Lemma renamed_of : forall mp y x, NoDup (keys mp) -> In (y, x) mp -> renamed mp y = x.
Proof.
  intros mp y x N H. unfold renamed. induction mp as [|[a b] mp IH]; [destruct H|]. cbn [keys map fst] in N. inversion N as [|p q Na N']; subst. cbn [lookup]. destruct (String.eqb_spec y a) as [->|Ne].
  - destruct H as [H|H]; [congruence|]. exfalso. apply Na. apply in_map_iff. exists (a, x). auto.
  - destruct H as [H|H]; [congruence|auto].
Qed.
Lemma grown_requested : forall dnum unum m m', grown_macid m m' -> as_requested dnum unum m -> as_requested dnum unum m'.
Proof.
  intros dnum unum m m' (g' & -> & G) [A1 A2 A3 A4 A5 A6 A7]. constructor; auto.
  - intros a u v H E. apply (gr_tails _ _ G) in E. destruct E as (w & E). apply (A6 a u w H E).
  - intros a d H. destruct (A7 a d H) as (u & Hu & (w & E & R)). exists u. split; auto. exists w. split; [apply (gr_edges _ _ G); auto|]. clear - R G. induction R as [|x y z E R IH]; [constructor|]. econstructor; [apply (gr_edges _ _ G); eauto|auto].
Qed.
Lemma at_most_more : forall g k k' v, k <= k' -> at_most_parents g k v -> at_most_parents g k' v.
Proof. intros g k k' v L H l N K. specialize (H l N K). lia. Qed.

Record attempt_result (fuel : nat) (o : order) (n : nat) (dnum unum : list nat) (recall : bool) (density : Q) (mx : nat) (m : macid) : Prop := {
  at_roles : as_requested dnum unum m;
  at_dag : wf_dag (mgraph m);
  at_all : 2 <= n -> valid m /\ length (nodes (mgraph m)) = n /\ connected (mgraph m) /\ (wanted_edges n density <= Z.of_nat (length (edges (mgraph m))))%Z;
  at_parents : forall v, at_most_parents (mgraph m) (if recall then mx else Nat.max 4 mx) v;
  at_plain : forall x, In x (nodes (mgraph m)) -> plain_name x;
  at_recalled : recall = true -> exists m0 rnd, wf_dag (mgraph m0) /\ no_clash (mgraph m0) /\ (forall a d, listed (agent_decisions m0) a d -> In d (nodes (mgraph m0))) /\
    agent_decisions m0 = agent_decisions m /\ agent_utilities m0 = agent_utilities m /\ add_sufficient_recalls fuel o rnd m0 = Ok m }.
Lemma barren_reach : forall g d u, (forall v, ~ edge g d v) -> reach g d u -> d = u.
Proof. intros g d u H R. inversion R as [|a b c E R']; subst; auto. destruct (H _ E). Qed.
Lemma reach_first : forall g d u, reach g d u -> d <> u -> exists w, edge g d w /\ reach g w u.
Proof. intros g d u R N. destruct R as [|d w u E R]; [congruence|eauto]. Qed.
Lemma nth_error_Forall2 : forall (A B : Type) (P : A -> B -> Prop) l l' k x, Forall2 P l l' -> nth_error l k = Some x -> exists y, nth_error l' k = Some y /\ P x y.
Proof. intros A B P l l' k x F. revert k. induction F as [|a b l l' H F IH]; intros k E; [destruct k; discriminate|]. destruct k as [|k]; cbn in *; [injection E as <-; eauto|auto]. Qed.
Lemma attempt_ok : forall fuel o dr n dnum unum recall density mx m, valid_order o -> length dnum = length unum -> attempt fuel o dr n dnum unum recall density mx = Ok (Some m) -> attempt_result fuel o n dnum unum recall density mx m.
Proof.
  intros fuel o dr n dnum unum recall density mx m Ho Lnum H. unfold attempt in H. destruct (random_dag fuel (dr_dag dr) n density mx) as [g|] eqn:Eg; [|discriminate]. cbn [bind] in H.
  destruct (C52_partial _ _ _ _ _ _ Eg) as (Wd & Pn & Cn & Wt & Dg). assert (W := proj1 Wd).
  set (barren := filter (fun x => match children g x with [] => true | _ => false end) (nodes g)) in *.
  assert (Hb : forall x, In x barren <-> In x (nodes g) /\ forall v, ~ edge g x v).
  { intro x. unfold barren. rewrite filter_In. split; intros [H1 H2]; split; auto.
    - intros v E. apply in_children in E. destruct (children g x); [destruct E|discriminate].
    - destruct (children g x) as [|v l] eqn:Ec; auto. exfalso. apply (H2 v). apply in_children. rewrite Ec. left; auto. }
  assert (Nb : NoDup barren) by (apply NoDup_filter, wf_nodes; auto).
  destruct (Nat.ltb_spec (length barren) (fold_right Nat.add 0 unum)) as [Lb|Lb]; [discriminate|].
  destruct (pick_spec (dr_util dr) (length barren) barren Nb (Nat.le_refl _)) as (P1 & P2 & P3). set (sh := pick (dr_util dr) (length barren) barren) in *.
  destruct (deal_spec unum sh) as [D1 D2]; [rewrite P2; auto|]. set (uss := deal unum sh) in *.
  assert (Nu : NoDup (concat uss)) by (rewrite D2; apply NoDup_firstn; auto). assert (Iu : incl (concat uss) barren) by (rewrite D2; intros x K; apply firstn_incl in K; auto).
  destruct (give_decisions g (dr_dec dr) 0 uss dnum []) as [dss|] eqn:Ed; [|discriminate].
  assert (Luss : length uss = length unum) by (rewrite <- D1, map_length; auto).
  apply give_decisions_spec in Ed; auto; [|intros us Hus x Hx; apply (proj1 (Hb x)); apply Iu; apply in_concat; eauto|congruence|constructor]. destruct Ed as (G1 & G2 & G3). cbn [app] in G2.
  assert (Hd : forall k ds d, nth_error dss k = Some ds -> In d ds -> exists us u, nth_error uss k = Some us /\ In u us /\ reach g d u /\ d <> u).
  { intros k ds d K1 K2. destruct (nth_error_Forall2 _ _ _ _ _ k ds G3 K1) as (us & K3 & K4). destruct (K4 d K2) as (K5 & u & K6 & K7). exists us, u. repeat split; auto. intros ->. contradiction. }
  assert (Hc : forall d, In d (concat dss) -> In d (nodes g) /\ exists w, edge g d w).
  { intros d K. apply in_concat in K. destruct K as (ds & K1 & K2). apply In_nth_error in K1. destruct K1 as (k & K1). destruct (Hd k ds d K1 K2) as (us & u & K3 & K4 & K5 & K6). destruct (reach_first g d u K5 K6) as (w & E & R). split; [eapply wf_edge_l; eauto|eauto]. }
  assert (Nall : NoDup (concat uss ++ concat dss)) by (apply NoDup_app'; auto; intros x K1 K2; apply Iu, Hb in K1; apply Hc in K2; destruct K2 as (_ & w & K2); apply (proj2 K1 w K2)).
  assert (Iall : incl (concat uss ++ concat dss) (nodes g)) by (intros x K; apply in_app_iff in K; destruct K as [K|K]; [apply (proj1 (Hb x)), Iu; auto|apply Hc; auto]).
  destruct (name_changes_spec g uss dss (wf_nodes g W) Nall Iall) as (M1 & M2 & M3 & M4). set (mp := name_changes g uss dss) in *.
  destruct (relabel_image g mp W M3 M1) as [Wh Im]. set (h := relabel g mp) in *. set (f := renamed mp) in *.
  assert (Ru : forall k us j u, nth_error uss k = Some us -> nth_error us j = Some u -> f u = uname k j) by (intros k us j u K1 K2; apply renamed_of; auto; unfold mp, name_changes; apply in_or_app; left; apply in_or_app; left; apply (role_pairs uname uss 0 k us j u); auto).
  assert (Rd : forall k ds j d, nth_error dss k = Some ds -> nth_error ds j = Some d -> f d = dname k j) by (intros k ds j d K1 K2; apply renamed_of; auto; unfold mp, name_changes; apply in_or_app; left; apply in_or_app; right; apply (role_pairs dname dss 0 k ds j d); auto).
  destruct (image_load_small f g h Wd Wh Im) as (En & Wl & El).
  set (ad := role_lists dname 0 dss) in *. set (au := role_lists uname 0 uss) in *. assert (Ei : macid_init (edges_view h) ad au = Ok (mkM (load_edges (edges_view h)) ad au (owner_dict ad) (owner_dict au))) by (unfold macid_init; rewrite En; reflexivity).
  set (m0 := mkM (load_edges (edges_view h)) ad au (owner_dict ad) (owner_dict au)) in *. rewrite Ei in H. cbn [bind] in H.
  assert (Ldss : length dss = length dnum) by (rewrite <- G1, map_length; auto).
  assert (CL : clean_lists ad au).
  { split; [unfold ad; rewrite keys_role_lists; apply NoDup_labels|]. split; [unfold au; rewrite keys_role_lists; apply NoDup_labels|]. apply NoDup_app'; [apply NoDup_role_vals, dname_inj|apply NoDup_role_vals, uname_inj|]. intros x K1 K2. apply in_role_lists in K1, K2. destruct K1 as (a & b & _ & ->), K2 as (c & d & _ & E). discriminate E. }
  assert (Lu : forall a x, listed au a x -> exists k us u, nth_error uss k = Some us /\ In u us /\ a = str_of k /\ x = f u).
  { intros a x K. apply role_lists_listed in K. destruct K as (k & us & j & u & K1 & K2 & -> & ->). exists k, us, u. cbn [Nat.add]. rewrite (Ru k us j u K1 K2). repeat split; auto. eapply nth_error_In; eauto. }
  assert (Ld : forall a x, listed ad a x -> exists k ds d, nth_error dss k = Some ds /\ In d ds /\ a = str_of k /\ x = f d).
  { intros a x K. apply role_lists_listed in K. destruct K as (k & ds & j & d & K1 & K2 & -> & ->). exists k, ds, d. cbn [Nat.add]. rewrite (Rd k ds j d K1 K2). repeat split; auto. eapply nth_error_In; eauto. }
  assert (Rq : as_requested dnum unum m0).
  { constructor.
    - unfold m0, ad. cbn [agent_decisions]. rewrite keys_role_lists, Ldss. auto.
    - unfold m0, au. cbn [agent_utilities]. rewrite keys_role_lists, Luss. auto.
    - unfold m0, ad. cbn [agent_decisions]. rewrite lengths_role_lists. auto.
    - unfold m0, au. cbn [agent_utilities]. rewrite lengths_role_lists. auto.
    - destruct (C12_consistent (edges_view h) ad au m0 [] Ei CL) as [C _]. exact C.
    - intros a x v K E. cbn [has_role] in K. unfold m0 in K, E. cbn [agent_utilities mgraph] in K, E. apply Lu in K. destruct K as (k & us & u & K1 & K2 & -> & ->). apply El, (i_edges _ _ _ Im) in E. destruct E as (u' & v' & E & E1 & E2).
      assert (Ku : In u barren) by (apply Iu, in_concat; exists us; split; auto; eapply nth_error_In; eauto). apply Hb in Ku. apply (i_inj _ _ _ Im) in E1; [|tauto|eapply wf_edge_l; eauto]. subst u'. apply (proj2 Ku v' E).
    - intros a x K. cbn [has_role] in K. unfold m0 in K. cbn [agent_decisions] in K. apply Ld in K. destruct K as (k & ds & d & K1 & K2 & -> & ->). destruct (Hd k ds d K1 K2) as (us & u & K3 & K4 & K5 & K6). apply In_nth_error in K4. destruct K4 as (j & K4). exists (f u). split.
      + cbn [has_role]. unfold m0. cbn [agent_utilities]. apply role_lists_listed. exists k, us, j, u. cbn [Nat.add]. rewrite (Ru k us j u K3 K4). auto.
      + unfold m0. cbn [mgraph]. destruct (reach_first g d u K5 K6) as (q & E & R). exists (f q). split; [apply El, (i_edges _ _ _ Im); eauto|]. apply (image_forward f g h Im) in R. clear - R El. induction R as [|x y z E R IH]; [constructor|]. econstructor; [apply El; eauto|auto]. }
  assert (Nsz : length (nodes g) = n) by (rewrite (Permutation_length Pn); apply names_length).
  assert (Pl : forall x, In x (nodes (mgraph m0)) -> plain_name x).
  { intros x K. unfold m0 in K. cbn [mgraph] in K. assert (Kh : In x (nodes h)) by (apply (edges_view_nodes h x Wh) in K; destruct K as (y & [K|K]); [eapply wf_edge_l|eapply wf_edge_r]; eauto). apply (i_nodes _ _ _ Im) in Kh. destruct Kh as (u & Hu & ->). apply M4. apply M1 in Hu. apply lookup_val in Hu. apply in_map_iff. exists (u, f u). auto. }
  assert (Par : forall v, at_most_parents (mgraph m0) (Nat.max 4 mx) v).
  { intros v l N K. apply (image_parents f g h (Nat.max 4 mx) W Im Dg v l N). intros p Hp. apply El. apply K. auto. }
  assert (All : 2 <= n -> valid m0 /\ length (nodes (mgraph m0)) = n /\ connected (mgraph m0) /\ (wanted_edges n density <= Z.of_nat (length (edges (mgraph m0))))%Z).
  { intro L2. destruct (image_load f g h Wd Wh Im Cn) as (_ & _ & Il); [rewrite Nsz; auto|]. destruct (image_sizes f g _ W (proj1 Wl) Il) as [S1 S2]. split; [|split; [|split]].
    - apply (valid_init (edges_view h) ad au m0 Ei CL). intros a x K. unfold m0. cbn [mgraph]. apply (i_nodes _ _ _ Il). destruct K as [K|K].
      + apply Ld in K. destruct K as (k & ds & d & K1 & K2 & _ & ->). exists d. split; auto. apply Hc, in_concat. exists ds. split; auto. eapply nth_error_In; eauto.
      + apply Lu in K. destruct K as (k & us & u & K1 & K2 & _ & ->). exists u. split; auto. apply (proj1 (Hb u)), Iu, in_concat. exists us. split; auto. eapply nth_error_In; eauto.
    - unfold m0. cbn [mgraph]. congruence.
    - apply (image_connected f g _ Il Cn).
    - unfold m0. cbn [mgraph]. rewrite S2. auto. }
  destruct recall.
  - destruct (add_sufficient_recalls fuel o (dr_recall dr) m0) as [m1|] eqn:Er; [|discriminate]. cbn [bind] in H. destruct (check_max_in_degree (mgraph m1) mx) eqn:Ec; [|discriminate]. injection H as <-.
    assert (NC : no_clash (mgraph m0)) by (apply plain_no_clash; auto).
    assert (Pd : forall a x, listed (agent_decisions m0) a x -> In x (nodes (mgraph m0))).
    { intros a x K. destruct (Nat.le_gt_cases 2 n) as [L2|L2]; [apply (proj2 (proj2 (proj1 (All L2))) a x); auto|]. exfalso. unfold m0 in K. cbn [agent_decisions] in K. apply Ld in K. destruct K as (k & ds & d & K1 & K2 & _ & _).
      destruct (Hc d) as (Hd1 & w & Hw); [apply in_concat; exists ds; split; auto; eapply nth_error_In; eauto|]. assert (Hd2 := wf_edge_r g W d w Hw). destruct (nodes g) as [|p [|q l]]; cbn in Nsz; [destruct Hd1| |lia]. destruct Hd1 as [<-|[]], Hd2 as [<-|[]]. apply (proj2 Wd p). apply edge_descends; auto. }
    assert (Er0 := Er). apply add_recalls_ok in Er; auto.
    + assert (Gr := Er). destruct Gr as (g' & E1 & Gr). constructor.
      * eapply grown_requested; eauto.
      * rewrite E1. apply Gr.
      * intro L2. destruct (All L2) as (V & S1 & C & S2). rewrite E1. cbn [mgraph with_graph]. assert (Nn := gr_nodes _ _ Gr). destruct V as (V1 & V2 & V3). split; [split; [apply Gr|split; [exact V2|intros a x K; apply Nn; apply (V3 a x K)]]|]. split; [|split].
        -- rewrite <- S1. apply Permutation_length, NoDup_Permutation; auto; [apply wf_nodes, Gr|apply wf_nodes, V1].
        -- intros x y Hx Hy. apply (joined_edges (mgraph m0)); [apply Gr|]. apply C; apply Nn; auto.
        -- eapply Z.le_trans; [exact S2|]. apply inj_le. apply NoDup_incl_length; [apply wf_edges, V1|]. intros [x y] K. apply (gr_edges _ _ Gr x y K).
      * intro v. apply at_most_degree; [rewrite E1; apply Gr|]. unfold check_max_in_degree in Ec. rewrite forallb_forall in Ec. destruct (in_dec string_dec v (nodes (mgraph m1))) as [Hv|Hv]; [apply Nat.leb_le, Ec; auto|].
        unfold in_degree. destruct (parents (mgraph m1) v) as [|p l] eqn:Ep; [cbn; lia|]. exfalso. apply Hv. eapply wf_edge_r; [rewrite E1; apply Gr|]. apply in_parents. rewrite Ep. left. reflexivity.
      * intros x K. apply Pl. rewrite E1 in K. apply (gr_nodes _ _ Gr) in K. auto.
      * intros _. exists m0, (dr_recall dr). split; [exact Wl|]. split; [exact NC|]. split; [exact Pd|]. rewrite E1. cbn [agent_decisions agent_utilities with_graph]. split; [reflexivity|]. split; [reflexivity|]. rewrite <- E1. exact Er0.
  - injection H as <-. constructor; auto. discriminate.
Qed.

(* ---- recall of one decision by another ---- *)
Lemma mec_observed : forall g h d1 d2 u Z, wf_dag g -> no_clash g -> is_mech_graph g h -> In d1 (nodes g) -> In u (nodes g) -> d1 <> d2 -> In d2 (nodes g) -> dconn h Z (mec d1) u -> dconn h (mec d2 :: Z) (mec d1) u.
Proof.
  intros g h d1 d2 u Z Wd NC (M1 & M2 & M3) H1 Hu Ne H2 (D1 & D2 & p & (Hc & Hn & Hf) & Ha).
  assert (Only : forall z, adjacent h (mec d2) z -> z = d2).
  { intros z [K|K]; apply M2 in K; destruct K as [K|[K E']].
    - exfalso. apply (wf_edge_l g (proj1 Wd)) in K. apply (proj1 (NC d2 H2)). auto.
    - apply mec_inj in E'. auto.
    - exfalso. apply (wf_edge_r g (proj1 Wd)) in K. apply (proj1 (NC d2 H2)). auto.
    - exfalso. apply (proj1 (NC d2 H2)). auto. }
  split; [intros [E|K]; [apply mec_inj in E; congruence|auto]|]. split; [intros [E|K]; [rewrite <- E in Hu; apply (proj1 (NC d2 H2)); auto|auto]|]. exists p. split; [split; auto|]. intros a b c T. destruct (Ha a b c T) as [A1 A2]. split.
  - intro K. destruct (A1 K) as (d & R & Hd). exists d. split; auto. right. auto.
  - intros K [E|Hz]; [|apply (A2 K Hz)]. subst b. destruct (LActive.triple_adj _ _ _ _ _ Hc T) as [T1 T2]. apply adjacent_sym in T1. apply Only in T1. apply Only in T2. subst a c. destruct T as (l & r & E). rewrite E in Hn. apply NoDup_app_inv in Hn. destruct Hn as (_ & Hn & _). inversion Hn as [|? ? K1 K2]; subst. apply K1. right. left. auto.
Qed.

Lemma dconn_set : forall g Z Z' x y, (forall z, In z Z <-> In z Z') -> dconn g Z x y -> dconn g Z' x y.
Proof.
  intros g Z Z' x y E (H1 & H2 & p & S & A). split; [rewrite <- E; auto|]. split; [rewrite <- E; auto|]. exists p. split; auto. intros a b c T. destruct (A a b c T) as [A1 A2]. split; [intro K; destruct (A1 K) as (d & K1 & K2); exists d; rewrite <- E; auto|]. intro K. rewrite <- E. auto.
Qed.
(* after the edges have been added, the later decision does not rely on the earlier one *)
Lemma recalled_irrelevant : forall m h u d1 d2, wf_dag (mgraph m) -> no_clash (mgraph m) -> is_mech_graph (mgraph m) h -> In d1 (nodes (mgraph m)) -> In d2 (nodes (mgraph m)) -> d1 <> d2 -> In u (nodes (mgraph m)) ->
  (forall a u', listed (agent_utilities m) a u' -> u' = u) -> is_dconnected h (mec d1) u (parents h d2 ++ [d2]) = Ok false -> ~ r_relevant m d2 d1.
Proof.
  intros m h u d1 d2 W NC M H1 H2 Ne Hu Lu F R. apply r_relevant_char in R; auto. destruct R as (a' & u' & R1 & R2 & R3 & R4).
  assert (Wh := proj1 M). apply Lu in R2. subst u'.
  assert (D : dconn h (family (mgraph m) d2) (mec d1) u).
  { apply (pendant_dconn h (mgraph m) (mec d1) d1); auto; [apply pendant_mech; auto; apply W|apply W|apply family_nodes; auto; apply W]. }
  apply (mec_observed (mgraph m) h d1 d2) in D; auto.
  assert (Wm : forall x, In x (nodes (mgraph m)) -> In x (nodes h)) by (intros x K; apply (proj2 (proj2 M)); auto).
  assert (Hmec : forall x, In x (nodes (mgraph m)) -> In (mec x) (nodes h)) by (intros x K; apply (proj2 (proj2 M)); eauto).
  assert (Q : forall z, In z (mec d2 :: family (mgraph m) d2) <-> In z (parents h d2 ++ [d2])).
  { intro z. cbn [In]. rewrite in_family, in_app_iff, in_parents. cbn [In]. assert (X := proj1 (proj2 M) z d2). unfold edge in *. split.
    - intros [E|[E|E]]; [left; apply X; right; auto|right; left; auto|left; apply X; auto].
    - intros [E|[E|[]]]; [apply X in E; destruct E as [E|[_ E]]; auto|auto]. }
  apply (dconn_set _ _ _ _ _ Q) in D.
  destruct (LActive.is_dconnected_spec h (mec d1) u (parents h d2 ++ [d2])) as (b & E & S); auto.
  - intros z K. apply Q in K. destruct K as [<-|K]; auto. apply Wm. eapply family_nodes; [apply W|exact H2|exact K].
  - rewrite F in E. injection E as <-. apply S in D. discriminate.
Qed.
Lemma recall_pair_breaks : forall fuel o rnd m k u x y m' k', valid_order o -> wf_dag (mgraph m) -> no_clash (mgraph m) -> In x (nodes (mgraph m)) -> In y (nodes (mgraph m)) -> In u (nodes (mgraph m)) -> x <> y ->
  (forall a u', listed (agent_utilities m) a u' -> u' = u) -> recall_pair fuel o rnd (m, k) u x y = Ok (m', k') -> ~ r_relevant m' x y \/ ~ r_relevant m' y x.
Proof.
  intros fuel o rnd m k u x y m' k' Ho W NC Hx Hy Hu Ne Lu H. unfold recall_pair in H.
  assert (N : forall d v, mem u (descendants (mgraph m) d) = false -> In d (nodes (mgraph m)) -> ~ r_relevant m d v).
  { intros d v K Hd (a & u' & w & _ & R2 & R3 & _). apply Lu in R2. subst u'. apply mem_nIn in K. apply K. apply descendants_iff; auto; apply W. }
  assert (Y : forall d1 d2, In d1 (nodes (mgraph m)) -> In d2 (nodes (mgraph m)) -> d1 <> d2 -> add_sufficient_recall fuel o rnd k m d1 d2 u = Ok (m', k') -> ~ r_relevant m' d2 d1).
  { intros d1 d2 K1 K2 K3 K. apply add_recall_ok in K; auto. destruct K as ((g' & E & G) & h & M & F). subst m'. cbn [mgraph with_graph] in M. apply (recalled_irrelevant _ h u d1 d2); cbn [mgraph with_graph agent_utilities]; auto; try apply (gr_wf _ _ G); auto; try (apply (gr_nodes _ _ G); auto; fail). unfold no_clash. intros n Hn. rewrite (gr_nodes _ _ G) in *. auto. }
  destruct (mem x (ancestors_of (mgraph m) [y])).
  - destruct (mem u (descendants (mgraph m) y)) eqn:E; [right; auto|injection H as <- <-; right; auto].
  - destruct (mem u (descendants (mgraph m) x)) eqn:E; [left; auto|injection H as <- <-; left; auto].
Qed.
