(* Lemmas about random_cid. *)
From Coq Require Import String Ascii List Bool Arith ZArith QArith Lia Permutation.
Import ListNotations.
From Verif Require Import MBase MGraph MPaths MMacid MRandDag MRandMacid MRandCid Spec SpecM SpecQ SpecRand LBase LGraph LRoles LMech LReach LBayes LRandDag LRandMacid PMacid PRandDag PRandMacid.
Local Open Scope string_scope.
Local Open Scope list_scope.
Local Open Scope nat_scope.

(* ---- names ---- *)
Lemma cid_dname_inj : forall i j, cid_dname i = cid_dname j -> i = j.
Proof. intros i j H. unfold cid_dname in H. cbn [String.append] in H. injection H as H. apply str_of_inj; auto. Qed.
Lemma cid_uname_inj : forall i j, cid_uname i = cid_uname j -> i = j.
Proof. intros i j H. unfold cid_uname in H. cbn [String.append] in H. injection H as H. apply str_of_inj; auto. Qed.
Lemma cid_names_differ : forall i j, cid_dname i <> cid_uname j.
Proof. intros i j H. discriminate H. Qed.
Lemma cid_dname_bare : forall i, bare_name (cid_dname i) /\ has_char "_" (cid_dname i) = false.
Proof. intros i. split; [split; [|eexists _, _; split; [reflexivity|discriminate]]|]; unfold cid_dname; rewrite !has_char_app, !str_of_digits by reflexivity; reflexivity. Qed.
Lemma cid_uname_bare : forall i, bare_name (cid_uname i) /\ has_char "_" (cid_uname i) = false.
Proof. intros i. split; [split; [|eexists _, _; split; [reflexivity|discriminate]]|]; unfold cid_uname; rewrite !has_char_app, !str_of_digits by reflexivity; reflexivity. Qed.
Lemma in_new_names : forall f l x, In x (new_names f l) -> exists i, x = f i.
Proof. intros f l x H. unfold new_names in H. apply in_map_iff in H. destruct H as (i & <- & _). eauto. Qed.
Lemma new_names_length : forall f l, length (new_names f l) = length l.
Proof. intros f l. unfold new_names. rewrite map_length, seq_length. auto. Qed.

Lemma image_same : forall g, image (fun x => x) g g.
Proof. intro g. constructor; auto; [intro x; split; [eauto|intros (u & H & ->); auto]|]. intros a b. split; [eauto|intros (u & v & H & -> & ->); auto]. Qed.

(* ---- the diagram ---- *)
Record cid_result (mb m : macid) (f : node -> node) : Prop := {
  cr_image : image f (mgraph mb) (mgraph m);
  cr_wf : wf_dag (mgraph m);
  cr_decs : agent_decisions m = [(zero, new_names cid_dname (decisions mb))];
  cr_utils : agent_utilities m = [(zero, new_names cid_uname (utilities mb))];
  cr_dec_of : forall y, In y (new_names cid_dname (decisions mb)) <-> exists x, In x (decisions mb) /\ y = f x;
  cr_util_of : forall y, In y (new_names cid_uname (utilities mb)) <-> exists x, In x (utilities mb) /\ y = f x;
  cr_bare : forall x, In x (nodes (mgraph m)) -> bare_name x;
  cr_clean : clean_lists (agent_decisions m) (agent_utilities m);
  cr_init : exists es, macid_init es (agent_decisions m) (agent_utilities m) = Ok m }.
Lemma vals_of : forall (l : list node) f y, In y (new_names f l) -> exists x, In x l /\ In (x, y) (combine l (new_names f l)).
Proof.
  intros l f y H. rewrite <- (vals_combine l f) in H. apply in_map_iff in H. destruct H as ([x z] & E & H). cbn in E. subst z. exists x. split; auto. eapply in_combine_l; eauto.
Qed.
Lemma random_cid_result : forall fuel o drs n nd nu recall density mx k m, valid_order o -> 2 <= n -> random_cid fuel o drs n nd nu recall density mx k = Ok m ->
  exists mb f, random_macidbase fuel o drs n [nd] [nu] recall density mx k = Ok mb /\ cid_result mb m f.
Proof.
  intros fuel o drs n nd nu recall density mx k m Ho L H. unfold random_cid in H. destruct (random_macidbase fuel o drs n [nd] [nu] recall density mx k) as [mb|] eqn:Eb; [|discriminate]. cbn [bind] in H.
  assert (A := random_result _ _ _ _ _ _ _ _ _ _ _ Ho Eb). destruct A as [_ A]. destruct (at_all _ _ _ _ _ _ _ _ _ A L) as (V & N & C & _). destruct V as (Wd & Co & Pr).
  assert (G := Co). apply good_consistent in G. destruct G as (Gd & Gu & Gx).
  destruct (image_load (fun x => x) (mgraph mb) (mgraph mb) Wd (proj1 Wd) (image_same _) C) as (En & Wl & Il); [lia|]. rewrite En in H. cbn [bind] in H. set (g := load_edges (edges_view (mgraph mb))) in *.
  set (ds := new_names cid_dname (decisions mb)) in *. set (us := new_names cid_uname (utilities mb)) in *. set (mp := combine (decisions mb) ds ++ combine (utilities mb) us) in *.
  assert (Km : keys mp = decisions mb ++ utilities mb) by (unfold mp, keys; rewrite map_app; f_equal; [apply (keys_combine (decisions mb))|apply (keys_combine (utilities mb))]).
  assert (Vm : map snd mp = ds ++ us) by (unfold mp; rewrite map_app; f_equal; [apply (vals_combine (decisions mb))|apply (vals_combine (utilities mb))]).
  assert (NK : NoDup (keys mp)) by (rewrite Km; apply NoDup_app'; [apply Gd|apply Gu|intros x K1 K2; apply (Gx x); auto]).
  assert (NV : NoDup (map snd mp)).
  { rewrite Vm. apply NoDup_app'; [apply NoDup_new_names, cid_dname_inj|apply NoDup_new_names, cid_uname_inj|]. intros x K1 K2. apply in_new_names in K1, K2. destruct K1 as (i & ->), K2 as (j & E). apply (cid_names_differ i j E). }
  assert (VB : forall y, In y (map snd mp) -> bare_name y /\ has_char "_" y = false) by (intros y K; rewrite Vm in K; apply in_app_iff in K; destruct K as [K|K]; apply in_new_names in K; destruct K as (i & ->); [apply cid_dname_bare|apply cid_uname_bare]).
  assert (Ng : forall x, In x (nodes g) <-> In x (nodes (mgraph mb))) by (intro x; rewrite (i_nodes _ _ _ Il); split; [intros (u & K & ->); auto|eauto]).
  assert (RO : forall x, ~ In x (keys mp) -> renamed mp x = x) by (intros x K; unfold renamed; destruct (lookup x mp) as [y|] eqn:E; auto; exfalso; apply K; apply lookup_In in E; apply in_map_iff; exists (x, y); auto).
  assert (RI : forall x, In x (keys mp) -> In (renamed mp x) (map snd mp)) by (intros x K; apply lookup_val in K; apply in_map_iff; exists (x, renamed mp x); auto).
  assert (Inj : forall x y, In x (nodes g) -> In y (nodes g) -> renamed mp x = renamed mp y -> x = y).
  { intros x y Hx Hy E. apply Ng, (at_plain _ _ _ _ _ _ _ _ _ A) in Hx, Hy. destruct (in_dec string_dec x (keys mp)) as [Kx|Kx], (in_dec string_dec y (keys mp)) as [Ky|Ky].
    - eapply renamed_inj; eauto.
    - exfalso. rewrite (RO y Ky) in E. apply RI, VB in Kx. destruct Kx as [_ Kx]. rewrite E in Kx. destruct Hy as [_ Hy]. congruence.
    - exfalso. rewrite (RO x Kx) in E. apply RI, VB in Ky. destruct Ky as [_ Ky]. rewrite <- E in Ky. destruct Hx as [_ Hx]. congruence.
    - rewrite (RO x Kx), (RO y Ky) in E. auto. }
  destruct (relabel_some g mp (proj1 Wl) Inj) as [Wh Im]. set (h := relabel g mp) in *. set (f := renamed mp) in *.
  assert (Sz : 2 <= length (nodes g)) by (destruct (image_sizes _ _ _ (proj1 Wd) (proj1 Wl) Il) as [S1 _]; rewrite S1; lia).
  destruct (image_load f g h Wl Wh Im) as (Eh & Wlh & Ih); [apply (image_connected _ _ _ Il C)|auto|].
  assert (Ei : cid_init (edges_view h) ds us = Ok m) by exact H. unfold cid_init, macid_init in H. rewrite Eh in H. cbn [bind] in H. injection H as <-.
  exists mb, f. split; auto. constructor; cbn [mgraph agent_decisions agent_utilities]; auto.
  - constructor.
    + intros x y Hx Hy. apply Inj; apply Ng; auto.
    + intro x. rewrite (i_nodes _ _ _ Ih). split; intros (u & K & ->); exists u; split; auto; apply Ng; auto.
    + intros a b. rewrite (i_edges _ _ _ Ih). split; intros (u & v & K & -> & ->); exists u, v; split; auto; apply (i_edges _ _ _ Il) in K || apply (i_edges _ _ _ Il).
      * destruct K as (u' & v' & K & -> & ->). auto.
      * eauto.
  - intro y. split.
    + intro K. apply vals_of in K. destruct K as (x & K1 & K2). exists x. split; auto. symmetry. apply renamed_of; auto. unfold mp. apply in_or_app. left. auto.
    + intros (x & K & ->). assert (K' : In x (keys mp)) by (rewrite Km; apply in_or_app; auto). apply lookup_val in K'. fold f in K'. unfold mp in K'. apply in_app_iff in K'. destruct K' as [K'|K']; [eapply in_combine_r; eauto|]. exfalso. apply in_combine_l in K'. apply (Gx x). auto.
  - intro y. split.
    + intro K. apply vals_of in K. destruct K as (x & K1 & K2). exists x. split; auto. symmetry. apply renamed_of; auto. unfold mp. apply in_or_app. right. auto.
    + intros (x & K & ->). assert (K' : In x (keys mp)) by (rewrite Km; apply in_or_app; auto). apply lookup_val in K'. fold f in K'. unfold mp in K'. apply in_app_iff in K'. destruct K' as [K'|K']; [|eapply in_combine_r; eauto]. exfalso. apply in_combine_l in K'. apply (Gx x). auto.
  - intros x K. apply (i_nodes _ _ _ Ih) in K. destruct K as (u & Hu & ->). destruct (in_dec string_dec u (keys mp)) as [Ku|Ku]; [apply VB, RI; auto|]. rewrite (RO u Ku). apply Ng, (at_plain _ _ _ _ _ _ _ _ _ A) in Hu. apply Hu.
  - split; [repeat constructor; cbn; tauto|]. split; [repeat constructor; cbn; tauto|]. cbn [map snd concat]. rewrite !app_nil_r, <- Vm. auto.
  - exists (edges_view h). exact Ei.
Qed.

(* ---- the roles of a diagram with one agent ---- *)
Lemma sole_roles : forall dnum unum m, as_requested dnum unum m -> valid m -> length dnum = 1 -> length unum = 1 ->
  (forall x, In x (decisions m) <-> has_role m x (RDecision zero)) /\ (forall x, In x (utilities m) <-> has_role m x (RUtility zero)) /\
  dnum = [length (decisions m)] /\ unum = [length (utilities m)].
Proof.
  intros dnum unum m R (Wd & Co & Pr) Ld Lu. assert (G := Co). apply good_consistent in G. destruct G as (Gd & Gu & Gx).
  assert (X : forall d o num, side_ok d o -> keys d = map str_of (seq 0 (length num)) -> map (fun al => length (snd al)) d = num -> length num = 1 ->
    (forall x, In x (keys o) <-> listed d zero x) /\ num = [length (keys o)]).
  { intros d o num S K Ln L1. destruct num as [|a [|? ?]]; try discriminate. cbn in K. destruct d as [|[b l] [|? ?]]; try discriminate. cbn in K. injection K as ->.
    assert (Y : forall x, In x (keys o) <-> listed [(str_of 0, l)] zero x).
    { intro x. rewrite lookup_In_keys. split; [intros (v & K); apply (side_listed _ _ v x S) in K; destruct K as (l' & [K1|[]] & K2); injection K1 as <- <-; exists l; split; [left; reflexivity|auto]|]. intro K. apply (side_listed _ _ zero x S) in K. eauto. }
    split; auto. cbn in Ln. rewrite <- Ln. f_equal. apply Permutation_length, NoDup_Permutation; [eapply (proj1 (proj2 (proj2 S)) (str_of 0)); reflexivity|apply S|]. intro x. rewrite Y. split; [intro K; exists l; split; [left; reflexivity|auto]|intros (l' & [K|[]] & K2); injection K as <-; auto]. }
  destruct (X _ _ dnum Gd (ar_dec_agents _ _ _ R) (ar_decs _ _ _ R) Ld) as [X1 X2]. destruct (X _ _ unum Gu (ar_util_agents _ _ _ R) (ar_utils _ _ _ R) Lu) as [Y1 Y2]. auto.
Qed.
Lemma image_descends : forall f g h, image f g h -> forall u v, descends g u v -> descends h (f u) (f v).
Proof. intros f g h I u v (w & E & R). exists (f w). split; [apply (i_edges _ _ _ I); eauto|eapply image_forward; eauto]. Qed.
Lemma roles_apart : forall d : list (agent * list node), NoDup (keys d) -> (forall a l, In (a, l) d -> NoDup l) -> (forall a b x, listed d a x -> listed d b x -> a = b) -> NoDup (concat (map snd d)).
Proof.
  induction d as [|[a l] d IH]; intros N NL U; cbn [map snd concat]; [constructor|]. cbn [keys map fst] in N. inversion N as [|? ? Na N']; subst. apply NoDup_app'.
  - apply (NL a). left. auto.
  - apply IH; auto; [intros b l' K; apply (NL b); right; auto|]. intros b c x (l1 & K1 & I1) (l2 & K2 & I2). apply (U b c x); [exists l1|exists l2]; split; auto; right; auto.
  - intros x K1 K2. apply in_concat in K2. destruct K2 as (l' & K2 & I2). apply in_map_iff in K2. destruct K2 as ([b l2] & E & K2). cbn in E. subst l2. apply Na. replace a with b; [apply in_map_iff; exists (b, l'); auto|]. apply (U b a x); [exists l'; split; auto; right; auto|exists l; split; auto; left; auto].
Qed.
