(* From an active path to a circuit that carries its information. *)
From Coq Require Import String List Bool Arith QArith Qcanon Lia Permutation.
Import ListNotations.
From Verif Require Import MBase MGraph Spec LBase LGraph LWire.
Local Open Scope string_scope.
Local Open Scope list_scope.

Definition xors (be : nat -> bool) (l : list nat) : bool := fold_right (fun j b => xorb (be j) b) false l.
Lemma xors_app : forall be l l', xors be (l ++ l') = xorb (xors be l) (xors be l').
Proof. intros be l l'. induction l as [|j l IH]; [change (xors be l' = xorb false (xors be l')); destruct (xors be l'); auto|]. change (xorb (be j) (xors be (l ++ l')) = xorb (xorb (be j) (xors be l)) (xors be l')). rewrite IH. destruct (be j), (xors be l), (xors be l'); auto. Qed.
(* gates whose sources are at parents; those of F change together *)
Record laid (g : graph) (d u : node) (C : list (node * source)) (F : nat -> bool) : Prop := {
  l_copy : forall j v i, nth_error C j = Some (v, Copy i) -> (i < length C)%nat /\ edge g (loc C i) v /\ F j = F i;
  l_xor : forall j v i i', nth_error C j = Some (v, Xor i i') -> ((i < length C)%nat /\ edge g (loc C i) v) /\ ((i' < length C)%nat /\ edge g (loc C i') v) /\ F j = xorb (F i) (F i');
  l_const : forall j v b, nth_error C j = Some (v, Const b) -> F j = false;
  l_node : forall j, (j < length C)%nat -> In (loc C j) (nodes g) /\ loc C j <> u;
  l_open : forall j s, nth_error C j = Some (d, s) -> s = Open }.
(* more gates, none of which changes with F *)
Record more (C : list (node * source)) (F : nat -> bool) (C' : list (node * source)) (F' : nat -> bool) : Prop := {
  m_app : exists E, C' = C ++ E;
  m_old : forall j, (j < length C)%nat -> F' j = F j;
  m_new : forall j, (length C <= j)%nat -> F' j = false }.
Lemma loc_app : forall C E j, (j < length C)%nat -> loc (C ++ E) j = loc C j.
Proof. intros C E j H. unfold loc. rewrite nth_error_app1 by auto. auto. Qed.
Lemma loc_at : forall C j v s, nth_error C j = Some (v, s) -> loc C j = v.
Proof. intros C j v s E. unfold loc. rewrite E. auto. Qed.
Lemma more_loc : forall C F C' F' j, more C F C' F' -> (j < length C)%nat -> loc C' j = loc C j.
Proof. intros C F C' F' j M H. destruct (m_app _ _ _ _ M) as (E & ->). apply loc_app; auto. Qed.
Lemma more_len : forall C F C' F', more C F C' F' -> (length C <= length C')%nat.
Proof. intros C F C' F' M. destruct (m_app _ _ _ _ M) as (E & ->). rewrite app_length. lia. Qed.
Lemma more_refl : forall C F, (forall j, (length C <= j)%nat -> F j = false) -> more C F C F.
Proof. intros C F H. constructor; auto. exists []. rewrite app_nil_r. auto. Qed.
Lemma more_trans : forall C F C1 F1 C2 F2, more C F C1 F1 -> more C1 F1 C2 F2 -> more C F C2 F2.
Proof.
  intros C F C1 F1 C2 F2 M N. assert (L := more_len _ _ _ _ M). destruct M as [(E & ->) M2 M3], N as [(E' & ->) N2 N3]. constructor.
  - exists (E ++ E'). rewrite app_assoc. auto.
  - intros j Hj. rewrite N2 by lia. auto.
  - intros j Hj. destruct (Nat.lt_ge_cases j (length (C ++ E))) as [H|H]; [rewrite N2 by auto; auto|auto].
Qed.
Lemma more_carries : forall C F C' F' be, more C F C' F' -> carries C' be -> carries C be.
Proof.
  intros C F C' F' be M H j. specialize (H j). destruct (m_app _ _ _ _ M) as (E & ->). destruct (nth_error C j) as [[v s]|] eqn:K; auto. rewrite nth_error_app1 in H by (apply nth_error_Some; congruence). rewrite K in H. auto.
Qed.
Lemma laid_gate : forall g d u C F v s, laid g d u C F -> (forall j, (length C <= j)%nat -> F j = false) -> In v (nodes g) -> v <> u -> (v = d -> s = Open) ->
  match s with Open | Const _ => True | Copy i => (i < length C)%nat /\ edge g (loc C i) v /\ F i = false | Xor _ _ => False end ->
  laid g d u (C ++ [(v, s)]) F /\ more C F (C ++ [(v, s)]) F.
Proof.
  intros g d u C F v s [L1 L2 LC L3 L4] HF Hv Nu Hd Hs. assert (Last : forall j w t, nth_error (C ++ [(v, s)]) j = Some (w, t) -> nth_error C j = Some (w, t) \/ (j = length C /\ w = v /\ t = s)).
  { intros j w t E. destruct (Nat.lt_ge_cases j (length C)) as [H|H]; [rewrite nth_error_app1 in E by auto; auto|]. rewrite nth_error_app2 in E by auto. right. destruct (j - length C)%nat as [|k] eqn:K; [|destruct k; discriminate]. injection E as <- <-. split; auto. lia. }
  split; [|constructor; auto; exists [(v, s)]; auto]. constructor.
  - intros j w i E. rewrite app_length. apply Last in E. destruct E as [E|(-> & -> & <-)].
    + apply L1 in E. destruct E as (E1 & E2 & E3). rewrite loc_app by auto. split; [lia|auto].
    + destruct Hs as (S1 & S2 & S3). rewrite loc_app by auto. split; [lia|]. split; auto. rewrite S3. auto.
  - intros j w i i' E. rewrite app_length. apply Last in E. destruct E as [E|(-> & -> & <-)]; [|destruct Hs].
    apply L2 in E. destruct E as ((E1 & E2) & (E3 & E4) & E5). rewrite !loc_app by auto. split; [split; [lia|auto]|]. split; [split; [lia|auto]|auto].
  - intros j w c E. apply Last in E. destruct E as [E|(-> & -> & <-)]; [eapply LC; eauto|apply HF; auto].
  - intros j Hj. rewrite app_length in Hj. cbn in Hj. destruct (Nat.lt_ge_cases j (length C)) as [H|H]; [rewrite loc_app by auto; apply L3; auto|]. assert (j = length C) by lia. subst j. unfold loc. rewrite nth_error_app2 by auto. rewrite Nat.sub_diag. cbn. auto.
  - intros j t E. apply Last in E. destruct E as [E|(-> & <- & ->)]; [eapply L4; eauto|auto].
Qed.
(* carry the bit of a gate along a directed path *)
Lemma laid_wire : forall g d u y z, reach g y z -> wf_dag g -> forall C F j, laid g d u C F -> (forall i, (length C <= i)%nat -> F i = false) -> (j < length C)%nat -> F j = false -> loc C j = y ->
  (forall v, descends g v y -> reach g v z -> v <> d /\ v <> u) ->
  exists C' F' j', laid g d u C' F' /\ more C F C' F' /\ (j' < length C')%nat /\ F' j' = false /\ loc C' j' = z /\ forall be, carries C' be -> be j' = be j.
Proof.
  intros g d u y z R W. induction R as [y|y v z E R IH]; intros C F j L HF Hj Fj Ej Av.
  - exists C, F, j. split; auto. split; [apply more_refl; auto|]. auto.
  - destruct (Av v) as [Nd Nu]; [exists v; split; [auto|constructor]|auto|]. destruct (laid_gate g d u C F v (Copy j) L HF) as [L1 M1]; auto; [apply (proj1 W) in E; tauto|intro; contradiction|rewrite Ej; auto|].
    assert (Hn : nth_error (C ++ [(v, Copy j)]) (length C) = Some (v, Copy j)) by (rewrite nth_error_app2, Nat.sub_diag by auto; auto).
    destruct (IH (C ++ [(v, Copy j)]) F (length C)) as (C' & F' & j' & K1 & K2 & K3 & K4 & K5 & K6); auto.
    + intros i Hi. apply HF. rewrite app_length in Hi. lia.
    + rewrite app_length. cbn. lia.
    + apply (loc_at _ _ _ _ Hn).
    + intros w Hw Rw. apply Av; auto. destruct Hw as (w' & Hw & Hr). exists v. split; auto. econstructor; eauto.
    + exists C', F', j'. split; auto. split; [apply (more_trans _ _ _ _ _ _ M1 K2)|]. split; auto. split; auto. split; auto. intros be Hb. rewrite (K6 be Hb).
      assert (X := more_carries _ _ _ _ be K2 Hb (length C)). rewrite Hn in X. auto.
Qed.
Lemma laid_wires : forall g d u cs, wf_dag g -> forall C F, laid g d u C F -> (forall i, (length C <= i)%nat -> F i = false) ->
  (forall c, In c cs -> (c < length C)%nat /\ F c = false /\ exists z, reach g (loc C c) z /\ edge g z d /\ forall v, reach g v z -> v <> d /\ v <> u) ->
  exists C' F' S, laid g d u C' F' /\ more C F C' F' /\ (forall s, In s S -> (s < length C')%nat /\ edge g (loc C' s) d) /\ forall be, carries C' be -> xors be S = xors be cs.
Proof.
  intros g d u cs W. induction cs as [|c cs IH]; intros C F L HF H.
  - exists C, F, []. split; auto. split; [apply more_refl; auto|]. split; [intros s []|auto].
  - destruct (H c (or_introl eq_refl)) as (H1 & H2 & z & R & E & Av). destruct (laid_wire g d u (loc C c) z R W C F c) as (C1 & F1 & j & K1 & K2 & K3 & K4 & K5 & K6); auto.
    destruct (IH C1 F1) as (C2 & F2 & S & J1 & J2 & J3 & J4); auto.
    + intros i Hi. apply (m_new _ _ _ _ K2). assert (X := more_len _ _ _ _ K2). lia.
    + intros c' Hc. destruct (H c' (or_intror Hc)) as (A1 & A2 & z' & A3). assert (X := more_len _ _ _ _ K2). rewrite (more_loc _ _ _ _ c' K2 A1), (m_old _ _ _ _ K2 c' A1). split; [lia|]. split; auto. exists z'. auto.
    + exists C2, F2, (j :: S). split; auto. split; [apply (more_trans _ _ _ _ _ _ K2 J2)|]. split.
      * intros s [<-|Hs]; [|auto]. assert (X := more_len _ _ _ _ J2). split; [lia|]. rewrite (more_loc _ _ _ _ j J2 K3), K5. auto.
      * intros be Hb. cbn. fold (xors be S) (xors be cs). rewrite (J4 be Hb), (K6 be (more_carries _ _ _ _ be J2 Hb)). auto.
Qed.

Section Trek.
  Variables (g : graph) (d x u : node) (Z p : list node).
  Hypothesis W : wf_dag g.
  Hypothesis Nxd : ~ edge g x d.
  Hypothesis Hz : forall z, In z Z <-> (z = d \/ edge g z d) /\ z <> x.
  Hypothesis Sp : simple_path g x u p.
  Hypothesis Ac : active g Z p.
  Hypothesis Du : descends g u d.
  Hypothesis Nx : ~ descends g x d.
  Hypothesis Xd : x <> d.
  Definition P (i : nat) : node := nth i p "".
  Definition n : nat := pred (length p).
  Lemma p_len : (2 <= length p)%nat /\ P 0 = x /\ P n = u /\ length p = S n.
  Proof.
    destruct Sp as (Ch & Nd & [F1 F2]). assert (Xu : x <> u) by (intros ->; contradiction). unfold P, n. destruct p as [|y q]; [discriminate|]. cbn in F1. injection F1 as ->.
    assert (El : last (x :: q) "" = u). { clear - F2. destruct (@exists_last _ (x :: q)) as (l & e & E); [discriminate|]. rewrite E in F2 |- *. rewrite rev_app_distr in F2. cbn in F2. injection F2 as ->. apply last_last. }
    destruct q as [|y q]; [cbn in El; contradiction|]. split; [cbn; lia|]. split; [auto|]. split; [|cbn; auto]. rewrite <- El. cbn [length pred]. clear. generalize x. revert y. induction q as [|w q IH]; intros y x0; cbn; auto. apply (IH w y).
  Qed.
  Lemma p_adj : forall i, (i < n)%nat -> adjacent g (P i) (P (S i)).
  Proof.
    destruct Sp as (Ch & _ & _). unfold P, n. clear - Ch. induction Ch as [y|y z l R Ch IH]; intros i Hi; cbn in Hi; [lia|]. destruct i as [|i]; [exact R|]. apply IH. cbn. lia.
  Qed.
  Lemma p_inj : forall i j, (i <= n)%nat -> (j <= n)%nat -> P i = P j -> i = j.
  Proof. intros i j Hi Hj E. destruct p_len as (_ & _ & _ & L). destruct Sp as (_ & Nd & _). apply (proj1 (NoDup_nth p "") Nd i j); auto; lia. Qed.
  Lemma p_triple : forall i, (S (S i) <= n)%nat -> triple_on p (P i) (P (S i)) (P (S (S i))).
  Proof.
    intros i Hi. destruct p_len as (_ & _ & _ & L). exists (firstn i p), (skipn (S (S (S i))) p). unfold P. clear - Hi L. generalize dependent n. generalize p. clear p. intros q k Hi L. revert k q Hi L. induction i as [|i IH]; intros k q Hi L.
    - destruct q as [|a [|b [|c q]]]; cbn in *; try lia. auto.
    - destruct q as [|a q]; [cbn in L; lia|]. cbn [firstn skipn nth app]. f_equal. apply (IH (pred k)); [lia|cbn in L; lia].
  Qed.
  Lemma asym : forall a b, edge g a b -> ~ edge g b a.
  Proof. intros a b. apply acyclic_edge_asym. apply (proj2 W). Qed.
  Definition fl (i : nat) : bool := match i with O => false | S j => has_edge g (P j) (P i) end.
  Definition fr (i : nat) : bool := has_edge g (P (S i)) (P i).
  Definition col (i : nat) : bool := fl i && fr i.
  Lemma z_reach : forall z, In z Z -> reach g z d.
  Proof. intros z H. apply Hz in H. destruct H as [[->|E] _]; [constructor|]. econstructor; [eauto|constructor]. Qed.
  Lemma u_not : forall v, reach g u v -> ~ reach g v d.
  Proof. intros v R R'. apply (proj2 W d). apply (descends_reach_trans g d u d Du). apply (reach_trans g u v d R R'). Qed.
  Lemma col_z : forall i, (i < n)%nat -> col i = true -> exists z, reach g (P i) z /\ In z Z.
  Proof.
    intros i Hi H. unfold col in H. apply andb_true_iff in H. destruct H as [H1 H2]. destruct i as [|i]; [discriminate|]. cbn [fl] in H1. unfold fr in H2. apply has_edge_iff in H1. apply has_edge_iff in H2.
    destruct (Ac _ _ _ (p_triple i Hi)) as [A _]. apply A. split; auto.
  Qed.
  Lemma col_not : forall i, (0 < i)%nat -> (i < n)%nat -> col i = false -> ~ In (P i) Z.
  Proof.
    intros i Hi Hn H. destruct i as [|i]; [lia|]. destruct (Ac _ _ _ (p_triple i Hn)) as [_ A]. apply A. intros [E1 E2]. unfold col in H. cbn [fl] in H. unfold fr in H. apply has_edge_iff in E1. apply has_edge_iff in E2. rewrite E1, E2 in H. discriminate.
  Qed.
  (* the path ends with an edge into u *)
  Lemma no_back : forall i, (i < n)%nat -> edge g (P (S i)) (P i) -> reach g u (P (S i)) -> False.
  Proof.
    induction i as [|i IH]; intros Hi E R.
    - apply Nx. destruct p_len as (_ & P0 & _). rewrite <- P0. apply (descends_reach_trans g d u (P 0) Du). apply (reach_trans g u (P 1)); auto. econstructor; [eauto|constructor].
    - assert (R' : reach g u (P (S i))) by (apply (reach_trans g u (P (S (S i)))); auto; econstructor; [eauto|constructor]). destruct (p_adj i) as [A|A]; [lia| |apply IH; auto; lia].
      destruct (col_z (S i)) as (z & Rz & Iz); [lia| |]. { unfold col. cbn [fl]. unfold fr. apply andb_true_iff. split; apply has_edge_iff; auto. }
      apply (u_not z); [apply (reach_trans g u (P (S i))); auto|apply z_reach; auto].
  Qed.
  Lemma last_edge : edge g (P (pred n)) u.
  Proof.
    destruct p_len as (L & _ & Pn & Ln). assert (n = S (pred n)) by lia. destruct (p_adj (pred n)) as [A|A]; [lia| |]; rewrite <- H, Pn in A; auto. exfalso. apply (no_back (pred n)); [lia| |]; rewrite <- H, Pn; [auto|constructor].
  Qed.
  Lemma d_off : forall i, (i <= n)%nat -> P i <> d.
  Proof.
    intros i Hi E. destruct p_len as (L & P0 & Pn & Ln). destruct i as [|i]; [congruence|]. destruct (Nat.eq_dec (S i) n) as [K|K].
    - rewrite K, Pn in E. apply (proj2 W d). rewrite E in Du. exact Du.
    - assert (Iz : In (P (S i)) Z) by (apply Hz; rewrite E; split; auto). destruct (col (S i)) eqn:Cl; [|apply (col_not (S i)) in Cl; auto; lia].
      unfold col in Cl. apply andb_true_iff in Cl. destruct Cl as [Cl _]. cbn [fl] in Cl. apply has_edge_iff in Cl. assert (E1 : edge g (P i) d) by (rewrite <- E; auto).
      destruct i as [|i]; [rewrite P0 in E1; contradiction|]. assert (Iz1 : In (P (S i)) Z). { apply Hz. split; auto. intro Kx. rewrite <- P0 in Kx. apply p_inj in Kx; lia. }
      apply (col_not (S i)) in Iz1; auto; try lia. unfold col. assert (X : fr (S i) = false) by (unfold fr; apply has_edge_false; apply asym; auto). rewrite X. apply andb_false_r.
  Qed.
  Definition feed (i : nat) : source := if fl i then (if fr i then Xor (pred i) (S i) else Copy (pred i)) else if fr i then Copy (S i) else Open.
  Definition base : list (node * source) := map (fun i => (P i, feed i)) (seq 0 n).
  Definition turns (i : nat) : bool := (i <? n)%nat && negb (col i).
  Lemma base_nth : forall i v s, nth_error base i = Some (v, s) -> (i < n)%nat /\ v = P i /\ s = feed i.
  Proof.
    intros i v s E. assert (Hi : (i < n)%nat). { assert (X : nth_error base i <> None) by congruence. apply nth_error_Some in X. unfold base in X. rewrite map_length, seq_length in X. auto. }
    unfold base in E. rewrite nth_error_map in E. assert (Es : nth_error (seq 0 n) i = Some i) by (rewrite (nth_error_nth' _ 0%nat) by (rewrite seq_length; auto); rewrite seq_nth by auto; auto). rewrite Es in E. cbn in E. injection E as <- <-. auto.
  Qed.
  Lemma base_at : forall i, (i < n)%nat -> nth_error base i = Some (P i, feed i).
  Proof. intros i Hi. unfold base. rewrite nth_error_map. assert (Es : nth_error (seq 0 n) i = Some i) by (rewrite (nth_error_nth' _ 0%nat) by (rewrite seq_length; auto); rewrite seq_nth by auto; auto). rewrite Es. auto. Qed.
  Lemma base_len : length base = n.
  Proof. unfold base. rewrite map_length, seq_length. auto. Qed.
  Lemma base_loc : forall i, (i < n)%nat -> loc base i = P i.
  Proof. intros i Hi. unfold loc. rewrite base_at by auto. auto. Qed.
  Lemma fr_last : forall i, (i < n)%nat -> fr i = true -> (S i < n)%nat.
  Proof.
    intros i Hi E. destruct (Nat.eq_dec (S i) n) as [K|K]; [|lia]. exfalso. unfold fr in E. apply has_edge_iff in E. destruct p_len as (_ & _ & Pn & _). assert (X := last_edge). replace (pred n) with i in X by lia. rewrite K, Pn in E. apply (asym _ _ E X).
  Qed.
  Lemma left_out : forall i, fl (S i) = true -> col i = false.
  Proof. intros i H. cbn [fl] in H. apply has_edge_iff in H. unfold col. assert (X : fr i = false) by (unfold fr; apply has_edge_false; apply asym; auto). rewrite X. apply andb_false_r. Qed.
  Lemma right_out : forall i, fr i = true -> col (S i) = false.
  Proof. intros i H. unfold fr in H. apply has_edge_iff in H. unfold col. assert (X : fl (S i) = false) by (cbn [fl]; apply has_edge_false; apply asym; auto). rewrite X. auto. Qed.
  Lemma base_laid : laid g d u base turns.
  Proof.
    destruct p_len as (L & P0 & Pn & Ln). constructor.
    - intros j v i E. apply base_nth in E. destruct E as (Hj & -> & E). rewrite base_len. unfold feed in E. unfold turns. destruct (fl j) eqn:El; destruct (fr j) eqn:Er; try discriminate; injection E as ->.
      + destruct j as [|j]; [discriminate|]. cbn [pred]. split; [lia|]. rewrite base_loc by lia. split; [apply has_edge_iff; exact El|]. rewrite (left_out j El). unfold col. rewrite Er, andb_false_r. rewrite !(proj2 (Nat.ltb_lt _ _)) by lia. auto.
      + assert (Hs := fr_last j Hj Er). split; auto. rewrite base_loc by auto. split; [apply has_edge_iff; exact Er|]. rewrite (right_out j Er). unfold col. rewrite El. rewrite !(proj2 (Nat.ltb_lt _ _)) by lia. auto.
    - intros j v i i' E. apply base_nth in E. destruct E as (Hj & -> & E). rewrite base_len. unfold feed in E. unfold turns. destruct (fl j) eqn:El; destruct (fr j) eqn:Er; try discriminate; injection E as -> ->.
      destruct j as [|j]; [discriminate|]. cbn [pred]. assert (Hs := fr_last (S j) Hj Er). rewrite !base_loc by lia. split; [split; [lia|apply has_edge_iff; exact El]|]. split; [split; [lia|apply has_edge_iff; exact Er]|].
      rewrite (left_out j El), (right_out (S j) Er). unfold col. rewrite El, Er. rewrite !(proj2 (Nat.ltb_lt _ _)) by lia. auto.
    - intros j v c E. apply base_nth in E. destruct E as (Hj & -> & E). unfold feed in E. destruct (fl j), (fr j); discriminate.
    - intros j Hj. rewrite base_len in Hj. rewrite base_loc by auto. split.
      + destruct (p_adj j Hj) as [A|A]; apply (proj1 W) in A; tauto.
      + rewrite <- Pn. intro E. apply p_inj in E; lia.
    - intros j s E. apply base_nth in E. destruct E as (Hj & E & _). exfalso. apply (d_off j); [lia|auto].
  Qed.
  Definition cols (i : nat) : list nat := filter col (seq 0 i).
  Lemma cols_S : forall i, cols (S i) = cols i ++ if col i then [i] else [].
  Proof. intro i. unfold cols. rewrite seq_S, filter_app. cbn. destruct (col i); auto. Qed.
  (* the bit at the end of the path is the sum of those at its start and at the colliders *)
  Lemma telescope : forall be, carries base be -> forall i, (i < n)%nat -> col i = false -> be i = xorb (be 0%nat) (xors be (cols i)).
  Proof.
    intros be Cr i. induction i as [i IH] using lt_wf_ind. intros Hi Ci. destruct i as [|i]; [cbn; destruct (be 0%nat); auto|]. rewrite cols_S, xors_app. destruct (col i) eqn:Cc.
    - assert (Cc' := Cc). unfold col in Cc'. apply andb_true_iff in Cc'. destruct Cc' as [Fl Fr]. destruct i as [|i]; [discriminate|]. assert (Co := left_out i Fl). assert (X := Cr (S i)). rewrite base_at in X by lia. unfold feed in X. rewrite Fl, Fr in X. cbn [pred] in X.
      rewrite cols_S, Co, app_nil_r. rewrite (IH i) in X; [|lia|lia|auto]. cbn [xors fold_right]. destruct (be (S i)), (be (S (S i))), (be 0%nat), (xors be (cols i)); auto; discriminate.
    - cbn [xors fold_right]. assert (X := IH i ltac:(lia) ltac:(lia) Cc). rewrite (xorb_false_r (xors be (cols i))), <- X. destruct (p_adj i) as [A|A]; [lia| |].
      + assert (Y := Cr (S i)). rewrite base_at in Y by lia. unfold feed in Y. assert (El : fl (S i) = true) by (cbn [fl]; apply has_edge_iff; auto). rewrite El in Y. unfold col in Ci. rewrite El in Ci. cbn [andb] in Ci. rewrite Ci in Y. exact Y.
      + assert (Y := Cr i). rewrite base_at in Y by lia. unfold feed in Y. assert (Er : fr i = true) by (unfold fr; apply has_edge_iff; auto). rewrite Er in Y. unfold col in Cc. rewrite Er, andb_true_r in Cc. rewrite Cc in Y. auto.
  Qed.
  Theorem trek_full : exists C F jp jd jD S, laid g d u C F /\ (jp < length C)%nat /\ edge g (loc C jp) u /\ (jd < length C)%nat /\ edge g (loc C jd) u /\ F jp = true /\ F jd = false /\
    (jD < length C)%nat /\ loc C jD = d /\
    (forall j, (j < length C)%nat -> F j = true -> loc C j <> d /\ ~ (edge g (loc C j) d /\ loc C j <> x)) /\
    (0 < length C)%nat /\ loc C 0 = x /\ (forall j, (j < length C)%nat -> F j = true -> loc C j = x -> j = 0%nat) /\
    (forall s, In s S -> (s < length C)%nat /\ edge g (loc C s) d) /\ (forall i, (length C <= i)%nat -> F i = false) /\
    (forall be, carries C be -> be jp = xors be (0%nat :: S) /\ be jd = be jD).
  Proof.
    destruct p_len as (L & P0 & Pn & Ln). assert (BL := base_laid). assert (HF : forall i, (length base <= i)%nat -> turns i = false) by (intros i Hi; rewrite base_len in Hi; unfold turns; rewrite (proj2 (Nat.ltb_ge _ _)) by lia; auto).
    assert (Lo : edge g (P (pred n)) u) by apply last_edge. assert (Cl : col (pred n) = false). { unfold col. replace (fr (pred n)) with false; [apply andb_false_r|]. symmetry. destruct (fr (pred n)) eqn:E; auto. apply fr_last in E; lia. }
    destruct (laid_wires g d u (cols n) W base turns BL HF) as (C1 & F1 & S & K1 & K2 & K3 & K4).
    { intros c Hc. unfold cols in Hc. apply filter_In in Hc. destruct Hc as [Hc Ic]. apply in_seq in Hc. rewrite base_len, base_loc by lia. split; [lia|]. split; [unfold turns; rewrite Ic; apply andb_false_r|].
      destruct (col_z c) as (z & Rz & Iz); [lia|auto|]. assert (X : exists z, reach g (P c) z /\ edge g z d).
      { apply Hz in Iz. destruct Iz as [[->|Ez] _]; [|exists z; auto]. assert (Dc : descends g d (P c)) by (assert (Nd : P c <> d) by (apply d_off; lia); clear - Rz Nd; destruct Rz as [|? v ? E R]; [contradiction|exists v; auto]). apply descends_last in Dc. exact Dc. }
      destruct X as (z' & X1 & X2). exists z'. split; auto. split; auto. intros v Rv. assert (Rd : reach g v d) by (apply (reach_trans g v z'); auto; econstructor; [eauto|constructor]). split.
      - intros ->. apply (proj2 W d). apply (descends_trans g d z' d); [exists d; split; [auto|constructor]|auto].
      - intros ->. apply (u_not u); [constructor|auto]. }
    assert (HF1 : forall i, (length C1 <= i)%nat -> F1 i = false) by (intros i Hi; apply (m_new _ _ _ _ K2); assert (X := more_len _ _ _ _ K2); lia).
    assert (Hd : In d (nodes g)) by (destruct Du as (w & Ew & _); apply (proj1 W) in Ew; tauto). assert (Ud : d <> u) by (intros <-; apply (proj2 W d); auto).
    destruct (laid_gate g d u C1 F1 d Open K1 HF1) as [L2 M2]; auto. set (C2 := C1 ++ [(d, Open)]) in *. assert (Dn : nth_error C2 (length C1) = Some (d, Open)) by (unfold C2; rewrite nth_error_app2, Nat.sub_diag by auto; auto).
    destruct (descends_last g d u Du) as (w & Rw & Ew). destruct (laid_wire g d u d w Rw W C2 F1 (length C1)) as (C3 & F3 & jd & J1 & J2 & J3 & J4 & J5 & J6); auto.
    { intros i Hi. apply HF1. unfold C2 in Hi. rewrite app_length in Hi. lia. } { unfold C2. rewrite app_length. cbn. lia. } { apply (loc_at _ _ _ _ Dn). }
    { intros v Dv Rv. split; [intros ->; apply (proj2 W d); auto|]. intros ->. apply (proj2 W u). apply (descends_trans g u w u); [exists u; split; [auto|constructor]|auto]. }
    assert (M13 := more_trans _ _ _ _ _ _ M2 J2). assert (M03 := more_trans _ _ _ _ _ _ K2 M13). assert (L03 := more_len _ _ _ _ M03). assert (L13 := more_len _ _ _ _ M13). rewrite base_len in L03.
    assert (L23 := more_len _ _ _ _ J2). assert (Hp : (pred n < length base)%nat) by (rewrite base_len; lia).
    exists C3, F3, (pred n), jd, (length C1), S. split; auto. split; [lia|]. rewrite (more_loc _ _ _ _ _ M03 Hp), base_loc by lia. split; auto. split; auto. rewrite J5. split; auto.
    split. { rewrite (m_old _ _ _ _ M03 _ Hp). unfold turns. rewrite Cl, (proj2 (Nat.ltb_lt _ _)) by lia. auto. } split; auto.
    assert (LD : (length C1 < length C2)%nat) by (unfold C2; rewrite app_length; cbn; lia). split; [lia|]. split; [rewrite (more_loc _ _ _ _ _ J2 LD); apply (loc_at _ _ _ _ Dn)|].
    assert (H0 : (0 < length base)%nat) by (rewrite base_len; lia).
    split; [|split; [lia|split; [rewrite (more_loc _ _ _ _ _ M03 H0), base_loc by lia; auto|split; [|split; [|split]]]]].
    - intros j Hj Fj. destruct (Nat.lt_ge_cases j (length base)) as [H|H]; [|rewrite (m_new _ _ _ _ M03 j H) in Fj; discriminate]. rewrite (m_old _ _ _ _ M03 j H) in Fj. rewrite (more_loc _ _ _ _ _ M03 H). rewrite base_len in H. rewrite base_loc by auto. split; [apply d_off; lia|].
      intros [E Nxj]. unfold turns in Fj. apply andb_true_iff in Fj. destruct Fj as [_ Fj]. apply negb_true_iff in Fj. destruct j as [|j]; [contradiction|]. apply (col_not (Datatypes.S j)); auto; [lia|]. apply Hz. auto.
    - intros j Hj Fj. destruct (Nat.lt_ge_cases j (length base)) as [H|H]; [|rewrite (m_new _ _ _ _ M03 j H) in Fj; discriminate]. rewrite (more_loc _ _ _ _ _ M03 H). rewrite base_len in H. rewrite base_loc by auto. rewrite <- P0. intro E. apply p_inj in E; lia.
    - intros s Hs. destruct (K3 s Hs) as [S1 S2]. split; [lia|]. rewrite (more_loc _ _ _ _ _ M13 S1). auto.
    - intros i Hi. apply (m_new _ _ _ _ M03). rewrite base_len. lia.
    - intros be Cr. split; [|apply J6; auto]. cbn [xors fold_right]. fold (xors be S). rewrite (K4 be (more_carries _ _ _ _ be M13 Cr)). rewrite (telescope be (more_carries _ _ _ _ be M03 Cr) (pred n)) by (auto; lia). f_equal.
      assert (En : n = Datatypes.S (pred n)) by lia. rewrite En at 2. rewrite cols_S, Cl, app_nil_r. auto.
  Qed.
  Theorem trek : exists C F jp jd jD S, laid g d u C F /\ (jp < length C)%nat /\ edge g (loc C jp) u /\ (jd < length C)%nat /\ edge g (loc C jd) u /\ F jp = true /\ F jd = false /\
    (jD < length C)%nat /\ loc C jD = d /\
    (forall j, (j < length C)%nat -> F j = true -> loc C j <> d /\ ~ (edge g (loc C j) d /\ loc C j <> x)) /\
    (forall s, In s S -> (s < length C)%nat /\ (loc C s = x \/ edge g (loc C s) d)) /\
    (forall be, carries C be -> be jp = xors be S /\ be jd = be jD).
  Proof.
    destruct trek_full as (C & F & jp & jd & jD & S & L & Hp & Ep & Hd & Ed & Fp & Fd & HD & LD & Un & H0 & L0 & _ & Se & _ & Ca).
    exists C, F, jp, jd, jD, (0%nat :: S). do 10 (split; [exact ltac:(assumption)|]). split; [|exact Ca]. intros s [<-|Hs]; auto. destruct (Se s Hs). auto.
  Qed.
End Trek.
