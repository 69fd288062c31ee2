(* Lemmas for C79: networks in which d-connected variables are dependent. *)
From Coq Require Import Ascii String List Bool Arith QArith Qcanon Lia Permutation.
Import ListNotations.
From Verif Require Import MBase MGraph MPaths MCpd MNet MProb Spec SpecGen LBase LGraph LPaths LQc LQcArith LSum LBayes LControl LWire LTrek PComplete.
Local Open Scope string_scope.
Local Open Scope list_scope.
Local Open Scope Qc_scope.

(* ---- names not in use ---- *)
Fixpoint dots (k : nat) : string := match k with O => EmptyString | S k' => String "."%char (dots k') end.
Lemma dots_length : forall k, String.length (dots k) = k.
Proof. induction k as [|k IH]; cbn; auto. Qed.
Definition widest (l : list string) : nat := fold_right (fun s k => Nat.max (String.length s) k) 0%nat l.
Lemma widest_in : forall l s, In s l -> (String.length s <= widest l)%nat.
Proof. induction l as [|t l IH]; intros s H; [destruct H|]. destruct H as [->|H]; [|apply IH in H]; unfold widest in *; cbn [fold_right]; lia. Qed.
Lemma unused : forall l k, ~ In (dots (S (widest l) + k)) l.
Proof. intros l k H. apply widest_in in H. rewrite dots_length in H. lia. Qed.

(* ---- sums of non-negative terms ---- *)
Lemma qsum_zero_each : forall (A : Type) (f : A -> Qc) l, (forall x, In x l -> 0 <= f x) -> qsum (map f l) = 0 -> forall x, In x l -> f x = 0.
Proof.
  induction l as [|y l IH]; intros P E x []; cbn [map] in E; change (qsum (f y :: map f l)) with (f y + qsum (map f l)) in E;
    assert (Py := P y (or_introl eq_refl)); assert (Pl : 0 <= qsum (map f l)) by (apply qsum_nonneg; intros z Hz; apply in_map_iff in Hz; destruct Hz as (w & <- & Hw); apply P; right; auto).
  - subst y. apply Qcle_antisym; auto. rewrite <- E. rewrite <- (Qcplus_0_r (f x)) at 1. apply Qcplus_le_compat; [apply Qcle_refl|auto].
  - apply IH; auto; [intros; apply P; right; auto|]. apply Qcle_antisym; auto. rewrite <- E. rewrite <- (Qcplus_0_l (qsum (map f l))) at 1. apply Qcplus_le_compat; [auto|apply Qcle_refl].
Qed.
Lemma total_zero_each : forall D vs f b a, ext f -> (forall c, (forall v, In v vs -> In (c v) (D v)) -> 0 <= f c) -> NoDup vs -> (forall v, In v vs -> In (b v) (D v)) -> (forall v, ~ In v vs -> b v = a v) -> total D vs f a = 0 -> f b = 0.
Proof.
  intros D vs f b a Ex. revert a. assert (Gen : forall vs' a, (forall c, (forall v, In v vs' -> In (c v) (D v)) -> (forall v, ~ In v vs' -> c v = a v) -> 0 <= f c) -> NoDup vs' -> (forall v, In v vs' -> In (b v) (D v)) -> (forall v, ~ In v vs' -> b v = a v) -> total D vs' f a = 0 -> f b = 0).
  { induction vs' as [|v vs' IH]; intros a P N Hb Ho E; [cbn in E; rewrite <- E; apply Ex; intros; apply Ho; auto|]. inversion N as [|? ? N1 N2]; subst. cbn [total] in E.
    assert (Pt : forall x, In x (D v) -> 0 <= total D vs' f (upd a v x)). { intros x Hx. apply total_nonneg. intros c Hc Hc'. apply P; [intros w [<-|Hw]; auto; rewrite Hc' by auto; rewrite upd_same; auto|]. intros w Nw. rewrite Hc' by (intro; apply Nw; right; auto). apply upd_other. intros ->. apply Nw. left; auto. }
    assert (Ez := qsum_zero_each _ _ _ Pt E (b v) (Hb v (or_introl eq_refl))). apply (IH (upd a v (b v))); auto.
    - intros c Hc Hc'. apply P; [intros w [<-|Hw]; auto; rewrite Hc' by auto; rewrite upd_same; apply Hb; left; auto|]. intros w Nw. rewrite Hc' by (intro; apply Nw; right; auto). apply upd_other. intros ->. apply Nw. left; auto.
    - intros w Hw. apply Hb. right; auto.
    - intros w Nw. destruct (String.string_dec w v) as [->|Nv]; [rewrite upd_same; auto|]. rewrite upd_other by auto. apply Ho. intros [K|K]; [apply Nv; auto|contradiction]. }
  intros a P. apply Gen. intros c Hc _. auto.
Qed.
Lemma total_witness : forall D vs f a, NoDup vs -> total D vs f a <> 0 -> exists b, (forall v, In v vs -> In (b v) (D v)) /\ (forall v, ~ In v vs -> b v = a v) /\ f b <> 0.
Proof.
  intros D vs f. induction vs as [|v vs IH]; intros a N H; [exists a; split; [intros v []|split; auto]|]. inversion N as [|? ? N1 N2]; subst. cbn [total] in H.
  assert (X : exists x, In x (D v) /\ total D vs f (upd a v x) <> 0). { clear - H. induction (D v) as [|x l IHl]; [exfalso; apply H; reflexivity|]. cbn [map] in H. change (qsum (total D vs f (upd a v x) :: map (fun x0 => total D vs f (upd a v x0)) l)) with (total D vs f (upd a v x) + qsum (map (fun x0 => total D vs f (upd a v x0)) l)) in H.
    destruct (Qc_eq_dec (total D vs f (upd a v x)) 0) as [Z|Z]; [|exists x; split; [left|]; auto]. rewrite Z, Qcplus_0_l in H. destruct (IHl H) as (y & Hy & Hy'). exists y. split; [right|]; auto. }
  destruct X as (x & Hx & Hx'). destruct (IH _ N2 Hx') as (b & B1 & B2 & B3). exists b. split; [|split; auto].
  - intros w [<-|Hw]; auto. rewrite B2 by auto. rewrite upd_same. auto.
  - intros w Nw. rewrite B2 by (intro; apply Nw; right; auto). apply upd_other. intros ->. apply Nw. left; auto.
Qed.
Lemma weight_factor : forall (K : node -> asg -> Qc) l a, weight K l a <> 0 -> forall v, In v l -> K v a <> 0.
Proof. intros K l a H v Hv E. apply H. unfold weight. apply (qprod_zero _ (fun v => K v a) l v); auto. Qed.
Lemma weight_nz : forall (K : node -> asg -> Qc) l a, (forall v, In v l -> K v a <> 0) -> weight K l a <> 0.
Proof.
  intros K l a. unfold weight. induction l as [|v l IH]; intros H; [discriminate|]. cbn [map]. change (K v a * qprod (map (fun v => K v a) l) <> 0). intro E. destruct (Qcmult_integral _ _ E) as [E'|E']; [apply (H v (or_introl eq_refl) E')|]. apply IH; auto. intros; apply H; right; auto.
Qed.

(* ---- a decision that observes Z and a utility below it and y ---- *)
Definition watched (g : graph) (Z : list node) (y d u : node) : graph := mkG (d :: u :: nodes g) (map (fun z => (z, d)) (nodup String.string_dec Z) ++ (d, u) :: (y, u) :: edges g).
Lemma watched_edge : forall g Z y d u a b, edge (watched g Z y d u) a b <-> (In a Z /\ b = d) \/ (a = d /\ b = u) \/ (a = y /\ b = u) \/ edge g a b.
Proof.
  intros g Z y d u a b. unfold edge, watched. cbn [edges]. rewrite in_app_iff, in_map_iff. cbn [In]. split.
  - intros [(z & E & Hz)|[E|[E|E]]]; [injection E as <- <-; apply nodup_In in Hz; auto|injection E as <- <-; auto|injection E as <- <-; auto|auto].
  - intros [[Ha ->]|[[-> ->]|[[-> ->]|E]]]; auto. left. exists a. split; auto. apply nodup_In. auto.
Qed.
Section Watched.
  Variables (g : graph) (Z : list node) (x y d u : node) (p : list node).
  Hypothesis W : wf_dag g.
  Hypothesis IZ : incl Z (nodes g).
  Hypothesis Hx : In x (nodes g).
  Hypothesis Zx : ~ In x Z.
  Hypothesis Zy : ~ In y Z.
  Hypothesis Sp : simple_path g x y p.
  Hypothesis Ac : active g Z p.
  Hypothesis Hd : ~ In d (nodes g).
  Hypothesis Hu : ~ In u (nodes g).
  Hypothesis Ndu : d <> u.
  Let h := watched g Z y d u.
  Let ed : forall a b, edge h a b <-> (In a Z /\ b = d) \/ (a = d /\ b = u) \/ (a = y /\ b = u) \/ edge g a b := watched_edge g Z y d u.
  Lemma g_ends : forall a b, edge g a b -> In a (nodes g) /\ In b (nodes g).
  Proof. intros a b E. apply (proj1 W); auto. Qed.
  Lemma path_nodes : forall v, In v p -> In v (nodes g).
  Proof.
    destruct Sp as (Ch & _ & H1 & _). assert (X : forall q s, chain (adjacent g) q -> hd_error q = Some s -> In s (nodes g) -> forall v, In v q -> In v (nodes g)).
    { intros q s C. revert s. induction C as [a|a b l Ad C IH]; intros s E Hs v Hv; injection E as <-; [destruct Hv as [<-|[]]; auto|]. destruct Hv as [<-|Hv]; auto. apply (IH b eq_refl); auto. destruct Ad as [E|E]; apply g_ends in E; tauto. }
    intros v Hv. apply (X p x); auto.
  Qed.
  Lemma Hy : In y (nodes g).
  Proof. apply path_nodes. destruct Sp as (_ & _ & F). destruct (from_to_inv _ _ _ F) as (q & E & _). rewrite E. apply in_or_app. right. left. auto. Qed.
  Lemma into : forall a b, reach h a b -> In b (nodes g) -> In a (nodes g) /\ reach g a b.
  Proof.
    intros a b R. induction R as [|a c b E R IH]; intro Hb; [split; [auto|constructor]|]. destruct (IH Hb) as [Hc R']. apply ed in E. destruct E as [[_ ->]|[[_ ->]|[[_ ->]|E]]]; try contradiction. split; [apply g_ends in E; tauto|econstructor; eauto].
  Qed.
  Lemma out_of_u : forall b, ~ edge h u b.
  Proof. intros b E. apply ed in E. destruct E as [[K _]|[[K _]|[[K _]|K]]]; [apply Hu; apply IZ; auto|congruence|apply Hu; rewrite K; apply Hy|apply g_ends in K; tauto]. Qed.
  Lemma watched_wf : wf_dag h.
  Proof.
    split; [split; [|split]|].
    - cbn. constructor; [intros [K|K]; [auto|contradiction]|]. constructor; [auto|apply W].
    - cbn. assert (N2 : NoDup ((d, u) :: (y, u) :: edges g)). { constructor; [intros [K|K]; [injection K as K; apply Hd; rewrite <- K; apply Hy|apply Hd; apply (g_ends d u K)]|]. constructor; [intro K; apply Hu; apply (g_ends y u K)|apply W]. }
      assert (N1 : forall l, NoDup l -> (forall z, In z l -> In z (nodes g)) -> NoDup (map (fun z => (z, d)) l ++ (d, u) :: (y, u) :: edges g)).
      { induction l as [|z l IH]; intros Nl Il; [exact N2|]. inversion Nl as [|? ? K1 K2]; subst. cbn [map app]. constructor; [|apply IH; auto; intros; apply Il; right; auto]. intro K. apply in_app_or in K. destruct K as [K|K].
        - apply in_map_iff in K. destruct K as (w & E & Hw). injection E as ->. contradiction.
        - destruct K as [K|[K|K]]; [injection K as K1' K2'; auto|injection K as K1' K2'; auto|apply Hd; apply (g_ends z d K)]. }
      apply N1; [apply NoDup_nodup|]. intros z Hz. apply nodup_In in Hz. auto.
    - intros a b E. apply ed in E. change (nodes h) with (d :: u :: nodes g). assert (Hy' := Hy). destruct E as [[K ->]|[[-> ->]|[[-> ->]|E]]].
      + split; [right; right; auto|left; auto].
      + split; [left; auto|right; left; auto].
      + split; [right; right; auto|right; left; auto].
      + apply g_ends in E. split; right; right; tauto.
    - intros v (c & E & R). assert (E' := E). apply ed in E'. destruct E' as [[K ->]|[[-> ->]|[[-> ->]|E']]].
      + apply Hd. apply (into d v R). apply IZ; auto.
      + inversion R as [|? w ? E2 R2]; subst; [auto|]. exact (out_of_u _ E2).
      + inversion R as [|? w ? E2 R2]; subst; [apply Hu; apply Hy|]. exact (out_of_u _ E2).
      + apply (proj2 W v). exists c. split; auto. apply (into c v R). apply g_ends in E'. tauto.
  Qed.
  Lemma watched_path : simple_path h x u (p ++ [u]).
  Proof.
    destruct Sp as (Ch & Nd & F). destruct (from_to_inv _ _ _ F) as (q & E & _). split; [|split].
    - rewrite E. apply chain_snoc; [|left; apply ed; auto]. rewrite <- E. clear - Ch ed. induction Ch; constructor; auto. destruct H as [K|K]; [left|right]; apply ed; auto.
    - apply (Permutation_NoDup (Permutation_cons_append p u)). constructor; auto. intro K. apply path_nodes in K. contradiction.
    - apply from_to_snoc. split; auto. destruct F as [F _]. destruct p; [discriminate|exact F].
  Qed.
  Lemma watched_active : active h (d :: Z) (p ++ [u]).
  Proof.
    intros a b c (l & r & E). assert (Ho : forall v w, In w (nodes g) -> (edge h v w <-> edge g v w)). { intros v w Hw. rewrite ed. split; auto. intros [[_ ->]|[[_ ->]|[[_ ->]|K]]]; auto; contradiction. }
    destruct Sp as (_ & _ & F). destruct (from_to_inv _ _ _ F) as (q & Eq & _).
    destruct r as [|e r] using rev_ind.
    - (* the last triple *)
      assert (E1 : p ++ [u] = (l ++ [a; b]) ++ [c]) by (rewrite E, <- app_assoc; auto). apply app_inj_tail in E1. destruct E1 as [E1 <-]. assert (Eb : b = y). { rewrite Eq in E1. replace (l ++ [a; b]) with ((l ++ [a]) ++ [b]) in E1 by (rewrite <- app_assoc; auto). apply app_inj_tail in E1. symmetry. apply E1. } subst b. split.
      + intros [_ K]. destruct (out_of_u _ K).
      + intros _ [K|K]; [apply Hd; rewrite K; apply Hy|contradiction].
    - clear IHr. assert (E1 : p ++ [u] = (l ++ a :: b :: c :: r) ++ [e]) by (rewrite E, <- app_assoc; auto). apply app_inj_tail in E1. destruct E1 as [E1 _]. assert (Hb : In b (nodes g)) by (apply path_nodes; rewrite E1; apply in_or_app; right; right; left; auto).
      destruct (Ac a b c) as [A1 A2]; [exists l, r; auto|]. unfold is_collider in *. rewrite !Ho by auto. split.
      + intro K. destruct (A1 K) as (z & Rz & Iz). exists z. split; [|right; auto]. eapply reach_sub; [|exact Rz]. intros v w K'. apply ed; auto.
      + intros K [K'|K']; [apply Hd; rewrite K'; auto|exact (A2 K K')].
  Qed.
End Watched.

(* ---- the network ---- *)
(* x and y have values that are possible given the values of Z, but not together *)
Lemma dependent_network : forall g Z x y p, wf_dag g -> incl Z (nodes g) -> In x (nodes g) -> ~ In x Z -> ~ In y Z -> simple_path g x y p -> active g Z p ->
  exists D K a a', value_lists g D /\ conditionals g D K /\ (forall v, In v (nodes g) -> In (a v) (D v)) /\ (forall v, In v (nodes g) -> In (a' v) (D v)) /\ weight K (nodes g) a <> 0 /\ weight K (nodes g) a' <> 0 /\
    (forall z, In z Z -> a' z = a z) /\
    forall c, (forall v, In v (nodes g) -> In (c v) (D v)) -> c x = a x -> c y = a' y -> (forall z, In z Z -> c z = a z) -> weight K (nodes g) c = 0.
Proof.
  intros g Z x y p W IZ Hx Zx Zy Sp Ac. set (d := dots (S (widest (nodes g)) + 0)). set (u := dots (S (widest (nodes g)) + 1)).
  assert (Hd : ~ In d (nodes g)) by apply unused. assert (Hu : ~ In u (nodes g)) by apply unused. assert (Ndu : d <> u) by (intro E; assert (L := f_equal String.length E); unfold d, u in L; rewrite !dots_length in L; lia).
  assert (Hyg := Hy g x y p W Hx Sp). assert (Wh := watched_wf g Z x y d u p W IZ Hx Sp Hd Hu Ndu). assert (Sph := watched_path g Z x y d u p W Hx Sp Ac Hu). assert (Ach := watched_active g Z x y d u p W IZ Hx Zy Sp Ac Hd Hu Ndu). assert (Into := into g Z y d u W Hd Hu).
  set (h := watched g Z y d u) in *. assert (ed : forall a b, edge h a b <-> (In a Z /\ b = d) \/ (a = d /\ b = u) \/ (a = y /\ b = u) \/ edge g a b) by (intros; apply watched_edge). assert (Eg := g_ends g W).
  assert (Nwd : forall v, In v (nodes g) -> v <> d /\ v <> u) by (intros v Hv; split; intros ->; contradiction).
  assert (Zd : forall z, edge h z d <-> In z Z). { intro z. rewrite ed. split; [intros [[K _]|[[_ K]|[[_ K]|K]]]; auto; try congruence; apply Eg in K; tauto|auto]. }
  destruct (trek h d x u (d :: Z) (p ++ [u])) as (C & F & jp & jd & jD & Q & L & Hp & Ep & Hjd & Ed & Fp & Fd & HD & LD & Un & Se & Ca); auto.
  { intro K. apply Zd in K. contradiction. }
  { intro z. rewrite Zd. split; [intros [<-|K]; split; auto; [intro K; apply Hd; rewrite K; auto|intros ->; contradiction]|intros [[->|K] _]; [left|right]; auto]. }
  { exists u. split; [apply ed; auto|constructor]. }
  { intros (c & E & R). apply Into in R; auto. apply ed in E. destruct E as [[_ ->]|[[_ ->]|[[K _]|K]]]; try tauto; [apply Hd; rewrite K; auto|apply Eg in K; tauto]. }
  { intro K. apply Hd. rewrite <- K. auto. }
  set (enc := small 1). assert (EI : forall l l', length l = length C -> length l' = length C -> enc l = enc l' -> l = l') by (intros l l'; apply small_inj; auto).
  destruct L as [L1 L2 LC L3 L4].
  assert (HC : forall j v i, nth_error C j = Some (v, Copy i) -> (i < length C)%nat /\ edge h (loc C i) v) by (intros j v i E; apply L1 in E; tauto).
  assert (HX : forall j v i i', nth_error C j = Some (v, Xor i i') -> ((i < length C)%nat /\ edge h (loc C i) v) /\ ((i' < length C)%nat /\ edge h (loc C i') v)) by (intros j v i i' E; apply L2 in E; tauto).
  assert (Kc := kern_cond h C u jp jd enc Wh EI HC HX (conj Hp Ep) (conj Hjd Ed)). assert (Dn := Dm_nodup h C u jp jd enc EI (conj Hp Ep) (conj Hjd Ed)).
  set (D := Dm C u enc) in *. set (K := kern C u jp jd enc) in *.
  assert (Ne : forall v, D v <> []). { intro v. unfold D, Dm. destruct (String.string_dec v u); [discriminate|]. unfold codes. intro E. apply map_eq_nil in E. assert (X := proj2 (vecs_in (length C) (repeat true (length C))) (repeat_length _ _)). rewrite E in X. destruct X. }
  assert (Ih : forall v, In v (nodes g) -> In v (nodes h)) by (intros; right; right; auto).
  assert (Eh : forall q v, In v (nodes g) -> edge h q v -> edge g q v) by (intros q v Hv E; apply ed in E; destruct E as [[_ ->]|[[_ ->]|[[_ ->]|E]]]; try contradiction; auto).
  assert (Loc : forall v a b, In v (nodes g) -> a v = b v -> (forall q, edge g q v -> a q = b q) -> K v a = K v b). { intros v a b Hv E H. apply (k_local _ _ _ Kc v); auto. intros q [->|Hq]; auto. }
  assert (Cg : conditionals g D K). { split; [exact Loc|]. split; [intros v a Hv; apply (k_nonneg _ _ _ Kc); auto|]. intros v a Hv H. apply (k_normal _ _ _ Kc); auto. }
  (* a possible assignment *)
  assert (T := cond_total h D K Wh Kc). destruct (total_witness D (nodes h) (weight K (nodes h)) (fun _ => 0)) as (a & Wa & _ & Na); [apply Wh|rewrite T; discriminate|]. assert (Ka := weight_factor K (nodes h) a Na).
  set (a' := fun v => turn C u enc F v (a v)).
  assert (FC : forall j v i, nth_error C j = Some (v, Copy i) -> F j = F i) by (intros j v i E; apply L1 in E; tauto). assert (FX : forall j v i i', nth_error C j = Some (v, Xor i i') -> F j = xorb (F i) (F i')) by (intros j v i i' E; apply L2 in E; tauto).
  assert (Hud : In d (nodes h) /\ d <> u) by (split; [left|]; auto). assert (Hus : NoDup [u] /\ In u [u] /\ incl [u] (nodes h)) by (split; [repeat constructor; intros []|split; [left; auto|intros v [<-|[]]; right; left; auto]]).
  assert (Kt : forall v, In v (nodes h) -> K v a' = K v a) by exact (kern_turn h C u jp jd enc EI HC HX L3 (conj Hp Ep) (conj Hjd Ed) d [u] Hud Hus F FC FX LC Fp Fd a a' Wa (fun v _ => eq_refl)).
  assert (Wc : forall v, In v (nodes g) -> In (a v) (codes C enc)). { intros v Hv. assert (X := Wa v (Ih v Hv)). unfold D, Dm in X. destruct (String.string_dec v u); [destruct (proj2 (Nwd v Hv)); auto|auto]. }
  assert (Tz : forall z, In z Z -> a' z = a z). { intros z Hz. unfold a', turn. destruct (String.string_dec z u) as [E|_]; [destruct (proj2 (Nwd z (IZ z Hz))); auto|]. rewrite flipl_none; [apply (code_decode C enc EI); apply Wc; auto|].
    intro j. unfold here. destruct (F j) eqn:Fj; auto. destruct (String.eqb_spec (loc C j) z) as [E|]; auto. destruct (Nat.ltb_spec j (length C)) as [Lj|]; auto. exfalso. destruct (Un j Lj Fj) as [_ U]. apply U. rewrite E. split; [apply Zd; auto|intros ->; contradiction]. }
  assert (Ly : loc C jp = y). { apply ed in Ep. destruct (Un jp Hp Fp) as [U1 _]. destruct Ep as [[_ E]|[[E _]|[[E _]|E]]]; auto; [congruence|contradiction|apply Eg in E; tauto]. }
  assert (Fl : bit C enc (a' y) jp = negb (bit C enc (a y) jp)). { rewrite <- Ly. unfold a'. rewrite (turn_bit h C u jp jd enc EI L3 (conj Hp Ep) (conj Hjd Ed) F a jp Hp) by (apply Wa; apply L3; auto). rewrite Fp. apply xorb_true_r. }
  exists D, K, a, a'. split; [intros v _; split; auto|]. split; auto. split; [auto|]. split; [intros v Hv; unfold a'; apply (Permutation_in _ (turn_perm C u enc EI F v)); apply in_map; auto|].
  split; [apply weight_nz; auto|]. split; [apply weight_nz; intros v Hv; rewrite Kt by auto; auto|]. split; auto.
  intros c Wcc Cx Cy Cz. destruct (Qc_eq_dec (weight K (nodes g) c) 0) as [E|N]; auto. exfalso. assert (Kc' := weight_factor K (nodes g) c N).
  (* the values of x and Z determine the bit of y *)
  assert (Det : forall b, (forall v, In v (nodes g) -> In (b v) (D v)) -> (forall v, In v (nodes g) -> K v b <> 0) -> bit C enc (b y) jp = xors (fun j => bit C enc (b (loc C j)) j) Q).
  { intros b Wb Kb. set (b2 := fun v => if in_dec String.string_dec v (nodes g) then b v else hd 0 (D v)). assert (B2 : forall v, In v (nodes g) -> b2 v = b v) by (intros v Hv; unfold b2; destruct (in_dec String.string_dec v (nodes g)); [auto|contradiction]).
    assert (Cr : carries C (fun j => bit C enc (b2 (loc C j)) j)).
    { apply (kern_carries h C u jp jd enc EI L3 (conj Hp Ep) (conj Hjd Ed)).
      - intros v Hv. fold D. unfold b2. destruct (in_dec String.string_dec v (nodes g)); auto. specialize (Ne v). destruct (D v); [congruence|left; auto].
      - intros v Hv (j & i & E & Ni). assert (Lv := loc_at _ _ _ _ E). assert (Lj : (j < length C)%nat) by (apply nth_error_Some; congruence). destruct Hv as [<-|[<-|Hv]]; [destruct (Ni (L4 j i E))|destruct (proj2 (L3 j Lj)); auto|]. fold K. rewrite (Loc v b2 b); auto. intros q Hq. apply B2. apply Eg in Hq. tauto. }
    destruct (Ca _ Cr) as [C1 _]. cbv beta in C1. rewrite Ly in C1. rewrite B2 in C1 by auto. rewrite C1. clear - Se B2 Zd Hx IZ. induction Q as [|s Q IH]; auto. cbn [xors fold_right]. fold (xors (fun j => bit C enc (b2 (loc C j)) j) Q) (xors (fun j => bit C enc (b (loc C j)) j) Q). rewrite IH by (intros; apply Se; right; auto).
    rewrite B2; auto. destruct (Se s (or_introl eq_refl)) as [_ [->|E]]; auto. apply IZ. apply Zd. auto. }
  assert (D1 := Det a (fun v Hv => Wa v (Ih v Hv)) (fun v Hv => Ka v (Ih v Hv))). assert (D2 := Det c Wcc Kc'). assert (Sm : xors (fun j => bit C enc (c (loc C j)) j) Q = xors (fun j => bit C enc (a (loc C j)) j) Q).
  { clear - Se Cx Cz Zd. induction Q as [|s Q IH]; auto. cbn [xors fold_right]. fold (xors (fun j => bit C enc (c (loc C j)) j) Q) (xors (fun j => bit C enc (a (loc C j)) j) Q). rewrite IH by (intros; apply Se; right; auto). destruct (Se s (or_introl eq_refl)) as [_ [->|E]]; [rewrite Cx; auto|]. rewrite (Cz (loc C s)); auto. apply Zd. auto. }
  rewrite Cy, Fl, Sm, <- D1 in D2. destruct (bit C enc (a y) jp); discriminate.
Qed.
