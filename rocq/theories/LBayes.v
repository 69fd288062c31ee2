(* Bayesian networks as products of conditional probabilities: nodes without descendants of interest sum out,
   and d-separated conditional probabilities cancel. *)
From Coq Require Import String List Bool Arith QArith Qcanon Lia Permutation Setoid.
Import ListNotations.
From Verif Require Import MBase MGraph MMacid MCpd MNet MProb Spec SpecC LBase LGraph LQc LCpd LSum.
Local Open Scope Qc_scope.

Lemma topo_exists : forall g, wf_dag g -> exists l, Permutation l (nodes g) /\ topological g l.
Proof.
  intros g [W A]. assert (O : valid_order id_order) by (intros k l; apply Permutation_refl).
  destruct (toposort_spec id_order g O W A) as [l (_ & H2 & H3)]. exists l. split; auto. apply preds_before_topological; auto.
  eapply Permutation_NoDup; [apply Permutation_sym; eauto|apply W].
Qed.
Lemma filter_true' : forall (A : Type) (f : A -> bool) l, (forall x, In x l -> f x = true) -> filter f l = l.
Proof. intros A f l H. induction l as [|x l IH]; simpl; auto. rewrite H by (left; auto). rewrite IH; auto. intros; apply H; right; auto. Qed.
Lemma NoDup_app' : forall (A : Type) (l r : list A), NoDup l -> NoDup r -> (forall x, In x l -> ~ In x r) -> NoDup (l ++ r).
Proof.
  intros A l r N. induction N as [|x l Hx N IH]; intros Nr H; simpl; auto. constructor; [|apply IH; auto; intros; apply H; right; auto].
  intro K. apply in_app_or in K. destruct K as [K|K]; auto. apply (H x); auto. left; auto.
Qed.
Lemma agrees_iff : forall c a, agrees c a = true <-> forall v x, In (v, x) c -> a v = x.
Proof.
  intros c a. unfold agrees. rewrite forallb_forall. split.
  - intros H v x Hi. apply oeqb_iff. apply (H (v, x) Hi).
  - intros H [v x] Hi. apply oeqb_iff. apply H; auto.
Qed.
Lemma agrees_app : forall c d a, agrees (c ++ d) a = agrees c a && agrees d a.
Proof. intros. unfold agrees. apply forallb_app. Qed.
Lemma agrees_on : forall c, on (fun v => In v (keys c)) (fun a => if agrees c a then 1 else 0).
Proof.
  intros c a b E. assert (X : agrees c a = agrees c b).
  { unfold agrees. clear - E. induction c as [|[v x] c IH]; auto. cbn [forallb fst snd]. rewrite E by (left; auto). rewrite IH; auto. intros u Hu. apply E. right; auto. }
  rewrite X. auto.
Qed.
(* give the variables of c their values *)
Definition given (c : list (node * outcome)) (a : asg) : asg := fold_right (fun vx b => upd b (fst vx) (snd vx)) a c.
Lemma given_other : forall c a v, ~ In v (keys c) -> given c a v = a v.
Proof.
  induction c as [|[u x] c IH]; intros a v H; simpl; auto. rewrite upd_other by (intro; subst; apply H; left; auto). apply IH. intro K; apply H; right; auto.
Qed.
Lemma given_in : forall c a v x, NoDup (keys c) -> In (v, x) c -> given c a v = x.
Proof.
  induction c as [|[u y] c IH]; intros a v x N H; [destruct H|]. simpl. inversion N as [|? ? N1 N2]; subst. destruct H as [H|H].
  - injection H as -> ->. apply upd_same.
  - rewrite upd_other; [apply IH; auto|]. intro; subst. apply N1. apply (in_map fst) in H. auto.
Qed.
Lemma given_app : forall c d a, given (c ++ d) a = given c (given d a).
Proof. intros. unfold given. apply fold_right_app. Qed.

Section Bayes.
  Variables (g : graph) (D : node -> list outcome).
  Hypothesis W : wf_dag g.
  Hypothesis DN : forall v, NoDup (D v).
  Definition fam (v u : node) : Prop := u = v \/ edge g u v.
  (* conditional probabilities for g *)
  Record cond (K : node -> asg -> Qc) : Prop := {
    k_local : forall v, In v (nodes g) -> on (fam v) (K v);
    k_normal : forall v a, In v (nodes g) -> (forall p, edge g p v -> In (a p) (D p)) ->
      qsum (map (fun x => K v (upd a v x)) (D v)) = 1;
    k_nonneg : forall v a, In v (nodes g) -> 0 <= K v a }.
  Definition weight (K : node -> asg -> Qc) (l : list node) (a : asg) : Qc := qprod (map (fun v => K v a) l).
  Definition closed (A : list node) : Prop := forall u v, edge g u v -> In v A -> In u A.

  Lemma weight_on : forall K l (X : node -> Prop), cond K -> incl l (nodes g) -> (forall v u, In v l -> fam v u -> X u) -> on X (weight K l).
  Proof.
    intros K l X C I H. apply (qprod_on _ (fun v => K v) l X). intros v Hv. eapply on_mono; [|apply (k_local K C v); auto]. intros u Hu. eapply H; eauto.
  Qed.
  Lemma weight_ext : forall K l, cond K -> incl l (nodes g) -> ext (weight K l).
  Proof. intros K l C I. eapply on_ext. apply (weight_on K l (fun _ => True)); auto. Qed.
  Lemma weight_app : forall K l l' a, weight K (l ++ l') a = weight K l a * weight K l' a.
  Proof. intros. unfold weight. rewrite map_app. apply qprod_app. Qed.
  Lemma weight_perm : forall K l l' a, Permutation l l' -> weight K l a = weight K l' a.
  Proof. intros. unfold weight. apply qprod_perm. apply Permutation_map. auto. Qed.
  Lemma weight_nonneg : forall K l a, cond K -> incl l (nodes g) -> 0 <= weight K l a.
  Proof. intros K l a C I. apply qprod_nonneg. intros x Hx. apply in_map_iff in Hx. destruct Hx as (v & <- & Hv). apply (k_nonneg K C); auto. Qed.

  (* summing out a list of nodes none of which has a child in A or earlier in the list *)
  Lemma barren_list : forall K A R h a, cond K -> incl (A ++ R) (nodes g) -> NoDup (A ++ R) -> closed A -> topological g R ->
    (forall u v, edge g u v -> In v R -> In u (A ++ R)) ->
    on (fun v => In v A) h -> total D (A ++ R) (fun b => weight K (A ++ R) b * h b) a = total D A (fun b => weight K A b * h b) a.
  Proof.
    intros K A R h a C. induction R as [|r R IH] using rev_ind; intros I N Cl T P Hh; [rewrite app_nil_r; auto|].
    rewrite app_assoc in *. rewrite total_app.
    assert (N' := N). apply NoDup_remove in N'. rewrite app_nil_r in N'. destruct N' as [N1 N2].
    assert (Hr : In r (nodes g)) by (apply I, in_or_app; right; simpl; auto).
    assert (I1 : incl (A ++ R) (nodes g)) by (intros z Hz; apply I, in_or_app; auto).
    assert (NC : forall v, In v (A ++ R) -> ~ fam v r).
    { intros v Hv [E|E]; [subst; auto|]. apply in_app_or in Hv. destruct Hv as [Hv|Hv].
      - apply N2. apply in_or_app. left. eapply Cl; eauto.
      - apply in_split in Hv. destruct Hv as (R1 & R2 & ->). apply (T R1 v (R2 ++ [r]) r).
        + rewrite <- app_assoc. auto. + apply in_or_app. right. simpl; auto. + exists v. split; [auto|constructor]. }
    transitivity (total D (A ++ R) (fun b => weight K (A ++ R) b * h b) a).
    - apply total_ext_in. intros b Hb _. simpl.
      rewrite (qsum_ext _ _ (fun x => (weight K (A ++ R) b * h b) * K r (upd b r x))).
      + rewrite qsum_scale. rewrite (k_normal K C r b Hr); [ring|]. intros p Hp. apply Hb.
        assert (X : In p ((A ++ R) ++ [r])). { apply (P p r Hp). apply in_or_app. right; simpl; auto. }
        apply in_app_or in X. destruct X as [X|[X|[]]]; auto. subst p. exfalso. apply (proj2 W r). exists r. split; [auto|constructor].
      + intros x Hx. rewrite weight_app. assert (E1 : weight K (A ++ R) (upd b r x) = weight K (A ++ R) b).
        { apply (weight_on K (A ++ R) (fun u => u <> r)); auto. { intros v u Hv Hf Eu. subst. eapply NC; eauto. } intros u Hu. apply upd_other; auto. }
        assert (E2 : h (upd b r x) = h b). { apply Hh. intros u Hu. apply upd_other. intro; subst. apply N2. apply in_or_app; auto. }
        rewrite E1, E2. unfold weight at 2. simpl. ring.
    - apply IH; auto.
      + intros l1 x l2 y E Hy. apply (T l1 x (l2 ++ [r]) y); [rewrite E, <- app_assoc; auto|apply in_or_app; auto].
      + intros u v E Hv. assert (X : In u ((A ++ R) ++ [r])) by (apply (P u v E); apply in_or_app; auto).
        apply in_app_or in X. destruct X as [X|[X|[]]]; auto. subst u. exfalso. eapply NC; [apply in_or_app; right; eauto|right; auto].
  Qed.
  Theorem barren : forall K A h a, cond K -> incl A (nodes g) -> NoDup A -> closed A -> on (fun v => In v A) h ->
    total D (nodes g) (fun b => weight K (nodes g) b * h b) a = total D A (fun b => weight K A b * h b) a.
  Proof.
    intros K A h a C I N Cl Hh. destruct (topo_exists g W) as (l & P & T).
    set (R := filter (fun v => negb (mem v A)) l).
    assert (PR : Permutation (nodes g) (A ++ R)).
    { apply NoDup_Permutation.
      - apply W.
      - apply NoDup_app'; auto.
        + apply NoDup_filter. eapply Permutation_NoDup; [apply Permutation_sym; eauto|apply W].
        + intros x H1 H2. apply filter_In in H2. destruct H2 as [_ H2]. apply negb_true_iff in H2. apply mem_nIn in H2. auto.
      - intro z. rewrite in_app_iff. unfold R. rewrite filter_In, negb_true_iff, mem_nIn. split.
        + intro Hz. destruct (in_dec String.string_dec z A); auto. right. split; auto. eapply Permutation_in; [apply Permutation_sym; eauto|auto].
        + intros [Hz|[Hz _]]; auto. eapply Permutation_in; eauto. }
    assert (NA : NoDup (A ++ R)) by (eapply Permutation_NoDup; [eauto|apply W]).
    assert (IA : incl (A ++ R) (nodes g)) by (intros z Hz; eapply Permutation_in; [apply Permutation_sym; eauto|auto]).
    transitivity (total D (A ++ R) (fun b => weight K (A ++ R) b * h b) a).
    - rewrite (total_perm D (nodes g) (A ++ R)); auto.
      + apply total_ext. intro b. rewrite (weight_perm K _ _ b PR). auto.
      + intros x y E. rewrite (weight_ext K (nodes g) C (incl_refl _) x y E). rewrite (on_ext _ h Hh x y E). auto.
    - apply barren_list; auto.
      + (* filtering keeps the order *)
        intros l1 x l2 y E Hy. unfold R in E. clear - T E Hy. revert l1 x l2 y E Hy. revert T. clear.
        intro T. assert (G : forall l, topological g l -> topological g (filter (fun v => negb (mem v A)) l)).
        { clear. induction l as [|z l IH]; intros T l1 x l2 y E Hy; simpl in E; [destruct l1; discriminate|].
          assert (T' : topological g l). { intros k1 u k2 w E' Hw. apply (T (z :: k1) u k2 w); [simpl; congruence|auto]. }
          destruct (negb (mem z A)); [|apply (IH T' l1 x l2 y E Hy)]. destruct l1 as [|z' l1]; simpl in E.
          - injection E as -> <-. apply filter_In in Hy. destruct Hy as [Hy _]. apply (T [] x l y eq_refl Hy).
          - injection E as -> E. apply (IH T' l1 x l2 y E Hy). }
        intros l1 x l2 y E Hy. apply (G l T l1 x l2 y E Hy).
      + intros u v E Hv. eapply Permutation_in; [exact PR|]. apply (proj2 (proj2 (proj1 W)) u v E).
  Qed.

  (* values of some variables, given *)
  Lemma collapse : forall c vs f a, NoDup (keys c) -> NoDup vs -> incl (keys c) vs -> (forall v x, In (v, x) c -> In x (D v)) -> ext f ->
    total D vs (fun b => (if agrees c b then 1 else 0) * f b) a = total D (filter (fun v => negb (mem v (keys c))) vs) f (given c a).
  Proof.
    induction c as [|[v x] c IH]; intros vs f a N Nv I Hx Hf.
    - rewrite filter_true'; [|intros; reflexivity]. apply total_ext. intro b. simpl. ring.
    - inversion N as [|? ? N1 N2]; subst.
      assert (Hv : In v vs) by (apply I; left; auto).
      set (ws := filter (fun u => negb (String.eqb u v)) vs).
      assert (P : Permutation vs (v :: ws)).
      { apply NoDup_Permutation; auto.
        - constructor; [|apply NoDup_filter; auto]. unfold ws. rewrite filter_In. intros [_ K]. rewrite String.eqb_refl in K. discriminate.
        - intro z. unfold ws. simpl. rewrite filter_In, negb_true_iff, String.eqb_neq. split.
          + intro Hz. destruct (String.string_dec v z); auto.
          + intros [<-|[Hz _]]; auto. }
      assert (Ef : forall c0, ext (fun b => (if agrees c0 b then 1 else 0) * f b)).
      { intros c0 p q E. rewrite (Hf p q E). f_equal. apply (on_ext _ _ (agrees_on c0) p q E). }
      assert (Nws : NoDup ws) by (apply NoDup_filter; auto).
      assert (Ivs : incl (keys c) ws).
      { intros z Hz. unfold ws. rewrite filter_In, negb_true_iff, String.eqb_neq. split; [apply I; right; auto|]. intro; subst; auto. }
      rewrite (total_perm D vs (v :: ws)); auto.
      rewrite (total_point D v x); auto.
      + transitivity (total D ws (fun b => (if agrees c b then 1 else 0) * f b) (upd a v x)).
        * apply total_ext_in. intros b _ Hb. cbn [agrees forallb fst snd]. fold (agrees c b). rewrite Hb.
          -- rewrite upd_same. replace (oeqb x x) with true by (symmetry; apply oeqb_iff; auto). reflexivity.
          -- unfold ws. rewrite filter_In. intros [_ K]. rewrite String.eqb_refl in K. discriminate.
        * rewrite IH; auto; [|intros; apply Hx; right; auto]. rewrite (total_perm D _ (filter (fun u => negb (mem u (keys ((v, x) :: c)))) vs)); auto.
          -- apply total_base; auto. intros u Hu. cbn [given fold_right fst snd]. fold (given c a).
             destruct (String.string_dec u v) as [->|Ne].
             ++ rewrite upd_same. rewrite given_other; auto. apply upd_same.
             ++ rewrite upd_other by auto. destruct (in_dec String.string_dec u (keys c)) as [Hk|Hk].
                ** apply in_map_iff in Hk. destruct Hk as ([u' y] & E & Hk). simpl in E. subst u'. rewrite !(given_in c _ u y); auto.
                ** rewrite !given_other by auto. apply upd_other; auto.
          -- apply NoDup_Permutation; try (apply NoDup_filter; auto). intro z. unfold ws. rewrite !filter_In, !negb_true_iff, String.eqb_neq, !mem_nIn. cbn [keys map fst In].
             split.
             ++ intros [[H1 H2] H3]. split; auto. intros [K|K]; auto.
             ++ intros [H1 H2]. split; [split; auto|auto].
      + apply Hx. left; auto.
      + unfold ws. rewrite filter_In. intros [_ K]. rewrite String.eqb_refl in K. discriminate.
      + intros b Hb. cbn [agrees forallb fst snd]. destruct (oeqb_spec (b v) x); [contradiction|]. cbn [andb]. ring.
  Qed.

  (* the probability of values for some variables *)
  Definition P (K : node -> asg -> Qc) (c : list (node * outcome)) : Qc :=
    total D (nodes g) (fun b => (if agrees c b then 1 else 0) * weight K (nodes g) b) (fun _ => 0).
  Lemma P_on : forall K A c, cond K -> incl A (nodes g) -> NoDup A -> closed A -> NoDup (keys c) -> incl (keys c) A -> (forall v x, In (v, x) c -> In x (D v)) ->
    P K c = total D (filter (fun v => negb (mem v (keys c))) A) (weight K A) (given c (fun _ => 0)).
  Proof.
    intros K A c C I N Cl Nc Ic Hc. unfold P.
    transitivity (total D A (fun b => (if agrees c b then 1 else 0) * weight K A b) (fun _ => 0)).
    - rewrite (total_ext D (nodes g) _ (fun b => weight K (nodes g) b * (if agrees c b then 1 else 0))) by (intro; ring).
      rewrite (barren K A); auto; [apply total_ext; intro; ring|]. eapply on_mono; [|apply agrees_on]. intros v Hv. apply Ic; auto.
    - apply collapse; auto. apply weight_ext; auto.
  Qed.
  Lemma P_nonneg : forall K c, cond K -> 0 <= P K c.
  Proof.
    intros K c C. apply total_nonneg. intros b _ _. apply Qc_mul_nonneg; [|apply weight_nonneg; auto; apply incl_refl].
    destruct (agrees c b); [apply Qclt_le_weak, Qc_0_lt_1|apply Qcle_refl].
  Qed.

  (* factors in two colours *)
  Section Split.
    Variables (K K' : node -> asg -> Qc) (A Z S C : list node).
    Hypothesis CK : cond K.
    Hypothesis CK' : cond K'.
    Hypothesis IA : incl A (nodes g).
    Hypothesis NA : NoDup A.
    Hypothesis ClA : closed A.
    Hypothesis Same : forall v a, In v A -> ~ In v S -> K v a = K' v a.
    Hypothesis Col : forall v u w, In v A -> fam v u -> fam v w -> ~ In u Z -> ~ In w Z -> In u C -> In w C.
    Hypothesis ColS : forall v u, In v A -> In v S -> fam v u -> ~ In u Z -> In u C.
    Definition one (v : node) : bool := mem v S || existsb (fun u => negb (mem u Z) && mem u C) (v :: parents g v).
    Lemma one_true : forall v u, In v A -> one v = true -> fam v u -> ~ In u Z -> In u C.
    Proof.
      intros v u Hv H Hu Hz. unfold one in H. apply orb_true_iff in H. destruct H as [H|H].
      - apply mem_In in H. eapply ColS; eauto.
      - apply existsb_exists in H. destruct H as (w & Hw & H). apply andb_true_iff in H. destruct H as [H1 H2].
        apply negb_true_iff in H1. apply mem_nIn in H1. apply mem_In in H2. assert (Fw : fam v w).
        { destruct Hw as [<-|Hw]; [left; auto|]. right. apply in_parents; auto. }
        apply (Col v w u Hv Fw Hu H1 Hz H2).
    Qed.
    Lemma one_false : forall v u, one v = false -> fam v u -> ~ In u Z -> ~ In u C.
    Proof.
      intros v u H Hu Hz Hc. unfold one in H. apply orb_false_iff in H. destruct H as [_ H].
      assert (X : existsb (fun w => negb (mem w Z) && mem w C) (v :: parents g v) = true).
      { apply existsb_exists. exists u. split.
        - destruct Hu as [->|Hu]; [left; auto|right; apply in_parents; auto].
        - apply andb_true_iff. split; [apply negb_true_iff, mem_nIn; auto|apply mem_In; auto]. }
      congruence.
    Qed.
    Definition F1 (K0 : node -> asg -> Qc) := weight K0 (filter one A).
    Definition F2 (K0 : node -> asg -> Qc) := weight K0 (filter (fun v => negb (one v)) A).
    Lemma split_weight : forall K0 a, weight K0 A a = F1 K0 a * F2 K0 a.
    Proof.
      intros K0 a. unfold F1, F2. rewrite <- weight_app. apply weight_perm. clear. induction A as [|v l IH]; simpl; auto.
      destruct (one v); simpl; [constructor; auto|]. eapply perm_trans; [constructor; exact IH|]. apply Permutation_middle.
    Qed.
    Lemma F1_on : forall K0, cond K0 -> on (fun v => In v Z \/ In v C) (F1 K0).
    Proof.
      intros K0 C0. apply weight_on; auto. { intros v Hv. apply filter_In in Hv. apply IA; tauto. }
      intros v u Hv Hu. apply filter_In in Hv. destruct Hv as [H1 H2]. destruct (in_dec String.string_dec u Z); auto. right. eapply one_true; eauto.
    Qed.
    Lemma F2_on : forall K0, cond K0 -> on (fun v => In v Z \/ ~ In v C) (F2 K0).
    Proof.
      intros K0 C0. apply weight_on; auto. { intros v Hv. apply filter_In in Hv. apply IA; tauto. }
      intros v u Hv Hu. apply filter_In in Hv. destruct Hv as [H1 H2]. apply negb_true_iff in H2. destruct (in_dec String.string_dec u Z); auto. right. eapply one_false; eauto.
    Qed.
    Lemma F2_same : forall a, F2 K a = F2 K' a.
    Proof.
      intro a. unfold F2, weight. apply qprod_ext. intros v Hv. apply filter_In in Hv. destruct Hv as [H1 H2]. apply negb_true_iff in H2.
      apply Same; auto. intro HS. unfold one in H2. apply mem_In in HS. rewrite HS in H2. discriminate.
    Qed.
    Definition A1 := filter (fun v => mem v C) (filter (fun v => negb (mem v Z)) A).
    Definition A2 := filter (fun v => negb (mem v C)) (filter (fun v => negb (mem v Z)) A).
    (* the probability of values for variables of the second colour and for all of Z *)
    Lemma split_P : forall K0 x c, cond K0 -> NoDup (keys (x ++ c)) -> (forall v, In v (keys c) <-> In v Z) -> incl Z A -> incl (keys x) A ->
      (forall v, In v (keys x) -> ~ In v C) -> (forall v y, In (v, y) (x ++ c) -> In y (D v)) ->
      P K0 (x ++ c) = total D A1 (F1 K0) (given c (fun _ => 0)) * total D (filter (fun v => negb (mem v (keys x))) A2) (F2 K0) (given (x ++ c) (fun _ => 0)).
    Proof.
      intros K0 x c C0 N Kc IZ Ix Cx Dx.
      assert (Kxc : forall v, In v (keys (x ++ c)) <-> In v (keys x) \/ In v Z).
      { intro v. unfold keys. rewrite map_app, in_app_iff. rewrite <- Kc. tauto. }
      assert (Dj : forall v, In v (keys x) -> ~ In v Z).
      { intros v H1 H2. apply Kc in H2. unfold keys in N. rewrite map_app in N. clear - N H1 H2. unfold keys in *. induction (map fst x) as [|z l IH]; [destruct H1|].
        simpl in N. inversion N; subst. destruct H1 as [->|H1]; [|auto]. apply H3. apply in_or_app; auto. }
      rewrite (P_on K0 A); auto; [|intros v Hv; apply Kxc in Hv; destruct Hv; auto].
      set (B2 := filter (fun v => negb (mem v (keys x))) A2).
      transitivity (total D (A1 ++ B2) (fun b => F1 K0 b * F2 K0 b) (given (x ++ c) (fun _ => 0))).
      - rewrite (total_perm D _ (A1 ++ B2)).
        + apply total_ext. intro b. apply split_weight.
        + apply NoDup_Permutation.
          * apply NoDup_filter; auto.
          * apply NoDup_app'; try (unfold B2, A1, A2; repeat apply NoDup_filter; auto).
            intros z H1 H2. unfold A1 in H1. unfold B2, A2 in H2. rewrite !filter_In in *. rewrite !negb_true_iff in *. destruct H1 as [_ H1]. destruct H2 as [[_ H2] _]. congruence.
          * intro z. rewrite in_app_iff. unfold B2, A1, A2. rewrite !filter_In, !negb_true_iff, !mem_nIn, !mem_In. rewrite Kxc.
            split.
            -- intros [H1 H2]. destruct (in_dec String.string_dec z C); [left|right]; tauto.
            -- intros [[[H1 H2] H3]|[[[H1 H2] H3] H4]]; split; auto; intros [K1|K1]; auto. apply (Cx z); auto.
        + apply weight_ext; auto.
      - rewrite total_split.
        + f_equal. assert (X := total_on D A1 _ _ (F1_on K0 C0)). apply X. intros v [[Hv|Hv] H2].
          * rewrite given_app. apply given_other. intro K1. apply (Dj v); auto.
          * rewrite given_app. apply given_other. intro K1. apply (Cx v); auto.
        + eapply on_mono; [|apply (F1_on K0 C0)]. intros v Hv K1. cbv beta in Hv. unfold B2, A2 in K1. rewrite !filter_In, !negb_true_iff, !mem_nIn in K1. tauto.
        + eapply on_mono; [|apply (F2_on K0 C0)]. intros v Hv K1. cbv beta in Hv. unfold A1 in K1. rewrite !filter_In, !negb_true_iff, !mem_nIn, mem_In in K1. tauto.
    Qed.
    Theorem split_sep : forall x c, NoDup (keys (x ++ c)) -> (forall v, In v (keys c) <-> In v Z) -> incl Z A -> incl (keys x) A ->
      (forall v, In v (keys x) -> ~ In v C) -> (forall v y, In (v, y) (x ++ c) -> In y (D v)) ->
      P K (x ++ c) * P K' c = P K' (x ++ c) * P K c.
    Proof.
      intros x c N Kc IZ Ix Cx Dx.
      assert (Nc : NoDup (keys ([] ++ c))). { simpl. unfold keys in N. rewrite map_app in N. unfold keys. clear - N. induction (map fst x); auto. inversion N; auto. }
      assert (Dc : forall v y, In (v, y) ([] ++ c) -> In y (D v)) by (intros v y H; apply Dx; apply in_or_app; auto).
      assert (Q0 : forall v, In v (@keys outcome []) -> ~ In v C) by (intros v []).
      assert (I0 : incl (@keys outcome []) A) by (intros v []).
      assert (E1 := split_P K x c CK N Kc IZ Ix Cx Dx). assert (E2 := split_P K' x c CK' N Kc IZ Ix Cx Dx).
      assert (E3 := split_P K [] c CK Nc Kc IZ I0 Q0 Dc). assert (E4 := split_P K' [] c CK' Nc Kc IZ I0 Q0 Dc).
      cbn [app] in E3, E4. rewrite E1, E2, E3, E4.
      rewrite !(total_ext D _ (F2 K) (F2 K') _ F2_same). ring.
    Qed.
  End Split.
End Bayes.
