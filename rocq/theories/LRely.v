(* Lemmas for C78: networks in which the best rule of d depends on the conditional probabilities of v. *)
From Coq Require Import String List Bool Arith QArith Qcanon Lia Permutation.
Import ListNotations.
From Verif Require Import MBase MGraph MPaths MMacid MCpd MNet MProb MQuery Spec SpecM SpecC SpecN SpecQ SpecPol SpecVoi SpecGen LBase LGraph LQc LQcArith LSum LBayes LDo LQuery LValue LMech LStage LControl PComplete.
Local Open Scope string_scope.
Local Open Scope list_scope.
Local Open Scope Qc_scope.

(* w held at y *)
Definition held (K : node -> asg -> Qc) (w : node) (y : outcome) : node -> asg -> Qc := fun v a => K v (upd a w y).
Lemma upd_back : forall a w y v, a w = y -> upd a w y v = a v.
Proof. intros a w y v E. destruct (String.string_dec v w) as [->|N]; [rewrite upd_same; auto|apply upd_other; auto]. Qed.
Lemma upd_comm : forall a v x w y u, v <> w -> upd (upd a v x) w y u = upd (upd a w y) v x u.
Proof.
  intros a v x w y u N. destruct (String.string_dec u w) as [->|Nw]; [rewrite upd_same, upd_other, upd_same by auto; auto|]. rewrite (upd_other _ w) by auto.
  destruct (String.string_dec u v) as [->|Nv]; [rewrite !upd_same; auto|rewrite !upd_other by auto; auto].
Qed.
(* what is paid is the mixture of what is paid when w is held *)
Lemma mixture : forall g K w v D us, ~ In w (nodes g) -> ~ In w us -> (forall x, In x (nodes g) -> ext (K x)) -> on (fun x => x = w) (K w) ->
  pays (extend g w v) us D K = qsum (map (fun y => K w (upd (fun _ => 0) w y) * pays g us D (held K w y)) (D w)).
Proof.
  intros g K w v D us Hw Hu Ex Ow. unfold pays. cbn [extend nodes total]. apply qsum_ext. intros y _.
  set (f := fun a => weight (held K w y) (nodes g) a * qsum (map a us)). set (c := K w (upd (fun _ => 0) w y)).
  rewrite (total_ext_in D (nodes g) _ (fun a => c * f a)).
  - rewrite total_scale. f_equal. apply (total_on D (nodes g) (fun x => x <> w)).
    + intros a b H. unfold f, weight, held. f_equal.
      * apply qprod_ext. intros x Hx. apply Ex; auto. intros z _. destruct (String.string_dec z w) as [->|N]; [rewrite !upd_same; auto|rewrite !upd_other by auto; auto].
      * f_equal. apply map_ext_in. intros x Hx. apply H. intros ->. contradiction.
    + intros x [N _]. apply upd_other; auto.
  - intros b _ Hb. assert (E : b w = y) by (rewrite Hb by auto; apply upd_same). unfold f, weight. cbn [map]. match goal with |- qprod (?h :: ?t) * ?r = _ => change (h * qprod t * r = c * (qprod (map (fun x => held K w y x b) (nodes g)) * r)) end.
    assert (E1 : K w b = c) by (apply Ow; intros x ->; rewrite E, upd_same; auto). rewrite E1.
    rewrite (qprod_ext _ (fun x => K x b) (fun x => held K w y x b)); [ring|]. intros x Hx. apply Ex; auto. intros z _. symmetry. apply upd_back; auto.
Qed.
Lemma extend_edge : forall g w v a b, edge (extend g w v) a b <-> (a = w /\ b = v) \/ edge g a b.
Proof. intros g w v a b. unfold edge, extend. cbn [edges In]. split; [intros [E|E]; auto; injection E as <- <-; auto|intros [[-> ->]|E]; auto]. Qed.
Lemma held_conditionals : forall g w v D K y, wf_dag g -> ~ In w (nodes g) -> In v (nodes g) -> conditionals (extend g w v) D K -> In y (D w) -> conditionals g D (held K w y).
Proof.
  intros g w v D K y W Hw Hv (K1 & K2 & K3) Hy. assert (In1 : forall x, In x (nodes g) -> In x (nodes (extend g w v))) by (intros; right; auto).
  assert (Nw : forall x, In x (nodes g) -> x <> w) by (intros x Hx ->; contradiction). split; [|split].
  - intros x a a' Hx E H. unfold held. apply K1; auto; [rewrite !upd_other by auto; auto|]. intros p Hp. apply extend_edge in Hp. destruct Hp as [[-> _]|Hp]; [rewrite !upd_same; auto|]. assert (p <> w) by (apply Nw; apply (proj1 W) in Hp; tauto). rewrite !upd_other by auto. auto.
  - intros x a Hx. apply K2. auto.
  - intros x a Hx H. change (fold_right Qcplus 0) with qsum. rewrite (qsum_ext _ _ (fun z => K x (upd (upd a w y) x z))).
    + apply (K3 x (upd a w y)); auto. intros p Hp. apply extend_edge in Hp. destruct Hp as [[-> _]|Hp]; [rewrite upd_same; auto|]. rewrite upd_other; auto. apply Nw. apply (proj1 W) in Hp; tauto.
    + intros z _. unfold held. apply K1; auto; [apply upd_comm; auto|]. intros p _. apply upd_comm; auto.
Qed.

(* for every rule of d there are conditional probabilities of v under which it is at least 1/4 worse than another rule *)
Definition reliant (g : graph) (d v : node) (us : list node) : Prop :=
  exists D (Y : list outcome) (K bw : outcome -> node -> asg -> Qc), value_lists g D /\ Y <> [] /\ (forall y, In y Y -> conditionals g D (K y)) /\
    (forall y y' x a, In y Y -> In y' Y -> In x (nodes g) -> x <> v -> K y x a = K y' x a) /\ (forall y, In y Y -> rules g d D (bw y)) /\
    forall b, rules g d D b -> exists y, In y Y /\ pays g us D (with_rule (K y) d b) + Q2Qc (1 # 4) <= pays g us D (with_rule (K y) d (bw y)).

(* a weighted mean below a bound has a term below the bound *)
Lemma mean_term : forall (p s : outcome -> Qc) (c : Qc) l, (forall y, In y l -> 0 <= p y) -> qsum (map p l) = 1 -> c <= qsum (map (fun y => p y * s y) l) -> exists y, In y l /\ c <= s y.
Proof.
  intros p s c l P E L. destruct (find (fun y => if Qclt_le_dec (s y) c then false else true) l) as [y|] eqn:F.
  - apply find_some in F. destruct F as [Hy F]. exists y. split; auto. destruct (Qclt_le_dec (s y) c); [discriminate|auto].
  - exfalso. assert (B : forall y, In y l -> s y < c). { intros y Hy. assert (X := find_none _ _ F y Hy). cbv beta in X. destruct (Qclt_le_dec (s y) c); [auto|discriminate]. }
    assert (Z : exists y, In y l /\ 0 < p y). { destruct (find (fun y => if Qclt_le_dec 0 (p y) then true else false) l) as [y|] eqn:F2; [apply find_some in F2; destruct F2 as [Hy F2]; exists y; split; auto; destruct (Qclt_le_dec 0 (p y)); [auto|discriminate]|].
      exfalso. assert (Q : qsum (map p l) = qsum (map (fun _ => 0) l)). { apply qsum_ext. intros y Hy. assert (X := find_none _ _ F2 y Hy). cbv beta in X. destruct (Qclt_le_dec 0 (p y)); [discriminate|]. apply Qcle_antisym; auto. } rewrite qsum_zero, E in Q. discriminate. }
    destruct Z as (y0 & H0 & P0). assert (S : forall l', (forall y, In y l' -> In y l) -> qsum (map (fun y => p y * s y) l') <= c * qsum (map p l') /\ (In y0 l' -> qsum (map (fun y => p y * s y) l') < c * qsum (map p l'))).
    { induction l' as [|z l' IH]; intros I'; [cbn; split; [rewrite Qcmult_0_r; apply Qcle_refl|intros []]|]. destruct IH as [I1 I2]; [intros; apply I'; right; auto|]. cbn [map]. assert (Bz := B z (I' z (or_introl eq_refl))). assert (Pz := P z (I' z (or_introl eq_refl))).
      change (qsum (p z * s z :: map (fun y => p y * s y) l')) with (p z * s z + qsum (map (fun y => p y * s y) l')). change (qsum (p z :: map p l')) with (p z + qsum (map p l')). set (A := qsum (map (fun y => p y * s y) l')) in *. set (T := qsum (map p l')) in *. clearbody A T. split.
      - assert (p z * s z <= c * p z) by (rewrite (Qcmult_comm c); rewrite (Qcmult_comm (p z)), (Qcmult_comm (p z) c); apply Qcmult_le_compat_r; auto; apply Qclt_le_weak; auto). qclra.
      - intros [->|Hl].
        + assert (p y0 * s y0 < c * p y0) by (rewrite (Qcmult_comm (p y0)); apply Qcmult_lt_compat_r; auto). qclra.
        + specialize (I2 Hl). assert (p z * s z <= c * p z) by (rewrite (Qcmult_comm c); rewrite (Qcmult_comm (p z)), (Qcmult_comm (p z) c); apply Qcmult_le_compat_r; auto; apply Qclt_le_weak; auto). qclra. }
    destruct (S l (fun y H => H)) as [_ S2]. specialize (S2 H0). rewrite E, Qcmult_1_r in S2. exact (Qclt_not_le _ _ S2 L).
Qed.

Lemma relevant_reliant : forall g d v u w us Z, wf_dag g -> In d (nodes g) -> In v (nodes g) -> v <> d -> ~ In w (nodes g) -> NoDup us -> In u us -> incl us (nodes g) -> descends g u d ->
  (forall x, In x Z <-> x = d \/ edge g x d) -> dconn (extend g w v) Z w u -> reliant g d v us.
Proof.
  intros g d v u w us Z W Hd Hv Nvd Hw Nus Hu Ius Du Hz (_ & _ & p & Sp & Ac).
  set (gx := extend g w v) in *. set (h := mkG (nodes gx) ((w, d) :: edges gx)).
  assert (Ex : forall a b, edge gx a b <-> (a = w /\ b = v) \/ edge g a b) by (intros; apply extend_edge).
  assert (Eh : forall a b, edge h a b <-> edge gx a b \/ (a = w /\ b = d)) by (intros a b; unfold edge at 1, h; cbn [edges In]; split; [intros [E|E]; auto; injection E as <- <-; auto|intros [E|[-> ->]]; auto]).
  assert (Ng : forall a b, edge g a b -> In a (nodes g) /\ In b (nodes g)) by (intros a b E; apply (proj1 W); auto).
  assert (Nw : forall x, In x (nodes g) -> x <> w) by (intros x Hx ->; contradiction).
  assert (Wx : wf_dag gx). { split; [|apply extend_acyclic; auto]. destruct W as [[W1 [W2 W3]] _]. split; [constructor; auto|]. split; [constructor; auto; intro E; apply Ng in E; tauto|]. intros a b E. apply Ex in E. destruct E as [[-> ->]|E]; [split; [left; auto|right; auto]|apply W3 in E; split; right; tauto]. }
  assert (Rs : forall a b, In a (nodes g) -> reach h a b -> reach g a b /\ In b (nodes g)). { intros a b Ha R. revert Ha. induction R as [|a c b E R IH]; intro Ha; [split; [constructor|auto]|]. apply Eh in E. destruct E as [E|[-> _]]; [|contradiction]. apply Ex in E. destruct E as [[-> _]|E]; [contradiction|]. destruct (Ng _ _ E) as [_ Hc]. destruct (IH Hc) as [I1 I2]. split; auto. econstructor; eauto. }
  assert (Ah : acyclic h). { intros x (c & E & R). assert (Hc : In c (nodes g)) by (apply Eh in E; destruct E as [E|[_ ->]]; [apply Ex in E; destruct E as [[_ ->]|E]; [auto|apply Ng in E; tauto]|auto]). destruct (Rs c x Hc R) as [R' Hx]. apply Eh in E. destruct E as [E|[-> _]]; [|contradiction]. apply Ex in E. destruct E as [[-> _]|E]; [contradiction|]. apply (proj2 W x). exists c. auto. }
  assert (Wh : wf_dag h). { split; [|exact Ah]. destruct Wx as [[W1 [W2 W3]] _]. split; [exact W1|]. split; [constructor; [|exact W2]|]. - intro E. apply Ex in E. destruct E as [[_ E]|E]; [congruence|]. apply Ng in E. tauto. - intros a b E. apply Eh in E. destruct E as [E|[-> ->]]; [apply W3 in E; exact E|split; [left; auto|right; auto]]. }
  assert (Du' : descends gx u d). { destruct Du as (c & E & R). exists c. split; [apply Ex; auto|]. eapply reach_sub; [|exact R]. intros; apply Ex; auto. }
  assert (Nwd : ~ edge gx w d) by (intro E; apply Ex in E; destruct E as [[_ E]|E]; [congruence|apply Ng in E; tauto]).
  assert (Nde : ~ descends gx w d). { intros (c & E & R). assert (Hc : In c (nodes g)) by (apply Ex in E; destruct E as [[_ ->]|E]; [auto|apply Ng in E; tauto]). assert (R' : reach h c w) by (eapply reach_sub; [|exact R]; intros; apply Eh; auto). apply Rs in R'; tauto. }
  destruct (voi_network gx h d w u us Z p Wx Wh eq_refl Eh Nwd (fun E => Nw d Hd (eq_sym E)) Nde) as (D & K & bw & Vl & Cd & NDd & Rw & Pw & Ub); auto; [left; auto|intros x Hx; right; auto| |].
  { intro z. rewrite Hz. split; [intros [->|E]; split; auto; [right; apply Ex; auto|apply Nw; apply Ng in E; tauto]|intros [[->|E] N]; auto; apply Ex in E; destruct E as [[E _]|E]; [congruence|auto]]. }
  cbv zeta in Rw, Pw, Ub. assert (Cl := Cd). destruct Cl as (K1 & K2 & K3).
  assert (Vg : value_lists g D) by (intros x Hx; apply Vl; right; auto). destruct (Vl w (or_introl eq_refl)) as [NYw NeY].
  assert (Nwu : ~ In w us) by (intro E; apply Ius in E; contradiction).
  assert (Xk : forall x, In x (nodes g) -> ext (K x)) by (intros x Hx a a' H; apply K1; [right; auto|apply H; auto|intros; apply H; auto]).
  assert (Ow : on (fun x => x = w) (K w)). { intros a a' H. apply K1; [left; auto|auto|]. intros q E. apply Ex in E. destruct E as [[-> E]|E]; [subst; auto|apply Ng in E; tauto]. }
  assert (Mix : forall b, ext (b d) -> pays gx us D (with_rule K d b) = qsum (map (fun y => K w (upd (fun _ => 0) w y) * pays g us D (with_rule (held K w y) d (held b w y))) (D w))).
  { intros b Hb. unfold gx. rewrite (mixture g (with_rule K d b) w v D us Hw Nwu).
    - apply qsum_ext. intros y _. assert (E : with_rule K d b w = K w) by (unfold with_rule; destruct (String.string_dec w d) as [->|]; [contradiction|reflexivity]). rewrite E. reflexivity.
    - intros x Hx. unfold with_rule. destruct (String.string_dec x d); auto.
    - unfold with_rule. destruct (String.string_dec w d) as [->|]; [contradiction|exact Ow]. }
  assert (Ewx : forall q, (edge gx q d \/ q = w) <-> (edge g q d \/ q = w)). { intro q. rewrite Ex. split; [intros [[[-> _]|E]|E]; auto|intros [E|E]; auto]. }
  destruct Rw as (R1 & R2 & R3).
  assert (Rb : forall y, In y (D w) -> rules g d D (held bw w y)).
  { intros y Hy. unfold held. split; [|split].
    - intros a a' E H. apply R1; [rewrite !upd_other by auto; auto|]. intros q Hq. apply Ewx in Hq. destruct (String.string_dec q w) as [->|N]; [rewrite !upd_same; auto|]. rewrite !upd_other by auto. destruct Hq as [Hq|Hq]; [auto|contradiction].
    - intro a. apply R2.
    - intros a H. rewrite (qsum_ext _ _ (fun z => bw d (upd (upd a w y) d z))).
      + apply R3. intros q Hq. apply Ewx in Hq. destruct (String.string_dec q w) as [->|N]; [rewrite upd_same; auto|]. rewrite upd_other by auto. destruct Hq as [Hq|Hq]; [auto|contradiction].
      + intros z _. apply R1; [apply upd_comm; auto|]. intros q _. apply upd_comm; auto. }
  exists D, (D w), (fun y => held K w y), (fun y => held bw w y). split; auto. split; auto. split; [intros y Hy; apply (held_conditionals g w v); auto|]. split.
  { intros y y' x a _ _ Hx Nx. unfold held. apply K1; [right; auto|rewrite !upd_other by auto; auto|]. intros q E. apply Ex in E. destruct E as [[_ E]|E]; [contradiction|]. rewrite !upd_other by (apply Nw; apply Ng in E; tauto). auto. }
  split; auto. intros b Hb. assert (Hb0 := Hb). destruct Hb0 as (B1 & B2 & B3).
  assert (L : Q2Qc (1 # 4) <= qsum (map (fun y => K w (upd (fun _ => 0) w y) * (pays g us D (with_rule (held K w y) d (held bw w y)) - pays g us D (with_rule (held K w y) d b))) (D w))).
  { assert (P1 : 1 <= pays gx us D (with_rule K d bw)) by exact Pw. assert (P2 : pays gx us D (with_rule K d b) <= Q2Qc (3 # 4)). { apply Ub. split; [|split; auto].
      - intros a a' E H. apply B1; auto. intros q Hq. apply H. split; [apply Ex; auto|apply Nw; apply Ng in Hq; tauto].
      - intros a H. apply B3. intros q Hq. apply H. split; [apply Ex; auto|apply Nw; apply Ng in Hq; tauto]. }
    rewrite Mix in P1 by (intros a a' H; apply R1; auto). rewrite Mix in P2 by (intros a a' H; apply B1; auto).
    rewrite (qsum_ext _ (fun y => K w (upd (fun _ => 0) w y) * pays g us D (with_rule (held K w y) d (held b w y))) (fun y => K w (upd (fun _ => 0) w y) * pays g us D (with_rule (held K w y) d b))) in P2.
    - rewrite (qsum_ext _ _ (fun y => K w (upd (fun _ => 0) w y) * pays g us D (with_rule (held K w y) d (held bw w y)) + (- (1)) * (K w (upd (fun _ => 0) w y) * pays g us D (with_rule (held K w y) d b)))) by (intros; ring).
      rewrite qsum_plus, qsum_scale. match type of P1 with _ <= ?s => set (A := s) in * end. match type of P2 with ?s <= _ => set (B := s) in * end. clearbody A B. clear - P1 P2.
      apply Qcle_trans with (1 + - (1) * Q2Qc (3 # 4)); [discriminate|]. apply Qcplus_le_compat; auto. replace (- (1) * B) with (- B) by ring. replace (- (1) * Q2Qc (3 # 4)) with (- Q2Qc (3 # 4)) by ring. apply Qcopp_le_compat. auto.
    - intros y _. f_equal. unfold pays. apply total_ext. intro a. f_equal. unfold weight. apply qprod_ext. intros x Hx. unfold with_rule. destruct (String.string_dec x d); auto. unfold held. apply B1; [apply upd_other; auto|]. intros q Hq. apply upd_other. apply Nw. apply Ng in Hq; tauto. }
  apply mean_term in L.
  - destruct L as (y & Hy & L). exists y. split; auto. set (A := pays g us D (with_rule (held K w y) d (held bw w y))) in *. set (B := pays g us D (with_rule (held K w y) d b)) in *. clearbody A B. clear - L. apply Qcle_trans with (B + (A - B)); [apply Qcplus_le_compat; [apply Qcle_refl|auto]|]. replace (B + (A - B)) with A by ring. apply Qcle_refl.
  - intros y _. apply K2. left; auto.
  - apply (K3 w (fun _ => 0)); [left; auto|]. intros q E. apply Ex in E. destruct E as [[-> E]|E]; [subst; contradiction|apply Ng in E; tauto].
Qed.
