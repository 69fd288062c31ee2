(* C74: the graphical test for the value of information is complete for one decision. *)
From Coq Require Import String List Bool Arith QArith Qcanon Lia Permutation.
Import ListNotations.
From Verif Require Import MBase MGraph MPaths MMacid MIncent MCpd MNet MProb MQuery Spec SpecM SpecI SpecC SpecN SpecQ SpecPol SpecVoi SpecVoiN SpecGen LBase LGraph LQc LQcArith LSum LBayes LQuery LValue LWire LTrek LIncent PMacid PIncent PGen PSolve PVoiN MVoi PVoi LCheck.
Local Open Scope string_scope.
Local Open Scope list_scope.
Local Open Scope Qc_scope.

(* ---- bits as small numbers ---- *)
Fixpoint num (l : list bool) : nat := match l with [] => 0 | b :: l' => (if b then 1 else 0) + 2 * num l' end.
Lemma num_inj : forall l l', length l = length l' -> num l = num l' -> l = l'.
Proof.
  induction l as [|b l IH]; intros [|b' l'] L E; try discriminate; auto. cbn [num] in E. assert (b = b') by (destruct b, b'; auto; lia). subst b'. f_equal. apply IH; [cbn in L; lia|]. destruct b; lia.
Qed.
Definition small (N : nat) (l : list bool) : Qc := 1 / Qc_of_nat (N + num l).
Lemma of_nat_le : forall m n, (m <= n)%nat -> Qc_of_nat m <= Qc_of_nat n.
Proof. intros m n L. induction L as [|k L IH]; [apply Qcle_refl|]. rewrite Qc_of_nat_S. apply Qcle_trans with (Qc_of_nat k); auto. qclra. Qed.
Lemma of_nat_lt : forall m n, (m < n)%nat -> Qc_of_nat m < Qc_of_nat n.
Proof. intros m n L. apply Qclt_le_trans with (Qc_of_nat (S m)); [rewrite Qc_of_nat_S; qclra|apply of_nat_le; auto]. Qed.
Lemma inv_le : forall x y : Qc, 0 < x -> x <= y -> 1 / y <= 1 / x.
Proof.
  intros x y P L. assert (Py : 0 < y) by (apply Qclt_le_trans with x; auto). assert (Nx : x <> 0) by (intros ->; exact (Qclt_not_eq _ _ P eq_refl)). assert (Ny : y <> 0) by (intros ->; exact (Qclt_not_eq _ _ Py eq_refl)).
  assert (Pi : 0 < x * y) by (rewrite <- (Qcmult_0_l y); apply Qcmult_lt_compat_r; auto). apply (Qcmult_lt_0_le_reg_r _ _ (x * y) Pi). replace (1 / y * (x * y)) with x by (field; auto). replace (1 / x * (x * y)) with y by (field; auto). auto.
Qed.
Lemma small_inj : forall N k l l', (0 < N)%nat -> length l = k -> length l' = k -> small N l = small N l' -> l = l'.
Proof.
  intros N k l l' HN L L' E. apply num_inj; [congruence|]. unfold small in E. assert (A := Qc_of_nat_nz (N + num l) ltac:(lia)). assert (B := Qc_of_nat_nz (N + num l') ltac:(lia)).
  assert (X : Qc_of_nat (N + num l) = Qc_of_nat (N + num l')). { transitivity (Qc_of_nat (N + num l) * (1 / Qc_of_nat (N + num l')) * Qc_of_nat (N + num l')); [|rewrite <- E; field; auto]. field; auto. }
  destruct (Nat.lt_trichotomy (N + num l) (N + num l')) as [K|[K|K]]; [|lia|]; apply of_nat_lt in K; rewrite X in K; destruct (Qclt_not_eq _ _ K eq_refl).
Qed.
Lemma small_range : forall N l, (0 < N)%nat -> 0 <= small N l /\ small N l <= 1 / Qc_of_nat N.
Proof.
  intros N l H. unfold small. assert (P := Qc_of_nat_pos (N + num l) ltac:(lia)). assert (PN := Qc_of_nat_pos N H). split.
  - assert (Nz : Qc_of_nat (N + num l) <> 0) by (apply Qc_of_nat_nz; lia). apply (Qcmult_lt_0_le_reg_r _ _ (Qc_of_nat (N + num l)) P). replace (1 / Qc_of_nat (N + num l) * Qc_of_nat (N + num l)) with 1 by (field; auto). rewrite Qcmult_0_l. discriminate.
  - apply inv_le; auto. apply of_nat_le. lia.
Qed.
Lemma small_sum : forall k, Qc_of_nat k * (1 / Qc_of_nat (4 * S k)) <= Q2Qc (1 # 4).
Proof.
  intro k. assert (P := Qc_of_nat_pos (4 * S k) ltac:(lia)). assert (Nz := Qc_of_nat_nz (4 * S k) ltac:(lia)). apply (Qcmult_lt_0_le_reg_r _ _ (Qc_of_nat (4 * S k)) P). replace (Qc_of_nat k * (1 / Qc_of_nat (4 * S k)) * Qc_of_nat (4 * S k)) with (Qc_of_nat k) by (field; auto).
  assert (E : Q2Qc (1 # 4) * Qc_of_nat (4 * S k) = Qc_of_nat (S k)). { assert (X : forall a b, Qc_of_nat (a + b) = Qc_of_nat a + Qc_of_nat b) by (intros a b; induction a as [|a IH]; [rewrite Qc_of_nat_0; cbn [Nat.add]; ring|cbn [Nat.add]; rewrite !Qc_of_nat_S, IH; ring]).
    replace (4 * S k)%nat with (S k + (S k + (S k + S k)))%nat by lia. rewrite !X. assert (Q4 : Q2Qc (1 # 4) + (Q2Qc (1 # 4) + (Q2Qc (1 # 4) + Q2Qc (1 # 4))) = 1) by (apply Qc_is_canon; reflexivity). set (w := Q2Qc (1 # 4)) in *. transitivity ((w + (w + (w + w))) * Qc_of_nat (S k)); [ring|rewrite Q4; ring]. }
  rewrite E. apply of_nat_le. lia.
Qed.

(* ---- the network of a circuit ---- *)
(* if x is not a parent of d but d-connected to a utility under d, some network on g (to which the link may be added) rewards seeing x *)
Lemma voi_network : forall g h d x u us Z p, wf_dag g -> wf_dag h -> nodes h = nodes g -> (forall a b, edge h a b <-> edge g a b \/ (a = x /\ b = d)) -> ~ edge g x d -> x <> d -> ~ descends g x d ->
  In x (nodes g) -> NoDup us -> In u us -> incl us (nodes g) -> descends g u d ->
  (forall z, In z Z <-> (z = d \/ edge g z d) /\ z <> x) -> simple_path g x u p -> active g Z p ->
  exists D K bw, value_lists g D /\ conditionals g D K /\ NoDup (D d) /\
    let run := fun b v a => if String.string_dec v d then b d a else K v a in
    let pay := fun b => total D (nodes g) (fun a => weight (run b) (nodes g) a * qsum (map a us)) (fun _ => 0) in
    let ruled := fun (sees : node -> Prop) (b : node -> asg -> Qc) => (forall a a', a d = a' d -> (forall p, sees p -> a p = a' p) -> b d a = b d a') /\ (forall a, 0 <= b d a) /\ (forall a, (forall p, sees p -> In (a p) (D p)) -> qsum (map (fun y => b d (upd a d y)) (D d)) = 1) in
    ruled (fun p => edge g p d \/ p = x) bw /\ 1 <= pay bw /\ forall b, ruled (fun p => edge g p d /\ p <> x) b -> pay b <= Q2Qc (3 # 4).
Proof.
  intros g h d x u us Z p W Wh Nh Eh Nxd Xd Nx Hx Nus Hu Ius Du Hz Sp Ac.
  destruct (trek g d x u Z p W Nxd Hz Sp Ac Du Nx Xd) as (C & F & jp & jd & jD & S & L & Hp & Ep & Hd & Ed & Fp & Fd & HD & LD & Un & Se & Ca). destruct L as [L1 L2 LC L3 L4].
  set (N := (4 * Datatypes.S (length us))%nat). set (enc := small N). assert (HN : (0 < N)%nat) by (unfold N; lia). assert (EI : forall l l', length l = length C -> length l' = length C -> enc l = enc l' -> l = l') by (intros l l'; apply small_inj; auto).
  assert (Sub : forall a b, edge g a b -> edge h a b) by (intros a b E; apply Eh; auto).
  assert (Hdn : In d (nodes g)) by (destruct Du as (w & Ew & _); apply (proj1 W) in Ew; tauto). assert (Ud : d <> u) by (intros <-; apply (proj2 W d); auto).
  assert (HC : forall j v i, nth_error C j = Some (v, Copy i) -> (i < length C)%nat /\ edge h (loc C i) v) by (intros j v i E; apply L1 in E; destruct E as (E1 & E2 & _); auto).
  assert (HX : forall j v i i', nth_error C j = Some (v, Xor i i') -> ((i < length C)%nat /\ edge h (loc C i) v) /\ ((i' < length C)%nat /\ edge h (loc C i') v)) by (intros j v i i' E; apply L2 in E; destruct E as ((E1 & E2) & (E3 & E4) & _); auto).
  assert (HNo : forall j, (j < length C)%nat -> In (loc C j) (nodes h) /\ loc C j <> u) by (rewrite Nh; auto).
  assert (Hjp : (jp < length C)%nat /\ edge h (loc C jp) u) by auto. assert (Hjd : (jd < length C)%nat /\ edge h (loc C jd) u) by auto. assert (Hdd : In d (nodes h) /\ d <> u) by (rewrite Nh; auto).
  assert (Hus : NoDup us /\ In u us /\ incl us (nodes h)) by (rewrite Nh; auto). assert (ER : forall l, length l = length C -> 0 <= enc l /\ enc l <= 1 / Qc_of_nat N) by (intros l _; apply small_range; auto). assert (Ht := small_sum (length us)). fold N in Ht.
  assert (Kc := kern_cond h C u jp jd enc Wh EI HC HX Hjp Hjd). assert (Dn := Dm_nodup h C u jp jd enc EI Hjp Hjd).
  set (D := Dm C u enc) in *. set (K := kern C u jp jd enc) in *.
  (* the kernels use the edges of g only *)
  assert (Kg : conditionals g D K).
  { destruct Kc as [K1 K2 K3]. rewrite Nh in *. assert (Loc : forall v a a', In v (nodes g) -> a v = a' v -> (forall q, edge g q v -> a q = a' q) -> K v a = K v a').
    { intros v a a' Hv E1 E2. destruct (String.string_dec v d) as [->|Nv].
      - unfold K, kern. destruct (String.string_dec d u); [contradiction|]. rewrite E1. apply prodl_ext. intros j b _. unfold asked. destruct (nth_error C j) as [[w s]|] eqn:E; auto. destruct (String.string_dec w d) as [->|Nw]; [apply L4 in E; subst s; auto|]. destruct s; auto; destruct (String.string_dec w d); congruence.
      - apply K1; auto. intros q [->|Hq]; auto. apply Eh in Hq. destruct Hq as [Hq|[_ Hq]]; [auto|contradiction]. }
    split; [exact Loc|]. split; [exact K3|]. intros v a Hv H. destruct (String.string_dec v d) as [->|Nv].
    - set (a' := fun w => if String.string_dec w x then hd 0 (D x) else a w). assert (Ex : D x <> []). { unfold D, Dm. destruct (String.string_dec x u); [discriminate|]. unfold codes. intro E. apply map_eq_nil in E. assert (X := proj2 (vecs_in (length C) (repeat true (length C))) (repeat_length _ _)). rewrite E in X. destruct X. }
      rewrite <- (K2 d a'); auto.
      + apply qsum_ext. intros y _. apply Loc; auto; [rewrite !upd_same; auto|]. intros q Hq. rewrite !upd_other by (intros ->; apply (proj2 W d); exists d; split; [auto|constructor]). unfold a'. destruct (String.string_dec q x) as [->|]; [contradiction|auto].
      + intros q Hq. unfold a'. destruct (String.string_dec q x) as [->|Nq]; [destruct (D x); [congruence|left; auto]|]. apply H. apply Eh in Hq. destruct Hq as [Hq|[Hq _]]; [auto|contradiction].
    - apply K2; auto. intros q Hq. apply H. apply Eh in Hq. destruct Hq as [Hq|[_ Hq]]; [auto|contradiction]. }
  assert (Vl : value_lists g D). { intros v Hv. split; [apply Dn|]. unfold D, Dm. destruct (String.string_dec v u); [discriminate|]. unfold codes. intro E. apply map_eq_nil in E. assert (X := proj2 (vecs_in (length C) (repeat true (length C))) (repeat_length _ _)). rewrite E in X. destruct X. }
  set (phi := fun a : asg => xors (fun j => bit C enc (a (loc C j)) j) S). set (bw := fun (v : node) (a : asg) => if Qc_eq_dec (a d) (enc (repeat (phi a) (length C))) then 1 else 0 : Qc).
  exists D, K, bw. split; auto. split; auto. split; [apply Dn|]. cbv zeta.
  assert (Sd : forall s, In s S -> edge h (loc C s) d) by (intros s Hs; apply Eh; destruct (Se s Hs) as [_ [->|E]]; auto).
  assert (Nd : forall s, In s S -> loc C s <> d) by (intros s Hs E; apply Sd in Hs; rewrite E in Hs; apply (proj2 Wh d); exists d; split; [auto|constructor]).
  assert (Dd : D d = codes C enc) by (unfold D, Dm; destruct (String.string_dec d u); [contradiction|auto]).
  assert (Rw : ruled C u enc d (fun q => edge h q d) bw).
  { assert (Ph : forall a a', (forall q, edge h q d -> a q = a' q) -> phi a = phi a'). { intros a a' H. unfold phi. clear - H Sd. induction S as [|s S IH]; auto. cbn [xors fold_right]. fold (xors (fun j => bit C enc (a (loc C j)) j) S) (xors (fun j => bit C enc (a' (loc C j)) j) S). rewrite IH by (intros; apply Sd; right; auto). rewrite (H (loc C s)) by (apply Sd; left; auto). auto. }
    split; [|split].
    - intros a a' E H. unfold bw. rewrite E, (Ph a a' H). auto.
    - intro a. unfold bw. destruct (Qc_eq_dec _ _); discriminate.
    - intros a _. fold D. rewrite Dd. rewrite (qsum_ext _ _ (fun y => if Qc_eq_dec y (enc (repeat (phi a) (length C))) then 1 else 0)).
      + set (e := enc (repeat (phi a) (length C))). assert (Ie : In e (codes C enc)) by (unfold codes, e; apply in_map; apply vecs_in; apply repeat_length). assert (Nc := codes_nodup C enc EI). clear - Ie Nc. induction (codes C enc) as [|y l IH]; [destruct Ie|]. inversion Nc as [|? ? N1 N2]; subst. cbn [map]. match goal with |- qsum (?z :: ?w) = 1 => change (z + qsum w = 1) end. destruct (Qc_eq_dec y e) as [->|Ny].
        * rewrite (qsum_ext _ _ (fun _ => 0)); [rewrite qsum_zero; ring|]. intros z Hz. destruct (Qc_eq_dec z e); [subst; contradiction|auto].
        * destruct Ie as [Ie|Ie]; [congruence|]. rewrite IH by auto. ring.
      + intros y _. unfold bw. rewrite upd_same. rewrite (Ph (upd a d y) a); auto. intros q Hq. apply upd_other. intros ->. apply (proj2 Wh d). exists d. split; [auto|constructor]. }
  assert (Payoff : forall b, total D (nodes g) (fun a => weight (fun v a0 => if String.string_dec v d then b d a0 else K v a0) (nodes g) a * qsum (map a us)) (fun _ => 0) = payoff h C u jp jd enc d us b) by (intro b; unfold payoff; rewrite Nh; reflexivity).
  split; [|split].
  - destruct Rw as (R1 & R2 & R3). split; [|split; [exact R2|]].
    + intros a a' E H. apply R1; auto. intros q Hq. apply H. apply Eh in Hq. destruct Hq as [|[Hq _]]; auto.
    + intros a H. apply R3. intros q Hq. apply H. apply Eh in Hq. destruct Hq as [|[Hq _]]; auto.
  - rewrite Payoff. apply (always_wins h C u jp jd enc Wh EI HC HX HNo Hjp Hjd d us (1 / Qc_of_nat N) Hdd L4 ER Hus Ht (fun q => edge h q d) bw); auto.
    intros a Wa Cr Nz. destruct (Ca _ Cr) as [C1 C2]. rewrite C1, C2. fold (phi a). rewrite LD. unfold bw in Nz. destruct (Qc_eq_dec (a d) (enc (repeat (phi a) (length C)))) as [E|]; [|congruence]. rewrite E. unfold bit. rewrite decode_enc by (auto; apply repeat_length). symmetry. apply (repeat_spec (length C) (phi a)). apply nth_In. rewrite repeat_length. auto.
  - intros b Rb. rewrite Payoff. assert (FC : forall j v i, nth_error C j = Some (v, Copy i) -> F j = F i) by (intros j v i E; apply L1 in E; tauto). assert (FX : forall j v i i', nth_error C j = Some (v, Xor i i') -> F j = xorb (F i) (F i')) by (intros j v i i' E; apply L2 in E; tauto).
    apply (evenly_wins h C u jp jd enc Wh EI HC HX HNo Hjp Hjd d us (1 / Qc_of_nat N) Hdd ER Hus Ht F FC FX LC Fp Fd (fun q => edge g q d /\ q <> x) b); auto; [intros q [Hq _]; auto|]. intros [E _]. apply (proj2 W d). apply (descends_reach_trans g d u d Du). econstructor; [eauto|constructor].
Qed.

(* ---- the theorem ---- *)
Lemma without_edge : forall g x d a b, edge (without g x d) a b <-> edge g a b /\ ~ (a = x /\ b = d).
Proof.
  intros g x d a b. unfold edge, without. cbn [edges]. rewrite filter_In, negb_true_iff. unfold eqb_edge. cbn [fst snd]. split; intros [H1 H2]; split; auto.
  - intros [-> ->]. rewrite !String.eqb_refl in H2. discriminate.
  - destruct (String.eqb_spec x a) as [->|]; auto. destruct (String.eqb_spec d b) as [->|]; auto. exfalso; auto.
Qed.
Lemma one_recalls : forall m a d, agent_decisions m = [(a, [d])] -> recalls m.
Proof.
  intros m a d Ea b ds K (y & p & Hc). rewrite Ea in K. destruct K as [K|[]]. injection K as <- <-. assert (X : forall y z, ~ (y <> z /\ In y [d] /\ In z [d] /\ r_relevant m y z)) by (intros y' z (N & [<-|[]] & [<-|[]] & _); congruence). destruct p as [|z p]; cbn [app] in Hc; inversion Hc; subst; eapply X; eauto.
Qed.
Lemma dom_ruled : forall n g D d (sees : node -> Prop) b, ngraph n = g -> In d (nodes g) -> (forall v, In v (nodes g) -> Permutation (dom_of (doms n) v) (D v)) -> (forall p, sees p -> In p (nodes g)) ->
  (rule_seeing n d sees b <-> (forall a a', a d = a' d -> (forall p, sees p -> a p = a' p) -> b d a = b d a') /\ (forall a, 0 <= b d a) /\ (forall a, (forall p, sees p -> In (a p) (D p)) -> qsum (map (fun y => b d (upd a d y)) (D d)) = 1)).
Proof.
  intros n g D d sees b Eg Hd P Hs. unfold rule_seeing. change (fold_right Qcplus 0) with qsum. assert (X : forall a, qsum (map (fun y => b d (upd a d y)) (dom_of (doms n) d)) = qsum (map (fun y => b d (upd a d y)) (D d))) by (intro a; apply qsum_perm; apply Permutation_map; apply P; auto).
  split; intros (R1 & R2 & R3); (split; [exact R1|]; split; [exact R2|]); intros a H.
  - rewrite <- X. apply R3. intros p Hp. eapply Permutation_in; [apply Permutation_sym; apply P; auto|auto].
  - rewrite X. apply R3. intros p Hp. eapply Permutation_in; [apply P; auto|auto].
Qed.
Theorem C74_voi : forall k o m a d us x, valid_order o -> askable k m -> agent_decisions m = [(a, [d])] -> agent_utilities m = [(a, us)] ->
  admits_voi k o m d x = Ok true ->
  exists l n b, (forall v r, In (v, r) l -> admissible v r) /\ add_cpds (bare (mgraph m)) l = (n, None) /\ built n /\ distribution n /\ ngraph n = mgraph m /\ plain_decision n d /\
    rule_seeing n d (fun p => edge (ngraph n) p d \/ p = x) b /\
    forall b', rule_seeing n d (fun p => edge (ngraph n) p d /\ p <> x) b' -> value n [d] b' us + Q2Qc (1 # 4) <= value n [d] b us.
Proof.
  intros k o m ag d us x O A Ea Eu Av. assert (A0 := A). destruct A0 as (V & Pr & Sa & NC). destruct (solo m ag [d] us (proj1 (proj2 V)) Ea Eu) as (_ & Nus & Iu & Idd & Dj & _). assert (W : wf_dag (mgraph m)) by apply V.
  assert (Hx : In x (nodes (mgraph m))). { unfold admits_voi in Av. destruct (several_agents m); [discriminate|]. destruct (mem x (nodes (mgraph m))) eqn:Mx; [apply mem_In; auto|discriminate]. }
  assert (Hr : has_role m d (RDecision ag)) by (apply Idd; left; auto). assert (Hd : In d (nodes (mgraph m))) by (apply (proj2 (proj2 V) ag d); left; auto). assert (Ius : incl us (nodes (mgraph m))) by (intros u K; apply (proj2 (proj2 V) ag u); right; apply Iu; auto).
  assert (Od : forall e, is_decision m e <-> e = d). { intro e. split; [|intros ->; exists ag; auto]. intros (b & l & K & Hl). rewrite Ea in K. destruct K as [K|[]]. injection K as <- <-. destruct Hl as [<-|[]]. auto. }
  destruct (C24_voi k o m d x A (one_recalls m ag d Ea) O Od Hx) as (b0 & Eb & Kb). rewrite Av in Eb. injection Eb as <-. destruct (proj1 Kb eq_refl) as (Xd & Nd & Rq). clear Kb.
  set (g := mgraph m) in *. set (g0 := without g x d).
  assert (E0 : forall u v, edge g0 u v <-> edge g u v /\ ~ (u = x /\ v = d)) by (intros; apply without_edge).
  assert (W0 : wf_dag g0). { destruct W as [[W1 [W2 W3]] W4]. split; [split; [exact W1|split; [apply NoDup_filter; exact W2|intros u v E; apply E0 in E; apply W3; tauto]]|]. apply (acyclic_sub g g0); auto. intros u v E. apply E0 in E. tauto. }
  destruct (add_link_ok g x d W Hx Hd Xd Nd) as (h & Ah & Lk). destruct (bn_add_edge_ok _ _ _ _ W Ah) as [Wh Eqh]. assert (Nh : nodes h = nodes g) by (rewrite Eqh; apply LRel.nodes_nx_add_edge_present; auto).
  assert (Eh : forall u v, edge h u v <-> edge g0 u v \/ (u = x /\ v = d)). { intros u v. rewrite (proj2 (proj2 Lk) u v), E0. destruct (String.string_dec u x), (String.string_dec v d); tauto. }
  assert (Nd0 : ~ descends g0 x d) by (intro K; apply Nd; eapply descends_sub; [|exact K]; intros u v E; apply E0 in E; tauto).
  assert (Rq0 : requisite_in m g0 d x). { apply (C24_link_irrelevant m g0 h d x W0 Hx Hd Xd Nd0); [split; [auto|]; split; [rewrite Nh; tauto|auto]|]. apply (C24_link_irrelevant m g h d x W Hx Hd Xd Nd Lk). auto. }
  destruct Rq0 as (a' & u & Ra & Ru & Du & Z & Hz & _ & _ & p & Sp & Ac). assert (a' = ag). { destruct Ra as (l & K & _). rewrite Ea in K. destruct K as [K|[]]. injection K as <- _. auto. } subst a'.
  destruct (voi_network g0 h d x u us Z p W0 Wh Nh Eh) as (D & K & bw & Vl & Cd & NDd & Rw & Pw & Ub); auto; [rewrite E0; tauto|apply Iu; auto|]. cbv zeta in Rw, Pw, Ub.
  (* the same conditional probabilities on g *)
  assert (Vg : value_lists g D) by exact Vl. assert (Sub : forall u v, edge g0 u v -> edge g u v) by (intros y v E; apply E0 in E; tauto).
  assert (Cg : conditionals g D K). { destruct Cd as (K1 & K2 & K3). split; [|split]; auto. }
  destruct (C73 g D K [d] W Vg Cg) as (l & n & Hl & El & Bn & Dn & Eg & Pm & Kn & Rn).
  assert (Val : forall b, value n [d] b us = total D (nodes g) (fun a => weight (fun v a0 => if String.string_dec v d then b d a0 else K v a0) (nodes g) a * qsum (map a us)) (fun _ => 0)).
  { intro b. rewrite value_weight, Eg. rewrite (total_dom_perm _ D) by auto. apply total_ext_in. intros a Wa _. f_equal. unfold weight. apply qprod_ext. intros v Hv. unfold follow. destruct (in_dec String.string_dec v [d]) as [[<-|[]]|Nv].
    - destruct (String.string_dec d d); [auto|congruence].
    - destruct (String.string_dec v d) as [->|_]; [exfalso; apply Nv; left; auto|]. apply Kn; auto. intros w Hw. rewrite Eg in Hw. eapply Permutation_in; [apply Permutation_sym; apply Pm; auto|auto]. }
  assert (Sw : forall q, (edge g q d \/ q = x) <-> (edge g0 q d \/ q = x)). { intro q. rewrite E0. destruct (String.string_dec q x); tauto. }
  assert (So : forall q, (edge g q d /\ q <> x) <-> (edge g0 q d /\ q <> x)). { intro q. rewrite E0. tauto. }
  exists l, n, bw. split; auto. split; auto. split; auto. split; auto. split; auto. split; [exists (RDom (D d)); split; [apply Rn; [auto|left; auto]|exact I]|]. rewrite Eg. split.
  - apply (dom_ruled n g D d _ bw Eg Hd Pm); [intros q [E| ->]; auto; apply (proj1 W) in E; tauto|]. destruct Rw as (R1 & R2 & R3). split; [|split; auto].
    + intros a a' E H. apply R1; auto. intros q Hq. apply H. apply Sw; auto.
    + intros a H. apply R3. intros q Hq. apply H. apply Sw; auto.
  - intros b Rb. apply (dom_ruled n g D d _ b Eg Hd Pm) in Rb; [|intros q [E _]; apply (proj1 W) in E; tauto]. rewrite !Val. assert (U := Ub b). change (nodes g0) with (nodes g) in *.
    assert (L : total D (nodes g) (fun a => weight (fun v a0 => if String.string_dec v d then b d a0 else K v a0) (nodes g) a * qsum (map a us)) (fun _ => 0) <= Q2Qc (3 # 4)).
    { apply U. destruct Rb as (R1 & R2 & R3). split; [|split; auto].
      - intros a a' E H. apply R1; auto. intros q Hq. apply H. apply So; auto.
      - intros a H. apply R3. intros q Hq. apply H. apply So; auto. }
    apply Qcle_trans with (Q2Qc (3 # 4) + Q2Qc (1 # 4)); [apply Qcplus_le_compat; [exact L|apply Qcle_refl]|]. replace (Q2Qc (3 # 4) + Q2Qc (1 # 4)) with 1 by (apply Qc_is_canon; reflexivity). exact Pw.
Qed.
Print Assumptions C74_voi.
(* soundness and completeness: the test says yes exactly if for some parametrisation seeing x is worth something *)
Theorem C74_exact : forall o m d us x, valid_order o -> askable IsCID m -> agent_decisions m = [(zero, [d])] -> agent_utilities m = [(zero, us)] ->
  In x (nodes (mgraph m)) -> x <> d -> ~ descends (mgraph m) x d ->
  (admits_voi IsCID o m d x = Ok true <->
   exists n b, distribution n /\ ngraph n = mgraph m /\ rule_seeing n d (fun p => edge (ngraph n) p d \/ p = x) b /\
     forall b', rule_seeing n d (fun p => edge (ngraph n) p d /\ p <> x) b' -> value n [d] b' us < value n [d] b us).
Proof.
  intros o m d us x O A Ea Eu Hx Xd Nd. split.
  - intro Av. destruct (C74_voi IsCID o m zero d us x O A Ea Eu Av) as (l & n & b & _ & _ & _ & Dn & Eg & _ & Rb & Ub). exists n, b. split; auto. split; auto. split; auto. intros b' Rb'. specialize (Ub b' Rb').
    apply Qclt_le_trans with (value n [d] b' us + Q2Qc (1 # 4)); auto. generalize (value n [d] b' us). intro q. apply Qclt_minus_iff. replace (q + Q2Qc (1 # 4) + - q) with (Q2Qc (1 # 4)) by ring. reflexivity.
  - intros (n & b & Dn & Eg & Rb & Ub). assert (A0 := A). destruct A0 as (V & Pr & Sa & NC). destruct (solo m zero [d] us (proj1 (proj2 V)) Ea Eu) as (_ & _ & _ & Idd & _).
    assert (Od : forall e, is_decision m e <-> e = d). { intro e. split; [|intros ->; exists zero; apply Idd; left; auto]. intros (c & l & K & Hl). rewrite Ea in K. destruct K as [K|[]]. injection K as <- <-. destruct Hl as [<-|[]]. auto. }
    destruct (C24_voi IsCID o m d x A (one_recalls m zero d Ea) O Od Hx) as ([|] & Eb & _); auto. exfalso.
    assert (Eg' : mgraph m = ngraph n) by auto. assert (Nd' : ~ descends (ngraph n) x d) by (rewrite Eg; auto).
    destruct (C72_sound o m n [d] us d x O A Eg' Ea Eu (or_introl eq_refl) Dn Xd Nd' Eb b) as (b' & Rb' & L).
    + intros e [<-|[]]. destruct Rb as (R1 & R2 & R3). split; [|split; auto].
      * intros a a' E H. apply R1; auto. intros q Hq. apply H. destruct Hq as [|Hq]; [left; auto|right; auto].
      * intros a H. apply R3. intros q Hq. apply H. destruct Hq as [|Hq]; [left; auto|right; auto].
    + specialize (Rb' d (or_introl eq_refl)). apply (Qclt_not_le _ _ (Ub b' ltac:(destruct Rb' as (R1 & R2 & R3); split; [|split; auto];
        [intros a a' E H; apply R1; auto; intros q [Hq Nq]; apply H; split; auto; intros ->; apply Nq; auto|intros a H; apply R3; intros q [Hq Nq]; apply H; split; auto; intros ->; apply Nq; auto]))). exact L.
Qed.
Print Assumptions C74_exact.
(* the quantitative function then returns at least a quarter *)
Theorem C74_quantitative : forall o m d us x, valid_order o -> askable IsCID m -> agent_decisions m = [(zero, [d])] -> agent_utilities m = [(zero, us)] ->
  admits_voi IsCID o m d x = Ok true ->
  exists l n, (forall v r, In (v, r) l -> admissible v r) /\ add_cpds (bare (mgraph m)) l = (n, None) /\ distribution n /\ ngraph n = mgraph m /\
    forall choose q, quantitative_voi o choose m n d x = Ok q -> Q2Qc (1 # 4) <= q.
Proof.
  intros o m d us x O A Ea Eu Av. destruct (C74_voi IsCID o m zero d us x O A Ea Eu Av) as (l & n & b & Hl & El & Bn & Dn & Eg & Pl & Rb & Ub). exists l, n. split; auto. split; auto. split; auto. split; auto. intros choose q H.
  destruct A as (V & Pr & Sa & NC). destruct (C47_voi o choose m n d us x q O V (eq_sym Eg)) as (v & w & [_ U] & [(b' & Rb' & <-) _] & ->); auto; [rewrite Eg; auto|].
  assert (K1 := U b Rb). assert (K2 := Ub b' Rb'). assert (K3 : value n [d] b' us + Q2Qc (1 # 4) <= v) by (eapply Qcle_trans; eauto).
  apply Qcle_minus_iff. apply Qcle_minus_iff in K3. replace (v - value n [d] b' us + - Q2Qc (1 # 4)) with (v + - (value n [d] b' us + Q2Qc (1 # 4))) by ring. exact K3.
Qed.
Print Assumptions C74_quantitative.
Example C74_example : valid_order (fun _ l => l) /\ askable IsCID ex24 /\ agent_decisions ex24 = [(zero, ["D"])] /\ agent_utilities ex24 = [(zero, ["U"])] /\
  In "X" (nodes (mgraph ex24)) /\ "X" <> "D" /\ ~ descends (mgraph ex24) "X" "D" /\
  admits_voi IsCID (fun _ l => l) ex24 "D" "X" = Ok true /\ admits_voi IsCID (fun _ l => l) ex24 "D" "W" = Ok false.
Proof.
  split; [exact id_order_valid|]. split; [apply ex24_askable|]. split; [reflexivity|]. split; [reflexivity|]. split; [left; auto|]. split; [discriminate|]. split.
  - intro K. destruct (proj2 (graph_ok_wf (mgraph ex24) ltac:(vm_compute; reflexivity)) "X"). destruct K as (w & E & R). exists "Y". split; [left; auto|]. apply LGraph.reach_trans with "D"; [eapply reach_step; [right; left; reflexivity|constructor]|]. eapply reach_step; eauto.
  - split; vm_compute; reflexivity.
Qed.
