(* Networks in which controlling a variable pays. *)
From Coq Require Import String List Bool Arith QArith Qcanon Lia Permutation.
Import ListNotations.
From Verif Require Import MBase MGraph MPaths MMacid MCpd MNet MProb MQuery Spec SpecN SpecQ SpecPol SpecGen LBase LGraph LQc LQcArith LNet LSum LBayes LQuery LValue LWire LTrek LGate LSwitch PComplete.
Local Open Scope string_scope.
Local Open Scope list_scope.
Local Open Scope Qc_scope.

(* the expected sum of us *)
Definition pays (g : graph) (us : list node) (D : node -> list outcome) (K : node -> asg -> Qc) : Qc := total D (nodes g) (fun a => weight K (nodes g) a * qsum (map a us)) (fun _ => 0).
(* d observes its parents *)
Definition rules (g : graph) (d : node) (D : node -> list outcome) (b : node -> asg -> Qc) : Prop :=
  (forall a a', a d = a' d -> (forall p, edge g p d -> a p = a' p) -> b d a = b d a') /\ (forall a, 0 <= b d a) /\ (forall a, (forall p, edge g p d -> In (a p) (D p)) -> qsum (map (fun y => b d (upd a d y)) (D d)) = 1).
Definition with_rule (K : node -> asg -> Qc) (d : node) (b : node -> asg -> Qc) (v : node) (a : asg) : Qc := if String.string_dec v d then b d a else K v a.
(* x and d together reach 1, d alone does not *)
Definition controllable (g : graph) (d x : node) (us : list node) : Prop :=
  exists D K K', value_lists g D /\ conditionals g D K /\ conditionals g D K' /\ (forall v a, v <> x -> v <> d -> K' v a = K v a) /\ 1 <= pays g us D K' /\
    forall b, rules g d D b -> pays g us D (with_rule K d b) <= Q2Qc (3 # 4).

Lemma cond_conditionals : forall g D K, cond g D K -> conditionals g D K.
Proof.
  intros g D K [K1 K2 K3]. split; [|split; auto]. intros v a a' Hv E H. apply K1; auto. intros p [->|Hp]; auto.
Qed.
Lemma conditionals_cond : forall g D K, conditionals g D K -> cond g D K.
Proof.
  intros g D K (K1 & K2 & K3). constructor; auto. intros v Hv a a' H. apply K1; auto; [apply H; left; auto|]. intros p Hp. apply H. right; auto.
Qed.
Lemma cond_total : forall g D K, wf_dag g -> cond g D K -> total D (nodes g) (weight K (nodes g)) (fun _ => 0) = 1.
Proof.
  intros g D K W C0. rewrite (total_ext D (nodes g) _ (fun a => weight K (nodes g) a * 1)) by (intro; ring).
  rewrite (barren g D W K [] (fun _ => 1) (fun _ => 0) C0); [cbn; ring|intros v []|constructor|intros x v _ []|intros a a' _; auto].
Qed.
(* bounds on what is paid in every case that can happen are bounds on the expectation *)
Lemma pays_low : forall g us D K q, wf_dag g -> cond g D K -> (forall a, (forall v, In v (nodes g) -> In (a v) (D v)) -> (forall v, In v (nodes g) -> K v a <> 0) -> q <= qsum (map a us)) -> q <= pays g us D K.
Proof.
  intros g us D K q W C0 H. unfold pays. apply Qcle_trans with (total D (nodes g) (fun a => weight K (nodes g) a * q) (fun _ => 0)).
  - rewrite (total_ext D (nodes g) _ (fun a => q * weight K (nodes g) a)) by (intro; ring). rewrite total_scale, (cond_total g D K W C0). rewrite Qcmult_1_r. apply Qcle_refl.
  - apply total_le. intros a Wa _. assert (Wn : 0 <= weight K (nodes g) a) by (apply (weight_nonneg g D); auto; intros v Hv; auto). destruct (Qc_eq_dec (weight K (nodes g) a) 0) as [E|E]; [rewrite E, !Qcmult_0_l; apply Qcle_refl|].
    rewrite !(Qcmult_comm (weight K (nodes g) a)). apply Qcmult_le_compat_r; auto. apply H; auto. intros v Hv Z. apply E. unfold weight. apply (qprod_zero _ (fun v => K v a) (nodes g) v); auto.
Qed.
Lemma pays_high : forall g us D K q, wf_dag g -> cond g D K -> (forall a, (forall v, In v (nodes g) -> In (a v) (D v)) -> (forall v, In v (nodes g) -> K v a <> 0) -> qsum (map a us) <= q) -> pays g us D K <= q.
Proof.
  intros g us D K q W C0 H. unfold pays. apply Qcle_trans with (total D (nodes g) (fun a => weight K (nodes g) a * q) (fun _ => 0)).
  - apply total_le. intros a Wa _. assert (Wn : 0 <= weight K (nodes g) a) by (apply (weight_nonneg g D); auto; intros v Hv; auto). destruct (Qc_eq_dec (weight K (nodes g) a) 0) as [E|E]; [rewrite E, !Qcmult_0_l; apply Qcle_refl|].
    rewrite !(Qcmult_comm (weight K (nodes g) a)). apply Qcmult_le_compat_r; auto. apply H; auto. intros v Hv Z. apply E. unfold weight. apply (qprod_zero _ (fun v => K v a) (nodes g) v); auto.
  - rewrite (total_ext D (nodes g) _ (fun a => q * weight K (nodes g) a)) by (intro; ring). rewrite total_scale, (cond_total g D K W C0). rewrite Qcmult_1_r. apply Qcle_refl.
Qed.
Lemma rule_cond : forall g D K d b, cond g D K -> rules g d D b -> cond g D (with_rule K d b).
Proof.
  intros g D K d b [K1 K2 K3] (R1 & R2 & R3). constructor.
  - intros v Hv a a' H. unfold with_rule. destruct (String.string_dec v d) as [->|N]; [|apply K1; auto]. apply R1; [apply H; left; auto|]. intros p Hp. apply H. right; auto.
  - intros v a Hv H. unfold with_rule. destruct (String.string_dec v d) as [->|N]; [|apply K2; auto]. apply R3. auto.
  - intros v a Hv. unfold with_rule. destruct (String.string_dec v d) as [->|N]; [apply R2|apply K3; auto].
Qed.

(* ---- x reaches the utility without passing d ---- *)
Definition bin : list outcome := [0; 1].
Definition lit (g : graph) (d : node) (a : asg) (v : node) : bool := existsb (fun p => negb (String.eqb p d) && oeqb (a p) 1) (parents g v).
Definition point (q y : Qc) : Qc := if oeqb y q then 1 else 0.
Definition flood (g : graph) (d x : node) (t : bool) (v : node) (a : asg) : Qc :=
  point (if String.eqb v x then (if t then 1 else 0) else if String.eqb v d then 0 else if lit g d a v then 1 else 0) (a v).
Lemma point_sum : forall q, In q bin -> point q 0 + (point q 1 + 0) = 1.
Proof. intros q [<-|[<-|[]]]; apply Qc_is_canon; vm_compute; reflexivity. Qed.
Lemma point_nz : forall q y, point q y <> 0 -> y = q.
Proof. intros q y H. unfold point in H. destruct (oeqb y q) eqn:E; [apply oeqb_iff; auto|congruence]. Qed.
Lemma lit_local : forall g d a a' v, (forall p, edge g p v -> a p = a' p) -> lit g d a v = lit g d a' v.
Proof.
  intros g d a a' v H. unfold lit. assert (X : forall p, In p (parents g v) -> a p = a' p) by (intros p Hp; apply H; apply in_parents; auto). induction (parents g v) as [|p l IH]; auto. cbn [existsb]. rewrite X by (left; auto). rewrite IH; auto. intros q Hq. apply X. right; auto.
Qed.
Lemma flood_cond : forall g d x t, wf_dag g -> cond g (fun _ => bin) (flood g d x t).
Proof.
  intros g d x t W. constructor.
  - intros v Hv a a' H. unfold flood. rewrite (H v) by (left; auto). rewrite (lit_local g d a a' v); auto. intros p Hp. apply H. right; auto.
  - intros v a Hv _. unfold bin at 1. cbn [map]. change (flood g d x t v (upd a v 0) + (flood g d x t v (upd a v 1) + 0) = 1). unfold flood. rewrite !upd_same. assert (X : forall y, lit g d (upd a v y) v = lit g d a v).
    { intro y. apply lit_local. intros p Hp. apply upd_other. intros ->. apply (proj2 W v). exists v. split; [auto|constructor]. }
    rewrite !X. apply point_sum. destruct (String.eqb v x), t, (String.eqb v d), (lit g d a v); unfold bin; cbn; auto.
  - intros v a Hv. unfold flood, point. destruct (oeqb _ _); discriminate.
Qed.
Lemma qsum_all_zero : forall (a : asg) us, (forall v, In v us -> a v = 0) -> qsum (map a us) = 0.
Proof. intros a us H. rewrite (qsum_ext _ _ (fun _ => 0)); [apply qsum_zero|auto]. Qed.
Lemma control_direct : forall g d x u us, wf_dag g -> x <> d -> off g d x u -> In u us -> incl us (nodes g) -> ~ In d us -> controllable g d x us.
Proof.
  intros g d x u us W Nx Of Hu Ius Nd. exists (fun _ => bin), (flood g d x false), (flood g d x true). assert (C0 := flood_cond g d x false W). assert (C1 := flood_cond g d x true W).
  split. { intros v _. split; [|discriminate]. constructor; [intros [E|[]]; discriminate|]. constructor; [intros []|constructor]. }
  split; [apply cond_conditionals; auto|]. split; [apply cond_conditionals; auto|].
  split. { intros v a N1 N2. unfold flood. apply String.eqb_neq in N1. rewrite N1. auto. }
  split.
  - apply pays_low; auto. intros a Wa Nz. assert (On : forall v, off g d x v -> In v (nodes g) -> a v = 1).
    { assert (X : forall y v, off g d y v -> In v (nodes g) -> a y = 1 -> a v = 1).
      { intros y v R. induction R as [v N|y w v N E R IH]; auto. intros Hv Ey. apply IH; auto. assert (Hw : In w (nodes g)) by (apply (proj1 W) in E; tauto). assert (Z := point_nz _ _ (Nz w Hw)). rewrite Z. destruct (String.eqb w x); auto.
        assert (Nwd : w <> d) by (destruct R; auto). apply String.eqb_neq in Nwd. rewrite Nwd. replace (lit g d a w) with true; auto. symmetry. unfold lit. apply existsb_exists. exists y. split; [apply in_parents; auto|]. apply String.eqb_neq in N. rewrite N. cbn [negb andb]. apply oeqb_iff. auto. }
      intros v R Hv. apply (X x v R Hv). assert (Hx : In x (nodes g)) by (destruct R as [|? w ? _ E _]; [auto|apply (proj1 W) in E; tauto]). assert (Z := point_nz _ _ (Nz x Hx)). rewrite String.eqb_refl in Z. exact Z. }
    assert (Au := On u Of (Ius u Hu)). destruct (in_split _ _ Hu) as (l1 & l2 & ->). rewrite map_app, qsum_app. cbn [map]. change (qsum (a u :: map a l2)) with (a u + qsum (map a l2)). rewrite Au.
    assert (P : forall l, incl l (l1 ++ u :: l2) -> 0 <= qsum (map a l)). { intros l Hl. rewrite <- (qsum_zero node l). apply qsum_le. intros v Hv. destruct (Wa v (Ius v (Hl v Hv))) as [<-|[<-|[]]]; discriminate. }
    assert (P1 : 0 <= qsum (map a l1)) by (apply P; intros v Hv; apply in_or_app; auto). assert (P2 : 0 <= qsum (map a l2)) by (apply P; intros v Hv; apply in_or_app; right; right; auto). generalize dependent (qsum (map a l1)). generalize dependent (qsum (map a l2)). intros q1 H1 q2 H2. qclra.
  - intros b Rb. apply Qcle_trans with 0; [|discriminate]. apply pays_high; auto; [apply rule_cond; auto|]. intros a Wa Nz. rewrite (qsum_all_zero a us); [apply Qcle_refl|]. intros v Hv.
    assert (X : forall v, In v (nodes g) -> v <> d -> a v = 0).
    { apply (dag_parents_ind g (fun v => v <> d -> a v = 0) W). intros w Hw IH Nw. assert (Z := Nz w Hw). unfold with_rule in Z. destruct (String.string_dec w d); [contradiction|]. apply point_nz in Z. rewrite Z. destruct (String.eqb w x); auto. apply String.eqb_neq in Nw. rewrite Nw.
      replace (lit g d a w) with false; auto. symmetry. unfold lit. apply not_true_is_false. intro K. apply existsb_exists in K. destruct K as (p & Hp & K). apply andb_true_iff in K. destruct K as [K1 K2]. apply negb_true_iff, String.eqb_neq in K1. apply oeqb_iff in K2. apply in_parents in Hp.
      rewrite (IH p) in K2; auto; discriminate. }
    apply X; auto. intros ->. contradiction.
Qed.

(* ---- x reaches the utility through d only ---- *)
Lemma kern_agree : forall C C' u jp jd enc v a, length C' = length C -> (forall j, loc C' j = loc C j) -> (v <> u -> forall j, (j < length C)%nat -> loc C j = v -> nth_error C' j = nth_error C j) ->
  kern C' u jp jd enc v a = kern C u jp jd enc v a.
Proof.
  intros C C' u jp jd enc v a L Lo H. assert (De : forall q, decode C' enc q = decode C enc q) by (intro q; unfold decode; rewrite L; auto). assert (Bi : forall q j, bit C' enc q j = bit C enc q j) by (intros q j; unfold bit; rewrite De; auto).
  unfold kern. destruct (String.string_dec v u) as [->|N]; [unfold won; rewrite !Lo, !Bi; auto|]. specialize (H N). rewrite De. apply prodl_ext. intros j b _. f_equal. unfold asked.
  destruct (nth_error C j) as [[w s]|] eqn:E.
  - assert (Hj : (j < length C)%nat) by (apply nth_error_Some; congruence). destruct (String.string_dec w v) as [->|Nw].
    + rewrite H; [|auto|apply (loc_at _ _ _ _ E)]. rewrite E. destruct s; auto; destruct (String.string_dec v v); rewrite ?Lo, ?Bi; auto; congruence.
    + assert (Lj := Lo j). rewrite (loc_at _ _ _ _ E) in Lj. destruct (nth_error C' j) as [[w' s']|] eqn:E'; [|destruct s; auto; destruct (String.string_dec w v); congruence]. rewrite (loc_at _ _ _ _ E') in Lj. subst w'. destruct s, s'; auto; destruct (String.string_dec w v); congruence.
  - assert (E' : nth_error C' j = None) by (apply nth_error_None; rewrite L; apply nth_error_None; auto). rewrite E'. auto.
Qed.
(* the rule that bets on the sum of some visible bits *)
Lemma bets : forall g C u enc d S, wf_dag g -> (forall l l', length l = length C -> length l' = length C -> enc l = enc l' -> l = l') -> d <> u -> (forall s, In s S -> edge g (loc C s) d) ->
  exists bw, ruled C u enc d (fun q => edge g q d) bw /\ forall a j, bw d a <> 0 -> (j < length C)%nat -> bit C enc (a d) j = xors (fun j => bit C enc (a (loc C j)) j) S.
Proof.
  intros g C u enc d S W EI Ndu Sd. set (phi := fun a : asg => xors (fun j => bit C enc (a (loc C j)) j) S). set (bw := fun (v : node) (a : asg) => if Qc_eq_dec (a d) (enc (repeat (phi a) (length C))) then 1 else 0 : Qc). exists bw. split.
  - assert (Ph : forall a a', (forall q, edge g q d -> a q = a' q) -> phi a = phi a'). { intros a a' H. unfold phi. clear - H Sd. induction S as [|s S IH]; auto. cbn [xors fold_right]. fold (xors (fun j => bit C enc (a (loc C j)) j) S) (xors (fun j => bit C enc (a' (loc C j)) j) S). rewrite IH by (intros; apply Sd; right; auto). rewrite (H (loc C s)) by (apply Sd; left; auto). auto. }
    assert (Dd : Dm C u enc d = codes C enc) by (unfold Dm; destruct (String.string_dec d u); [contradiction|auto]). split; [|split].
    + intros a a' E H. unfold bw. rewrite E, (Ph a a' H). auto.
    + intro a. unfold bw. destruct (Qc_eq_dec _ _); discriminate.
    + intros a _. rewrite Dd. rewrite (qsum_ext _ _ (fun y => if Qc_eq_dec y (enc (repeat (phi a) (length C))) then 1 else 0)).
      * set (e := enc (repeat (phi a) (length C))). assert (Ie : In e (codes C enc)) by (unfold codes, e; apply in_map; apply vecs_in; apply repeat_length). assert (Nc := codes_nodup C enc EI). clear - Ie Nc. induction (codes C enc) as [|y l IH]; [destruct Ie|]. inversion Nc as [|? ? N1 N2]; subst. cbn [map]. match goal with |- qsum (?z :: ?w) = 1 => change (z + qsum w = 1) end. destruct (Qc_eq_dec y e) as [->|Ny].
        -- rewrite (qsum_ext _ _ (fun _ => 0)); [rewrite qsum_zero; ring|]. intros z Hz. destruct (Qc_eq_dec z e); [subst; contradiction|auto].
        -- destruct Ie as [Ie|Ie]; [congruence|]. rewrite IH by auto. ring.
      * intros y _. unfold bw. rewrite upd_same. rewrite (Ph (upd a d y) a); auto. intros q Hq. apply upd_other. intros ->. apply (proj2 W d). exists d. split; [auto|constructor].
  - intros a j Nz Hj. unfold bw in Nz. destruct (Qc_eq_dec (a d) (enc (repeat (phi a) (length C)))) as [E|]; [|congruence]. rewrite E. unfold bit. rewrite decode_enc by (auto; apply repeat_length). fold (phi a). apply (repeat_spec (length C) (phi a)). apply nth_In. rewrite repeat_length. auto.
Qed.
Lemma prod_once : forall (f f0 : node -> Qc) ns c, (forall v, In v ns -> v <> c -> f v = f0 v) -> (f c <> f0 c -> (forall v, In v ns -> f v <> 0) -> False) -> (f c <> f0 c -> (forall v, In v ns -> f0 v <> 0) -> False) -> qprod (map f ns) = qprod (map f0 ns).
Proof.
  intros f f0 ns c H K K0. destruct (Qc_eq_dec (f c) (f0 c)) as [E|E]; [apply qprod_ext; intros v Hv; destruct (String.string_dec v c) as [->|]; auto|].
  assert (X : forall h : node -> Qc, ((forall v, In v ns -> h v <> 0) -> False) -> qprod (map h ns) = 0).
  { intros h Hh. destruct (Qc_eq_dec (qprod (map h ns)) 0) as [Z|Z]; auto. exfalso. apply Hh. intros v Hv Hz. apply Z. apply (qprod_zero _ h ns v); auto. }
  rewrite (X f) by auto. rewrite (X f0) by auto. auto.
Qed.
Lemma control_gated : forall g d x c u us Zc, wf_dag g -> reach g x c -> reach g c d -> c <> d -> (forall z, In z Zc <-> (z = d \/ edge (mute g c) z d) /\ z <> c) -> dconn (mute g c) Zc c u -> descends g u d ->
  NoDup us -> In u us -> incl us (nodes g) -> controllable g d x us.
Proof.
  intros g d x c u us Zc W Rxc Rcd Ncd Hz Cn Du Nus Hu Ius.
  destruct (switch_circuit g d x c u Zc W Rxc Rcd Ncd Hz Cn Du) as (C & F & jp & jd & jD & jt & jw & S & s0 & La & E0 & F0 & Et & Nt & Ft & Fe & Hp & Ep & Hd & Ed & Fp & Fd & HD & LD & Un & Se & Hw & Cw & Ca).
  assert (Hdn : In d (nodes g)) by (destruct Du as (w & Ew & _); apply (proj1 W) in Ew; tauto). assert (Ud : d <> u) by (intros <-; apply (proj2 W d); auto). assert (Nxd : x <> d). { intros ->. apply (proj2 W d). destruct (reach_descends _ _ _ Rxc) as [E|E]; [congruence|]. eapply descends_reach_trans; eauto. }
  assert (Ncu : c <> u) by (intros ->; apply (proj2 W d); eapply descends_reach_trans; eauto). assert (Nxu : x <> u) by (intros ->; apply (proj2 W d); eapply descends_reach_trans; [eauto|]; eapply reach_trans; eauto).
  assert (H0 : (0 < length C)%nat) by (apply nth_error_Some; congruence). assert (Ht : (jt < length C)%nat) by (apply nth_error_Some; congruence). assert (L0 := loc_at _ _ _ _ E0). assert (Lt := loc_at _ _ _ _ Et).
  (* the switch and the gate *)
  set (Cf := fun t s => put (put C 0 (c, s)) jt (x, Const t)).
  assert (Len : forall t s, length (Cf t s) = length C) by (intros; unfold Cf; rewrite !put_length; auto).
  assert (Lp : forall s, loc (put C 0 (c, s)) jt = x) by (intro s; rewrite put_loc; auto).
  assert (Loc : forall t s j, loc (Cf t s) j = loc C j) by (intros t s j; unfold Cf; rewrite put_loc by (rewrite ?put_length; auto); apply put_loc; auto).
  assert (N0 : forall t s, nth_error (Cf t s) 0 = Some (c, s)) by (intros; unfold Cf; rewrite put_other by auto; apply put_same; auto).
  assert (Ntt : forall t s, nth_error (Cf t s) jt = Some (x, Const t)) by (intros; unfold Cf; apply put_same; rewrite put_length; auto).
  assert (No : forall t s j, j <> 0%nat -> j <> jt -> nth_error (Cf t s) j = nth_error C j) by (intros; unfold Cf; rewrite !put_other by auto; auto).
  destruct La as [L1 L2 LC L3 L4].
  assert (HC : forall t s, fed g C c s -> forall j v i, nth_error (Cf t s) j = Some (v, Copy i) -> (i < length (Cf t s))%nat /\ edge g (loc (Cf t s) i) v).
  { intros t s Fs j v i K. rewrite Len, Loc. destruct (Nat.eq_dec j 0) as [->|N]; [rewrite N0 in K; injection K as <- ->; exact Fs|]. destruct (Nat.eq_dec j jt) as [->|N']; [rewrite Ntt in K; discriminate|]. rewrite No in K by auto. apply L1 in K. tauto. }
  assert (HX : forall t s, fed g C c s -> forall j v i i', nth_error (Cf t s) j = Some (v, Xor i i') -> ((i < length (Cf t s))%nat /\ edge g (loc (Cf t s) i) v) /\ ((i' < length (Cf t s))%nat /\ edge g (loc (Cf t s) i') v)).
  { intros t s Fs j v i i' K. rewrite Len, !Loc. destruct (Nat.eq_dec j 0) as [->|N]; [rewrite N0 in K; injection K as <- ->; exact Fs|]. destruct (Nat.eq_dec j jt) as [->|N']; [rewrite Ntt in K; discriminate|]. rewrite No in K by auto. apply L2 in K. tauto. }
  assert (HNo : forall t s j, (j < length (Cf t s))%nat -> In (loc (Cf t s) j) (nodes g) /\ loc (Cf t s) j <> u) by (intros t s j Hj; rewrite Len in Hj; rewrite Loc; auto).
  assert (HO : forall t s j s', nth_error (Cf t s) j = Some (d, s') -> s' = Open). { intros t s j s' K. destruct (Nat.eq_dec j 0) as [->|N]; [rewrite N0 in K; congruence|]. destruct (Nat.eq_dec j jt) as [->|N']; [rewrite Ntt in K; congruence|]. rewrite No in K by auto. eauto. }
  assert (Carry : forall t s be, carries (Cf t s) be -> be jw = t /\ carries (put C 0 (c, s)) be).
  { intros t s be Hb. assert (Y := Hb jt). rewrite Ntt in Y. assert (Hb' : carries (put C 0 (c, s)) be) by (apply (put_carries _ jt x (Const t)); auto; rewrite put_other by auto; auto). split; auto. rewrite (Cw be); auto. apply (put_carries C 0 c s); auto. }
  set (N := (4 * Datatypes.S (length us))%nat). set (enc := small N). assert (HN : (0 < N)%nat) by (unfold N; lia).
  assert (EI : forall t s l l', length l = length (Cf t s) -> length l' = length (Cf t s) -> enc l = enc l' -> l = l') by (intros t s l l' K1 K2 E; rewrite Len in K1, K2; apply (small_inj N (length C)); auto).
  assert (Hjp : forall t s, (jp < length (Cf t s))%nat /\ edge g (loc (Cf t s) jp) u) by (intros; rewrite Len, Loc; auto). assert (Hjd : forall t s, (jd < length (Cf t s))%nat /\ edge g (loc (Cf t s) jd) u) by (intros; rewrite Len, Loc; auto).
  assert (Hdd : In d (nodes g) /\ d <> u) by auto. assert (Hus : NoDup us /\ In u us /\ incl us (nodes g)) by auto.
  assert (ER : forall t s l, length l = length (Cf t s) -> 0 <= enc l /\ enc l <= 1 / Qc_of_nat N) by (intros t s l _; apply small_range; auto). assert (Hts := small_sum (length us)). fold N in Hts.
  assert (Kc : forall t s, fed g C c s -> cond g (Dm (Cf t s) u enc) (kern (Cf t s) u jp jd enc)) by (intros t s Fs; apply (kern_cond g (Cf t s) u jp jd enc W (EI t s) (HC t s Fs) (HX t s Fs) (Hjp t s) (Hjd t s))).
  set (off0 := Const false). assert (Fo : fed g C c off0) by exact I.
  assert (Dme : forall t s, Dm (Cf t s) u enc = Dm C u enc) by (intros t s; unfold Dm, codes; rewrite Len; auto). assert (Bie : forall t s q j, bit (Cf t s) enc q j = bit C enc q j) by (intros t s q j; unfold bit, decode; rewrite Len; auto).
  set (D := Dm C u enc) in *. set (ker := fun t s => kern (Cf t s) u jp jd enc).
  (* where two of these networks agree *)
  assert (Ag : forall t s t' s' v a, (v = c -> s = s') -> (v = x -> t = t') -> ker t s v a = ker t' s' v a).
  { intros t s t' s' v a Hs Htv. unfold ker. apply kern_agree; [rewrite !Len; auto|intro j; rewrite !Loc; auto|]. intros Nv j Hj Lj. rewrite Len in Hj. rewrite Loc in Lj. destruct (Nat.eq_dec j 0) as [->|K]; [rewrite !N0; rewrite Hs; auto; congruence|].
    destruct (Nat.eq_dec j jt) as [->|K']; [rewrite !Ntt; rewrite Htv; auto; congruence|]. rewrite !No by auto. auto. }
  assert (Bits : forall t s a (f : node -> Qc), (forall v, In v (nodes g) -> In (a v) (D v)) -> fed g C c s -> (forall v, In v (nodes g) -> f v <> 0) -> (forall v, In v (nodes g) -> v <> d -> f v = ker t s v a) -> carries (Cf t s) (fun j => bit C enc (a (loc C j)) j)).
  { intros t s a f Wa Fs Nz Ef. assert (X : carries (Cf t s) (fun j => bit (Cf t s) enc (a (loc (Cf t s) j)) j)).
    { apply (kern_carries g (Cf t s) u jp jd enc (EI t s) (HNo t s) (Hjp t s) (Hjd t s) a); [rewrite Dme; auto|]. intros v Hv (j & s' & Ej & Ns). assert (Nv : v <> d) by (intros ->; apply HO in Ej; contradiction). fold (ker t s). rewrite <- (Ef v Hv Nv). auto. }
    intro j. specialize (X j). destruct (nth_error (Cf t s) j) as [[v [|i|i i'|b]]|]; auto; rewrite ?Loc, ?Bie in X; auto. }
  (* the network: the gate is open if the switch is on *)
  set (gated := fun a : asg => if String.string_dec x c then ker false off0 c a else if bit C enc (a (loc C jw)) jw then ker false s0 c a else ker false off0 c a).
  set (K := fun v a => if String.string_dec v c then gated a else ker false off0 v a).
  destruct (bets g (Cf true s0) u enc d S W (EI true s0) Ud) as (bw & Rw & Bw); [intros s Hs; rewrite Loc; apply Se; auto|].
  set (K' := fun v a => if String.string_dec v d then bw d a else if String.string_dec v x then ker true s0 x a else K v a).
  assert (Cond0 : forall t s, fed g C c s -> cond g D (ker t s)) by (intros t s Fs; rewrite <- (Dme t s); apply Kc; auto).
  assert (CK : cond g D K).
  { destruct (Cond0 false off0 Fo) as [A1 A2 A3]. destruct (Cond0 false s0 Fe) as [B1 B2 B3]. constructor.
    - intros v Hv a a' H. unfold K. destruct (String.string_dec v c) as [->|Nv]; [|apply A1; auto]. unfold gated. destruct (String.string_dec x c) as [|Nxc]; [apply A1; auto|]. rewrite (H (loc C jw)) by (right; apply Hw; auto). destruct (bit C enc (a' (loc C jw)) jw); [apply B1; auto|apply A1; auto].
    - intros v a Hv H. unfold K. destruct (String.string_dec v c) as [->|Nv]; [|apply A2; auto]. unfold gated. destruct (String.string_dec x c) as [|Nxc]; [apply A2; auto|]. destruct (Hw Nxc) as [_ Ew]. assert (Nw : loc C jw <> c) by (intro E; rewrite E in Ew; apply (proj2 W c); exists c; split; [auto|constructor]).
      destruct (bit C enc (a (loc C jw)) jw) eqn:Eb.
      + rewrite <- (B2 c a Hv H). apply qsum_ext. intros y _. rewrite upd_other by auto. rewrite Eb. auto.
      + rewrite <- (A2 c a Hv H). apply qsum_ext. intros y _. rewrite upd_other by auto. rewrite Eb. auto.
    - intros v a Hv. unfold K. destruct (String.string_dec v c) as [->|Nv]; [|apply A3; auto]. unfold gated. destruct (String.string_dec x c) as [|Nxc]; [apply A3; auto|]. destruct (bit C enc (a (loc C jw)) jw); [apply B3; auto|apply A3; auto]. }
  assert (Rw' : rules g d D bw). { destruct Rw as (R1 & R2 & R3). rewrite Dme in R3. split; auto. }
  assert (CK' : cond g D K').
  { destruct CK as [A1 A2 A3]. destruct (Cond0 true s0 Fe) as [B1 B2 B3]. destruct Rw' as (R1 & R2 & R3). constructor.
    - intros v Hv a a' H. unfold K'. destruct (String.string_dec v d) as [->|Nv]; [apply R1; [apply H; left; auto|intros p Hp0; apply H; right; auto]|]. destruct (String.string_dec v x) as [->|]; [apply B1; auto|apply A1; auto].
    - intros v a Hv H. unfold K'. destruct (String.string_dec v d) as [->|Nv]; [apply R3; auto|]. destruct (String.string_dec v x) as [->|]; [apply B2; auto|apply A2; auto].
    - intros v a Hv. unfold K'. destruct (String.string_dec v d) as [->|Nv]; [apply R2|]. destruct (String.string_dec v x) as [->|]; [apply B3; auto|apply A3; auto]. }
  exists D, K, K'. split; [|split; [apply cond_conditionals; auto|split; [apply cond_conditionals; auto|split]]].
  - intros v Hv. split; [rewrite <- (Dme true s0); apply (Dm_nodup g (Cf true s0) u jp jd enc (EI true s0) (Hjp true s0) (Hjd true s0))|]. unfold D, Dm. destruct (String.string_dec v u); [discriminate|]. unfold codes. intro E. apply map_eq_nil in E. assert (X := proj2 (vecs_in (length C) (repeat true (length C))) (repeat_length _ _)). rewrite E in X. destruct X.
  - intros v a N1 N2. unfold K'. destruct (String.string_dec v d); [contradiction|]. destruct (String.string_dec v x); [contradiction|]. auto.
  - split.
    + assert (E : pays g us D K' = payoff g (Cf true s0) u jp jd enc d us bw).
      { unfold pays, payoff. rewrite Dme. fold D. apply total_ext_in. intros a Wa _. f_equal. unfold weight. apply (prod_once (fun v => K' v a) (fun v => run (Cf true s0) u jp jd enc d bw v a) (nodes g) c).
        - intros v Hv Nv. unfold K', run. destruct (String.string_dec v d) as [->|]; auto. fold (ker true s0). destruct (String.string_dec v x) as [->|Nx]; auto. unfold K. destruct (String.string_dec v c); [contradiction|]. apply Ag; intro; contradiction.
        - intros Ne Nz. destruct (String.string_dec x c) as [Exc|Nxc]; [apply Ne; unfold K', run; destruct (String.string_dec c d); [contradiction|]; fold (ker true s0); destruct (String.string_dec c x) as [Ecx|]; [rewrite <- Ecx; auto|congruence]|].
          destruct (bit C enc (a (loc C jw)) jw) eqn:Eb.
          + apply Ne. unfold K', run. destruct (String.string_dec c d); [contradiction|]. fold (ker true s0). destruct (String.string_dec c x); [congruence|]. unfold K, gated. destruct (String.string_dec c c); [|congruence]. destruct (String.string_dec x c); [contradiction|]. rewrite Eb. apply Ag; auto; intro; congruence.
          + assert (X := Bits true off0 a (fun v => K' v a) Wa Fo Nz). assert (Y : carries (Cf true off0) (fun j => bit C enc (a (loc C j)) j)).
            { apply X. intros v Hv Nv. unfold K'. destruct (String.string_dec v d); [contradiction|]. destruct (String.string_dec v x) as [->|Nx]; [apply Ag; auto; intro; contradiction|]. unfold K. destruct (String.string_dec v c) as [->|Nc]; [unfold gated; destruct (String.string_dec x c); [contradiction|]; rewrite Eb|]; apply Ag; auto; intro; congruence. }
            apply Carry in Y. destruct Y as [Y _]. congruence.
        - intros Ne Nz. destruct (String.string_dec x c) as [Exc|Nxc]; [apply Ne; unfold K', run; destruct (String.string_dec c d); [contradiction|]; fold (ker true s0); destruct (String.string_dec c x) as [Ecx|]; [rewrite <- Ecx; auto|congruence]|].
          assert (Y : carries (Cf true s0) (fun j => bit C enc (a (loc C j)) j)). { apply (Bits true s0 a (fun v => run (Cf true s0) u jp jd enc d bw v a) Wa Fe Nz). intros v Hv Nv. unfold run. destruct (String.string_dec v d); [contradiction|]. auto. }
          apply Carry in Y. destruct Y as [Y _]. apply Ne. unfold K', run. destruct (String.string_dec c d); [contradiction|]. fold (ker true s0). destruct (String.string_dec c x); [congruence|]. unfold K, gated. destruct (String.string_dec c c); [|congruence]. destruct (String.string_dec x c); [contradiction|]. rewrite Y. apply Ag; auto; intro; congruence. }
      rewrite E. apply (always_wins g (Cf true s0) u jp jd enc W (EI true s0) (HC true s0 Fe) (HX true s0 Fe) (HNo true s0) (Hjp true s0) (Hjd true s0) d us (1 / Qc_of_nat N) Hdd (HO true s0) (ER true s0) Hus Hts (fun q => edge g q d) bw); auto.
      intros a Wa Cr Nz. destruct (Carry true s0 _ Cr) as [_ Cr']. destruct (Ca _ Cr') as [C1 C2]. cbv beta in C1, C2. rewrite C1, C2. rewrite (Loc true s0 jD), LD. symmetry. apply Bw; auto. rewrite Len. auto.
    + intros b Rb. assert (E : pays g us D (with_rule K d b) = payoff g (Cf false off0) u jp jd enc d us b).
      { unfold pays, payoff. rewrite Dme. fold D. apply total_ext_in. intros a Wa _. f_equal. unfold weight. apply (prod_once (fun v => with_rule K d b v a) (fun v => run (Cf false off0) u jp jd enc d b v a) (nodes g) c).
        - intros v Hv Nv. unfold with_rule, run. destruct (String.string_dec v d) as [->|]; auto. unfold K. destruct (String.string_dec v c); [contradiction|]. auto.
        - intros Ne Nz. assert (Nxc : x <> c). { intros Exc. apply Ne. unfold with_rule, run. destruct (String.string_dec c d); [contradiction|]. unfold K, gated. destruct (String.string_dec c c); [|congruence]. destruct (String.string_dec x c); [auto|contradiction]. }
          destruct (bit C enc (a (loc C jw)) jw) eqn:Eb.
          + assert (Y : carries (Cf false s0) (fun j => bit C enc (a (loc C j)) j)).
            { apply (Bits false s0 a (fun v => with_rule K d b v a) Wa Fe Nz). intros v Hv Nv. unfold with_rule. destruct (String.string_dec v d); [contradiction|]. unfold K. destruct (String.string_dec v c) as [->|Nc]; [unfold gated; destruct (String.string_dec x c); [contradiction|]; rewrite Eb; auto|apply Ag; auto; intro; contradiction]. }
            apply Carry in Y. destruct Y as [Y _]. congruence.
          + apply Ne. unfold with_rule, run. destruct (String.string_dec c d); [contradiction|]. unfold K, gated. destruct (String.string_dec c c); [|congruence]. destruct (String.string_dec x c); [auto|]. rewrite Eb. auto.
        - intros Ne Nz. assert (Nxc : x <> c). { intros Exc. apply Ne. unfold with_rule, run. destruct (String.string_dec c d); [contradiction|]. unfold K, gated. destruct (String.string_dec c c); [|congruence]. destruct (String.string_dec x c); [auto|contradiction]. }
          assert (Y : carries (Cf false off0) (fun j => bit C enc (a (loc C j)) j)). { apply (Bits false off0 a (fun v => run (Cf false off0) u jp jd enc d b v a) Wa Fo Nz). intros v Hv Nv. unfold run. destruct (String.string_dec v d); [contradiction|]. auto. }
          apply Carry in Y. destruct Y as [Y _]. apply Ne. unfold with_rule, run. destruct (String.string_dec c d); [contradiction|]. unfold K, gated. destruct (String.string_dec c c); [|congruence]. destruct (String.string_dec x c); [auto|]. rewrite Y. auto. }
      rewrite E. assert (La0 : laid g d u (Cf false off0) F). { unfold Cf. apply laid_put; auto; [|rewrite put_other by auto; auto]. apply laid_put; auto. constructor; auto. }
      destruct La0 as [M1 M2 MC M3 M4]. assert (FC : forall j v i, nth_error (Cf false off0) j = Some (v, Copy i) -> F j = F i) by (intros j v i K0; apply M1 in K0; tauto). assert (FX : forall j v i i', nth_error (Cf false off0) j = Some (v, Xor i i') -> F j = xorb (F i) (F i')) by (intros j v i i' K0; apply M2 in K0; tauto).
      apply (evenly_wins g (Cf false off0) u jp jd enc W (EI false off0) (HC false off0 Fo) (HX false off0 Fo) (HNo false off0) (Hjp false off0) (Hjd false off0) d us (1 / Qc_of_nat N) Hdd (ER false off0) Hus Hts F FC FX MC Fp Fd (fun q => edge g q d) b); auto.
      * destruct Rb as (R1 & R2 & R3). split; auto. split; auto. rewrite Dme. auto.
      * intros j Hj Fj. rewrite Len in Hj. rewrite Loc. auto.
      * intro K0. apply (proj2 W d). apply (descends_reach_trans g d u d Du). econstructor; [eauto|constructor].
Qed.
