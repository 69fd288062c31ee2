(* Networks in which a decision that does not respond to a variable loses. *)
From Coq Require Import String List Bool Arith QArith Qcanon Lia Lqa Permutation.
Import ListNotations.
From Verif Require Import MBase MGraph MPaths MMacid MCpd MNet MProb MQuery Spec SpecN SpecQ SpecPol SpecGen LBase LGraph LQc LQcArith LNet LSum LBayes LQuery LValue LWire LTrek LGate LGateAll LSwitch LMix LPay LRig PComplete LControl.
Local Open Scope string_scope.
Local Open Scope list_scope.
Local Open Scope Qc_scope.

(* every choice of d that does not respond to x is worse than bw by 3/4 *)
Definition responsive (g : graph) (d x : node) (us : list node) : Prop :=
  exists D K bw, value_lists g D /\ conditionals g D K /\ rules g d D bw /\
    forall b, rules g d D b -> deaf g D (with_rule K d b) x d -> pays g us D (with_rule K d b) + Q2Qc (3 # 4) <= pays g us D (with_rule K d bw).

Definition score (g : graph) (D : node -> list outcome) (K : node -> asg -> Qc) (d : node) (h : outcome -> Qc) : Qc := total D (nodes g) (fun a => weight K (nodes g) a * h (a d)) (fun _ => 0).
Lemma score_le : forall g D K d h h', wf_dag g -> cond g D K -> (forall z, h z <= h' z) -> score g D K d h <= score g D K d h'.
Proof.
  intros g D K d h h' W C0 H. apply total_le. intros a Wa _. assert (Wn : 0 <= weight K (nodes g) a) by (apply (weight_nonneg g D); auto; intros v Hv; auto). rewrite !(Qcmult_comm (weight K (nodes g) a)). apply Qcmult_le_compat_r; auto.
Qed.
Lemma score_const : forall g D K d q, wf_dag g -> cond g D K -> score g D K d (fun _ => q) = q.
Proof. intros g D K d q W C0. unfold score. rewrite (total_ext D (nodes g) _ (fun a => q * weight K (nodes g) a)) by (intro; ring). rewrite total_scale, (cond_total g D K W C0). ring. Qed.
Lemma score_plus : forall g D K d h h', score g D K d h + score g D K d h' = score g D K d (fun z => h z + h' z).
Proof. intros. unfold score. rewrite <- total_plus. apply total_ext. intro a. ring. Qed.

Lemma mean_gap : forall p1 p0 w1 w0 s t : Qc, p1 <= s + Q2Qc (1 # 4) -> p0 <= t + Q2Qc (1 # 4) -> s + t <= six + six -> eight <= w1 -> six <= w0 -> half * p1 + half * p0 + Q2Qc (3 # 4) <= half * w1 + half * w0.
Proof.
  intros. unfold six, eight, half in *. qcq. change (this (Q2Qc (6 # 1))) with (6 # 1)%Q in *. change (this (Q2Qc (8 # 1))) with (8 # 1)%Q in *. change (this (Q2Qc (1 # 2))) with (1 # 2)%Q in *. change (this (Q2Qc (1 # 4))) with (1 # 4)%Q in *. change (this (Q2Qc (3 # 4))) with (3 # 4)%Q in *. lra.
Qed.
Lemma respond : forall g d x us D K k1 k0 kon koff bw hon hoff, wf_dag g -> In x (nodes g) -> In d (nodes g) -> x <> d -> value_lists g D -> cond g D K -> cond g D kon -> cond g D koff ->
  (forall a, K x a = half * k1 a + half * k0 (a x)) -> qsum (map k0 (D x)) = 1 -> rules g d D bw ->
  (forall b a, rules g d D b -> (forall v, In v (nodes g) -> In (a v) (D v)) -> weight (swap (with_rule K d b) x k1) (nodes g) a = weight (with_rule kon d b) (nodes g) a) ->
  (forall b a, rules g d D b -> (forall v, In v (nodes g) -> In (a v) (D v)) -> weight (swap (with_rule K d b) x (fun a => k0 (a x))) (nodes g) a = weight (with_rule koff d b) (nodes g) a) ->
  (forall b, rules g d D b -> pays g us D (with_rule kon d b) <= score g D (with_rule kon d b) d hon + Q2Qc (1 # 4)) ->
  (forall b, rules g d D b -> pays g us D (with_rule koff d b) <= score g D (with_rule koff d b) d hoff + Q2Qc (1 # 4)) ->
  (forall z, hon z + hoff z <= six + six) -> eight <= pays g us D (with_rule kon d bw) -> six <= pays g us D (with_rule koff d bw) -> responsive g d x us.
Proof.
  intros g d x us D K k1 k0 kon koff bw hon hoff W Hx Hd Nxd VL CK Con Coff HK S0 Rw Eon Eoff Bon Boff Hh Won Woff. exists D, K, bw. split; auto. split; [apply cond_conditionals; auto|]. split; auto.
  assert (Mix : forall b, forall a, with_rule K d b x a = half * k1 a + half * k0 (a x)) by (intros b a; unfold with_rule; destruct (String.string_dec x d); [contradiction|auto]).
  assert (Nx : NoDup (D x)) by (apply VL; auto). assert (Nd : NoDup (D d)) by (apply VL; auto).
  assert (Sp : forall b f, rules g d D b -> total D (nodes g) (fun a => weight (with_rule K d b) (nodes g) a * f a) (fun _ => 0) =
    half * total D (nodes g) (fun a => weight (with_rule kon d b) (nodes g) a * f a) (fun _ => 0) + half * total D (nodes g) (fun a => weight (with_rule koff d b) (nodes g) a * f a) (fun _ => 0)).
  { intros b f Rb. rewrite (mix_total g D x (with_rule K d b) k1 k0 W Hx (Mix b) f). f_equal; f_equal; apply total_ext_in; intros a Wa _; f_equal; [apply Eon|apply Eoff]; auto. }
  assert (Pays : forall b, rules g d D b -> pays g us D (with_rule K d b) = half * pays g us D (with_rule kon d b) + half * pays g us D (with_rule koff d b)) by (intros b Rb; unfold pays; apply Sp; auto).
  intros b Rb Df. rewrite !Pays by auto.
  assert (Same : score g D (with_rule kon d b) d hon = score g D (with_rule koff d b) d hon).
  { assert (X := deaf_total g D x d (with_rule K d b) k1 k0 W Hx Hd Nx Nd (Mix b) S0 Df hon). unfold score. etransitivity; [|etransitivity; [exact X|]]; apply total_ext_in; intros a Wa _; f_equal; [symmetry; apply Eon|apply Eoff]; auto. }
  assert (B1 := Bon b Rb). assert (B0 := Boff b Rb). rewrite Same in B1. assert (Cb := rule_cond g D koff d b Coff Rb).
  assert (T : score g D (with_rule koff d b) d hon + score g D (with_rule koff d b) d hoff <= six + six). { rewrite score_plus. rewrite <- (score_const g D (with_rule koff d b) d (six + six) W Cb). apply score_le; auto. }
  exact (mean_gap _ _ _ _ _ _ B1 B0 T Won Woff).
Qed.

Section Play.
  Variables (g : graph) (C : list (node * source)) (u d : node) (jp jd ja jE : nat) (enc : list bool -> Qc) (us : list node) (top : Qc).
  Hypothesis W : wf_dag g.
  Hypothesis EI : forall l l', length l = length C -> length l' = length C -> enc l = enc l' -> l = l'.
  Hypothesis HC : forall j v i, nth_error C j = Some (v, Copy i) -> (i < length C)%nat /\ edge g (loc C i) v.
  Hypothesis HX : forall j v i i', nth_error C j = Some (v, Xor i i') -> ((i < length C)%nat /\ edge g (loc C i) v) /\ ((i' < length C)%nat /\ edge g (loc C i') v).
  Hypothesis HN : forall j, (j < length C)%nat -> In (loc C j) (nodes g) /\ loc C j <> u.
  Hypothesis Hjp : (jp < length C)%nat /\ edge g (loc C jp) u.
  Hypothesis Hjd : (jd < length C)%nat /\ edge g (loc C jd) u.
  Hypothesis Hja : (ja < length C)%nat /\ edge g (loc C ja) u.
  Hypothesis HO : forall j s, nth_error C j = Some (d, s) -> s = Open.
  Hypothesis Hd : In d (nodes g) /\ d <> u.
  Hypothesis ER : forall l, length l = length C -> 0 <= enc l /\ enc l <= top.
  Hypothesis Hus : NoDup us /\ In u us /\ incl us (nodes g).
  Hypothesis Htop : Qc_of_nat (length us) * top <= Q2Qc (1 # 4).
  Let D := D2 C u enc.
  Let K := kern2 C u jp jd ja enc.
  Let bits (a : asg) (j : nat) : bool := bit C enc (a (loc C j)) j.
  Lemma play_cond : cond g D K.
  Proof. exact (kern2_cond g C u jp jd ja enc W EI HC HX HN Hjp Hjd Hja). Qed.
  Lemma play_facts : forall b a, (forall v, In v (nodes g) -> In (a v) (D v)) -> (forall v, In v (nodes g) -> with_rule K d b v a <> 0) ->
    carries C (bits a) /\ a u = pay (bits a jp) (bits a jd) (bits a ja) /\ b d a <> 0.
  Proof.
    intros b a Wa Nz. assert (Hu : In u (nodes g)) by (apply Hus; apply Hus). split; [|split].
    - apply (kern2_carries g C u jp jd enc EI HC HX HN Hjp Hjd a Wa). intros v Hv Nu (j & s & Ej & Ns). assert (X := Nz v Hv). unfold with_rule, K, kern2 in X. destruct (String.string_dec v d) as [->|_]; [apply HO in Ej; contradiction|]. destruct (String.string_dec v u); [contradiction|auto].
    - assert (X := Nz u Hu). unfold with_rule in X. destruct (String.string_dec u d) as [E|_]; [destruct Hd; congruence|]. apply (paid C u jp jd ja enc a X).
    - assert (X := Nz d (proj1 Hd)). unfold with_rule in X. destruct (String.string_dec d d); [auto|congruence].
  Qed.
  Lemma us_near : forall a, (forall v, In v (nodes g) -> In (a v) (D v)) -> a u <= qsum (map a us) /\ qsum (map a us) <= a u + Q2Qc (1 # 4).
  Proof.
    intros a Wa. destruct (us_split g C u jp jd Hjp Hjd us top Hus Htop) as (us' & P & I & N & Le). rewrite (qsum_perm (map a us) (map a (u :: us'))) by (apply Permutation_map; auto). cbn [map]. change (qsum (a u :: map a us')) with (a u + qsum (map a us')).
    destruct (rest_bound g C u jp jd enc Hjp Hjd d us top Hd ER Hus Htop us' (upd a u 0) Le I N) as [B1 B2]; [apply (low g C u enc a Wa)|]. rewrite (map_ext_in (upd a u 0) a) in B1, B2 by (intros v Hv; apply upd_other; intros ->; contradiction). generalize dependent (qsum (map a us')). intros q B1 B2. generalize (a u). intro r. split; qclra.
  Qed.
  Lemma play_high : forall b h, rules g d D b -> (forall a, (forall v, In v (nodes g) -> In (a v) (D v)) -> (forall v, In v (nodes g) -> with_rule K d b v a <> 0) -> a u <= h (a d)) -> pays g us D (with_rule K d b) <= score g D (with_rule K d b) d h + Q2Qc (1 # 4).
  Proof.
    intros b h Rb H. assert (Cb := rule_cond g D K d b play_cond Rb). rewrite <- (score_const g D (with_rule K d b) d (Q2Qc (1 # 4)) W Cb), score_plus. unfold pays, score. apply total_le. intros a Wa _.
    assert (Wn : 0 <= weight (with_rule K d b) (nodes g) a) by (apply (weight_nonneg g D); auto; intros v Hv; auto). destruct (Qc_eq_dec (weight (with_rule K d b) (nodes g) a) 0) as [E|E]; [rewrite E, !Qcmult_0_l; apply Qcle_refl|].
    rewrite !(Qcmult_comm (weight (with_rule K d b) (nodes g) a)). apply Qcmult_le_compat_r; auto. destruct (us_near a Wa) as [_ B]. apply Qcle_trans with (a u + Q2Qc (1 # 4)); auto. apply Qcplus_le_compat; [|apply Qcle_refl]. apply H; auto.
    intros v Hv Z. apply E. unfold weight. apply (qprod_zero _ (fun v => with_rule K d b v a) (nodes g) v); auto.
  Qed.
  Lemma play_low : forall b q, rules g d D b -> (forall a, (forall v, In v (nodes g) -> In (a v) (D v)) -> (forall v, In v (nodes g) -> with_rule K d b v a <> 0) -> q <= a u) -> q <= pays g us D (with_rule K d b).
  Proof.
    intros b q Rb H. apply pays_low; auto; [apply (rule_cond g D K d b play_cond Rb)|]. intros a Wa Nz. destruct (us_near a Wa) as [B _]. apply Qcle_trans with (a u); auto.
  Qed.
  Variable F : nat -> bool.
  Hypothesis FC : forall j v i, nth_error C j = Some (v, Copy i) -> F j = F i.
  Hypothesis FX : forall j v i i', nth_error C j = Some (v, Xor i i') -> F j = xorb (F i) (F i').
  Hypothesis FK : forall j v b, nth_error C j = Some (v, Const b) -> F j = false.
  Hypothesis Fp : F jp = true.
  Hypothesis Fd : F jd = false.
  Hypothesis Fa : F ja = false.
  Hypothesis Un : forall j, (j < length C)%nat -> F j = true -> loc C j <> d /\ ~ edge g (loc C j) d.
  Hypothesis Uu : ~ edge g u d.
  Hypothesis Ea : forall be, carries C be -> be ja = be jE.
  Hypothesis LE : loc C jE = d.
  Definition coin_h (q : outcome) : Qc := if bit C enc q jE then six else Q2Qc (4 # 1).
  Lemma play_even : forall b, rules g d D b -> pays g us D (with_rule K d b) <= score g D (with_rule K d b) d coin_h + Q2Qc (1 # 4).
  Proof.
    intros b R. assert (C0 := rule_cond g D K d b play_cond R). assert (Hu : In u (nodes g)) by (apply Hus; apply Hus).
    assert (St : forall v a, In v (nodes g) -> v <> u -> In (a v) (D v) -> (forall j, (j < length C)%nat -> F j = true -> loc C j <> v) -> turn2 C u enc F v (a v) = a v).
    { intros v a Hv Nu Wv Nf. unfold turn2, turn. unfold D, D2 in Wv. destruct (String.string_dec v u); [contradiction|]. apply code_decode in Wv; auto. destruct Wv as [E _]. rewrite flipl_none; auto. intro j. unfold here. destruct (F j) eqn:Fj; auto. cbn [andb]. destruct (j <? length C)%nat eqn:Hj; [|apply andb_false_r]. apply Nat.ltb_lt in Hj. destruct (String.eqb_spec (loc C j) v); auto. exfalso. apply (Nf j); auto. }
    set (w := weight (with_rule K d b) (nodes g)). set (T := total D (nodes g) (fun a => w a * a u) (fun _ => 0)).
    assert (Ww : ext w) by (apply (weight_ext g D); auto; intros v Hv; auto).
    assert (Eh : T = total D (nodes g) (fun a => w a * other (a u)) (fun _ => 0)).
    { unfold T at 1. rewrite (total_relabel D (turn2 C u enc F)) by (try apply W; try (intros a a' H; rewrite (Ww a a'), (H u); auto); intros v _; apply (turn2_perm C u enc EI F v)).
      apply total_ext_in. intros a Wa _. set (a' := fun v => if in_dec String.string_dec v (nodes g) then turn2 C u enc F v (a v) else a v).
      assert (Ea' : forall v, In v (nodes g) -> a' v = turn2 C u enc F v (a v)) by (intros v Hv; unfold a'; destruct (in_dec String.string_dec v (nodes g)); [auto|contradiction]).
      change (w a' * a' u = w a * other (a u)).
      assert (Ew : w a' = w a).
      { unfold w, weight. apply qprod_ext. intros v Hv. unfold with_rule. destruct (String.string_dec v d) as [->|Nd]; [|apply (kern2_turn g C u jp jd ja enc W EI HC HX HN Hjp Hjd Hja F FC FX FK Fp Fd Fa a a'); auto]. destruct R as (R1 & _). apply R1.
        - rewrite Ea' by apply Hd. apply St; auto; [apply Hd|]. intros j Hj Fj. apply (Un j Hj Fj).
        - intros p Hp. assert (Hpn : In p (nodes g)) by (apply (proj1 W) in Hp; tauto). rewrite Ea' by auto. apply St; auto; [intros ->; contradiction|]. intros j Hj Fj E. apply (Un j Hj Fj). rewrite E. auto. }
      rewrite Ew, (Ea' u Hu). unfold turn2. destruct (String.string_dec u u); [auto|congruence]. }
    assert (Th : T = score g D (with_rule K d b) d coin_h).
    { assert (X : T + T = score g D (with_rule K d b) d (fun z => coin_h z + coin_h z)).
      { rewrite Eh at 2. unfold T, score. rewrite <- total_plus. apply total_ext_in. intros a Wa _. fold w. destruct (Qc_eq_dec (w a) 0) as [E|E]; [rewrite E; ring|]. rewrite <- Qcmult_plus_distr_r. f_equal.
        destruct (play_facts b a Wa) as (Cr & Au & _); [intros v Hv Z; apply E; unfold w, weight; apply (qprod_zero _ (fun v => with_rule K d b v a) (nodes g) v); auto|]. assert (Z := Ea _ Cr). rewrite Au, other_pay, Z. unfold coin_h, bits at 3 6. rewrite LE. destruct (bit C enc (a d) jE); [reflexivity|]. destruct (bits a jp), (bits a jd); apply Qc_is_canon; reflexivity. }
      rewrite <- score_plus in X. clearbody T. generalize dependent (score g D (with_rule K d b) d coin_h). intros q X. assert (Hh : half + half = 1) by (apply Qc_is_canon; reflexivity). transitivity (half * (T + T)); [transitivity ((half + half) * T); [rewrite Hh; ring|ring]|]. rewrite X. transitivity ((half + half) * q); [ring|rewrite Hh; ring]. }
    rewrite <- Th. rewrite <- (score_const g D (with_rule K d b) d (Q2Qc (1 # 4)) W C0). unfold T, score. rewrite <- total_plus. unfold pays. fold w. apply total_le. intros a Wa _. assert (Wn : 0 <= w a) by (apply (weight_nonneg g D); auto; intros v Hv; auto).
    rewrite <- Qcmult_plus_distr_r. rewrite !(Qcmult_comm (w a)). apply Qcmult_le_compat_r; auto. apply us_near; auto.
  Qed.
End Play.

(* the rule that computes a guess, and whether there is one, from what is seen *)
Lemma plays : forall g C u enc d jD jE (phi psi : asg -> bool), wf_dag g -> (forall l l', length l = length C -> length l' = length C -> enc l = enc l' -> l = l') -> d <> u -> (jD < length C)%nat -> (jE < length C)%nat -> jD <> jE ->
  (forall a a', (forall q, edge g q d -> a q = a' q) -> phi a = phi a' /\ psi a = psi a') ->
  exists bw, rules g d (D2 C u enc) bw /\ forall a, bw d a <> 0 -> bit C enc (a d) jD = phi a /\ bit C enc (a d) jE = psi a.
Proof.
  intros g C u enc d jD jE phi psi W EI Ndu HD HE NE Lo. set (vec := fun a => map (fun j => if (j =? jE)%nat then psi a else phi a) (seq 0 (length C))). assert (Lv : forall a, length (vec a) = length C) by (intro a; unfold vec; rewrite map_length, seq_length; auto).
  assert (Nv : forall a j, (j < length C)%nat -> nth j (vec a) false = if (j =? jE)%nat then psi a else phi a). { intros a j Hj. unfold vec. set (f := fun j => if (j =? jE)%nat then psi a else phi a). rewrite (nth_indep _ false (f 0%nat)) by (rewrite map_length, seq_length; auto). rewrite map_nth, seq_nth by auto. auto. }
  assert (Vl : forall a a', (forall q, edge g q d -> a q = a' q) -> vec a = vec a') by (intros a a' H; destruct (Lo a a' H) as [E1 E2]; unfold vec; rewrite E1, E2; auto).
  set (bw := fun (v : node) (a : asg) => if Qc_eq_dec (a d) (enc (vec a)) then 1 else 0 : Qc). exists bw. split; [split; [|split]|].
  - intros a a' E H. unfold bw. rewrite E, (Vl a a' H). auto.
  - intro a. unfold bw. destruct (Qc_eq_dec _ _); discriminate.
  - intros a _. rewrite (D2_other C u enc d Ndu). unfold Dm. destruct (String.string_dec d u); [contradiction|]. rewrite (qsum_single _ Qc_eq_dec _ _ (enc (vec a))).
    + unfold bw. rewrite upd_same. rewrite (Vl (upd a d (enc (vec a))) a); [destruct (Qc_eq_dec _ _); congruence|]. intros q Hq. apply upd_other. intros ->. apply (proj2 W d). exists d. split; [auto|constructor].
    + apply codes_nodup; auto.
    + unfold codes. apply in_map. apply vecs_in. auto.
    + intros y _ Ny. unfold bw. rewrite upd_same. rewrite (Vl (upd a d y) a); [destruct (Qc_eq_dec _ _); congruence|]. intros q Hq. apply upd_other. intros ->. apply (proj2 W d). exists d. split; [auto|constructor].
  - intros a Nz. unfold bw in Nz. destruct (Qc_eq_dec (a d) (enc (vec a))) as [E|]; [|congruence]. rewrite E. unfold bit. rewrite decode_enc by auto. rewrite !Nv by auto. rewrite Nat.eqb_refl. apply Nat.eqb_neq in NE. rewrite NE. auto.
Qed.
Lemma kern_still : forall C u jp jd enc x a a', x <> u -> (forall j s, nth_error C j = Some (x, s) -> s = Open \/ exists b, s = Const b) -> a x = a' x -> kern C u jp jd enc x a = kern C u jp jd enc x a'.
Proof.
  intros C u jp jd enc x a a' N H E. unfold kern. destruct (String.string_dec x u); [contradiction|]. rewrite E. apply prodl_ext. intros j b _. f_equal. unfold asked. destruct (nth_error C j) as [[w s]|] eqn:Ej; auto.
  destruct s as [|i|i i'|c]; auto; destruct (String.string_dec w x) as [->|]; auto; destruct (H _ _ Ej) as [K|[c K]]; discriminate.
Qed.
Lemma kern2_agree : forall C C' u jp jd ja enc v a, length C' = length C -> (forall j, loc C' j = loc C j) -> (v <> u -> forall j, (j < length C)%nat -> loc C j = v -> nth_error C' j = nth_error C j) ->
  kern2 C' u jp jd ja enc v a = kern2 C u jp jd ja enc v a.
Proof.
  intros C C' u jp jd ja enc v a L Lo H. unfold kern2. destruct (String.string_dec v u) as [->|N]; [|apply kern_agree; auto]. assert (Bi : forall q j, bit C' enc q j = bit C enc q j) by (intros q j; unfold bit, decode; rewrite L; auto). unfold due. rewrite !Lo, !Bi. auto.
Qed.
Lemma D2_lists : forall g C u enc, (forall l l', length l = length C -> length l' = length C -> enc l = enc l' -> l = l') -> value_lists g (D2 C u enc).
Proof.
  intros g C u enc EI v _. split; [apply D2_nodup; auto|]. unfold D2. destruct (String.string_dec v u); [discriminate|]. unfold codes. intro E. apply map_eq_nil in E. assert (X := proj2 (vecs_in (length C) (repeat true (length C))) (repeat_length _ _)). rewrite E in X. destruct X.
Qed.
Lemma still_sum : forall g D K x k0, wf_dag g -> cond g D K -> value_lists g D -> In x (nodes g) -> (forall a, K x a = k0 (a x)) -> qsum (map k0 (D x)) = 1.
Proof.
  intros g D K x k0 W [_ K2 _] V Hx E. rewrite <- (K2 x (fun v => hd 0 (D v)) Hx).
  - apply qsum_ext. intros y _. rewrite E, upd_same. auto.
  - intros p Hp. assert (In p (nodes g)) by (apply (proj1 W) in Hp; tauto). destruct (V p) as [_ N]; auto. destruct (D p); [congruence|left; auto].
Qed.

Lemma respond_direct : forall g d x y u us, wf_dag g -> edge g y d -> reach g x y -> descends g u d -> off g d x u -> x <> u -> NoDup us -> In u us -> incl us (nodes g) -> responsive g d x us.
Proof.
  intros g d x y u us W Ey Rxy Du Of Nxu Nus Hu Ius. destruct (rig_direct g d x y u W Ey Rxy Du Of Nxu) as (C & jp & jd & ja & jD & jE & jt & jv & [La Et Fx Hp Hd Ha [HD LD] (HE & LE & NDE) [Hv Ev] Ca] & Cb).
  assert (Hdn : In d (nodes g)) by (apply (proj1 W) in Ey; tauto). assert (Ndu : d <> u) by (intros <-; apply (proj2 W d); auto). assert (Nxd : x <> d) by (destruct Of; auto). assert (Ht : (jt < length C)%nat) by (apply nth_error_Some; congruence). assert (Lt := loc_at _ _ _ _ Et).
  destruct La as [L1 L2 LC L3 L4]. assert (Hx : In x (nodes g)) by (rewrite <- Lt; apply L3; auto).
  set (Cf := fun t => put C jt (x, Const t)). assert (Len : forall t, length (Cf t) = length C) by (intro; apply put_length). assert (Loc : forall t j, loc (Cf t) j = loc C j) by (intros; apply put_loc; auto).
  assert (Ntt : forall t, nth_error (Cf t) jt = Some (x, Const t)) by (intro; apply put_same; auto). assert (No : forall t j, j <> jt -> nth_error (Cf t) j = nth_error C j) by (intros; apply put_other; auto).
  assert (HC : forall t j v i, nth_error (Cf t) j = Some (v, Copy i) -> (i < length (Cf t))%nat /\ edge g (loc (Cf t) i) v). { intros t j v i K. rewrite Len, Loc. destruct (Nat.eq_dec j jt) as [->|N]; [rewrite Ntt in K; discriminate|]. rewrite No in K by auto. apply L1 in K. tauto. }
  assert (HX : forall t j v i i', nth_error (Cf t) j = Some (v, Xor i i') -> ((i < length (Cf t))%nat /\ edge g (loc (Cf t) i) v) /\ ((i' < length (Cf t))%nat /\ edge g (loc (Cf t) i') v)). { intros t j v i i' K. rewrite Len, !Loc. destruct (Nat.eq_dec j jt) as [->|N]; [rewrite Ntt in K; discriminate|]. rewrite No in K by auto. apply L2 in K. tauto. }
  assert (HNo : forall t j, (j < length (Cf t))%nat -> In (loc (Cf t) j) (nodes g) /\ loc (Cf t) j <> u) by (intros t j Hj; rewrite Len in Hj; rewrite Loc; auto).
  assert (HO : forall t j s, nth_error (Cf t) j = Some (d, s) -> s = Open). { intros t j s K. destruct (Nat.eq_dec j jt) as [->|N]; [rewrite Ntt in K; congruence|]. rewrite No in K by auto. eauto. }
  assert (Hst : forall t j s, nth_error (Cf t) j = Some (x, s) -> s = Open \/ exists b, s = Const b). { intros t j s K. destruct (Nat.eq_dec j jt) as [->|N]; [rewrite Ntt in K; injection K as <-; right; eauto|]. rewrite No in K by auto. left. eapply Fx; eauto. }
  set (N := (4 * Datatypes.S (length us))%nat). set (enc := small N). assert (HN : (0 < N)%nat) by (unfold N; lia).
  assert (EI : forall l l', length l = length C -> length l' = length C -> enc l = enc l' -> l = l') by (intros l l' K1 K2 E; apply (small_inj N (length C)); auto).
  assert (EIt : forall t l l', length l = length (Cf t) -> length l' = length (Cf t) -> enc l = enc l' -> l = l') by (intros t l l' K1 K2 E; rewrite Len in K1, K2; auto).
  assert (ER : forall t l, length l = length (Cf t) -> 0 <= enc l /\ enc l <= 1 / Qc_of_nat N) by (intros t l _; apply small_range; auto). assert (Hts := small_sum (length us)). fold N in Hts.
  assert (Hjp : forall t, (jp < length (Cf t))%nat /\ edge g (loc (Cf t) jp) u) by (intros; rewrite Len, Loc; auto). assert (Hjd : forall t, (jd < length (Cf t))%nat /\ edge g (loc (Cf t) jd) u) by (intros; rewrite Len, Loc; auto). assert (Hja : forall t, (ja < length (Cf t))%nat /\ edge g (loc (Cf t) ja) u) by (intros; rewrite Len, Loc; auto).
  assert (Hus : NoDup us /\ In u us /\ incl us (nodes g)) by auto. assert (Hdd : In d (nodes g) /\ d <> u) by auto.
  assert (De : forall t, D2 (Cf t) u enc = D2 C u enc) by (intro t; unfold D2, codes; rewrite Len; auto). assert (Be : forall t q j, bit (Cf t) enc q j = bit C enc q j) by (intros t q j; unfold bit, decode; rewrite Len; auto).
  set (D := D2 C u enc) in *. set (ker := fun t => kern2 (Cf t) u jp jd ja enc).
  assert (CK : forall t, cond g D (ker t)) by (intro t; rewrite <- (De t); exact (play_cond g (Cf t) u jp jd ja enc W (EIt t) (HC t) (HX t) (HNo t) (Hjp t) (Hjd t) (Hja t))).
  assert (Facts : forall t b a, (forall v, In v (nodes g) -> In (a v) (D v)) -> (forall v, In v (nodes g) -> with_rule (ker t) d b v a <> 0) -> a u = pay t (bit C enc (a d) jD) (bit C enc (a d) jE) /\ bit C enc (a (loc C jv)) jv = t /\ b d a <> 0).
  { intros t b a Wa Nz. destruct (play_facts g (Cf t) u d jp jd ja enc us (EIt t) (HC t) (HX t) (HNo t) (Hjp t) (Hjd t) (HO t) Hdd Hus b a) as (Cr & Au & Nb); [rewrite De; auto|exact Nz|].
    set (be := fun j => bit (Cf t) enc (a (loc (Cf t) j)) j) in *. assert (Bt : be jt = t) by (assert (X := Cr jt); rewrite Ntt in X; auto). assert (Cr' : carries C be) by (apply (put_carries C jt x (Const t)); auto). destruct (Ca be Cr') as [C1 C2]. destruct (Cb be Cr') as [C3 C4].
    assert (Bd : forall j, be j = bit C enc (a (loc C j)) j) by (intro j; unfold be; rewrite Loc, Be; auto). split; [|split; auto; rewrite <- Bd; congruence]. rewrite Au. change (pay (be jp) (be jd) (be ja) = pay t (bit C enc (a d) jD) (bit C enc (a d) jE)). rewrite C3, C4, C2, Bt, !Bd, LD, LE. auto. }
  destruct (plays g C u enc d jD jE (fun a => bit C enc (a (loc C jv)) jv) (fun _ => false) W EI Ndu HD HE NDE) as (bw & Rw & Bw); [intros a a' H; rewrite (H _ Ev); auto|]. fold D in Rw.
  set (K := fun v a => if String.string_dec v x then half * ker true x a + half * ker false x a else ker true v a).
  assert (Hh : half + half = 1) by (apply Qc_is_canon; reflexivity). assert (Ph : 0 <= half) by discriminate.
  assert (Ag : forall t v a, v <> x -> ker t v a = ker true v a). { intros t v a Nv. unfold ker. apply kern2_agree; [rewrite !Len; auto|intro j; rewrite !Loc; auto|]. intros _ j _ Lj. rewrite Loc in Lj. assert (j <> jt) by (intros ->; congruence). rewrite !No by auto. auto. }
  assert (CKm : cond g D K).
  { destruct (CK true) as [A1 A2 A3]. destruct (CK false) as [B1 B2 B3]. constructor.
    - intros v Hvn a a' H. unfold K. destruct (String.string_dec v x) as [->|]; [|apply A1; auto]. rewrite (A1 x Hvn a a' H), (B1 x Hvn a a' H). auto.
    - intros v a Hvn H. unfold K. destruct (String.string_dec v x) as [->|]; [|apply A2; auto]. rewrite qsum_plus, !qsum_scale, A2, B2 by auto. rewrite !Qcmult_1_r. exact Hh.
    - intros v a Hvn. unfold K. destruct (String.string_dec v x) as [->|]; [|apply A3; auto]. assert (X := A3 x a Hvn). assert (Y := B3 x a Hvn). rewrite <- (Qcplus_0_l 0). apply Qcplus_le_compat; [rewrite <- (Qcmult_0_l (ker true x a))|rewrite <- (Qcmult_0_l (ker false x a))]; apply Qcmult_le_compat_r; auto. }
  set (k0 := fun q : outcome => ker false x (fun _ => q)). assert (Ek : forall a, ker false x a = k0 (a x)). { intro a. unfold k0, ker, kern2. destruct (String.string_dec x u); [contradiction|]. apply kern_still; auto. apply Hst. }
  assert (VL := D2_lists g C u enc EI). fold D in VL.
  assert (Sw : forall t k b a, (forall a, k a = ker t x a) -> weight (swap (with_rule K d b) x k) (nodes g) a = weight (with_rule (ker t) d b) (nodes g) a).
  { intros t k b a Hk. unfold weight. apply qprod_ext. intros v _. unfold swap, with_rule. destruct (String.string_dec v x) as [->|Nv]; [destruct (String.string_dec x d); [contradiction|apply Hk]|]. destruct (String.string_dec v d); auto. unfold K. destruct (String.string_dec v x); [contradiction|]. symmetry. apply Ag; auto. }
  assert (High : forall t b, rules g d D b -> pays g us D (with_rule (ker t) d b) <= score g D (with_rule (ker t) d b) d (fun z => pay t (bit C enc z jD) (bit C enc z jE)) + Q2Qc (1 # 4)).
  { intros t b Rb. assert (X := play_high g (Cf t) u d jp jd ja enc us (1 / Qc_of_nat N) W (EIt t) (HC t) (HX t) (HNo t) (Hjp t) (Hjd t) (Hja t) Hdd (ER t) Hus Hts b (fun z => pay t (bit C enc z jD) (bit C enc z jE))). rewrite (De t) in X. apply X; auto. intros a Wa Nz. destruct (Facts t b a Wa Nz) as [-> _]. apply Qcle_refl. }
  assert (Low : forall t, eight <= pays g us D (with_rule (ker t) d bw)).
  { intro t. assert (X := play_low g (Cf t) u d jp jd ja enc us (1 / Qc_of_nat N) W (EIt t) (HC t) (HX t) (HNo t) (Hjp t) (Hjd t) (Hja t) Hdd (ER t) Hus Hts bw eight). rewrite (De t) in X. apply X; auto. intros a Wa Nz. destruct (Facts t bw a Wa Nz) as (-> & Bv & Nb). destruct (Bw a Nb) as [-> ->]. rewrite Bv. destruct t; apply Qcle_refl. }
  apply (respond g d x us D K (ker true x) k0 (ker true) (ker false) bw (fun z => pay true (bit C enc z jD) (bit C enc z jE)) (fun z => pay false (bit C enc z jD) (bit C enc z jE))); auto.
  - intro a. unfold K. destruct (String.string_dec x x); [|congruence]. rewrite Ek. auto.
  - apply (still_sum g D (ker false) x k0); auto.
  - intro z. destruct (bit C enc z jD), (bit C enc z jE); discriminate.
  - apply Qcle_trans with eight; [discriminate|apply Low].
Qed.
