(* The same if what is to be guessed reaches the decision through the variable. *)
From Coq Require Import String List Bool Arith QArith Qcanon Lia Lqa Permutation.
Import ListNotations.
From Verif Require Import MBase MGraph MPaths MMacid MCpd MNet MProb MQuery Spec SpecN SpecQ SpecPol SpecGen LBase LGraph LQc LQcArith LNet LSum LBayes LQuery LValue LWire LTrek LGate LGateAll LSwitch LMix LPay LRig PComplete LControl LResp.
Local Open Scope string_scope.
Local Open Scope list_scope.
Local Open Scope Qc_scope.

Lemma respond_gated : forall g d x y u us Z, wf_dag g -> (forall z, In z Z <-> (z = d \/ edge g z d) /\ z <> y) -> edge g y d -> reach g x y -> descends g u d -> dconn g Z y u -> ~ off g d x u ->
  NoDup us -> In u us -> incl us (nodes g) -> responsive g d x us.
Proof.
  intros g d x y u us Z W HZ Ey Rxy Du Cn Of Nus Hu Ius.
  destruct (rig_gated g d x y u Z W HZ Ey Rxy Du Cn Of) as (C & F & jp & jd & ja & jD & jE & jt & jv & c & jw & S & s0 & [La Et Fx Hp Hd Ha [HD LD] (HE & LE & NDE) [Hv Ev] Ca] & E0 & Ncd & Ncu & F0 & Nt & Ft & Fe & Fp & Fd & Fa & Un & Se & Hw & Cw & Cg).
  assert (Hdn : In d (nodes g)) by (apply (proj1 W) in Ey; tauto). assert (Ndu : d <> u) by (intros <-; apply (proj2 W d); auto). assert (Uu : ~ edge g u d) by (intro K; apply (proj2 W d); eapply descends_reach_trans; [eauto|apply reach_edge; auto]).
  assert (H0 : (0 < length C)%nat) by (apply nth_error_Some; congruence). assert (Ht : (jt < length C)%nat) by (apply nth_error_Some; congruence). assert (L0 := loc_at _ _ _ _ E0). assert (Lt := loc_at _ _ _ _ Et).
  destruct La as [L1 L2 LC L3 L4]. assert (Hx : In x (nodes g)) by (rewrite <- Lt; apply L3; auto). assert (Nxu : x <> u) by (rewrite <- Lt; apply L3; auto). assert (Hcn : In c (nodes g)) by (rewrite <- L0; apply L3; auto).
  assert (Nxd : x <> d). { intros ->. apply (proj2 W d). destruct (reach_descends _ _ _ Rxy) as [E|E]; [subst y; exists d; split; [auto|constructor]|]. eapply descends_reach_trans; [exact E|apply reach_edge; auto]. }
  set (Cf := fun t s => put (put C 0 (c, s)) jt (x, Const t)).
  assert (Len : forall t s, length (Cf t s) = length C) by (intros; unfold Cf; rewrite !put_length; auto).
  assert (Lp : forall s, loc (put C 0 (c, s)) jt = x) by (intro s; rewrite put_loc; auto).
  assert (Loc : forall t s j, loc (Cf t s) j = loc C j) by (intros t s j; unfold Cf; rewrite put_loc by (rewrite ?put_length; auto); apply put_loc; auto).
  assert (N0 : forall t s, nth_error (Cf t s) 0 = Some (c, s)) by (intros; unfold Cf; rewrite put_other by auto; apply put_same; auto).
  assert (Ntt : forall t s, nth_error (Cf t s) jt = Some (x, Const t)) by (intros; unfold Cf; apply put_same; rewrite put_length; auto).
  assert (No : forall t s j, j <> 0%nat -> j <> jt -> nth_error (Cf t s) j = nth_error C j) by (intros; unfold Cf; rewrite !put_other by auto; auto).
  assert (HC : forall t s, fed g C c s -> forall j v i, nth_error (Cf t s) j = Some (v, Copy i) -> (i < length (Cf t s))%nat /\ edge g (loc (Cf t s) i) v).
  { intros t s Fs j v i K. rewrite Len, Loc. destruct (Nat.eq_dec j 0) as [->|N]; [rewrite N0 in K; injection K as <- ->; exact Fs|]. destruct (Nat.eq_dec j jt) as [->|N']; [rewrite Ntt in K; discriminate|]. rewrite No in K by auto. apply L1 in K. tauto. }
  assert (HX : forall t s, fed g C c s -> forall j v i i', nth_error (Cf t s) j = Some (v, Xor i i') -> ((i < length (Cf t s))%nat /\ edge g (loc (Cf t s) i) v) /\ ((i' < length (Cf t s))%nat /\ edge g (loc (Cf t s) i') v)).
  { intros t s Fs j v i i' K. rewrite Len, !Loc. destruct (Nat.eq_dec j 0) as [->|N]; [rewrite N0 in K; injection K as <- ->; exact Fs|]. destruct (Nat.eq_dec j jt) as [->|N']; [rewrite Ntt in K; discriminate|]. rewrite No in K by auto. apply L2 in K. tauto. }
  assert (HNo : forall t s j, (j < length (Cf t s))%nat -> In (loc (Cf t s) j) (nodes g) /\ loc (Cf t s) j <> u) by (intros t s j Hj; rewrite Len in Hj; rewrite Loc; auto).
  assert (HO : forall t s j s', nth_error (Cf t s) j = Some (d, s') -> s' = Open). { intros t s j s' K. destruct (Nat.eq_dec j 0) as [->|N]; [rewrite N0 in K; congruence|]. destruct (Nat.eq_dec j jt) as [->|N']; [rewrite Ntt in K; congruence|]. rewrite No in K by auto. eauto. }
  set (off0 := Const false). assert (Fo : fed g C c off0) by exact I. set (sel := fun t : bool => if t then s0 else off0). assert (Fs : forall t, fed g C c (sel t)) by (intros []; auto).
  assert (Hst : forall j s, nth_error (Cf false off0) j = Some (x, s) -> s = Open \/ exists b, s = Const b).
  { intros j s K. destruct (Nat.eq_dec j 0) as [->|N]; [rewrite N0 in K; injection K as _ <-; right; exists false; reflexivity|]. destruct (Nat.eq_dec j jt) as [->|N']; [rewrite Ntt in K; injection K as <-; right; eauto|]. rewrite No in K by auto. left. eapply Fx; eauto. }
  assert (Carry : forall t s be, carries (Cf t s) be -> be jt = t /\ be jw = t /\ carries (put C 0 (c, s)) be /\ carries C be).
  { intros t s be Hb. assert (Y := Hb jt). rewrite Ntt in Y. assert (Hb' : carries (put C 0 (c, s)) be) by (apply (put_carries _ jt x (Const t)); auto; rewrite put_other by auto; auto). assert (Hb0 : carries C be) by (apply (put_carries C 0 c s); auto). split; auto. split; [rewrite (Cw be Hb0); auto|auto]. }
  set (N := (4 * Datatypes.S (length us))%nat). set (enc := small N). assert (HN : (0 < N)%nat) by (unfold N; lia).
  assert (EI : forall l l', length l = length C -> length l' = length C -> enc l = enc l' -> l = l') by (intros l l' K1 K2 E; apply (small_inj N (length C)); auto).
  assert (EIt : forall t s l l', length l = length (Cf t s) -> length l' = length (Cf t s) -> enc l = enc l' -> l = l') by (intros t s l l' K1 K2 E; rewrite Len in K1, K2; auto).
  assert (ER : forall t s l, length l = length (Cf t s) -> 0 <= enc l /\ enc l <= 1 / Qc_of_nat N) by (intros t s l _; apply small_range; auto). assert (Hts := small_sum (length us)). fold N in Hts.
  assert (Hjp : forall t s, (jp < length (Cf t s))%nat /\ edge g (loc (Cf t s) jp) u) by (intros; rewrite Len, Loc; auto). assert (Hjd : forall t s, (jd < length (Cf t s))%nat /\ edge g (loc (Cf t s) jd) u) by (intros; rewrite Len, Loc; auto). assert (Hja : forall t s, (ja < length (Cf t s))%nat /\ edge g (loc (Cf t s) ja) u) by (intros; rewrite Len, Loc; auto).
  assert (Hus : NoDup us /\ In u us /\ incl us (nodes g)) by auto. assert (Hdd : In d (nodes g) /\ d <> u) by auto.
  assert (De : forall t s, D2 (Cf t s) u enc = D2 C u enc) by (intros t s; unfold D2, codes; rewrite Len; auto). assert (Be : forall t s q j, bit (Cf t s) enc q j = bit C enc q j) by (intros t s q j; unfold bit, decode; rewrite Len; auto).
  set (D := D2 C u enc) in *. set (ker := fun t s => kern2 (Cf t s) u jp jd ja enc). set (bits := fun (a : asg) (j : nat) => bit C enc (a (loc C j)) j).
  assert (CK : forall t s, fed g C c s -> cond g D (ker t s)) by (intros t s Hf; rewrite <- (De t s); exact (play_cond g (Cf t s) u jp jd ja enc W (EIt t s) (HC t s Hf) (HX t s Hf) (HNo t s) (Hjp t s) (Hjd t s) (Hja t s))).
  assert (Cbits : forall t s a, carries (Cf t s) (fun j => bit (Cf t s) enc (a (loc (Cf t s) j)) j) -> carries (Cf t s) (bits a)).
  { intros t s a X j. specialize (X j). unfold bits. destruct (nth_error (Cf t s) j) as [[v [|i|i i'|b]]|]; auto; rewrite ?Loc, ?Be in X; auto. }
  assert (Facts : forall t s b a, fed g C c s -> (forall v, In v (nodes g) -> In (a v) (D v)) -> (forall v, In v (nodes g) -> with_rule (ker t s) d b v a <> 0) -> carries (Cf t s) (bits a) /\ a u = pay (bits a jp) (bits a jd) (bits a ja) /\ b d a <> 0).
  { intros t s b a Hf Wa Nz. destruct (play_facts g (Cf t s) u d jp jd ja enc us (EIt t s) (HC t s Hf) (HX t s Hf) (HNo t s) (Hjp t s) (Hjd t s) (HO t s) Hdd Hus b a) as (Cr & Au & Nb); [rewrite De; auto|exact Nz|]. split; [apply Cbits; auto|]. split; auto. rewrite Au. rewrite !Loc, !Be. auto. }
  assert (Bits : forall t s a (f : node -> Qc), fed g C c s -> (forall v, In v (nodes g) -> In (a v) (D v)) -> (forall v, In v (nodes g) -> f v <> 0) -> (forall v, In v (nodes g) -> v <> d -> f v = ker t s v a) -> carries (Cf t s) (bits a)).
  { intros t s a f Hf Wa Nz Ef. apply Cbits. apply (kern2_carries g (Cf t s) u jp jd enc (EIt t s) (HC t s Hf) (HX t s Hf) (HNo t s) (Hjp t s) (Hjd t s) a); [rewrite De; auto|]. intros v Hvn Nu (j & s' & Ej & Ns). assert (Nv : v <> d) by (intros ->; apply HO in Ej; contradiction). assert (X := Nz v Hvn). rewrite (Ef v Hvn Nv) in X. unfold ker, kern2 in X. destruct (String.string_dec v u); [contradiction|auto]. }
  assert (Ag : forall t s t' s' v a, (v = c -> s = s') -> (v = x -> t = t') -> ker t s v a = ker t' s' v a).
  { intros t s t' s' v a Hs Htv. unfold ker. apply kern2_agree; [rewrite !Len; auto|intro j; rewrite !Loc; auto|]. intros Nv j Hj Lj. rewrite Len in Hj. rewrite Loc in Lj. destruct (Nat.eq_dec j 0) as [->|K]; [rewrite !N0; rewrite Hs; auto; congruence|].
    destruct (Nat.eq_dec j jt) as [->|K']; [rewrite !Ntt; rewrite Htv; auto; congruence|]. rewrite !No by auto. auto. }
  destruct (plays g C u enc d jD jE (fun a => xors (bits a) S) (fun a => negb (bits a jv)) W EI Ndu HD HE NDE) as (bw & Rw & Bw).
  { intros a a' H. assert (Hb : forall j, edge g (loc C j) d -> bits a j = bits a' j) by (intros j E; unfold bits; rewrite (H _ E); auto). split; [|f_equal; auto]. clear - Se Hb. induction S as [|s S IH]; auto. cbn [xors fold_right]. fold (xors (bits a) S) (xors (bits a') S). rewrite IH by (intros; apply Se; right; auto). rewrite (Hb s) by (apply Se; left; auto). auto. }
  fold D in Rw.
  set (K := fun v a => if String.string_dec v x then half * ker true s0 x a + half * ker false off0 x a else if String.string_dec v c then (if bits a jw then ker true s0 c a else ker false off0 c a) else ker false off0 v a).
  assert (Hh : half + half = 1) by (apply Qc_is_canon; reflexivity). assert (Ph : 0 <= half) by discriminate.
  assert (CKm : cond g D K).
  { destruct (CK true s0 Fe) as [A1 A2 A3]. destruct (CK false off0 Fo) as [B1 B2 B3]. constructor.
    - intros v Hvn a a' H. unfold K. destruct (String.string_dec v x) as [->|Nvx]; [rewrite (A1 x Hvn a a' H), (B1 x Hvn a a' H); auto|]. destruct (String.string_dec v c) as [->|]; [|apply B1; auto]. assert (Eb : bits a jw = bits a' jw) by (unfold bits; rewrite (H (loc C jw)) by (right; apply Hw; auto); auto). rewrite Eb. destruct (bits a' jw); [apply A1; auto|apply B1; auto].
    - intros v a Hvn H. unfold K. destruct (String.string_dec v x) as [->|Nvx]; [rewrite qsum_plus, !qsum_scale, A2, B2 by auto; rewrite !Qcmult_1_r; exact Hh|]. destruct (String.string_dec v c) as [->|]; [|apply B2; auto]. assert (Nxc : x <> c) by auto. destruct (Hw Nxc) as [_ Ew]. assert (Nw : loc C jw <> c) by (intro E; rewrite E in Ew; apply (proj2 W c); exists c; split; [auto|constructor]).
      assert (Eb : forall z, bits (upd a c z) jw = bits a jw) by (intro z; unfold bits; rewrite upd_other by auto; auto). destruct (bits a jw) eqn:Ebw.
      + rewrite <- (A2 c a Hvn H). apply qsum_ext. intros z _. rewrite Eb. auto.
      + rewrite <- (B2 c a Hvn H). apply qsum_ext. intros z _. rewrite Eb. auto.
    - intros v a Hvn. unfold K. destruct (String.string_dec v x) as [->|Nvx]; [|destruct (String.string_dec v c) as [->|]; [destruct (bits a jw); auto|apply B3; auto]]. assert (X := A3 x a Hvn). assert (Y := B3 x a Hvn). rewrite <- (Qcplus_0_l 0). apply Qcplus_le_compat; [rewrite <- (Qcmult_0_l (ker true s0 x a))|rewrite <- (Qcmult_0_l (ker false off0 x a))]; apply Qcmult_le_compat_r; auto. }
  set (k0 := fun q : outcome => ker false off0 x (fun _ => q)). assert (Ek : forall a, ker false off0 x a = k0 (a x)). { intro a. unfold k0, ker, kern2. destruct (String.string_dec x u); [contradiction|]. apply kern_still; auto. }
  assert (VL := D2_lists g C u enc EI). fold D in VL.
  assert (Sw : forall t k b a, (forall a, k a = ker t (sel t) x a) -> (forall v, In v (nodes g) -> In (a v) (D v)) -> weight (swap (with_rule K d b) x k) (nodes g) a = weight (with_rule (ker t (sel t)) d b) (nodes g) a).
  { intros t k b a Hk Wa. unfold weight. apply (prod_once (fun v => swap (with_rule K d b) x k v a) (fun v => with_rule (ker t (sel t)) d b v a) (nodes g) c).
    - intros v _ Nv. unfold swap, with_rule. destruct (String.string_dec v x) as [->|Nvx]; [destruct (String.string_dec x d); [contradiction|apply Hk]|]. destruct (String.string_dec v d); auto. unfold K. destruct (String.string_dec v x); [contradiction|]. destruct (String.string_dec v c); [contradiction|]. apply Ag; intro; contradiction.
    - intros Ne Nz. destruct (String.string_dec c x) as [Ecx|Ncx]; [apply Ne; unfold swap, with_rule; destruct (String.string_dec c x); [|contradiction]; destruct (String.string_dec c d); [contradiction|]; rewrite Ecx; apply Hk|].
      assert (Fc : swap (with_rule K d b) x k c a = if bits a jw then ker true s0 c a else ker false off0 c a). { unfold swap, with_rule. destruct (String.string_dec c x); [contradiction|]. destruct (String.string_dec c d); [contradiction|]. unfold K. destruct (String.string_dec c x); [contradiction|]. destruct (String.string_dec c c); [auto|congruence]. }
      destruct (Bool.bool_dec (bits a jw) t) as [Eb|Eb].
      + apply Ne. rewrite Fc, Eb. unfold with_rule. destruct (String.string_dec c d); [contradiction|]. destruct t; apply Ag; auto; intro; contradiction.
      + assert (Y : carries (Cf t (sel (bits a jw))) (bits a)).
        { apply (Bits t (sel (bits a jw)) a (fun v => swap (with_rule K d b) x k v a)); auto. intros v Hvn Nv. destruct (String.string_dec v c) as [->|Nvc]; [rewrite Fc; destruct (bits a jw); apply Ag; auto; intro; contradiction|].
          unfold swap, with_rule. destruct (String.string_dec v x) as [->|Nvx]; [rewrite Hk; apply Ag; auto; intro; contradiction|]. destruct (String.string_dec v d); [contradiction|]. unfold K. destruct (String.string_dec v x); [contradiction|]. destruct (String.string_dec v c); [contradiction|]. apply Ag; intro; contradiction. }
        apply Carry in Y. apply Eb. apply Y.
    - intros Ne Nz. destruct (String.string_dec c x) as [Ecx|Ncx]; [apply Ne; unfold swap, with_rule; destruct (String.string_dec c x); [|contradiction]; destruct (String.string_dec c d); [contradiction|]; rewrite Ecx; apply Hk|].
      assert (Y : carries (Cf t (sel t)) (bits a)). { apply (Bits t (sel t) a (fun v => with_rule (ker t (sel t)) d b v a)); auto. intros v Hvn Nv. unfold with_rule. destruct (String.string_dec v d); [contradiction|auto]. }
      apply Carry in Y. destruct Y as (_ & Y & _). apply Ne. unfold swap, with_rule. destruct (String.string_dec c x); [contradiction|]. destruct (String.string_dec c d); [contradiction|]. unfold K. destruct (String.string_dec c x); [contradiction|]. destruct (String.string_dec c c); [|congruence]. rewrite Y. destruct t; apply Ag; auto; intro; contradiction. }
  assert (Ab : forall t s b a, fed g C c s -> (forall v, In v (nodes g) -> In (a v) (D v)) -> (forall v, In v (nodes g) -> with_rule (ker t s) d b v a <> 0) -> a u = pay (bits a jp) (bits a jd) (bit C enc (a d) jE) /\ bits a jv = t /\ carries (put C 0 (c, s)) (bits a) /\ b d a <> 0).
  { intros t s b a Hf Wa Nz. destruct (Facts t s b a Hf Wa Nz) as (Cr & Au & Nb). destruct (Carry t s _ Cr) as (Bt & _ & Cp & C0). destruct (Ca _ C0) as [Bv Ba]. rewrite Ba in Au. split; [rewrite Au; unfold bits at 3; rewrite LE; auto|]. split; [congruence|auto]. }
  set (hon := fun z : outcome => if bit C enc z jE then six else eight). set (hoff := fun z : outcome => if bit C enc z jE then six else Q2Qc (4 # 1)).
  apply (respond g d x us D K (ker true s0 x) k0 (ker true s0) (ker false off0) bw hon hoff); auto.
  - intro a. unfold K. destruct (String.string_dec x x); [|congruence]. rewrite Ek. auto.
  - apply (still_sum g D (ker false off0) x k0); auto.
  - intros b a _ Wa. apply (Sw true); auto.
  - intros b a _ Wa. apply (Sw false); auto.
  - intros b Rb. assert (X := play_high g (Cf true s0) u d jp jd ja enc us (1 / Qc_of_nat N) W (EIt true s0) (HC true s0 Fe) (HX true s0 Fe) (HNo true s0) (Hjp true s0) (Hjd true s0) (Hja true s0) Hdd (ER true s0) Hus Hts b hon). rewrite (De true s0) in X. apply X; auto. intros a Wa Nz. destruct (Ab true s0 b a Fe Wa Nz) as (-> & _). unfold hon. destruct (bit C enc (a d) jE), (bits a jp), (bits a jd); discriminate.
  - intros b Rb. assert (X := play_even g (Cf false off0) u d jp jd ja jE enc us (1 / Qc_of_nat N) W (EIt false off0) (HC false off0 Fo) (HX false off0 Fo) (HNo false off0) (Hjp false off0) (Hjd false off0) (Hja false off0) (HO false off0) Hdd (ER false off0) Hus Hts F).
    rewrite (De false off0) in X. assert (Eh : forall z, coin_h (Cf false off0) jE enc z = hoff z) by (intro z; unfold coin_h, hoff; rewrite Be; auto). assert (Y : pays g us D (with_rule (ker false off0) d b) <= score g D (with_rule (ker false off0) d b) d (coin_h (Cf false off0) jE enc) + Q2Qc (1 # 4)).
    { apply X; auto.
      - intros j v i E. destruct (Nat.eq_dec j 0) as [->|K0]; [rewrite N0 in E; discriminate|]. destruct (Nat.eq_dec j jt) as [->|K']; [rewrite Ntt in E; discriminate|]. rewrite No in E by auto. apply L1 in E. tauto.
      - intros j v i i' E. destruct (Nat.eq_dec j 0) as [->|K0]; [rewrite N0 in E; discriminate|]. destruct (Nat.eq_dec j jt) as [->|K']; [rewrite Ntt in E; discriminate|]. rewrite No in E by auto. apply L2 in E. tauto.
      - intros j v q E. destruct (Nat.eq_dec j 0) as [->|K0]; auto. destruct (Nat.eq_dec j jt) as [->|K']; auto. rewrite No in E by auto. eauto.
      - intros j Hj Fj. rewrite Len in Hj. rewrite Loc. auto.
      - intros be Hb. apply Carry in Hb. apply Ca. apply Hb.
      - rewrite Loc. auto. }
    unfold score in *. rewrite (total_ext D (nodes g) (fun a => _ * hoff (a d)) (fun a => weight (with_rule (ker false off0) d b) (nodes g) a * coin_h (Cf false off0) jE enc (a d))); [exact Y|]. intro a. rewrite Eh. auto.
  - intro z. unfold hon, hoff. destruct (bit C enc z jE); discriminate.
  - assert (X := play_low g (Cf true s0) u d jp jd ja enc us (1 / Qc_of_nat N) W (EIt true s0) (HC true s0 Fe) (HX true s0 Fe) (HNo true s0) (Hjp true s0) (Hjd true s0) (Hja true s0) Hdd (ER true s0) Hus Hts bw eight). rewrite (De true s0) in X. apply X; auto. intros a Wa Nz. destruct (Ab true s0 bw a Fe Wa Nz) as (-> & Bv & Cp & Nb). destruct (Bw a Nb) as [B1 B2]. destruct (Cg _ Cp) as [G1 G2]. rewrite B2, Bv. cbn [negb pay]. rewrite G1, G2. unfold bits at 2. rewrite LD, B1. rewrite eqb_reflx. apply Qcle_refl.
  - assert (X := play_low g (Cf false off0) u d jp jd ja enc us (1 / Qc_of_nat N) W (EIt false off0) (HC false off0 Fo) (HX false off0 Fo) (HNo false off0) (Hjp false off0) (Hjd false off0) (Hja false off0) Hdd (ER false off0) Hus Hts bw six). rewrite (De false off0) in X. apply X; auto. intros a Wa Nz. destruct (Ab false off0 bw a Fo Wa Nz) as (-> & Bv & _ & Nb). destruct (Bw a Nb) as [_ B2]. rewrite B2, Bv. apply Qcle_refl.
Qed.
Lemma respond_all : forall g d x y u us Z, wf_dag g -> (forall z, In z Z <-> (z = d \/ edge g z d) /\ z <> y) -> edge g y d -> reach g x y -> descends g u d -> dconn g Z y u -> (forall z, off g d x z \/ ~ off g d x z) ->
  NoDup us -> In u us -> incl us (nodes g) -> responsive g d x us.
Proof.
  intros g d x y u us Z W HZ Ey Rxy Du Cn Dec Nus Hu Ius. destruct (Dec u) as [Of|Of]; [|eapply respond_gated; eauto]. eapply respond_direct; eauto. intros ->. apply (proj2 W d). eapply descends_reach_trans; [exact Du|]. eapply reach_snoc; eauto.
Qed.
