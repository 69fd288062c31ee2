(* Circuits with a switch: what the decision needs to know reaches it only if the switch is on. *)
From Coq Require Import String List Bool Arith QArith Qcanon Lia Permutation.
Import ListNotations.
From Verif Require Import MBase MGraph MPaths Spec LBase LGraph LDfs LPaths LActive LMoral LWire LTrek LGate.
Local Open Scope string_scope.
Local Open Scope list_scope.

Fixpoint put {A} (l : list A) (j : nat) (a : A) : list A :=
  match l, j with [], _ => [] | _ :: l', O => a :: l' | b :: l', S j' => b :: put l' j' a end.
Lemma put_length : forall A (l : list A) j a, length (put l j a) = length l.
Proof. intros A l. induction l as [|b l IH]; intros [|j] a; cbn; auto. Qed.
Lemma put_same : forall A (l : list A) j a, (j < length l)%nat -> nth_error (put l j a) j = Some a.
Proof. intros A l. induction l as [|b l IH]; intros [|j] a H; cbn in *; try lia; auto. apply IH. lia. Qed.
Lemma put_other : forall A (l : list A) j i a, i <> j -> nth_error (put l j a) i = nth_error l i.
Proof. intros A l. induction l as [|b l IH]; intros [|j] [|i] a H; cbn in *; auto; try lia. Qed.
Lemma put_loc : forall C j v s i, (j < length C)%nat -> loc C j = v -> loc (put C j (v, s)) i = loc C i.
Proof.
  intros C j v s i Hj L. unfold loc in *. destruct (Nat.eq_dec i j) as [->|N]; [rewrite put_same by auto; auto|rewrite put_other by auto; auto].
Qed.
Lemma put_carries : forall C j v s be, nth_error C j = Some (v, Open) -> carries (put C j (v, s)) be -> carries C be.
Proof.
  intros C j v s be E H i. specialize (H i). destruct (Nat.eq_dec i j) as [->|N]; [rewrite E; auto|]. rewrite put_other in H by auto. auto.
Qed.
Lemma laid_put : forall g d u C F j v b, laid g d u C F -> nth_error C j = Some (v, Open) -> v <> d -> F j = false -> laid g d u (put C j (v, Const b)) F.
Proof.
  intros g d u C F j v b [L1 L2 LC L3 L4] E Nd Fj. assert (Hj : (j < length C)%nat) by (apply nth_error_Some; congruence). assert (Lj := loc_at _ _ _ _ E).
  constructor; try rewrite put_length.
  - intros i w k K. destruct (Nat.eq_dec i j) as [->|N]; [rewrite put_same in K by auto; discriminate|]. rewrite put_other in K by auto. rewrite put_loc by auto. eauto.
  - intros i w k k' K. destruct (Nat.eq_dec i j) as [->|N]; [rewrite put_same in K by auto; discriminate|]. rewrite put_other in K by auto. rewrite !put_loc by auto. eauto.
  - intros i w c K. destruct (Nat.eq_dec i j) as [->|N]; auto. rewrite put_other in K by auto. eauto.
  - intros i Hi. rewrite put_loc by auto. auto.
  - intros i s K. destruct (Nat.eq_dec i j) as [->|N]; [rewrite put_same in K by auto; congruence|]. rewrite put_other in K by auto. eauto.
Qed.
Definition fed (g : graph) (C : list (node * source)) (v : node) (s : source) : Prop :=
  match s with Open | Const _ => True | Copy i => (i < length C)%nat /\ edge g (loc C i) v | Xor i i' => ((i < length C)%nat /\ edge g (loc C i) v) /\ ((i' < length C)%nat /\ edge g (loc C i') v) end.

Lemma around_c : forall g c a b, wf_dag g -> reach g a b -> ~ reach g a c -> reach (mute g c) a b.
Proof. intros g c a b W R N. induction R as [b|a v b E R IH]; [constructor|]. econstructor; [apply mute_edge; split; [eauto|intros ->; apply N; constructor]|]. apply IH. intro K. apply N. econstructor; eauto. Qed.
Lemma switch_circuit : forall g d x c u Zc, wf_dag g -> reach g x c -> reach g c d -> c <> d -> (forall z, In z Zc <-> (z = d \/ edge (mute g c) z d) /\ z <> c) -> dconn (mute g c) Zc c u -> descends g u d ->
  exists C F jp jd jD jt jw S s0, laid g d u C F /\ nth_error C 0 = Some (c, Open) /\ F 0%nat = false /\ nth_error C jt = Some (x, Open) /\ jt <> 0%nat /\ F jt = false /\ fed g C c s0 /\
    (jp < length C)%nat /\ edge g (loc C jp) u /\ (jd < length C)%nat /\ edge g (loc C jd) u /\ F jp = true /\ F jd = false /\ (jD < length C)%nat /\ loc C jD = d /\
    (forall j, (j < length C)%nat -> F j = true -> loc C j <> d /\ ~ edge g (loc C j) d) /\
    (forall s, In s S -> (s < length C)%nat /\ edge g (loc C s) d) /\
    (x <> c -> (jw < length C)%nat /\ edge g (loc C jw) c) /\ (forall be, carries C be -> be jw = be jt) /\
    (forall be, carries (put C 0 (c, s0)) be -> be jp = xors be S /\ be jd = be jD).
Proof.
  intros g d x c u Zc W Rxc Rcd Ncd Hz (_ & _ & p & Sp & Ac) Du. assert (Wm := mute_wf g c W). assert (Cyc : forall v, ~ (descends g v d /\ reach g v d)) by (intros v [K1 K2]; apply (proj2 W d); eapply descends_reach_trans; eauto).
  assert (Ud : ~ reach g u d) by (intro K; apply (Cyc u); auto). assert (Dc : ~ reach g d c). { intro K. destruct (reach_descends _ _ _ K) as [E|E]; [congruence|]. apply (Cyc c); auto. }
  assert (Dum : descends (mute g c) u d). { destruct Du as (w & E & R). exists w. split; [apply mute_edge; split; auto|]. apply around_c; auto. intro K. apply Dc. econstructor; eauto. }
  assert (Ncm : ~ descends (mute g c) c d). { intros (w & E & R). apply Dc. econstructor; [apply mute_edge in E; apply E|]. eapply reach_sub; [|exact R]. intros a b K. apply mute_edge in K. tauto. }
  assert (Nm : ~ edge (mute g c) c d) by (rewrite mute_edge; tauto).
  destruct (trek_full (mute g c) d c u Zc p Wm Nm Hz Sp Ac Dum Ncm Ncd) as (C & F & jp & jd & jD & S & [L1 L2 LC L3 L4] & Hp & Ep & Hd & Ed & Fp & Fd & HD & LD & Un & H0 & L0 & U0 & Se & HF & Ca).
  destruct (nth_error C 0) as [[c' s0]|] eqn:E0; [|apply nth_error_None in E0; lia]. assert (c' = c) by (rewrite <- L0; symmetry; apply (loc_at _ _ _ _ E0)). subst c'.
  set (C1 := put C 0 (c, Open)). set (F1 := fun j => F j && negb (j =? 0)%nat). assert (Len1 : length C1 = length C) by apply put_length. assert (Loc1 : forall i, loc C1 i = loc C i) by (intro i; apply put_loc; auto).
  assert (No0 : forall i v, edge (mute g c) (loc C i) v -> i <> 0%nat) by (intros i v E K; subst i; rewrite L0 in E; apply mute_edge in E; tauto). assert (F1n : forall i, i <> 0%nat -> F1 i = F i) by (intros i N; unfold F1; apply Nat.eqb_neq in N; rewrite N; apply andb_true_r).
  assert (Nth1 : forall j, j <> 0%nat -> nth_error C1 j = nth_error C j) by (intros j N; apply put_other; auto). assert (Nth0 : nth_error C1 0 = Some (c, Open)) by (apply put_same; auto).
  assert (Sub : forall a b, edge (mute g c) a b -> edge g a b) by (intros a b K; apply mute_edge in K; tauto).
  assert (La1 : laid g d u C1 F1).
  { constructor; rewrite ?Len1.
    - intros j v i K. assert (j <> 0%nat) by (intros ->; rewrite Nth0 in K; discriminate). rewrite Nth1 in K by auto. destruct (L1 _ _ _ K) as (K1 & K2 & K3). rewrite Loc1, !F1n by eauto. auto.
    - intros j v i i' K. assert (j <> 0%nat) by (intros ->; rewrite Nth0 in K; discriminate). rewrite Nth1 in K by auto. destruct (L2 _ _ _ _ K) as ((K1 & K2) & (K3 & K4) & K5). rewrite !Loc1, !F1n by eauto. auto.
    - intros j v b K. destruct (Nat.eq_dec j 0) as [->|N]; [rewrite Nth0 in K; discriminate|]. rewrite Nth1 in K by auto. unfold F1. rewrite (LC _ _ _ K). auto.
    - intros j Hj. rewrite Loc1. apply L3; auto.
    - intros j s K. destruct (Nat.eq_dec j 0) as [->|N]; [rewrite Nth0 in K; congruence|]. rewrite Nth1 in K by auto. eauto. }
  assert (HF1 : forall i, (length C1 <= i)%nat -> F1 i = false) by (intros i Hi; rewrite Len1 in Hi; unfold F1; rewrite HF by auto; auto).
  assert (Up : forall v, reach g v c -> v <> d /\ v <> u) by (intros v R; split; intros ->; [auto|apply Ud; eapply reach_trans; eauto]). destruct (Up x Rxc) as [Nxd Nxu].
  assert (Hcn : In c (nodes g)) by (destruct (L3 0%nat H0) as [K _]; rewrite L0 in K; exact K). assert (Hx : In x (nodes g)) by (destruct Rxc as [|? v ? E _]; [auto|apply (proj1 W) in E; tauto]).
  destruct (laid_gate g d u C1 F1 x Open La1 HF1) as [La2 M2]; auto. set (C2 := C1 ++ [(x, Open)]) in *. set (jt := length C1) in *. assert (Nt : nth_error C2 jt = Some (x, Open)) by (unfold C2, jt; rewrite nth_error_app2, Nat.sub_diag by auto; auto).
  assert (Len2 : length C2 = Datatypes.S jt) by (unfold C2; rewrite app_length; cbn; unfold jt; lia). assert (HF2 : forall i, (length C2 <= i)%nat -> F1 i = false) by (intros i Hi; apply HF1; fold jt; lia). assert (Ft : F1 jt = false) by (apply HF1; auto).
  assert (X : exists C3 F3 jw, laid g d u C3 F3 /\ more C2 F1 C3 F3 /\ (forall be, carries C3 be -> be jw = be jt) /\ (x <> c -> (jw < length C3)%nat /\ edge g (loc C3 jw) c)).
  { destruct (String.string_dec x c) as [Exc|Nxc]; [exists C2, F1, jt; split; auto; split; [apply more_refl; auto|]; split; auto; intro; contradiction|].
    destruct (reach_descends _ _ _ Rxc) as [E|E]; [contradiction|]. destruct (descends_last _ _ _ E) as (w & Rw & Ew).
    destruct (laid_wire g d u x w Rw W C2 F1 jt) as (C3 & F3 & jw & K1 & K2 & K3 & K4 & K5 & K6); auto; [rewrite Len2; lia|apply (loc_at _ _ _ _ Nt)|intros v _ R; apply Up; eapply reach_snoc; eauto|]. exists C3, F3, jw. split; auto. split; auto. split; auto. intros _. rewrite K5. auto. }
  destruct X as (C3 & F3 & jw & La3 & M3 & Cw & Hw). assert (HF3 : forall i, (length C3 <= i)%nat -> F3 i = false) by (intros i Hi; apply (m_new _ _ _ _ M3); assert (Y := more_len _ _ _ _ M3); lia).
  assert (M13 := more_trans _ _ _ _ _ _ M2 M3). assert (Len13 := more_len _ _ _ _ M13). assert (Len23 := more_len _ _ _ _ M3). assert (H01 : (0 < length C1)%nat) by lia.
  destruct (reach_descends _ _ _ Rcd) as [E|E]; [contradiction|]. destruct (descends_last _ _ _ E) as (z & Rz & Ez).
  destruct (laid_wire g d u c z Rz W C3 F3 0%nat) as (C4 & F4 & jz & La4 & M4 & Hjz & _ & Lz & Cz); auto; [lia|rewrite (m_old _ _ _ _ M13 _ H01); unfold F1; cbn; apply andb_false_r|rewrite (more_loc _ _ _ _ _ M13 H01), Loc1; auto| |].
  { intros v _ R. assert (Rd : reach g v d) by (eapply reach_snoc; eauto). split; intros ->; auto. apply (Cyc z). split; [|apply reach_edge; auto]. destruct (reach_descends _ _ _ R) as [K|K]; auto. subst z. exfalso. apply (proj2 W d). exists d. split; [auto|constructor]. }
  assert (M14 := more_trans _ _ _ _ _ _ M13 M4). assert (M24 := more_trans _ _ _ _ _ _ M3 M4). assert (Len14 := more_len _ _ _ _ M14). assert (Len24 := more_len _ _ _ _ M24). assert (Len34 := more_len _ _ _ _ M4).
  assert (Old : forall j, (j < length C)%nat -> loc C4 j = loc C j) by (intros j Hj; rewrite (more_loc _ _ _ _ j M14) by lia; auto). assert (Nthm : forall A B FA FB j, more A FA B FB -> (j < length A)%nat -> nth_error B j = nth_error A j) by (intros A B FA FB j M Hj; destruct (m_app _ _ _ _ M) as (K & ->); apply nth_error_app1; auto).
  assert (N40 : nth_error C4 0 = Some (c, Open)) by (rewrite (Nthm _ _ _ _ 0%nat M14) by lia; auto). assert (N4t : nth_error C4 jt = Some (x, Open)) by (rewrite (Nthm _ _ _ _ jt M24) by lia; auto).
  assert (Np : jp <> 0%nat) by eauto. assert (Nd : jd <> 0%nat) by eauto. assert (Ff : forall j, (j < length C)%nat -> F4 j = F1 j) by (intros j Hj; apply (m_old _ _ _ _ M14); lia).
  exists C4, F4, jp, jd, jD, jt, jw, (jz :: S), s0. rewrite !(Old jp), !(Old jd), !(Old jD) by auto. rewrite (Ff 0%nat), (Ff jp), (Ff jd), (F1n jp), (F1n jd) by auto. assert (Fjt : F4 jt = false) by (rewrite (m_old _ _ _ _ M24) by lia; auto).
  split; [auto|]. split; [auto|]. split; [unfold F1; cbn; apply andb_false_r|]. split; [auto|]. split; [lia|]. split; [auto|].
  split. { destruct s0 as [|i|i i'|b]; cbn [fed]; auto; [destruct (L1 _ _ _ E0) as (K1 & K2 & _); rewrite Old by auto; split; [lia|auto]|destruct (L2 _ _ _ _ E0) as ((K1 & K2) & (K3 & K4) & _); rewrite !Old by auto; split; split; auto; lia]. }
  split; [lia|]. split; [auto|]. split; [lia|]. split; [auto|]. split; [auto|]. split; [auto|]. split; [lia|]. split; [auto|].
  split; [|split; [|split; [|split]]].
  - intros j Hj Fj. destruct (Nat.lt_ge_cases j (length C)) as [H|H]; [|rewrite (m_new _ _ _ _ M14 j) in Fj by lia; discriminate]. rewrite Ff in Fj by auto. unfold F1 in Fj. apply andb_true_iff in Fj. destruct Fj as [Fj Nj]. apply negb_true_iff, Nat.eqb_neq in Nj. rewrite Old by auto. destruct (Un j H Fj) as [K1 K2]. split; auto. intro K.
    assert (Nc : loc C j <> c) by (intro Y; apply Nj; apply U0; auto). apply K2. split; auto. apply mute_edge; auto.
  - intros s [<-|Hs]; [rewrite Lz; auto|]. destruct (Se s Hs) as [K1 K2]. rewrite Old by auto. split; [lia|auto].
  - intro N. destruct (Hw N) as [K1 K2]. rewrite (more_loc _ _ _ _ jw M4 K1). split; [lia|auto].
  - intros be Hb. apply Cw. apply (more_carries _ _ _ _ be M4 Hb).
  - intros be Hb. assert (Hb4 : carries C4 be) by exact (put_carries C4 0 c s0 be N40 Hb).
    assert (Hb0 : carries C be). { intro j. destruct (nth_error C j) as [[v s]|] eqn:Ej; auto. assert (Hj : (j < length C)%nat) by (apply nth_error_Some; congruence). assert (Y := Hb j). destruct (Nat.eq_dec j 0) as [->|N].
      - rewrite put_same in Y by lia. rewrite E0 in Ej. injection Ej as <- <-. exact Y.
      - rewrite put_other in Y by auto. rewrite (Nthm _ _ _ _ j M14), Nth1, Ej in Y by (auto; lia). exact Y. }
    destruct (Ca be Hb0) as [K1 K2]. split; auto. rewrite K1. cbn [xors fold_right]. rewrite (Cz be Hb4). auto.
Qed.
