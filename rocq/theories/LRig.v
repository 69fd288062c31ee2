(* Circuits that ask a decision to guess, and tell it whether it can. *)
From Coq Require Import String List Bool Arith QArith Qcanon Lia Permutation.
Import ListNotations.
From Verif Require Import MBase MGraph MPaths Spec LBase LGraph LDfs LPaths LActive LMoral LWire LTrek LGate LGateAll LSwitch.
Local Open Scope string_scope.
Local Open Scope list_scope.

Definition quiet (C : list (node * source)) (F : nat -> bool) : Prop := forall i, (length C <= i)%nat -> F i = false.
(* the gates at x are open *)
Definition free_at (C : list (node * source)) (x : node) : Prop := forall j s, nth_error C j = Some (x, s) -> s = Open.
Lemma laid_mono : forall g g' d u C F, laid g d u C F -> (forall a b, edge g a b -> edge g' a b) -> incl (nodes g) (nodes g') -> laid g' d u C F.
Proof.
  intros g g' d u C F [L1 L2 LC L3 L4] S I. constructor; auto.
  - intros j v i E. destruct (L1 _ _ _ E) as (K1 & K2 & K3). auto.
  - intros j v i i' E. destruct (L2 _ _ _ _ E) as ((K1 & K2) & (K3 & K4) & K5). auto.
  - intros j Hj. destruct (L3 j Hj). auto.
Qed.
Lemma more_quiet : forall C F C' F', more C F C' F' -> quiet C' F'.
Proof. intros C F C' F' M i Hi. apply (m_new _ _ _ _ M). assert (X := more_len _ _ _ _ M). lia. Qed.
Lemma more_nth : forall C F C' F' j, more C F C' F' -> (j < length C)%nat -> nth_error C' j = nth_error C j.
Proof. intros C F C' F' j M Hj. destruct (m_app _ _ _ _ M) as (K & ->). apply nth_error_app1; auto. Qed.
Lemma wire_on : forall g d u x y z, reach g y z -> wf_dag g -> forall C F j, laid g d u C F -> quiet C F -> (j < length C)%nat -> F j = false -> loc C j = y ->
  (forall v, descends g v y -> reach g v z -> v <> d /\ v <> u) -> free_at C x -> ~ descends g x y ->
  exists C' F' j', laid g d u C' F' /\ more C F C' F' /\ (j' < length C')%nat /\ F' j' = false /\ loc C' j' = z /\ (forall be, carries C' be -> be j' = be j) /\ free_at C' x.
Proof.
  intros g d u x y z R W. induction R as [y|y v z E R IH]; intros C F j L HF Hj Fj Ej Av Fx Nx.
  - exists C, F, j. split; auto. split; [apply more_refl; auto|]. repeat (split; auto).
  - destruct (Av v) as [Nd Nu]; [exists v; split; [auto|constructor]|auto|]. destruct (laid_gate g d u C F v (Copy j) L HF) as [L1 M1]; auto; [apply (proj1 W) in E; tauto|intro; contradiction|rewrite Ej; auto|].
    assert (Hn : nth_error (C ++ [(v, Copy j)]) (length C) = Some (v, Copy j)) by (rewrite nth_error_app2, Nat.sub_diag by auto; auto).
    destruct (IH (C ++ [(v, Copy j)]) F (length C)) as (C' & F' & j' & K1 & K2 & K3 & K4 & K5 & K6 & K7); auto.
    + intros i Hi. apply HF. rewrite app_length in Hi. lia.
    + rewrite app_length. cbn. lia.
    + apply (loc_at _ _ _ _ Hn).
    + intros w Hw Rw. apply Av; auto. destruct Hw as (w' & Hw & Hr). exists v. split; auto. econstructor; eauto.
    + intros i s K. destruct (Nat.lt_ge_cases i (length C)) as [H|H]; [rewrite nth_error_app1 in K by auto; eapply Fx; eauto|]. rewrite nth_error_app2 in K by auto. destruct (i - length C)%nat as [|k]; [|destruct k; discriminate]. injection K as Kx _. subst v. exfalso. apply Nx. exists x. split; [auto|constructor].
    + intro K. apply Nx. destruct K as (w & K & K'). exists v. split; auto. econstructor; eauto.
    + exists C', F', j'. split; auto. split; [apply (more_trans _ _ _ _ _ _ M1 K2)|]. split; auto. split; auto. split; auto. split; auto. intros be Hb. rewrite (K6 be Hb).
      assert (X := more_carries _ _ _ _ be K2 Hb (length C)). rewrite Hn in X. auto.
Qed.
Lemma gate_on : forall g d u x v C F, laid g d u C F -> quiet C F -> In v (nodes g) -> v <> u -> free_at C x ->
  exists C', laid g d u C' F /\ more C F C' F /\ nth_error C' (length C) = Some (v, Open) /\ F (length C) = false /\ length C' = S (length C) /\ free_at C' x.
Proof.
  intros g d u x v C F L HF Hv Nu Fx. destruct (laid_gate g d u C F v Open L HF) as [L1 M1]; auto. exists (C ++ [(v, Open)]). split; auto. split; auto. split; [rewrite nth_error_app2, Nat.sub_diag by auto; auto|]. split; [apply HF; auto|]. split; [rewrite app_length; cbn; lia|].
  intros i s K. destruct (Nat.lt_ge_cases i (length C)) as [H|H]; [rewrite nth_error_app1 in K by auto; eapply Fx; eauto|]. rewrite nth_error_app2 in K by auto. destruct (i - length C)%nat as [|k]; [|destruct k; discriminate]. injection K as _ <-. auto.
Qed.
(* gates at places that nothing leaves can be left open *)
Definition value_of (be : nat -> bool) (j : nat) (s : source) : bool := match s with Open => be j | Copy i => be i | Xor i i' => xorb (be i) (be i') | Const b => b end.
Lemma prune : forall g d u C F L, laid g d u C F -> (forall v w, In v L -> ~ edge g v w) -> ~ In d L ->
  exists C1 F1, laid g d u C1 F1 /\ length C1 = length C /\ (forall j, loc C1 j = loc C j) /\ (forall j v s, nth_error C j = Some (v, s) -> nth_error C1 j = Some (v, if in_dec String.string_dec v L then Open else s)) /\
    (forall j, F1 j = F j && negb (if in_dec String.string_dec (loc C j) L then true else false)) /\
    forall be, carries C1 be -> exists be', carries C be' /\ (forall j, ~ In (loc C j) L -> be' j = be j) /\ forall j v s, nth_error C j = Some (v, s) -> In v L -> be' j = value_of be j s.
Proof.
  intros g d u C F L [L1 L2 LC L3 L4] Out Nd. set (inL := fun v => if in_dec String.string_dec v L then true else false). set (cut := fun vs : node * source => (fst vs, if in_dec String.string_dec (fst vs) L then Open else snd vs)).
  exists (map cut C), (fun j => F j && negb (inL (loc C j))). assert (Nth : forall j v s, nth_error C j = Some (v, s) -> nth_error (map cut C) j = Some (v, if in_dec String.string_dec v L then Open else s)) by (intros j v s E; rewrite nth_error_map, E; auto).
  assert (Inv : forall j v s, nth_error (map cut C) j = Some (v, s) -> exists s', nth_error C j = Some (v, s') /\ (In v L -> s = Open) /\ (~ In v L -> s = s')).
  { intros j v s E. rewrite nth_error_map in E. destruct (nth_error C j) as [[w s']|]; [|discriminate]. cbn in E. injection E as -> E. exists s'. split; auto. destruct (in_dec String.string_dec v L); split; intro; auto; contradiction. }
  assert (Loc : forall j, loc (map cut C) j = loc C j). { intro j. destruct (nth_error C j) as [[v s]|] eqn:E; [rewrite (loc_at _ _ _ _ E); apply (loc_at _ _ _ _ (Nth _ _ _ E))|]. unfold loc. rewrite nth_error_map, E. auto. }
  assert (NL : forall i v, edge g (loc C i) v -> inL (loc C i) = false) by (intros i v E; unfold inL; destruct (in_dec String.string_dec (loc C i) L); auto; exfalso; eapply Out; eauto).
  assert (NL' : forall v, ~ In v L -> inL v = false) by (intros v N; unfold inL; destruct (in_dec String.string_dec v L); auto; contradiction).
  assert (Nop : forall j v s s', nth_error (map cut C) j = Some (v, s) -> s <> Open -> nth_error C j = Some (v, s') -> s = s' /\ ~ In v L).
  { intros j v s s' E No E'. destruct (Inv _ _ _ E) as (s2 & K1 & K2 & K3). rewrite K1 in E'. injection E' as ->. destruct (in_dec String.string_dec v L) as [i|i]; [exfalso; auto|auto]. }
  split; [|split; [apply map_length|split; [auto|split; [auto|split; [auto|]]]]].
  - constructor; try rewrite map_length.
    + intros j v i E. destruct (Inv _ _ _ E) as (s' & K1 & _). destruct (Nop _ _ _ _ E ltac:(discriminate) K1) as [K Nv]. subst s'. destruct (L1 _ _ _ K1) as (A1 & A2 & A3). rewrite Loc. split; auto. split; auto. rewrite (loc_at _ _ _ _ K1), (NL' v Nv), (NL _ _ A2), A3. auto.
    + intros j v i i' E. destruct (Inv _ _ _ E) as (s' & K1 & _). destruct (Nop _ _ _ _ E ltac:(discriminate) K1) as [K Nv]. subst s'. destruct (L2 _ _ _ _ K1) as ((A1 & A2) & (A3 & A4) & A5). rewrite !Loc. split; auto. split; auto. rewrite (loc_at _ _ _ _ K1), (NL' v Nv), (NL _ _ A2), (NL _ _ A4), A5. cbn [negb]. rewrite !andb_true_r. auto.
    + intros j v b E. destruct (Inv _ _ _ E) as (s' & K1 & _). destruct (Nop _ _ _ _ E ltac:(discriminate) K1) as [K Nv]. subst s'. rewrite (LC _ _ _ K1). auto.
    + intros j Hj. rewrite Loc. auto.
    + intros j s E. destruct (Inv _ _ _ E) as (s' & K1 & K2 & K3). rewrite (K3 Nd). eauto.
  - intros be Hb. exists (fun j => match nth_error C j with Some (v, s) => if in_dec String.string_dec v L then value_of be j s else be j | None => be j end).
    assert (Same : forall j, ~ In (loc C j) L -> match nth_error C j with Some (v, s) => if in_dec String.string_dec v L then value_of be j s else be j | None => be j end = be j).
    { intros j N. destruct (nth_error C j) as [[v s]|] eqn:E; auto. rewrite (loc_at _ _ _ _ E) in N. destruct (in_dec String.string_dec v L); auto. contradiction. }
    assert (SameE : forall j v, edge g (loc C j) v -> ~ In (loc C j) L) by (intros j v E K; eapply Out; eauto).
    split; [|split; [exact Same|]].
    + intro j. destruct (nth_error C j) as [[v s]|] eqn:E; auto. assert (X := Hb j). rewrite (Nth _ _ _ E) in X. destruct s as [|i|i i'|b]; auto.
      * destruct (L1 _ _ _ E) as (A1 & A2 & _). rewrite (Same i) by eauto. destruct (in_dec String.string_dec v L); cbn [value_of]; auto.
      * destruct (L2 _ _ _ _ E) as ((A1 & A2) & (A3 & A4) & _). rewrite (Same i), (Same i') by eauto. destruct (in_dec String.string_dec v L); cbn [value_of]; auto.
      * destruct (in_dec String.string_dec v L); cbn [value_of]; auto.
    + intros j v s E K. rewrite E. destruct (in_dec String.string_dec v L); [auto|contradiction].
Qed.

(* a switch at x, which the decision sees; the decision has a guess and can decline, and the utility sees both *)
Record rig (g : graph) (d x u : node) (C : list (node * source)) (F : nat -> bool) (jp jd ja jD jE jt jv : nat) : Prop := {
  r_laid : laid g d u C F;
  r_t : nth_error C jt = Some (x, Open);
  r_x : free_at C x;
  r_p : (jp < length C)%nat /\ edge g (loc C jp) u;
  r_d : (jd < length C)%nat /\ edge g (loc C jd) u;
  r_a : (ja < length C)%nat /\ edge g (loc C ja) u;
  r_D : (jD < length C)%nat /\ loc C jD = d;
  r_E : (jE < length C)%nat /\ loc C jE = d /\ jD <> jE;
  r_v : (jv < length C)%nat /\ edge g (loc C jv) d;
  r_carry : forall be, carries C be -> be jv = be jt /\ be ja = be jE }.
(* the switch itself is to be guessed *)
Lemma rig_direct : forall g d x y u, wf_dag g -> edge g y d -> reach g x y -> descends g u d -> off g d x u -> x <> u ->
  exists C jp jd ja jD jE jt jv, rig g d x u C (fun _ => false) jp jd ja jD jE jt jv /\ forall be, carries C be -> be jp = be jt /\ be jd = be jD.
Proof.
  intros g d x y u W Ey Rxy Du Of Nxu. set (F := fun _ : nat => false). assert (Nxd : x <> d) by (destruct Of; auto). assert (Rxd : reach g x d) by (eapply reach_snoc; eauto). assert (Ud : d <> u) by (intros <-; apply (proj2 W d); auto).
  assert (Hd : In d (nodes g)) by (apply (proj1 W) in Ey; tauto). assert (Cyc : forall v, descends g v d -> reach g v d -> False) by (intros v K1 K2; apply (proj2 W d); eapply descends_reach_trans; eauto).
  assert (Last : exists w, reach (mute g d) x w /\ edge g w u /\ w <> d).
  { clear - Of Nxu. induction Of as [a Na|a b c Na E K IH]; [congruence|]. destruct (String.string_dec b c) as [->|N]; [exists a; split; [constructor|auto]|]. destruct (IH N) as (w & R & E' & Nw). exists w. split; auto. econstructor; [apply mute_edge; split; eauto|auto]. }
  destruct Last as (w & Rw & Ew & Nwd). assert (Hx : In x (nodes g)) by (destruct Rxd as [|? v ? E _]; [congruence|apply (proj1 W) in E; tauto]). assert (Wm := mute_wf g d W).
  assert (L0 : laid (mute g d) d u [] F) by (constructor; try (intros [|j]; discriminate); intros j Hj; inversion Hj).
  assert (Q0 : quiet [] F) by (intros i _; auto). assert (X0 : free_at [] x) by (intros [|j] s E; discriminate).
  destruct (gate_on (mute g d) d u x x [] F L0 Q0 Hx Nxu X0) as (C1 & La1 & M1 & Nt & _ & Len1 & X1). cbn [length] in Nt, Len1. assert (Lt := loc_at _ _ _ _ Nt). assert (Ht : (0 < length C1)%nat) by lia.
  destruct (wire_on (mute g d) d u x x w Rw Wm C1 F 0%nat La1 (more_quiet _ _ _ _ M1) Ht eq_refl Lt) as (C2 & F2 & jp & La2 & M2 & Hp & _ & Lp & Cp & X2); auto.
  { intros v Dv Rv. split; intros ->.
    - inversion Rv as [|? z ? E _]; subst; [congruence|]. apply mute_edge in E. tauto.
    - assert (R : reach g u w) by (eapply reach_sub; [|exact Rv]; intros a b K; apply mute_edge in K; tauto). apply (proj2 W u). apply (descends_trans g u w u); [exists u; split; [auto|constructor]|exact R]. }
  { apply (proj2 Wm). }
  apply (laid_mono _ g) in La2; [|intros a b K; apply mute_edge in K; tauto|intros v K; exact K].
  assert (T2 : nth_error C2 0 = Some (x, Open)) by (rewrite (more_nth _ _ _ _ _ M2); auto). assert (Ht2 : (0 < length C2)%nat) by (apply nth_error_Some; congruence). assert (Q2 := more_quiet _ _ _ _ M2). assert (F20 : F2 0%nat = false) by (rewrite (m_old _ _ _ _ M2) by auto; auto).
  destruct (wire_on g d u x x y Rxy W C2 F2 0%nat La2 Q2 Ht2 F20 (loc_at _ _ _ _ T2)) as (C3 & F3 & jv & La3 & M3 & Hv & _ & Lv & Cv & X3); auto.
  { intros v _ Rv. assert (Rd : reach g v d) by (eapply reach_snoc; eauto). split; intros ->; [|apply (Cyc u Du Rd)]. destruct (reach_descends _ _ _ Rv) as [E|E]; [subst y; apply (proj2 W d); exists d; split; [auto|constructor]|]. apply (Cyc y E). apply reach_edge; auto. }
  { apply (proj2 W). }
  assert (Dx : ~ descends g x d) by (intro K; apply (Cyc x K Rxd)). destruct (descends_last g d u Du) as (w' & Rw' & Ew').
  assert (Avd : forall v, descends g v d -> reach g v w' -> v <> d /\ v <> u). { intros v Dv Rv. split; [intros ->; apply (proj2 W d); auto|]. intros ->. apply (proj2 W u). apply (descends_trans g u w' u); [exists u; split; [auto|constructor]|exact Rv]. }
  destruct (gate_on g d u x d C3 F3 La3 (more_quiet _ _ _ _ M3) Hd Ud X3) as (C4 & La4 & M4 & N4 & F4 & Len4 & X4).
  destruct (wire_on g d u x d w' Rw' W C4 F3 (length C3) La4 (more_quiet _ _ _ _ M4) ltac:(lia) F4 (loc_at _ _ _ _ N4) Avd X4 Dx) as (C5 & F5 & jd & La5 & M5 & Hjd & _ & Ld & Cd & X5).
  destruct (gate_on g d u x d C5 F5 La5 (more_quiet _ _ _ _ M5) Hd Ud X5) as (C6 & La6 & M6 & N6 & F6 & Len6 & X6).
  destruct (wire_on g d u x d w' Rw' W C6 F5 (length C5) La6 (more_quiet _ _ _ _ M6) ltac:(lia) F6 (loc_at _ _ _ _ N6) Avd X6 Dx) as (C7 & F7 & ja & La7 & M7 & Hja & _ & Lja & Ca & X7).
  assert (M57 := more_trans _ _ _ _ _ _ M6 M7). assert (M47 := more_trans _ _ _ _ _ _ M5 M57). assert (M37 := more_trans _ _ _ _ _ _ M4 M47). assert (M27 := more_trans _ _ _ _ _ _ M3 M37).
  assert (L57 := more_len _ _ _ _ M57). assert (L47 := more_len _ _ _ _ M47). assert (L37 := more_len _ _ _ _ M37). assert (L27 := more_len _ _ _ _ M27). assert (L67 := more_len _ _ _ _ M7). assert (L45 := more_len _ _ _ _ M5).
  exists C7, jp, jd, ja, (length C3), (length C5), 0%nat, jv. split; [constructor|].
  - destruct La7 as [A1 A2 A3 A4 A5]. constructor; auto; [intros j v i E; destruct (A1 _ _ _ E) as (? & ? & _); auto|intros j v i i' E; destruct (A2 _ _ _ _ E) as (? & ? & _); auto].
  - rewrite (more_nth _ _ _ _ _ M27); auto.
  - exact X7.
  - rewrite (more_loc _ _ _ _ _ M27 Hp), Lp. split; [lia|auto].
  - rewrite (more_loc _ _ _ _ _ M57 Hjd), Ld. split; [lia|auto].
  - rewrite Lja. auto.
  - rewrite (more_loc _ _ _ _ _ M47) by lia. split; [lia|apply (loc_at _ _ _ _ N4)].
  - rewrite (more_loc _ _ _ _ _ M7) by lia. split; [lia|]. split; [apply (loc_at _ _ _ _ N6)|lia].
  - rewrite (more_loc _ _ _ _ _ M37 Hv), Lv. split; [lia|auto].
  - intros be Hb. split; [apply (Cv be (more_carries _ _ _ _ be M37 Hb))|apply (Ca be Hb)].
  - intros be Hb. split; [apply (Cp be (more_carries _ _ _ _ be M27 Hb))|apply (Cd be (more_carries _ _ _ _ be M57 Hb))].
Qed.
(* what is to be guessed reaches the decision only if the switch is on *)
Lemma rig_gated : forall g d x y u Z, wf_dag g -> (forall z, In z Z <-> (z = d \/ edge g z d) /\ z <> y) -> edge g y d -> reach g x y -> descends g u d -> dconn g Z y u -> ~ off g d x u ->
  exists C F jp jd ja jD jE jt jv c jw S s0, rig g d x u C F jp jd ja jD jE jt jv /\ nth_error C 0 = Some (c, Open) /\ c <> d /\ c <> u /\ F 0%nat = false /\ jt <> 0%nat /\ F jt = false /\ fed g C c s0 /\ F jp = true /\ F jd = false /\ F ja = false /\
    (forall j, (j < length C)%nat -> F j = true -> loc C j <> d /\ ~ edge g (loc C j) d) /\
    (forall s, In s S -> (s < length C)%nat /\ edge g (loc C s) d) /\
    (x <> c -> (jw < length C)%nat /\ edge g (loc C jw) c) /\ (forall be, carries C be -> be jw = be jt) /\
    (forall be, carries (put C 0 (c, s0)) be -> be jp = xors be S /\ be jd = be jD).
Proof.
  intros g d x y u Z W HZ Ey Rxy Du Cn Of. destruct (gate_all g d x y u Z W HZ Ey Rxy Du Cn Of) as (c & L & Zl & HL & Hc & Hz & (_ & _ & p & Sp & Ac)). assert (Wm := silence_wf g L W).
  assert (Cyc : forall v, descends g v d -> reach g v d -> False) by (intros v K1 K2; apply (proj2 W d); eapply descends_reach_trans; eauto).
  destruct (proj1 (HL c) Hc) as (Rxc & Rcd & Ncd). assert (Rxd : reach g x d) by (eapply reach_trans; eauto). assert (Nxd : x <> d). { intros ->. destruct (reach_descends _ _ _ Rxy) as [E|E]; [subst y; apply (proj2 W d); exists d; split; [auto|constructor]|]. apply (Cyc y E). apply reach_edge; auto. }
  assert (HxL : In x L) by (apply HL; split; [constructor|auto]). assert (NdL : ~ In d L) by (rewrite HL; tauto).
  assert (Sub : forall a b, edge (silence g L) a b -> edge g a b) by (intros a b K; apply silence_edge in K; tauto).
  assert (NoL : forall a b, edge (silence g L) a b -> ~ In a L) by (intros a b K; apply silence_edge in K; tauto).
  assert (Ud : ~ reach g u d) by (intro K; apply (Cyc u); auto). assert (Dn : forall v, reach g d v -> ~ In v L). { intros v R K. apply HL in K. destruct K as (_ & K & N). destruct (reach_descends _ _ _ R) as [E|E]; [congruence|]. apply (Cyc v); auto. }
  assert (Dum : descends (silence g L) u d). { destruct Du as (w & E & R). exists w. split; [apply silence_edge; split; auto|]. assert (Rd : reach g d w) by (apply reach_edge; auto). clear E. induction R as [w|a b w E R IH]; [constructor|]. econstructor; [apply silence_edge; split; eauto|]. apply IH; auto. eapply reach_snoc; eauto. }
  assert (Ncm : ~ descends (silence g L) c d). { intros (w & E & R). apply (Dn c); auto. econstructor; [apply Sub; eauto|]. eapply reach_sub; [|exact R]. auto. }
  assert (Nm : ~ edge (silence g L) c d) by (rewrite silence_edge; tauto).
  assert (Hz' : forall z, In z Zl <-> (z = d \/ edge (silence g L) z d) /\ z <> c) by (intro z; rewrite Hz; split; [|tauto]; intros H; split; auto; intros ->; destruct H as [H|H]; auto).
  destruct (trek_full (silence g L) d c u Zl p Wm Nm Hz' Sp Ac Dum Ncm Ncd) as (C & F & jp & jd & jD & S & La & Hp & Ep & Hd & Ed & Fp & Fd & HD & LD & Un & H0 & L0 & U0 & Se & HF & Ca).
  destruct (nth_error C 0) as [[c' s0]|] eqn:E0; [|apply nth_error_None in E0; lia]. assert (c' = c) by (rewrite <- L0; symmetry; apply (loc_at _ _ _ _ E0)). subst c'.
  assert (Nuc : c <> u) by (intros ->; auto). assert (Nxu : x <> u) by (intros ->; auto).
  destruct (prune (silence g L) d u C F L La ltac:(intros v w K; rewrite silence_edge; tauto) NdL) as (C1 & F1 & La1 & Len1 & Loc1 & Nth1 & HF1 & Be1).
  assert (F1L : forall j, In (loc C j) L -> F1 j = false) by (intros j K; rewrite HF1; destruct (in_dec String.string_dec (loc C j) L); [apply andb_false_r|contradiction]).
  assert (F1N : forall j, ~ In (loc C j) L -> F1 j = F j) by (intros j K; rewrite HF1; destruct (in_dec String.string_dec (loc C j) L); [contradiction|apply andb_true_r]).
  assert (N10 : nth_error C1 0 = Some (c, Open)) by (rewrite (Nth1 _ _ _ E0); destruct (in_dec String.string_dec c L); [auto|contradiction]).
  assert (X1 : free_at C1 x). { intros j s K. assert (Hj : (j < length C)%nat) by (rewrite <- Len1; apply nth_error_Some; congruence). destruct (nth_error C j) as [[v s']|] eqn:Ej; [|apply nth_error_None in Ej; lia]. rewrite (Nth1 _ _ _ Ej) in K. injection K as -> <-. destruct (in_dec String.string_dec x L); [auto|contradiction]. }
  assert (Q1 : quiet C1 F1) by (intros i Hi; rewrite HF1, HF by lia; auto).
  apply (laid_mono _ g) in La1; [|auto|intros v K; exact K].
  assert (Hxn : In x (nodes g)) by (destruct Rxd as [|? v ? E _]; [congruence|apply (proj1 W) in E; tauto]). assert (Hdn : In d (nodes g)) by (apply (proj1 W) in Ey; tauto). assert (Ndu : d <> u) by (intros <-; apply (proj2 W d); auto).
  assert (Dx : ~ descends g x d) by (intro K; apply (Cyc x K Rxd)). assert (Dxc : ~ descends g x c) by (intro K; apply (proj2 W c); eapply descends_reach_trans; eauto).
  assert (Up : forall v z, reach g v z -> edge g z d -> v <> d /\ v <> u).
  { intros v z R E. assert (Rd : reach g v d) by (eapply reach_snoc; eauto). split; intros ->; auto. destruct (reach_descends _ _ _ R) as [K|K]; [subst z; apply (proj2 W d); exists d; split; [auto|constructor]|]. apply (Cyc z K). apply reach_edge; auto. }
  destruct (gate_on g d u x x C1 F1 La1 Q1 Hxn Nxu X1) as (C2 & La2 & M2 & N2 & F2t & Len2 & X2). set (jt := length C1) in *.
  assert (Y : exists C3 F3 jw, laid g d u C3 F3 /\ more C2 F1 C3 F3 /\ free_at C3 x /\ (forall be, carries C3 be -> be jw = be jt) /\ (x <> c -> (jw < length C3)%nat /\ edge g (loc C3 jw) c)).
  { destruct (String.string_dec x c) as [Exc|Nxc]; [exists C2, F1, jt; split; auto; split; [apply more_refl; apply (more_quiet _ _ _ _ M2)|]; split; auto; split; auto; intro; contradiction|].
    destruct (reach_descends _ _ _ Rxc) as [E|E]; [contradiction|]. destruct (descends_last _ _ _ E) as (w & Rw & Ew).
    destruct (wire_on g d u x x w Rw W C2 F1 jt La2 (more_quiet _ _ _ _ M2)) as (C3 & F3 & jw & K1 & K2 & K3 & K4 & K5 & K6 & K7); auto; [lia|apply (loc_at _ _ _ _ N2)| |apply (proj2 W)|exists C3, F3, jw; split; auto; split; auto; split; auto; split; auto; intros _; rewrite K5; auto].
    intros v _ R. assert (R' : reach g v c) by (eapply reach_snoc; eauto). assert (Rd : reach g v d) by (eapply reach_trans; eauto). split; intros ->; auto. apply (Dn c); auto. }
  destruct Y as (C3 & F3 & jw & La3 & M3 & X3 & Cw & Hw). assert (M13 := more_trans _ _ _ _ _ _ M2 M3). assert (L13 := more_len _ _ _ _ M13). assert (L23 := more_len _ _ _ _ M3). assert (H01 : (0 < length C1)%nat) by lia.
  destruct (reach_descends _ _ _ Rcd) as [E|E]; [contradiction|]. destruct (descends_last _ _ _ E) as (z & Rz & Ez). assert (F10 : F1 0%nat = false) by (apply F1L; rewrite L0; auto).
  destruct (wire_on g d u x c z Rz W C3 F3 0%nat La3 (more_quiet _ _ _ _ M3)) as (C4 & F4 & jz & La4 & M4 & Hjz & _ & Lz & Cz & X4); auto; [lia|rewrite (m_old _ _ _ _ M13 _ H01); auto|rewrite (more_loc _ _ _ _ _ M13 H01), Loc1; auto|intros v _ R; apply (Up v z R Ez)|].
  assert (M24 := more_trans _ _ _ _ _ _ M3 M4). assert (L24 := more_len _ _ _ _ M24). assert (Ht4 : nth_error C4 jt = Some (x, Open)) by (rewrite (more_nth _ _ _ _ _ M24) by lia; auto).
  destruct (wire_on g d u x x y Rxy W C4 F4 jt La4 (more_quiet _ _ _ _ M4)) as (C5 & F5 & jv & La5 & M5 & Hjv & _ & Lv & Cv & X5); auto; [lia|rewrite (m_old _ _ _ _ M24) by lia; auto|apply (loc_at _ _ _ _ Ht4)|intros v _ R; apply (Up v y R Ey)|apply (proj2 W)|].
  destruct (gate_on g d u x d C5 F5 La5 (more_quiet _ _ _ _ M5) Hdn Ndu X5) as (C6 & La6 & M6 & N6 & F6 & Len6 & X6).
  destruct (descends_last g d u Du) as (w' & Rw' & Ew').
  assert (Avd : forall v, descends g v d -> reach g v w' -> v <> d /\ v <> u). { intros v Dv Rv. split; [intros ->; apply (proj2 W d); auto|]. intros ->. apply (proj2 W u). apply (descends_trans g u w' u); [exists u; split; [auto|constructor]|exact Rv]. }
  destruct (wire_on g d u x d w' Rw' W C6 F5 (length C5) La6 (more_quiet _ _ _ _ M6) ltac:(lia) F6 (loc_at _ _ _ _ N6) Avd X6 Dx) as (C7 & F7 & ja & La7 & M7 & Hja & Fja & Lja & Cja & X7).
  assert (M57 := more_trans _ _ _ _ _ _ M6 M7). assert (M47 := more_trans _ _ _ _ _ _ M5 M57). assert (M37 := more_trans _ _ _ _ _ _ M4 M47). assert (M27 := more_trans _ _ _ _ _ _ M3 M37). assert (M17 := more_trans _ _ _ _ _ _ M2 M27).
  assert (L57 := more_len _ _ _ _ M57). assert (L47 := more_len _ _ _ _ M47). assert (L37 := more_len _ _ _ _ M37). assert (L27 := more_len _ _ _ _ M27). assert (L17 := more_len _ _ _ _ M17). assert (L67 := more_len _ _ _ _ M7). assert (L45 := more_len _ _ _ _ M5).
  assert (Old : forall j, (j < length C)%nat -> loc C7 j = loc C j) by (intros j Hj; rewrite (more_loc _ _ _ _ j M17) by lia; auto).
  assert (Ff : forall j, (j < length C)%nat -> F7 j = F1 j) by (intros j Hj; apply (m_old _ _ _ _ M17); lia).
  assert (N70 : nth_error C7 0 = Some (c, Open)) by (rewrite (more_nth _ _ _ _ _ M17) by lia; auto).
  exists C7, F7, jp, jd, ja, jD, (length C5), jt, jv, c, jw, (jz :: S), s0.
  split; [constructor|].
  { exact La7. }
  { rewrite (more_nth _ _ _ _ _ M27) by lia. auto. }
  { exact X7. }
  { rewrite Old by auto. split; [lia|auto]. }
  { rewrite Old by auto. split; [lia|auto]. }
  { rewrite Lja. auto. }
  { rewrite Old by auto. split; [lia|auto]. }
  { rewrite (more_loc _ _ _ _ _ M7) by lia. split; [lia|]. split; [apply (loc_at _ _ _ _ N6)|lia]. }
  { rewrite (more_loc _ _ _ _ _ M57 Hjv), Lv. split; [lia|auto]. }
  { intros be Hb. split; [apply (Cv be (more_carries _ _ _ _ be M57 Hb))|apply (Cja be Hb)]. }
  split; [auto|]. split; [auto|]. split; [auto|]. split; [rewrite Ff by auto; auto|]. split; [lia|]. split; [rewrite (m_old _ _ _ _ M27) by lia; auto|].
  split. { destruct La as [L1 L2 _ _ _]. destruct s0 as [|i|i i'|b]; cbn [fed]; auto; [destruct (L1 _ _ _ E0) as (K1 & K2 & _); rewrite Old by auto; split; [lia|auto]|destruct (L2 _ _ _ _ E0) as ((K1 & K2) & (K3 & K4) & _); rewrite !Old by auto; split; split; auto; lia]. }
  split; [rewrite Ff, F1N by eauto; auto|]. split; [rewrite Ff, F1N by eauto; auto|]. split; [exact Fja|].
  split; [|split; [|split; [|split]]].
  - intros j Hj Fj. destruct (Nat.lt_ge_cases j (length C)) as [H|H]; [|rewrite (m_new _ _ _ _ M17 j) in Fj by lia; discriminate]. rewrite Ff in Fj by auto. rewrite Old by auto. destruct (in_dec String.string_dec (loc C j) L) as [K|K]; [rewrite F1L in Fj by auto; discriminate|]. rewrite F1N in Fj by auto. destruct (Un j H Fj) as [K1 K2]. split; auto. intro E'. apply K2. split; [apply silence_edge; auto|]. intros E''. apply K. rewrite E''. auto.
  - intros s [<-|Hs]; [rewrite (more_loc _ _ _ _ _ M47 Hjz), Lz; split; [lia|auto]|]. destruct (Se s Hs) as [K1 K2]. rewrite Old by auto. split; [lia|auto].
  - intro N. destruct (Hw N) as [K1 K2]. rewrite (more_loc _ _ _ _ jw M37 K1). split; [lia|auto].
  - intros be Hb. apply Cw. apply (more_carries _ _ _ _ be M37 Hb).
  - intros be Hb. assert (Hb7 : carries C7 be) by exact (put_carries C7 0 c s0 be N70 Hb). destruct (Be1 be (more_carries _ _ _ _ be M17 Hb7)) as (be' & Hb' & Bn & Bl). destruct (Ca be' Hb') as [K1 K2].
    assert (B0 : be' 0%nat = be 0%nat). { rewrite (Bl _ _ _ E0 Hc). assert (Y := Hb 0%nat). rewrite put_same in Y by lia. destruct s0; cbn [value_of]; auto. }
    assert (BS : xors be' S = xors be S). { clear - Se Bn NoL. induction S as [|s S IH]; auto. cbn [xors fold_right] in *. rewrite (Bn s) by (destruct (Se s (or_introl eq_refl)) as [_ K]; eauto). f_equal. apply IH. intros; apply Se; right; auto. }
    split.
    + rewrite <- (Bn jp) by eauto. rewrite K1. cbn [xors fold_right]. fold (xors be' S). fold (xors be S). rewrite B0, BS. rewrite (Cz be (more_carries _ _ _ _ be M47 Hb7)). auto.
    + rewrite <- (Bn jd) by eauto. rewrite K2. apply Bn. rewrite LD. auto.
Qed.
