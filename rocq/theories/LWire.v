(* Circuits of bits laid out in a graph, and the conditional probabilities that make its variables carry them. *)
From Coq Require Import String List Bool Arith QArith Qcanon Lia Permutation FinFun.
Import ListNotations.
From Verif Require Import MBase MGraph MMacid MCpd MNet MProb MQuery Spec LBase LGraph LQc LSum LBayes LQcArith.
Local Open Scope string_scope.
Local Open Scope list_scope.
Local Open Scope Qc_scope.

(* ---- lists of bits ---- *)
Fixpoint vecs (k : nat) : list (list bool) :=
  match k with O => [[]] | S k' => map (cons true) (vecs k') ++ map (cons false) (vecs k') end.
Lemma vecs_in : forall k l, In l (vecs k) <-> length l = k.
Proof.
  induction k as [|k IH]; intro l; cbn [vecs].
  - split; [intros [<-|[]]; auto|]. destruct l; [left; auto|discriminate].
  - rewrite in_app_iff. split.
    + intros [H|H]; apply in_map_iff in H; destruct H as (l' & <- & H); apply IH in H; cbn; auto.
    + destruct l as [|b l]; [discriminate|]. intro H. injection H as H. apply IH in H. destruct b; [left|right]; apply in_map; auto.
Qed.
Lemma vecs_nodup : forall k, NoDup (vecs k).
Proof.
  induction k as [|k IH]; cbn [vecs]; [constructor; [tauto|constructor]|]. assert (J : forall b : bool, Injective (cons b)) by (intros b x y E; congruence).
  apply NoDup_app'; [apply Injective_map_NoDup; auto|apply Injective_map_NoDup; auto|].
  intros x H1 H2. apply in_map_iff in H1. apply in_map_iff in H2. destruct H1 as (a & <- & _). destruct H2 as (b & E & _). discriminate.
Qed.
(* the product of a function of the position and the bit *)
Fixpoint prodl (f : nat -> bool -> Qc) (l : list bool) : Qc :=
  match l with [] => 1 | b :: l' => f O b * prodl (fun j => f (S j)) l' end.
Lemma prodl_sum : forall k f, (forall j, f j true + f j false = 1) -> qsum (map (prodl f) (vecs k)) = 1.
Proof.
  induction k as [|k IH]; intros f H; cbn [vecs]; [cbn; ring|]. rewrite map_app, !map_map, qsum_app. cbn [prodl].
  rewrite !qsum_scale, IH by (intro j; apply H). transitivity (f O true + f O false); [ring|apply H].
Qed.
Lemma prodl_nonneg : forall l f, (forall j b, 0 <= f j b) -> 0 <= prodl f l.
Proof.
  induction l as [|b l IH]; intros f H; cbn [prodl]; [discriminate|]. assert (A := H O b). assert (B : 0 <= prodl (fun j => f (S j)) l) by (apply IH; auto). replace 0 with (0 * prodl (fun j => f (S j)) l) by ring. apply Qcmult_le_compat_r; auto.
Qed.
Lemma prodl_nonzero : forall l f, prodl f l <> 0 -> forall j, (j < length l)%nat -> f j (nth j l false) <> 0.
Proof.
  induction l as [|b l IH]; intros f H j Hj; [inversion Hj|]. cbn [prodl] in H. destruct j as [|j]; cbn [nth].
  - intro E. apply H. rewrite E. ring.
  - apply (IH (fun j => f (S j))); [intro E; apply H; rewrite E; ring|cbn in Hj; lia].
Qed.
Lemma prodl_ext : forall l f h, (forall j b, (j < length l)%nat -> f j b = h j b) -> prodl f l = prodl h l.
Proof. induction l as [|b l IH]; intros f h H; cbn [prodl]; auto. rewrite (H O) by (cbn; lia). f_equal. apply IH. intros j c Hj. apply H. cbn; lia. Qed.
(* change the bits at the positions of m *)
Fixpoint flipl (m : nat -> bool) (l : list bool) : list bool :=
  match l with [] => [] | b :: l' => xorb b (m O) :: flipl (fun j => m (S j)) l' end.
Lemma flipl_length : forall l m, length (flipl m l) = length l.
Proof. induction l as [|b l IH]; intro m; cbn; auto. Qed.
Lemma flipl_twice : forall l m, flipl m (flipl m l) = l.
Proof. induction l as [|b l IH]; intro m; cbn; auto. rewrite IH. f_equal. destruct b, (m O); auto. Qed.
Lemma flipl_nth : forall l m j, (j < length l)%nat -> nth j (flipl m l) false = xorb (nth j l false) (m j).
Proof. induction l as [|b l IH]; intros m j Hj; [inversion Hj|]. destruct j as [|j]; cbn; auto. apply (IH (fun j => m (S j))). cbn in Hj; lia. Qed.
Lemma flipl_none : forall l m, (forall j, m j = false) -> flipl m l = l.
Proof. induction l as [|b l IH]; intros m H; cbn; auto. rewrite H, IH by auto. f_equal. destruct b; auto. Qed.
Lemma prodl_flip : forall l m f h, (forall j b, (j < length l)%nat -> f j (xorb b (m j)) = h j b) -> prodl f (flipl m l) = prodl h l.
Proof.
  induction l as [|b l IH]; intros m f h H; cbn [prodl flipl]; auto. rewrite H by (cbn; lia). f_equal. apply (IH (fun j => m (S j))). intros j c Hj. apply (H (S j)). cbn; lia.
Qed.
Lemma flipl_perm : forall k m, Permutation (map (flipl m) (vecs k)) (vecs k).
Proof.
  intros k m. apply NoDup_Permutation.
  - apply Injective_map_NoDup; [|apply vecs_nodup]. intros x y E. rewrite <- (flipl_twice x m), E. apply flipl_twice.
  - apply vecs_nodup.
  - intro l. rewrite in_map_iff. split.
    + intros (l' & <- & H). apply vecs_in. rewrite flipl_length. apply vecs_in; auto.
    + intro H. exists (flipl m l). split; [apply flipl_twice|]. apply vecs_in. rewrite flipl_length. apply vecs_in; auto.
Qed.

(* ---- renaming the values of the variables ---- *)
Lemma total_relabel : forall D (s : node -> outcome -> outcome) vs f a, NoDup vs -> ext f -> (forall v, In v vs -> Permutation (map (s v) (D v)) (D v)) ->
  total D vs f a = total D vs (fun b => f (fun v => if in_dec String.string_dec v vs then s v (b v) else b v)) a.
Proof.
  intros D s vs. induction vs as [|v vs IH]; intros f a N E P; cbn [total].
  - apply E. intros v _. reflexivity.
  - inversion N as [|? ? N1 N2]; subst. transitivity (qsum (map (fun x => total D vs f (upd a v x)) (map (s v) (D v)))).
    + apply qsum_perm. apply Permutation_map. apply Permutation_sym. apply P. left; auto.
    + rewrite map_map. apply qsum_ext. intros x Hx. rewrite (IH f) by (auto; intros w Hw; apply P; right; auto).
      assert (E' : ext (fun b => f (fun w => if in_dec String.string_dec w vs then s w (b w) else b w))) by (intros b c Hbc; apply E; intros w _; destruct (in_dec String.string_dec w vs); rewrite Hbc; auto).
      assert (R : forall b c, (forall w, w <> v -> b w = c w) -> b v = s v x -> c v = x -> total D vs (fun b => f (fun w => if in_dec String.string_dec w vs then s w (b w) else b w)) b = total D vs (fun b => f (fun w => if in_dec String.string_dec w (v :: vs) then s w (b w) else b w)) c).
      { intros b c H1 H2 H3. transitivity (total D vs (fun b' => f (fun w => if String.string_dec w v then s v x else if in_dec String.string_dec w vs then s w (b' w) else b' w)) b).
        - apply total_ext_in. intros b' Hb1 Hb2. apply E. intros w _. destruct (String.string_dec w v) as [->|Nw]; auto. destruct (in_dec String.string_dec v vs); [contradiction|]. rewrite Hb2; auto.
        - transitivity (total D vs (fun b' => f (fun w => if String.string_dec w v then s v x else if in_dec String.string_dec w vs then s w (b' w) else b' w)) c).
          + set (F := fun b' : asg => f (fun w => if String.string_dec w v then s v x else if in_dec String.string_dec w vs then s w (b' w) else b' w)). assert (Fo : on (fun w => w <> v) F) by (intros b1 c1 Hb; apply E; intros w _; destruct (String.string_dec w v) as [|Nw]; auto; rewrite Hb by auto; auto).
            apply (total_on D vs _ F Fo). intros w [Hw _]. auto.
          + apply total_ext_in. intros b' Hb1 Hb2. apply E. intros w _. destruct (String.string_dec w v) as [->|Nw].
            * destruct (in_dec String.string_dec v (v :: vs)) as [_|K]; [|exfalso; apply K; left; auto]. rewrite Hb2 by auto. rewrite H3. auto.
            * destruct (in_dec String.string_dec w vs) as [i|i], (in_dec String.string_dec w (v :: vs)) as [j|j]; auto; [exfalso; apply j; right; auto|]. destruct j as [j|j]; [congruence|contradiction]. }
      apply R; [|apply upd_same|apply upd_same]. intros w Nw. rewrite !upd_other by auto. auto.
Qed.

(* ---- circuits ---- *)
(* where the bit of a gate comes from: nowhere, another gate, or two gates of which it is the difference; or it is fixed *)
Inductive source : Type := Open | Copy (i : nat) | Xor (i j : nat) | Const (b : bool).
Definition half : Qc := Q2Qc (1 # 2).
Section Wire.
  Variables (h : graph) (C : list (node * source)) (u : node) (jp jd : nat) (enc : list bool -> Qc).
  Hypothesis W : wf_dag h.
  Definition loc (i : nat) : node := match nth_error C i with Some (w, _) => w | None => "" end.
  Hypothesis EI : forall l l', length l = length C -> length l' = length C -> enc l = enc l' -> l = l'.
  Hypothesis HC : forall j v i, nth_error C j = Some (v, Copy i) -> (i < length C)%nat /\ edge h (loc i) v.
  Hypothesis HX : forall j v i i', nth_error C j = Some (v, Xor i i') -> ((i < length C)%nat /\ edge h (loc i) v) /\ ((i' < length C)%nat /\ edge h (loc i') v).
  Hypothesis HN : forall j, (j < length C)%nat -> In (loc j) (nodes h) /\ loc j <> u.
  Hypothesis Hjp : (jp < length C)%nat /\ edge h (loc jp) u.
  Hypothesis Hjd : (jd < length C)%nat /\ edge h (loc jd) u.
  Definition codes : list outcome := map enc (vecs (length C)).
  Definition decode (q : outcome) : list bool := match List.find (fun l => oeqb (enc l) q) (vecs (length C)) with Some l => l | None => [] end.
  Definition bit (q : outcome) (j : nat) : bool := nth j (decode q) false.
  Lemma decode_enc : forall l, length l = length C -> decode (enc l) = l.
  Proof.
    intros l H. unfold decode. destruct (List.find _ _) as [l'|] eqn:E.
    - apply find_some in E. destruct E as [E1 E2]. apply vecs_in in E1. apply oeqb_iff in E2. apply EI; auto.
    - assert (X := find_none _ _ E l). cbv beta in X. rewrite (proj2 (oeqb_iff _ _) eq_refl) in X. discriminate X. apply vecs_in; auto.
  Qed.
  Lemma code_decode : forall q, In q codes -> enc (decode q) = q /\ length (decode q) = length C.
  Proof. intros q H. unfold codes in H. apply in_map_iff in H. destruct H as (l & <- & H). apply vecs_in in H. rewrite decode_enc by auto. auto. Qed.
  Lemma codes_nodup : NoDup codes.
  Proof.
    unfold codes. assert (X : forall L, (forall l, In l L -> length l = length C) -> NoDup L -> NoDup (map enc L)).
    { induction L as [|l L IH]; intros H N; [constructor|]. inversion N; subst. cbn. constructor; [|apply IH; auto; intros; apply H; right; auto]. intro K. apply in_map_iff in K. destruct K as (l' & E & K). apply EI in E; [subst; contradiction|apply H; right; auto|apply H; left; auto]. }
    apply X; [intros l; apply vecs_in|apply vecs_nodup].
  Qed.
  Definition Dm (v : node) : list outcome := if String.string_dec v u then [0; 1] else codes.
  Lemma Dm_nodup : forall v, NoDup (Dm v).
  Proof. intro v. unfold Dm. destruct (String.string_dec v u); [|apply codes_nodup]. constructor; [intros [E|[]]; discriminate|]. constructor; [tauto|constructor]. Qed.
  (* the bit that gate j at v must have *)
  Definition asked (a : asg) (v : node) (j : nat) : option bool :=
    match nth_error C j with
    | Some (w, Copy i) => if String.string_dec w v then Some (bit (a (loc i)) i) else None
    | Some (w, Xor i i') => if String.string_dec w v then Some (xorb (bit (a (loc i)) i) (bit (a (loc i')) i')) else None
    | Some (w, Const b) => if String.string_dec w v then Some b else None
    | _ => None
    end.
  Definition fac (o : option bool) (b : bool) : Qc := match o with None => half | Some c => if Bool.eqb b c then 1 else 0 end.
  Definition won (a : asg) : Qc := if Bool.eqb (bit (a (loc jp)) jp) (bit (a (loc jd)) jd) then 1 else 0.
  Definition kern (v : node) (a : asg) : Qc :=
    if String.string_dec v u then (if Qc_eq_dec (a u) (won a) then 1 else 0) else prodl (fun j => fac (asked a v j)) (decode (a v)).
  Lemma asked_local : forall a a' v j, (forall p, edge h p v -> a p = a' p) -> asked a v j = asked a' v j.
  Proof.
    intros a a' v j H. unfold asked. destruct (nth_error C j) as [[w [|i|i i'|c]]|] eqn:E; auto; destruct (String.string_dec w v) as [->|]; auto.
    - apply HC in E. rewrite H by tauto. auto.
    - apply HX in E. rewrite !H by tauto. auto.
  Qed.
  Lemma won_local : forall a a', (forall p, edge h p u -> a p = a' p) -> won a = won a'.
  Proof. intros a a' H. unfold won. rewrite !H; auto; [apply Hjd|apply Hjp]. Qed.
  Lemma fac_one : forall o, fac o true + fac o false = 1.
  Proof. intros [[]|]; apply Qc_is_canon; reflexivity. Qed.
  Lemma fac_nonneg : forall o b, 0 <= fac o b.
  Proof. intros [c|] b; cbn; [destruct (Bool.eqb b c)|]; discriminate. Qed.
  Lemma self_free : forall v, ~ edge h v v.
  Proof. intros v E. apply (proj2 W v). exists v. split; [auto|constructor]. Qed.
  Lemma kern_cond : cond h Dm kern.
  Proof.
    constructor.
    - intros v Hv a a' H. unfold kern. destruct (String.string_dec v u) as [->|N].
      + rewrite (H u) by (left; auto). rewrite (won_local a a'); auto. intros p Hp. apply H. right; auto.
      + rewrite (H v) by (left; auto). apply prodl_ext. intros j b _. rewrite (asked_local a a' v j); auto. intros p Hp. apply H. right; auto.
    - intros v a Hv _. unfold kern, Dm. destruct (String.string_dec v u) as [->|N].
      + assert (X : forall x, won (upd a u x) = won a) by (intro x; apply won_local; intros p Hp; apply upd_other; intros ->; exact (self_free u Hp)).
        cbn [map]. rewrite !X, !upd_same. unfold won. destruct (Bool.eqb _ _); cbn; repeat destruct (Qc_eq_dec _ _); try (exfalso; congruence); try (apply Qc_is_canon; reflexivity); discriminate.
      + unfold codes. rewrite map_map. rewrite <- (prodl_sum (length C) (fun j => fac (asked a v j))) by (intro j; apply fac_one). apply qsum_ext. intros l Hl. rewrite upd_same. apply vecs_in in Hl. rewrite decode_enc by auto.
        apply prodl_ext. intros j b _. rewrite (asked_local (upd a v (enc l)) a v j); auto. intros p Hp. apply upd_other. intros ->. exact (self_free v Hp).
    - intros v a Hv. unfold kern. destruct (String.string_dec v u); [destruct (Qc_eq_dec _ _); discriminate|]. apply prodl_nonneg. intros; apply fac_nonneg.
  Qed.
  (* the bits satisfy the equations of the gates *)
  Definition carries (be : nat -> bool) : Prop :=
    forall j, match nth_error C j with Some (_, Copy i) => be j = be i | Some (_, Xor i i') => be j = xorb (be i) (be i') | Some (_, Const b) => be j = b | _ => True end.
  Lemma kern_carries : forall a, (forall v, In v (nodes h) -> In (a v) (Dm v)) ->
    (forall v, In v (nodes h) -> (exists j i, nth_error C j = Some (v, i) /\ i <> Open) -> kern v a <> 0) -> carries (fun j => bit (a (loc j)) j).
  Proof.
    intros a Wa Nz j. destruct (nth_error C j) as [[v s]|] eqn:E; [|auto].
    assert (Hj : (j < length C)%nat) by (apply nth_error_Some; congruence). assert (L : loc j = v) by (unfold loc; rewrite E; auto). destruct (HN j Hj) as [N1 N2]. rewrite L in *.
    assert (G : s <> Open -> fac (asked a v j) (bit (a v) j) <> 0).
    { intro Hs. assert (X : kern v a <> 0) by (apply Nz; eauto). unfold kern in X. destruct (String.string_dec v u); [contradiction|]. apply (prodl_nonzero _ (fun j => fac (asked a v j)) X j).
      assert (Wv := Wa v N1). unfold Dm in Wv. destruct (String.string_dec v u); [contradiction|]. apply code_decode in Wv. lia. }
    unfold asked in G. rewrite E in G. destruct s as [|i|i i'|c]; auto; destruct (String.string_dec v v) as [_|Nv]; try congruence; cbn [fac] in G.
    - specialize (G ltac:(discriminate)). destruct (Bool.eqb _ _) eqn:B; [|congruence]. apply eqb_prop in B. auto.
    - specialize (G ltac:(discriminate)). destruct (Bool.eqb _ _) eqn:B; [|congruence]. apply eqb_prop in B. auto.
    - specialize (G ltac:(discriminate)). destruct (Bool.eqb _ _) eqn:B; [|congruence]. apply eqb_prop in B. auto.
  Qed.

  (* ---- one decision ---- *)
  Variables (d : node) (us : list node) (top : Qc).
  Hypothesis Hd : In d (nodes h) /\ d <> u.
  Hypothesis HO : forall j s, nth_error C j = Some (d, s) -> s = Open.
  Hypothesis ER : forall l, length l = length C -> 0 <= enc l /\ enc l <= top.
  Hypothesis Hus : NoDup us /\ In u us /\ incl us (nodes h).
  Hypothesis Htop : Qc_of_nat (length us) * top <= Q2Qc (1 # 4).
  Definition run (b : node -> asg -> Qc) (v : node) (a : asg) : Qc := if String.string_dec v d then b d a else kern v a.
  Definition payoff (b : node -> asg -> Qc) : Qc := total Dm (nodes h) (fun a => weight (run b) (nodes h) a * qsum (map a us)) (fun _ => 0).
  Definition ruled (sees : node -> Prop) (b : node -> asg -> Qc) : Prop :=
    (forall a a', a d = a' d -> (forall p, sees p -> a p = a' p) -> b d a = b d a') /\ (forall a, 0 <= b d a) /\
    (forall a, (forall p, sees p -> In (a p) (Dm p)) -> qsum (map (fun x => b d (upd a d x)) (Dm d)) = 1).
  Lemma run_cond : forall (sees : node -> Prop) b, (forall p, sees p -> edge h p d) -> ruled sees b -> cond h Dm (run b).
  Proof.
    intros sees b Sp (R1 & R2 & R3). destruct kern_cond as [K1 K2 K3]. constructor.
    - intros v Hv a a' H. unfold run. destruct (String.string_dec v d) as [->|N]; [|apply K1; auto]. apply R1; [apply H; left; auto|]. intros p Hp. apply H. right; auto.
    - intros v a Hv H. unfold run. destruct (String.string_dec v d) as [->|N]; [|apply K2; auto]. apply R3. intros p Hp. apply H; auto.
    - intros v a Hv. unfold run. destruct (String.string_dec v d) as [->|N]; [apply R2|apply K3; auto].
  Qed.
  Lemma run_total : forall (sees : node -> Prop) b, (forall p, sees p -> edge h p d) -> ruled sees b -> total Dm (nodes h) (weight (run b) (nodes h)) (fun _ => 0) = 1.
  Proof.
    intros sees b Sp R. assert (C0 := run_cond sees b Sp R). rewrite (total_ext Dm (nodes h) _ (fun a => weight (run b) (nodes h) a * 1)) by (intro; ring).
    rewrite (barren h Dm W (run b) [] (fun _ => 1) (fun _ => 0) C0); [cbn; ring|intros v []|constructor|intros x v _ []|intros a a' _; auto].
  Qed.
  Lemma us_split : exists us', Permutation us (u :: us') /\ incl us' (nodes h) /\ ~ In u us' /\ (length us' <= length us)%nat.
  Proof.
    destruct Hus as (N & I & L). destruct (in_split _ _ I) as (l1 & l2 & E). exists (l1 ++ l2). rewrite E in *. split; [apply Permutation_sym, Permutation_middle|].
    split; [intros v Hv; apply L; apply in_app_or in Hv; apply in_or_app; destruct Hv; [left|right; right]; auto|]. split; [apply NoDup_remove_2; auto|]. rewrite !app_length. cbn. lia.
  Qed.
  Lemma rest_bound : forall us' a, (length us' <= length us)%nat -> incl us' (nodes h) -> ~ In u us' -> (forall v, In v (nodes h) -> In (a v) (Dm v)) -> 0 <= qsum (map a us') /\ qsum (map a us') <= Q2Qc (1 # 4).
  Proof.
    intros us' a Le I N Wa. assert (B : forall v, In v us' -> 0 <= a v /\ a v <= top).
    { intros v Hv. assert (Wv := Wa v (I v Hv)). unfold Dm in Wv. destruct (String.string_dec v u) as [->|_]; [contradiction|]. unfold codes in Wv. apply in_map_iff in Wv. destruct Wv as (l & <- & Hl). apply ER. apply vecs_in; auto. }
    split.
    - rewrite <- (qsum_zero node us'). apply qsum_le. intros v Hv. apply B; auto.
    - apply Qcle_trans with (Qc_of_nat (length us') * top).
      + rewrite <- qsum_const. apply qsum_le. intros v Hv. apply B; auto.
      + apply Qcle_trans with (Qc_of_nat (length us) * top); [|exact Htop]. assert (T0 : 0 <= top). { assert (X := ER (repeat true (length C)) (repeat_length _ _)). apply Qcle_trans with (enc (repeat true (length C))); tauto. }
        apply Qcmult_le_compat_r; auto. clear - Le. induction Le as [|k Le IH]; [apply Qcle_refl|]. rewrite Qc_of_nat_S. apply Qcle_trans with (Qc_of_nat k); auto. qclra.
  Qed.
  (* a choice that always matches the other bit *)
  Lemma always_wins : forall (sees : node -> Prop) b, (forall p, sees p -> edge h p d) -> ruled sees b ->
    (forall a, (forall v, In v (nodes h) -> In (a v) (Dm v)) -> carries (fun j => bit (a (loc j)) j) -> b d a <> 0 -> bit (a (loc jp)) jp = bit (a (loc jd)) jd) -> 1 <= payoff b.
  Proof.
    intros sees b Sp R Win. destruct us_split as (us' & P & I & N & Le). unfold payoff. rewrite <- (run_total sees b Sp R). assert (C0 := run_cond sees b Sp R). apply total_le. intros a Wa _.
    assert (Wn : 0 <= weight (run b) (nodes h) a) by (apply (weight_nonneg h Dm); auto; intros v Hv; auto). rewrite (qsum_perm (map a us) (map a (u :: us'))) by (apply Permutation_map; auto). cbn [map]. change (qsum (a u :: map a us')) with (a u + qsum (map a us')).
    destruct (rest_bound us' a Le I N Wa) as [B _]. destruct (Qc_eq_dec (weight (run b) (nodes h) a) 0) as [E|E]; [rewrite E; qclra|].
    assert (Nz : forall v, In v (nodes h) -> run b v a <> 0) by (intros v Hv Z; apply E; unfold weight; apply (qprod_zero _ (fun v => run b v a) (nodes h) v); auto).
    assert (Hu : In u (nodes h)) by (apply Hus; apply Hus).
    assert (Cr : carries (fun j => bit (a (loc j)) j)).
    { apply kern_carries; auto. intros v Hv (j & s & Ej & Ns). assert (X := Nz v Hv). unfold run in X. destruct (String.string_dec v d) as [->|_]; auto. apply HO in Ej. contradiction. }
    assert (Eq : bit (a (loc jp)) jp = bit (a (loc jd)) jd). { apply Win; auto. assert (X := Nz d (proj1 Hd)). unfold run in X. destruct (String.string_dec d d); congruence. }
    assert (Au : a u = 1). { assert (X := Nz u Hu). unfold run, kern in X. destruct (String.string_dec u d) as [K|_]; [destruct Hd; congruence|]. destruct (String.string_dec u u); [|congruence]. unfold won in X. rewrite Eq, eqb_reflx in X. destruct (Qc_eq_dec (a u) 1); congruence. }
    rewrite Au. rewrite <- (Qcmult_1_r (weight (run b) (nodes h) a)) at 1. rewrite (Qcmult_comm _ 1), (Qcmult_comm _ (1 + qsum (map a us'))). apply Qcmult_le_compat_r; auto. qclra.
  Qed.

  (* ---- a change of bits that the decision does not notice ---- *)
  Variable F : nat -> bool.
  Hypothesis FC : forall j v i, nth_error C j = Some (v, Copy i) -> F j = F i.
  Hypothesis FX : forall j v i i', nth_error C j = Some (v, Xor i i') -> F j = xorb (F i) (F i').
  Hypothesis FK : forall j v b, nth_error C j = Some (v, Const b) -> F j = false.
  Hypothesis Fp : F jp = true.
  Hypothesis Fd : F jd = false.
  Definition here (v : node) (j : nat) : bool := F j && String.eqb (loc j) v && (j <? length C)%nat.
  Definition turn (v : node) (q : outcome) : outcome := if String.string_dec v u then 1 - q else enc (flipl (here v) (decode q)).
  Lemma turn_perm : forall v, Permutation (map (turn v) (Dm v)) (Dm v).
  Proof.
    intro v. unfold turn, Dm. destruct (String.string_dec v u) as [_|_].
    - cbn [map]. replace (1 - 0) with 1 by ring. replace (1 - 1) with 0 by ring. apply perm_swap.
    - unfold codes. rewrite map_map. rewrite (map_ext_in _ (fun l => enc (flipl (here v) l))) by (intros l Hl; apply vecs_in in Hl; rewrite decode_enc by auto; auto). rewrite <- (map_map (flipl (here v)) enc). apply Permutation_map. apply flipl_perm.
  Qed.
  Lemma turn_bit : forall a j, (j < length C)%nat -> In (a (loc j)) (Dm (loc j)) -> bit (turn (loc j) (a (loc j))) j = xorb (bit (a (loc j)) j) (F j).
  Proof.
    intros a j Hj Wj. unfold turn, bit. unfold Dm in Wj. destruct (String.string_dec (loc j) u) as [K|_]; [exfalso; apply (HN j Hj); auto|]. apply code_decode in Wj. destruct Wj as [_ L].
    rewrite decode_enc by (rewrite flipl_length; auto). rewrite flipl_nth by lia. unfold here. rewrite String.eqb_refl. apply Nat.ltb_lt in Hj. rewrite Hj. destruct (F j); auto.
  Qed.
  Lemma kern_turn : forall a a', (forall v, In v (nodes h) -> In (a v) (Dm v)) -> (forall v, In v (nodes h) -> a' v = turn v (a v)) -> forall v, In v (nodes h) -> kern v a' = kern v a.
  Proof.
    intros a a' Wa Ea v Hv. assert (Bt : forall j, (j < length C)%nat -> bit (a' (loc j)) j = xorb (bit (a (loc j)) j) (F j)).
    { intros j Hj. rewrite Ea by (apply HN; auto). apply turn_bit; auto. apply Wa. apply HN; auto. }
    unfold kern. destruct (String.string_dec v u) as [->|N].
    - rewrite (Ea u Hv). unfold turn. destruct (String.string_dec u u); [|congruence]. unfold won. rewrite !Bt by (apply Hjp || apply Hjd). rewrite Fp, Fd. assert (Wu := Wa u Hv). unfold Dm in Wu. destruct (String.string_dec u u); [|congruence].
      destruct Wu as [<-|[<-|[]]]; destruct (bit (a (loc jp)) jp), (bit (a (loc jd)) jd); cbn; repeat destruct (Qc_eq_dec _ _); auto; exfalso; try discriminate; match goal with K : _ <> _ |- _ => apply K; apply Qc_is_canon; reflexivity end.
    - rewrite (Ea v Hv). assert (Wv := Wa v Hv). unfold Dm in Wv. unfold turn. destruct (String.string_dec v u); [contradiction|]. apply code_decode in Wv. destruct Wv as [_ L]. rewrite decode_enc by (rewrite flipl_length; auto).
      apply prodl_flip. intros j b Hj. rewrite L in Hj. unfold asked, here. rewrite (proj2 (Nat.ltb_lt _ _) Hj). assert (Lj : forall w s, nth_error C j = Some (w, s) -> loc j = w) by (intros w s E; unfold loc; rewrite E; auto).
      destruct (nth_error C j) as [[w [|i|i i'|c]]|] eqn:E; auto; rewrite (Lj _ _ eq_refl); destruct (String.string_dec w v) as [->|Nw]; auto; rewrite String.eqb_refl, (Bool.andb_true_r (F j && true)), Bool.andb_true_r.
      + rewrite (FC _ _ _ E). apply HC in E. rewrite Bt by tauto. cbn [fac]. destruct b, (bit (a (loc i)) i), (F i); auto.
      + rewrite (FX _ _ _ _ E). apply HX in E. rewrite !Bt by tauto. cbn [fac]. destruct b, (bit (a (loc i)) i), (F i), (bit (a (loc i')) i'), (F i'); auto.
      + rewrite (FK _ _ _ E). cbn [fac xorb]. destruct b, c; auto.
  Qed.
  Lemma evenly_wins : forall (sees : node -> Prop) b, (forall p, sees p -> edge h p d) -> ruled sees b ->
    (forall j, (j < length C)%nat -> F j = true -> loc j <> d /\ ~ sees (loc j)) -> ~ sees u -> payoff b <= Q2Qc (3 # 4).
  Proof.
    intros sees b Sp R Un Uu. destruct us_split as (us' & P & I & N & Le). assert (C0 := run_cond sees b Sp R). assert (Hu : In u (nodes h)) by (apply Hus; apply Hus).
    assert (St : forall v a, In v (nodes h) -> v <> u -> In (a v) (Dm v) -> (forall j, (j < length C)%nat -> F j = true -> loc j <> v) -> turn v (a v) = a v).
    { intros v a Hv Nu Wv Nf. unfold turn. unfold Dm in Wv. destruct (String.string_dec v u); [contradiction|]. apply code_decode in Wv. destruct Wv as [E _]. rewrite flipl_none; auto. intro j. unfold here. destruct (F j) eqn:Fj; auto. cbn [andb]. destruct (j <? length C)%nat eqn:Hj; [|apply andb_false_r]. apply Nat.ltb_lt in Hj. destruct (String.eqb_spec (loc j) v); auto. exfalso. apply (Nf j); auto. }
    set (w := weight (run b) (nodes h)). set (T := total Dm (nodes h) (fun a => w a * a u) (fun _ => 0)).
    assert (Ww : ext w) by (apply (weight_ext h Dm); auto; intros v Hv; auto).
    assert (Eh : T = 1 - T).
    { unfold T at 1. rewrite (total_relabel Dm turn) by (try apply W; try (intros a a' H; rewrite (Ww a a'), (H u); auto); intros v _; apply turn_perm).
      transitivity (total Dm (nodes h) (fun a => w a + (0 - 1) * (w a * a u)) (fun _ => 0)).
      - apply total_ext_in. intros a Wa _. set (a' := fun v => if in_dec String.string_dec v (nodes h) then turn v (a v) else a v).
        assert (Ea : forall v, In v (nodes h) -> a' v = turn v (a v)) by (intros v Hv; unfold a'; destruct (in_dec String.string_dec v (nodes h)); [auto|contradiction]).
        change (w a' * a' u = w a + (0 - 1) * (w a * a u)).
        assert (Ew : w a' = w a).
        { unfold w, weight. apply qprod_ext. intros v Hv. unfold run. destruct (String.string_dec v d) as [->|Nd]; [|apply kern_turn; auto]. destruct R as (R1 & _). apply R1.
          - rewrite Ea by apply Hd. apply St; auto; [apply Hd|]. intros j Hj Fj. apply (Un j Hj Fj).
          - intros p Hp. assert (Hpn : In p (nodes h)) by (apply Sp in Hp; apply (proj1 W) in Hp; tauto). rewrite Ea by auto. apply St; auto; [intros ->; contradiction|]. intros j Hj Fj K. apply (Un j Hj Fj). rewrite K. auto. }
        rewrite Ew. rewrite (Ea u Hu). unfold turn. destruct (String.string_dec u u); [|congruence]. ring.
      - rewrite total_plus, total_scale. unfold w at 1. rewrite (run_total sees b Sp R). fold T. ring. }
    assert (Th : T = half). { assert (X : T + T = 1) by (rewrite Eh at 1; ring). assert (Hh : half + half = 1) by (apply Qc_is_canon; reflexivity). clearbody T. transitivity ((half + half) * T); [rewrite Hh; ring|]. transitivity (half * (T + T)); [ring|rewrite X; ring]. }
    unfold payoff. fold w. apply Qcle_trans with (total Dm (nodes h) (fun a => w a * a u + Q2Qc (1 # 4) * w a) (fun _ => 0)).
    - apply total_le. intros a Wa _. assert (Wn : 0 <= w a) by (apply (weight_nonneg h Dm); auto; intros v Hv; auto). rewrite (qsum_perm (map a us) (map a (u :: us'))) by (apply Permutation_map; auto). cbn [map]. change (qsum (a u :: map a us')) with (a u + qsum (map a us')).
      destruct (rest_bound us' a Le I N Wa) as [_ B]. assert (X : qsum (map a us') * w a <= Q2Qc (1 # 4) * w a) by (apply Qcmult_le_compat_r; auto). replace (w a * (a u + qsum (map a us'))) with (w a * a u + qsum (map a us') * w a) by ring. qclra.
    - rewrite total_plus, total_scale. unfold w at 2. rewrite (run_total sees b Sp R). fold T. rewrite Th. discriminate.
  Qed.
End Wire.
