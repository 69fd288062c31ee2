(* Properties C32 and C33: tables built from functions. *)
From Coq Require Import String List Bool Arith QArith Qcanon Sorted Lia Permutation.
Import ListNotations.
From Verif Require Import MBase MGraph MMacid MCpd Spec SpecC LBase LGraph LQc LCpd.
Local Open Scope Qc_scope.
Local Open Scope string_scope.

(* ---- C32 ---- *)
Theorem C32_sound : forall g doms cards v f force k t, In v (nodes g) ->
  init_table g doms cards v f force k = Ok t ->
  tabulates g doms v f force t /\ cards (parents g v) = Ok (tcards t) /\ tkind t = k.
Proof.
  intros g doms cards v f force k t Hv H. destruct (ready_dec doms (parents g v)) as [R|(p & P1 & P2)].
  - destruct (init_tabulates g doms v f force k cards Hv R t H) as (A & B & C). auto.
  - rewrite (not_ready g doms v f force k cards Hv p P1 P2) in H. discriminate.
Qed.
Print Assumptions C32_sound.
(* a column with an outcome left open sums to exactly one *)
Theorem C32_open_sums_to_one : forall g doms cards v f force k t pv w col x, In v (nodes g) ->
  init_table g doms cards v f force k = Ok t -> context_of doms (parents g v) pv ->
  call f pv = Ok w -> is_dict (dist_of w) -> In x (tdom t) -> (forall p, ~ gives (dist_of w) x p) ->
  nth_error (tcols t) (context_index doms pv) = Some col ->
  fold_right Qcplus 0 col = 1.
Proof.
  intros g doms cards v f force k t pv w col x Hv H C W D Hx Op N.
  destruct (C32_sound _ _ _ _ _ _ _ _ Hv H) as [(T1 & T2 & T3 & T4 & T5 & T6 & T7 & T8) _].
  destruct (T8 pv C) as (col' & w' & A1 & A2 & A3 & A4 & A5). rewrite N in A1. injection A1 as <-. rewrite W in A2. injection A2 as <-.
  apply (column_sum (tdom t) (dist_of w) col x); auto.
Qed.
Print Assumptions C32_open_sums_to_one.
Lemma count_cards : forall doms ps, fold_right Nat.mul 1%nat (map (fun p => length (dom_of doms p)) ps) = contexts_count doms ps.
Proof. intros doms ps. induction ps as [|p l IH]; simpl; auto. Qed.
(* the table is accepted exactly when every column is a probability column, and rejected by ValueError otherwise *)
Theorem C32_accepted : forall g doms cards v f force k, In v (nodes g) -> parents_ready g doms cards v ->
  answers doms (parents g v) f ->
  ((exists t, init_table g doms cards v f force k = Ok t) <->
   (exists pv, context_of doms (parents g v) pv) /\
   exists dom, right_domain g doms v f force dom /\ NoDup dom /\
     forall pv w, context_of doms (parents g v) pv -> call f pv = Ok w ->
       (forall x, In x (map fst (dist_of w)) -> In x dom) /\
       forall col, column dom (dist_of w) col -> prob_column col) /\
  (forall e, init_table g doms cards v f force k = Err e -> e = ValueError).
Proof.
  intros g doms cards v f force k Hv [R C] An. set (ps := parents g v) in *.
  assert (Call : exists ds, all_calls g doms v f ds).
  { destruct (map_r_total _ _ (stochastic_function f) (map (combine ps) (product (map (dom_of doms) ps)))) as [ds Hds].
    - intros pv Hpv. apply in_contexts in Hpv; auto. destruct (An pv Hpv) as (w & W & _). exists (dist_of w). apply dist_call; auto.
    - exists ds. apply map_r_ok; auto. }
  destruct Call as [ds A]. split; [split|].
  - intros [t H]. destruct (C32_sound _ _ _ _ _ _ _ _ Hv H) as [(T1 & T2 & T3 & T4 & T5 & T6 & T7 & T8) _]. split.
    + destruct (map (combine ps) (product (map (dom_of doms) ps))) as [|pv l] eqn:E.
      * exfalso. assert (Z : contexts_count doms ps = 0%nat).
        { rewrite <- contexts_length. apply (f_equal (@length _)) in E. rewrite map_length in E. auto. }
        fold ps in T7. rewrite Z in T7. rewrite (init_eq g doms v f force k cards Hv R ds A) in H.
        unfold all_calls in A. fold ps in A. rewrite E in A. inversion A; subst ds. cbn [flat_map forallb map] in H.
        destruct (cards (parents g v)); cbn [bind] in H; discriminate.
      * exists pv. apply (in_contexts doms ps pv R). rewrite E. simpl; auto.
    + exists (tdom t). split; [split; auto|]. split; auto. intros pv w Cx W. destruct (T8 pv Cx) as (col & w' & A1 & A2 & A3 & A4 & A5).
      rewrite W in A2. injection A2 as <-. split; auto. intros col' Col. destruct (An pv Cx) as (w' & W' & D). rewrite W in W'. injection W' as <-.
      assert (E : col' = col) by (rewrite (column_unique _ _ _ D Col); symmetry; apply column_unique; auto). subst; auto.
  - intros [[pv0 C0] (dom & [D1 D2] & N & Hc)].
    assert (Back : forall d, In d ds -> exists pv w, context_of doms ps pv /\ call f pv = Ok w /\ dist_of w = d).
    { intros d Hd. destruct (Forall2_in_r _ _ _ _ _ _ A Hd) as (pv & P1 & P2). destruct (call_dist f pv d P2) as (w & W1 & W2).
      exists pv, w. split; auto. apply (in_contexts doms ps pv R); auto. }
    assert (Forth : forall pv w, context_of doms ps pv -> call f pv = Ok w -> In (dist_of w) ds).
    { intros pv w Cx W. apply (in_contexts doms ps pv R) in Cx. destruct (Forall2_in_l _ _ _ _ _ _ A Cx) as (d & K1 & K2).
      rewrite (dist_call f pv w W) in K2. injection K2 as <-. auto. }
    assert (E : domain_from force ds = dom).
    { unfold domain_from. destruct force as [|x0 fo]; [|symmetry; apply D1; discriminate].
      destruct (D2 eq_refl) as [I1 I2]. apply sorted_unique; auto; [apply sorted_set_sorted|]. intro x. rewrite in_sorted_set, I2, in_flat_map.
      split.
      - intros (d & K1 & K2). destruct (Back d K1) as (pv & w & B1 & B2 & <-). eauto.
      - intros (pv & w & B1 & B2 & B3). eauto. }
    apply (init_accepts g doms v f force k cards Hv R ds (map (fun p => length (dom_of doms p)) ps) A C).
    + apply count_cards.
    + rewrite E. intros d x Hd Hx. destruct (Back d Hd) as (pv & w & B1 & B2 & <-). apply (Hc pv w B1 B2); auto.
    + rewrite E; auto.
    + destruct (An pv0 C0) as (w & W & _). intro K. assert (X := Forth pv0 w C0 W). rewrite K in X. destruct X.
    + rewrite E. intros d Hd. destruct (Back d Hd) as (pv & w & B1 & B2 & <-). apply (Hc pv w B1 B2). apply complete_column.
      destruct (An pv B1) as (w' & W' & D). rewrite B2 in W'. injection W' as <-. auto.
  - intros e H. rewrite (init_eq g doms v f force k cards Hv R ds A) in H. fold ps in H. rewrite C in H.
    destruct (forallb _ _); [|congruence]. cbn [bind] in H. cbv zeta in H.
    repeat match type of H with (if ?b then _ else _) = _ => destruct b; [congruence|] end. discriminate.
Qed.
Print Assumptions C32_accepted.
(* while a parent has no domain the relationship waits *)
Theorem C32_waits : forall g doms cards v f force k p, In v (nodes g) -> In p (parents g v) -> lookup p doms = None ->
  init_table g doms cards v f force k = Err ParentsNotReady.
Proof. intros. eapply not_ready; eauto. Qed.
Print Assumptions C32_waits.

(* constant distributions *)
Lemma const_call : forall d pv, call (const_fn d) pv = Ok (VDist d).
Proof. reflexivity. Qed.
Lemma const_table : forall g doms cards v d k t, In v (nodes g) -> is_dict d ->
  init_table g doms cards v (const_fn d) [] k = Ok t ->
  (exists pv, context_of doms (parents g v) pv) ->
  tdom t = sorted_set (map fst d) /\ forall col, In col (tcols t) -> col = map (complete (tdom t) d) (tdom t).
Proof.
  intros g doms cards v d k t Hv D H [pv0 C0]. destruct (ready_dec doms (parents g v)) as [R|(p & P1 & P2)].
  2:{ rewrite (not_ready g doms v _ [] k cards Hv p P1 P2) in H. discriminate. }
  destruct (C32_sound _ _ _ _ _ _ _ _ Hv H) as [(T1 & T2 & T3 & T4 & T5 & T6 & T7 & T8) _]. split.
  - destruct (T6 eq_refl) as [I1 I2]. apply sorted_unique; auto; [apply sorted_set_sorted|]. intro x. rewrite I2, in_sorted_set. split.
    + intros (pv & w & _ & W & Hx). rewrite const_call in W. injection W as <-. auto.
    + intro Hx. exists pv0, (VDist d). auto.
  - intros col Hcol. destruct (In_nth_error _ _ Hcol) as [i Hi].
    destruct (nth_error (map (combine (parents g v)) (product (map (dom_of doms) (parents g v)))) i) as [pv|] eqn:E.
    + destruct (init_tabulates g doms v _ [] k cards Hv R t H) as (Tb & _ & _).
      destruct (calls_of_ok g doms v _ [] k cards Hv R t H) as [ds A]. rewrite (init_eq g doms v _ [] k cards Hv R ds A) in H.
      destruct (forallb _ _); [|congruence]. destruct (cards _); cbn [bind] in H; [|congruence]. cbv zeta in H.
      repeat match type of H with (if ?b then _ else _) = _ => destruct b; [congruence|] end. injection H as <-. cbn [tcols tdom] in *.
      apply in_map_iff in Hcol. destruct Hcol as (d' & <- & Hd'). destruct (Forall2_in_r _ _ _ _ _ _ A Hd') as (pv' & _ & K).
      unfold stochastic_function in K. rewrite const_call in K. simpl in K. injection K as <-. auto.
    + exfalso. apply nth_error_None in E. rewrite map_length, contexts_length in E.
      assert (i < length (tcols t))%nat by (apply nth_error_Some; congruence). rewrite T7 in *. lia.
Qed.
Theorem C32_bernoulli : forall g doms cards v p k, In v (nodes g) -> parents_ready g doms cards v ->
  (exists pv, context_of doms (parents g v) pv) ->
  (0 <= p /\ p <= 1 -> exists t, init_table g doms cards v (const_fn (bernoulli p)) [] k = Ok t /\
     tdom t = [0; 1] /\ forall col, In col (tcols t) -> col = [1 - p; p]) /\
  (~ (0 <= p /\ p <= 1) -> init_table g doms cards v (const_fn (bernoulli p)) [] k = Err ValueError).
Proof.
  intros g doms cards v p k Hv R Cx. assert (D : is_dict (bernoulli p)).
  { unfold is_dict. simpl. repeat constructor; simpl; try tauto. intros [E|[]]. discriminate. }
  assert (An : answers doms (parents g v) (const_fn (bernoulli p))).
  { intros pv _. exists (VDist (bernoulli p)). split; auto. }
  assert (RD : right_domain g doms v (const_fn (bernoulli p)) [] [0; 1]).
  { split; [congruence|]. intros _. split; [repeat constructor|]. intro x. split.
    - intro Hx. destruct Cx as [pv C]. exists pv, (VDist (bernoulli p)). split; auto.
    - intros (pv & w & _ & W & Hx). rewrite const_call in W. injection W as <-. auto. }
  assert (Col : forall col, column [0; 1] (bernoulli p) col -> col = [1 - p; p]).
  { intros col C. rewrite (column_unique _ _ _ D C). reflexivity. }
  destruct (C32_accepted g doms cards v (const_fn (bernoulli p)) [] k Hv R An) as [Iff Er]. split.
  - intro Hp. destruct (proj2 Iff) as [t Ht].
    { split; auto. exists [0; 1]. split; auto. split; [repeat constructor; simpl; try tauto; intros [E|[]]; discriminate|].
      intros pv w C W. rewrite const_call in W. injection W as <-. split; auto. intros col HC. rewrite (Col col HC). split.
      - intros q [<-|[<-|[]]]; auto. destruct Hp as [P1 P2]. split; [apply Qc_le_sub; auto|]. apply Qc_sub_le.
        replace (1 - (1 - p)) with p by ring. auto.
      - simpl. replace (1 - p + (p + 0)) with 1 by ring. split; discriminate. }
    exists t. split; auto. destruct (const_table g doms cards v _ k t Hv D Ht Cx) as [E1 E2].
    assert (E3 : tdom t = [0; 1]) by (rewrite E1; reflexivity). split; auto. intros col Hc. rewrite (E2 col Hc), E3. reflexivity.
  - intro Hp. destruct (init_table g doms cards v (const_fn (bernoulli p)) [] k) as [t|e] eqn:E; [|f_equal; auto].
    exfalso. apply Hp. destruct (proj1 Iff (ex_intro _ t eq_refl)) as [_ (dom & [_ D2] & N & Hc)].
    destruct Cx as [pv C]. destruct (Hc pv _ C (const_call _ _)) as [_ Hcol].
    destruct (D2 eq_refl) as [I1 I2]. destruct (proj2 RD eq_refl) as [J1 J2].
    assert (Ed : dom = [0; 1]) by (apply sorted_unique; auto; intro x; rewrite I2, J2; tauto). subst dom.
    destruct (Hcol [1 - p; p]) as [Rg _].
    { rewrite <- (Col (map (complete [0; 1] (bernoulli p)) [0; 1])); apply complete_column; auto. }
    apply Rg. simpl; auto.
Qed.
Print Assumptions C32_bernoulli.

Lemma odset_fst : forall (A : Type) x (w : A) d, ~ In x (map fst d) -> odset x w d = (d ++ [(x, w)])%list.
Proof.
  intros A x w d. induction d as [|[y u] d IH]; simpl; intro H; auto. destruct (oeqb_spec x y) as [->|Hn]; [tauto|]. rewrite IH; auto.
Qed.
Lemma fold_odset : forall (A : Type) (w : A) l d, NoDup (map fst d ++ l) ->
  fold_left (fun d x => odset x w d) l d = (d ++ map (fun x => (x, w)) l)%list.
Proof.
  intros A w l. induction l as [|x l IH]; intros d N; simpl; [rewrite app_nil_r; auto|].
  rewrite odset_fst. 2:{ intro K. apply NoDup_remove_2 in N. apply N. apply in_or_app; auto. }
  rewrite IH; [rewrite <- app_assoc; auto|]. rewrite map_app. simpl. rewrite <- app_assoc. simpl. auto.
Qed.
Lemma uniform_eq : forall dom, NoDup dom -> discrete_uniform dom = map (fun x => (x, Some (1 / Qc_of_nat (length dom)))) dom.
Proof. intros dom N. unfold discrete_uniform. rewrite fold_odset; auto. Qed.
Lemma sorted_set_len : forall dom, NoDup dom -> length (sorted_set dom) = length dom.
Proof.
  intros dom N. apply Permutation_length, NoDup_Permutation; auto; [apply sorted_NoDup, sorted_set_sorted|intro z; apply in_sorted_set].
Qed.
Theorem C32_uniform : forall g doms cards v dom k, In v (nodes g) -> parents_ready g doms cards v ->
  (exists pv, context_of doms (parents g v) pv) -> NoDup dom -> dom <> [] ->
  exists t, init_table g doms cards v (const_fn (discrete_uniform dom)) [] k = Ok t /\
    increasing (tdom t) /\ Permutation (tdom t) dom /\
    forall col q, In col (tcols t) -> length col = length dom /\ (In q col -> q * Qc_of_nat (length dom) = 1).
Proof.
  intros g doms cards v dom k Hv R Cx N Ne. assert (Eq := uniform_eq dom N). set (d := discrete_uniform dom) in *.
  assert (Ln : (0 < length dom)%nat) by (destruct dom; [congruence|simpl; lia]).
  set (u := 1 / Qc_of_nat (length dom)) in *.
  assert (Nz := Qc_of_nat_nz _ Ln).
  assert (Fst : map fst d = dom) by (rewrite Eq, map_map; simpl; apply map_id).
  assert (D : is_dict d) by (unfold is_dict; rewrite Fst; auto).
  assert (Cm : forall l x, In x dom -> complete l d x = u).
  { intros l x Hx. apply complete_given; auto. unfold gives. rewrite Eq. apply in_map_iff. eauto. }
  assert (Uu : u * Qc_of_nat (length dom) = 1) by (unfold u; field; auto).
  assert (Upos : 0 <= u).
  { unfold u. destruct (Qclt_le_dec (1 / Qc_of_nat (length dom)) 0) as [H|H]; auto. exfalso. fold u in H.
    assert (P := Qc_of_nat_pos _ Ln). assert (K : u * Qc_of_nat (length dom) < 0 * Qc_of_nat (length dom)) by (apply Qcmult_lt_compat_r; auto).
    rewrite Uu in K. replace (0 * Qc_of_nat (length dom)) with 0 in K by ring. discriminate. }
  assert (Ule : u <= 1).
  { apply Qc_sub_le. replace (1 - u) with (u * (Qc_of_nat (length dom) - 1)) by (transitivity (u * Qc_of_nat (length dom) - u); [ring|rewrite Uu; auto]). apply Qc_mul_nonneg; auto.
    destruct (length dom) as [|n]; [lia|]. rewrite Qc_of_nat_S. replace (1 + Qc_of_nat n - 1) with (Qc_of_nat n) by ring. apply Qc_of_nat_nonneg. }
  assert (An : answers doms (parents g v) (const_fn d)) by (intros pv _; exists (VDist d); split; auto).
  assert (Sd : map (complete (sorted_set dom) d) (sorted_set dom) = map (fun _ => u) (sorted_set dom)).
  { apply map_ext_in. intros x Hx. apply Cm. rewrite in_sorted_set in Hx; auto. }
  destruct (C32_accepted g doms cards v (const_fn d) [] k Hv R An) as [Iff _]. destruct (proj2 Iff) as [t Ht].
  { split; auto. exists (sorted_set dom). split; [|split].
    - split; [congruence|]. intros _. split; [apply sorted_set_sorted|]. intro x. rewrite in_sorted_set. split.
      + intro Hx. destruct Cx as [pv C]. exists pv, (VDist d). split; auto. split; auto. simpl. rewrite Fst; auto.
      + intros (pv & w & _ & W & Hx). rewrite const_call in W. injection W as <-. simpl in Hx. rewrite Fst in Hx; auto.
    - apply sorted_NoDup, sorted_set_sorted.
    - intros pv w C W. rewrite const_call in W. injection W as <-. split.
      + intros x Hx. simpl in Hx. rewrite Fst in Hx. apply in_sorted_set; auto.
      + intros col HC. rewrite (column_unique _ _ _ D HC). simpl dist_of. rewrite Sd. split.
        * intros q Hq. apply in_map_iff in Hq. destruct Hq as (_ & <- & _). auto.
        * change (fold_right Qcplus 0) with qsum. rewrite qsum_const, sorted_set_len by auto.
          replace (Qc_of_nat (length dom) * u) with 1 by (rewrite Qcmult_comm; auto). split; discriminate. }
  exists t. split; auto. destruct (const_table g doms cards v d k t Hv D Ht Cx) as [E1 E2]. rewrite Fst in E1. rewrite E1 in *.
  split; [apply sorted_set_sorted|]. split.
  - apply NoDup_Permutation; auto; [apply sorted_NoDup, sorted_set_sorted|intro z; apply in_sorted_set].
  - intros col q Hc. rewrite (E2 col Hc), Sd. rewrite map_length, sorted_set_len by auto. split; auto. intro Hq.
    apply in_map_iff in Hq. destruct Hq as (_ & <- & _). auto.
Qed.
Print Assumptions C32_uniform.

(* noisy_copy: the copied value has the given probability, the other values of the domain share the rest *)
Lemma odset_nodup : forall (A : Type) x (w : A) d, NoDup (map fst d) -> NoDup (map fst (odset x w d)).
Proof.
  intros A x w d N. induction d as [|[y u] d IH]; simpl; [repeat constructor; auto|].
  inversion N as [|? ? N1 N2]; subst. destruct (oeqb_spec x y) as [->|Hn]; simpl; constructor; auto.
  intro K. apply in_map_iff in K. destruct K as ([z q] & E & K). simpl in E. subst z. apply N1.
  clear - K Hn. induction d as [|[a b] d IH]; simpl in *; [destruct K as [K|[]]; congruence|].
  destruct (oeqb_spec x a) as [->|H].
  - destruct K as [K|K]; [left; congruence|right; change y with (fst (y, q)); apply in_map; auto].
  - destruct K as [K|K]; [left; congruence|right; auto].
Qed.
Lemma odset_in : forall (A : Type) x (w : A) d y q, NoDup (map fst d) ->
  (In (y, q) (odset x w d) <-> (y = x /\ q = w) \/ (y <> x /\ In (y, q) d)).
Proof.
  intros A x w d y q N. induction d as [|[a b] d IH]; simpl.
  - split; [intros [E|[]]; injection E as <- <-; auto|]. intros [[-> ->]|[_ []]]; auto.
  - inversion N as [|? ? N1 N2]; subst. destruct (oeqb_spec x a) as [->|H]; simpl.
    + split.
      * intros [E|K]; [injection E as <- <-; auto|]. right. split; auto. intros ->. apply N1. change a with (fst (a, q)). apply in_map; auto.
      * intros [[-> ->]|[Hn [E|K]]]; auto. congruence.
    + rewrite IH by auto. split.
      * intros [E|[[-> ->]|[Hn K]]]; auto. injection E as <- <-. auto.
      * intros [[-> ->]|[Hn [E|K]]]; auto.
Qed.
Lemma fold_none : forall l d, NoDup (map fst d) -> (forall y q, In (y, q) d -> q = None) ->
  let r := fold_left (fun d y => odset y (@None Qc) d) l d in
  NoDup (map fst r) /\ (forall y q, In (y, q) r -> q = None) /\ (forall y, In y (map fst r) -> In y l \/ In y (map fst d)).
Proof.
  intro l. induction l as [|x l IH]; intros d N H; simpl; [auto|].
  destruct (IH (odset x None d)) as (A & B & C).
  - apply odset_nodup; auto.
  - intros y q K. apply odset_in in K; auto. destruct K as [[_ ->]|[_ K]]; eauto.
  - split; auto. split; auto. intros y Hy. destruct (C y Hy) as [K|K]; auto. apply in_map_iff in K. destruct K as ([z q] & E & K).
    simpl in E. subst z. apply odset_in in K; auto. destruct K as [[-> _]|[_ K]]; auto. right. change y with (fst (y, q)). apply in_map; auto.
Qed.
Theorem C32_noisy_copy : forall x p l dom col i y q, NoDup dom -> In x dom -> column dom (noisy_copy x p l) col ->
  nth_error dom i = Some y -> nth_error col i = Some q ->
  (y = x -> q = p) /\ (y <> x -> q * (Qc_of_nat (length dom) - 1) = 1 - p).
Proof.
  intros x p l dom col i y q N Hx [_ C] Hy Hq. destruct (C i y q Hy Hq) as [C1 C2].
  set (base := match l with Some l => fold_left (fun d y => odset y (@None Qc) d) l [] | None => [] end).
  assert (B : NoDup (map fst base) /\ (forall y q, In (y, q) base -> q = None)).
  { unfold base. destruct l as [l|]; [|split; [constructor|intros ? ? []]]. destruct (fold_none l []) as (A & B & _); auto.
    - constructor. - intros ? ? []. }
  destruct B as [B1 B2].
  assert (G : forall y q, gives (noisy_copy x p l) y q <-> y = x /\ q = p).
  { intros z r. unfold gives, noisy_copy. fold base. rewrite odset_in by auto. split.
    - intros [[-> E]|[_ K]]; [injection E as ->; auto|]. apply B2 in K. discriminate.
    - intros [-> ->]. auto. }
  split; intro Hn.
  - apply C1. apply G. auto.
  - assert (Mass : mass (noisy_copy x p l) = p).
    { rewrite <- given_mass. assert (K : given_entries (noisy_copy x p l) = [(x, p)]).
      - assert (NK : NoDup (map fst (given_entries (noisy_copy x p l)))) by (apply given_keys; unfold noisy_copy; fold base; apply odset_nodup; auto).
        assert (M : forall e, In e (given_entries (noisy_copy x p l)) <-> e = (x, p)).
        { intros [a b]. rewrite in_given, G. split; [intros [-> ->]; auto|intro E; injection E; auto]. }
        destruct (given_entries (noisy_copy x p l)) as [|e1 [|e2 r]].
        + exfalso. apply (proj2 (M (x, p)) eq_refl).
        + f_equal. apply M. simpl; auto.
        + exfalso. assert (e1 = (x, p)) by (apply M; simpl; auto). assert (e2 = (x, p)) by (apply M; simpl; auto). subst.
          inversion NK as [|? ? K _]. apply K. simpl; auto.
      - rewrite K. simpl. ring. }
    rewrite Mass in C2. destruct (in_split _ _ Hx) as (l1 & l2 & E).
    assert (Q : q * Qc_of_nat (length (l1 ++ l2)) = 1 - p).
    { apply C2.
      - split; [apply NoDup_remove_1 with x; rewrite <- E; auto|]. intro z. rewrite E, in_app_iff, in_app_iff. simpl. rewrite E in N. apply NoDup_remove_2 in N.
        split.
        + intro Hz. split; [tauto|]. intros r K. apply G in K. destruct K as [-> _]. apply N, in_or_app. auto.
        + intros [[H|[->|H]] K]; auto. exfalso. apply (K p), G. auto.
      - apply nth_error_In in Hy. rewrite E in Hy. apply in_app_or in Hy. simpl in Hy. apply in_or_app. intuition congruence. }
    rewrite <- Q. f_equal. rewrite E, !app_length. simpl. rewrite Nat.add_succ_r, Qc_of_nat_S. ring.
Qed.
Print Assumptions C32_noisy_copy.

(* concrete case: two parents, a function with a left-open outcome *)
Definition exg : graph := mkG ["A"; "B"; "X"] [("A","X"); ("B","X")].
Definition exdoms : domains := [("A", [0; 1]); ("B", [1; 0; 1 + 1])].
Definition excards : list node -> result (list nat) := fun ps => Ok (map (fun p => length (dom_of exdoms p)) ps).
Definition exf : fn := mkFn [("A", false); ("B", false)] false (fun pv =>
  match lookup "A" pv, lookup "B" pv with
  | Some a, Some b => if oeqb a b then Ok (VDist [(a, Some (Q2Qc (1 # 3)))]) else Ok (VOut (a + b))
  | _, _ => Err KeyError
  end).
Example C32_example : In "X" (nodes exg) /\ parents_ready exg exdoms excards "X" /\
  init_table exg exdoms excards "X" exf [] KStoch =
  Ok (mkTab "X" [0; 1; Q2Qc (2 # 1); Q2Qc (3 # 1)] ["A"; "B"] [2; 3]%nat
    (let th := Q2Qc (1 # 3) in let r := Q2Qc (2 # 9) in
     [[0; 1; 0; 0]; [th; r; r; r]; [0; 0; 1; 0]; [r; th; r; r]; [0; 1; 0; 0]; [0; 0; 0; 1]]) KStoch).
Proof.
  split; [simpl; auto|]. split; [|vm_compute; f_equal; repeat (f_equal; try (apply Qc_is_canon; reflexivity))].
  split; [|reflexivity]. intros p Hp. vm_compute in Hp. destruct Hp as [<-|[<-|[]]]; discriminate.
Qed.

(* ---- C33 ---- *)
(* the check inspects the signature of a wrapper that takes any keywords: neither half of C33 holds *)
Theorem C33_refuted :
  (exists g doms cards v f t, In v (nodes g) /\ parents_ready g doms cards v /\ varkw f = false /\
     ~ (forall p, In p (keys (params f)) <-> In p (parents g v)) /\
     init_table g doms cards v f [] KStoch = Ok t) /\
  (exists g doms cards v f, In v (nodes g) /\ parents_ready g doms cards v /\ varkw f = false /\
     ~ (forall p, In p (keys (params f)) <-> In p (parents g v)) /\
     init_table g doms cards v f [] KStoch = Err TypeError).
Proof.
  split.
  - exists exg, [], (fun ps => Ok []), "A", (mkFn [("Z", true)] false (fun _ => Ok (VOut 1))). eexists.
    split; [simpl; auto|]. split; [split; [intros p []|reflexivity]|]. split; [reflexivity|]. split.
    + intro H. apply (proj1 (H "Z")). simpl; auto.
    + vm_compute. reflexivity.
  - exists exg, [], (fun ps => Ok []), "A", (mkFn [("Z", false)] false (fun _ => Ok (VOut 1))).
    split; [simpl; auto|]. split; [split; [intros p []|reflexivity]|]. split; [reflexivity|]. split.
    + intro H. apply (proj1 (H "Z")). simpl; auto.
    + reflexivity.
Qed.
Print Assumptions C33_refuted.
(* what does hold: without defaults and keywords a mismatch is noticed when the function is first called, as a TypeError *)
Theorem C33_mismatch_partial : forall g doms cards v f force k, In v (nodes g) -> varkw f = false ->
  (forall p b, In (p, b) (params f) -> b = false) ->
  ~ (forall p, In p (keys (params f)) <-> In p (parents g v)) ->
  (forall p, In p (parents g v) -> lookup p doms <> None) -> (exists pv, context_of doms (parents g v) pv) ->
  init_table g doms cards v f force k = Err TypeError.
Proof.
  intros g doms cards v f force k Hv K D Mis R [pv C]. assert (NB : binds f (parents g v) = false).
  { apply not_true_iff_false. intro B. apply Mis. unfold binds in B. rewrite K in B. simpl in B. apply andb_true_iff in B.
    destruct B as [B1 B2]. rewrite forallb_forall in B1, B2. intro p. split.
    - intro Hp. apply in_map_iff in Hp. destruct Hp as ([q b] & E & Hp). simpl in E. subst q. specialize (B2 _ Hp). simpl in B2.
      rewrite (D p b Hp) in B2. apply mem_In; auto.
    - intro Hp. apply mem_In. apply B1. auto. }
  assert (TE : forall pv, context_of doms (parents g v) pv -> stochastic_function f pv = Err TypeError).
  { intros pv' [E _]. unfold stochastic_function, call. change (keys pv') with (map fst pv'). rewrite E, NB. reflexivity. }
  assert (Ps : possible_values g doms v f = Err TypeError).
  { unfold possible_values. rewrite contexts_ok by auto. cbn [bind]. set (pvs := map _ _).
    assert (Hpv : In pv pvs) by (apply in_contexts; auto).
    assert (All : forall p, In p pvs -> stochastic_function f p = Err TypeError) by (intros p Hp; apply TE, in_contexts; auto).
    destruct pvs as [|p l]; [destruct Hpv|]. simpl. rewrite All by (simpl; auto). reflexivity. }
  unfold init_table, get_parents. rewrite (proj2 (mem_In _ _) Hv). cbn [bind check_arguments wrapper_varkw negb andb]. rewrite Ps.
  destruct force; reflexivity.
Qed.
Print Assumptions C33_mismatch_partial.
(* and a matching signature is never the reason for a rejection *)
Theorem C33_match_partial : forall g doms cards v f force k, In v (nodes g) -> signature_matches f (parents g v) ->
  init_table g doms cards v f force k = init_table g doms cards v (mkFn [] true (body f)) force k.
Proof.
  intros g doms cards v f force k Hv [S D]. destruct (ready_dec doms (parents g v)) as [R|(p & P1 & P2)].
  2:{ rewrite !(not_ready g doms v _ force k cards Hv p P1 P2). auto. }
  assert (B : binds f (parents g v) = true).
  { unfold binds. apply andb_true_iff. split.
    - apply orb_true_iff. right. apply forallb_forall. intros p Hp. apply mem_In, S. auto.
    - apply forallb_forall. intros [p b] Hp. simpl. apply orb_true_iff. right. apply mem_In, S. apply in_map_iff. exists (p, b). auto. }
  assert (St : forall pv, In pv (map (combine (parents g v)) (product (map (dom_of doms) (parents g v)))) ->
    stochastic_function f pv = stochastic_function (mkFn [] true (body f)) pv).
  { intros pv Hp. apply in_contexts in Hp; auto. destruct Hp as [E _]. unfold stochastic_function, call. change (keys pv) with (map fst pv). rewrite E, B. reflexivity. }
  assert (Ps : possible_values g doms v f = possible_values g doms v (mkFn [] true (body f))).
  { unfold possible_values. rewrite contexts_ok by auto. cbn [bind]. rewrite (map_r_ext _ _ _ _ _ St). reflexivity. }
  unfold init_table. rewrite Ps. rewrite (contexts_ok g doms v Hv R).
  assert (Cl : forall dom, map_r (fun pv => d <- stochastic_function f pv ;; Ok (map (complete dom d) dom))
      (map (combine (parents g v)) (product (map (dom_of doms) (parents g v)))) =
    map_r (fun pv => d <- stochastic_function (mkFn [] true (body f)) pv ;; Ok (map (complete dom d) dom))
      (map (combine (parents g v)) (product (map (dom_of doms) (parents g v))))).
  { intro dom. apply map_r_ext. intros pv Hp. rewrite St by auto. reflexivity. }
  unfold get_parents. rewrite (proj2 (mem_In _ _) Hv). cbn [bind].
  destruct (check_arguments (parents g v)); cbn [bind]; auto.
  match goal with |- bind ?a _ = bind ?a _ => destruct a as [dom|]; cbn [bind]; auto end.
  destruct (cards (parents g v)); cbn [bind]; auto. rewrite Cl. reflexivity.
Qed.
Print Assumptions C33_match_partial.
Example C33_example : signature_matches exf (parents exg "X") /\ varkw exf = false /\
  init_table exg exdoms excards "X" (mkFn [("A", false)] false (body exf)) [] KStoch = Err TypeError.
Proof.
  split; [|split; reflexivity]. split; [intro p; simpl; tauto|]. simpl. intros p b [E|[E|[]]]; congruence.
Qed.
