(* Lemmas about decision rules. *)
From Coq Require Import String List Bool Arith QArith Qcanon Lia Permutation Setoid.
Import ListNotations.
From Verif Require Import MBase MGraph MMacid MCpd MNet MProb MQuery MPolicy Spec SpecM SpecC SpecN SpecQ SpecPol LBase LGraph LCopy LQc LCpd LNet LSum LBayes LQuery LDo LInter.
Local Open Scope Qc_scope.

(* ---- tables with a declared domain ---- *)
Definition contexts (ds : domains) (ps : list node) : list (list (node * outcome)) := map (combine ps) (product (map (dom_of ds) ps)).
Lemma contexts_len : forall ds ps, length (contexts ds ps) = contexts_count ds ps.
Proof. intros. unfold contexts. rewrite map_length. apply contexts_length. Qed.
Lemma in_contexts' : forall ds ps pv, ready ds ps -> (In pv (contexts ds ps) <-> context_of ds ps pv).
Proof. intros. apply in_contexts; auto. Qed.
Lemma forced_table : forall g ds cards v f (h : list (node * outcome) -> dist) dom k, In v (nodes g) -> ready ds (parents g v) ->
  cards (parents g v) = Ok (map (fun p => length (dom_of ds p)) (parents g v)) -> NoDup dom -> dom <> [] -> contexts_count ds (parents g v) <> 0%nat ->
  (forall pv, context_of ds (parents g v) pv -> stochastic_function f pv = Ok (h pv) /\ incl (map fst (h pv)) dom /\ prob_column (map (complete dom (h pv)) dom)) ->
  init_table g ds cards v f dom k =
    Ok (mkTab v dom (parents g v) (map (fun p => length (dom_of ds p)) (parents g v)) (map (fun pv => map (complete dom (h pv)) dom) (contexts ds (parents g v))) k).
Proof.
  intros g ds cards v f h dom k Hv R C N Ne Z H. assert (A : all_calls g ds v f (map h (contexts ds (parents g v)))).
  { unfold all_calls. fold (contexts ds (parents g v)). assert (X : forall pv, In pv (contexts ds (parents g v)) -> stochastic_function f pv = Ok (h pv)) by (intros pv Hp; apply H, in_contexts'; auto).
    induction (contexts ds (parents g v)) as [|pv l IH]; simpl; constructor; [apply X; left; auto|apply IH; intros; apply X; right; auto]. }
  rewrite (init_eq g ds v f dom k cards Hv R _ A). assert (Ed : domain_from dom (map h (contexts ds (parents g v))) = dom) by (unfold domain_from; destruct dom; [congruence|auto]).
  rewrite Ed, C. cbn [bind]. cbv zeta. rewrite map_map.
  assert (In1 : forall d, In d (map h (contexts ds (parents g v))) -> exists pv, context_of ds (parents g v) pv /\ d = h pv).
  { intros d Hd. apply in_map_iff in Hd. destruct Hd as (pv & <- & Hp). exists pv. split; auto. apply in_contexts'; auto. }
  replace (forallb (fun x => omem x dom) (flat_map (map fst) (map h (contexts ds (parents g v))))) with true.
  2:{ symmetry. apply forallb_forall. intros x Hx. apply in_flat_map in Hx. destruct Hx as (d & Hd & Hx). destruct (In1 d Hd) as (pv & Hp & ->). apply omem_In. apply (H pv Hp). auto. }
  assert (Pc : forall c, In c (map (fun pv => map (complete dom (h pv)) dom) (contexts ds (parents g v))) -> prob_column c).
  { intros c Hc. apply in_map_iff in Hc. destruct Hc as (pv & <- & Hp). apply H. apply in_contexts'; auto. }
  assert (Len : length (map (fun pv => map (complete dom (h pv)) dom) (contexts ds (parents g v))) = contexts_count ds (parents g v)) by (rewrite map_length; apply contexts_len).
  set (cols := map (fun pv => map (complete dom (h pv)) dom) (contexts ds (parents g v))) in *.
  replace (forallb (fun c => qabs_close (qsum c) 1 hundredth) cols) with true by (symmetry; apply forallb_forall; intros c Hc; apply prob_column_iff, Pc, Hc).
  replace (forallb (forallb (fun p => qleb 0 p && qleb p 1)) cols) with true by (symmetry; apply forallb_forall; intros c Hc; apply prob_column_iff, Pc, Hc).
  replace (length cols =? fold_right Nat.mul 1%nat (map (fun p => length (dom_of ds p)) (parents g v)))%nat with true.
  2:{ symmetry. apply Nat.eqb_eq. rewrite Len. clear. induction (parents g v) as [|p l IH]; simpl; auto. }
  rewrite nodup_id by auto. rewrite Nat.eqb_refl. destruct cols as [|c cols']; [simpl in Len; lia|]. reflexivity.
Qed.
(* the column of an action *)
Definition point (dom : list outcome) (x : outcome) : list Qc := map (fun y => if oeqb y x then 1 else 0) dom.
Lemma complete_point : forall dom x, map (complete dom [(x, Some 1)]) dom = point dom x.
Proof.
  intros dom x. apply map_ext. intro y. unfold complete. cbn [given_entries flat_map snd app map olookup fst]. cbn. destruct (oeqb y x); auto.
  change (Qcplus 1 0) with (1 : Qc). unfold Qcdiv. replace (1 - 1) with 0 by ring. ring.
Qed.
Lemma point_sum : forall dom x, NoDup dom -> In x dom -> qsum (point dom x) = 1.
Proof.
  intros dom x N Hx. unfold point. rewrite (qsum_single _ Qc_eq_dec _ _ x); auto.
  - replace (oeqb x x) with true by (symmetry; apply oeqb_iff; auto). auto.
  - intros y _ Hy. destruct (oeqb_spec y x); [congruence|auto].
Qed.
Lemma point_column : forall dom x, NoDup dom -> In x dom -> prob_column (point dom x).
Proof.
  intros dom x N Hx. split; [|].
  - intros q Hq. apply in_map_iff in Hq. destruct Hq as (y & <- & _). destruct (oeqb y x); split; apply qleb_iff; vm_compute; reflexivity.
  - assert (X := point_sum dom x N Hx). unfold qsum in X. rewrite X. split; apply qleb_iff; vm_compute; reflexivity.
Qed.
Lemma point_inj : forall dom x y, In x dom -> point dom x = point dom y -> x = y.
Proof.
  intros dom x y Hx H. unfold point in H. apply In_nth_error in Hx. destruct Hx as [i Hi].
  assert (A := map_nth_error (fun z => if oeqb z x then 1 else 0) i dom Hi). assert (B := map_nth_error (fun z => if oeqb z y then 1 else 0) i dom Hi).
  rewrite H in A. rewrite A in B. replace (oeqb x x) with true in B by (symmetry; apply oeqb_iff; auto). destruct (oeqb_spec x y); auto. injection B as B. discriminate.
Qed.
Lemma det_table : forall g ds cards v f (h : list (node * outcome) -> outcome) dom k, In v (nodes g) -> ready ds (parents g v) ->
  cards (parents g v) = Ok (map (fun p => length (dom_of ds p)) (parents g v)) -> NoDup dom -> contexts_count ds (parents g v) <> 0%nat ->
  (forall pv, context_of ds (parents g v) pv -> call f pv = Ok (VOut (h pv)) /\ In (h pv) dom) ->
  init_table g ds cards v f dom k =
    Ok (mkTab v dom (parents g v) (map (fun p => length (dom_of ds p)) (parents g v)) (map (fun pv => point dom (h pv)) (contexts ds (parents g v))) k).
Proof.
  intros g ds cards v f h dom k Hv R C N Z H.
  assert (Ne : dom <> []). { destruct (contexts ds (parents g v)) as [|pv l] eqn:E; [exfalso; apply Z; rewrite <- contexts_len, E; auto|]. intros ->. assert (X : In pv (contexts ds (parents g v))) by (rewrite E; left; auto). apply in_contexts' in X; auto. destruct (H pv X) as [_ []]. }
  rewrite (forced_table g ds cards v f (fun pv => [(h pv, Some 1)]) dom k); auto.
  - do 2 f_equal. apply map_ext. intro pv. apply complete_point.
  - intros pv Hp. destruct (H pv Hp) as [H1 H2]. split; [unfold stochastic_function; rewrite H1; auto|]. split; [intros x [<-|[]]; auto|].
    rewrite complete_point. apply point_column; auto.
Qed.

(* ---- the number of a context for the tuples of pure_decision_rules: the first parent varies fastest ---- *)
Fixpoint first_fastest (ds : domains) (pv : list (node * outcome)) : nat :=
  match pv with
  | [] => 0%nat
  | (p, x) :: pv' => (pos x (dom_of ds p) + length (dom_of ds p) * first_fastest ds pv')%nat
  end.
Lemma first_lt : forall ds pv ps, context_of ds ps pv -> (first_fastest ds pv < contexts_count ds ps)%nat.
Proof.
  intros ds pv. induction pv as [|[p x] pv IH]; intros ps [E H]; cbn [map] in E; subst ps; [simpl; lia|]. cbn [first_fastest contexts_count fold_right fst].
  destruct (H p x (or_introl eq_refl)) as (d & D1 & D2). assert (Hx : In x (dom_of ds p)) by (unfold dom_of; rewrite D1; auto). assert (L := pos_lt _ _ Hx).
  assert (I := IH (map fst pv)). unfold contexts_count in I. assert (I' : (first_fastest ds pv < fold_right (fun p n => (length (dom_of ds p) * n)%nat) 1%nat (map fst pv))%nat).
  { apply I. split; auto. intros q y Hq. apply (H q y). right; auto. } nia.
Qed.
Lemma pos_inj : forall l x y, In x l -> In y l -> pos x l = pos y l -> x = y.
Proof. intros l x y Hx Hy H. apply pos_nth in Hx, Hy. congruence. Qed.
Lemma first_inj : forall ds pv pv' ps, context_of ds ps pv -> context_of ds ps pv' -> first_fastest ds pv = first_fastest ds pv' -> pv = pv'.
Proof.
  intros ds pv. induction pv as [|[p x] pv IH]; intros pv' ps [E H] [E' H'] K; cbn [map] in E; subst ps.
  - destruct pv'; [auto|discriminate].
  - destruct pv' as [|[q y] pv']; [discriminate|]. cbn [map] in E'. injection E' as E1 E2. cbn [fst] in E1. subst q. cbn [first_fastest] in K.
    destruct (H p x (or_introl eq_refl)) as (d & D1 & D2). destruct (H' p y (or_introl eq_refl)) as (d' & D1' & D2').
    assert (Hx : In x (dom_of ds p)) by (unfold dom_of; rewrite D1; auto). assert (Hy : In y (dom_of ds p)) by (unfold dom_of; rewrite D1'; auto).
    assert (Lx := pos_lt _ _ Hx). assert (Ly := pos_lt _ _ Hy).
    assert (first_fastest ds pv = first_fastest ds pv') by nia. assert (pos x (dom_of ds p) = pos y (dom_of ds p)) by nia.
    f_equal; [f_equal; eapply pos_inj; eauto|]. apply (IH pv' (map fst pv)); auto; split; auto; intros r z Hr; [apply (H r z)|apply (H' r z)]; right; auto.
Qed.
Lemma nodup_contexts : forall ds ps, (forall p, In p ps -> NoDup (dom_of ds p)) -> NoDup (contexts ds ps).
Proof.
  intros ds ps H. unfold contexts. assert (P : NoDup (product (map (dom_of ds) ps))). { apply NoDup_product. intros l Hl. apply in_map_iff in Hl. destruct Hl as (p & <- & Hp). auto. }
  assert (Len : forall xs, In xs (product (map (dom_of ds) ps)) -> length xs = length ps). { intros xs Hx. apply in_product in Hx. apply Forall2_len in Hx. rewrite map_length in Hx. auto. }
  induction P as [|xs l Hn P IH]; simpl; constructor.
  - intro K. apply in_map_iff in K. destruct K as (ys & E & K). apply Hn. assert (xs = ys); [|subst; auto].
    assert (L1 := Len xs (or_introl eq_refl)). assert (L2 := Len ys (or_intror K)). clear - E L1 L2. revert xs ys L1 L2 E. induction ps as [|p ps IH]; intros [|x xs] [|y ys] L1 L2 E; simpl in *; try discriminate; auto.
    injection E as -> E. f_equal. apply IH; auto.
  - apply IH. intros ys Hy. apply Len. right; auto.
Qed.
(* every number below the number of contexts belongs to a context *)
Lemma first_onto : forall ds ps k, ready ds ps -> (forall p, In p ps -> NoDup (dom_of ds p)) -> (k < contexts_count ds ps)%nat ->
  exists pv, context_of ds ps pv /\ first_fastest ds pv = k.
Proof.
  intros ds ps k R N Hk. assert (X : incl (seq 0 (contexts_count ds ps)) (map (first_fastest ds) (contexts ds ps))).
  { apply NoDup_length_incl.
    - assert (Nc := nodup_contexts ds ps N). assert (Hc : forall pv, In pv (contexts ds ps) -> context_of ds ps pv) by (intros; apply in_contexts'; auto).
      induction Nc as [|pv l Hn Nc IH]; simpl; constructor.
      + intro K. apply in_map_iff in K. destruct K as (pv' & E & K). apply Hn. rewrite (first_inj ds pv pv' ps); auto; apply Hc; [left|right]; auto.
      + apply IH. intros; apply Hc; right; auto.
    - rewrite map_length, contexts_len, seq_length. auto.
    - intros i Hi. apply in_map_iff in Hi. destruct Hi as (pv & <- & Hp). apply in_contexts' in Hp; auto. apply in_seq. assert (L := first_lt ds pv ps Hp). lia. }
  assert (Hi : In k (seq 0 (contexts_count ds ps))) by (apply in_seq; lia). apply X in Hi. apply in_map_iff in Hi. destruct Hi as (pv & E & Hp). exists pv. split; auto. apply in_contexts'; auto.
Qed.
Lemma number_pos : forall x l, In x l -> number_of x l = Some (pos x l).
Proof.
  intros x l. induction l as [|y l IH]; intros Hx; [destruct Hx|]. simpl. destruct (Qc_eq_dec x y) as [->|E].
  - replace (oeqb y y) with true by (symmetry; apply oeqb_iff; auto). auto.
  - destruct (oeqb_spec x y); [congruence|]. destruct Hx as [|Hx]; [congruence|]. rewrite IH; auto.
Qed.
Lemma prod_firstn_snoc : forall cards i c, nth_error cards i = Some c -> prod_of (firstn (S i) cards) = (prod_of (firstn i cards) * c)%nat.
Proof.
  intros cards. induction cards as [|b cards IH]; intros [|i] c H; simpl in H; try discriminate.
  - injection H as <-. simpl. lia.
  - assert (X := IH i c H). change (firstn (S (S i)) (b :: cards)) with (b :: firstn (S i) cards). change (firstn (S i) (b :: cards)) with (b :: firstn i cards).
    unfold prod_of in *. cbn [fold_right]. rewrite X. lia.
Qed.
(* every parent has a table, and its states are the domain the network has for it *)
Definition tabled (n : net) (ps : list node) : Prop := forall p, In p ps -> In p (nodes (ngraph n)) /\ exists t, cpd_of n p = Some t /\ lookup p (doms n) = Some (tdom t).
Lemma tabled_ready : forall n ps, tabled n ps -> ready (doms n) ps.
Proof. intros n ps H p Hp. destruct (H p Hp) as (_ & t & _ & L). congruence. Qed.
Lemma tabled_cards : forall n ps, tabled n ps -> map_r (get_cardinality n) ps = Ok (map (fun p => length (dom_of (doms n) p)) ps).
Proof.
  intros n ps H. apply map_r_all. induction ps as [|p ps IH]; simpl; constructor.
  - destruct (H p (or_introl eq_refl)) as (Hp & t & C & L). unfold get_cardinality, get_cpds. rewrite (proj2 (mem_In _ _) Hp), C. cbn [bind]. unfold dom_of. rewrite L. auto.
  - apply IH. intros q Hq. apply H. right; auto.
Qed.
Lemma arg2idx_ok : forall n ps0 pv0, tabled n ps0 -> NoDup ps0 -> context_of (doms n) ps0 pv0 ->
  arg2idx n ps0 (map (fun p => length (dom_of (doms n) p)) ps0) pv0 = Ok (first_fastest (doms n) pv0).
Proof.
  intros n ps0 pv0 T N C. unfold arg2idx. set (cards := map (fun p => length (dom_of (doms n) p)) ps0).
  assert (L : forall pv i ps idx, ps = map fst pv -> skipn i ps0 = ps -> skipn i pv0 = pv -> NoDup ps0 ->
    arg2idx_loop n cards pv0 i ps idx = Ok (idx + first_fastest (doms n) pv * prod_of (firstn i cards))%nat).
  { induction pv as [|[p x] pv IH]; intros i ps idx -> E1 E2 _; cbn [map fst arg2idx_loop first_fastest].
    - f_equal. lia.
    - assert (Hp : nth_error ps0 i = Some p). { rewrite <- (firstn_skipn i ps0), E1. cbn [map fst]. rewrite nth_error_app2; rewrite firstn_length_le; auto; [rewrite Nat.sub_diag; auto|..];
        destruct (le_lt_dec i (length ps0)); auto; rewrite skipn_all2 in E1 by lia; discriminate. }
      assert (Hx : In (p, x) pv0). { rewrite <- (firstn_skipn i pv0), E2. apply in_or_app. right. left. auto. }
      destruct C as [C1 C2]. assert (Lp : lookup p pv0 = Some x) by (apply In_lookup; [change (NoDup (map fst pv0)); rewrite C1; auto|auto]).
      unfold dict_get. rewrite Lp. cbn [bind]. destruct (T p (nth_error_In _ _ Hp)) as (Hn & t & Ct & Lt). destruct (C2 p x Hx) as (d & D1 & D2). rewrite Lt in D1. injection D1 as <-.
      unfold state_no, get_cpds. rewrite (proj2 (mem_In _ _) Hn), Ct. cbn [bind]. rewrite number_pos by auto. cbn [bind].
      rewrite (IH (S i) (map fst pv)); auto.
      + f_equal. assert (Hc : nth_error cards i = Some (length (dom_of (doms n) p))) by (unfold cards; rewrite nth_error_map, Hp; auto).
        rewrite (prod_firstn_snoc _ _ _ Hc). unfold dom_of. rewrite Lt. lia.
      + assert (X : forall (A : Type) j (l : list A) y l', skipn j l = y :: l' -> skipn (S j) l = l'). { clear. intros A j. induction j as [|j IH]; intros [|z l] y l' H; simpl in *; try discriminate; [congruence|]. eapply IH; eauto. }
        eapply X; eauto.
      + assert (X : forall (A : Type) j (l : list A) y l', skipn j l = y :: l' -> skipn (S j) l = l'). { clear. intros A j. induction j as [|j IH]; intros [|z l] y l' H; simpl in *; try discriminate; [congruence|]. eapply IH; eauto. }
        eapply X; eauto. }
  rewrite (L pv0 0%nat ps0 0%nat); auto; [|symmetry; apply C]. cbn [bind firstn]. change (prod_of []) with 1%nat. replace (0 + first_fastest (doms n) pv0 * 1)%nat with (first_fastest (doms n) pv0) by lia.
  assert (Lt := first_lt (doms n) pv0 ps0 C). assert (Ec : prod_of cards = contexts_count (doms n) ps0) by (unfold cards, prod_of; clear; induction ps0 as [|p l IH]; simpl; auto).
  rewrite Ec. destruct (Nat.leb_spec (first_fastest (doms n) pv0) (contexts_count (doms n) ps0)); auto. lia.
Qed.
(* ---- the rules listed ---- *)
Definition tuple_fn (ds : domains) (fl : list outcome) (pv : list (node * outcome)) : outcome := nth (first_fastest ds pv) fl 0.
Definition det_tab (n : net) (d : node) (dom : list outcome) (h : list (node * outcome) -> outcome) : tab :=
  mkTab d dom (parents (ngraph n) d) (map (fun p => length (dom_of (doms n) p)) (parents (ngraph n) d))
        (map (fun pv => point dom (h pv)) (contexts (doms n) (parents (ngraph n) d))) KStoch.
Lemma call_kw : forall b pv, call (mkFn [] true b) pv = b pv.
Proof. intros. unfold call. simpl. destruct pv; reflexivity. Qed.
Lemma prod_cards : forall ds ps, prod_of (map (fun p => length (dom_of ds p)) ps) = contexts_count ds ps.
Proof. intros ds ps. unfold prod_of. induction ps as [|p l IH]; simpl; auto. Qed.
Lemma count_pos : forall ds ps, (forall p, In p ps -> dom_of ds p <> []) -> contexts_count ds ps <> 0%nat.
Proof.
  intros ds ps H. unfold contexts_count. induction ps as [|p ps IH]; simpl; [discriminate|]. assert (X := IH (fun q Hq => H q (or_intror Hq))). assert (Y := H p (or_introl eq_refl)).
  destruct (dom_of ds p); [congruence|]. simpl. intro K. apply Nat.eq_add_0 in K. destruct K as [K _]. auto.
Qed.
Lemma rules_eq : forall n d dom, In d (nodes (ngraph n)) -> lookup d (doms n) = Some dom -> NoDup dom -> tabled n (parents (ngraph n) d) ->
  NoDup (parents (ngraph n) d) -> (forall p, In p (parents (ngraph n) d) -> dom_of (doms n) p <> []) ->
  pure_decision_rules n d = Ok (map (fun fl => det_tab n d dom (tuple_fn (doms n) fl)) (product (repeat dom (contexts_count (doms n) (parents (ngraph n) d))))).
Proof.
  intros n d dom Hd L N T Np Ne. unfold pure_decision_rules, dict_get. rewrite L. cbn [bind]. rewrite (get_parents_ok (ngraph n) d Hd). cbn [bind].
  assert (Cs := tabled_cards n _ T). rewrite Cs. cbn [bind]. rewrite prod_cards.
  assert (F : forall fl, In fl (product (repeat dom (contexts_count (doms n) (parents (ngraph n) d)))) ->
    init_table (ngraph n) (doms n) (cards_of n) d (rule_fn n (parents (ngraph n) d) (map (fun p => length (dom_of (doms n) p)) (parents (ngraph n) d)) fl) dom KStoch = Ok (det_tab n d dom (tuple_fn (doms n) fl))).
  { intros fl Hf. apply in_product in Hf. assert (Lf := Forall2_len _ _ _ _ _ Hf). rewrite repeat_length in Lf. unfold det_tab. apply det_table; auto.
    - apply tabled_ready; auto.
    - apply count_pos; auto.
    - intros pv Hp. assert (Lt := first_lt _ _ _ Hp). assert (G : nth_error fl (first_fastest (doms n) pv) = Some (tuple_fn (doms n) fl pv)) by (apply nth_error_nth'; lia). split.
      + unfold rule_fn. rewrite call_kw. rewrite arg2idx_ok by auto. cbn [bind]. rewrite G. auto.
      + apply nth_error_In in G. destruct (Forall2_in_l _ _ _ _ _ _ Hf G) as (l & Hl & Hx). apply repeat_spec in Hl. subst l. auto. }
  apply map_r_all. induction (product (repeat dom (contexts_count (doms n) (parents (ngraph n) d)))) as [|fl l IH]; simpl; constructor; [apply F; left; auto|apply IH; intros; apply F; right; auto].
Qed.
Lemma map_ext_inv : forall (A B : Type) (f g : A -> B) l, map f l = map g l -> forall x, In x l -> f x = g x.
Proof. intros A B f g l. induction l as [|y l IH]; intros H x Hx; [destruct Hx|]. simpl in H. injection H as H1 H2. destruct Hx as [<-|Hx]; auto. Qed.
Lemma det_tab_inj : forall n d dom h h', ready (doms n) (parents (ngraph n) d) -> (forall pv, context_of (doms n) (parents (ngraph n) d) pv -> In (h pv) dom) ->
  det_tab n d dom h = det_tab n d dom h' -> forall pv, context_of (doms n) (parents (ngraph n) d) pv -> h pv = h' pv.
Proof.
  intros n d dom h h' R Hh E pv Hp. unfold det_tab in E. injection E as E. apply (point_inj dom); auto. apply (map_ext_inv _ _ _ _ _ E). apply in_contexts'; auto.
Qed.
Lemma tuple_nth : forall (A : Type) (l l' : list A), length l = length l' -> (forall k, (k < length l)%nat -> nth_error l k = nth_error l' k) -> l = l'.
Proof.
  intros A l. induction l as [|x l IH]; intros [|y l'] E H; try discriminate; auto. assert (X := H 0%nat ltac:(simpl; lia)). simpl in X. injection X as ->. f_equal. apply IH; [simpl in E; lia|].
  intros k Hk. apply (H (S k)). simpl. lia.
Qed.
Lemma rules_nodup : forall n d dom, NoDup dom -> ready (doms n) (parents (ngraph n) d) -> (forall p, In p (parents (ngraph n) d) -> NoDup (dom_of (doms n) p)) ->
  NoDup (map (fun fl => det_tab n d dom (tuple_fn (doms n) fl)) (product (repeat dom (contexts_count (doms n) (parents (ngraph n) d))))).
Proof.
  intros n d dom N R Np. assert (P : NoDup (product (repeat dom (contexts_count (doms n) (parents (ngraph n) d))))) by (apply NoDup_product; intros l Hl; apply repeat_spec in Hl; subst; auto).
  assert (F : forall fl, In fl (product (repeat dom (contexts_count (doms n) (parents (ngraph n) d)))) -> length fl = contexts_count (doms n) (parents (ngraph n) d) /\ forall x, In x fl -> In x dom).
  { intros fl Hf. apply in_product in Hf. split; [rewrite (Forall2_len _ _ _ _ _ Hf); apply repeat_length|]. intros x Hx. destruct (Forall2_in_l _ _ _ _ _ _ Hf Hx) as (l & Hl & Hx'). apply repeat_spec in Hl. subst; auto. }
  induction P as [|fl l Hn P IH]; simpl; constructor.
  - intro K. apply in_map_iff in K. destruct K as (fl' & E & Hf'). apply Hn. destruct (F fl (or_introl eq_refl)) as [L1 I1]. destruct (F fl' (or_intror Hf')) as [L2 I2]. replace fl with fl'; auto.
    apply tuple_nth; [lia|]. intros k Hk. destruct (first_onto (doms n) (parents (ngraph n) d) k R Np ltac:(lia)) as (pv & Hp & <-).
    assert (X : tuple_fn (doms n) fl' pv = tuple_fn (doms n) fl pv). { apply (det_tab_inj n d dom (tuple_fn (doms n) fl') (tuple_fn (doms n) fl)); auto. intros pv' Hp'. apply I2. apply nth_In. rewrite L2. apply first_lt; auto. }
    rewrite (nth_error_nth' fl 0) by lia. rewrite (nth_error_nth' fl' 0) by lia. f_equal. exact X.
  - apply IH. intros fl' Hf'. apply F. right; auto.
Qed.
(* every choice function is a tuple *)
Lemma tuple_of : forall n d dom (h : list (node * outcome) -> outcome), ready (doms n) (parents (ngraph n) d) -> (forall p, In p (parents (ngraph n) d) -> NoDup (dom_of (doms n) p)) ->
  (forall pv, context_of (doms n) (parents (ngraph n) d) pv -> In (h pv) dom) ->
  exists fl, In fl (product (repeat dom (contexts_count (doms n) (parents (ngraph n) d)))) /\ det_tab n d dom (tuple_fn (doms n) fl) = det_tab n d dom h.
Proof.
  intros n d dom h R Np Hh. set (N := contexts_count (doms n) (parents (ngraph n) d)).
  assert (X : forall m, (m <= N)%nat -> exists fl, length fl = m /\ (forall x, In x fl -> In x dom) /\ forall pv, context_of (doms n) (parents (ngraph n) d) pv -> (first_fastest (doms n) pv < m)%nat -> nth_error fl (first_fastest (doms n) pv) = Some (h pv)).
  { induction m as [|m IH]; intro Hm; [exists []; repeat split; intros; [destruct H|lia]|]. destruct IH as (fl & L & I & G); [lia|].
    destruct (first_onto (doms n) (parents (ngraph n) d) m R Np ltac:(unfold N in Hm; lia)) as (pv0 & Hp0 & E0). exists (fl ++ [h pv0]). split; [rewrite app_length; simpl; lia|]. split.
    - intros x Hx. apply in_app_or in Hx. destruct Hx as [Hx|[<-|[]]]; auto.
    - intros pv Hp Lt. destruct (Nat.eq_dec (first_fastest (doms n) pv) m) as [E|E].
      + rewrite nth_error_app2 by lia. rewrite E, L, Nat.sub_diag. simpl. f_equal. f_equal. eapply first_inj; eauto. congruence.
      + rewrite nth_error_app1 by lia. apply G; auto. lia. }
  destruct (X N (le_n _)) as (fl & L & I & G). exists fl. split.
  - apply in_product. rewrite <- L. clear - I. induction fl as [|x fl IH]; simpl; constructor; [apply I; left; auto|apply IH; intros; apply I; right; auto].
  - unfold det_tab. f_equal. apply map_ext_in. intros pv Hp. apply in_contexts' in Hp; auto. f_equal. unfold tuple_fn. apply nth_error_nth. apply G; auto. apply first_lt; auto.
Qed.
Lemma nth_ext_list : forall (A : Type) (l l' : list A), length l = length l' -> (forall k x, nth_error l k = Some x -> nth_error l' k = Some x) -> l = l'.
Proof. intros A l l' E H. apply tuple_nth; auto. intros k Hk. destruct (nth_error l k) as [x|] eqn:X; [symmetry; auto|]. apply nth_error_None in X. lia. Qed.
Lemma plays_iff : forall n d dom h t, ready (doms n) (parents (ngraph n) d) -> (forall p, In p (parents (ngraph n) d) -> NoDup (dom_of (doms n) p)) -> lookup d (doms n) = Some dom ->
  (plays n d h t <-> t = det_tab n d dom h).
Proof.
  intros n d dom h t R Np L. split.
  - intros (V & D & E & C & K & Len & H). destruct t as [tv td te tc tl tk]. cbn [tvar tdom tev tcards tcols tkind] in *. subst. unfold has_domain in D. rewrite L in D. injection D as <-. unfold det_tab. f_equal.
    apply nth_ext_list; [rewrite map_length, contexts_len; auto|]. intros k col Hc. assert (Lt : (k < length (contexts (doms n) (parents (ngraph n) d)))%nat). { rewrite contexts_len, <- Len. apply nth_error_Some. congruence. }
    destruct (nth_error (contexts (doms n) (parents (ngraph n) d)) k) as [pv|] eqn:Ep; [|apply nth_error_None in Ep; lia]. assert (Hp := nth_error_In _ _ Ep). apply in_contexts' in Hp; auto.
    rewrite (map_nth_error _ _ _ Ep). f_equal. destruct (H pv Hp) as (col' & Hc' & Lc & Hx). destruct (context_at (doms n) (parents (ngraph n) d) pv Hp) as [I1 I2].
    assert (k = context_index (doms n) pv). { apply (proj1 (NoDup_nth_error _) (nodup_contexts (doms n) (parents (ngraph n) d) Np)); auto. rewrite Ep. symmetry. exact I2. }
    subst k. rewrite Hc in Hc'. injection Hc' as <-. apply nth_ext_list; [unfold point; rewrite map_length; auto|]. intros i x Hi. unfold point in *. rewrite nth_error_map in Hi.
    destruct (nth_error dom i) as [y|] eqn:Ey; [|discriminate]. injection Hi as <-. rewrite (Hx i y Ey). f_equal. destruct (oeqb_spec y (h pv)); destruct (Qc_eq_dec y (h pv)); congruence.
  - intros ->. unfold plays, det_tab. cbn [tvar tdom tev tcards tcols tkind]. repeat split; auto; [rewrite map_length; apply contexts_len|]. intros pv Hp. exists (point dom (h pv)).
    destruct (context_at (doms n) (parents (ngraph n) d) pv Hp) as [I1 I2]. split; [exact (map_nth_error _ _ _ I2)|]. split; [unfold point; apply map_length|].
    intros i x Hi. unfold point. rewrite (map_nth_error _ _ _ Hi). f_equal. destruct (oeqb_spec x (h pv)); destruct (Qc_eq_dec x (h pv)); congruence.
Qed.
Lemma edge_parents : forall g u v, In u (parents g v) <-> edge g u v.
Proof. intros. apply in_parents. Qed.
Lemma open_tabled : forall n d, wf_dag (ngraph n) -> single_tables n -> open_decision n d ->
  tabled n (parents (ngraph n) d) /\ (forall p, In p (parents (ngraph n) d) -> NoDup (dom_of (doms n) p) /\ dom_of (doms n) p <> []) /\ NoDup (parents (ngraph n) d).
Proof.
  intros n d W S (Hd & _ & H). split; [|split].
  - intros p Hp. apply in_parents in Hp. destruct (H p Hp) as (t & T & D & _). split; [apply (proj1 W) in Hp; tauto|]. exists t. split; auto.
    destruct T as [T1 T2]. unfold cpd_of, find_tab. destruct (find (fun t0 => String.eqb (tvar t0) p) (cpds n)) as [t'|] eqn:F.
    + f_equal. apply find_some in F. destruct F as [F1 F2]. apply String.eqb_eq in F2. apply (S p); split; auto.
    + exfalso. assert (X := find_none _ _ F t T1). simpl in X. rewrite T2, String.eqb_refl in X. discriminate.
  - intros p Hp. apply in_parents in Hp. destruct (H p Hp) as (t & T & D & N & E). unfold dom_of. unfold has_domain in D. rewrite D. auto.
  - apply nodup_parents. apply W.
Qed.
