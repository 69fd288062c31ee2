(* Lemmas about the construction of probability tables. *)
From Coq Require Import String List Bool Arith QArith Qcanon Sorted Lia Permutation.
Import ListNotations.
From Verif Require Import MBase MGraph MMacid MCpd Spec SpecC LBase LGraph LQc.
Local Open Scope Qc_scope.

(* ---- loops and products ---- *)
Lemma map_r_ok : forall (A B : Type) (f : A -> result B) l ys, map_r f l = Ok ys -> Forall2 (fun x y => f x = Ok y) l ys.
Proof.
  intros A B f l. induction l as [|x l IH]; intros ys H; simpl in H.
  - injection H as <-. constructor.
  - destruct (f x) as [y|e] eqn:E; simpl in H; [|discriminate]. destruct (map_r f l) as [zs|e]; simpl in H; [|discriminate].
    injection H as <-. constructor; auto.
Qed.
Lemma map_r_all : forall (A B : Type) (f : A -> result B) l ys, Forall2 (fun x y => f x = Ok y) l ys -> map_r f l = Ok ys.
Proof. intros A B f l ys H. induction H; simpl; auto. rewrite H, IHForall2. auto. Qed.
Lemma map_r_total : forall (A B : Type) (f : A -> result B) l, (forall x, In x l -> exists y, f x = Ok y) -> exists ys, map_r f l = Ok ys.
Proof.
  intros A B f l. induction l as [|x l IH]; intro H; simpl; eauto.
  destruct (H x (or_introl eq_refl)) as [y ->]. destruct IH as [ys ->]; [intros; apply H; simpl; auto|]. simpl. eauto.
Qed.
Lemma map_r_err : forall (A B : Type) (f : A -> result B) l e, map_r f l = Err e -> exists x, In x l /\ f x = Err e.
Proof.
  intros A B f l. induction l as [|x l IH]; intros e H; simpl in H; [discriminate|].
  destruct (f x) as [y|e'] eqn:E; simpl in H.
  - destruct (map_r f l) as [zs|e']; simpl in H; [discriminate|]. injection H as <-.
    destruct (IH e' eq_refl) as (z & Z1 & Z2). exists z. simpl; auto.
  - injection H as <-. exists x. simpl; auto.
Qed.
Lemma map_r_ext : forall (A B : Type) (f h : A -> result B) l, (forall x, In x l -> f x = h x) -> map_r f l = map_r h l.
Proof.
  intros A B f h l. induction l as [|x l IH]; intro H; simpl; auto. rewrite (H x) by (simpl; auto).
  rewrite IH by (intros; apply H; simpl; auto). auto.
Qed.
Lemma Forall2_nth : forall (A B : Type) (R : A -> B -> Prop) l l' i x y, Forall2 R l l' ->
  nth_error l i = Some x -> nth_error l' i = Some y -> R x y.
Proof.
  intros A B R l l' i x y F. revert i. induction F; intros [|i] H1 H2; simpl in *; try discriminate.
  - injection H1 as <-. injection H2 as <-. auto.
  - eauto.
Qed.
Lemma Forall2_len : forall (A B : Type) (R : A -> B -> Prop) l l', Forall2 R l l' -> length l = length l'.
Proof. intros A B R l l' F. induction F; simpl; auto. Qed.
Lemma Forall2_in_l : forall (A B : Type) (R : A -> B -> Prop) l l' x, Forall2 R l l' -> In x l -> exists y, In y l' /\ R x y.
Proof.
  intros A B R l l' x F. induction F; intros H0; [destruct H0|]. destruct H0 as [<-|H0]; [exists y; simpl; auto|].
  destruct (IHF H0) as (z & Z1 & Z2). exists z. simpl; auto.
Qed.
Lemma Forall2_in_r : forall (A B : Type) (R : A -> B -> Prop) l l' y, Forall2 R l l' -> In y l' -> exists x, In x l /\ R x y.
Proof.
  intros A B R l l' y F. induction F; intros H0; [destruct H0|]. destruct H0 as [<-|H0]; [exists x; simpl; auto|].
  destruct (IHF H0) as (z & Z1 & Z2). exists z. simpl; auto.
Qed.
Lemma in_product : forall (A : Type) (ls : list (list A)) xs, In xs (product ls) <-> Forall2 (fun x l => In x l) xs ls.
Proof.
  intros A ls. induction ls as [|l ls IH]; intro xs; simpl.
  - split; [intros [<-|[]]; constructor|intro H; inversion H; auto].
  - rewrite in_flat_map. split.
    + intros (x & Hx & K). apply in_map_iff in K. destruct K as (ys & <- & K). constructor; auto. apply IH; auto.
    + intro H. inversion H as [|x ? ys ? H1 H2]; subst. exists x. split; auto. apply in_map. apply IH; auto.
Qed.
Lemma product_length : forall (A : Type) (ls : list (list A)), length (product ls) = fold_right (fun l n => length l * n)%nat 1%nat ls.
Proof.
  intros A ls. induction ls as [|l ls IH]; simpl; auto. rewrite <- IH.
  induction l as [|x l IHl]; simpl; auto. rewrite app_length, map_length, IHl. auto.
Qed.
Lemma NoDup_map_inj' : forall (A B : Type) (f : A -> B) l, (forall x y, f x = f y -> x = y) -> NoDup l -> NoDup (map f l).
Proof.
  intros A B f l Hf N. induction N; simpl; constructor; auto. intro K. apply in_map_iff in K. destruct K as (y & E & K).
  apply Hf in E. subst. contradiction.
Qed.
Lemma NoDup_product : forall (A : Type) (ls : list (list A)), (forall l, In l ls -> NoDup l) -> NoDup (product ls).
Proof.
  intros A ls. induction ls as [|l ls IH]; intro H; simpl; [constructor; auto; constructor|].
  assert (P : NoDup (product ls)) by (apply IH; intros; apply H; simpl; auto).
  assert (L : NoDup l) by (apply H; simpl; auto). clear IH H. induction L; simpl; [constructor|].
  assert (forall l1 l2 : list (list A), NoDup l1 -> NoDup l2 -> (forall x, In x l1 -> ~ In x l2) -> NoDup (l1 ++ l2)) as AppND.
  { intros l1 l2 N1 N2 D. induction N1; simpl; auto. constructor.
    - intro K. apply in_app_or in K. destruct K; [contradiction|]. apply (D x0); simpl; auto.
    - apply IHN1. intros y Hy. apply D. simpl; auto. }
  apply AppND; auto.
  - apply NoDup_map_inj'; auto. intros a b E. congruence.
  - intros y Hy K. apply in_map_iff in Hy. destruct Hy as (zs & <- & _). apply in_flat_map in K. destruct K as (x' & Hx' & K).
    apply in_map_iff in K. destruct K as (ws & E & _). injection E as -> _. contradiction.
Qed.
Lemma pos_nth : forall x l, In x l -> nth_error l (pos x l) = Some x.
Proof.
  intros x l. induction l as [|y l IH]; intro H; [destruct H|]. simpl. destruct (Qc_eq_dec x y) as [->|Hn]; auto.
  destruct H as [->|H]; [congruence|]. simpl. auto.
Qed.
Lemma pos_lt : forall x l, In x l -> (pos x l < length l)%nat.
Proof. intros x l H. apply pos_nth in H. apply nth_error_Some. congruence. Qed.
Lemma nth_block : forall (A : Type) (l : list outcome) (f : outcome -> list A) n x i, In x l ->
  (forall y, length (f y) = n) -> (i < n)%nat -> nth_error (flat_map f l) (pos x l * n + i) = nth_error (f x) i.
Proof.
  intros A l f n x i Hx Hl Hi. induction l as [|y l IH]; [destruct Hx|]. simpl.
  destruct (Qc_eq_dec x y) as [->|Hn].
  - simpl. rewrite nth_error_app1 by (rewrite Hl; auto). auto.
  - destruct Hx as [->|Hx]; [congruence|]. rewrite nth_error_app2 by (rewrite Hl; lia). rewrite Hl.
    replace (S (pos x l) * n + i - n)%nat with (pos x l * n + i)%nat by lia. auto.
Qed.

(* ---- contexts ---- *)
Definition ready (doms : domains) (ps : list node) : Prop := forall p, In p ps -> lookup p doms <> None.
Lemma parent_domains_ok : forall doms ps, ready doms ps -> map_r (parent_domain doms) ps = Ok (map (dom_of doms) ps).
Proof.
  intros doms ps H. apply map_r_all. induction ps as [|p ps IH]; simpl; constructor.
  - unfold parent_domain, dom_of. destruct (lookup p doms) eqn:E; auto. exfalso. apply (H p); simpl; auto.
  - apply IH. intros q Hq. apply H. simpl; auto.
Qed.
Lemma ready_dec : forall doms ps, ready doms ps \/ exists p, In p ps /\ lookup p doms = None.
Proof.
  intros doms ps. induction ps as [|p ps IH]; [left; intros q []|]. destruct (lookup p doms) eqn:E.
  - destruct IH as [R|(q & Q1 & Q2)]; [|right; exists q; simpl; auto]. left. intros q [<-|Hq]; [congruence|auto].
  - right. exists p. simpl; auto.
Qed.
Lemma parent_domains_err : forall doms ps p, In p ps -> lookup p doms = None -> map_r (parent_domain doms) ps = Err ParentsNotReady.
Proof.
  intros doms ps. induction ps as [|q ps IH]; intros p H E; [destruct H|]. simpl. unfold parent_domain at 1.
  destruct (lookup q doms) eqn:Eq; simpl; auto. destruct H as [->|H]; [congruence|]. rewrite (IH p); auto.
Qed.
Lemma contexts_ok : forall g doms v, In v (nodes g) -> ready doms (parents g v) ->
  parent_values g doms v = Ok (map (combine (parents g v)) (product (map (dom_of doms) (parents g v)))).
Proof.
  intros g doms v Hv R. unfold parent_values, get_parents. rewrite (proj2 (mem_In _ _) Hv). cbn [bind].
  rewrite parent_domains_ok by auto. reflexivity.
Qed.
Lemma map_fst_combine : forall (A B : Type) (l : list A) (l' : list B), length l = length l' -> map fst (combine l l') = l.
Proof. intros A B l. induction l as [|x l IH]; intros [|y l'] H; simpl in *; try discriminate; auto. f_equal. auto. Qed.
Lemma context_of_combine : forall doms ps xs, ready doms ps -> Forall2 (fun x l => In x l) xs (map (dom_of doms) ps) ->
  context_of doms ps (combine ps xs).
Proof.
  intros doms ps. induction ps as [|p ps IH]; intros xs R F; inversion F as [|x ? ys ? F1 F2]; subst; simpl.
  - split; auto. intros p x [].
  - destruct (IH ys) as [I1 I2]; [intros q Hq; apply R; simpl; auto|auto|]. split; [simpl; f_equal; auto|].
    intros q y [E|H]; [|eauto]. injection E as <- <-. unfold dom_of in F1.
    destruct (lookup p doms) as [d|] eqn:E; [eauto|]. exfalso. apply (R p); simpl; auto.
Qed.
Lemma context_split : forall doms ps pv, context_of doms ps pv ->
  exists xs, pv = combine ps xs /\ Forall2 (fun x l => In x l) xs (map (dom_of doms) ps).
Proof.
  intros doms ps pv. revert ps. induction pv as [|[p x] pv IH]; intros ps [E H]; simpl in E; subst ps.
  - exists []. split; auto. constructor.
  - destruct (IH (map fst pv)) as (xs & E & F).
    { split; auto. intros q y Hq. apply (H q y). simpl; auto. }
    exists (x :: xs). split; [simpl; f_equal; auto|]. simpl. constructor; auto.
    destruct (H p x (or_introl eq_refl)) as (d & D1 & D2). unfold dom_of. rewrite D1. auto.
Qed.
Lemma in_contexts : forall doms ps pv, ready doms ps ->
  (In pv (map (combine ps) (product (map (dom_of doms) ps))) <-> context_of doms ps pv).
Proof.
  intros doms ps pv R. rewrite in_map_iff. split.
  - intros (xs & <- & H). apply in_product in H. apply context_of_combine; auto.
  - intro H. destruct (context_split _ _ _ H) as (xs & E & F). exists xs. split; auto. apply in_product; auto.
Qed.
Lemma contexts_length : forall doms ps, length (product (map (dom_of doms) ps)) = contexts_count doms ps.
Proof.
  intros doms ps. rewrite product_length. induction ps as [|p ps IH]; simpl; auto.
Qed.
Lemma context_nth : forall doms ps xs, Forall2 (fun x l => In x l) xs (map (dom_of doms) ps) ->
  (context_index doms (combine ps xs) < contexts_count doms ps)%nat /\
  nth_error (product (map (dom_of doms) ps)) (context_index doms (combine ps xs)) = Some xs.
Proof.
  intros doms ps. induction ps as [|p ps IH]; intros xs F; inversion F as [|x ? ys ? F1 F2]; subst; simpl.
  - split; auto.
  - destruct (IH ys F2) as [I1 I2]. assert (E : map fst (combine ps ys) = ps).
    { apply map_fst_combine. apply Forall2_len in F2. rewrite map_length in F2. auto. }
    rewrite E. assert (Pl := pos_lt _ _ F1). split; [nia|].
    rewrite (nth_block _ _ _ (contexts_count doms ps)); auto.
    + rewrite nth_error_map, I2. auto.
    + intro y. rewrite map_length. apply contexts_length.
Qed.
Lemma context_at : forall doms ps pv, context_of doms ps pv ->
  (context_index doms pv < contexts_count doms ps)%nat /\
  nth_error (map (combine ps) (product (map (dom_of doms) ps))) (context_index doms pv) = Some pv.
Proof.
  intros doms ps pv H. destruct (context_split _ _ _ H) as (xs & -> & F). destruct (context_nth doms ps xs F) as [I1 I2].
  split; auto. rewrite nth_error_map, I2. auto.
Qed.

(* ---- columns ---- *)
Lemma in_given : forall d x p, In (x, p) (given_entries d) <-> gives d x p.
Proof.
  intros d x p. unfold given_entries, gives. rewrite in_flat_map. split.
  - intros ([y [q|]] & H & K); simpl in K; [|destruct K]. destruct K as [K|[]]. injection K as -> ->. auto.
  - intro H. exists (x, Some p). split; auto. simpl. auto.
Qed.
Lemma given_keys : forall d, NoDup (map fst d) -> NoDup (map fst (given_entries d)).
Proof.
  induction d as [|[x [p|]] d IH]; simpl; intro N; [constructor| |]; inversion N as [|? ? N1 N2]; subst; auto.
  simpl. constructor; auto. intro K. apply in_map_iff in K. destruct K as ([y q] & E & K). simpl in E. subst y.
  apply in_given in K. apply N1. change x with (fst (x, Some q)). apply in_map. auto.
Qed.
Lemma given_mass : forall d, qsum (map snd (given_entries d)) = mass d.
Proof.
  unfold mass. induction d as [|[x [p|]] d IH]; cbn [given_entries flat_map map snd fst]; auto.
  - cbn [app map snd qsum fold_right]. f_equal. auto.
  - cbn [app map snd fold_right]. rewrite <- IH. unfold given_entries. ring.
Qed.
Lemma olookup_In : forall (A : Type) x (v : A) d, olookup x d = Some v -> In (x, v) d.
Proof.
  intros A x v d. induction d as [|[y w] d IH]; simpl; intro H; [discriminate|]. destruct (oeqb_spec x y) as [->|Hn]; auto.
  injection H as ->. auto.
Qed.
Lemma In_olookup : forall (A : Type) x (v : A) d, NoDup (map fst d) -> In (x, v) d -> olookup x d = Some v.
Proof.
  intros A x v d. induction d as [|[y w] d IH]; simpl; intros N H; [destruct H|]. inversion N as [|? ? N1 N2]; subst.
  destruct (oeqb_spec x y) as [->|Hn].
  - destruct H as [H|H]; [congruence|]. exfalso. apply N1. change y with (fst (y, v)). apply in_map; auto.
  - destruct H as [H|H]; [congruence|auto].
Qed.
Lemma olookup_None : forall (A : Type) x (d : list (outcome * A)), olookup x d = None -> ~ In x (map fst d).
Proof.
  intros A x d. induction d as [|[y w] d IH]; simpl; intros H K; auto. destruct (oeqb_spec x y) as [->|Hn]; [discriminate|].
  destruct K as [K|K]; [congruence|]. apply IH; auto.
Qed.
Definition open (dom : list outcome) (d : dist) : list outcome :=
  filter (fun x => negb (omem x (map fst (given_entries d)))) (nodup Qc_eq_dec dom).
Lemma in_open : forall dom d x, In x (open dom d) <-> In x dom /\ forall p, ~ gives d x p.
Proof.
  intros dom d x. unfold open. rewrite filter_In, nodup_In, negb_true_iff, omem_nIn. split; intros [H1 H2]; split; auto.
  - intros p K. apply H2. apply in_given in K. change x with (fst (x, p)). apply in_map; auto.
  - intro K. apply in_map_iff in K. destruct K as ([y p] & E & K). simpl in E. subst y. apply in_given in K. eapply H2; eauto.
Qed.
Lemma open_left : forall dom d, left_open dom d (open dom d).
Proof.
  intros dom d. split; [|apply in_open]. unfold open. apply NoDup_filter', NoDup_nodup.
Qed.
Lemma left_open_length : forall dom d l, left_open dom d l -> length l = length (open dom d).
Proof.
  intros dom d l [N H]. apply Permutation_length. apply NoDup_Permutation; auto; [apply open_left|].
  intro x. rewrite H, in_open. tauto.
Qed.
Lemma complete_given : forall dom d x p, is_dict d -> gives d x p -> complete dom d x = p.
Proof.
  intros dom d x p N H. unfold complete. rewrite (In_olookup _ x p); auto; [apply given_keys; auto|apply in_given; auto].
Qed.
Lemma complete_open : forall dom d x, (forall p, ~ gives d x p) ->
  complete dom d x = (1 - mass d) / Qc_of_nat (length (open dom d)).
Proof.
  intros dom d x H. unfold complete. destruct (olookup x (given_entries d)) eqn:E.
  - exfalso. apply olookup_In, in_given in E. eapply H; eauto.
  - rewrite given_mass. reflexivity.
Qed.
Lemma open_pos : forall dom d x, In x dom -> (forall p, ~ gives d x p) -> (0 < length (open dom d))%nat.
Proof.
  intros dom d x H1 H2. assert (K : In x (open dom d)) by (apply in_open; auto). destruct (open dom d); [destruct K|simpl; lia].
Qed.
Lemma given_dec : forall d x, (exists p, gives d x p) \/ forall p, ~ gives d x p.
Proof.
  intros d x. destruct (olookup x (given_entries d)) as [p|] eqn:E.
  - left. exists p. apply in_given, olookup_In; auto.
  - right. intros p K. apply olookup_None in E. apply E. apply in_given in K. change x with (fst (x, p)). apply in_map; auto.
Qed.
Lemma complete_column : forall dom d, is_dict d -> column dom d (map (complete dom d) dom).
Proof.
  intros dom d N. split; [apply map_length|]. intros i x q H1 H2. rewrite nth_error_map, H1 in H2. simpl in H2. injection H2 as <-.
  split.
  - intros p Hp. apply complete_given; auto.
  - intros l L Hx. assert (Ln := left_open_length _ _ _ L). apply L in Hx. rewrite complete_open by tauto. rewrite Ln.
    field. apply Qc_of_nat_nz. eapply open_pos; apply Hx.
Qed.
Lemma nth_ext : forall (A : Type) (l l' : list A), length l = length l' ->
  (forall i x y, nth_error l i = Some x -> nth_error l' i = Some y -> x = y) -> l = l'.
Proof.
  intros A l. induction l as [|x l IH]; intros [|y l'] L H; simpl in L; try discriminate; auto. f_equal.
  - apply (H 0%nat); auto.
  - apply IH; auto. intros i a b Ha Hb. apply (H (S i)); auto.
Qed.
Lemma column_unique : forall dom d col, is_dict d -> column dom d col -> col = map (complete dom d) dom.
Proof.
  intros dom d col N [L H]. apply nth_ext; [rewrite map_length; auto|]. intros i q q' H1 H2.
  rewrite nth_error_map in H2. destruct (nth_error dom i) as [x|] eqn:E; [|discriminate]. simpl in H2. injection H2 as <-.
  destruct (H i x q E H1) as [K1 K2]. destruct (given_dec d x) as [[p Hp]|Hp].
  - rewrite (K1 p Hp). symmetry. apply complete_given; auto.
  - assert (Hx : In x dom) by (eapply nth_error_In; eauto). specialize (K2 (open dom d) (open_left _ _)).
    rewrite complete_open by auto. rewrite <- K2 by (apply in_open; auto). field. apply Qc_of_nat_nz. eapply open_pos; eauto.
Qed.
Lemma filter_split : forall (f : outcome -> bool) (h : outcome -> Qc) l,
  qsum (map h l) = qsum (map h (filter f l)) + qsum (map h (filter (fun x => negb (f x)) l)).
Proof.
  intros f h l. induction l as [|x l IH]; simpl; [ring|]. destruct (f x); simpl; unfold qsum in *; rewrite IH; ring.
Qed.
Lemma nodup_id : forall (l : list outcome), NoDup l -> nodup Qc_eq_dec l = l.
Proof. intros l N. apply nodup_fixed_point; auto. Qed.
(* a column with an outcome left open sums to one *)
Lemma column_sum : forall dom d col x, is_dict d -> NoDup dom -> (forall y, In y (map fst d) -> In y dom) ->
  column dom d col -> In x dom -> (forall p, ~ gives d x p) -> qsum col = 1.
Proof.
  intros dom d col x N ND Sub C Hx Op. rewrite (column_unique dom d col N C).
  rewrite (filter_split (fun y => omem y (map fst (given_entries d)))).
  assert (E1 : qsum (map (complete dom d) (filter (fun y => omem y (map fst (given_entries d))) dom)) = mass d).
  { rewrite (qsum_perm _ (map (complete dom d) (map fst (given_entries d)))).
    - rewrite <- given_mass. rewrite map_map. apply qsum_ext. intros [y p] Hy. simpl. apply complete_given; auto. apply in_given; auto.
    - apply Permutation_map. apply NoDup_Permutation; [apply NoDup_filter'; auto|apply given_keys; auto|].
      intro y. rewrite filter_In, omem_In. split; [tauto|]. intro K. split; auto. apply Sub.
      apply in_map_iff in K. destruct K as ([z p] & <- & K). apply in_given in K. simpl. change z with (fst (z, Some p)). apply in_map; auto. }
  rewrite E1. change (filter (fun y => negb (omem y (map fst (given_entries d)))) dom) with
    (filter (fun y => negb (omem y (map fst (given_entries d)))) dom).
  assert (E2 : filter (fun y => negb (omem y (map fst (given_entries d)))) dom = open dom d).
  { unfold open. rewrite nodup_id; auto. }
  rewrite E2.
  rewrite (qsum_ext _ (complete dom d) (fun _ => (1 - mass d) / Qc_of_nat (length (open dom d)))).
  2:{ intros y Hy. apply in_open in Hy. apply complete_open. tauto. }
  rewrite qsum_const. field. apply Qc_of_nat_nz. eapply open_pos; eauto.
Qed.

(* ---- init_table ---- *)
Lemma qabs_close_iff : forall a b e, qabs_close a b e = true <-> b - e <= a /\ a <= b + e.
Proof.
  intros a b e. unfold qabs_close. rewrite andb_true_iff, !qleb_iff.
  assert (X : forall x y, x <= y <-> 0 <= y - x) by (intros; split; [apply Qc_le_sub|apply Qc_sub_le]).
  rewrite (X (a - b)), (X (b - a)), (X (b - e)), (X a (b + e)).
  replace (e - (a - b)) with (b + e - a) by ring. replace (e - (b - a)) with (a - (b - e)) by ring. tauto.
Qed.
Lemma range_iff : forall col, forallb (fun p => qleb 0 p && qleb p 1) col = true <-> forall q, In q col -> 0 <= q /\ q <= 1.
Proof.
  intro col. rewrite forallb_forall. split; intros H q Hq; specialize (H q Hq).
  - apply andb_true_iff in H. rewrite !qleb_iff in H. auto.
  - apply andb_true_iff. rewrite !qleb_iff. auto.
Qed.
Lemma prob_column_iff : forall col, prob_column col <->
  qabs_close (qsum col) 1 hundredth = true /\ forallb (fun p => qleb 0 p && qleb p 1) col = true.
Proof. intro col. rewrite qabs_close_iff, range_iff. unfold prob_column. tauto. Qed.
Lemma nodup_length_iff : forall (l : list outcome), length (nodup Qc_eq_dec l) = length l -> NoDup l.
Proof.
  induction l as [|x l IH]; simpl; intro H; [constructor|]. destruct (in_dec Qc_eq_dec x l) as [Hi|Hi].
  - exfalso. assert (length (nodup Qc_eq_dec l) <= length l)%nat; [|simpl in H; lia].
    apply NoDup_incl_length; [apply NoDup_nodup|]. intros y Hy. apply nodup_In in Hy. auto.
  - constructor; auto.
Qed.
Section Init.
  Variables (g : graph) (doms : domains) (v : node) (f : fn) (force : list outcome) (k : kind).
  Variable cards : list node -> result (list nat).
  Hypothesis Hv : In v (nodes g).
  Let ps := parents g v.
  Let pvs := map (combine ps) (product (map (dom_of doms) ps)).
  Definition all_calls (ds : list dist) : Prop := Forall2 (fun pv d => stochastic_function f pv = Ok d) pvs ds.
  Definition domain_from (ds : list dist) : list outcome :=
    match force with [] => sorted_set (flat_map (map fst) ds) | _ => force end.
  Lemma get_parents_ok : get_parents g v = Ok ps.
  Proof. unfold get_parents. rewrite (proj2 (mem_In _ _) Hv). auto. Qed.
  Lemma not_ready : forall p, In p ps -> lookup p doms = None -> init_table g doms cards v f force k = Err ParentsNotReady.
  Proof.
    intros p Hp E. unfold init_table. rewrite get_parents_ok. cbn [bind check_arguments wrapper_varkw negb andb].
    assert (K : possible_values g doms v f = Err ParentsNotReady).
    { unfold possible_values, parent_values. rewrite get_parents_ok. cbn [bind]. rewrite (parent_domains_err doms ps p); auto. }
    rewrite K. destruct force; reflexivity.
  Qed.
  Hypothesis R : ready doms ps.
  Lemma possible_ok : forall ds, all_calls ds -> possible_values g doms v f = Ok (sorted_set (flat_map (map fst) ds)).
  Proof.
    intros ds A. unfold possible_values. rewrite contexts_ok by auto. cbn [bind]. fold ps. fold pvs. rewrite (map_r_all _ _ _ _ ds A). reflexivity.
  Qed.
  Lemma possible_err : forall e, map_r (stochastic_function f) pvs = Err e ->
    possible_values g doms v f = Err e.
  Proof. intros e H. unfold possible_values. rewrite contexts_ok by auto. cbn [bind]. fold ps. fold pvs. rewrite H. reflexivity. Qed.
  (* what init_table computes once all calls have returned *)
  Lemma init_eq : forall ds, all_calls ds -> init_table g doms cards v f force k =
    if forallb (fun x => omem x (domain_from ds)) (flat_map (map fst) ds) then
      ecards <- cards ps ;;
      let dom := domain_from ds in
      let cols := map (fun d => map (complete dom d) dom) ds in
      if negb (match cols with [] => false | _ => true end && forallb (fun c => qabs_close (qsum c) 1 hundredth) cols)
      then Err ValueError
      else if negb (forallb (forallb (fun p => qleb 0 p && qleb p 1)) cols) then Err ValueError
      else if negb (length cols =? fold_right Nat.mul 1%nat ecards)%nat then Err ValueError
      else if negb (length (nodup Qc_eq_dec dom) =? length dom)%nat then Err ValueError
      else Ok (mkTab v dom ps ecards cols k)
    else Err ValueError.
  Proof.
    intros ds A. unfold init_table. rewrite get_parents_ok. cbn [bind check_arguments wrapper_varkw negb andb].
    rewrite (possible_ok ds A). cbn [bind].
    assert (Fm : forall dom, map_r (fun pv => d <- stochastic_function f pv ;; Ok (map (complete dom d) dom)) pvs =
                 Ok (map (fun d => map (complete dom d) dom) ds)).
    { intro dom. apply map_r_all. unfold all_calls in A. clear - A. induction A; simpl; constructor; auto. rewrite H. reflexivity. }
    assert (Pv : parent_values g doms v = Ok pvs) by (apply contexts_ok; auto).
    unfold domain_from. destruct force as [|x0 fo].
    - cbn [bind]. replace (forallb (fun x => omem x (sorted_set (flat_map (map fst) ds))) (flat_map (map fst) ds)) with true.
      + destruct (cards ps) as [ec|e]; cbn [bind]; [|reflexivity]. rewrite Pv. cbn [bind]. rewrite Fm. cbn [bind]. reflexivity.
      + symmetry. apply forallb_forall. intros x Hx. apply omem_In, in_sorted_set; auto.
    - replace (forallb (fun x => omem x (x0 :: fo)) (sorted_set (flat_map (map fst) ds))) with
        (forallb (fun x => omem x (x0 :: fo)) (flat_map (map fst) ds)).
      + destruct (forallb (fun x => omem x (x0 :: fo)) (flat_map (map fst) ds)); [|reflexivity]. cbn [bind].
        destruct (cards ps) as [ec|e]; cbn [bind]; [|reflexivity]. rewrite Pv. cbn [bind]. rewrite Fm. cbn [bind]. reflexivity.
      + apply eq_true_iff_eq. rewrite !forallb_forall. split; intros H x Hx; apply H; apply in_sorted_set; auto.
  Qed.
  Lemma call_dist : forall pv d, stochastic_function f pv = Ok d -> exists w, call f pv = Ok w /\ dist_of w = d.
  Proof.
    intros pv d H. unfold stochastic_function in H. destruct (call f pv) as [w|e]; simpl in H; [|discriminate].
    injection H as <-. exists w. split; auto.
  Qed.
  Lemma dist_call : forall pv w, call f pv = Ok w -> stochastic_function f pv = Ok (dist_of w).
  Proof. intros pv w H. unfold stochastic_function. rewrite H. auto. Qed.
  Lemma calls_of_ok : forall t, init_table g doms cards v f force k = Ok t -> exists ds, all_calls ds.
  Proof.
    intros t H. unfold init_table in H. rewrite get_parents_ok in H. cbn [bind check_arguments wrapper_varkw negb andb] in H.
    destruct (map_r (stochastic_function f) pvs) as [ds|e] eqn:E.
    - exists ds. apply map_r_ok; auto.
    - exfalso. rewrite (possible_err e E) in H. destruct force; simpl in H; discriminate.
  Qed.
  Lemma init_tabulates : forall t, init_table g doms cards v f force k = Ok t ->
    tabulates g doms v f force t /\ tkind t = k /\ cards ps = Ok (tcards t).
  Proof.
    intros t H. destruct (calls_of_ok t H) as [ds A]. rewrite (init_eq ds A) in H.
    destruct (forallb (fun x => omem x (domain_from ds)) (flat_map (map fst) ds)) eqn:E1; [|discriminate].
    destruct (cards ps) as [ec|e]; cbn [bind] in H; [|discriminate]. cbv zeta in H.
    set (dom := domain_from ds) in *. set (cols := map (fun d => map (complete dom d) dom) ds) in *.
    destruct (match cols with [] => false | _ => true end && forallb (fun c => qabs_close (qsum c) 1 hundredth) cols) eqn:E2; [|discriminate].
    cbn [negb] in H. destruct (forallb (forallb (fun p => qleb 0 p && qleb p 1)) cols) eqn:E3; [|discriminate]. cbn [negb] in H.
    destruct (length cols =? fold_right Nat.mul 1%nat ec)%nat eqn:E4; [|discriminate]. cbn [negb] in H.
    destruct (length (nodup Qc_eq_dec dom) =? length dom)%nat eqn:E5; [|discriminate]. cbn [negb] in H.
    injection H as <-. split; [|simpl; auto].
    apply Nat.eqb_eq, nodup_length_iff in E5. apply andb_true_iff in E2. destruct E2 as [E2 E2'].
    rewrite forallb_forall in E1, E2', E3.
    assert (Lp : length pvs = contexts_count doms ps) by (unfold pvs; rewrite map_length; apply contexts_length).
    assert (Ld : length ds = length pvs) by (symmetry; eapply Forall2_len; exact A).
    unfold tabulates. cbn [tvar tev tdom tcols].
    split; auto. split; auto. split; auto. split; [|split; [|split; [|split]]].
    - intro K. unfold cols in E2, E2'. rewrite K in E2'. destruct ds as [|d ds']; [discriminate|].
      specialize (E2' (map (complete [] d) []) (or_introl eq_refl)). vm_compute in E2'. discriminate.
    - intro K. unfold dom, domain_from. destruct force; [congruence|auto].
    - intro K. unfold dom, domain_from. rewrite K. split; [apply sorted_set_sorted|]. intro x.
      rewrite in_sorted_set, in_flat_map. split.
      + intros (d & D1 & D2). destruct (Forall2_in_r _ _ _ _ _ _ A D1) as (pv & P1 & P2). destruct (call_dist _ _ P2) as (w & W1 & <-).
        exists pv, w. split; auto. apply in_contexts; auto.
      + intros (pv & w & C1 & C2 & C3). apply (in_contexts doms ps pv R) in C1. destruct (Forall2_in_l _ _ _ _ _ _ A C1) as (d & D1 & D2).
        rewrite (dist_call pv w C2) in D2. injection D2 as <-. eauto.
    - unfold cols. rewrite map_length, Ld, Lp. auto.
    - intros pv C. destruct (context_at doms ps pv C) as [C1 C2].
      destruct (nth_error ds (context_index doms pv)) as [d|] eqn:Ed.
      2:{ apply nth_error_None in Ed. lia. }
      assert (F := Forall2_nth _ _ _ _ _ _ _ _ A C2 Ed). simpl in F. destruct (call_dist _ _ F) as (w & W1 & <-).
      exists (map (complete dom (dist_of w)) dom), w.
      assert (Hn : nth_error cols (context_index doms pv) = Some (map (complete dom (dist_of w)) dom)).
      { unfold cols. rewrite nth_error_map, Ed. auto. }
      assert (Hin : In (map (complete dom (dist_of w)) dom) cols) by (eapply nth_error_In; eauto).
      split; auto. split; auto. split; [|split].
      + intros x Hx. apply omem_In. apply E1. apply in_flat_map. exists (dist_of w). split; auto. eapply nth_error_In; eauto.
      + intro D. apply complete_column; auto.
      + apply prob_column_iff. split; [apply E2'; auto|apply E3; auto].
  Qed.
  (* and it raises ValueError in every other case, once all calls have returned *)
  Lemma init_accepts : forall ds ec, all_calls ds -> cards ps = Ok ec -> fold_right Nat.mul 1%nat ec = contexts_count doms ps ->
    (forall d x, In d ds -> In x (map fst d) -> In x (domain_from ds)) -> NoDup (domain_from ds) -> ds <> [] ->
    (forall d, In d ds -> prob_column (map (complete (domain_from ds) d) (domain_from ds))) ->
    exists t, init_table g doms cards v f force k = Ok t.
  Proof.
    intros ds ec A C Pr Sub N Ne Pc. rewrite (init_eq ds A).
    replace (forallb (fun x => omem x (domain_from ds)) (flat_map (map fst) ds)) with true.
    2:{ symmetry. apply forallb_forall. intros x Hx. apply in_flat_map in Hx. destruct Hx as (d & D1 & D2). apply omem_In. eauto. }
    rewrite C. cbn [bind]. cbv zeta. set (dom := domain_from ds) in *. set (cols := map (fun d => map (complete dom d) dom) ds).
    assert (Lc : length cols = contexts_count doms ps).
    { unfold cols. rewrite map_length. rewrite <- (Forall2_len _ _ _ _ _ A). unfold pvs. rewrite map_length. apply contexts_length. }
    replace (match cols with [] => false | _ => true end) with true.
    2:{ unfold cols. destruct ds; [congruence|reflexivity]. }
    replace (forallb (fun c => qabs_close (qsum c) 1 hundredth) cols) with true.
    2:{ symmetry. apply forallb_forall. intros c Hc. unfold cols in Hc. apply in_map_iff in Hc. destruct Hc as (d & <- & Hd).
        apply Pc in Hd. apply prob_column_iff in Hd. tauto. }
    replace (forallb (forallb (fun p => qleb 0 p && qleb p 1)) cols) with true.
    2:{ symmetry. apply forallb_forall. intros c Hc. unfold cols in Hc. apply in_map_iff in Hc. destruct Hc as (d & <- & Hd).
        apply Pc in Hd. apply prob_column_iff in Hd. tauto. }
    rewrite Lc, Pr, Nat.eqb_refl, nodup_id by auto. rewrite Nat.eqb_refl. cbn [andb negb]. eauto.
  Qed.
End Init.
