(* Lemmas about random_dag. *)
From Coq Require Import String List Bool Arith ZArith QArith Qround Lia Permutation.
Import ListNotations.
From Verif Require Import MBase MGraph MRandDag Spec SpecM SpecQ SpecRand LBase LGraph LCopy LOptDec LOptimal.
Local Open Scope nat_scope.

(* ---- lists ---- *)
Lemma index_lt : forall x l, In x l -> index x l < length l.
Proof. intros x l. induction l as [|y l IH]; intros H; [destruct H|]. cbn [index length]. destruct (String.eqb_spec x y); [lia|]. destruct H as [H|H]; [congruence|]. apply IH in H. lia. Qed.
Lemma index_nth : forall x l, In x l -> nth_error l (index x l) = Some x.
Proof. intros x l. induction l as [|y l IH]; intros H; [destruct H|]. cbn [index]. destruct (String.eqb_spec x y); [subst; reflexivity|]. destruct H as [H|H]; [congruence|]. cbn [nth_error]. auto. Qed.
Lemma index_inj : forall x y l, In x l -> In y l -> index x l = index y l -> x = y.
Proof. intros x y l Hx Hy E. apply index_nth in Hx, Hy. rewrite E in Hx. congruence. Qed.
Lemma nth_index : forall l i x, NoDup l -> nth_error l i = Some x -> index x l = i.
Proof.
  induction l as [|y l IH]; intros i x N H; [destruct i; discriminate|]. inversion N as [|a b Ny N']; subst. cbn [index]. destruct i as [|i]; cbn [nth_error] in H.
  - injection H as ->. rewrite String.eqb_refl. reflexivity.
  - destruct (String.eqb_spec x y) as [->|Ne]; [exfalso; apply Ny; eapply nth_error_In; eauto|]. f_equal. auto.
Qed.
Lemma index_seq : forall l, NoDup l -> map (fun v => index v l) l = seq 0 (length l).
Proof.
  intros l N. apply nth_ext with (d := 0) (d' := 0); [rewrite map_length, seq_length; reflexivity|]. intros i Hi. rewrite map_length in Hi. rewrite seq_nth by auto. cbn.
  destruct (nth_error l i) as [x|] eqn:E; [|apply nth_error_None in E; lia]. rewrite (nth_indep _ 0 (index x l)) by (rewrite map_length; auto). rewrite (map_nth (fun v => index v l)). rewrite (nth_error_nth l i x E). apply nth_index; auto.
Qed.
Lemma remove_first_perm : forall (x : node) (l : list node), In x l -> Permutation l (x :: remove_first x l).
Proof.
  intros x l. induction l as [|y l IH]; intros H; [destruct H|]. cbn [remove_first]. destruct (String.eqb_spec x y) as [->|Ne]; [apply Permutation_refl|]. destruct H as [H|H]; [congruence|].
  eapply Permutation_trans; [apply perm_skip, IH, H|]. apply perm_swap.
Qed.
Lemma choice_In : forall A rnd k (l : list A) x, choice rnd k l = Ok x -> In x l.
Proof. intros A rnd k l x H. unfold choice in H. destruct l as [|a l]; [discriminate|]. destruct (nth_error (a :: l) _) as [y|] eqn:E; [|discriminate]. injection H as <-. eapply nth_error_In; eauto. Qed.
Lemma choice_any : forall A (l : list A) x, In x l -> exists r, forall rnd k, rnd k = r -> choice rnd k l = Ok x.
Proof.
  intros A l x H. apply In_nth_error in H. destruct H as [i H]. exists i. intros rnd k E. unfold choice. destruct l as [|a l]; [destruct i; discriminate|]. assert (i < length (a :: l)) by (apply nth_error_Some; congruence). rewrite E, Nat.mod_small, H; auto.
Qed.
Lemma choice_some : forall A rnd k (l : list A), l <> [] -> exists x, choice rnd k l = Ok x.
Proof. intros A rnd k l H. unfold choice. destruct l as [|a l]; [congruence|]. destruct (nth_error (a :: l) (rnd k mod length (a :: l))) as [x|] eqn:E; [eauto|]. exfalso. apply nth_error_None in E. assert (K := Nat.mod_upper_bound (rnd k) (length (a :: l))). cbn [length] in *. lia. Qed.
Lemma choice_ext : forall A rnd rnd' k (l : list A), rnd k = rnd' k -> choice rnd k l = choice rnd' k l.
Proof. intros A rnd rnd' k l H. unfold choice. rewrite H. reflexivity. Qed.
Lemma sample2_ext : forall A rnd rnd' k (l : list A), rnd k = rnd' k -> rnd (k + 1) = rnd' (k + 1) -> sample2 rnd k l = sample2 rnd' k l.
Proof. intros A rnd rnd' k l H H'. unfold sample2. rewrite H, H'. reflexivity. Qed.
Lemma sample2_ok : forall rnd k (l : list node), NoDup l -> 2 <= length l -> exists x y, sample2 rnd k l = Ok (x, y) /\ In x l /\ In y l /\ x <> y.
Proof.
  intros rnd k l N L. unfold sample2. destruct (Nat.ltb_spec (length l) 2); [lia|]. set (i := rnd k mod length l). set (j := rnd (k + 1) mod (length l - 1)).
  assert (Hi : i < length l) by (apply Nat.mod_upper_bound; lia). assert (Hj : j < length l - 1) by (apply Nat.mod_upper_bound; lia). set (j' := if j <? i then j else j + 1). assert (Hj' : j' < length l /\ j' <> i) by (unfold j'; destruct (Nat.ltb_spec j i); lia).
  destruct (nth_error l i) as [x|] eqn:Ex; [|apply nth_error_None in Ex; lia]. destruct (nth_error l j') as [y|] eqn:Ey; [|apply nth_error_None in Ey; lia].
  exists x, y. split; auto. split; [eapply nth_error_In; eauto|]. split; [eapply nth_error_In; eauto|]. intros ->. apply (nth_index l i y N) in Ex. apply (nth_index l j' y N) in Ey. lia.
Qed.
Lemma sample2_any : forall (l : list node) x y, NoDup l -> In x l -> In y l -> x <> y -> exists r1 r2, forall rnd k, rnd k = r1 -> rnd (k + 1) = r2 -> sample2 rnd k l = Ok (x, y).
Proof.
  intros l x y N Hx Hy Ne. set (i := index x l). set (j' := index y l). assert (Hi : i < length l) by (apply index_lt; auto). assert (Hj : j' < length l) by (apply index_lt; auto).
  assert (Nij : i <> j') by (intro E; apply Ne; eapply index_inj; eauto). exists i, (if j' <? i then j' else j' - 1). intros rnd k E1 E2. unfold sample2. rewrite E1, E2.
  destruct (Nat.ltb_spec (length l) 2); [destruct l as [|a [|b l]]; cbn in *; try lia; destruct Hx as [->|[]], Hy as [->|[]]; congruence|].
  rewrite (Nat.mod_small i) by auto. rewrite Nat.mod_small by (destruct (Nat.ltb_spec j' i); lia).
  replace (if (if j' <? i then j' else j' - 1) <? i then if j' <? i then j' else j' - 1 else (if j' <? i then j' else j' - 1) + 1) with j'.
  - unfold i, j'. rewrite !index_nth by auto. reflexivity.
  - destruct (Nat.ltb_spec j' i) as [L|L]; [destruct (Nat.ltb_spec j' i); lia|]. destruct (Nat.ltb_spec (j' - 1) i); lia.
Qed.

(* ---- degrees ---- *)
Lemma in_degree_add : forall g u v w, in_degree (nx_add_edge g u v) w <= in_degree g w + (if String.eqb v w then 1 else 0).
Proof.
  intros g u v w. unfold in_degree, parents, nx_add_edge. set (g' := add_node (add_node g u) v). assert (E : edges g' = edges g) by (unfold g'; rewrite !edges_add_node; auto).
  destruct (has_edge g' u v); cbn [edges]; rewrite E, !map_length; [apply Nat.le_add_r|]. rewrite filter_app, app_length. cbn [filter snd]. destruct (String.eqb v w); apply Nat.le_refl.
Qed.
Lemma edges_add_new : forall g u v, ~ edge g u v -> length (edges (nx_add_edge g u v)) = S (length (edges g)).
Proof.
  intros g u v H. unfold nx_add_edge. set (g' := add_node (add_node g u) v). assert (E : edges g' = edges g) by (unfold g'; rewrite !edges_add_node; auto).
  destruct (has_edge_spec g' u v) as [K|K]; [exfalso; apply H; unfold edge in *; rewrite <- E; exact K|]. cbn [edges]. rewrite E, app_length. cbn. lia.
Qed.
Lemma at_most_degree : forall g k v, wf_graph g -> (at_most_parents g k v <-> in_degree g v <= k).
Proof.
  intros g k v W. unfold in_degree. split; intro H.
  - apply (H (parents g v)); [apply NoDup_parents, wf_edges; auto|]. intros p. apply in_parents.
  - intros l N K. eapply Nat.le_trans; [|exact H]. apply NoDup_incl_length; auto. intros p Hp. apply in_parents. auto.
Qed.
Definition total_degree (g : graph) (order : list node) : nat := fold_right Nat.add 0 (map (in_degree g) order).
Lemma sum_bump : forall (f : node -> nat) a order, NoDup order -> In a order -> fold_right Nat.add 0 (map (fun v => f v + if String.eqb a v then 1 else 0) order) = S (fold_right Nat.add 0 (map f order)).
Proof.
  intros f a order. induction order as [|v order IH]; intros N H; [destruct H|]. inversion N as [|x y Nv N']; subst. cbn [map fold_right]. destruct (String.eqb_spec a v) as [->|Ne].
  - rewrite (map_ext_in (fun v0 => f v0 + if String.eqb v v0 then 1 else 0) f); [lia|]. intros w Hw. destruct (String.eqb_spec v w); [subst w; contradiction|lia].
  - destruct H as [H|H]; [congruence|]. rewrite IH by auto. lia.
Qed.
Lemma count_by : forall (E : list (node * node)) (order : list node), NoDup order -> (forall e, In e E -> In (snd e) order) ->
  length E = fold_right Nat.add 0 (map (fun v => length (filter (fun e : node * node => String.eqb (snd e) v) E)) order).
Proof.
  induction E as [|e E IH]; intros order N H.
  - clear. induction order; cbn in *; auto.
  - cbn [length]. rewrite (IH order N) by (intros; apply H; right; auto). rewrite <- (sum_bump _ (snd e)) by (auto; apply H; left; auto). f_equal. apply map_ext. intro v. cbn [filter]. destruct (String.eqb (snd e) v); cbn [length]; [rewrite Nat.add_1_r; reflexivity|rewrite Nat.add_0_r; reflexivity].
Qed.
Lemma degree_count : forall g order, NoDup order -> (forall u v, edge g u v -> In v order) -> length (edges g) = total_degree g order.
Proof.
  intros g order N H. rewrite (count_by (edges g) order N) by (intros [u v] K; apply (H u v K)). unfold total_degree. f_equal. apply map_ext. intro v. unfold in_degree, parents. rewrite map_length. reflexivity.
Qed.
Lemma sum_le : forall A (f h : A -> nat) l, (forall x, In x l -> f x <= h x) -> fold_right Nat.add 0 (map f l) <= fold_right Nat.add 0 (map h l).
Proof. intros A f h l. induction l as [|x l IH]; intros H; cbn; [lia|]. assert (f x <= h x) by (apply H; left; auto). assert (fold_right Nat.add 0 (map f l) <= fold_right Nat.add 0 (map h l)) by (apply IH; intros; apply H; right; auto). lia. Qed.
Lemma sum_lt : forall A (f h : A -> nat) l, fold_right Nat.add 0 (map f l) < fold_right Nat.add 0 (map h l) -> exists x, In x l /\ f x < h x.
Proof. intros A f h l. induction l as [|x l IH]; cbn; intros H; [lia|]. destruct (Nat.lt_ge_cases (f x) (h x)) as [K|K]; [exists x; auto|]. destruct IH as (y & Hy & Ky); [lia|]. exists y. auto. Qed.
Lemma most_edges_index : forall order k, NoDup order -> most_edges (length order) k = fold_right Nat.add 0 (map (fun v => Nat.min (index v order) k) order).
Proof. intros order k N. unfold most_edges. rewrite <- (index_seq order N), map_map. reflexivity. Qed.

(* ---- graphs whose edges go up in an order ---- *)
Definition upward (order : list node) (g : graph) : Prop := forall u v, edge g u v -> In u order /\ In v order /\ index u order < index v order.
Lemma upward_reach : forall order g, upward order g -> forall u v, reach g u v -> index u order <= index v order.
Proof. intros order g H u v R. induction R as [|u v w E R IH]; [lia|]. apply H in E. lia. Qed.
Lemma upward_acyclic : forall order g, upward order g -> acyclic g.
Proof. intros order g H u (w & E & R). apply (upward_reach order g H) in R. apply H in E. lia. Qed.
Lemma upward_add : forall order g u v, upward order g -> In u order -> In v order -> index u order < index v order -> upward order (nx_add_edge g u v).
Proof. intros order g u v H Hu Hv L a b E. apply edge_nx_add_edge in E. destruct E as [E|[-> ->]]; auto. Qed.
Lemma upward_degree : forall order g v, wf_graph g -> upward order g -> in_degree g v <= index v order.
Proof.
  intros order g v W H. unfold in_degree. assert (I : incl (map (fun p => index p order) (parents g v)) (seq 0 (index v order))).
  { intros i K. apply in_map_iff in K. destruct K as (p & <- & K). apply in_parents in K. apply H in K. apply in_seq. lia. }
  rewrite <- (map_length (fun p => index p order)), <- (seq_length (index v order) 0). apply NoDup_incl_length; auto.
  apply NoDup_map_inj; [|apply NoDup_parents, wf_edges; auto]. intros x y Hx Hy E. apply in_parents in Hx, Hy. apply H in Hx, Hy. apply (index_inj x y order); tauto.
Qed.
Lemma upward_most : forall order g k, NoDup order -> wf_graph g -> upward order g -> (forall v, In v order -> in_degree g v <= k) -> length (edges g) <= most_edges (length order) k.
Proof.
  intros order g k N W U K. rewrite (degree_count g order N) by (intros u v E; apply U in E; tauto). rewrite most_edges_index by auto. apply sum_le. intros v Hv. apply Nat.min_glb; [apply upward_degree; auto|auto].
Qed.
(* when there is room, an edge can still be added *)
Lemma upward_room : forall order g k, NoDup order -> wf_graph g -> upward order g -> length (edges g) < most_edges (length order) k ->
  exists u v, In u order /\ In v order /\ index u order < index v order /\ in_degree g v < k /\ ~ edge g u v.
Proof.
  intros order g k N W U L. rewrite (degree_count g order N) in L by (intros u v E; apply U in E; tauto). rewrite most_edges_index in L by auto. apply sum_lt in L. destruct L as (v & Hv & L).
  assert (X : exists i, In i (seq 0 (index v order)) /\ ~ In i (map (fun p => index p order) (parents g v))).
  { destruct (existsb (fun i => negb (existsb (Nat.eqb i) (map (fun p => index p order) (parents g v)))) (seq 0 (index v order))) eqn:E.
    - apply existsb_exists in E. destruct E as (i & Hi & E). exists i. split; auto. intro K. apply negb_true_iff in E. assert (E' : existsb (Nat.eqb i) (map (fun p => index p order) (parents g v)) = true) by (apply existsb_exists; exists i; split; auto; apply Nat.eqb_refl). congruence.
    - exfalso. assert (I : incl (seq 0 (index v order)) (map (fun p => index p order) (parents g v))).
      { intros i Hi. destruct (existsb (Nat.eqb i) (map (fun p => index p order) (parents g v))) eqn:E2.
        - apply existsb_exists in E2. destruct E2 as (j & Hj & E2). apply Nat.eqb_eq in E2. subst; auto.
        - assert (K : existsb (fun i => negb (existsb (Nat.eqb i) (map (fun p => index p order) (parents g v)))) (seq 0 (index v order)) = true) by (apply existsb_exists; exists i; split; auto; rewrite E2; auto). congruence. }
      apply NoDup_incl_length in I; [|apply seq_NoDup]. rewrite seq_length, map_length in I. unfold in_degree in L. lia. }
  destruct X as (i & Hi & K). apply in_seq in Hi. destruct (nth_error order i) as [u|] eqn:Eu; [|apply nth_error_None in Eu; assert (index v order < length order) by (apply index_lt; auto); lia].
  assert (Ei : index u order = i) by (apply nth_index; auto). exists u, v. split; [eapply nth_error_In; eauto|]. split; auto. split; [lia|]. split; [lia|]. intro E. apply K. rewrite <- Ei. apply (in_map (fun p => index p order)). apply in_parents. auto.
Qed.

(* ---- the first loop ---- *)
Record joining (order : list node) (g : graph) (vis unv : list node) : Prop := {
  j_wf : wf_graph g;
  j_nodes : forall x, In x (nodes g) <-> In x vis;
  j_perm : Permutation (vis ++ unv) order;
  j_up : upward order g;
  j_conn : forall u v, In u vis -> In v vis -> joined g [] u v;
  j_some : vis <> [] }.
Lemma joined_trans : forall g u v w, joined g [] u v -> joined g [] v w -> joined g [] u w.
Proof. intros g u v w H; induction H; intros; [auto|eapply joined_step; eauto]. Qed.
Lemma joining_step : forall order g vis unv a b n nb, joining order g vis unv -> In n unv -> In nb vis -> index a order < index b order ->
  (a = n /\ b = nb \/ a = nb /\ b = n) -> joining order (nx_add_edge g a b) (vis ++ [n]) (remove_first n unv).
Proof.
  intros order g vis unv a b n nb [W Nd P U C S] Hn Hb L Hab.
  assert (Io : forall x, In x (vis ++ unv) -> In x order) by (intros x K; eapply Permutation_in; eauto).
  assert (Hn' : In n order) by (apply Io, in_or_app; auto). assert (Hb' : In nb order) by (apply Io, in_or_app; auto).
  assert (Hs : forall x, In x vis -> joined (nx_add_edge g a b) [] x n).
  { intros x Hx. apply (joined_trans _ x nb n); [apply (joined_edges g); [intros; apply edge_nx_add_edge; auto|apply C; auto]|]. eapply joined_step; [|constructor]. destruct Hab as [[-> ->]|[-> ->]]; [right|left]; (split; [apply edge_nx_add_edge; auto|intros []]). }
  constructor.
  - apply wf_nx_add_edge; auto.
  - intro x. rewrite nodes_nx_add_edge, Nd, in_app_iff. cbn [In]. destruct Hab as [[-> ->]|[-> ->]]; split; intros K; intuition (subst; auto).
  - eapply Permutation_trans; [|exact P]. rewrite <- app_assoc. apply Permutation_app_head. cbn [app]. apply Permutation_sym, remove_first_perm; auto.
  - apply upward_add; auto; destruct Hab as [[-> ->]|[-> ->]]; auto.
  - intros u v Hu Hv. apply in_app_iff in Hu, Hv. destruct Hu as [Hu|[<-|[]]], Hv as [Hv|[<-|[]]].
    + apply (joined_edges g); [intros; apply edge_nx_add_edge; auto|auto].
    + auto.
    + apply joined_back. auto.
    + constructor.
  - destruct vis; discriminate.
Qed.
Lemma connect_S : forall fuel rnd k order mx g vis unv, unv <> [] -> connect (S fuel) rnd k order mx g vis unv =
  (n <- choice rnd k unv ;; neighbor <- choice rnd (k + 1) vis ;;
   if (index n order <? index neighbor order) && (in_degree g neighbor <? mx) then connect fuel rnd (k + 2) order mx (nx_add_edge g n neighbor) (vis ++ [n]) (remove_first n unv)
   else if index neighbor order <? index n order then connect fuel rnd (k + 2) order mx (nx_add_edge g neighbor n) (vis ++ [n]) (remove_first n unv)
   else connect fuel rnd (k + 2) order mx g vis unv).
Proof. intros fuel rnd k order mx g vis unv H. destruct unv; [congruence|reflexivity]. Qed.
Lemma joining_fresh : forall order g vis unv n, NoDup order -> joining order g vis unv -> In n unv -> in_degree g n = 0.
Proof.
  intros order g vis unv n N [W Nd P U C S] Hn. unfold in_degree. destruct (parents g n) as [|p l] eqn:E; auto. exfalso. assert (K : edge g p n) by (apply in_parents; rewrite E; left; auto).
  apply (wf_edge_r g W) in K. apply Nd in K. apply (Permutation_NoDup (Permutation_sym P)) in N. apply in_split in Hn. destruct Hn as (l1 & l2 & ->). rewrite app_assoc in N. apply NoDup_remove_2 in N. apply N. rewrite !in_app_iff. auto.
Qed.
Lemma degree_step : forall order g vis unv a b mx, NoDup order -> joining order g vis unv -> (In b unv \/ in_degree g b < mx) -> (forall v, in_degree g v <= Nat.max 1 mx) ->
  forall v, in_degree (nx_add_edge g a b) v <= Nat.max 1 mx.
Proof.
  intros order g vis unv a b mx N J Hb D v. assert (K := in_degree_add g a b v). specialize (D v). destruct (String.eqb_spec b v) as [<-|Ne]; [|lia]. destruct Hb as [Hb|Hb]; [|lia]. rewrite (joining_fresh order g vis unv b N J Hb) in K. lia.
Qed.
Lemma connect_ok : forall fuel rnd k order mx g vis unv g' k', NoDup order -> joining order g vis unv -> (forall v, in_degree g v <= Nat.max 1 mx) -> connect fuel rnd k order mx g vis unv = Ok (g', k') ->
  (exists vis', joining order g' vis' []) /\ (forall v, in_degree g' v <= Nat.max 1 mx).
Proof.
  induction fuel as [|fuel IH]; intros rnd k order mx g vis unv g' k' N J D H.
  - destruct unv; [|discriminate]. injection H as <- <-. eauto.
  - destruct (list_eq_dec string_dec unv []) as [->|Hu]; [injection H as <- <-; eauto|]. rewrite connect_S in H by auto.
    destruct (choice rnd k unv) as [n|] eqn:En; [|discriminate]. destruct (choice rnd (k + 1) vis) as [nb|] eqn:Eb; [|discriminate]. cbn [bind] in H. apply choice_In in En, Eb.
    destruct (Nat.ltb_spec (index n order) (index nb order)) as [L|L]; cbn [andb] in H.
    + destruct (Nat.ltb_spec (in_degree g nb) mx) as [M|M].
      * eapply IH; [exact N| | |exact H]; [eapply joining_step; eauto|]. eapply degree_step; eauto.
      * destruct (Nat.ltb_spec (index nb order) (index n order)) as [L'|L']; [lia|]. eapply IH; eauto.
    + destruct (Nat.ltb_spec (index nb order) (index n order)) as [L'|L']; [|eapply IH; eauto].
      eapply IH; [exact N| | |exact H]; [eapply joining_step; eauto|]. eapply degree_step; eauto.
Qed.

(* ---- the second loop ---- *)
Lemma add_random_ok : forall rnd k g order, NoDup order -> 2 <= length order -> exists g', add_random_edge rnd k g order 4 = Ok g' /\
  (g' = g \/ exists u v, In u order /\ In v order /\ index u order < index v order /\ in_degree g v < 4 /\ g' = nx_add_edge g u v).
Proof.
  intros rnd k g order N L. destruct (sample2_ok rnd k order N L) as (x & y & E & Hx & Hy & Ne). unfold add_random_edge. rewrite E. cbn [bind].
  destruct (Nat.ltb_spec (index x order) (index y order)) as [L1|L1]; cbn [andb].
  - destruct (Nat.ltb_spec (in_degree g y) 4) as [M|M].
    + eexists; split; [reflexivity|]. right. exists x, y. auto.
    + destruct (Nat.ltb_spec (index y order) (index x order)); [lia|]. cbn [andb]. eauto.
  - destruct (Nat.ltb_spec (index y order) (index x order)) as [L2|L2]; cbn [andb]; [|eauto]. destruct (Nat.ltb_spec (in_degree g x) 4) as [M|M]; [|eauto].
    eexists; split; [reflexivity|]. right. exists y, x. auto.
Qed.
Record drawn (order : list node) (d : nat) (g : graph) : Prop := {
  d_wf : wf_graph g;
  d_nodes : forall x, In x (nodes g) <-> In x order;
  d_up : upward order g;
  d_conn : connected g;
  d_deg : forall v, in_degree g v <= d }.
Lemma drawn_add : forall order d g u v, 4 <= d -> drawn order d g -> In u order -> In v order -> index u order < index v order -> in_degree g v < 4 -> drawn order d (nx_add_edge g u v).
Proof.
  intros order d g u v Ld [W Nd U C D] Hu Hv L M. assert (Nn : forall x, In x (nodes (nx_add_edge g u v)) <-> In x order) by (intro x; rewrite nodes_nx_add_edge, Nd; intuition (subst; auto)). constructor; auto.
  - apply wf_nx_add_edge; auto.
  - apply upward_add; auto.
  - intros x y Hx Hy. apply (joined_edges g); [intros; apply edge_nx_add_edge; auto|]. apply C; apply Nd, Nn; auto.
  - intro w. assert (K := in_degree_add g u v w). specialize (D w). destruct (String.eqb_spec v w); [subst|]; lia.
Qed.
Lemma densify_ok : forall fuel rnd k order target d g g', NoDup order -> 4 <= d -> drawn order d g -> densify fuel rnd k order target g = Ok g' ->
  drawn order d g' /\ (target <= Z.of_nat (length (edges g')))%Z.
Proof.
  induction fuel as [|fuel IH]; intros rnd k order target d g g' N Ld D H; cbn [densify] in H.
  - destruct (Z.ltb_spec (Z.of_nat (length (edges g))) target); [discriminate|]. injection H as <-. auto.
  - destruct (Z.ltb_spec (Z.of_nat (length (edges g))) target); [|injection H as <-; auto]. destruct (Nat.ltb_spec (length order) 2) as [Lo|Lo].
    + unfold add_random_edge, sample2 in H. destruct (Nat.ltb_spec (length order) 2); [discriminate|lia].
    + destruct (add_random_ok rnd k g order N Lo) as (g1 & E & [->|(u & v & Hu & Hv & L & M & ->)]); rewrite E in H; cbn [bind] in H; [apply (IH rnd (k + 2) order target d g g'); auto|apply (IH rnd (k + 2) order target d (nx_add_edge g u v) g'); auto; apply drawn_add; auto].
Qed.

(* ---- the loops can always still end ---- *)
Definition same_below (k : nat) (a b : nat -> nat) : Prop := forall i, i < k -> a i = b i.
Lemma connect_fuel : forall fuel m rnd k order mx g vis unv r, connect fuel rnd k order mx g vis unv = Ok r -> connect (fuel + m) rnd k order mx g vis unv = Ok r.
Proof.
  induction fuel as [|fuel IH]; intros m rnd k order mx g vis unv r H.
  - destruct unv; [|discriminate]. destruct m; exact H.
  - destruct (list_eq_dec string_dec unv []) as [->|Hu]; [exact H|]. cbn [Nat.add]. rewrite connect_S in * by auto. destruct (choice rnd k unv) as [n|]; [|discriminate]. destruct (choice rnd (k + 1) vis) as [nb|]; [|discriminate]. cbn [bind] in *.
    destruct ((index n order <? index nb order) && (in_degree g nb <? mx)); [auto|]. destruct (index nb order <? index n order); auto.
Qed.
Lemma densify_fuel : forall fuel m rnd k order target g r, densify fuel rnd k order target g = Ok r -> densify (fuel + m) rnd k order target g = Ok r.
Proof.
  induction fuel as [|fuel IH]; intros m rnd k order target g r H.
  - cbn [densify] in H. destruct (Z.of_nat (length (edges g)) <? target)%Z eqn:E; [discriminate|]. destruct m; cbn [Nat.add densify]; rewrite E; auto.
  - cbn [Nat.add densify] in *. destruct (Z.of_nat (length (edges g)) <? target)%Z; auto. destruct (add_random_edge rnd k g order 4); [cbn [bind] in *; auto|discriminate].
Qed.
(* where one round of the first loop leads *)
Lemma connect_round : forall order mx g vis unv n nb, NoDup order -> joining order g vis unv -> (forall v, in_degree g v <= Nat.max 1 mx) -> In n unv -> In nb vis ->
  exists g' vis' unv', joining order g' vis' unv' /\ (forall v, in_degree g' v <= Nat.max 1 mx) /\
    (forall fuel rnd k, choice rnd k unv = Ok n -> choice rnd (k + 1) vis = Ok nb -> connect (S fuel) rnd k order mx g vis unv = connect fuel rnd (k + 2) order mx g' vis' unv') /\
    (index nb order < index n order \/ (index n order < index nb order /\ in_degree g nb < mx) -> length unv = S (length unv')).
Proof.
  intros order mx g vis unv n nb N J D Hn Hb. assert (Hu : unv <> []) by (intros ->; destruct Hn). assert (Len : length unv = S (length (remove_first n unv))) by (rewrite (Permutation_length (remove_first_perm n unv Hn)); reflexivity).
  destruct (Nat.ltb_spec (index n order) (index nb order)) as [L|L]; [destruct (Nat.ltb_spec (in_degree g nb) mx) as [M|M]|destruct (Nat.ltb_spec (index nb order) (index n order)) as [L'|L']].
  - exists (nx_add_edge g n nb), (vis ++ [n]), (remove_first n unv). split; [eapply joining_step; eauto|]. split; [eapply degree_step; eauto|]. split; auto. intros fuel rnd k E1 E2. rewrite connect_S, E1, E2 by auto. cbn [bind]. rewrite (proj2 (Nat.ltb_lt _ _) L), (proj2 (Nat.ltb_lt _ _) M). reflexivity.
  - exists g, vis, unv. split; auto. split; auto. split; [|lia]. intros fuel rnd k E1 E2. rewrite connect_S, E1, E2 by auto. cbn [bind]. rewrite (proj2 (Nat.ltb_ge (in_degree g nb) mx) M), andb_false_r. rewrite (proj2 (Nat.ltb_ge (index nb order) (index n order))) by lia. reflexivity.
  - exists (nx_add_edge g nb n), (vis ++ [n]), (remove_first n unv). split; [eapply joining_step; eauto|]. split; [eapply degree_step; eauto|]. split; auto. intros fuel rnd k E1 E2. rewrite connect_S, E1, E2 by auto. cbn [bind]. rewrite (proj2 (Nat.ltb_ge _ _) L). cbn [andb]. rewrite (proj2 (Nat.ltb_lt _ _) L'). reflexivity.
  - exists g, vis, unv. split; auto. split; auto. split; [|lia]. intros fuel rnd k E1 E2. rewrite connect_S, E1, E2 by auto. cbn [bind]. rewrite (proj2 (Nat.ltb_ge _ _) L). cbn [andb]. rewrite (proj2 (Nat.ltb_ge _ _) L'). reflexivity.
Qed.
Lemma least : forall (f : node -> nat) l, l <> [] -> exists x, In x l /\ forall y, In y l -> f x <= f y.
Proof.
  intros f l. induction l as [|a l IH]; intros H; [congruence|]. destruct l as [|b l]; [exists a; split; [left; auto|intros y [<-|[]]; auto]|]. destruct IH as (x & Hx & Lx); [discriminate|].
  destruct (Nat.le_gt_cases (f a) (f x)) as [K|K]; [exists a|exists x]; (split; [cbn in *; tauto|intros y [<-|Hy]; [lia|specialize (Lx y Hy); lia]]).
Qed.
Definition put (rnd : nat -> nat) (k a b : nat) : nat -> nat := fun i => if i =? k then a else if i =? k + 1 then b else rnd i.
Lemma put_k : forall rnd k a b, put rnd k a b k = a.
Proof. intros. unfold put. rewrite Nat.eqb_refl. auto. Qed.
Lemma put_k1 : forall rnd k a b, put rnd k a b (k + 1) = b.
Proof. intros. unfold put. rewrite Nat.eqb_refl. destruct (Nat.eqb_spec (k + 1) k); [lia|auto]. Qed.
Lemma put_below : forall rnd k a b i, i < k -> put rnd k a b i = rnd i.
Proof. intros rnd k a b i H. unfold put. destruct (Nat.eqb_spec i k); [lia|]. destruct (Nat.eqb_spec i (k + 1)); [lia|auto]. Qed.
Definition connect_ends (order : list node) (mx k : nat) g vis unv rnd' : Prop := exists fuel g' k', k <= k' /\
  (forall rnd'', same_below k' rnd'' rnd' -> connect fuel rnd'' k order mx g vis unv = Ok (g', k')).
Lemma connect_ends_step : forall order mx k g vis unv g1 vis1 unv1 n nb rnd',
  (forall fuel rnd k, choice rnd k unv = Ok n -> choice rnd (k + 1) vis = Ok nb -> connect (S fuel) rnd k order mx g vis unv = connect fuel rnd (k + 2) order mx g1 vis1 unv1) ->
  choice rnd' k unv = Ok n -> choice rnd' (k + 1) vis = Ok nb -> connect_ends order mx (k + 2) g1 vis1 unv1 rnd' -> connect_ends order mx k g vis unv rnd'.
Proof.
  intros order mx k g vis unv g1 vis1 unv1 n nb rnd' St E1 E2 (fuel & g' & k' & Lk & H). exists (S fuel), g', k'. split; [lia|]. intros rnd'' S.
  rewrite St; [apply H; auto| |]; [rewrite <- E1|rewrite <- E2]; apply choice_ext, S; lia.
Qed.
Lemma connect_can : forall m order mx g vis unv rnd k, length unv = m -> 1 <= mx -> NoDup order -> joining order g vis unv -> (forall v, in_degree g v <= Nat.max 1 mx) ->
  exists rnd', same_below k rnd' rnd /\ connect_ends order mx k g vis unv rnd'.
Proof.
  induction m as [|m IH]; intros order mx g vis unv rnd k Lu Lm N J D.
  - destruct unv; [|discriminate]. exists rnd. split; [intros i _; auto|]. exists 0, g, k. split; [lia|]. intros. reflexivity.
  - destruct unv as [|n unv']; [discriminate|]. set (unv := n :: unv') in *. assert (Hn : In n unv) by (left; auto).
    destruct (least (fun x => index x order) vis (j_some _ _ _ _ J)) as (nb & Hb & Lb).
    assert (Z : in_degree g nb = 0).
    { unfold in_degree. destruct (parents g nb) as [|p l] eqn:E; auto. exfalso. assert (K : edge g p nb) by (apply in_parents; rewrite E; left; auto). assert (Kp := wf_edge_l g (j_wf _ _ _ _ J) p nb K). apply (j_nodes _ _ _ _ J) in Kp. apply Lb in Kp. apply (j_up _ _ _ _ J) in K. lia. }
    assert (Ne : index n order <> index nb order).
    { assert (Io : forall x, In x (vis ++ unv) -> In x order) by (intros x K; eapply Permutation_in; [apply (j_perm _ _ _ _ J)|auto]). intro E. apply index_inj in E; [|apply Io, in_or_app; auto|apply Io, in_or_app; auto]. subst nb.
      assert (N' := Permutation_NoDup (Permutation_sym (j_perm _ _ _ _ J)) N). unfold unv in N'. apply NoDup_remove_2 in N'. apply N', in_or_app. auto. }
    destruct (connect_round order mx g vis unv n nb N J D Hn Hb) as (g1 & vis1 & unv1 & J1 & D1 & St & Dec). destruct (choice_any _ unv n Hn) as (a & Ha). destruct (choice_any _ vis nb Hb) as (b & Hb2).
    destruct (IH order mx g1 vis1 unv1 (put rnd k a b) (k + 2)) as (rnd' & Sm & En); auto; [assert (length unv = S (length unv1)) by (apply Dec; lia); lia|].
    exists rnd'. split; [intros i Hi; rewrite Sm by lia; apply put_below; auto|]. apply (connect_ends_step order mx k g vis unv g1 vis1 unv1 n nb rnd' St); auto.
    + apply Ha. rewrite Sm by lia. apply put_k.
    + apply Hb2. rewrite Sm by lia. apply put_k1.
Qed.
Lemma connect_any : forall j order mx g vis unv rnd k, 1 <= mx -> NoDup order -> joining order g vis unv -> (forall v, in_degree g v <= Nat.max 1 mx) ->
  exists rnd', same_below (k + 2 * j) rnd' rnd /\ connect_ends order mx k g vis unv rnd'.
Proof.
  induction j as [|j IH]; intros order mx g vis unv rnd k Lm N J D.
  - replace (k + 2 * 0) with k by lia. eapply connect_can; eauto.
  - destruct (list_eq_dec string_dec unv []) as [->|Hu].
    + exists rnd. split; [intros i _; auto|]. exists 0, g, k. split; [lia|]. intros. reflexivity.
    + destruct (choice_some _ rnd k unv Hu) as (n & En). destruct (choice_some _ rnd (k + 1) vis (j_some _ _ _ _ J)) as (nb & Eb).
      destruct (connect_round order mx g vis unv n nb N J D (choice_In _ _ _ _ _ En) (choice_In _ _ _ _ _ Eb)) as (g1 & vis1 & unv1 & J1 & D1 & St & _).
      destruct (IH order mx g1 vis1 unv1 rnd (k + 2) Lm N J1 D1) as (rnd' & Sm & Ends). exists rnd'. split; [intros i Hi; apply Sm; lia|]. apply (connect_ends_step order mx k g vis unv g1 vis1 unv1 n nb rnd' St); auto.
      * rewrite <- En. apply choice_ext, Sm. lia.
      * rewrite <- Eb. apply choice_ext, Sm. lia.
Qed.
Definition densify_ends order target k g rnd' : Prop := exists fuel g', densify fuel rnd' k order target g = Ok g'.
Lemma add_random_pick : forall g order u v, NoDup order -> In u order -> In v order -> index u order < index v order -> in_degree g v < 4 ->
  exists a b, forall rnd k, rnd k = a -> rnd (k + 1) = b -> add_random_edge rnd k g order 4 = Ok (nx_add_edge g u v).
Proof.
  intros g order u v N Hu Hv L M. destruct (sample2_any order u v N Hu Hv) as (a & b & H); [intros ->; lia|]. exists a, b. intros rnd k Ea Eb. unfold add_random_edge. rewrite (H rnd k Ea Eb). cbn [bind]. rewrite (proj2 (Nat.ltb_lt _ _) L), (proj2 (Nat.ltb_lt _ _) M). reflexivity.
Qed.
Lemma add_random_ext : forall g order rnd rnd' k, rnd k = rnd' k -> rnd (k + 1) = rnd' (k + 1) -> add_random_edge rnd k g order 4 = add_random_edge rnd' k g order 4.
Proof. intros g order rnd rnd' k H H'. unfold add_random_edge. rewrite (sample2_ext _ rnd rnd'); auto. Qed.
Lemma densify_can : forall m order target d g rnd k, Z.to_nat (target - Z.of_nat (length (edges g))) = m -> NoDup order -> 4 <= d -> drawn order d g ->
  (target <= Z.of_nat (most_edges (length order) 4))%Z -> exists rnd', same_below k rnd' rnd /\ densify_ends order target k g rnd'.
Proof.
  induction m as [|m IH]; intros order target d g rnd k Em N Ld D B.
  - exists rnd. split; [intros i _; auto|]. exists 0, g. cbn [densify]. destruct (Z.ltb_spec (Z.of_nat (length (edges g))) target); [lia|auto].
  - destruct (upward_room order g 4 N (d_wf _ _ _ D) (d_up _ _ _ D)) as (u & v & Hu & Hv & L & M & E); [lia|]. destruct (add_random_pick g order u v N Hu Hv L M) as (a & b & P).
    assert (Len := edges_add_new g u v E). destruct (IH order target d (nx_add_edge g u v) (put rnd k a b) (k + 2)) as (rnd' & Sm & (fuel & g' & H)); auto; [lia|apply drawn_add; auto|].
    exists rnd'. split; [intros i Hi; rewrite Sm by lia; apply put_below; auto|]. exists (S fuel), g'. cbn [densify]. destruct (Z.ltb_spec (Z.of_nat (length (edges g))) target); [|lia].
    rewrite P; [exact H| |]; [rewrite Sm by lia; apply put_k|rewrite Sm by lia; apply put_k1].
Qed.
Lemma densify_any : forall j order target d g rnd k, NoDup order -> 2 <= length order \/ (target <= 0)%Z -> 4 <= d -> drawn order d g ->
  (target <= Z.of_nat (most_edges (length order) 4))%Z -> exists rnd', same_below (k + 2 * j) rnd' rnd /\ densify_ends order target k g rnd'.
Proof.
  induction j as [|j IH]; intros order target d g rnd k N Lo Ld D B.
  - replace (k + 2 * 0) with k by lia. eapply densify_can; eauto.
  - destruct (Z.ltb_spec (Z.of_nat (length (edges g))) target) as [L|L].
    + destruct Lo as [Lo|Lo]; [|lia]. destruct (add_random_ok rnd k g order N Lo) as (g1 & E & K). assert (D1 : drawn order d g1) by (destruct K as [->|(u & v & Hu & Hv & L1 & M & ->)]; [auto|apply drawn_add; auto]).
      destruct (IH order target d g1 rnd (k + 2) N (or_introl Lo) Ld D1 B) as (rnd' & Sm & (fuel & g' & H)). exists rnd'. split; [intros i Hi; apply Sm; lia|]. exists (S fuel), g'. cbn [densify]. destruct (Z.ltb_spec (Z.of_nat (length (edges g))) target); [|lia].
      rewrite (add_random_ext g order rnd' rnd), E; [exact H| |]; apply Sm; lia.
    + exists rnd. split; [intros i _; auto|]. exists 0, g. cbn [densify]. destruct (Z.ltb_spec (Z.of_nat (length (edges g))) target); [lia|auto].
Qed.
