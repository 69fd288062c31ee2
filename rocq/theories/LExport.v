(* Lemmas: when macid_to_efg returns. *)
From Coq Require Import String List Bool Arith QArith Qcanon Lia Permutation.
Import ListNotations.
From Verif Require Import MBase MGraph MMacid MCpd MNet MProb MQuery MPolicy MGame Spec SpecM SpecC SpecN SpecQ SpecPol SpecGame SpecExport LBase LGraph LPaths LActive LMech LRoles LQc LCpd LNet LCheck LSum LBayes LSep LQuery LDo LInter LFactor LBuilt LTotal LEffects PMacid PQuery LReach LIncent LPolicy LValue LSearch LOptTotal LGame LGrow LTree LLevels LShape.
Local Open Scope nat_scope.

(* ---- decisions whose rules do not matter ---- *)
Lemma no_cycle : forall g a b, acyclic g -> edge g a b -> ~ reach g b a.
Proof. intros g a b A E R. apply (A a). exists b. auto. Qed.
Lemma pend_family : forall g Z d u, acyclic g -> In d Z -> (forall p, edge g p d -> In p Z) -> ~ pend_conn g Z d u.
Proof.
  intros g Z d u A Hd Hp (Hu & q & (Hc & Hn & Hf) & Ha & Hh). destruct (from_to_cons_inv _ _ _ Hf) as [r ->]. destruct r as [|c r]; [destruct Hf as [_ Hf]; cbn in Hf; injection Hf as <-; auto|].
  destruct Hh as [_ Hh]. inversion Hc as [|? ? ? Hvc Hc']; subst. destruct (has_edge_spec g c d) as [E|E]; [|apply Hh; auto].
  destruct r as [|e r]; [destruct Hf as [_ Hf]; cbn in Hf; injection Hf as <-; auto|]. destruct (Ha d c e) as [_ K]; [exists [], r; auto|]. apply K; auto. apply noncollider_child_l; auto.
Qed.
Lemma pend_parents : forall g d v, acyclic g -> v <> d -> ~ pend_conn g (parents g v) d v.
Proof.
  intros g d v A Ne (Hu & q & Sp & Ha & Hh). assert (Hc := Sp). apply simple_path_rev in Hc. apply active_rev in Ha. destruct Hc as (Hc & Hn & Hf). destruct (from_to_cons_inv _ _ _ Hf) as [r E]. rewrite E in *. destruct r as [|c r]; [destruct Hf as [_ Hf]; cbn in Hf; congruence|].
  assert (Down : forall z, In z (parents g v) -> reach g c z -> edge g v c -> False).
  { intros z Kz Rz Ev. apply in_parents in Kz. apply (no_cycle _ _ _ A Kz). econstructor; eauto. }
  inversion Hc as [|? ? ? Hvc Hc']; subst. destruct (has_edge_spec g c v) as [Ecv|Nc].
  - assert (Kc : In c (parents g v)) by (apply in_parents; auto). destruct r as [|e r].
    + assert (Eq : q = [c; v]) by (rewrite <- (rev_involutive q), E; auto). assert (c = d) by (rewrite Eq in Sp; destruct Sp as (_ & _ & S1 & _); cbn in S1; congruence). subst c q. destruct Hh as [_ Hh]. apply Hh; auto. intro K. apply (acyclic_edge_asym _ _ _ A K); auto.
    + destruct (Ha v c e) as [_ K]; [exists [], r; auto|]. apply K; auto. apply noncollider_child_l; auto.
  - destruct Hvc as [Hvc|K]; [|contradiction]. destruct (forward_run g _ r v c Hc Hvc Ha) as [F|(z & Rz & Kz)]; [|apply (Down z Kz Rz Hvc)].
    assert (El : last r c = d). { destruct Hf as [_ Hf]. apply (last_rev v c r d Hf). } rewrite El in F.
    destruct q as [|a [|b q]]; try (cbn in E; discriminate). assert (a = d) by (destruct Sp as (_ & _ & S1 & _); cbn in S1; congruence). subst a. destruct Hh as [H1 H2].
    destruct (has_edge_spec g b d) as [Ebd|Nb].
    + destruct (H1 Ebd) as (z & Rz & Kz). apply (Down z Kz); auto. eapply reach_trans; eauto.
    + (* the path leaves d downwards, and v downwards: it is not directed *)
      destruct Sp as (Sc & _ & _). assert (Hdb : adjacent g d b) by (inversion Sc; auto). destruct Hdb as [Hdb|K]; [|contradiction].
      assert (Ha2 : active g (parents g v) (d :: b :: q)) by (rewrite <- (rev_involutive (d :: b :: q)), E; apply active_rev; auto).
      destruct (forward_run g _ q d b Sc Hdb Ha2) as [F2|(z & Rz & Kz)].
      * assert (El2 : last q b = v). { assert (X : hd_error (rev (d :: b :: q)) = Some v) by (rewrite E; auto). apply (last_rev d b q v X). } rewrite El2 in F2. apply (no_cycle _ _ _ A Hdb). eapply reach_trans; [exact F2|]. econstructor; eauto.
      * apply (Down z Kz); auto. eapply reach_trans; [exact F|]. econstructor; eauto.
Qed.

(* ---- loops that stop at the first failure ---- *)
Lemma loop_either : forall (A : Type) (f : net -> tree -> A -> net * result tree) (I : list A -> net -> tree -> Prop) (good : A -> Prop) (n0 : net) (e : error) l,
  (forall done x rest n t, l = done ++ x :: rest -> I done n t -> (good x /\ exists n' t', f n t x = (n', Ok t') /\ I (done ++ [x]) n' t') \/ (~ good x /\ f n t x = (n0, Err e))) ->
  forall n t, I [] n t -> (Forall good l /\ exists n' t', loop_tree f n t l = (n', Ok t') /\ I l n' t') \/ ((exists x, In x l /\ ~ good x) /\ loop_tree f n t l = (n0, Err e)).
Proof.
  intros A f I good n0 e l St. assert (G : forall rest done n t, l = done ++ rest -> I done n t -> Forall good done -> (Forall good l /\ exists n' t', loop_tree f n t rest = (n', Ok t') /\ I l n' t') \/ ((exists x, In x l /\ ~ good x) /\ loop_tree f n t rest = (n0, Err e))).
  { induction rest as [|x rest IH]; intros done n t E Hi Fd; cbn [loop_tree].
    - rewrite app_nil_r in E. subst. left. eauto.
    - destruct (St done x rest n t E Hi) as [(Gx & n1 & t1 & F & I1)|(Nx & F)]; rewrite F.
      + apply (IH (done ++ [x])); auto; [rewrite <- app_assoc; auto|]. apply Forall_app. auto.
      + right. split; auto. exists x. split; auto. rewrite E. apply in_app_iff. right; left; auto. }
  intros n t Hi. apply (G l []); auto.
Qed.
Lemma walk_total : forall g rest here, (forall r1 i r2, rest = r1 ++ i :: r2 -> i < children_of g (here ++ r1)) -> walk g here rest = Ok (here ++ rest).
Proof.
  intros g rest. induction rest as [|i rest IH]; intros here H; cbn [walk]; [rewrite app_nil_r; auto|]. assert (K := H [] i rest eq_refl). rewrite app_nil_r in K. apply Nat.ltb_lt in K. rewrite K.
  rewrite IH; [rewrite <- app_assoc; auto|]. intros r1 j r2 E. rewrite <- app_assoc. apply (H (i :: r1) j r2). rewrite E. auto.
Qed.

Lemma walk_same : forall g g', g_isets g = g_isets g' -> g_moves g = g_moves g' -> forall idx, get_cur_node g idx = get_cur_node g' idx.
Proof.
  intros g g' E1 E2. assert (C : forall idx, children_of g idx = children_of g' idx) by (intro idx; unfold children_of; rewrite E1, E2; auto). assert (Wk : forall rest here, walk g here rest = walk g' here rest).
  { induction rest as [|i rest IH]; intro here; cbn [walk]; auto. rewrite C, IH. auto. }
  intros [|r rest]; cbn [get_cur_node]; auto.
Qed.
Lemma position_pre : forall n l q r, position n l (q ++ r) -> position n l q.
Proof. intros n l. induction l as [|w l IH]; intros [|k q] r P; cbn in *; try tauto. split; [tauto|]. apply (IH q r). tauto. Qed.
Lemma combine_snd : forall (A : Type) (l : list A) k, map snd (combine (seq k (length l)) l) = l.
Proof. intros A l. induction l as [|x l IH]; intro k; cbn; auto. f_equal. auto. Qed.

Section totality.
Variables (o : order) (m : macid) (n0 : net) (sg : list node) (ags : list agent) (vs : list node).
Hypothesis O : valid_order o.
Hypothesis V : valid m.
Hypothesis G0 : mgraph m = ngraph n0.
Hypothesis NC : no_clash (ngraph n0).
Hypothesis B : built n0.
Hypothesis Hd : distribution n0.
Hypothesis Co : connected n0.
Hypothesis Da : game_data m n0 sg ags.
Hypothesis Tv : tree_variables n0 sg vs.
Hypothesis Iv : incl vs (nodes (ngraph n0)).
Local Notation dom v := (dom_of (doms n0) v).
Local Notation grown := (grown o m n0 sg ags vs).

Lemma Wn : wf_dag (ngraph n0). Proof. apply Hd. Qed.
Lemma tree_iff : forall v, In v vs <-> in_tree n0 sg v. Proof. intro v. apply Tv. Qed.
Lemma decision_known : forall d, In d (decisions m) -> In d (nodes (ngraph n0)).
Proof. intros d K. apply (in_decisions m d V) in K. destruct K as (a & K). rewrite <- G0. destruct V as (_ & _ & R). eapply R. left. exact K. Qed.
Lemma decision_ruled : forall d, In d (decisions m) -> In d sg \/ has_policy n0 d = true.
Proof.
  intros d K. apply (in_decisions m d V) in K. destruct (gd_ruled _ _ _ _ Da d K) as [L|(t & T1 & T2)]; auto. right. unfold has_policy. apply (single_cpd n0 d t (proj1 (proj2 Hd))) in T1. rewrite T1. destruct (tkind t); congruence.
Qed.
Lemma same_after : forall n, later n0 n -> n = n0. Proof. intros n [_ L]. auto. Qed.
Lemma query_stays : forall qs c n' r, qs <> [] -> incl qs (nodes (ngraph n0)) -> macid_query o m n0 qs c [] = (n', r) -> n' = n0.
Proof.
  intros qs c n' r Nq Iq H. destruct (C37_methods_partial o m n0 qs c [] Wn) as (F & _). destruct (F _ _ H) as [_ (_ & _ & _ & _ & F5)]. apply F5. intros v Hv. destruct qs as [|q qs]; [congruence|]. exists q. split; [left; auto|]. apply Co; auto. apply Iq. left; auto.
Qed.
(* contexts of values of variables of the tree are accepted *)
Lemma tree_context : forall c, in_domains n0 c -> incl (keys c) vs -> check_domains n0 c = Ok tt.
Proof.
  intros c Dc Ic. apply check_domains_ok. intros v x K. assert (Hv : In v vs) by (apply Ic; apply (in_map fst c (v, x)); auto). split; [apply Iv; auto|]. destruct (proj2 (proj2 (proj2 Hd)) v (Iv v Hv)) as (t & T1 & T2 & _). exists t.
  split; [apply (single_cpd n0 v t (proj1 (proj2 Hd))); auto|]. split; [apply (gd_plain _ _ _ _ Da v); auto; apply tree_iff; auto|]. destruct (Dc v x K) as (d & D1 & D2). unfold has_domain in *. congruence.
Qed.
Lemma chance_query : forall v c, In v (nodes (ngraph n0)) -> ~ In v sg -> keys c = parents (ngraph n0) v -> in_domains n0 c -> incl (keys c) vs -> exists f, macid_query o m n0 [v] c [] = (n0, Ok f).
Proof.
  intros v c Hv Nv Kc Dc Ic. assert (C1 := tree_context c Dc Ic). assert (Iq : incl [v] (nodes (ngraph n0))) by (intros q [<-|[]]; auto).
  assert (C2 : check_policies m n0 [v] c [] = Ok tt).
  { apply check_policies_given; auto; [apply Hd|intros x Hx; apply Iv, Ic; auto|]. intros d K. split; [apply decision_known; auto|]. destruct (decision_ruled d K) as [L|L]; auto. right. intros q [<-|[]]. rewrite Kc. apply pend_parents; [apply Hd|]. intros ->. auto. }
  destruct (query_total o (copy_roles_only m n0) n0 [v] c [] B Hd (NoDup_nil _) ltac:(intros ? []) ltac:(intros ? ? []) ltac:(intros ? ? ? []) Dc ltac:(discriminate) Iq (fun q q' Hq Hq' => Co q q' (Iq q Hq) (Iq q' Hq'))) as (n' & f & Q).
  - intros q [<-|[]] K. rewrite Kc in K. apply in_parents in K. apply (acyclic_edge_irrefl _ _ (proj2 Wn) K).
  - left. auto.
  - assert (X : macid_query o m n0 [v] c [] = (n', Ok f)) by (unfold macid_query; rewrite C1; cbn [bind]; rewrite C2; exact Q). exists f. rewrite X. f_equal. eapply query_stays; eauto. discriminate.
Qed.

Lemma hist_values : forall p, position n0 vs p -> in_domains n0 (history n0 vs p) /\ incl (keys (history n0 vs p)) vs.
Proof.
  assert (G : forall l p, incl l (nodes (ngraph n0)) -> position n0 l p -> in_domains n0 (history n0 l p) /\ incl (keys (history n0 l p)) l).
  { induction l as [|v l IH]; intros [|i p] I P; cbn in P; try tauto; cbn [history]; try (solve [split; [intros ? ? []|intros ? []]]). destruct P as [P1 P2]. destruct (IH p) as [IH1 IH2]; auto; [intros x Hx; apply I; right; auto|]. split.
    - intros w x [K|K]; [|apply IH1; auto]. injection K as <- <-. exists (dom v). split; [apply (dist_lookup n0 v Hd); apply I; left; auto|apply nth_In; auto].
    - intros w [<-|K]; [left; auto|right; auto]. }
  intros p P. apply G; auto.
Qed.
Lemma has_children : forall L n t q w, grown L n t -> In q L -> at_variable vs q w -> length (dom w) <= children_of (t_game t) (0 :: q).
Proof.
  intros L n t q w G Hq Aw. assert (K := in_map (cons 0) _ _ Hq). rewrite <- (gr_moves _ _ _ _ _ _ _ _ _ G) in K. apply in_map_iff in K. destruct K as ([idx k] & E & K). cbn in E. subst idx. assert (Bk : belongs (t_game t) q k) by exact K.
  assert (N : NoDup (map fst (g_moves (t_game t)))). { rewrite (gr_moves _ _ _ _ _ _ _ _ _ G). apply FinFun.Injective_map_NoDup; [|apply (gr_nodup _ _ _ _ _ _ _ _ _ G)]. intros a b E. congruence. }
  unfold children_of. rewrite (in_find _ _ idx_dec _ _ _ N K). destruct (in_dec String.string_dec w sg) as [Hw|Hw].
  - destruct (gr_dec _ _ _ _ _ _ _ _ _ G q k w Bk Aw Hw) as (a & pv & i & _ & _ & _ & Ni & Le). rewrite Ni. auto.
  - destruct (gr_chance _ _ _ _ _ _ _ _ _ G q k w Bk Aw Hw) as (pv & m1 & m2 & f & _ & _ & _ & Ni & _). rewrite Ni. cbn [is_actions]. rewrite map_length. auto.
Qed.
Lemma reach_position : forall L n t p, grown L n t -> position n0 vs p -> (forall q i r, p = q ++ i :: r -> In q L) -> get_cur_node (t_game t) (0 :: p) = Ok (0 :: p).
Proof.
  intros L n t p G Pp Pre. cbn [get_cur_node]. apply (walk_total (t_game t) p [0]). intros r1 i r2 E. cbn [app]. assert (Hq := Pre r1 i r2 E). subst p.
  assert (X : exists w, at_variable vs r1 w /\ i < length (dom w)).
  { clear - Pp. unfold at_variable. revert r1 Pp. generalize vs. intro l. induction l as [|w l IH]; intros [|j r1] P; cbn in P; try tauto; [exists w; cbn; tauto|]. destruct P as [_ P]. apply (IH r1) in P. exact P. }
  destruct X as (w & Aw & Hi). assert (Ch := has_children L n t r1 w G Hq Aw). lia.
Qed.

(* the variable v has all it depends on before it in the tree *)
Definition sees_all (v : node) : Prop := In v sg \/ forall u, edge (ngraph n0) u v -> In u vs.
Lemma before : forall p v u, at_variable vs p v -> In u vs -> edge (ngraph n0) u v -> position n0 vs p -> In u (keys (history n0 vs p)).
Proof.
  intros p v u Av Hu E Pp. rewrite history_keys by (apply at_variable_in in Av; lia). unfold at_variable in Av. destruct Tv as (Nv & _ & Tp).
  destruct (nth_error_split _ _ Av) as (l1 & l2 & El & Ll). rewrite <- Ll. rewrite El in Hu |- *. rewrite firstn_app, Nat.sub_diag, firstn_all. cbn [firstn]. rewrite app_nil_r. apply in_app_iff in Hu. destruct Hu as [Hu|[<-|Hu]]; auto; exfalso.
  - apply (acyclic_edge_irrefl _ _ (proj2 Wn) E).
  - apply (Tp l1 v l2 u El Hu). exists v. split; [auto|constructor].
Qed.
Lemma grow_either : forall L n t p v, grown L n t -> position n0 vs p -> at_variable vs p v -> state_of t (0 :: p) = history n0 vs p -> (forall q i r, p = q ++ i :: r -> In q L) ->
  (sees_all v /\ exists n' t', grow_at o m sg v n t (0 :: p) = (n', Ok t')) \/ (~ sees_all v /\ grow_at o m sg v n t (0 :: p) = (n0, Err KeyError)).
Proof.
  intros L n t p v G Pp Av St Pre. assert (En := same_after n (gr_net _ _ _ _ _ _ _ _ _ G)). subst n. assert (Hv : In v vs) by (apply (at_variable_in vs p v Av)).
  unfold grow_at. rewrite St, (reach_position L n0 t p G Pp Pre). cbn [bind]. assert (Gp : get_parents (ngraph n0) v = Ok (parents (ngraph n0) v)) by (unfold get_parents; rewrite (proj2 (mem_In _ _) (Iv v Hv)); auto). rewrite Gp. cbn [bind].
  destruct (hist_values p Pp) as [Hh1 Hh2]. match goal with |- context [map_r ?f (parents (ngraph n0) v)] => destruct (map_r f (parents (ngraph n0) v)) as [pv|e] eqn:Ev end; cbn [bind].
  - left. destruct (sees_read n0 v _ _ pv Gp Ev) as [Se1 Se2]. assert (Ip : incl (keys pv) vs). { intros x Hx. apply in_map_iff in Hx. destruct Hx as (y & <- & Hy). apply Hh2. apply in_map. auto. }
    assert (Dp : in_domains n0 pv) by (intros x y K; apply Hh1; auto). split; [right; intros u E; apply Ip; apply in_parents in E; exact (eq_ind_r (fun l => In u l) E Se1)|].
    destruct (mem v sg) eqn:Mv.
    + apply mem_In in Mv. destruct (gd_players _ _ _ _ Da v Mv) as (_ & a & Ha & La). exists n0. unfold add_decision. unfold dict_get at 1. rewrite La. cbn [bind]. rewrite (gr_players _ _ _ _ _ _ _ _ _ G), (proj2 (mem_In _ _) Ha). cbn [negb]. unfold dict_get. rewrite (proj1 (dist_lookup n0 v Hd (Iv v Hv))). cbn [bind]. cbv zeta.
      match goal with |- context [match ?x with Some _ => _ | None => _ end] => destruct x as [k|] eqn:Fk end.
      * apply find_in in Fk. destruct (gr_label _ _ _ _ _ _ _ _ _ G a pv k Fk) as (d & i & Ni & _ & _ & Hds & _ & Ld & Pd & Ln & _). rewrite Ni.
        assert (El : length (dom d) = length (dom v)).
        { apply (gd_compatible _ _ _ _ Da); auto; [congruence|]. unfold get_parents in Pd. destruct (mem d (nodes (ngraph n0))); [|discriminate]. injection Pd as Pd. exact (eq_trans Pd Se1). }
        unfold put_labels. rewrite Ln, El, Nat.leb_refl. cbn [bind]. eauto.
      * unfold put_labels. cbn [is_actions]. rewrite repeat_length, Nat.leb_refl. cbn [bind]. eauto.
    + apply mem_nIn in Mv. destruct (chance_query v pv (Iv v Hv) Mv Se1 Dp Ip) as (f & Q). rewrite Q. exists n0. destruct (macid_query_smaller o m n0 v pv n0 f O Wn Q) as [_ Ef]. unfold add_chance, dict_get. rewrite (proj1 (dist_lookup n0 v Hd (Iv v Hv))). cbn [bind]. cbv zeta.
      assert (El : length (fentries f) = length (dom v)) by (rewrite <- (map_length fst), Ef, map_length; auto). rewrite El, Nat.leb_refl. eauto.
  - right. assert (Ee : e = KeyError). { apply map_r_err in Ev. destruct Ev as (u & _ & Eu). unfold dict_get in Eu. destruct (lookup u (history n0 vs p)); cbn in Eu; congruence. } subst e. split; auto.
    intro S. match type of Ev with map_r ?f ?l = _ => destruct (map_r_total _ _ f l) as (ys & Ey); [|congruence] end. intros u Hu. apply in_parents in Hu. assert (Ku : In u (keys (history n0 vs p))).
    { apply (before p v u); auto. destruct S as [S|S]; auto. apply Tv. right. eauto. }
    unfold dict_get. destruct (lookup u (history n0 vs p)) as [x|] eqn:Lu; [cbn; eauto|]. exfalso. apply lookup_None_keys in Lu. auto.
Qed.
Lemma prefixes : forall i done p L, length p = i -> position n0 vs p -> (forall q, In q L <-> position n0 vs q /\ (length q < i \/ In (0 :: q) done)) -> forall q j r, p = q ++ j :: r -> In q L.
Proof.
  intros i done p L Lp Pp HL q j r E. apply HL. subst p. split; [|left; rewrite <- Lp, app_length; cbn; lia]. clear - Pp. revert q Pp. generalize vs. intro l. induction l as [|w l IH]; intros [|k q] P; cbn in *; try tauto. split; [tauto|]. apply (IH q). tauto.
Qed.
Local Notation cards := (map (fun v => length (dom_of (doms n0) v)) vs).
Lemma level_nonempty : forall i, indices (firstn i cards) <> [].
Proof.
  intros i E. assert (K : exists p, length p = Nat.min i (length vs) /\ position n0 vs p).
  { assert (G : forall l k, incl l (nodes (ngraph n0)) -> exists p, length p = Nat.min k (length l) /\ position n0 l p).
    { induction l as [|v l IH]; intros [|k] I; try (exists []; cbn; auto; fail). destruct (IH k) as (p & P1 & P2); [intros x Hx; apply I; right; auto|]. exists (0 :: p). cbn. split; [lia|]. split; auto. destruct (dist_lookup n0 v Hd (I v (or_introl eq_refl))) as [_ N]. destruct (dom v); [congruence|cbn; lia]. }
    apply (G vs i). exact Iv. }
  destruct K as (p & K1 & K2). assert (X : In (0 :: p) (indices (firstn i cards))) by (apply level_indices; exists p; auto). rewrite E in X. destruct X.
Qed.
Lemma grow_loop : (Forall sees_all vs /\ exists t' L, loop_tree (grow o m sg cards) n0 (mkTree (mkGame ags [] [] []) [] []) (combine (seq 0 (length vs)) vs) = (n0, Ok t') /\ grown L n0 t' /\ forall p, In p L <-> position n0 vs p /\ length p < length vs) \/
  ((exists v, In v vs /\ ~ sees_all v) /\ loop_tree (grow o m sg cards) n0 (mkTree (mkGame ags [] [] []) [] []) (combine (seq 0 (length vs)) vs) = (n0, Err KeyError)).
Proof.
  destruct (loop_either _ (grow o m sg cards) (outer_inv o m n0 sg ags vs) (fun iv => sees_all (snd iv)) n0 KeyError (combine (seq 0 (length vs)) vs)) with (n := n0) (t := mkTree (mkGame ags [] [] []) [] []) as [(F & n' & t' & E & L & G & HL)|((iv & K1 & K2) & E)].
  - intros done [i v] rest n t E Iv1. apply combine_seq_at in E. destruct E as [-> E]. assert (Le : length done < length vs) by (apply nth_error_Some; congruence). cbn [snd]. unfold grow. cbn [fst snd].
    destruct (loop_either _ (fun n t idx => grow_at o m sg v n t idx) (level_inv o m n0 sg ags vs (length done)) (fun _ => sees_all v) n0 KeyError (indices (firstn (length done) cards))) with (n := n) (t := t) as [(F & n' & t' & E2 & I2)|((x & _ & K) & E2)].
    + intros d2 idx rest2 n2 t2 E2 Iv2. destruct (level_ready o m n0 sg ags vs (proj1 Tv) (length done) v d2 idx rest2 n2 t2 E E2 Iv2) as (p & L & -> & Lp & Pp & Ap & G & Np & St & HL).
      destruct (grow_either L n2 t2 p v G Pp Ap St (prefixes _ _ _ _ Lp Pp HL)) as [(S & n3 & t3 & H)|X]; [left|right; auto]. split; auto. exists n3, t3. split; auto. eapply level_next; eauto. eapply grow_step; eauto. apply Tv.
    + apply (level_start o m n0 sg ags vs done (length done, v)); auto.
    + left. split. { destruct (indices (firstn (length done) cards)) as [|x l] eqn:El; [exfalso; eapply level_nonempty; eauto|]. inversion F; auto. } exists n', t'. split; auto. apply (level_end o m n0 sg ags vs done (length done, v)); auto.
    + right. auto.
  - apply start_grown. apply later_refl. apply Wn.
  - left. split.
    + rewrite <- (combine_snd _ vs 0). clear - F. induction F; cbn; constructor; auto.
    + exists t', L. assert (En := same_after n' (gr_net _ _ _ _ _ _ _ _ _ G)). subst n'. split; auto. split; auto. intro p. rewrite HL, combine_length, seq_length, Nat.min_id. tauto.
  - right. split; auto. exists (snd iv). split; auto. rewrite <- (combine_snd _ vs 0). apply in_map. auto.
Qed.

(* ---- the payoffs ---- *)
Lemma pay_agent : forall c a, NoDup (keys c) -> in_domains n0 c -> (forall v, In v (keys c) <-> In v vs) -> In a ags ->
  (do_prob n0 [] c <> Q2Qc 0 -> exists u, expected_utility o m n0 c [] a = (n0, Ok u)) /\ (do_prob n0 [] c = Q2Qc 0 -> expected_utility o m n0 c [] a = (n0, Err RuntimeError)).
Proof.
  intros c a Nc Dc Kc Ha. destruct (gd_paid _ _ _ _ Da a Ha) as (us & Lu & Nu & Du). assert (Ic : incl (keys c) (nodes (ngraph n0))) by (intros v K; apply Iv, Kc; auto).
  assert (Iu : incl us (nodes (ngraph n0))). { intros u Hu. rewrite <- G0. destruct V as (_ & _ & R). apply (R a u). right. exists us. split; [apply lookup_In|]; auto. }
  assert (C1 := tree_context c Dc (fun v K => proj1 (Kc v) K)).
  assert (C2 : check_policies m n0 us c [] = Ok tt).
  { apply check_policies_given; auto; [apply Hd|]. intros d K. split; [apply decision_known; auto|]. destruct (decision_ruled d K) as [L|L]; auto. right. intros q _. apply pend_family; [apply Hd|apply Kc, Tv; auto|]. intros p E. apply Kc, Tv. right. eauto. }
  destruct (C41_defined o (copy_roles_only m n0) n0 us c [] O B Hd (NoDup_nil _) ltac:(intros ? []) ltac:(intros ? ? []) ltac:(intros ? ? ? []) Nc Dc Ic
     Nu Iu (fun q q' Hq Hq' => Co q q' (Iu q Hq) (Iu q' Hq')) ltac:(intros q Hq K; apply (Du q Hq), tree_iff, Kc; auto) (or_introl eq_refl)) as [D1 D2].
  assert (St : forall n' r, macid_expected_value o m n0 us c [] = (n', r) -> n' = n0).
  { intros n' r H. destruct (C37_methods_partial o m n0 us c [] Wn) as (_ & _ & F & _). destruct (F _ _ H) as [_ (_ & _ & _ & _ & F5)]. apply F5. intros v Hv. destruct us as [|u us']; [congruence|]. exists u. split; [left; auto|]. apply Co; auto. apply Iu. left; auto. }
  assert (X : macid_expected_value o m n0 us c [] = expected_value o (copy_roles_only m n0) n0 us c []) by (unfold macid_expected_value, expected_value, macid_query; rewrite C1; cbn [bind]; rewrite C2; reflexivity).
  unfold expected_utility, dict_get. rewrite Lu. split.
  - intro Z. destruct (D1 Z) as (n' & l & E). assert (E' := eq_trans X E). assert (n' = n0) by (eapply St; eauto). subst n'. exists (qsum l). match goal with |- context [macid_expected_value ?a ?b ?c0 ?d0 ?e ?f] => replace (macid_expected_value a b c0 d0 e f) with (n0, @Ok (list Qc) l) by (symmetry; exact E') end. reflexivity.
  - intro Z. destruct D2 as (n' & E); auto.
    + intros v Hv. destruct us as [|u us']; [congruence|]. exists u. split; [left; auto|]. apply Co; auto. apply Iu. left; auto.
    + assert (E' := eq_trans X E). assert (n' = n0) by (eapply St; eauto). subst n'. match goal with |- context [macid_expected_value ?a ?b ?c0 ?d0 ?e ?f] => replace (macid_expected_value a b c0 d0 e f) with (n0, @Err (list Qc) RuntimeError) by (symmetry; exact E') end. reflexivity.
Qed.
Lemma pay_agents : forall c l, NoDup (keys c) -> in_domains n0 c -> (forall v, In v (keys c) <-> In v vs) -> incl l ags ->
  (do_prob n0 [] c <> Q2Qc 0 \/ l = [] -> exists us, payoffs o m n0 c l = (n0, Ok us)) /\ (do_prob n0 [] c = Q2Qc 0 -> l <> [] -> payoffs o m n0 c l = (n0, Err RuntimeError)).
Proof.
  intros c l Nc Dc Kc. induction l as [|a l IH]; intro Il; cbn [payoffs]; [split; [eauto|congruence]|]. destruct (pay_agent c a Nc Dc Kc (Il a (or_introl eq_refl))) as [P1 P2]. destruct IH as [I1 _]; [intros x Hx; apply Il; right; auto|]. split.
  - intros [Z|Z]; [|discriminate]. destruct (P1 Z) as (u & ->). destruct (I1 (or_introl Z)) as (us & ->). cbn. eauto.
  - intros Z _. rewrite (P2 Z). auto.
Qed.
(* the payoffs of the leaf idx can be computed *)
Definition leaf_possible (idx : list nat) : Prop := do_prob n0 [] (history n0 vs (tl idx)) <> Q2Qc 0 \/ ags = [].
Lemma pay_loop : forall L t1, grown L n0 t1 -> (forall p, In p L <-> position n0 vs p /\ length p < length vs) -> g_payoffs (t_game t1) = [] ->
  (Forall leaf_possible (indices cards) /\ exists t', loop_tree (add_payoff o m ags) n0 t1 (indices cards) = (n0, Ok t')) \/
  ((exists idx, In idx (indices cards) /\ ~ leaf_possible idx) /\ loop_tree (add_payoff o m ags) n0 t1 (indices cards) = (n0, Err RuntimeError)).
Proof.
  intros L t1 G HL Ep. destruct (loop_either _ (add_payoff o m ags) (paid_inv o m n0 ags t1) leaf_possible n0 RuntimeError (indices cards)) with (n := n0) (t := t1) as [(F & n' & t' & E & I)|X]; auto.
  - intros done idx rest n t E Ip. assert (En : n = n0) by (apply same_after, Ip). subst n. assert (K : In idx (indices cards)) by (rewrite E; apply in_app_iff; right; left; auto). apply indices_spec in K. destruct K as (p & -> & Lp & Pp).
    assert (St : state_of t (0 :: p) = history n0 vs p).
    { destruct Ip as (_ & _ & _ & _ & _ & I6 & _). unfold state_of. rewrite I6. change (state_of t1 (0 :: p) = history n0 vs p). destruct (rev p) as [|j r] eqn:Er.
      - assert (p = []) by (rewrite <- (rev_involutive p), Er; auto). subst p. rewrite (gr_root _ _ _ _ _ _ _ _ _ G). destruct vs; auto.
      - assert (Epp : p = rev r ++ [j]) by (rewrite <- (rev_involutive p), Er; auto). rewrite Epp in Pp |- *. destruct (position_init n0 vs (rev r) j Pp) as (w & Aw & Pw & Hj). apply (gr_state _ _ _ _ _ _ _ _ _ G (rev r) j w); auto. apply HL. split; auto. rewrite Epp, app_length in Lp. cbn in Lp. lia. }
    assert (Gc : get_cur_node (t_game t) (0 :: p) = Ok (0 :: p)).
    { assert (X : get_cur_node (t_game t1) (0 :: p) = Ok (0 :: p)).
      { eapply reach_position; eauto. intros q i r Eq. apply HL. subst p. split; [eapply position_pre; eauto|rewrite <- Lp, app_length; cbn; lia]. }
      rewrite <- X. destruct Ip as (_ & _ & I3 & I4 & _). apply walk_same; auto. }
    assert (Nh : NoDup (keys (history n0 vs p))) by (apply history_nodup; apply Tv). destruct (hist_values p Pp) as [Dh _]. assert (Kh : forall v, In v (keys (history n0 vs p)) <-> In v vs) by (intro v; rewrite history_keys by lia; rewrite Lp, firstn_all; tauto).
    destruct (pay_agents (history n0 vs p) ags Nh Dh Kh (incl_refl _)) as [P1 P2]. unfold leaf_possible. cbn [tl].
    assert (Dec : (do_prob n0 [] (history n0 vs p) <> Q2Qc 0 \/ ags = []) \/ (do_prob n0 [] (history n0 vs p) = Q2Qc 0 /\ ags <> [])) by (destruct (Qc_eq_dec (do_prob n0 [] (history n0 vs p)) (Q2Qc 0)); destruct ags; auto; right; split; auto; discriminate).
    destruct Dec as [D|[D1 D2]].
    + left. split; auto. destruct (P1 D) as (us & Ep2). assert (Ea : exists t', add_payoff o m ags n0 t (0 :: p) = (n0, Ok t')) by (unfold add_payoff; rewrite Gc, St, Ep2; cbn [bind]; eauto). destruct Ea as (t' & Ea). exists n0, t'. split; auto. eapply pay_step; eauto.
      pose proof (indices_nodup cards) as N. rewrite E in N. apply NoDup_remove_2 in N. intro K. apply N. apply in_app_iff. auto.
    + right. split; [intros [K|K]; auto|]. unfold add_payoff. rewrite Gc, St, (P2 D1 D2). auto.
  - unfold paid_inv. rewrite Ep. cbn. split; [apply later_refl; apply Wn|]. do 5 (split; [auto|]). split; [tauto|]. split; [constructor|tauto].
  - left. split; auto. assert (n' = n0) by (apply same_after, I). subst n'. eauto.
Qed.
End totality.

(* ---- all of it ---- *)
Lemma outcome_position : forall n (vs : list node) (c : list (node * outcome)), NoDup vs -> NoDup (keys c) -> (forall v, In v (keys c) <-> In v vs) -> in_domains n c -> exists p, length p = length vs /\ position n vs p /\ Permutation c (history n vs p).
Proof.
  intros n vs c Nv C1 C2 C3.
  assert (Gx : forall l : list node, incl l vs -> exists p, length p = length l /\ position n l p /\ forall v x, In v l -> In (v, x) c -> In (v, x) (history n l p)).
  { induction l as [|w l IH]; intros I0; [exists []; cbn; tauto|]. destruct IH as (p & P1 & P2 & P3); [intros x Hx; apply I0; right; auto|].
    assert (Hw : In w (keys c)) by (apply C2, I0; left; auto). apply in_map_iff in Hw. destruct Hw as ([w' x] & Ew & Kw). cbn in Ew. subst w'. destruct (C3 w x Kw) as (d & D1 & D2). assert (D3 : dom_of (doms n) w = d) by (unfold dom_of; unfold has_domain in D1; rewrite D1; auto).
    destruct (In_nth d x (Q2Qc 0) D2) as (i & Hi & Ei). exists (i :: p). cbn [length position history]. rewrite D3. split; [lia|]. split; [auto|]. intros v y [<-|Hv] Ky; [left|right; auto]. f_equal. eapply eq_trans; [exact Ei|]. apply In_lookup in Kw; auto. apply In_lookup in Ky; auto. congruence. }
  destruct (Gx vs (incl_refl _)) as (p & P1 & P2 & P3). exists p. split; auto. split; auto. apply NoDup_Permutation_bis.
  - apply (NoDup_map_inv fst). exact C1.
  - assert (Pk : length (keys (history n vs p)) = length (keys c)); [|unfold keys in Pk; rewrite !map_length in Pk; apply Nat.eq_le_incl; exact Pk]. apply Permutation_length. apply NoDup_Permutation; [apply (history_nodup n vs p); auto|exact C1|]. intro v. change (In v (keys (history n vs p)) <-> In v (keys c)). rewrite C2, history_keys by lia. rewrite P1, firstn_all. tauto.
  - intros [v x] K. apply P3; auto. apply C2. apply (in_map fst c (v, x)). auto.
Qed.
Theorem efg_cases : forall o m n so ao, valid_order o -> valid m -> mgraph m = ngraph n -> no_clash (ngraph n) -> built n -> distribution n -> connected n ->
  let sg := or_default so (decisions m) in let ags := or_default ao (agents m) in game_data m n sg ags ->
  (closed_tree n sg /\ (all_possible n sg \/ ags = []) /\ exists r, macid_to_efg o m n so ao = (n, Ok r)) \/
  (~ closed_tree n sg /\ macid_to_efg o m n so ao = (n, Err KeyError)) \/
  (closed_tree n sg /\ ~ all_possible n sg /\ ags <> [] /\ macid_to_efg o m n so ao = (n, Err RuntimeError)).
Proof.
  intros o m n so ao O V G NC B Hd Co sg ags Da. assert (W : wf_dag (ngraph n)) by apply Hd.
  assert (Isg : incl sg (nodes (ngraph n))). { intros d K. destruct (gd_players _ _ _ _ Da d K) as ((a & R) & _). rewrite <- G. destruct V as (_ & _ & Rn). apply (Rn a d). left. exact R. }
  destruct (map_r_total _ _ (get_parents (ngraph n)) sg) as (pss & E1). { intros d K. unfold get_parents. rewrite (proj2 (mem_In _ _) (Isg d K)). eauto. }
  destruct (parents_of_all _ _ _ E1) as [_ I2]. destruct (C15_valid_order o (with_graph m (ngraph n)) (to_set (sg ++ concat pss)) W O) as [Vo _]. destruct Vo as (vs & E2 & _).
  { intros v K. apply in_to_set, in_app_iff in K. cbn. destruct K as [K|K]; auto. apply I2 in K. destruct K as (d & _ & K). apply (proj1 W) in K. apply K. }
  destruct (tree_order _ _ _ _ _ _ O W E1 E2) as [Tv Iv]. destruct (map_r_total _ _ (fun v => d <- dict_get v (doms n) ;; Ok (length d)) vs) as (cards & E3). { intros v K. unfold dict_get. rewrite (proj1 (dist_lookup n v Hd (Iv v K))). cbn. eauto. }
  assert (Ec := cards_read _ _ _ E3). unfold macid_to_efg. fold (or_default so (decisions m)). fold (or_default ao (agents m)). fold sg. fold ags. rewrite E1. cbn [bind]. match goal with |- context [get_valid_order ?a ?b ?c] => replace (get_valid_order a b c) with (@Ok (list node) vs) by (symmetry; exact E2) end. cbn [bind].
  match goal with |- context [map_r ?f vs] => replace (map_r f vs) with (@Ok (list nat) cards) by (symmetry; exact E3) end. cbn [bind]. rewrite Ec. clear E3 Ec cards.
  assert (Ti : forall v, In v vs <-> in_tree n sg v) by apply Tv.
  assert (Cl : closed_tree n sg <-> Forall (sees_all n sg vs) vs).
  { rewrite Forall_forall. unfold closed_tree, sees_all. split.
    - intros C v Hv. destruct (in_dec String.string_dec v sg) as [K|K]; auto. right. intros u E. apply Ti. apply (C u v); auto. apply Ti; auto.
    - intros F u v Hv Nv E. apply Ti. destruct (F v); auto; [apply Ti; auto|contradiction]. }
  destruct (grow_loop o m n sg ags vs O V G NC B Hd Co Da Tv Iv) as [(F & t & L & E4 & Gr & HL)|((v & Hv & Nv) & E4)]; rewrite E4.
  - assert (Ep : g_payoffs (t_game t) = []) by (apply no_payoffs in E4; auto).
    assert (Po : (all_possible n sg \/ ags = []) <-> Forall (leaf_possible n ags vs) (indices (map (fun v => length (dom_of (doms n) v)) vs))).
    { rewrite Forall_forall. unfold leaf_possible. split.
      - intros [A|A] idx K; auto. left. apply indices_spec in K. destruct K as (p & -> & Lp & Pp). cbn [tl]. apply A. split; [apply history_nodup, Tv|]. split; [|apply (hist_values n vs Hd Iv p Pp)]. intro v. rewrite history_keys by lia. rewrite Lp, firstn_all. apply Ti.
      - intro F1. destruct ags as [|a l] eqn:Ea; auto. left. intros c (C1 & C2 & C3).
        destruct (outcome_position n vs c) as (p & P1 & P2 & P3); auto; [apply Tv|intro v; rewrite C2; symmetry; apply Ti|].
        destruct (F1 (0 :: p)) as [Z|Z]; [apply indices_spec; eauto| |discriminate]. cbn [tl] in Z. intro Z2. apply Z. rewrite <- Z2. apply do_prob_perm. apply Permutation_sym; auto. }
    destruct (pay_loop o m n sg ags vs O V G NC B Hd Co Da Tv Iv L t Gr HL Ep) as [(F1 & t' & E5)|((idx & K1 & K2) & E5)]; rewrite E5.
    + left. split; [apply Cl; auto|]. split; [apply Po; auto|]. cbn [bind]. eauto.
    + right. right. split; [apply Cl; auto|]. assert (Np : ~ (all_possible n sg \/ ags = [])) by (intro K; apply Po in K; rewrite Forall_forall in K; apply K2, K; auto). split; [tauto|]. split; [tauto|]. auto.
  - right. left. split; auto. intro C. apply Cl in C. rewrite Forall_forall in C. apply Nv, C. auto.
Qed.
