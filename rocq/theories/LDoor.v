(* Lemmas for C84: the graph without the arrows out of a node, and the network in which the other nodes read a fixed value for it. *)
From Coq Require Import String List Bool Arith QArith Qcanon Lia Permutation.
Import ListNotations.
From Verif Require Import MBase MGraph MPaths MCpd MNet MProb MQuery Spec SpecC SpecN SpecQ SpecPol SpecGen LBase LGraph LQc LSum LBayes LQuery LDo LTotal LBest LIndep LCond LDep LDfs LPaths LActive LMoral.
From Verif Require LTrim.
Local Open Scope string_scope.
Local Open Scope list_scope.
Local Open Scope Qc_scope.

Definition mute (g : graph) (x : node) : graph := mkG (nodes g) (filter (fun e => negb (String.eqb (fst e) x)) (edges g)).
Lemma edge_mute : forall g x u v, edge (mute g x) u v <-> edge g u v /\ u <> x.
Proof. intros. unfold edge, mute. cbn [edges]. rewrite filter_In, negb_true_iff, String.eqb_neq. cbn [fst]. tauto. Qed.
Lemma mute_sub : forall g x u v, edge (mute g x) u v -> edge g u v.
Proof. intros g x u v E. apply edge_mute in E. tauto. Qed.
Lemma mute_dag : forall g x, wf_dag g -> wf_dag (mute g x).
Proof.
  intros g x [(N & NE & I) A]. split.
  - split; [exact N|]. split; [apply NoDup_filter; exact NE|]. intros u v E. apply mute_sub in E. apply (I u v); tauto.
  - eapply acyclic_sub; [|exact A]. apply mute_sub.
Qed.
Lemma reach_mute : forall g x b d, reach g b d -> reach (mute g x) b d \/ reach (mute g x) b x.
Proof.
  intros g x b d R. induction R as [|a b c E R IH]; [left; constructor|]. destruct (String.string_dec a x) as [->|N]; [right; constructor|].
  assert (E' : edge (mute g x) a b) by (apply edge_mute; auto). destruct IH as [IH|IH]; [left|right]; econstructor; eauto.
Qed.
(* an active path without the arrows out of x is an active backdoor path *)
Lemma mute_backdoor : forall g Z x y, wf_dag g -> x <> y -> dconn (mute g x) Z x y -> exists p, backdoor_path g Z x y p.
Proof.
  intros g Z x y W Nxy (Zx & Zy & p & (P1 & P2 & P3) & P4). assert (Ag : acyclic g) by apply W. assert (Am : acyclic (mute g x)) by apply (mute_dag g x W).
  exists p. split; [|split].
  - split; [|split; auto]. clear - P1. induction P1; constructor; auto. destruct H as [H|H]; [left|right]; eapply mute_sub; eauto.
  - intros a b c T. destruct (P4 a b c T) as [C1 C2]. destruct (triple_adj (mute g x) p a b c P1 T) as [A1 A2]. split.
    + intros H. destruct (is_collider_dec (mute g x) a b c) as [K|K].
      * destruct (C1 K) as (d & D1 & D2). exists d. split; auto. eapply reach_sub; [apply mute_sub|eauto].
      * exfalso. apply (not_collider_iff (mute g x) a b c Am A1 A2) in K. destruct H as [K1 K2]. destruct K as [K|K]; apply mute_sub in K; [exact (acyclic_edge_asym _ _ _ Ag K K1)|exact (acyclic_edge_asym _ _ _ Ag K K2)].
    + intros H. apply C2. intros [K1 K2]. apply H. split; eapply mute_sub; eauto.
  - destruct P3 as [F L]. destruct p as [|a p]; [discriminate|]. injection F as ->. destruct p as [|b p]; [cbn in L; congruence|]. exists b, p. split; auto. inversion P1 as [|? ? ? Hab _]; subst. destruct Hab as [H|H]; apply edge_mute in H; tauto.
Qed.
(* the converse: where a collider is open only through x itself, the path can be entered there from x *)
Section Backdoor.
  Variables (g : graph) (Z : list node) (x : node).
  Hypothesis W : wf_dag g.
  Hypothesis HZ : incl Z (nodes g).
  Hypothesis Hx : In x (nodes g).
  Hypothesis Zx : ~ In x Z.
  Let h := mute g x.
  Let ball (u : node) (d : direction) : Prop := clos (trail_step h Z (ancestors_of h Z)) (x, Up) (u, d).
  Lemma h_dag : wf_dag h. Proof. apply mute_dag; auto. Qed.
  Lemma backdoor_ball : forall l u, chain (adjacent g) (l ++ [u]) -> active g Z (l ++ [u]) -> NoDup (l ++ [u]) -> hd_error (l ++ [u]) = Some x -> (forall b r, l ++ [u] = x :: b :: r -> edge g b x) ->
    exists d, ball u d /\ arrives g l u d.
  Proof.
    assert (Ag : acyclic g) by apply W. assert (Wh := h_dag).
    intro l. induction l as [|y l IH] using rev_ind; intros u H1 H2 H3 H4 H5.
    - cbn in H4. injection H4 as ->. exists Up. split; [constructor|left; auto].
    - apply chain_snoc_inv in H1. destruct H1 as [H1 Hadj].
      assert (Hd : hd_error (l ++ [y]) = Some x) by (rewrite hd_error_app_l in H4; auto; destruct l; discriminate).
      destruct (IH y H1) as (dy & By & Ay); auto.
      { eapply active_app_l; eauto. }
      { apply NoDup_rev in H3. rewrite rev_app_distr in H3. inversion H3; subst. apply NoDup_rev in H7. rewrite rev_involutive in H7. exact H7. }
      { intros b r E. apply (H5 b (r ++ [u])). rewrite E. reflexivity. }
      assert (Nux : u <> x). { intros ->. destruct (l ++ [y]) as [|w k] eqn:E; [destruct l; discriminate|]. injection Hd as ->. cbn in H3. inversion H3; subst. apply H6. apply in_or_app. right; left; auto. }
      assert (Hopen : l = [] \/ exists l' p, l = l' ++ [p] /\ open_at g Z p y u).
      { destruct (list_snoc _ l) as [E|[l' [p E]]]; auto. right. exists l', p. split; auto. subst. rewrite <- !app_assoc in H2. simpl in H2. apply active_snoc in H2. apply H2. }
      destruct Hadj as [He|He].
      + exists Down. split; [|exists l, y; auto].
        assert (Nyx : y <> x). { intros ->. destruct Hopen as [->|(l' & p & -> & _)].
          - cbn in H5. exact (acyclic_edge_asym _ _ _ Ag He (H5 u [] eq_refl)).
          - destruct ((l' ++ [p])) as [|w k] eqn:E; [destruct l'; discriminate|]. injection Hd as ->. cbn in H3. rewrite <- !app_assoc in H3. inversion H3; subst. apply H6. apply in_or_app. right. left. auto. }
        eapply clos_snoc; [exact By|]. apply (stepi h Z Wh HZ). split; [apply edge_mute; auto|].
        destruct Hopen as [E|(l' & p & E & Hopen)]; [subst; cbn in Hd; congruence|]. apply Hopen. apply noncollider_child; auto.
      + exists Up. split; [|right; exists l, y; auto]. assert (He' : edge h u y) by (apply edge_mute; auto). destruct dy.
        * eapply clos_snoc; [exact By|]. apply (stepi h Z Wh HZ). split; auto. split; [|discriminate]. intros _.
          destruct Ay as [E|(l' & c & E & Hc)]; [subst; cbn in Hd; injection Hd as ->; auto|].
          destruct Hopen as [E'|(l2 & p & E2 & Hopen)]; [subst; destruct l'; discriminate|]. subst l. apply app_inj_tail in E2. destruct E2; subst. apply Hopen. apply noncollider_child_l; auto.
        * destruct Ay as (l' & c & E & Hc). destruct Hopen as [E'|(l2 & p & E2 & Hopen)]; [subst; destruct l'; discriminate|]. subst l. apply app_inj_tail in E2. destruct E2; subst.
          destruct (mem y (ancestors_of h Z)) eqn:M.
          -- apply (in_anc h Z Wh HZ) in M. eapply clos_snoc; [exact By|]. apply (stepi h Z Wh HZ). split; auto. split; [discriminate|]. auto.
          -- assert (No : ~ exists a, reach h y a /\ In a Z) by (intro K; apply (in_anc h Z Wh HZ) in K; congruence).
             destruct (proj1 Hopen (conj Hc He)) as (d & Rd & Zd). assert (Ry : reach h y x) by (destruct (reach_mute g x y d Rd) as [K|K]; [exfalso; apply No; exists d; auto|exact K]).
             assert (Bu := ball_up h Z x x Wh HZ Hx y Ry No). eapply clos_snoc; [exact Bu|]. apply (stepi h Z Wh HZ). split; auto. split; [|discriminate]. intros _ K. apply No. exists y. split; [constructor|auto].
  Qed.
  Lemma backdoor_mute : forall y p, ~ In y Z -> backdoor_path g Z x y p -> dconn h Z x y.
  Proof.
    intros y p Zy ((P1 & P2 & P3) & P4 & b & r & Ep & E). destruct (from_to_inv _ _ _ P3) as (q & E1 & E2). 
    destruct (backdoor_ball q y) as (d & B & _); try (rewrite <- E1; assumption).
    - intros b' r' E'. rewrite <- E1, Ep in E'. injection E' as <- <-. exact E.
    - exact (ball_dconn h Z x y h_dag HZ d Zx Zy B).
  Qed.
End Backdoor.

Section Plugged.
  Variable n : net. Variable x : node. Variable v : outcome.
  Hypothesis Hd : distribution n.
  Hypothesis Hx : In x (nodes (ngraph n)).
  Hypothesis Hv : In v (dom_of (doms n) x).
  Let g := ngraph n.
  (* the other variables behave as if x were v, whatever x is *)
  Definition plug (u : node) (a : asg) : Qc := if String.eqb u x then kernel n u a else kernel n u (upd a x v).
  Lemma g_dag : wf_dag g. Proof. apply Hd. Qed.
  Lemma upd_id : forall (a : asg) u, a x = v -> upd a x v u = a u.
  Proof. intros a u E. unfold upd. destruct (String.eqb_spec u x) as [->|N]; auto. Qed.
  Lemma kernel_ext : forall u a b, In u (nodes g) -> (forall w, a w = b w) -> kernel n u a = kernel n u b.
  Proof. intros u a b Hu E. apply (k_local _ _ _ (kernel_cond n Hd) u Hu). intros w _. apply E. Qed.
  Lemma plug_cond : LBayes.cond (mute g x) (ndom n) plug.
  Proof.
    assert (C := kernel_cond n Hd). assert (W := g_dag). constructor.
    - intros u Hu a b E. unfold plug. destruct (String.eqb_spec u x) as [->|N].
      + apply (k_local _ _ _ C x Hu). intros w [->|Hw]; apply E; [left; auto|]. right. apply edge_mute. split; auto. intros ->. destruct W as [_ A]. apply (A x). exists x. split; [exact Hw|constructor].
      + apply (k_local _ _ _ C u Hu). intros w Kw. unfold upd. destruct (String.eqb_spec w x) as [->|Nw]; auto. apply E. destruct Kw as [->|Kw]; [left; auto|right; apply edge_mute; auto].
    - intros u a Hu Ha. unfold plug. destruct (String.eqb_spec u x) as [->|N].
      + rewrite <- (k_normal _ _ _ C x a Hu).
        * apply qsum_perm. apply Permutation_map. rewrite ndom_in; auto.
        * intros p Hp. rewrite <- ndom_in by apply (proj2 (proj2 (proj1 W)) p x Hp). apply Ha. apply edge_mute. split; auto. intros ->. destruct W as [_ A]. apply (A x). exists x. split; [exact Hp|constructor].
      + rewrite <- (k_normal _ _ _ C u (upd a x v) Hu).
        * rewrite (qsum_ext _ (fun z => kernel n u (upd (upd a u z) x v)) (fun z => kernel n u (upd (upd a x v) u z))).
          -- apply qsum_perm. apply Permutation_map. rewrite ndom_in; auto.
          -- intros z Hz. apply kernel_ext; auto. intro w. unfold upd. destruct (String.eqb_spec w x), (String.eqb_spec w u); subst; congruence.
        * intros p Hp. unfold upd. destruct (String.eqb_spec p x) as [->|Np]; auto. rewrite <- ndom_in by apply (proj2 (proj2 (proj1 W)) p u Hp). apply Ha. apply edge_mute. auto.
    - intros u a Hu. unfold plug. destruct (String.eqb u x); apply (k_nonneg _ _ _ C); auto.
  Qed.
  Lemma plug_same : forall a, a x = v -> weight plug (nodes g) a = joint n a.
  Proof.
    intros a E. unfold weight, joint. apply qprod_ext. intros u Hu. unfold plug. destruct (String.eqb u x); auto. apply kernel_ext; auto. intro w. apply upd_id; auto.
  Qed.
  (* where x is v nothing changes *)
  Lemma plug_seen : forall c : list (node * outcome), P (mute g x) (ndom n) plug ((x, v) :: c) = do_prob n [] ((x, v) :: c).
  Proof.
    intro c. rewrite prob_total. unfold P. cbn [mute nodes]. rewrite (total_dom_perm (dom_of (doms n)) (ndom n)) by (intros w Hw; rewrite ndom_in; auto).
    apply total_ext. intro b. destruct (agrees ((x, v) :: c) b) eqn:E; [|ring]. rewrite plug_same; auto. rewrite agrees_iff in E. apply E. left; auto.
  Qed.
  (* leaving x aside, it is the network in which x is set to v *)
  Lemma plug_done : forall c : list (node * outcome), ~ In x (keys c) -> P (mute g x) (ndom n) plug c = do_prob n [(x, v)] c.
  Proof.
    intros c Nc. assert (W := g_dag). unfold P, do_prob. cbn [mute nodes]. fold g. rewrite (total_dom_perm (dom_of (doms n)) (ndom n)) by (intros w Hw; rewrite ndom_in; auto).
    destruct (in_split x (nodes g) Hx) as (l1 & l2 & El). set (l := l1 ++ l2).
    assert (Pm : Permutation (nodes g) (l ++ [x])) by (rewrite El; unfold l; rewrite <- app_assoc; apply Permutation_app_head, Permutation_cons_append).
    assert (Nl : ~ In x l) by (unfold l; apply (NoDup_remove_2 l1 l2 x); rewrite <- El; apply W).
    assert (Il : forall u, In u l -> In u (nodes g)) by (intros u Hu; apply (Permutation_in _ (Permutation_sym Pm)), in_or_app; auto).
    assert (Ag : forall b z, agrees c (upd b x z) = agrees c b). { intros b z. apply eq_true_iff_eq. rewrite !agrees_iff. split; intros K w q Hw; rewrite <- (K w q Hw); unfold upd; destruct (String.eqb_spec w x) as [->|]; auto; exfalso; apply Nc; apply (in_map fst) in Hw; auto. }
    set (rest_w := fun b : asg => qprod (map (fun u => kernel n u (upd b x v)) l)).
    rewrite (total_perm (ndom n) (nodes g) (l ++ [x]) _ _ Pm), (total_perm (ndom n) (nodes g) (l ++ [x]) (fun a => if agrees c a then do_joint n [(x, v)] a else 0) _ Pm).
    - rewrite !total_app. apply total_ext_in. intros b Wb _. cbn [total].
      transitivity ((if agrees c b then 1 else 0) * rest_w b).
      + rewrite (qsum_ext _ _ (fun z => ((if agrees c b then 1 else 0) * rest_w b) * kernel n x (upd b x z))).
        * rewrite qsum_scale. rewrite (qsum_perm _ (map (fun z => kernel n x (upd b x z)) (dom_of (doms n) x))) by (apply Permutation_map; rewrite ndom_in; auto).
          rewrite (k_normal _ _ _ (kernel_cond n Hd) x b Hx); [ring|]. intros p Hp. destruct (proj2 (proj2 (proj1 W)) p x Hp) as [Kp _]. rewrite <- ndom_in by exact Kp. apply Wb.
          assert (K := Permutation_in _ Pm Kp). apply in_app_or in K. destruct K as [K|[->|[]]]; auto. exfalso. destruct W as [_ A]. apply (A p). exists p. split; [exact Hp|constructor].
        * intros z Hz. rewrite Ag. unfold weight. rewrite (qprod_perm _ (map (fun u => plug u (upd b x z)) (l ++ [x]))) by (apply Permutation_map; exact Pm).
          rewrite map_app, qprod_app. cbn [map qprod fold_right]. unfold plug at 2. rewrite String.eqb_refl.
          assert (X : qprod (map (fun u => plug u (upd b x z)) l) = rest_w b). { unfold rest_w. apply qprod_ext. intros u Hu. unfold plug. destruct (String.eqb_spec u x) as [->|Nu]; [contradiction|]. apply kernel_ext; auto. intro w. unfold upd. destruct (String.eqb w x); auto. }
          rewrite X. ring.
      + symmetry. set (f := fun z : outcome => if agrees c (upd b x z) then do_joint n [(x, v)] (upd b x z) else 0).
        assert (Fz : forall z, f z = (if agrees c b then 1 else 0) * ((if oeqb z v then 1 else 0) * qprod (map (fun u => kernel n u (upd b x z)) l))).
        { intro z. unfold f. rewrite Ag. destruct (agrees c b); [|ring]. rewrite do_joint_weight; [|constructor; [intros []|constructor]|intros q [<-|[]]; exact Hx]. fold g. unfold weight. rewrite (qprod_perm _ (map (fun u => do_kernel n [(x, v)] u (upd b x z)) (l ++ [x]))) by (apply Permutation_map; exact Pm).
          rewrite map_app, qprod_app. cbn [map qprod fold_right]. unfold do_kernel at 2. cbn [lookup]. rewrite String.eqb_refl. unfold upd at 2. rewrite String.eqb_refl.
          assert (X : qprod (map (fun u => do_kernel n [(x, v)] u (upd b x z)) l) = qprod (map (fun u => kernel n u (upd b x z)) l)). { apply qprod_ext. intros u Hu. unfold do_kernel. cbn [lookup]. destruct (String.eqb_spec u x) as [->|Nu]; [contradiction|auto]. }
          rewrite X. ring. }
        change (qsum (map f (ndom n x)) = (if agrees c b then 1 else 0) * rest_w b).
        etransitivity; [apply (qsum_single _ Qc_eq_dec f (ndom n x) v)|].
        * apply ndom_nodup; auto.
        * rewrite ndom_in; auto.
        * intros z Hz Nz. rewrite Fz. destruct (oeqb z v) eqn:E; [apply oeqb_iff in E; contradiction|ring].
        * rewrite Fz. rewrite (proj2 (oeqb_iff v v) eq_refl). unfold rest_w. ring.
    - intros a b E. assert (X : forall w, a w = b w) by (intro w; apply E; exact I). replace (agrees c a) with (agrees c b) by (apply eq_true_iff_eq; rewrite !agrees_iff; split; intros K w q Hw; rewrite <- (K w q Hw); auto).
      destruct (agrees c b); auto. rewrite !do_joint_weight by (solve [constructor; [intros []|constructor]] || (intros q [<-|[]]; exact Hx)). unfold weight. apply qprod_ext. intros u Hu. unfold do_kernel. rewrite X. destruct (lookup u [(x, v)]); auto. apply kernel_ext; auto.
    - intros a b E. assert (X : forall w, a w = b w) by (intro w; apply E; exact I). replace (agrees c a) with (agrees c b) by (apply eq_true_iff_eq; rewrite !agrees_iff; split; intros K w q Hw; rewrite <- (K w q Hw); auto).
      f_equal. unfold weight. apply qprod_ext. intros u Hu. unfold plug. destruct (String.eqb u x); apply kernel_ext; auto. intro w. unfold upd. destruct (String.eqb w x); auto.
  Qed.
  (* what can be seen together with x = v can be seen when x is set to v *)
  Lemma seen_done : forall c : list (node * outcome), ~ In x (keys c) -> do_prob n [] ((x, v) :: c) <> 0 -> do_prob n [(x, v)] c <> 0.
  Proof.
    intros c Nc H E. apply H. assert (X1 := plug_seen c). assert (X2 := plug_done c Nc). unfold P in X1, X2.
    assert (L : do_prob n [] ((x, v) :: c) <= do_prob n [(x, v)] c).
    { refine (eq_ind _ (fun q => q <= _) (eq_ind _ (fun q => _ <= q) _ _ X2) _ X1). apply total_le. intros b Wb _. assert (Wn : 0 <= weight plug (nodes (mute g x)) b) by (apply qprod_nonneg; intros q Hq; apply in_map_iff in Hq; destruct Hq as (u & <- & Hu); apply (k_nonneg _ _ _ plug_cond); auto).
      destruct (agrees ((x, v) :: c) b) eqn:A.
      - replace (agrees c b) with true; [apply Qcle_refl|]. symmetry. rewrite agrees_iff in *. intros w q Hw. apply A. right; auto.
      - rewrite Qcmult_0_l. destruct (agrees c b); [rewrite Qcmult_1_l; auto|rewrite Qcmult_0_l; apply Qcle_refl]. }
    rewrite E in L. apply Qcle_antisym; auto. assert (X := P_nonneg (mute g x) (ndom n) plug ((x, v) :: c) plug_cond). unfold P in X. rewrite X1 in X. exact X.
  Qed.
End Plugged.
