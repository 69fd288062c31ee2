(* Lemmas: the expected utility as a sum over the contexts of one decision; a best action in every context is a best rule. *)
From Coq Require Import String List Bool Arith QArith Qcanon Lia Permutation.
Import ListNotations.
From Verif Require Import MBase MGraph MMacid MCpd MNet MProb MQuery MPolicy Spec SpecM SpecC SpecN SpecQ SpecPol LBase LGraph LQc LCpd LNet LSum LBayes LSep LQuery LDo LInter LEffects LPolicy LValue LQcArith LSearch LLike LOptimal LOptDec.
Local Open Scope Qc_scope.

(* expected utility *)
Definition eu (n : net) (us : list node) : Qc := qsum (map (expectation n [] []) us).
(* the conditional probabilities of all variables but d *)
Definition others (n : net) (d : node) (b : asg) : Qc := qprod (map (fun v => if in_dec String.string_dec v [d] then 1 else kernel n v b) (nodes (ngraph n))).
(* the expected utility with d set to x, summed over the assignments that agree with c *)
Definition part (n : net) (us : list node) (d : node) (x : outcome) (c : list (node * outcome)) : Qc :=
  total (dom_of (doms n)) (nodes (ngraph n)) (fun b => (if agrees (c ++ [(d, x)]) b then 1 else 0) * (others n d b * qsum (map b us))) (fun _ => 0).

Lemma do_prob_others : forall n d x c, do_prob n [(d, x)] c = total (dom_of (doms n)) (nodes (ngraph n)) (fun b => (if agrees (c ++ [(d, x)]) b then 1 else 0) * others n d b) (fun _ => 0).
Proof.
  intros n d x c. unfold do_prob. apply total_ext. intro b. rewrite agrees_app. destruct (agrees c b); cbn [andb]; [|ring]. unfold do_joint. destruct (agrees [(d, x)] b); [|ring]. rewrite Qcmult_1_l. reflexivity.
Qed.
Lemma part_sum : forall n us d x c, distribution n -> incl us (nodes (ngraph n)) ->
  part n us d x c = qsum (map (fun u => qsum (map (fun y => y * do_prob n [(d, x)] ((u, y) :: c)) (dom_of (doms n) u))) us).
Proof.
  intros n us d x c Hd Iu. unfold part. rewrite (total_ext _ _ _ (fun b => qsum (map (fun u => (if agrees (c ++ [(d, x)]) b then 1 else 0) * others n d b * b u) us))).
  2:{ intro b. eapply eq_trans; [|symmetry; exact (qsum_scale _ ((if agrees (c ++ [(d, x)]) b then 1 else 0) * others n d b) b us)]. apply Qcmult_assoc. }
  rewrite total_qsum. apply qsum_ext. intros u Hu. rewrite (qsum_ext _ _ (fun y => total (dom_of (doms n)) (nodes (ngraph n)) (fun b => y * ((if agrees (((u, y) :: c) ++ [(d, x)]) b then 1 else 0) * others n d b)) (fun _ => 0))).
  2:{ intros y _. rewrite total_scale, <- do_prob_others. reflexivity. }
  rewrite <- total_qsum. apply total_ext_in. intros b Hb _. rewrite (qsum_single _ Qc_eq_dec _ _ (b u)).
  - change (agrees (((u, b u) :: c) ++ [(d, x)]) b) with (oeqb (b u) (b u) && agrees (c ++ [(d, x)]) b). replace (oeqb (b u) (b u)) with true by (symmetry; apply oeqb_iff; auto). cbn [andb]. rewrite (Qcmult_comm (b u)). reflexivity.
  - apply dom_nodup; auto.
  - apply Hb. auto.
  - intros y Hy Ne. cbn [app agrees forallb fst snd]. destruct (oeqb_spec (b u) y); [congruence|]. cbn [andb]. ring.
Qed.
Lemma part_pay : forall n us d x c, distribution n -> incl us (nodes (ngraph n)) -> do_prob n [(d, x)] c <> 0 -> part n us d x c = do_prob n [(d, x)] c * pay n us d c x.
Proof.
  intros n us d x c Hd Iu Z. rewrite part_sum by auto. unfold pay. change (fold_right Qcplus 0) with qsum. rewrite <- qsum_scale. apply qsum_ext. intros u Hu. unfold expectation. change (fold_right Qcplus 0) with qsum. rewrite <- qsum_scale. apply qsum_ext. intros y _. field. exact Z.
Qed.
Lemma do_prob_more : forall n iv c y, distribution n -> NoDup (keys iv) -> incl (keys iv) (nodes (ngraph n)) -> in_domains n iv -> do_prob n iv (y :: c) <= do_prob n iv c.
Proof.
  intros n iv c y Hd Ni Ii Di. unfold do_prob. apply total_le. intros b _ _. destruct (agrees c b) eqn:E; unfold agrees in *; cbn [forallb]; rewrite E, ?andb_false_r; [|apply Qcle_refl]. rewrite andb_true_r.
  assert (P : 0 <= do_joint n iv b). { rewrite do_joint_weight by auto. apply qprod_nonneg. intros q Hq. apply in_map_iff in Hq. destruct Hq as (v & <- & Hv). unfold do_kernel. destruct (lookup v iv); [destruct (oeqb _ _); discriminate|]. apply (k_nonneg _ _ _ (kernel_cond n Hd) v b). auto. }
  destruct (oeqb _ _); [apply Qcle_refl|exact P].
Qed.
Lemma part_zero : forall n us d x c, distribution n -> incl us (nodes (ngraph n)) -> In d (nodes (ngraph n)) -> In x (dom_of (doms n) d) -> do_prob n [(d, x)] c = 0 -> part n us d x c = 0.
Proof.
  intros n us d x c Hd Iu Hn Hx Z. destruct (dist_lookup n d Hd Hn) as [Ld _]. rewrite part_sum by auto. rewrite (qsum_ext _ _ (fun _ => 0)); [apply qsum_zero|]. intros u Hu. rewrite (qsum_ext _ _ (fun _ => 0)); [apply qsum_zero|]. intros y _.
  assert (A1 : NoDup (keys [(d, x)])) by (constructor; [intros []|constructor]). assert (A2 : incl (keys [(d, x)]) (nodes (ngraph n))) by (intros v [<-|[]]; auto).
  assert (A3 : in_domains n [(d, x)]) by (intros v z [K|[]]; injection K as <- <-; exists (dom_of (doms n) d); split; auto).
  assert (M := do_prob_more n [(d, x)] c (u, y) Hd A1 A2 A3). rewrite Z in M. assert (P : 0 <= do_prob n [(d, x)] ((u, y) :: c)).
  { rewrite do_prob_P by auto. apply P_nonneg. apply do_kernel_cond; auto. intros v z K. apply lookup_In in K. destruct (A3 v z K) as (l & Hl & Hz). unfold dom_of. rewrite Hl. auto. }
  eapply eq_trans; [exact (f_equal (Qcmult y) (Qcle_antisym _ _ M P))|]. ring.
Qed.
Lemma others_ext : forall n d, distribution n -> ext (others n d).
Proof.
  intros n d Hd. unfold others, ext. apply (qprod_on _ (fun v a => if in_dec String.string_dec v [d] then 1 else kernel n v a)). intros v Hv a b E. destruct (in_dec String.string_dec v [d]); auto. apply (k_local _ _ _ (kernel_cond n Hd) v Hv). intros; apply E; auto.
Qed.
Lemma keys_ctx : forall a ps, keys (ctx a ps) = ps.
Proof. intros. unfold keys, ctx. rewrite map_map. apply map_id. Qed.
Lemma eu_parts : forall n us d, distribution n -> incl us (nodes (ngraph n)) -> In d (nodes (ngraph n)) ->
  eu n us = total (dom_of (doms n)) (parents (ngraph n) d) (fun a => qsum (map (fun x => kernel n d (upd a d x) * part n us d x (ctx a (parents (ngraph n) d))) (dom_of (doms n) d))) (fun _ => 0).
Proof.
  intros n us d Hd Iu Hn. assert (W : wf_dag (ngraph n)) by apply Hd. assert (Ck := kernel_cond n Hd). unfold eu. rewrite expectations_sum by auto. set (D := dom_of (doms n)). set (N := nodes (ngraph n)). set (ps := parents (ngraph n) d).
  assert (Nps : NoDup ps) by (apply nodup_parents; apply W). assert (Ndp : ~ In d ps) by (intro K; apply edge_parents in K; apply (no_self_edge _ _ (proj2 W) K)). assert (NN : NoDup N) by apply W.
  assert (Ips : incl ps N) by (intros p K; apply edge_parents in K; apply W in K; tauto).
  assert (Nk : NoDup (ps ++ [d])). { apply NoDup_app'; auto; [repeat constructor; intros []|]. intros v Hv [<-|[]]. auto. }
  set (rest := filter (fun v => negb (mem v (ps ++ [d]))) N). assert (Ir : forall v, In v rest <-> In v N /\ ~ In v (ps ++ [d])) by (intro v; unfold rest; rewrite filter_In, negb_true_iff, mem_nIn; tauto).
  assert (Pm : Permutation N (ps ++ d :: rest)).
  { apply NoDup_Permutation; auto.
    - change (d :: rest) with ([d] ++ rest). rewrite app_assoc. apply NoDup_app'; [auto|apply NoDup_filter; auto|]. intros v Hv K. apply Ir in K. tauto.
    - intro v. rewrite in_app_iff. cbn [In]. rewrite Ir, in_app_iff. cbn [In]. destruct (in_dec String.string_dec v ps); [split; auto|]. destruct (String.string_dec d v) as [->|]; [split; auto|]. intuition. }
  assert (Ew : ext (fun a : asg => weight (kernel n) N a * qsum (map a us))). { intros a b E. f_equal; [apply (weight_ext (ngraph n) D (kernel n) N Ck (incl_refl _) a b E)|apply qsum_ext; intros; apply E; auto]. }
  rewrite (total_perm _ _ _ _ _ Pm Ew), total_app. apply total_ext_in. intros a Ha Hz. cbn [total]. apply qsum_ext. intros x Hx.
  rewrite (total_ext _ _ _ (fun b => kernel n d b * (others n d b * qsum (map b us)))). 2:{ intro b. unfold weight. rewrite (qprod_one (fun v => kernel n v b) d N NN Hn). unfold others. fold N. symmetry. apply Qcmult_assoc. }
  rewrite total_pull. 2:{ intros b b' E. apply (k_local _ _ _ Ck d Hn). intros u [->|K]; apply E; intro K'; apply Ir in K'; apply (proj2 K'); apply in_or_app; [right; left; auto|left; apply edge_parents; auto]. }
  f_equal. unfold part. fold D N. assert (Kc : keys (ctx a ps ++ [(d, x)]) = ps ++ [d]) by (unfold keys; rewrite map_app; change (map fst (ctx a ps)) with (keys (ctx a ps)); rewrite keys_ctx; reflexivity).
  assert (Eg : ext (fun b : asg => others n d b * qsum (map b us))) by (intros b b' E; f_equal; [apply others_ext; auto|apply qsum_ext; intros; apply E; auto]).
  rewrite (total_dom_perm D (ndom n) N) by (intros v Hv; rewrite ndom_in by auto; apply Permutation_refl).
  rewrite (collapse (ndom n) (fun v => ndom_nodup n v Hd) (ctx a ps ++ [(d, x)]) N (fun b : asg => others n d b * qsum (map b us)) (fun _ => 0)); auto.
  - rewrite Kc. fold rest. rewrite (total_dom_perm (ndom n) D rest) by (intros v Hv; apply Ir in Hv; rewrite ndom_in by tauto; apply Permutation_refl). apply total_base; auto. intros v Hv. symmetry. destruct (String.string_dec v d) as [->|Nv].
    + rewrite (given_in _ _ d x); [rewrite upd_same; auto|rewrite Kc; auto|apply in_or_app; right; left; auto].
    + rewrite upd_other by auto. destruct (in_dec String.string_dec v ps) as [I|I].
      * rewrite (given_in _ _ v (a v)); [auto|rewrite Kc; auto|]. apply in_or_app. left. unfold ctx. apply in_map_iff. exists v. auto.
      * rewrite given_other; [symmetry; apply Hz; auto|]. rewrite Kc. intro K. apply in_app_or in K. destruct K as [K|[K|[]]]; [contradiction|apply Nv; auto].
  - rewrite Kc. auto.
  - rewrite Kc. intros v K. apply in_app_or in K. destruct K as [K|[<-|[]]]; auto.
  - intros v y K. apply in_app_or in K. destruct K as [K|[K|[]]]; [|injection K as <- <-; rewrite ndom_in by auto; auto]. unfold ctx in K. apply in_map_iff in K. destruct K as (p & K & Hp). injection K as <- <-. rewrite ndom_in by (apply Ips; auto). apply Ha. auto.
Qed.
Lemma extend_within : forall n a (X : node -> Prop), (forall v, {X v} + {~ X v}) -> distribution n -> (forall v, X v -> In v (nodes (ngraph n)) -> In (a v) (dom_of (doms n) v)) -> exists a', within n a' /\ forall v, X v -> a' v = a v.
Proof.
  intros n a X dec Hd H. exists (fun v => if dec v then a v else nth 0 (dom_of (doms n) v) 0). split.
  - intros v Hv. destruct (dec v); auto. destruct (dist_lookup n v Hd Hv) as [_ Ne]. destruct (dom_of (doms n) v); [congruence|left; auto].
  - intros v K. destruct (dec v); [auto|contradiction].
Qed.
Lemma fam_dec : forall g d v, {v = d \/ edge g v d} + {~ (v = d \/ edge g v d)}.
Proof. intros g d v. destruct (String.string_dec v d) as [->|N]; [left; auto|]. destruct (in_dec String.string_dec v (parents g d)) as [I|I]; [left; right; apply edge_parents; auto|right]. intros [K|K]; [contradiction|]. apply I. apply edge_parents; auto. Qed.
(* n and n' have the same graph and domains, and the same conditional probabilities outside X *)
Record twin (X : node -> Prop) (n n' : net) : Prop := {
  t_graph : ngraph n' = ngraph n;
  t_dom : forall v, dom_of (doms n') v = dom_of (doms n) v;
  t_kernel : forall v a, In v (nodes (ngraph n)) -> ~ X v -> within n a -> kernel n' v a = kernel n v a }.
Lemma twin_sym : forall X n n', twin X n n' -> twin X n' n.
Proof. intros X n n' [G D K]. constructor; auto. intros v a Hv Nv Wa. symmetry. apply K; auto; [rewrite <- G; auto|]. intros u Hu. rewrite <- D. apply Wa. rewrite G. auto. Qed.
Lemma twin_trans : forall X n n1 n2, twin X n n1 -> twin X n1 n2 -> twin X n n2.
Proof.
  intros X n n1 n2 [G D K] [G' D' K']. constructor; [congruence|intro; rewrite D'; auto|]. intros v a Hv Nv Wa. rewrite K'; auto; [rewrite G; auto|]. intros u Hu. rewrite D. apply Wa. rewrite <- G. auto.
Qed.
Lemma twin_mono : forall (X Y : node -> Prop) n n', (forall v, X v -> Y v) -> twin X n n' -> twin Y n n'.
Proof. intros X Y n n' H [G D K]. constructor; auto. Qed.
Lemma twin_do : forall n n' d x c, twin (eq d) n n' -> do_prob n' [(d, x)] c = do_prob n [(d, x)] c.
Proof.
  intros n n' d x c [G D K]. rewrite !do_prob_others. rewrite G. rewrite (total_dom_perm (dom_of (doms n')) (dom_of (doms n))) by (intros v _; rewrite D; apply Permutation_refl).
  apply total_ext_in. intros b Hb _. f_equal. unfold others. rewrite G. apply qprod_ext. intros v Hv. destruct (in_dec String.string_dec v [d]) as [|I]; auto. apply K; auto. intros <-. apply I. left; auto.
Qed.
Lemma twin_part : forall n n' us d x c, twin (eq d) n n' -> part n' us d x c = part n us d x c.
Proof.
  intros n n' us d x c [G D K]. unfold part. rewrite G. rewrite (total_dom_perm (dom_of (doms n')) (dom_of (doms n))) by (intros v _; rewrite D; apply Permutation_refl).
  apply total_ext_in. intros b Hb _. do 2 f_equal. unfold others. rewrite G. apply qprod_ext. intros v Hv. destruct (in_dec String.string_dec v [d]) as [|I]; auto. apply K; auto. intros <-. apply I. left; auto.
Qed.
Lemma twin_pay : forall n n' us d pv x, twin (eq d) n n' -> pay n' us d pv x = pay n us d pv x.
Proof.
  intros n n' us d pv x T. unfold pay. apply qsum_ext. intros u _. unfold expectation. rewrite (t_dom _ _ _ T). f_equal. apply map_ext. intro y. rewrite !(twin_do n n' d x _ T). auto.
Qed.
(* the rule h at d *)
Definition obeys (n : net) (d : node) (h : list (node * outcome) -> outcome) : Prop :=
  forall a, within n a -> kernel n d a = if Qc_eq_dec (a d) (h (ctx a (parents (ngraph n) d))) then 1 else 0.
Lemma do_prob_parents : forall n d x pv, distribution n -> In d (nodes (ngraph n)) -> In x (dom_of (doms n) d) -> (forall v, In v (keys pv) -> edge (ngraph n) v d) -> do_prob n [(d, x)] pv = do_prob n [] pv.
Proof.
  intros n d x pv Hd Hn Hx H. assert (W : wf_dag (ngraph n)) by apply Hd. destruct (dist_lookup n d Hd Hn) as [Ld _]. apply do_prob_unaffected; auto.
  - constructor; [intros []|constructor].
  - intros v [<-|[]]. auto.
  - intros v y [J'|[]]. injection J' as <- <-. exists (dom_of (doms n) d). split; auto.
  - intros v Hv. apply H in Hv. apply W in Hv. tauto.
  - intros v w [<-|[]] Hw J'. apply H in Hw. apply (proj2 W w). exists d. auto.
Qed.
Lemma best_response : forall n n' us d h, distribution n -> distribution n' -> twin (eq d) n n' -> incl us (nodes (ngraph n)) -> In d (nodes (ngraph n)) -> choice_function n d h -> obeys n' d h ->
  (forall pv x, context_of (doms n) (parents (ngraph n) d) pv -> In x (dom_of (doms n) d) -> do_prob n [] pv <> 0 -> pay n us d pv x <= pay n us d pv (h pv)) ->
  eu n us <= eu n' us.
Proof.
  intros n n' us d h Hd Hd' T Iu Hn Ch Ob H. assert (W : wf_dag (ngraph n)) by apply Hd. assert (G := t_graph _ _ _ T). assert (Ck := kernel_cond n Hd). assert (Ck' := kernel_cond n' Hd').
  rewrite (eu_parts n us d Hd Iu Hn). rewrite (eu_parts n' us d); [|auto|rewrite G; auto|rewrite G; auto]. rewrite G. set (ps := parents (ngraph n) d). set (D := dom_of (doms n)).
  rewrite (total_dom_perm (dom_of (doms n')) D) by (intros v _; rewrite (t_dom _ _ _ T); apply Permutation_refl). apply total_le. intros a Ha _. rewrite (t_dom _ _ _ T). fold D.
  assert (Cx : context_of (doms n) ps (ctx a ps)) by (apply ctx_context; auto; apply dist_ready; auto). assert (Hh : In (h (ctx a ps)) (D d)) by (apply Ch; auto).
  assert (Ps : forall x, In x (D d) -> do_prob n [(d, x)] (ctx a ps) = do_prob n [] (ctx a ps)). { intros x Hx. apply do_prob_parents; auto. intros v Hv. rewrite keys_ctx in Hv. apply edge_parents; auto. }
  assert (Pp : 0 <= do_prob n [] (ctx a ps)). { rewrite do_prob_P; [|constructor|intros ? []]. apply P_nonneg. apply do_kernel_cond; auto. intros v x K. discriminate. }
  assert (M : forall x, In x (D d) -> part n us d x (ctx a ps) <= part n us d (h (ctx a ps)) (ctx a ps)).
  { intros x Hx. destruct (Qc_eq_dec (do_prob n [] (ctx a ps)) 0) as [Z|Z].
    - rewrite !part_zero; auto; [apply Qcle_refl|rewrite Ps; auto|rewrite Ps; auto].
    - rewrite !part_pay; auto; try (rewrite Ps; auto). rewrite !Ps by auto. rewrite !(Qcmult_comm (do_prob n [] (ctx a ps))). apply Qcmult_le_compat_r; auto. }
  assert (Kn : qsum (map (fun x => kernel n d (upd a d x)) (D d)) = 1). { apply (k_normal _ _ _ Ck d a Hn). intros p K. apply Ha. apply edge_parents; auto. }
  assert (Kh : forall x, In x (D d) -> kernel n' d (upd a d x) = if Qc_eq_dec x (h (ctx a ps)) then 1 else 0).
  { intros x Hx. destruct (extend_within n' (upd a d x) (fun v => v = d \/ edge (ngraph n) v d) (fam_dec (ngraph n) d) Hd') as (a' & Wa & Ea).
    - intros v K Hv. rewrite (t_dom _ _ _ T). destruct (String.string_dec v d) as [->|Nv]; [rewrite upd_same; auto|]. rewrite upd_other by auto. apply Ha. apply edge_parents. destruct K; [contradiction|auto].
    - rewrite (k_local _ _ _ Ck' d ltac:(rewrite G; auto) (upd a d x) a'). 2:{ intros v [->|K]; symmetry; apply Ea; [left; auto|right; rewrite <- G; auto]. }
      rewrite (Ob a' Wa), G. rewrite Ea by (left; auto). rewrite upd_same. fold ps. replace (ctx a' ps) with (ctx a ps); auto. apply map_ext_in. intros p Hp. f_equal. symmetry. apply edge_parents in Hp. rewrite Ea by (right; auto). apply upd_other. intros ->. apply (no_self_edge _ _ (proj2 W) Hp). }
  apply Qcle_trans with (qsum (map (fun x => kernel n d (upd a d x) * part n us d (h (ctx a ps)) (ctx a ps)) (D d))).
  - apply qsum_le. intros x Hx. rewrite !(Qcmult_comm (kernel n d (upd a d x))). apply Qcmult_le_compat_r; auto. apply (k_nonneg _ _ _ Ck d); auto.
  - rewrite (qsum_ext _ _ (fun x => part n us d (h (ctx a ps)) (ctx a ps) * kernel n d (upd a d x))) by (intros; apply Qcmult_comm). rewrite qsum_scale, Kn.
    rewrite (qsum_single _ Qc_eq_dec _ _ (h (ctx a ps))); [|apply dom_nodup; auto|auto|].
    + rewrite Kh by auto. destruct (Qc_eq_dec _ _); [|congruence]. rewrite (twin_part n n') by auto. rewrite Qcmult_1_r, Qcmult_1_l. apply Qcle_refl.
    + intros y Hy Ne. rewrite Kh by auto. destruct (Qc_eq_dec _ _); [congruence|]. ring.
Qed.
