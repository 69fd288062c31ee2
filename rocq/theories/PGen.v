(* C73: every family of conditional probabilities on a DAG is that of a network built with add_cpds. *)
From Coq Require Import String List Bool Arith QArith Qcanon Lia Permutation.
Import ListNotations.
From Verif Require Import MBase MGraph MMacid MCpd MNet MProb MQuery Spec SpecC SpecN SpecQ SpecPol SpecSane SpecGen LBase LGraph LQc LCpd LNet LSum LBayes LQuery LInter LSane LCheckN LCheck PNet PCpd PQuery PSane LBuilt LSearch.
Local Open Scope string_scope.
Local Open Scope list_scope.
Local Open Scope Qc_scope.

Definition asg_of (pv : list (node * outcome)) : asg := fun w => match lookup w pv with Some y => y | None => 0 end.
Definition fn_of (D : node -> list outcome) (K : node -> asg -> Qc) (v : node) : fn :=
  mkFn [] true (fun pv => Ok (VDist (map (fun y => (y, Some (K v (upd (asg_of pv) v y)))) (D v)))).
Definition rel_for (D : node -> list outcome) (K : node -> asg -> Qc) (ds : list node) (v : node) : rel :=
  if in_dec String.string_dec v ds then RDom (D v) else RFun (fn_of D K v).
Lemma asg_perm : forall pv pv', NoDup (map fst pv) -> Permutation pv pv' -> forall w, asg_of pv w = asg_of pv' w.
Proof.
  intros pv pv' N P w. unfold asg_of. assert (N' : NoDup (map fst pv')) by (eapply Permutation_NoDup; [apply Permutation_map; eauto|auto]).
  destruct (lookup w pv) as [y|] eqn:E.
  - apply lookup_In in E. rewrite (In_lookup _ w y pv'); auto. eapply Permutation_in; eauto.
  - destruct (lookup w pv') as [y|] eqn:E'; auto. apply lookup_In in E'. rewrite (In_lookup _ w y pv) in E; [discriminate|auto|]. eapply Permutation_in; [apply Permutation_sym|]; eauto.
Qed.
Lemma keys_fn : forall (A : Type) (f : outcome -> A) l, map fst (map (fun y => (y, f y)) l) = l.
Proof. intros. rewrite map_map. cbn [fst]. apply map_id. Qed.
Lemma rel_fine : forall g D K ds, wf_dag g -> value_lists g D -> conditionals g D K -> forall v, In v (nodes g) -> admissible v (rel_for D K ds v) /\ sane g (fun v x => In x (D v)) v (rel_for D K ds v).
Proof.
  intros g D K ds W V (K1 & K2 & K3) v Hv. destruct (V v Hv) as [Nd Ne]. assert (Self : forall p, edge g p v -> p <> v) by (intros p E ->; apply (proj2 W v); exists v; split; [auto|constructor]).
  unfold rel_for. destruct (in_dec String.string_dec v ds) as [_|_].
  - split; [split; exact I|]. split; auto.
  - split; [split; [intros pv E; discriminate|]|split; auto].
    + split; [|intros pv d E; cbn in E; injection E as <-; unfold is_dict; rewrite keys_fn; auto]. intros pv pv' N P. cbn [body fn_of]. f_equal. f_equal. apply map_ext. intro y. f_equal. f_equal. apply K1; auto; [rewrite !upd_same; auto|].
      intros p Hp. rewrite !upd_other by auto. apply asg_perm; auto.
    + intros pv E R. eexists. split; [reflexivity|]. cbn [dist_of]. rewrite keys_fn. split; [|auto]. split; [unfold is_dict; rewrite keys_fn; auto|]. split.
      * intros x p G. unfold gives in G. apply in_map_iff in G. destruct G as (y & G & _). injection G as <- <-. auto.
      * left. unfold mass. rewrite map_map. cbn [snd]. apply K3; auto. intros p Hp. apply in_parents in Hp. unfold asg_of. destruct (lookup p pv) as [y|] eqn:L; [apply R; apply lookup_In; auto|].
        exfalso. rewrite <- E in Hp. apply lookup_In_keys in Hp. destruct Hp as [y Hy]. congruence.
Qed.
(* whatever the conditional probabilities, a program that gives the variables functions (and the decisions in ds lists of
   choices) obtains, without an exception, a network with these probabilities *)
Theorem C73_relationships : forall g D K ds, wf_dag g -> value_lists g D -> conditionals g D K ->
  exists l n, (forall v r, In (v, r) l -> admissible v r) /\ add_cpds (bare g) l = (n, None) /\ built n /\ distribution n /\ ngraph n = g /\
    (forall v, In v (nodes g) -> Permutation (dom_of (doms n) v) (D v)) /\
    (forall v a, In v (nodes g) -> ~ In v ds -> within n a -> kernel n v a = K v a) /\
    (forall d, In d (nodes g) -> In d ds -> lookup d (rels n) = Some (RDom (D d))) /\
    (forall v, In v (nodes g) -> ~ In v ds -> exists f, lookup v (rels n) = Some (RFun f)).
Proof.
  intros g D K ds W V Cd. assert (Rf := rel_fine g D K ds W V Cd). set (l := map (fun v => (v, rel_for D K ds v)) (nodes g)). set (range := fun v x => In x (D v)) in *.
  assert (Hl : forall v r, In (v, r) l -> In v (nodes g) /\ r = rel_for D K ds v) by (intros v r H; apply in_map_iff in H; destruct H as (w & E & H); injection E as <- <-; auto).
  assert (Hs : forall v r, In (v, r) l -> admissible v r /\ sane g range v r) by (intros v r H; apply Hl in H; destruct H as [H ->]; apply Rf; auto).
  assert (Kl : map fst l = nodes g) by (unfold l; rewrite map_map; cbn [fst]; apply map_id).
  assert (Nl : NoDup (map fst l)) by (rewrite Kl; apply W). assert (All : forall v, In v (nodes g) -> In v (map fst l)) by (rewrite Kl; auto).
  destruct (C71_total g range l W Hs) as (n & E & B & Dr & Dn). specialize (Dn All). assert (Tb := C71_tables g range l n W Hs Nl All E).
  destruct (fine_run g range W l (bare g)) as (n' & E' & Fi & R); [apply fine_bare; auto|intros v r H; destruct (Hs v r H) as [[P _] S]; auto|]. rewrite E in E'. injection E' as <-. assert (Eg := fi_graph _ _ _ Fi).
  assert (Lr : forall v, In v (nodes g) -> lookup v (rels n) = Some (rel_for D K ds v)) by (intros v Hv; rewrite R; apply (adds_last l v _); auto; unfold l; apply (in_map (fun v => (v, rel_for D K ds v))); auto).
  assert (Rd : forall v, ready (doms n) (parents g v)). { intros v p Hp. destruct (dist_lookup n p Dn) as [L _]; [rewrite Eg; apply in_parents in Hp; apply (proj1 W) in Hp; tauto|]. rewrite L. discriminate. }
  assert (Ne : forall p, In p (nodes g) -> exists x, In x (dom_of (doms n) p)). { intros p Hp. destruct (dist_lookup n p Dn) as [L _]; [rewrite Eg; auto|]. destruct (Dr p _ L) as [X _]. destruct (dom_of (doms n) p) as [|x q]; [congruence|exists x; left; auto]. }
  assert (Tv : forall v, In v (nodes g) -> exists t, has_table n v t /\ has_domain n v (tdom t) /\ match rel_for D K ds v with RFun f => tabulates g (doms n) v f [] t | RDist d => tabulates g (doms n) v (const_fn d) [] t | RDom l => tabulates g (doms n) v (const_fn []) l t | RTab _ => False end).
  { intros v Hv. apply (Tb v). unfold l. apply (in_map (fun v => (v, rel_for D K ds v))); auto. }
  assert (Pm : forall v, In v (nodes g) -> Permutation (dom_of (doms n) v) (D v)).
  { intros v Hv. destruct (V v Hv) as [Nd Nn]. destruct (Tv v Hv) as (t & H1 & H2 & H3). unfold has_domain in H2. unfold dom_of. rewrite H2. unfold rel_for in H3. destruct (in_dec String.string_dec v ds) as [_|_].
    - destruct H3 as (_ & _ & _ & _ & H3 & _). rewrite H3 by auto. apply Permutation_refl.
    - destruct H3 as (_ & _ & H3 & _ & _ & H4 & _). apply NoDup_Permutation; auto. intro x. destruct (H4 eq_refl) as [_ H5]. rewrite H5. split.
      + intros (pv & w & _ & C & I). cbn in C. injection C as <-. cbn [dist_of] in I. rewrite keys_fn in I. auto.
      + intro Hx. destruct (some_context (doms n) (parents g v)) as (pv & C); [intros p Hp; apply Ne; apply in_parents in Hp; apply (proj1 W) in Hp; tauto|]. exists pv. eexists. split; auto. split; [reflexivity|]. cbn [dist_of]. rewrite keys_fn. auto. }
  exists l, n. split; [intros v r H; apply (Hs v r H)|]. split; auto. split; auto. split; auto. split; auto. split; auto. split.
  - intros v a Hv Nv Wa. destruct (Tv v Hv) as (t & H1 & H2 & H3). unfold rel_for in H3. destruct (in_dec String.string_dec v ds) as [|_]; [contradiction|]. unfold kernel. apply single_cpd in H1; [|apply Dn]. rewrite H1.
    assert (Ad := Rf v Hv). unfold rel_for in Ad. destruct (in_dec String.string_dec v ds) as [|_]; [contradiction|]. destruct Ad as [[_ Kf] _]. cbn in Kf.
    destruct (tabulates_entry g (doms n) v (fn_of D K v) [] t a H3 Kf H2 (Rd v)) as (w & Cw & En). { intros p Hp. apply Wa. rewrite Eg. apply in_parents in Hp. apply (proj1 W) in Hp; tauto. }
    rewrite En. cbn in Cw. injection Cw as <-. cbn [dist_of]. assert (Hin : In (a v) (tdom t)). { assert (X := Wa v). rewrite Eg in X. specialize (X Hv). unfold dom_of in X. unfold has_domain in H2. rewrite H2 in X. auto. }
    rewrite (nth_error_nth _ _ 0 (map_nth_error (complete (tdom t) (map (fun y => (y, Some (K v (upd (asg_of (ctx a (parents g v))) v y)))) (D v))) _ _ (pos_nth _ _ Hin))). destruct Cd as (K1 & _).
    assert (Hd : In (a v) (D v)). { eapply Permutation_in; [apply Pm; auto|]. unfold dom_of. unfold has_domain in H2. rewrite H2. auto. }
    rewrite (complete_given _ _ (a v) (K v (upd (asg_of (ctx a (parents g v))) v (a v)))).
    + apply K1; auto; [apply upd_same|]. intros p Hp. rewrite upd_other by (intros ->; apply (proj2 W v); exists v; split; [auto|constructor]). unfold asg_of. apply in_parents in Hp. rewrite (In_lookup _ p (a p)); auto; [unfold keys, ctx; rewrite map_map; cbn [fst]; rewrite map_id; apply nodup_parents; apply W|]. apply (in_map (fun p => (p, a p))). auto.
    + unfold is_dict. rewrite keys_fn. apply V; auto.
    + unfold gives. apply (in_map (fun y => (y, Some (K v (upd (asg_of (ctx a (parents g v))) v y))))). auto.
  - split.
    + intros d Hd1 Hd2. rewrite Lr by auto. unfold rel_for. destruct (in_dec String.string_dec d ds); [auto|contradiction].
    + intros v Hv Nv. rewrite Lr by auto. unfold rel_for. destruct (in_dec String.string_dec v ds); [contradiction|eauto].
Qed.
Print Assumptions C73_relationships.

Theorem C73 : forall g D K ds, wf_dag g -> value_lists g D -> conditionals g D K ->
  exists l n, (forall v r, In (v, r) l -> admissible v r) /\ add_cpds (bare g) l = (n, None) /\ built n /\ distribution n /\ ngraph n = g /\
    (forall v, In v (nodes g) -> Permutation (dom_of (doms n) v) (D v)) /\
    (forall v a, In v (nodes g) -> ~ In v ds -> within n a -> kernel n v a = K v a) /\
    (forall d, In d (nodes g) -> In d ds -> lookup d (rels n) = Some (RDom (D d))).
Proof.
  intros g D K ds W V Cd. destruct (C73_relationships g D K ds W V Cd) as (l & n & H1 & H2 & H3 & H4 & H5 & H6 & H7 & H8 & _). exists l, n. repeat (split; [assumption|]). assumption.
Qed.
Print Assumptions C73.
(* a chain of two binary variables with probabilities 1/3, 2/3 and a noisy copy *)
Example C73_example : exists g D K, wf_dag g /\ value_lists g D /\ conditionals g D K /\ edge g "A" "B" /\ K "B" (fun _ => 0) = Q2Qc (9 # 10) /\ D "A" = [0; 1].
Proof.
  exists (mkG ["A"; "B"] [("A", "B")]), (fun _ => [0; 1]), (fun v a => if String.eqb v "A" then (if Qc_eq_dec (a "A") 0 then Q2Qc (1 # 3) else Q2Qc (2 # 3)) else if Qc_eq_dec (a "A") (a "B") then Q2Qc (9 # 10) else Q2Qc (1 # 10)).
  split; [apply graph_ok_wf; vm_compute; reflexivity|]. split; [intros v _; split; [constructor; [intros [K|[]]; apply (Qclt_not_eq 0 1); [reflexivity|auto]|constructor; [intros []|constructor]]|discriminate]|]. split; [split; [|split]|].
  - intros v a a' [<-|[<-|[]]] E H; cbn [String.eqb Ascii.eqb Bool.eqb].
    + rewrite E. auto.
    + rewrite E, (H "A") by (left; auto). auto.
  - intros v a _. repeat match goal with |- context [if ?c then _ else _] => destruct c end; vm_compute; discriminate.
  - intros v a [<-|[<-|[]]] H; cbn [String.eqb Ascii.eqb Bool.eqb map fold_right]; unfold upd; cbn [String.eqb Ascii.eqb Bool.eqb].
    + apply Qc_is_canon. vm_compute. reflexivity.
    + destruct (H "A") as [<-|[<-|[]]]; [left; auto| |]; apply Qc_is_canon; vm_compute; reflexivity.
  - split; [left; auto|]. split; auto.
Qed.
